From Coq Require Import ZArith Reals List Bool Arith Lra Lia FunctionalExtensionality Permutation.
From Coquelicot Require Import Coquelicot.
From Verif Require Import Base Vec3_Model CMat MatFun_Model MatFun_Proofs2 ExCompute_Spec ExCompute_Proofs Phonon_Model Phonon_Spec Phonon_Proofs Phonon_Proofs2.
Import ListNotations.
Open Scope R_scope.

Lemma prodSup_pos : forall s, posSup s -> INR (prodSup s) <> 0%R.
Proof. intros [[s0 s1] s2] (?&?&?). cbn [prodSup]. apply not_0_INR. nia. Qed.
Lemma sumS_sym : forall s d i j, sumS s d i j = sumS s d j i.
Proof. intros. unfold sumS. ring. Qed.
Lemma sumR_const : forall A (l : list A) c, sumR l (fun _ => c) = INR (length l) * c.
Proof. induction l as [|x l IH]; intros c; [cbn; ring|]. rewrite sumR_cons, IH. cbn [length]. rewrite S_INR. ring. Qed.
Lemma allCells_length : forall s, length (allCells s) = prodSup s.
Proof. intros [[s0 s1] s2]. cbn [allCells prodSup]. rewrite !prod_length, !seq_length. reflexivity. Qed.
Lemma lt3 : forall n q a, (q < n)%nat -> (a < 3)%nat -> (3 * q + a < 3 * n)%nat.
Proof. intros; lia. Qed.

Lemma symmetrize_symmetric : forall nA s d, posSup s -> symmetricForces nA s (dgradSymmetrize nA s d).
Proof.
  intros nA s d Hs i j R Hi Hj HR. rewrite !symmetrize_closed by (try assumption; apply neg_in; assumption). rewrite neg_inv by assumption.
  rewrite (shift_sym nA (sumS s d) j i) by (intros; apply sumS_sym). ring.
Qed.
Lemma symmetrize_nonet : forall nA s d, posSup s -> (0 < nA)%nat -> noNetForce nA s (dgradSymmetrize nA s d).
Proof.
  intros nA s d Hs Hn. pose proof (prodSup_pos s Hs) as HP.
  assert (forall i j, sumR (allCells s) (fun R => dgradSymmetrize nA s d i R j) = sumS s d j i + shiftT nA (sumS s d) j i) as E.
  { intros i j. rewrite (sumR_ext _ _ _ (fun R => (1/2 * d i R j + 1/2 * d j (negCell s R) i) + 1 / INR (prodSup s) * shiftT nA (sumS s d) j i)).
    2: intros R HR; apply allCells_in in HR; rewrite symmetrize_closed by assumption; ring.
    rewrite !sum_plus, sumR_const, allCells_length, !sum_scal_r. pose proof (sum_neg s (fun R => d j R i)) as N. cbv beta in N. unfold sup3 in *. rewrite N. unfold sumS. field. exact HP. }
  split.
  - intros i b Hi Hb. rewrite sum_swap. rewrite (sumR_ext _ _ _ (fun j => sumS s d (3 * j + b) i + shiftT nA (sumS s d) (3 * j + b) i)) by (intros; apply E). apply shift_colsum; assumption.
  - intros j a Hj Ha. rewrite sum_swap. rewrite (sumR_ext _ _ _ (fun i => sumS s d (3 * i + a) j + shiftT nA (sumS s d) (3 * i + a) j)); [apply shift_colsum; assumption|].
    intros i _. rewrite E, sumS_sym, shift_sym by (intros; apply sumS_sym). reflexivity.
Qed.
Lemma symmetrize_fixed : forall nA s d i R j, posSup s -> symmetricForces nA s d -> noNetForce nA s d ->
  (i < 3 * nA)%nat -> (j < 3 * nA)%nat -> inSup s R -> dgradSymmetrize nA s d i R j = d i R j.
Proof.
  intros nA s d i R j Hs Hd [N1 N2] Hi Hj HR. rewrite symmetrize_closed by assumption. rewrite <- (Hd i j R Hi Hj HR).
  assert (forall i b, (i < 3 * nA)%nat -> (b < 3)%nat -> avR nA (sumS s d) i b = 0) as ZR.
  { intros i' b Hi' Hb. unfold avR, sumS. rewrite sum_scal_r, sum_plus, (sum_swap _ _ (seq 0 nA)), N1, (sum_swap _ _ (seq 0 nA)), N2 by assumption. ring. }
  rewrite (shift_0 nA (sumS s d) j i ZR); [field; apply prodSup_pos, Hs| |exact Hj|exact Hi].
  intros j' a Hj' Ha. rewrite <- (ZR j' a Hj' Ha). unfold avL, avR. f_equal. apply sumR_ext. intros. apply sumS_sym.
Qed.

(** ** Least change *)
Lemma sum_mod3 : forall n (f : nat -> R), sumR (seq 0 (3 * n)) f = sumR (seq 0 3) (fun a => sumR (seq 0 n) (fun q => f (3 * q + a)%nat)).
Proof.
  intros n f. cbn [seq]. rewrite !sumR_cons. change (sumR [] ?g) with 0.
  induction n as [|n IH]; [cbn; ring|]. replace (3 * S n)%nat with (S (S (S (3 * n)))) by lia.
  rewrite !seq_S, !sumR_app, IH. cbn [Nat.add].
  change (sumR [(3 * n)%nat] ?g) with (g (3 * n)%nat + 0). change (sumR [S (3 * n)] ?g) with (g (S (3 * n)) + 0). change (sumR [S (S (3 * n))] ?g) with (g (S (S (3 * n))) + 0).
  change (sumR [n] ?g) with (g n + 0). cbv beta. rewrite ?Nat.add_0_r, ?(Nat.add_comm (3 * n) 1), ?(Nat.add_comm (3 * n) 2). cbn [Nat.add]. ring.
Qed.
Lemma sum_by_dir : forall n (g f : nat -> R), (forall a, (a < 3)%nat -> sumR (seq 0 n) (fun q => f (3 * q + a)%nat) = 0) -> sumR (seq 0 (3 * n)) (fun i => g (i mod 3)%nat * f i) = 0.
Proof.
  intros n g f H. rewrite sum_mod3. rewrite (sumR_ext _ _ _ (fun _ => 0)); [rewrite sum_const; ring|]. intros a Ha. apply in_seq in Ha.
  rewrite (sumR_ext _ _ _ (fun q => g a * f (3 * q + a)%nat)) by (intros; rewrite mod3 by lia; reflexivity). rewrite sum_scal_r, H by lia. ring.
Qed.
Lemma shift_orth : forall n A E, (forall i b, (i < 3 * n)%nat -> (b < 3)%nat -> sumR (seq 0 n) (fun j => E i (3 * j + b)%nat) = 0) ->
  (forall j a, (j < 3 * n)%nat -> (a < 3)%nat -> sumR (seq 0 n) (fun i => E (3 * i + a)%nat j) = 0) ->
  sumR (seq 0 (3 * n)) (fun i => sumR (seq 0 (3 * n)) (fun j => shiftT n A j i * E i j)) = 0.
Proof.
  intros n A E H1 H2. unfold shiftT.
  transitivity (sumR (seq 0 (3 * n)) (fun i => sumR (seq 0 (3 * n)) (fun j => (avA n A (j mod 3) (i mod 3) - avL n A (j mod 3) i) * E i j)) - sumR (seq 0 (3 * n)) (fun j => sumR (seq 0 (3 * n)) (fun i => avR n A j (i mod 3) * E i j))).
  - rewrite (sum_swap _ _ (seq 0 (3*n)) (seq 0 (3*n)) (fun j i => avR n A j (i mod 3) * E i j)). rewrite <- sum_minus. apply sumR_ext. intros i _. rewrite <- sum_minus. apply sumR_ext. intros j _. ring.
  - rewrite (sumR_ext _ _ _ (fun _ => 0)). 2:{ intros i Hi. apply in_seq in Hi. apply (sum_by_dir n (fun b => avA n A b (i mod 3) - avL n A b i) (fun j => E i j)). intros; apply H1; lia. }
    rewrite (sumR_ext _ _ (fun j => sumR (seq 0 (3 * n)) (fun i => avR n A j (i mod 3) * E i j)) (fun _ => 0)). 2:{ intros j Hj. apply in_seq in Hj. apply (sum_by_dir n (fun b => avR n A j b) (fun i => E i j)). intros; apply H2; lia. }
    rewrite sum_const. ring.
Qed.
Lemma symmetrize_orth : forall nA s d e, posSup s -> symmetricForces nA s e -> noNetForce nA s e ->
  forceDot nA s (fun i R j => d i R j - dgradSymmetrize nA s d i R j) e = 0.
Proof.
  intros nA s d e Hs He [N1 N2]. unfold forceDot.
  set (L := seq 0 (3 * nA)).
  transitivity ((1/2 * sumR (allCells s) (fun R => sumR L (fun i => sumR L (fun j => d i R j * e i R j))) - 1/2 * sumR (allCells s) (fun R => sumR L (fun i => sumR L (fun j => d j (negCell s R) i * e i R j)))) - 1 / INR (prodSup s) * sumR L (fun i => sumR L (fun j => shiftT nA (sumS s d) j i * sumR (allCells s) (fun R => e i R j)))).
  - rewrite (sumR_ext _ L (fun i => sumR L (fun j => shiftT nA (sumS s d) j i * sumR (allCells s) (fun R => e i R j))) (fun i => sumR (allCells s) (fun R => sumR L (fun j => shiftT nA (sumS s d) j i * e i R j)))).
    2:{ intros i _. rewrite sum_swap. apply sumR_ext. intros j _. rewrite sum_scal_r. reflexivity. }
    rewrite (sum_swap _ _ L (allCells s)). rewrite <- !sum_scal_r, <- !sum_minus. apply sumR_ext. intros R HR. apply allCells_in in HR.
    rewrite <- !sum_scal_r, <- !sum_minus. apply sumR_ext. intros i _. rewrite <- !sum_scal_r, <- !sum_minus. apply sumR_ext. intros j _. rewrite symmetrize_closed by assumption. field. apply prodSup_pos, Hs.
  - unfold L at 5 6. rewrite (shift_orth nA (sumS s d) (fun i j => sumR (allCells s) (fun R => e i R j))).
    2: intros; rewrite (sum_swap _ _ (seq 0 nA)); apply N1; assumption.
    2: intros; rewrite (sum_swap _ _ (seq 0 nA)); apply N2; assumption.
    rewrite (sumR_ext _ (allCells s) (fun R => sumR L (fun i => sumR L (fun j => d j (negCell s R) i * e i R j))) (fun R => (fun R' => sumR L (fun i => sumR L (fun j => d j R' i * e j R' i))) (negCell s R))).
    2:{ intros R HR. apply allCells_in in HR. apply sumR_ext. intros i Hi. apply sumR_ext. intros j Hj. apply in_seq in Hi, Hj. rewrite (He i j R) by (try assumption; lia). reflexivity. }
    rewrite (sum_neg s (fun R' => sumR L (fun i => sumR L (fun j => d j R' i * e j R' i)))).
    rewrite (sumR_ext _ (allCells s) (fun R => sumR L (fun i => sumR L (fun j => d j R i * e j R i))) (fun R => sumR L (fun i => sumR L (fun j => d i R j * e i R j)))) by (intros R _; apply sum_swap).
    ring.
Qed.
