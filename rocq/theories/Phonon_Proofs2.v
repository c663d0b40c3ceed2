From Coq Require Import ZArith Reals List Bool Arith Lra Lia FunctionalExtensionality Permutation.
From Coquelicot Require Import Coquelicot.
From Verif Require Import Base Vec3_Model CMat MatFun_Model MatFun_Proofs2 ExCompute_Spec ExCompute_Proofs Phonon_Model Phonon_Spec Phonon_Proofs.
Import ListNotations.
Open Scope C_scope.

Lemma sumR_perm : forall A (l l' : list A) f, Permutation l l' -> sumR l f = sumR l' f.
Proof. intros A l l' f H. induction H; [reflexivity|rewrite !sumR_cons, IHPermutation; reflexivity|rewrite !sumR_cons; ring|congruence]. Qed.
Lemma sumR_inv : forall A (l : list A) (g : A -> A) f, NoDup l -> (forall x, In x l -> In (g x) l) -> (forall x, In x l -> g (g x) = x) -> sumR l (fun x => f (g x)) = sumR l f.
Proof.
  intros A l g f Hd Hi Hg. rewrite <- (sumR_map _ _ g l f). apply sumR_perm. apply NoDup_Permutation_bis.
  - clear Hi. induction l as [|x l IH]; [constructor|]. inversion Hd as [|? ? Hx Hl]; subst. cbn [map]. constructor; [|apply IH; [assumption|intros; apply Hg; right; assumption]].
    intros HH. apply in_map_iff in HH. destruct HH as [y [Hy Hyl]]. apply Hx. rewrite <- (Hg x) by (left; reflexivity). rewrite <- Hy, (Hg y) by (right; exact Hyl). exact Hyl.
  - rewrite map_length. lia.
  - intros x Hx. apply in_map_iff in Hx. destruct Hx as [y [<- Hy]]. apply Hi, Hy.
Qed.

(** ** The cells of the supercell *)
Definition posSup (s : sup3) : Prop := let '(s0, s1, s2) := s in (0 < s0)%nat /\ (0 < s1)%nat /\ (0 < s2)%nat.
Lemma nodup_prod : forall A B (l : list A) (k : list B), NoDup l -> NoDup k -> NoDup (list_prod l k).
Proof.
  intros A B l k Hl Hk. induction Hl as [|x l Hx Hl IH]; [constructor|]. cbn [list_prod].
  assert (forall (u v : list (A * B)), NoDup u -> NoDup v -> (forall z, In z u -> ~ In z v) -> NoDup (u ++ v)) as App.
  { induction u as [|z u IHu]; intros v Hu Hv Hz; [exact Hv|]. inversion Hu; subst. cbn. constructor.
    - rewrite in_app_iff. intros [W|W]; [contradiction|]. exact (Hz z (or_introl eq_refl) W).
    - apply IHu; [assumption..|]. intros; apply Hz; right; assumption. }
  apply App; [|exact IH|].
  - clear -Hk. induction Hk as [|y k Hy Hk IH]; cbn; constructor; [|exact IH]. intros W. apply in_map_iff in W. destruct W as [z [E W]]. inversion E; subst. contradiction.
  - intros z Hz W. apply in_map_iff in Hz. destruct Hz as [y [<- _]]. apply in_prod_iff in W. apply Hx, W.
Qed.
Lemma allCells_nodup : forall s, NoDup (allCells s).
Proof. intros [[s0 s1] s2]. apply nodup_prod; [apply nodup_prod|]; apply seq_NoDup. Qed.
Lemma allCells_in : forall s R, In R (allCells s) <-> inSup s R.
Proof. intros [[s0 s1] s2] [[R0 R1] R2]. cbn [allCells inSup]. rewrite !in_prod_iff, !in_seq. lia. Qed.
Lemma neg1_lt : forall n x, (x < n)%nat -> ((n - x) mod n < n)%nat.
Proof. intros. apply Nat.mod_upper_bound. lia. Qed.
Lemma neg1_inv : forall n x, (x < n)%nat -> ((n - (n - x) mod n) mod n = x)%nat.
Proof.
  intros n x H. destruct x as [|x]; [rewrite Nat.sub_0_r, Nat.mod_same, Nat.sub_0_r, Nat.mod_same by lia; reflexivity|].
  rewrite (Nat.mod_small (n - S x)) by lia. rewrite Nat.mod_small by lia. lia.
Qed.
Lemma neg_in : forall s R, inSup s R -> inSup s (negCell s R).
Proof. intros [[s0 s1] s2] [[R0 R1] R2] (A & B & D). repeat split; apply neg1_lt; assumption. Qed.
Lemma neg_inv : forall s R, inSup s R -> negCell s (negCell s R) = R.
Proof. intros [[s0 s1] s2] [[R0 R1] R2] (A & B & D). cbn [negCell]. rewrite !neg1_inv by assumption. reflexivity. Qed.
Lemma sum_neg : forall s f, sumR (allCells s) (fun R => f (negCell s R)) = sumR (allCells s) f.
Proof. intros. apply sumR_inv; [apply allCells_nodup|..]; intros R H; rewrite allCells_in in *; [apply neg_in|apply neg_inv]; assumption. Qed.

(** ** Orthogonality of the phases *)
Lemma phase_split : forall s0 s1 s2 R0 R1 R2 k0 k1 k2, phase (s0, s1, s2) (R0, R1, R2) (k0, k1, k2) =
  ccis (INR k0 * ((2 * PI) * (INR R0 / INR s0))) * ccis (INR k1 * ((2 * PI) * (INR R1 / INR s1))) * ccis (INR k2 * ((2 * PI) * (INR R2 / INR s2))).
Proof. intros. cbn [phase]. rewrite !ccis_add. reflexivity. Qed.
Lemma sumC_sep : forall s0 s1 s2 (f g h : nat -> C), sumC (allCells (s0, s1, s2)) (fun k => let '(k0, k1, k2) := k in f k0 * g k1 * h k2) = sumC (seq 0 s0) f * sumC (seq 0 s1) g * sumC (seq 0 s2) h.
Proof.
  intros. cbn [allCells]. rewrite !sumC_prod.
  transitivity (sumC (seq 0 s0) (fun x => (sumC (seq 0 s1) g * sumC (seq 0 s2) h) * f x)).
  - apply sumC_ext. intros x _. transitivity (sumC (seq 0 s1) (fun y => (f x * sumC (seq 0 s2) h) * g y)).
    + apply sumC_ext. intros y _. rewrite sumC_scal. ring.
    + rewrite sumC_scal. ring.
  - rewrite sumC_scal. ring.
Qed.
Definition sup3_dec (a b : sup3) : {a = b} + {a <> b}.
Proof. repeat decide equality. Defined.
Lemma diff_mod : forall n a b, (a < n)%nat -> (b < n)%nat -> ((Z.of_nat a - Z.of_nat b) mod Z.of_nat n =? 0)%Z = (a =? b)%nat.
Proof.
  intros n a b Ha Hb. destruct (Nat.eqb_spec a b) as [->|N]; [rewrite Z.sub_diag, Z.mod_0_l by lia; reflexivity|].
  apply Z.eqb_neq. intros E. apply Z.mod_divide in E; [|lia]. destruct E as [q Hq]. assert (q = 0 \/ 1 <= q \/ q <= -1)%Z as [-> |[L|L]] by lia; nia.
Qed.
Lemma sum_mod : forall n a b, (a < n)%nat -> (b < n)%nat -> ((- Z.of_nat a - Z.of_nat b) mod Z.of_nat n =? 0)%Z = (a =? (n - b) mod n)%nat.
Proof.
  intros n a b Ha Hb. rewrite <- (diff_mod n) by (try apply neg1_lt; assumption). rewrite Nat2Z.inj_mod, Nat2Z.inj_sub by lia.
  assert (forall x, (Z.of_nat n <> 0)%Z -> (x mod Z.of_nat n =? 0)%Z = ((- x) mod Z.of_nat n =? 0)%Z) as Op.
  { intros x Hn. apply eq_true_iff_eq. rewrite !Z.eqb_eq, !Z.mod_divide by exact Hn. rewrite Z.divide_opp_r. reflexivity. }
  rewrite Op by lia. f_equal. replace (- (- Z.of_nat a - Z.of_nat b))%Z with (Z.of_nat a + Z.of_nat b)%Z by ring.
  rewrite Zminus_mod_idemp_r. replace (Z.of_nat a - (Z.of_nat n - Z.of_nat b))%Z with (Z.of_nat a + Z.of_nat b + (-1) * Z.of_nat n)%Z by ring. rewrite Z_mod_plus_full. reflexivity.
Qed.
Lemma if_mul3 : forall (a b c : bool) (x y z : R), (if a then RtoC x else RtoC 0) * (if b then RtoC y else RtoC 0) * (if c then RtoC z else RtoC 0) = if a && b && c then RtoC (x * y * z) else RtoC 0.
Proof. intros [] [] [] *; cbn [andb]; rewrite ?RtoC_mult; ring. Qed.
Lemma phase_orth : forall s R R', posSup s -> inSup s R -> inSup s R' ->
  sumC (supCells s) (fun k => phase s R' k * Cconj (phase s R k)) = if sup3_dec R' R then RtoC (INR (prodSup s)) else RtoC 0.
Proof.
  intros [[s0 s1] s2] [[R0 R1] R2] [[r0 r1] r2] (P0 & P1 & P2) (A0 & A1 & A2) (B0 & B1 & B2). change supCells with allCells.
  transitivity (sumC (allCells (s0, s1, s2)) (fun k => let '(k0, k1, k2) := k in
    ccis (INR k0 * ((2 * PI) * (IZR (Z.of_nat r0 - Z.of_nat R0) / INR s0))) * ccis (INR k1 * ((2 * PI) * (IZR (Z.of_nat r1 - Z.of_nat R1) / INR s1))) * ccis (INR k2 * ((2 * PI) * (IZR (Z.of_nat r2 - Z.of_nat R2) / INR s2))))).
  - apply sumC_ext. intros [[k0 k1] k2] _. cbn [phase]. rewrite ccis_conj, !ccis_add. f_equal. rewrite !minus_IZR, <- !INR_IZR_INZ. unfold Rdiv. ring.
  - rewrite (sumC_sep s0 s1 s2 (fun k0 => ccis (INR k0 * ((2 * PI) * (IZR (Z.of_nat r0 - Z.of_nat R0) / INR s0)))) (fun k1 => ccis (INR k1 * ((2 * PI) * (IZR (Z.of_nat r1 - Z.of_nat R1) / INR s1)))) (fun k2 => ccis (INR k2 * ((2 * PI) * (IZR (Z.of_nat r2 - Z.of_nat R2) / INR s2))))).
    rewrite !roots_sum, !diff_mod, if_mul3 by assumption. cbn [prodSup]. rewrite !mult_INR.
    destruct (sup3_dec (r0, r1, r2) (R0, R1, R2)) as [E|E].
    + inversion E; subst. rewrite !Nat.eqb_refl. reflexivity.
    + destruct (Nat.eqb_spec r0 R0); cbn [andb]; [|reflexivity]. destruct (Nat.eqb_spec r1 R1); cbn [andb]; [|reflexivity]. destruct (Nat.eqb_spec r2 R2); cbn [andb]; [congruence|reflexivity].
Qed.
Lemma phase_orth_conj : forall s R R', posSup s -> inSup s R -> inSup s R' ->
  sumC (supCells s) (fun k => Cconj (phase s R' k) * Cconj (phase s R k)) = if sup3_dec R' (negCell s R) then RtoC (INR (prodSup s)) else RtoC 0.
Proof.
  intros [[s0 s1] s2] [[R0 R1] R2] [[r0 r1] r2] (P0 & P1 & P2) (A0 & A1 & A2) (B0 & B1 & B2). change supCells with allCells.
  transitivity (sumC (allCells (s0, s1, s2)) (fun k => let '(k0, k1, k2) := k in
    ccis (INR k0 * ((2 * PI) * (IZR (- Z.of_nat r0 - Z.of_nat R0) / INR s0))) * ccis (INR k1 * ((2 * PI) * (IZR (- Z.of_nat r1 - Z.of_nat R1) / INR s1))) * ccis (INR k2 * ((2 * PI) * (IZR (- Z.of_nat r2 - Z.of_nat R2) / INR s2))))).
  - apply sumC_ext. intros [[k0 k1] k2] _. cbn [phase]. rewrite !ccis_conj, !ccis_add. f_equal. rewrite !minus_IZR, !opp_IZR, <- !INR_IZR_INZ. unfold Rdiv. ring.
  - rewrite (sumC_sep s0 s1 s2 (fun k0 => ccis (INR k0 * ((2 * PI) * (IZR (- Z.of_nat r0 - Z.of_nat R0) / INR s0)))) (fun k1 => ccis (INR k1 * ((2 * PI) * (IZR (- Z.of_nat r1 - Z.of_nat R1) / INR s1)))) (fun k2 => ccis (INR k2 * ((2 * PI) * (IZR (- Z.of_nat r2 - Z.of_nat R2) / INR s2))))).
    rewrite !roots_sum, !sum_mod, if_mul3 by assumption. cbn [prodSup negCell]. rewrite !mult_INR.
    destruct (sup3_dec (r0, r1, r2) _) as [E|E].
    + inversion E; subst. rewrite !Nat.eqb_refl. reflexivity.
    + destruct (Nat.eqb_spec r0 ((s0 - R0) mod s0)); cbn [andb]; [|reflexivity]. destruct (Nat.eqb_spec r1 ((s1 - R1) mod s1)); cbn [andb]; [|reflexivity]. destruct (Nat.eqb_spec r2 ((s2 - R2) mod s2)); cbn [andb]; [congruence|reflexivity].
Qed.

(** ** Products with the projection on uniform displacements *)
Lemma sum3 : forall n m (c : R) f, (m < 3)%nat -> sumR (seq 0 (3 * n)) (fun k => (if (m =? k mod 3)%nat then c else 0) * f k)%R = (c * sumR (seq 0 n) (fun i => f (3 * i + m)%nat))%R.
Proof.
  intros n m c f Hm. induction n as [|n IH]; [cbn; ring|]. replace (3 * S n)%nat with (S (S (S (3 * n)))) by lia.
  rewrite !seq_S, !sumR_app, IH. cbn [Nat.add]. 
  change (sumR [(3 * n)%nat] ?g) with (g (3 * n)%nat + 0)%R. change (sumR [S (3 * n)] ?g) with (g (S (3 * n)) + 0)%R. change (sumR [S (S (3 * n))] ?g) with (g (S (S (3 * n))) + 0)%R. change (sumR [n] ?g) with (g n + 0)%R. cbv beta.
  assert ((3 * n) mod 3 = 0 /\ (S (3 * n)) mod 3 = 1 /\ (S (S (3 * n))) mod 3 = 2)%nat as (-> & -> & ->).
  { repeat split; [replace (3 * n)%nat with (0 + n * 3)%nat by lia|replace (S (3 * n)) with (1 + n * 3)%nat by lia|replace (S (S (3 * n))) with (2 + n * 3)%nat by lia]; rewrite Nat.mod_add by lia; reflexivity. }
  destruct m as [|[|[|m]]]; [..|lia]; cbn [Nat.eqb]; rewrite ?Nat.add_0_r, ?(Nat.add_comm (3 * n) 1), ?(Nat.add_comm (3 * n) 2); cbn [Nat.add]; ring.
Qed.
Lemma projL : forall n m f, sumR (seq 0 (3 * n)) (fun k => projTrans n m k * f k)%R = (1 / INR n * sumR (seq 0 n) (fun i => f (3 * i + m mod 3)%nat))%R.
Proof. intros. rewrite <- sum3 by (apply Nat.mod_upper_bound; lia). reflexivity. Qed.
Lemma projR : forall n m f, sumR (seq 0 (3 * n)) (fun k => f k * projTrans n k m)%R = (1 / INR n * sumR (seq 0 n) (fun i => f (3 * i + m mod 3)%nat))%R.
Proof. intros. rewrite <- projL. apply sumR_ext. intros k _. unfold projTrans. rewrite (Nat.eqb_sym (k mod 3)). ring. Qed.
Definition avL (n : nat) (A : nat -> nat -> R) (a j : nat) : R := (1 / INR n * sumR (seq 0 n) (fun i => A (3 * i + a)%nat j))%R.
Definition avR (n : nat) (A : nat -> nat -> R) (i b : nat) : R := (1 / INR n * sumR (seq 0 n) (fun j => A i (3 * j + b)%nat))%R.
Definition avA (n : nat) (A : nat -> nat -> R) (a b : nat) : R := avR n (avL n A) a b.
Definition shiftT (n : nat) (A : nat -> nat -> R) (i j : nat) : R := (avA n A (i mod 3) (j mod 3) - avR n A i (j mod 3) - avL n A (i mod 3) j)%R.
Lemma nmul_real : forall n A B i j, nmul n (fun i j => RtoC (A i j)) (fun i j => RtoC (B i j)) i j = RtoC (sumR (seq 0 n) (fun k => A i k * B k j)%R).
Proof. intros. unfold nmul. rewrite csumOn_sumC, <- sumC_RtoC. apply sumC_ext. intros. rewrite RtoC_mult. reflexivity. Qed.
Lemma shift_nmul : forall nA A a b, let n := (3 * nA)%nat in let p := cproj nA in let F := fun i j => RtoC (A i j) in
  (nmul n (nmul n p F) p a b - nmul n F p a b) - nmul n p F a b = RtoC (shiftT nA A a b).
Proof.
  intros. assert (nmul n p F = fun i j => RtoC (avL nA A (i mod 3)%nat j)) as E1.
  { extensionality i; extensionality j. unfold p, F, cproj. rewrite nmul_real. unfold n. rewrite (projL nA i (fun k => A k j)). reflexivity. }
  rewrite E1. unfold p, F, cproj. rewrite !nmul_real. unfold n. rewrite (projR nA b (fun k => A a k)), (projR nA b (fun k => avL nA A (a mod 3) k)). unfold shiftT, avA. rewrite !RtoC_minus. reflexivity.
Qed.
Lemma mod3 : forall i a, (a < 3)%nat -> ((3 * i + a) mod 3 = a)%nat.
Proof. intros. rewrite Nat.add_comm, Nat.mul_comm, Nat.mod_add by lia. apply Nat.mod_small. assumption. Qed.
Lemma sum_const : forall n (c : R), sumR (seq 0 n) (fun _ => c) = (INR n * c)%R.
Proof. intros n c. induction n as [|n IH]; [cbn; ring|]. rewrite seq_S, sumR_app, IH, S_INR. cbn. ring. Qed.
Lemma sum_scal_r : forall A (l : list A) c (f : A -> R), sumR l (fun x => c * f x)%R = (c * sumR l f)%R.
Proof. intros. induction l; [cbn; ring|]. rewrite !sumR_cons, IHl. ring. Qed.
Lemma sum_plus : forall A (l : list A) (f g : A -> R), sumR l (fun x => f x + g x)%R = (sumR l f + sumR l g)%R.
Proof. intros. induction l; [cbn; ring|]. rewrite !sumR_cons, IHl. ring. Qed.
Lemma sum_minus : forall A (l : list A) (f g : A -> R), sumR l (fun x => f x - g x)%R = (sumR l f - sumR l g)%R.
Proof. intros. induction l; [cbn; ring|]. rewrite !sumR_cons, IHl. ring. Qed.
Lemma sum_swap : forall A B (l : list A) (k : list B) (f : A -> B -> R), sumR l (fun x => sumR k (fun y => f x y)) = sumR k (fun y => sumR l (fun x => f x y)).
Proof. intros. induction l; [cbn; induction k; [reflexivity|rewrite sumR_cons, <- IHk; cbn; ring]|]. rewrite sumR_cons, IHl, <- sum_plus. apply sumR_ext. intros. rewrite sumR_cons. reflexivity. Qed.
Lemma avA_alt : forall n A a b, avA n A a b = avL n (avR n A) a b.
Proof. intros. unfold avA, avL, avR. f_equal. rewrite !sum_scal_r. f_equal. apply sum_swap. Qed.
(** the shift removes the average over atoms *)
Lemma shift_colsum : forall n A a j, (0 < n)%nat -> (a < 3)%nat -> sumR (seq 0 n) (fun i => A (3 * i + a)%nat j + shiftT n A (3 * i + a) j)%R = 0%R.
Proof.
  intros n A a j Hn Ha. assert (INR n <> 0%R) by (apply not_0_INR; lia). rewrite sum_plus.
  rewrite (sumR_ext _ (seq 0 n) (fun i => shiftT n A (3 * i + a) j) (fun i => avA n A a (j mod 3) - avR n A (3 * i + a) (j mod 3) - avL n A a j)%R) by (intros i _; unfold shiftT; rewrite mod3 by exact Ha; reflexivity).
  rewrite !sum_minus, !sum_const. rewrite avA_alt. unfold avL. field. assumption.
Qed.
Lemma shift_sym : forall n A i j, (forall i j, A i j = A j i) -> shiftT n A i j = shiftT n A j i.
Proof.
  intros n A i j H. unfold shiftT. assert (forall a j, avL n A a j = avR n A j a) as E by (intros; unfold avL, avR; f_equal; apply sumR_ext; intros; apply H).
  assert (forall a b, avA n A a b = avA n A b a) as E2.
  { intros. rewrite avA_alt. unfold avA. unfold avL at 1. unfold avR at 2. f_equal. apply sumR_ext. intros. rewrite E. reflexivity. }
  rewrite (E2 (i mod 3) (j mod 3))%nat, !E. ring.
Qed.
Lemma shift_0 : forall n A i j, (forall i b, (i < 3 * n)%nat -> (b < 3)%nat -> avR n A i b = 0%R) -> (forall j a, (j < 3 * n)%nat -> (a < 3)%nat -> avL n A a j = 0%R) ->
  (i < 3 * n)%nat -> (j < 3 * n)%nat -> shiftT n A i j = 0%R.
Proof.
  intros n A i j HR HL Hi Hj. unfold shiftT. rewrite HR, HL by (try assumption; apply Nat.mod_upper_bound; lia).
  assert (avA n A (i mod 3) (j mod 3) = 0%R) as ->; [|ring].
  unfold avA, avR. rewrite (sumR_ext _ _ _ (fun _ => 0%R)); [rewrite sum_const; ring|]. intros q Hq. apply in_seq in Hq. apply HL; [|apply Nat.mod_upper_bound; lia].
  pose proof (Nat.mod_upper_bound j 3). lia.
Qed.

(** ** Closed form of the symmetrization *)
Definition sumS (s : sup3) (d : forces) (j i : nat) : R := (1/2 * (sumR (allCells s) (fun R => d j R i) + sumR (allCells s) (fun R => d i R j)))%R.
Lemma phase_gamma : forall s R, phase s R (0, 0, 0)%nat = RtoC 1.
Proof. intros [[s0 s1] s2] [[R0 R1] R2]. cbn [phase]. cbn [INR]. rewrite !Rmult_0_l, !Rplus_0_l. apply ccis_0. Qed.
Lemma isGamma_dec : forall k, isGamma k = if sup3_dec k (0, 0, 0)%nat then true else false.
Proof.
  intros [[a b] c]. cbn [isGamma]. destruct (sup3_dec (a, b, c) (0, 0, 0)%nat) as [E|E]; [inversion E; reflexivity|].
  destruct (Nat.eqb_spec a 0); [|reflexivity]. destruct (Nat.eqb_spec b 0); [|reflexivity]. destruct (Nat.eqb_spec c 0); [subst; congruence|reflexivity].
Qed.
Lemma symmetrize_closed : forall nA s d i R j, posSup s -> inSup s R ->
  dgradSymmetrize nA s d i R j = (1/2 * (d i R j + d j (negCell s R) i) + 1 / INR (prodSup s) * shiftT nA (sumS s d) j i)%R.
Proof.
  intros nA s d i R j Hs HR. assert (INR (prodSup s) <> 0%R) as HP by (destruct s as [[s0 s1] s2]; destruct Hs as (?&?&?); cbn [prodSup]; apply not_0_INR; nia).
  unfold dgradSymmetrize. rewrite csumOn_sumC.
  set (H := fun k => RtoC (1/2) * (Cconj (forwardF (3*nA) s d k i j) + forwardF (3*nA) s d k j i)).
  rewrite (sumC_ext _ (supCells s) _ (fun k => H k * Cconj (phase s R k) + (if sup3_dec k (0,0,0)%nat then RtoC (shiftT nA (sumS s d) j i) else RtoC 0))).
  - rewrite sumC_add.
    rewrite (sumC_pick _ sup3_dec (supCells s) (0,0,0)%nat (fun _ => RtoC (shiftT nA (sumS s d) j i))).
    2: change supCells with allCells; apply allCells_nodup.
    2: change supCells with allCells; apply allCells_in; destruct s as [[s0 s1] s2]; destruct Hs as (?&?&?); repeat split; assumption.
    assert (sumC (supCells s) (fun k => H k * Cconj (phase s R k)) = RtoC (1/2 * INR (prodSup s) * (d i R j + d j (negCell s R) i))) as ->.
    { transitivity (RtoC (1/2) * (sumC (supCells s) (fun k => sumC (supCells s) (fun R' => RtoC (d j R' i) * (Cconj (phase s R' k) * Cconj (phase s R k)))) + sumC (supCells s) (fun k => sumC (supCells s) (fun R' => RtoC (d i R' j) * (phase s R' k * Cconj (phase s R k)))))).
      - rewrite <- sumC_add, <- sumC_scal. apply sumC_ext. intros k _. unfold H, forwardF. rewrite !csumOn_sumC, sumC_conj.
        rewrite (sumC_ext _ _ (fun R' => RtoC (d j R' i) * (Cconj (phase s R' k) * Cconj (phase s R k))) (fun R' => Cconj (phase s R k) * Cconj (RtoC (d j R' i) * phase s R' k))) by (intros; rewrite Cconj_mul, Cconj_R; ring).
        rewrite (sumC_ext _ _ (fun R' => RtoC (d i R' j) * (phase s R' k * Cconj (phase s R k))) (fun R' => Cconj (phase s R k) * (RtoC (d i R' j) * phase s R' k))) by (intros; ring).
        rewrite !sumC_scal. ring.
      - rewrite (sumC_swap _ _ (supCells s) (supCells s) (fun k R' => RtoC (d j R' i) * (Cconj (phase s R' k) * Cconj (phase s R k)))).
        rewrite (sumC_swap _ _ (supCells s) (supCells s) (fun k R' => RtoC (d i R' j) * (phase s R' k * Cconj (phase s R k)))).
        rewrite (sumC_ext _ _ (fun R' => sumC (supCells s) (fun k => RtoC (d j R' i) * (Cconj (phase s R' k) * Cconj (phase s R k)))) (fun R' => if sup3_dec R' (negCell s R) then RtoC (d j R' i) * RtoC (INR (prodSup s)) else RtoC 0)).
        2:{ intros R' HR'. change supCells with allCells in HR'. apply allCells_in in HR'. rewrite sumC_scal, phase_orth_conj by assumption. destruct (sup3_dec R' (negCell s R)); ring. }
        rewrite (sumC_ext _ _ (fun R' => sumC (supCells s) (fun k => RtoC (d i R' j) * (phase s R' k * Cconj (phase s R k)))) (fun R' => if sup3_dec R' R then RtoC (d i R' j) * RtoC (INR (prodSup s)) else RtoC 0)).
        2:{ intros R' HR'. change supCells with allCells in HR'. apply allCells_in in HR'. rewrite sumC_scal, phase_orth by assumption. destruct (sup3_dec R' R); ring. }
        change supCells with allCells.
        rewrite (sumC_pick _ sup3_dec (allCells s) (negCell s R) (fun R' => RtoC (d j R' i) * RtoC (INR (prodSup s)))) by (first [apply allCells_nodup | apply allCells_in, neg_in, HR]).
        rewrite (sumC_pick _ sup3_dec (allCells s) R (fun R' => RtoC (d i R' j) * RtoC (INR (prodSup s)))) by (first [apply allCells_nodup | apply allCells_in, HR]).
        rewrite <- !RtoC_mult, <- RtoC_plus, <- RtoC_mult. f_equal. ring. }
    rewrite <- RtoC_plus, <- RtoC_mult. change (Re (RtoC ?x)) with x. field. exact HP.
  - intros k _. unfold correctK. rewrite isGamma_dec. destruct (sup3_dec k (0,0,0)%nat) as [->|N].
    + rewrite phase_gamma, Cconj_R.
      assert ((fun a b => RtoC (1 / 2) * (Cconj (forwardF (3 * nA) s d (0, 0, 0)%nat b a) + forwardF (3 * nA) s d (0, 0, 0)%nat a b)) = (fun a b => RtoC (sumS s d a b))) as E.
      { extensionality a; extensionality b. unfold forwardF, sumS. rewrite !csumOn_sumC. change supCells with allCells.
        rewrite (sumC_ext _ _ (fun R0 => RtoC (d a R0 b) * phase s R0 (0,0,0)%nat) (fun R0 => RtoC (d a R0 b))) by (intros; rewrite phase_gamma; ring).
        rewrite (sumC_ext _ _ (fun R0 => RtoC (d b R0 a) * phase s R0 (0,0,0)%nat) (fun R0 => RtoC (d b R0 a))) by (intros; rewrite phase_gamma; ring).
        rewrite !sumC_RtoC, Cconj_R, <- RtoC_plus, <- RtoC_mult. reflexivity. }
      cbv zeta. rewrite E. rewrite shift_nmul. unfold H. pose proof (f_equal (fun g => g j i) E) as E'. cbv beta in E'. rewrite E'. ring.
    + unfold H. cbv zeta. ring.
Qed.
