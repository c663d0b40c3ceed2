(** Bounds for pi, and the addition theorem. *)
From Coq Require Import ZArith QArith Qreals Reals List Bool Lra Lia Qabs Machin Ratan.
From Coquelicot Require Import Coquelicot.
From Verif Require Import Base Vec3_Model Ylm_Model Ylm_Spec Poly_Proofs Ylm_Proofs.
Import ListNotations.
Import Vec3_Model.
Open Scope R_scope.

(** ** pi *)
Fixpoint qpow (x : Q) (n : nat) : Q := match n with O => 1%Q | S n => Qred (x * qpow x n) end.
Lemma Q2R_qpow x n : Q2R (qpow x n) = Q2R x ^ n.
Proof. induction n as [|n IH]; cbn [qpow pow]; [apply RMicromega.Q2R_1|rewrite Q2R_red, Q2R_mult, IH; reflexivity]. Qed.
Definition atq (x : Q) (n : nat) : Q := Qmult (qpow x (2 * n + 1)) (1 # Pos.of_succ_nat (2 * n)).
Definition piq (n : nat) : Q := Qred ((if Nat.even n then 1 else -1) * (2 * atq (1 # 3) n + atq (1 # 7) n))%Q.
Fixpoint sumq (n : nat) : Q := match n with O => piq 0 | S k => Qred (sumq k + piq (S k)) end.
Lemma atq_ok x n : Q2R (atq x n) = Ratan_seq (Q2R x) n.
Proof.
  unfold atq, Ratan_seq. rewrite Q2R_mult, Q2R_qpow. unfold Rdiv. f_equal. unfold Q2R. cbn [Qnum Qden]. rewrite Rmult_1_l. f_equal. rewrite INR_IZR_INZ. f_equal. lia.
Qed.
Lemma sign_even n : (-1) ^ n = if Nat.even n then 1 else -1.
Proof. induction n as [|n IH]; [reflexivity|]. rewrite Nat.even_succ, <- Nat.negb_even. cbn [pow]. rewrite IH. destruct (Nat.even n); cbn; ring. Qed.
Lemma piq_ok n : Q2R (piq n) = tg_alt PI_2_3_7_tg n.
Proof.
  unfold piq, tg_alt, PI_2_3_7_tg. rewrite Q2R_red, Q2R_mult, Q2R_plus, Q2R_mult, !atq_ok, sign_even. replace (Q2R (1 # 3)) with (/ 3) by (unfold Q2R; cbn; lra). replace (Q2R (1 # 7)) with (/ 7) by (unfold Q2R; cbn; lra).
  replace (Q2R 2) with 2 by (unfold Q2R; cbn; lra). f_equal. destruct (Nat.even n); unfold Q2R; cbn; lra.
Qed.
Lemma sumq_ok n : Q2R (sumq n) = sum_f_R0 (tg_alt PI_2_3_7_tg) n.
Proof. induction n as [|n IH]; cbn [sumq sum_f_R0]; [apply piq_ok|rewrite Q2R_red, Q2R_plus, IH, piq_ok; reflexivity]. Qed.
Lemma PI_bounds : 3141592653589793238462643 / 10 ^ 24 <= PI <= 3141592653589793238462644 / 10 ^ 24.
Proof.
  pose proof (PI_2_3_7_ineq 26) as [L U]. rewrite <- !sumq_ok in L, U.
  assert (Qle_bool (3141592653589793238462643 # 4000000000000000000000000) (sumq (S (2 * 26))) = true) as A by (vm_compute; reflexivity).
  assert (Qle_bool (sumq (2 * 26)) (3141592653589793238462644 # 4000000000000000000000000) = true) as B by (vm_compute; reflexivity).
  apply Qle_bool_iff, Qle_Rle in A, B. unfold Q2R at 1 in A. unfold Q2R at 2 in B. cbn [Qnum Qden] in A, B. lra.
Qed.
(** ** Addition theorem *)
Definition inv4pi : Q := 0.079577471545947667884441%Q.
Lemma inv4pi_ok : Rabs (1 / (4 * PI) - Q2R inv4pi) <= 1 / 10 ^ 23.
Proof.
  pose proof PI_bounds as [L U]. assert (0 < PI) as P by lra. unfold inv4pi, Q2R. cbn [Qnum Qden]. apply Rabs_le.
  assert (1 / (4 * PI) * (4 * PI) = 1) as E by (field; lra). set (w := 1 / (4 * PI)) in *. split; nra.
Qed.
Definition eP (i : nat) : expr := EV i.
Definition eQ (i : nat) : expr := EV (3 + i)%nat.
Definition dotE : expr := EAdd (EAdd (EMul (EV 0%nat) (EV 3%nat)) (EMul (EV 1%nat) (EV 4%nat))) (EMul (EV 2%nat) (EV 5%nat)).
Definition r2q : expr := subst eQ r2E.
Fixpoint legE (l : nat) : expr * expr :=
  match l with
  | O => (EC 1, dotE)
  | S l => let '(a, b) := legE l in (b, EMul (EC (1 # Pos.of_succ_nat (S l))) (ESub (EMul (EMul (EC (inject_Z (Z.of_nat (2 * l + 3)))) dotE) b) (EMul (EMul (EC (inject_Z (Z.of_nat (l + 1)))) (EMul r2E r2q)) a)))
  end.
Definition env6 (p q : vec R) : nat -> R := fun i => match i with 0%nat => c0 p | 1%nat => c1 p | 2%nat => c2 p | 3%nat => c0 q | 4%nat => c1 q | 5%nat => c2 q | _ => 0 end.
Lemma Q2R_Z z : Q2R (inject_Z z) = IZR z. Proof. unfold Q2R, inject_Z. cbn [Qnum Qden]. field. Qed.
Lemma legE_ok p q l : isUnit p -> isUnit q -> let t := c0 p * c0 q + c1 p * c1 q + c2 p * c2 q in ev (fst (legE l)) (env6 p q) = fst (legendre2 l t) /\ ev (snd (legE l)) (env6 p q) = snd (legendre2 l t).
Proof.
  intros Hp Hq t. induction l as [|l [IH1 IH2]]; [split; [apply RMicromega.Q2R_1|reflexivity]|].
  cbn [legE legendre2]. destruct (legE l) as [a b]. destruct (legendre2 l t) as [a' b']. cbn [fst snd] in *. split; [exact IH2|]. cbn [ev].
  assert (ev r2E (env6 p q) = 1) as R1 by exact Hp. assert (ev r2q (env6 p q) = 1) as R2 by (unfold r2q; rewrite subst_ok; exact Hq). assert (ev dotE (env6 p q) = t) as D by reflexivity.
  rewrite R1, R2, D, IH1, IH2, !Q2R_Z, <- !INR_IZR_INZ, !plus_INR, mult_INR. cbn [INR].
  replace (Q2R (1 # Pos.of_succ_nat (S l))) with (/ (INR l + 2)); [field; pose proof (pos_INR l); lra|].
  unfold Q2R. cbn [Qnum Qden]. rewrite Rmult_1_l. f_equal. replace (Z.pos (Pos.of_succ_nat (S l))) with (Z.of_nat (l + 2)) by lia. rewrite <- INR_IZR_INZ, plus_INR. cbn [INR]. ring.
Qed.
Definition addE (l : nat) : expr := fold_right (fun m e => EAdd (EMul (yE (Z.of_nat l) m) (subst eQ (yE (Z.of_nat l) m))) e) (EC 0) (orders l).
Lemma addE_ok l p q : (l <= 6)%nat -> ev (addE l) (env6 p q) = sumOrders l (fun m => Ylm (Z.of_nat l) m p * Ylm (Z.of_nat l) m q).
Proof.
  intros Hl. unfold addE, sumOrders, orders. set (L := seq 0 (2 * l + 1)). assert (forall k, In k L -> (k < 2 * l + 1)%nat) as B by (intros k Hk; apply in_seq in Hk; lia). clearbody L.
  induction L as [|k L IH]; cbn [map fold_right ev]; [apply RMicromega.Q2R_0|]. rewrite IH by (intros j Hj; apply B; right; exact Hj). f_equal.
  assert (supported (Z.of_nat l) (Z.of_nat k - Z.of_nat l)) as S by (pose proof (B k (or_introl eq_refl)); split; lia). pose proof (ylm_vars _ _ S) as Vr. unfold Ylm. fold (yE (Z.of_nat l) (Z.of_nat k - Z.of_nat l)). rewrite subst_ok. f_equal; apply (vars_lt 3); try exact Vr; intros [|[|[|i]]] Hi; try reflexivity; lia.
Qed.
Definition addOk (l : nat) : bool :=
  close 6 (29 # 10000000000000)%Q (addE l) (EMul (EC (inject_Z (Z.of_nat (2 * l + 1)) * inv4pi)) (fst (legE l))) && Qle_bool (pabs 6 (norm 6 (fst (legE l)))) 15000 && vars 6 (fst (legE l)).
Lemma addOk_all : forallb addOk (seq 0 7) = true. Proof. vm_cast_no_check (eq_refl true). Qed.
Lemma unit_env6 p q : isUnit p -> isUnit q -> forall i, (i < 6)%nat -> Rabs (env6 p q i) <= 1.
Proof.
  intros Hp Hq i Hi. pose proof (unit_env p Hp) as A. pose proof (unit_env q Hq) as B.
  destruct i as [|[|[|[|[|[|i]]]]]]; [apply (A 0%nat); lia|apply (A 1%nat); lia|apply (A 2%nat); lia|apply (B 0%nat); lia|apply (B 1%nat); lia|apply (B 2%nat); lia|lia].
Qed.
Lemma addition_theorem l p q : (l <= 6)%nat -> isUnit p -> isUnit q ->
  Rabs (sumOrders l (fun m => Ylm (Z.of_nat l) m p * Ylm (Z.of_nat l) m q) - (2 * INR l + 1) / (4 * PI) * legendre l (c0 p * c0 q + c1 p * c1 q + c2 p * c2 q)) <= 3 / 10 ^ 12.
Proof.
  intros Hl Hp Hq. pose proof (proj1 (forallb_forall _ _) addOk_all l ltac:(apply in_seq; lia)) as H. unfold addOk in H. apply andb_prop in H as [H V6]. apply andb_prop in H as [C B].
  pose proof (unit_env6 p q Hp Hq) as E6. pose proof (close_ok _ _ _ _ _ C E6) as K. rewrite addE_ok in K by exact Hl. cbn [ev] in K.
  destruct (legE_ok p q l Hp Hq) as [L1 _]. 
  pose proof (pabs_ok 6 (env6 p q) E6 (norm 6 (fst (legE l)))) as PB. rewrite norm_ok in PB by exact V6. rewrite L1 in K, PB. fold (legendre l (c0 p * c0 q + c1 p * c1 q + c2 p * c2 q)) in K, PB.
  apply Qle_bool_iff, Qle_Rle in B. replace (Q2R 15000) with 15000 in B by (unfold Q2R; cbn; lra).
  rewrite Q2R_mult, Q2R_Z, <- INR_IZR_INZ, plus_INR, mult_INR in K. change (INR 2) with 2 in K. change (INR 1) with 1 in K. replace (Q2R (29 # 10000000000000)) with (29 / 10 ^ 13) in K by (unfold Q2R; cbn [Qnum Qden]; lra).
  set (S := sumOrders l _) in *. set (P := legendre l _) in *. pose proof inv4pi_ok as I. set (w := 1 / (4 * PI)) in *.
  replace ((2 * INR l + 1) / (4 * PI)) with ((2 * INR l + 1) * w) by (unfold w, Rdiv; ring).
  assert (0 <= 2 * INR l + 1 <= 13) as N by (pose proof (pos_INR l); apply le_INR in Hl; cbn in Hl; lra). set (n := 2 * INR l + 1) in *.
  replace (S - n * w * P) with ((S - n * Q2R inv4pi * P) - n * ((w - Q2R inv4pi) * P)) by ring.
  eapply Rle_trans; [apply Rabs_triang|]. rewrite Rabs_Ropp, !Rabs_mult, (Rabs_pos_eq n) by lra.
  assert (Rabs (w - Q2R inv4pi) * Rabs P <= 1 / 10 ^ 23 * 15000) as M by (apply Rmult_le_compat; try apply Rabs_pos; [exact I|lra]).
  pose proof (Rabs_pos P). pose proof (Rabs_pos (w - Q2R inv4pi)). assert (n * (Rabs (w - Q2R inv4pi) * Rabs P) <= 13 * (1 / 10 ^ 23 * 15000)) as M2 by (apply Rmult_le_compat; try lra; apply Rmult_le_pos; lra). lra.
Qed.
