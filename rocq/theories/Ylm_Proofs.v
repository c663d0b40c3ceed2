(** Homogeneity, harmonicity, products and the addition theorem, by computation on normal forms. *)
From Coq Require Import ZArith QArith Qreals Reals List Bool Lra Lia Qabs.
From Coquelicot Require Import Coquelicot.
From Verif Require Import Base Vec3_Model Ylm_Model Ylm_Spec Poly_Proofs.
Import ListNotations.
Import Vec3_Model.
Open Scope R_scope.

Definition orders (l : nat) : list Z := map (fun k => (Z.of_nat k - Z.of_nat l)%Z) (seq 0 (2 * l + 1)).
Definition allLM : list (Z * Z) := flat_map (fun l => map (fun m => (Z.of_nat l, m)) (orders l)) (seq 0 7).
Lemma in_orders l m : (- Z.of_nat l <= m <= Z.of_nat l)%Z -> In m (orders l).
Proof. intros H. apply in_map_iff. exists (Z.to_nat (m + Z.of_nat l)). split; [lia|]. apply in_seq. lia. Qed.
Lemma in_allLM l m : supported l m -> In (l, m) allLM.
Proof. intros [Hl Hm]. apply in_flat_map. exists (Z.to_nat l). split; [apply in_seq; lia|]. apply in_map_iff. exists m. rewrite Z2Nat.id by lia. split; [reflexivity|]. apply in_orders. lia. Qed.
Lemma all_lm (f : Z -> Z -> bool) : forallb (fun p => f (fst p) (snd p)) allLM = true -> forall l m, supported l m -> f l m = true.
Proof. intros H l m S. rewrite forallb_forall in H. exact (H (l, m) (in_allLM l m S)). Qed.
Definition yE (l m : Z) : expr := ylmE (l * (l + 1) + m)%Z.
Fixpoint epow (e : expr) (n : nat) : expr := match n with O => EC 1 | S n => EMul e (epow e n) end.
Lemma epow_ok e n env : ev (epow e n) env = ev e env ^ n.
Proof. induction n as [|n IH]; cbn [epow ev pow]; [apply RMicromega.Q2R_1|rewrite IH; reflexivity]. Qed.

(** homogeneity *)
Definition envQT (q : vec R) (t : R) : nat -> R := fun i => match i with 0%nat => c0 q | 1%nat => c1 q | 2%nat => c2 q | 3%nat => t | _ => 0 end.
Definition scaled (i : nat) : expr := match i with 0%nat | 1%nat | 2%nat => EMul (EV 3%nat) (EV i) | _ => EC 0 end.
Lemma vars_lt n e env env' : vars n e = true -> (forall i, (i < n)%nat -> env i = env' i) -> ev e env = ev e env'.
Proof.
  intros V H. induction e; cbn [vars] in V; cbn [ev]; rewrite ?andb_true_iff in V; try match type of V with _ /\ _ => destruct V as [V1 V2]; rewrite IHe1, IHe2 by assumption end; try reflexivity.
  - apply H. apply Nat.ltb_lt. exact V.
  - rewrite IHe by assumption. reflexivity.
Qed.
Lemma homog_check : forallb (fun p => same 4 (subst scaled (yE (fst p) (snd p))) (EMul (epow (EV 3%nat) (Z.to_nat (fst p))) (yE (fst p) (snd p))) && vars 3 (yE (fst p) (snd p))) allLM = true.
Proof. vm_compute. reflexivity. Qed.
Lemma ylm_vars l m : supported l m -> vars 3 (yE l m) = true.
Proof. intros S. pose proof (all_lm (fun l m => same 4 (subst scaled (yE l m)) (EMul (epow (EV 3%nat) (Z.to_nat l)) (yE l m)) && vars 3 (yE l m)) homog_check l m S) as H. cbv beta in H. apply andb_true_iff in H. apply H. Qed.
Lemma ylm_homogeneous : forall l m t q, supported l m -> Ylm l m (rvscale t q) = t ^ Z.to_nat l * Ylm l m q.
Proof.
  intros l m t q S. pose proof (all_lm (fun l m => same 4 (subst scaled (yE l m)) (EMul (epow (EV 3%nat) (Z.to_nat l)) (yE l m)) && vars 3 (yE l m)) homog_check l m S) as H. cbv beta in H.
  apply andb_true_iff in H. destruct H as [H Vr]. pose proof (same_ok 4 _ _ (envQT q t) H) as E. rewrite subst_ok in E. cbn [ev] in E. rewrite epow_ok in E. cbn [ev] in E. change (envQT q t 3%nat) with t in E.
  unfold Ylm. fold (yE l m). rewrite (vars_lt 3 (yE l m) (vecEnv q) (envQT q t) Vr); [|intros [|[|[|i]]] Hi; try reflexivity; lia]. rewrite <- E.
  apply (vars_lt 3); [exact Vr|]. destruct q as [a b c]. intros [|[|[|i]]] Hi; [..|lia]; cbv -[Rmult]; try reflexivity; apply Rmult_comm.
Qed.

(** Laplace equation *)
Lemma harm_check : forallb (fun p => let e := yE (fst p) (snd p) in same 3 (EAdd (EAdd (dE 0 (dE 0 e)) (dE 1 (dE 1 e))) (dE 2 (dE 2 e))) (EC 0)) allLM = true.
Proof. vm_compute. reflexivity. Qed.
Lemma derive2 v e env : is_derive_n (fun t => ev e (upd env v t)) 2 (env v) (ev (dE v (dE v e)) env).
Proof.
  assert (ev (dE v (dE v e)) env = ev (dE v (dE v e)) (upd env v (env v))) as -> by (apply ev_ext; intros; symmetry; apply upd_self).
  change (is_derive (Derive_n (fun t => ev e (upd env v t)) 1) (env v) (ev (dE v (dE v e)) (upd env v (env v)))).
  apply (is_derive_ext (fun t => ev (dE v e) (upd env v t))); [intros t; symmetry; apply is_derive_unique; apply dE_ok|apply dE_ok].
Qed.
Lemma ylm_harmonic : forall l m x y z dxx dyy dzz, supported l m ->
  is_derive_n (fun t => Ylm l m (V t y z)) 2 x dxx -> is_derive_n (fun t => Ylm l m (V x t z)) 2 y dyy -> is_derive_n (fun t => Ylm l m (V x y t)) 2 z dzz -> dxx + dyy + dzz = 0.
Proof.
  intros l m x y z dxx dyy dzz S Hx Hy Hz. pose proof (all_lm (fun l m => let e := yE l m in same 3 (EAdd (EAdd (dE 0 (dE 0 e)) (dE 1 (dE 1 e))) (dE 2 (dE 2 e))) (EC 0)) harm_check l m S) as H. cbv beta zeta in H.
  pose proof (same_ok 3 _ _ (vecEnv (V x y z)) H) as E. cbn [ev] in E. rewrite RMicromega.Q2R_0 in E.
  assert (forall v t q, (v = 0 \/ v = 1 \/ v = 2)%nat -> (forall s i, (i < 3)%nat -> vecEnv (q s) i = upd (vecEnv (V x y z)) v s i) -> t = vecEnv (V x y z) v -> forall d, is_derive_n (fun s => Ylm l m (q s)) 2 t d -> d = ev (dE v (dE v (yE l m))) (vecEnv (V x y z))) as U.
  { intros v t q _ Hq -> d Hd. apply is_derive_n_unique in Hd. rewrite <- Hd. apply is_derive_n_unique.
    apply (is_derive_n_ext (fun s => ev (yE l m) (upd (vecEnv (V x y z)) v s))); [|apply derive2]. intros s. unfold Ylm. fold (yE l m). apply (vars_lt 3); [apply ylm_vars; exact S|]. intros i Hi. symmetry. apply Hq. exact Hi. }
  rewrite (U 0%nat x (fun t => V t y z) ltac:(auto) ltac:(intros s [|[|[|i]]] Hi; try reflexivity; lia) eq_refl dxx Hx).
  rewrite (U 1%nat y (fun t => V x t z) ltac:(auto) ltac:(intros s [|[|[|i]]] Hi; try reflexivity; lia) eq_refl dyy Hy).
  rewrite (U 2%nat z (fun t => V x y t) ltac:(auto) ltac:(intros s [|[|[|i]]] Hi; try reflexivity; lia) eq_refl dzz Hz). exact E.
Qed.
Lemma ylm_smooth : forall l m x y z, supported l m -> exists dxx dyy dzz,
  is_derive_n (fun t => Ylm l m (V t y z)) 2 x dxx /\ is_derive_n (fun t => Ylm l m (V x t z)) 2 y dyy /\ is_derive_n (fun t => Ylm l m (V x y t)) 2 z dzz.
Proof.
  intros l m x y z S.
  assert (forall v q, (forall s i, (i < 3)%nat -> vecEnv (q s) i = upd (vecEnv (V x y z)) v s i) -> is_derive_n (fun s => Ylm l m (q s)) 2 (vecEnv (V x y z) v) (ev (dE v (dE v (yE l m))) (vecEnv (V x y z)))) as U.
  { intros v q Hq. apply (is_derive_n_ext (fun s => ev (yE l m) (upd (vecEnv (V x y z)) v s))); [|apply derive2]. intros s. unfold Ylm. fold (yE l m). apply (vars_lt 3); [apply ylm_vars; exact S|]. intros i Hi. symmetry. apply Hq. exact Hi. }
  do 3 eexists. split; [|split].
  - apply (U 0%nat (fun t => V t y z)). intros s [|[|[|i]]] Hi; try reflexivity; lia.
  - apply (U 1%nat (fun t => V x t z)). intros s [|[|[|i]]] Hi; try reflexivity; lia.
  - apply (U 2%nat (fun t => V x y t)). intros s [|[|[|i]]] Hi; try reflexivity; lia.
Qed.

(** bounds on unit vectors *)
Lemma unit_env q : isUnit q -> forall i, (i < 3)%nat -> Rabs (vecEnv q i) <= 1.
Proof.
  unfold isUnit. intros H i Hi. assert (forall a, a * a <= 1 -> Rabs a <= 1) as B by (intros a Ha; apply Rabs_le; nra).
  destruct i as [|[|[|i]]]; [..|lia]; cbn [vecEnv]; apply B; nra.
Qed.

(** products *)
Definition r2E : expr := EAdd (EAdd (EMul (EV 0%nat) (EV 0%nat)) (EMul (EV 1%nat) (EV 1%nat))) (EMul (EV 2%nat) (EV 2%nat)).
Lemma r2_unit q : isUnit q -> ev r2E (vecEnv q) = 1. Proof. intros H. exact H. Qed.
Definition termE (L : nat) (t : Z * Z * Q) : expr := EMul (EMul (EC (snd t)) (yE (fst (fst t)) (snd (fst t)))) (epow r2E ((L - Z.to_nat (fst (fst t))) / 2)).
Definition sumE (L : nat) (ts : list (Z * Z * Q)) : expr := fold_right (fun t e => EAdd (termE L t) e) (EC 0) ts.
Lemma sumE_unit L ts q : isUnit q -> ev (sumE L ts) (vecEnv q) = expansion (fun l m => Ylm l m q) (map (fun t => (fst t, Q2R (snd t))) ts).
Proof.
  intros U. induction ts as [|t ts IH]; cbn [sumE fold_right map expansion ev]; [apply RMicromega.Q2R_0|]. fold (sumE L ts). rewrite IH. unfold termE. cbn [ev fst snd]. rewrite epow_ok, (r2_unit q U), pow1. unfold expansion, Ylm, yE. ring.
Qed.
Definition lmOf (l : nat) : list (Z * Z) := map (fun m => (Z.of_nat l, m)) (orders l).
Definition low : list (Z * Z) := flat_map lmOf (seq 0 4).
Definition prodOk (p : (Z * Z) * (Z * Z)) : bool :=
  let '((l1, m1), (l2, m2)) := p in
  let ts := expandYlmProd_lm l1 m1 l2 m2 in
  close 3 (2 # 1000000000000000)%Q (EMul (yE l1 m1) (yE l2 m2)) (sumE (Z.to_nat (l1 + l2)) ts) &&
  forallb (fun t => (0 <=? fst (fst t))%Z && (fst (fst t) <=? 6)%Z && (- fst (fst t) <=? snd (fst t))%Z && (snd (fst t) <=? fst (fst t))%Z && (fst (fst t) <=? l1 + l2)%Z && (Z.abs (l1 - l2) <=? fst (fst t))%Z && negb (Qeq_bool (snd t) 0)) ts.
Definition below (p : (Z * Z) * (Z * Z)) : bool := let '((l1, m1), (l2, m2)) := p in (l1 * (l1 + 1) + m1 <? l2 * (l2 + 1) + m2)%Z.
Lemma prod_check : forallb (fun p => below p || prodOk p) (list_prod low low) = true.
Proof. vm_cast_no_check (eq_refl true). Qed.
Lemma in_low l m : (0 <= l <= 3 -> - l <= m <= l -> In (l, m) low)%Z.
Proof. intros Hl Hm. apply in_flat_map. exists (Z.to_nat l). split; [apply in_seq; lia|]. apply in_map_iff. exists m. rewrite Z2Nat.id by lia. split; [reflexivity|]. apply in_orders. lia. Qed.
Lemma prod_ok l1 m1 l2 m2 : (0 <= l1 <= 3)%Z -> (- l1 <= m1 <= l1)%Z -> (0 <= l2 <= 3)%Z -> (- l2 <= m2 <= l2)%Z -> (l2 * (l2 + 1) + m2 <= l1 * (l1 + 1) + m1)%Z -> prodOk ((l1, m1), (l2, m2)) = true.
Proof. intros A B C D E. pose proof prod_check as H. rewrite forallb_forall in H. specialize (H ((l1, m1), (l2, m2)) (in_prod _ _ _ _ (in_low _ _ A B) (in_low _ _ C D))). apply orb_true_iff in H as [H|H]; [|exact H]. unfold below in H. apply Z.ltb_lt in H. lia. Qed.
Lemma product_symmetric : forall lm1 lm2, expandYlmProd lm1 lm2 = expandYlmProd lm2 lm1.
Proof.
  intros a b. unfold expandYlmProd. rewrite !Z.gtb_ltb. destruct (Z.ltb_spec a b), (Z.ltb_spec b a); try lia; try reflexivity. assert (a = b) as -> by lia. reflexivity.
Qed.
Lemma product_swap l1 m1 l2 m2 : expandYlmProd_lm l1 m1 l2 m2 = expandYlmProd_lm l2 m2 l1 m1. Proof. apply product_symmetric. Qed.
Lemma product_value : forall l1 m1 l2 m2 q, (0 <= l1 <= 3)%Z -> (- l1 <= m1 <= l1)%Z -> (0 <= l2 <= 3)%Z -> (- l2 <= m2 <= l2)%Z -> isUnit q ->
  Rabs (Ylm l1 m1 q * Ylm l2 m2 q - expansion (fun l m => Ylm l m q) (map (fun t => (fst t, Q2R (snd t))) (expandYlmProd_lm l1 m1 l2 m2))) <= 2 / 10 ^ 15.
Proof.
  enough (forall l1 m1 l2 m2 q, (0 <= l1 <= 3)%Z -> (- l1 <= m1 <= l1)%Z -> (0 <= l2 <= 3)%Z -> (- l2 <= m2 <= l2)%Z -> isUnit q -> (l2 * (l2 + 1) + m2 <= l1 * (l1 + 1) + m1)%Z ->
    Rabs (Ylm l1 m1 q * Ylm l2 m2 q - expansion (fun l m => Ylm l m q) (map (fun t => (fst t, Q2R (snd t))) (expandYlmProd_lm l1 m1 l2 m2))) <= 2 / 10 ^ 15) as W.
  { intros l1 m1 l2 m2 q A B C D U. destruct (Z.le_gt_cases (l2 * (l2 + 1) + m2) (l1 * (l1 + 1) + m1)) as [E|E]; [apply W; assumption|]. rewrite product_swap, (Rmult_comm (Ylm l1 m1 q)). apply W; try assumption. lia. }
  intros l1 m1 l2 m2 q A B C D U E0. pose proof (prod_ok l1 m1 l2 m2 A B C D E0) as H. unfold prodOk in H. cbv zeta in H. apply andb_true_iff in H. destruct H as [H _].
  pose proof (close_ok 3 _ _ _ (vecEnv q) H (unit_env q U)) as E. rewrite (sumE_unit _ _ q U) in E. cbn [ev] in E. eapply Rle_trans; [exact E|]. unfold Q2R. cbn [Qnum Qden]. right. field.
Qed.
Lemma product_terms : forall l1 m1 l2 m2 l m c, (0 <= l1 <= 3)%Z -> (- l1 <= m1 <= l1)%Z -> (0 <= l2 <= 3)%Z -> (- l2 <= m2 <= l2)%Z -> In (l, m, c) (expandYlmProd_lm l1 m1 l2 m2) ->
  supported l m /\ (Z.abs (l1 - l2) <= l <= l1 + l2)%Z /\ Q2R c <> 0.
Proof.
  enough (forall l1 m1 l2 m2 l m c, (0 <= l1 <= 3)%Z -> (- l1 <= m1 <= l1)%Z -> (0 <= l2 <= 3)%Z -> (- l2 <= m2 <= l2)%Z -> In (l, m, c) (expandYlmProd_lm l1 m1 l2 m2) -> (l2 * (l2 + 1) + m2 <= l1 * (l1 + 1) + m1)%Z ->
    supported l m /\ (Z.abs (l1 - l2) <= l <= l1 + l2)%Z /\ Q2R c <> 0) as W.
  { intros l1 m1 l2 m2 l m c A B C D Ht. destruct (Z.le_gt_cases (l2 * (l2 + 1) + m2) (l1 * (l1 + 1) + m1)) as [E|E]; [exact (W l1 m1 l2 m2 l m c A B C D Ht E)|]. rewrite product_swap in Ht. destruct (W l2 m2 l1 m1 l m c C D A B Ht ltac:(lia)) as [S [T N]]. split; [exact S|]. split; [lia|exact N]. }
  intros l1 m1 l2 m2 l m c A B C D Ht E0. pose proof (prod_ok l1 m1 l2 m2 A B C D E0) as H. unfold prodOk in H. cbv zeta in H. apply andb_true_iff in H. destruct H as [_ H]. rewrite forallb_forall in H. specialize (H _ Ht). cbn [fst snd] in H.
  rewrite !andb_true_iff, !Z.leb_le, negb_true_iff in H. destruct H as [[[[[[H1 H2] H3] H4] H5] H6] H7]. split; [split; lia|]. split; [lia|]. intros E. apply Qeq_bool_neq in H7. apply H7. apply eqR_Qeq. rewrite E. symmetry. apply RMicromega.Q2R_0.
Qed.
