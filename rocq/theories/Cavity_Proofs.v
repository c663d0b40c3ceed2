(** Cavity shape functions: proofs for ShapeFunction, SGA13 and SCCS. *)
From Coq Require Import ZArith Reals List Bool Lia Lra Psatz.
From Coquelicot Require Import Coquelicot.
From Verif Require Import Base Vec3_Model Vec3_Facts Gauss Smear_Proofs Spline_Proofs Lattice_Model Cavity_Model.
Import ListNotations.
Open Scope R_scope.

Lemma half_is : 0.5 = / 2. Proof. lra. Qed.
Lemma sqrth : sqrt 0.5 = / sqrt 2. Proof. rewrite half_is. rewrite sqrt_inv. reflexivity. Qed.
Lemma s2_pos : 0 < sqrt 2. Proof. apply sqrt_lt_R0; lra. Qed.

(** ** ShapeFunction *)
Lemma shape_range nc sigma n : 0 < nc -> 0 < sigma -> 0 < shape_calc nc sigma n <= 1 /\ (n <> 0 -> shape_calc nc sigma n < 1).
Proof.
  intros Hn Hs. unfold shape_calc. destruct (Req_EM_T n 0) as [->|N]; [lra|].
  match goal with |- context[erfc ?a] => pose proof (erfc_bounds a) end. lra.
Qed.
Lemma shape_decr nc sigma a b : 0 < nc -> 0 < sigma -> 0 <= a < b -> shape_calc nc sigma b < shape_calc nc sigma a.
Proof.
  intros Hn Hs H. unfold shape_calc. destruct (Req_EM_T b 0) as [->|B]; [lra|]. destruct (Req_EM_T a 0) as [->|A].
  - match goal with |- context[erfc ?a] => pose proof (erfc_bounds a) end. lra.
  - assert (erfc (sqrt 0.5 * ln (Rabs b / nc) / sigma) < erfc (sqrt 0.5 * ln (Rabs a / nc) / sigma)); [|lra].
    apply erfc_decr. rewrite !Rabs_pos_eq by lra. apply Rmult_lt_compat_r; [apply Rinv_0_lt_compat; lra|].
    apply Rmult_lt_compat_l; [apply sqrt_lt_R0; lra|]. apply ln_increasing; [apply Rdiv_lt_0_compat; lra|].
    apply Rmult_lt_compat_r; [apply Rinv_0_lt_compat; lra|]. lra.
Qed.
Lemma shape_even nc sigma n : shape_calc nc sigma (- n) = shape_calc nc sigma n.
Proof. unfold shape_calc. rewrite Rabs_Ropp. destruct (Req_EM_T (-n) 0), (Req_EM_T n 0); try reflexivity; exfalso; lra. Qed.

Lemma shape_derive nc sigma n : 0 < nc -> 0 < sigma -> 0 < n ->
  is_derive (shape_calc nc sigma) n (shape_grad_calc nc sigma n 1 0).
Proof.
  intros Hn Hs H.
  assert (S2 := s2_pos). assert (SP := sqrtPI_pos).
  apply (is_derive_ext_loc (fun n : R => erfc (sqrt 0.5 * ln (n / nc) / sigma) * 0.5)).
  - apply (filter_imp (fun y => 0 < y < n + 1)); [|apply near; lra].
    intros y Hy. unfold shape_calc. destruct (Req_EM_T y 0); [lra|]. rewrite Rabs_pos_eq by lra. reflexivity.
  - unfold shape_grad_calc. destruct (Req_EM_T n 0); [lra|]. rewrite Rabs_pos_eq by lra.
    assert (L : is_derive (fun n : R => sqrt 0.5 * ln (n / nc) / sigma) n (sqrt 0.5 / sigma / n)).
    { assert (0 < n / nc) by (apply Rdiv_lt_0_compat; lra). auto_derive; [auto|]. field. repeat split; lra. }
    evar_last.
    + apply (is_derive_ext (fun n : R => 0.5 * erfc (sqrt 0.5 * ln (n / nc) / sigma))).
      { intros t. apply Rmult_comm. }
      apply is_derive_scal. apply is_derive_erfc_comp. exact L.
    + rewrite sqrth, half_is, sqrt2PI. unfold gauss.
      replace (exp (/ 2 * (sigma ^ 2 - (ln (n / nc) / sigma + sigma) ^ 2)))
        with (exp (- (/ sqrt 2 * ln (n / nc) / sigma * (/ sqrt 2 * ln (n / nc) / sigma))) * (nc / n)).
      * field. repeat split; lra.
      * replace (nc / n) with (exp (- ln (n / nc))).
        2:{ rewrite exp_Ropp, exp_ln by (apply Rdiv_lt_0_compat; lra). field. lra. }
        rewrite <- exp_plus. f_equal. generalize (ln (n / nc)). intros l.
        replace (/ sqrt 2 * l / sigma * (/ sqrt 2 * l / sigma)) with (/ (sqrt 2 * sqrt 2) * (l / sigma) * (l / sigma)) by (field; lra).
        rewrite sqrt2_sq. field. lra.
Qed.
Lemma shape_grad_acc nc sigma n g a : shape_grad_calc nc sigma n g a = a + g * shape_grad_calc nc sigma n 1 0.
Proof. unfold shape_grad_calc. destruct (Req_EM_T n 0); ring. Qed.
Lemma shape_grad_neg nc sigma n : 0 < nc -> 0 < sigma -> 0 < n -> shape_grad_calc nc sigma n 1 0 < 0.
Proof.
  intros Hn Hs H. unfold shape_grad_calc. destruct (Req_EM_T n 0); [lra|].
  assert (0 < / (nc * sigma * sqrt (2 * PI))).
  { apply Rinv_0_lt_compat. apply Rmult_lt_0_compat; [nra|]. apply sqrt_lt_R0. pose proof PI_RGT_0. lra. }
  match goal with |- context[exp ?a] => pose proof (exp_pos a); set (E := exp a) in * end.
  assert (0 < / (nc * sigma * sqrt (2 * PI)) * E) by nra. unfold Rdiv. lra.
Qed.
(** at negative densities the sign is wrong *)
Lemma shape_negative : exists nc sigma n, 0 < nc /\ 0 < sigma /\ ~ is_derive (shape_calc nc sigma) n (shape_grad_calc nc sigma n 1 0).
Proof.
  exists 1, 1, (-1). split; [lra|]. split; [lra|]. intros D.
  assert (D1 := shape_derive 1 1 1 Rlt_0_1 Rlt_0_1 Rlt_0_1).
  assert (D2 : is_derive (shape_calc 1 1) (-1) (- shape_grad_calc 1 1 1 1 0)).
  { apply (is_derive_ext (fun n => shape_calc 1 1 (- n))); [intros t; apply shape_even|].
    evar_last. apply (is_derive_comp (shape_calc 1 1) Ropp). replace (- -1) with 1 by lra. exact D1.
    apply (is_derive_opp (K := R_AbsRing) (V := R_NormedModule) (fun x : R => x)). apply (is_derive_id (K := R_AbsRing)).
    unfold scal, opp, one. cbn. unfold mult. cbn. ring. }
  pose proof (is_derive_unique _ _ _ D) as U1. pose proof (is_derive_unique _ _ _ D2) as U2. rewrite U1 in U2.
  assert (E : shape_grad_calc 1 1 (-1) 1 0 = shape_grad_calc 1 1 1 1 0).
  { unfold shape_grad_calc. destruct (Req_EM_T (-1) 0); [lra|]. destruct (Req_EM_T 1 0); [lra|].
    replace (Rabs (-1)) with (Rabs 1) by (rewrite (Rabs_left (-1)), (Rabs_right 1) by lra; lra). reflexivity. }
  pose proof (shape_grad_neg 1 1 1 Rlt_0_1 Rlt_0_1 Rlt_0_1). lra.
Qed.

(** ** SGA13 *)
Lemma expand_derive alpha n D2 : / 10 ^ 9 < n ->
  is_derive (fun n : R => fst (fst (expandDensity_calc alpha n D2))) n (snd (fst (expandDensity_calc alpha n D2))) /\
  is_derive (fun D2 : R => fst (fst (expandDensity_calc alpha n D2))) D2 (snd (expandDensity_calc alpha n D2)).
Proof.
  intros H. assert (P : 0 < / 10 ^ 9) by (apply Rinv_0_lt_compat, pow_lt; lra).
  unfold expandDensity_calc. destruct (Rlt_dec n (/ 10 ^ 9)); [lra|]. cbn [fst snd]. split.
  - apply (is_derive_ext_loc (fun n : R => alpha * n + D2 * (1 / n))).
    + apply (filter_imp (fun y => / 10 ^ 9 < y < n + 1)); [|apply near; lra].
      intros y Hy. destruct (Rlt_dec y (/ 10 ^ 9)); [lra|]. reflexivity.
    + auto_derive; [lra|]. field. lra.
  - auto_derive; auto. field. lra.
Qed.
Lemma expand_pos alpha n D2 : 0 < alpha -> 0 <= D2 -> 0 < fst (fst (expandDensity_calc alpha n D2)).
Proof.
  intros Ha HD. assert (P : 0 < / 10 ^ 9) by (apply Rinv_0_lt_compat, pow_lt; lra).
  unfold expandDensity_calc. destruct (Rlt_dec n (/ 10 ^ 9)); cbn [fst snd]; [lra|].
  assert (0 < 1 / n) by (apply Rdiv_lt_0_compat; lra). assert (0 < alpha * n) by nra. nra.
Qed.

(** ** SCCS *)
Section SCCS.
  Variables rhoMin rhoMax eps : R.
  Hypothesis Hmin : 0 < rhoMin.
  Hypothesis Hmax : rhoMin < rhoMax.
  Hypothesis Heps : 1 < eps.
  Let ld := ln (rhoMax / rhoMin).
  Lemma ld_pos : 0 < ld.
  Proof. unfold ld. rewrite <- ln_1. apply ln_increasing; [lra|]. apply (Rmult_lt_reg_r rhoMin); [lra|]. unfold Rdiv. rewrite Rmult_assoc, Rinv_l by lra. lra. Qed.
  Lemma f_derive rho : 0 < rho -> is_derive (sccs_f rhoMin rhoMax) rho (-1 / (rho * ld)).
  Proof.
    intros H. pose proof ld_pos. unfold sccs_f. fold ld.
    assert (0 < rhoMax / rho) by (apply Rdiv_lt_0_compat; lra).
    auto_derive; [repeat split; try lra; auto|]. field. repeat split; lra.
  Qed.
  Lemma t_derive f : is_derive sccs_t f (1 - cos (2 * PI * f)).
  Proof. unfold sccs_t. pose proof PI_RGT_0. auto_derive; [auto|]. field. lra. Qed.
  Lemma t_mono a b : a <= b -> sccs_t a <= sccs_t b.
  Proof.
    intros H. destruct (Req_dec a b) as [->|N]; [lra|].
    destruct (MVT_gen sccs_t a b (fun x => 1 - cos (2 * PI * x))) as (c & _ & E).
    - intros x _. apply t_derive.
    - intros x _. apply derivable_continuous_pt. apply ex_derive_Reals_0. eexists. apply t_derive.
    - pose proof (COS_bound (2 * PI * c)). nra.
  Qed.
  Lemma t_0 : sccs_t 0 = 0. Proof. unfold sccs_t. rewrite Rmult_0_r, sin_0. lra. Qed.
  Lemma t_1 : sccs_t 1 = 1. Proof. unfold sccs_t. rewrite Rmult_1_r, sin_2PI. lra. Qed.
  Lemma f_bounds rho : rhoMin < rho < rhoMax -> 0 < sccs_f rhoMin rhoMax rho < 1.
  Proof.
    intros H. pose proof ld_pos as P. unfold sccs_f. fold ld.
    assert (0 < ln (rhoMax / rho)).
    { rewrite <- ln_1. apply ln_increasing; [lra|]. apply (Rmult_lt_reg_r rho); [lra|]. unfold Rdiv. rewrite Rmult_assoc, Rinv_l by lra. lra. }
    assert (ln (rhoMax / rho) < ld).
    { unfold ld. apply ln_increasing; [apply Rdiv_lt_0_compat; lra|]. apply Rmult_lt_compat_l; [lra|]. apply Rinv_lt_contravar; [nra|lra]. }
    split; [apply Rdiv_lt_0_compat; lra|]. apply (Rmult_lt_reg_r ld); [lra|]. unfold Rdiv. rewrite Rmult_assoc, Rinv_l by lra. lra.
  Qed.
  Lemma f_decr a b : 0 < a < b -> sccs_f rhoMin rhoMax b < sccs_f rhoMin rhoMax a.
  Proof.
    intros H. pose proof ld_pos as P. unfold sccs_f. fold ld. apply Rmult_lt_compat_r; [apply Rinv_0_lt_compat; lra|].
    apply ln_increasing; [apply Rdiv_lt_0_compat; lra|]. apply Rmult_lt_compat_l; [lra|]. apply Rinv_lt_contravar; nra.
  Qed.
  Definition inner rho := (Rpower eps (sccs_t (sccs_f rhoMin rhoMax rho)) - 1) / (eps - 1).
  Lemma pw_mono a b : a <= b -> Rpower eps a <= Rpower eps b.
  Proof. intros H. apply Rle_Rpower; [lra|exact H]. Qed.
  Lemma inner_range rho : rhoMin < rho < rhoMax -> 0 <= inner rho <= 1.
  Proof.
    intros H. pose proof (f_bounds rho H) as B. unfold inner.
    assert (T0 : 0 <= sccs_t (sccs_f rhoMin rhoMax rho)) by (rewrite <- t_0; apply t_mono; lra).
    assert (T1 : sccs_t (sccs_f rhoMin rhoMax rho) <= 1) by (rewrite <- t_1; apply t_mono; lra).
    apply pw_mono in T0, T1. rewrite Rpower_O in T0 by lra. rewrite Rpower_1 in T1 by lra.
    split; [apply Rmult_le_pos; [lra|left; apply Rinv_0_lt_compat; lra]|].
    apply (Rmult_le_reg_r (eps - 1)); [lra|]. unfold Rdiv. rewrite Rmult_assoc, Rinv_l by lra. lra.
  Qed.
  Lemma sccs_range rho : 0 <= sccs_calc rhoMin rhoMax eps rho <= 1.
  Proof.
    unfold sccs_calc. destruct (Rle_dec rhoMax rho); [lra|]. destruct (Rle_dec rho rhoMin); [lra|]. apply inner_range. lra.
  Qed.
  Lemma sccs_decr a b : a <= b -> sccs_calc rhoMin rhoMax eps b <= sccs_calc rhoMin rhoMax eps a.
  Proof.
    intros H. pose proof (sccs_range a) as RA. pose proof (sccs_range b) as RB. unfold sccs_calc in *.
    destruct (Rle_dec rhoMax b); [lra|]. destruct (Rle_dec rhoMax a); [lra|]. destruct (Rle_dec a rhoMin); [lra|]. destruct (Rle_dec b rhoMin); [lra|].
    apply Rmult_le_compat_r; [left; apply Rinv_0_lt_compat; lra|].
    apply Rplus_le_compat_r. apply pw_mono. apply t_mono.
    destruct (Req_dec a b) as [->|N]; [lra|]. left. apply f_decr. lra.
  Qed.
  Definition inner' rho := ln eps * Rpower eps (sccs_t (sccs_f rhoMin rhoMax rho)) / (eps - 1) * (1 - cos (2 * PI * sccs_f rhoMin rhoMax rho)) * (-1 / (rho * ld)).
  Lemma inner_derive rho : 0 < rho -> is_derive inner rho (inner' rho).
  Proof.
    intros H. unfold inner, inner'.
    assert (A : is_derive (fun r : R => sccs_t (sccs_f rhoMin rhoMax r)) rho ((-1 / (rho * ld)) * (1 - cos (2 * PI * sccs_f rhoMin rhoMax rho)))).
    { apply (is_derive_comp (V := R_NormedModule) sccs_t (sccs_f rhoMin rhoMax)); [apply t_derive|apply f_derive; lra]. }
    assert (B : forall y : R, is_derive (fun y : R => (Rpower eps y - 1) / (eps - 1)) y (ln eps * Rpower eps y / (eps - 1))).
    { intros y. unfold Rpower. auto_derive; [lra|]. field. lra. }
    evar_last. apply (is_derive_comp (V := R_NormedModule) (fun y : R => (Rpower eps y - 1) / (eps - 1)) _ _ _ _ (B _) A).
    unfold scal. cbn. unfold mult. cbn. ring.
  Qed.
  Lemma f_max : sccs_f rhoMin rhoMax rhoMax = 0.
  Proof. unfold sccs_f. replace (rhoMax / rhoMax) with 1 by (field; lra). rewrite ln_1. unfold Rdiv. ring. Qed.
  Lemma f_min : sccs_f rhoMin rhoMax rhoMin = 1.
  Proof. unfold sccs_f. fold ld. pose proof ld_pos. field. lra. Qed.
  Lemma sccs_derive rho : is_derive (sccs_calc rhoMin rhoMax eps) rho (sccs_grad_calc rhoMin rhoMax eps rho 1 0).
  Proof.
    pose proof (f_bounds) as FB.
    destruct (Rlt_dec rho rhoMin) as [L|L].
    { unfold sccs_grad_calc. destruct (Rle_dec rhoMax rho); [lra|]. destruct (Rle_dec rho rhoMin); [|lra].
      apply (is_derive_ext_loc (fun _ : R => 1)); [|apply @is_derive_const].
      apply (filter_imp (fun y => rho - 1 < y < rhoMin)); [|apply near; lra].
      intros y Hy. unfold sccs_calc. destruct (Rle_dec rhoMax y); [lra|]. destruct (Rle_dec y rhoMin); [reflexivity|lra]. }
    destruct (Rlt_dec rhoMax rho) as [G|G].
    { unfold sccs_grad_calc. destruct (Rle_dec rhoMax rho); [|lra].
      apply (is_derive_ext_loc (fun _ : R => 0)); [|apply @is_derive_const].
      apply (filter_imp (fun y => rhoMax < y < rho + 1)); [|apply near; lra].
      intros y Hy. unfold sccs_calc. destruct (Rle_dec rhoMax y); [reflexivity|lra]. }
    assert (D : sccs_grad_calc rhoMin rhoMax eps rho 1 0 = inner' rho).
    { unfold sccs_grad_calc. destruct (Rle_dec rhoMax rho).
      - replace rho with rhoMax by lra. unfold inner'. rewrite f_max, Rmult_0_r, cos_0. unfold Rdiv. ring.
      - destruct (Rle_dec rho rhoMin).
        + replace rho with rhoMin by lra. unfold inner'. rewrite f_min, Rmult_1_r, cos_2PI. unfold Rdiv. ring.
        + unfold inner', sccs_f, sccs_t. fold ld. ring. }
    destruct (Req_dec rho rhoMin) as [->|N1].
    { apply (glue_derive _ (fun _ => 1) inner _ _ (rhoMax - rhoMin)); [lra| | | | |].
      - intros y Hy. unfold sccs_calc. destruct (Rle_dec rhoMax y); [lra|]. destruct (Rle_dec y rhoMin); [reflexivity|lra].
      - intros y Hy. unfold sccs_calc. destruct (Rle_dec rhoMax y); [lra|]. destruct (Rle_dec y rhoMin); [|reflexivity].
        replace y with rhoMin by lra. unfold inner. rewrite f_min, t_1, Rpower_1 by lra. field. lra.
      - unfold inner. rewrite f_min, t_1, Rpower_1 by lra. field. lra.
      - replace (sccs_grad_calc rhoMin rhoMax eps rhoMin 1 0) with 0. apply @is_derive_const.
        rewrite D. unfold inner'. rewrite f_min, Rmult_1_r, cos_2PI. unfold Rdiv. ring.
      - rewrite D. apply inner_derive. lra. }
    destruct (Req_dec rho rhoMax) as [->|N2].
    { apply (glue_derive _ inner (fun _ => 0) _ _ (rhoMax - rhoMin)); [lra| | | | |].
      - intros y Hy. unfold sccs_calc. destruct (Rle_dec rhoMax y); [lra|]. destruct (Rle_dec y rhoMin); [lra|reflexivity].
      - intros y Hy. unfold sccs_calc. destruct (Rle_dec rhoMax y); [reflexivity|lra].
      - unfold inner. rewrite f_max, t_0, Rpower_O by lra. unfold Rdiv. ring.
      - rewrite D. apply inner_derive. lra.
      - replace (sccs_grad_calc rhoMin rhoMax eps rhoMax 1 0) with 0. apply @is_derive_const.
        rewrite D. unfold inner'. rewrite f_max, Rmult_0_r, cos_0. unfold Rdiv. ring. }
    rewrite D. apply (is_derive_ext_loc inner); [|apply inner_derive; lra].
    apply (filter_imp (fun y => rhoMin < y < rhoMax)); [|apply near; lra].
    intros y Hy. unfold sccs_calc. destruct (Rle_dec rhoMax y); [lra|]. destruct (Rle_dec y rhoMin); [lra|reflexivity].
  Qed.
End SCCS.
Lemma sccs_grad_acc rhoMin rhoMax eps rho g a : sccs_grad_calc rhoMin rhoMax eps rho g a = a + g * sccs_grad_calc rhoMin rhoMax eps rho 1 0.
Proof. unfold sccs_grad_calc. destruct (Rle_dec rhoMax rho); [ring|]. destruct (Rle_dec rho rhoMin); ring. Qed.
