(** Local density functionals: proofs. *)
From Coq Require Import ZArith Reals List Bool Lia Lra Psatz.
From Coquelicot Require Import Coquelicot.
From Verif Require Import Base Spline_Proofs NLPCM_Proofs Cavity_Proofs2 LDA_Model.
Import ListNotations.
Open Scope R_scope.
Local Lemma half_is : 0.5 = / 2. Proof. lra. Qed.
Ltac req := match goal with |- ?a = ?b => change (@eq R a b) end.

Lemma cpow_pos x y : 0 < x -> cpow x y = Rpower x y.
Proof. intros H. unfold cpow. destruct (Req_EM_T x 0); [lra|reflexivity]. Qed.
Lemma cpow_gt0 x y : 0 < x -> 0 < cpow x y.
Proof. intros H. rewrite cpow_pos by exact H. apply exp_pos. Qed.
Lemma cpow_derive x y : 0 < x -> is_derive (fun x : R => cpow x y) x (y * cpow x y / x).
Proof.
  intros H. apply (is_derive_ext_loc (fun x : R => exp (y * ln x))).
  { apply (filter_imp (fun z => 0 < z < x + 1)); [|apply near; lra]. intros z Hz. rewrite cpow_pos by lra. reflexivity. }
  rewrite cpow_pos by exact H. unfold Rpower. auto_derive; [lra|]. field. lra.
Qed.
Lemma cbrt_cube x : 0 < x -> cpow x (1/3) * cpow x (1/3) * cpow x (1/3) = x.
Proof.
  intros H. rewrite !cpow_pos by exact H. unfold Rpower. rewrite <- !exp_plus.
  replace (1/3 * ln x + 1/3 * ln x + 1/3 * ln x) with (ln x) by field. apply exp_ln. exact H.
Qed.
Lemma pow43 x : 0 < x -> cpow x (4/3) = x * cpow x (1/3).
Proof. intros H. rewrite !cpow_pos by exact H. unfold Rpower. rewrite <- (exp_ln x H) at 2. rewrite <- exp_plus. f_equal. field. Qed.
Lemma cpow_1 y : cpow 1 y = 1.
Proof. rewrite cpow_pos by lra. unfold Rpower. rewrite ln_1, Rmult_0_r. apply exp_0. Qed.
Lemma cpow_incr x y p : 0 < x -> x < y -> 0 < p -> cpow x p < cpow y p.
Proof. intros H L P. rewrite !cpow_pos by lra. unfold Rpower. apply exp_increasing. apply Rmult_lt_compat_l; [exact P|]. apply ln_increasing; lra. Qed.
Lemma two13 : 1 < cpow 2 (1/3) < 2.
Proof. split; [rewrite <- (cpow_1 (1/3)) at 1; apply cpow_incr; lra|]. pose proof (cbrt_cube 2 ltac:(lra)) as E. assert (P := cpow_gt0 2 (1/3) ltac:(lra)). set (c := cpow 2 (1/3)) in *. clearbody c. apply Rnot_le_lt. intros L. assert (4 <= c * c) by nra. nra. Qed.
Lemma scale_pos : 0 < 1 / (cpow 2 (4/3) - 2).
Proof. rewrite pow43 by lra. pose proof two13. apply Rdiv_lt_0_compat; lra. Qed.

(** ** spin interpolation function *)
Definition fz (z : R) := fst (spinInterpolation z).
Definition fz' (z : R) := snd (spinInterpolation z).
Lemma fz_derive z : -1 < z < 1 -> is_derive fz z (fz' z).
Proof.
  intros H. unfold fz, fz', spinInterpolation. cbn [fst snd]. set (s := 1 / (cpow 2 (4/3) - 2)). clearbody s.
  assert (DP : is_derive (fun z : R => cpow (1 + z) (1/3)) z (1 * (1/3 * cpow (1 + z) (1/3) / (1 + z)))).
  { apply (is_derive_comp (V := R_NormedModule) (fun x : R => cpow x (1/3)) (fun z : R => 1 + z)); [apply cpow_derive; lra|]. auto_derive; auto. }
  assert (DM : is_derive (fun z : R => cpow (1 - z) (1/3)) z (-1 * (1/3 * cpow (1 - z) (1/3) / (1 - z)))).
  { apply (is_derive_comp (V := R_NormedModule) (fun x : R => cpow x (1/3)) (fun z : R => 1 - z)); [apply cpow_derive; lra|]. auto_derive; [auto|ring]. }
  evar_last.
  { apply is_derive_scal. apply (is_derive_minus (V := R_NormedModule)); [|apply is_derive_const].
    apply (is_derive_plus (V := R_NormedModule)).
    - apply (is_derive_mult (K := R_AbsRing)); [instantiate (1 := 1); auto_derive; auto|exact DP|apply Rmult_comm].
    - apply (is_derive_mult (K := R_AbsRing)); [instantiate (1 := -1); auto_derive; [auto|ring]|exact DM|apply Rmult_comm]. }
  unfold plus, minus, mult, zero, opp; cbn. generalize (cpow (1 + z) (1/3)) (cpow (1 - z) (1/3)). intros p m. unfold opp, zero; cbn. req. field. split; lra.
Qed.
Lemma fz_even z : fz (- z) = fz z /\ fz' (- z) = - fz' z.
Proof. unfold fz, fz', spinInterpolation. cbn [fst snd]. replace (1 + - z) with (1 - z) by ring. replace (1 - - z) with (1 + z) by ring. split; ring. Qed.
Lemma fz_0 : fz 0 = 0 /\ fz' 0 = 0.
Proof. unfold fz, fz', spinInterpolation. cbn [fst snd]. rewrite Rplus_0_r, Rminus_0_r, cpow_1. split; ring. Qed.
Lemma fz_1 : fz 1 = 1.
Proof.
  unfold fz, spinInterpolation. cbn [fst]. replace (1 + 1) with 2 by ring. replace (1 - 1) with 0 by ring.
  pose proof scale_pos as S. rewrite <- (pow43 2) by lra. rewrite Rmult_0_l, Rplus_0_r.
  assert (cpow 2 (4/3) - 2 <> 0). { intros E. rewrite E in S. unfold Rdiv in S. rewrite Rinv_0 in S. lra. } field. exact H.
Qed.
Lemma fz'_nonneg z : 0 <= z < 1 -> 0 <= fz' z.
Proof.
  intros H. unfold fz', spinInterpolation. cbn [snd]. pose proof scale_pos. set (s := 1 / (cpow 2 (4/3) - 2)) in *.
  assert (cpow (1 - z) (1/3) <= cpow (1 + z) (1/3)). { destruct (Req_dec z 0) as [->|]; [rewrite Rplus_0_r, Rminus_0_r; lra|]. left. apply cpow_incr; lra. }
  assert (0 <= s * (cpow (1 + z) (1/3) - cpow (1 - z) (1/3))) by (apply Rmult_le_pos; lra). lra.
Qed.
Lemma fz_nonneg z : -1 < z < 1 -> 0 <= fz z.
Proof.
  assert (P : forall z, 0 <= z < 1 -> 0 <= fz z).
  { intros y Hy. rewrite <- (proj1 fz_0). apply (mono_weak fz fz'); [lra| |]. { intros x Hx. apply fz_derive. lra. } intros x Hx. apply fz'_nonneg. lra. }
  intros H. destruct (Rle_dec 0 z); [apply P; lra|]. rewrite <- (proj1 (fz_even z)). apply P. lra.
Qed.
(** f''(0) is the default factor of the stiffness interpolation *)
Lemma fz_second : is_derive fz' 0 fDblPrime0_default.
Proof.
  unfold fz', spinInterpolation, fDblPrime0_default. cbn [snd].
  assert (DP : is_derive (fun z : R => cpow (1 + z) (1/3)) 0 (1 * (1/3 * cpow (1 + 0) (1/3) / (1 + 0)))).
  { apply (is_derive_comp (V := R_NormedModule) (fun x : R => cpow x (1/3)) (fun z : R => 1 + z)); [apply cpow_derive; lra|]. auto_derive; auto. }
  assert (DM : is_derive (fun z : R => cpow (1 - z) (1/3)) 0 (-1 * (1/3 * cpow (1 - 0) (1/3) / (1 - 0)))).
  { apply (is_derive_comp (V := R_NormedModule) (fun x : R => cpow x (1/3)) (fun z : R => 1 - z)); [apply cpow_derive; lra|]. auto_derive; [auto|ring]. }
  apply (is_derive_ext (fun z : R => (1 / (cpow 2 (4/3) - 2) * (4/3)) * (cpow (1 + z) (1/3) - cpow (1 - z) (1/3)))). { intros t. req. ring. }
  evar_last. { apply is_derive_scal. apply (is_derive_minus (V := R_NormedModule)); [exact DP|exact DM]. }
  rewrite Rplus_0_r, Rminus_0_r, cpow_1, pow43 by lra. pose proof two13. generalize dependent (cpow 2 (1/3)). intros c Hc.
  unfold minus, plus, opp; cbn. req. field. lra.
Qed.

(** ** derivatives of the functors *)
Lemma PZ_derive p rs : 0 < rs -> rs <> 1 -> is_derive (fun r : R => fst (eval_C_PZ p r)) rs (snd (eval_C_PZ p rs)).
Proof.
  intros H NE. unfold eval_C_PZ.
  set (a := if p then 0.0311 else 0.01555). set (b := if p then -0.0480 else -0.0269). set (c := if p then 0.0020 else 0.0007). set (d := if p then -0.0116 else -0.0048).
  set (g := if p then -0.1423 else -0.0843). assert (B1 : 0 < if p then 1.0529 else 1.3981) by (destruct p; lra). assert (B2 : 0 < if p then 0.3334 else 0.2611) by (destruct p; lra).
  set (b1 := if p then 1.0529 else 1.3981) in *. set (b2 := if p then 0.3334 else 0.2611) in *. clearbody a b c d g b1 b2.
  destruct (Rlt_dec rs 1) as [L|L]; cbn [snd].
  - apply (is_derive_ext_loc (fun r : R => (a + c * r) * ln r + b + d * r)).
    { apply (filter_imp (fun z => 0 < z < 1)); [|apply near; lra]. intros z Hz. destruct (Rlt_dec z 1); [reflexivity|lra]. }
    auto_derive; [lra|]. generalize (ln rs). intros. req. field. lra.
  - apply (is_derive_ext_loc (fun r : R => g * (1 / (1 + b1 * sqrt r + b2 * r)))).
    { apply (filter_imp (fun z => 1 < z < rs + 1)); [|apply near; lra]. intros z Hz. destruct (Rlt_dec z 1); [lra|reflexivity]. }
    assert (S : 0 < sqrt rs) by (apply sqrt_lt_R0; lra). assert (0 < b1 * sqrt rs) by nra. assert (0 < b2 * rs) by nra.
    auto_derive; [repeat split; lra|]. generalize dependent (sqrt rs). intros s Hs1 Hs2. req. field. split; lra.
Qed.
Lemma sqrt_curve (G : R -> R) (g rs : R) : 0 < rs -> is_derive G (sqrt rs) g -> is_derive (fun r : R => G (sqrt r)) rs (g * 0.5 / sqrt rs).
Proof.
  intros H D. evar_last. { apply (is_derive_comp (V := R_NormedModule) G sqrt); [exact D|]. apply (is_derive_Reals sqrt). apply derivable_pt_lim_sqrt. exact H. }
  unfold scal; cbn. unfold mult; cbn. assert (0 < sqrt rs) by (apply sqrt_lt_R0; lra). rewrite half_is. req. field. lra.
Qed.
Lemma PW_derive A al b1 b2 b3 b4 rs : 0 < A -> 0 < b1 -> 0 < b2 -> 0 < b3 -> 0 < b4 -> 0 < rs ->
  is_derive (fun r : R => fst (PW_formula A al b1 b2 b3 b4 r)) rs (snd (PW_formula A al b1 b2 b3 b4 rs)).
Proof.
  intros HA H1 H2 H3 H4 Hr. assert (S : 0 < sqrt rs) by (apply sqrt_lt_R0; lra).
  unfold PW_formula. cbn [fst snd].
  apply (is_derive_ext_loc (fun r : R => (fun x : R => - (2 * A) * (1 + al * (x * x)) * ln (1 + 1 / ((2 * A) * x * (b1 + x * (b2 + x * (b3 + x * b4)))))) (sqrt r))).
  { apply (filter_imp (fun z => 0 < z < rs + 1)); [|apply near; lra]. intros z Hz. cbv beta. rewrite sqrt_sqrt by lra. reflexivity. }
  pose proof (sqrt_sqrt rs ltac:(lra)) as SQ.
  set (G := fun x : R => - (2 * A) * (1 + al * (x * x)) * ln (1 + 1 / ((2 * A) * x * (b1 + x * (b2 + x * (b3 + x * b4)))))).
  set (den := fun x : R => (2 * A) * x * (b1 + x * (b2 + x * (b3 + x * b4)))).
  assert (PP : forall x, 0 < x -> 0 < den x).
  { intros x Hx. unfold den. apply Rmult_lt_0_compat; [nra|]. assert (0 < b3 + x * b4) by nra. assert (0 < b2 + x * (b3 + x * b4)) by nra. nra. }
  assert (DG : forall x, 0 < x -> is_derive G x (- (2 * A) * (al * (2 * x) * ln (1 + 1 / den x) + (1 + al * (x * x)) * (- ((2 * A) * (b1 + x * (2 * b2 + x * (3 * b3 + x * (4 * b4))))) / (den x * (1 + den x)))))).
  { intros x Hx. pose proof (PP x Hx) as Pd.
    assert (Dd : is_derive den x ((2 * A) * (b1 + x * (2 * b2 + x * (3 * b3 + x * (4 * b4)))))) by (unfold den; auto_derive; auto; ring).
    apply (is_derive_ext (fun x : R => - (2 * A) * (1 + al * (x * x)) * ln (1 + 1 / den x))); [reflexivity|]. clearbody den. clear G PP.
    assert (0 < 1 / den x) by (apply Rdiv_lt_0_compat; lra).
    evar_last. { auto_derive; [|reflexivity]. split; [eexists; exact Dd|]. split; [lra|]. split; [lra|auto]. }
    match goal with |- context[Derive ?u x] => replace (Derive u x) with ((2 * A) * (b1 + x * (2 * b2 + x * (3 * b3 + x * (4 * b4))))) by (symmetry; apply is_derive_unique; exact Dd) end.
    change (1 * / den x) with (1 / den x). generalize (ln (1 + 1 / den x)). revert Pd. generalize (den x). clear. intros d Pd l. req. field. lra. }
  evar_last. { exact (sqrt_curve G _ rs Hr (DG _ S)). }
  fold (den (sqrt rs)). generalize (ln (1 + 1 / den (sqrt rs))). specialize (PP _ S). revert PP SQ S. generalize (den (sqrt rs)). generalize (sqrt rs). clear.
  intros x d PP SQ S lx. subst rs. rewrite half_is. req. field. split; lra.
Qed.
Lemma VWN_derive A b c x0 rs : 0 <= b -> b * b < 4 * c -> x0 < 0 -> 0 < c + x0 * (b + x0) -> 0 < rs ->
  is_derive (fun r : R => fst (VWN_formula A b c x0 r)) rs (snd (VWN_formula A b c x0 rs)).
Proof.
  intros Hb HQ Hx0 HX0 Hr. assert (S : 0 < sqrt rs) by (apply sqrt_lt_R0; lra).
  unfold VWN_formula. cbn [fst snd].
  assert (PQ : 0 < sqrt (4 * c - b * b)) by (apply sqrt_lt_R0; lra). set (Q := sqrt (4 * c - b * b)) in *. clearbody Q.
  set (X0 := c + x0 * (b + x0)) in *. clearbody X0.
  set (k := x0 / X0). clearbody k.
  apply (sqrt_curve (fun x : R => A * (ln (x * x / (c + x * (b + x))) + b * (2 / Q * atan (Q / (2 * x + b)) - k * (ln ((x - x0) * (x - x0) / (c + x * (b + x))) + (b + 2 * x0) * (2 / Q * atan (Q / (2 * x + b)))))))); [exact Hr|].
  set (x := sqrt rs) in *. clearbody x. clear rs Hr.
  assert (PX : 0 < c + x * (b + x)) by nra.
  assert (A1 : is_derive (fun x : R => 2 / Q * atan (Q / (2 * x + b))) x (-4 / (Q * Q + (2 * x + b) * (2 * x + b)))).
  { auto_derive; [lra|]. field. repeat split; try lra. nra. }
  assert (L1 : is_derive (fun x : R => ln (x * x / (c + x * (b + x)))) x (2 / x - (2 * x + b) / (c + x * (b + x)))).
  { auto_derive. { split; [lra|]. split; [|auto]. apply Rmult_lt_0_compat; [nra|apply Rinv_0_lt_compat; lra]. } field. repeat split; lra. }
  assert (L2 : is_derive (fun x : R => ln ((x - x0) * (x - x0) / (c + x * (b + x)))) x (2 / (x - x0) - (2 * x + b) / (c + x * (b + x)))).
  { auto_derive. { split; [lra|]. split; [|auto]. apply Rmult_lt_0_compat; [nra|apply Rinv_0_lt_compat; lra]. } field. repeat split; lra. }
  apply is_derive_scal. apply (is_derive_plus (V := R_NormedModule)); [exact L1|]. apply is_derive_scal.
  apply (is_derive_minus (V := R_NormedModule)); [exact A1|]. apply is_derive_scal. apply (is_derive_plus (V := R_NormedModule)); [exact L2|].
  apply is_derive_scal. exact A1.
Qed.
Lemma PWs_derive s prec rs : 0 < rs -> is_derive (fun r : R => fst (eval_C_PW s prec r)) rs (snd (eval_C_PW s prec rs)).
Proof. intros H. unfold eval_C_PW. apply PW_derive; try exact H; destruct s, prec; cbn; lra. Qed.
Lemma VWNs_derive s rs : 0 < rs -> is_derive (fun r : R => fst (eval_C_VWN s r)) rs (snd (eval_C_VWN s rs)).
Proof. intros H. unfold eval_C_VWN. apply VWN_derive; try exact H; destruct s; cbn; lra. Qed.

(** ** interpolation along curves *)
Section Curves.
Variables (rs z : R -> R) (t0 rs' z' : R).
Hypothesis Drs : is_derive rs t0 rs'.
Hypothesis Dz : is_derive z t0 z'.
Hypothesis Pz : -1 < z t0 < 1.
Definition dE (o : R * R * R) : R := snd (fst o) * rs' + snd o * z'.
Definition vE (o : R * R * R) : R := fst (fst o).
Lemma comp_rs (P : R -> R * R) : is_derive (fun r : R => fst (P r)) (rs t0) (snd (P (rs t0))) -> is_derive (fun t : R => fst (P (rs t))) t0 (rs' * snd (P (rs t0))).
Proof. intros D. apply (is_derive_comp (V := R_NormedModule) (fun r : R => fst (P r)) rs); [exact D|exact Drs]. Qed.
Lemma comp_z : is_derive (fun t : R => fz (z t)) t0 (z' * fz' (z t0)).
Proof. apply (is_derive_comp (V := R_NormedModule) fz z); [apply fz_derive; exact Pz|exact Dz]. Qed.
Lemma interp2_value P F r y : spinInterpolate2 r y P F =
  (fst (P r) + fz y * (fst (F r) - fst (P r)), snd (P r) + fz y * (snd (F r) - snd (P r)), fz' y * (fst (F r) - fst (P r))).
Proof.
  unfold spinInterpolate2, fz, fz'. destruct (P r) as [p p'], (F r) as [f f']. destruct (Req_EM_T y 0) as [->|N].
  - destruct fz_0 as [A B]. unfold fz, fz' in A, B. rewrite A, B. cbn. f_equal; [f_equal|]; ring.
  - destruct (spinInterpolation y) as [w w']. reflexivity.
Qed.
Lemma interp3_value P F T k r y : spinInterpolate3 r y P F T k =
  (fst (P r) + (y*y*(y*y) * fz y) * (fst (F r) - fst (P r)) + (-1 / k * ((1 - y*y*(y*y)) * fz y)) * fst (T r),
   snd (P r) + (y*y*(y*y) * fz y) * (snd (F r) - snd (P r)) + (-1 / k * ((1 - y*y*(y*y)) * fz y)) * snd (T r),
   (4 * (y*y*y) * fz y + y*y*(y*y) * fz' y) * (fst (F r) - fst (P r)) + (-1 / k * (-4 * (y*y*y) * fz y + (1 - y*y*(y*y)) * fz' y)) * fst (T r)).
Proof.
  unfold spinInterpolate3, fz, fz'. destruct (P r) as [p p'], (F r) as [f f'], (T r) as [s s']. destruct (Req_EM_T y 0) as [->|N].
  - destruct fz_0 as [A B]. unfold fz, fz' in A, B. rewrite A, B. cbn. f_equal; [f_equal|]; ring.
  - destruct (spinInterpolation y) as [w w']. reflexivity.
Qed.
Lemma interp2_curve P F : is_derive (fun r : R => fst (P r)) (rs t0) (snd (P (rs t0))) -> is_derive (fun r : R => fst (F r)) (rs t0) (snd (F (rs t0))) ->
  is_derive (fun t : R => vE (spinInterpolate2 (rs t) (z t) P F)) t0 (dE (spinInterpolate2 (rs t0) (z t0) P F)).
Proof.
  intros DP DF. apply comp_rs in DP. apply comp_rs in DF. pose proof comp_z as DZ.
  apply (is_derive_ext (fun t : R => fst (P (rs t)) + fz (z t) * (fst (F (rs t)) - fst (P (rs t))))). { intros t. rewrite interp2_value. reflexivity. }
  evar_last. { apply (is_derive_plus (V := R_NormedModule)); [exact DP|]. apply (is_derive_mult (K := R_AbsRing)); [exact DZ| |apply Rmult_comm].
    apply (is_derive_minus (V := R_NormedModule)); [exact DF|exact DP]. }
  rewrite interp2_value. unfold dE, plus, minus, mult, opp; cbn. unfold plus, opp; cbn. req. ring.
Qed.
Lemma interp3_curve P F T k : is_derive (fun r : R => fst (P r)) (rs t0) (snd (P (rs t0))) -> is_derive (fun r : R => fst (F r)) (rs t0) (snd (F (rs t0))) ->
  is_derive (fun r : R => fst (T r)) (rs t0) (snd (T (rs t0))) ->
  is_derive (fun t : R => vE (spinInterpolate3 (rs t) (z t) P F T k)) t0 (dE (spinInterpolate3 (rs t0) (z t0) P F T k)).
Proof.
  intros DP DF DT. apply comp_rs in DP. apply comp_rs in DF. apply comp_rs in DT. pose proof comp_z as DZ.
  set (s := -1 / k).
  apply (is_derive_ext (fun t : R => fst (P (rs t)) + ((z t * z t * (z t * z t)) * fz (z t)) * (fst (F (rs t)) - fst (P (rs t))) + (s * ((1 - z t * z t * (z t * z t)) * fz (z t))) * fst (T (rs t)))).
  { intros t. rewrite interp3_value. reflexivity. }
  assert (Z4 : is_derive (fun t : R => z t * z t * (z t * z t)) t0 (4 * (z t0 * z t0 * z t0) * z')).
  { assert (Z2 : is_derive (fun t : R => z t * z t) t0 (z' * z t0 + z t0 * z')) by (apply (is_derive_mult (K := R_AbsRing)); [exact Dz|exact Dz|apply Rmult_comm]).
    evar_last. { apply (is_derive_mult (K := R_AbsRing)); [exact Z2|exact Z2|apply Rmult_comm]. } unfold plus, mult; cbn. req. ring. }
  evar_last. { apply (is_derive_plus (V := R_NormedModule)); [apply (is_derive_plus (V := R_NormedModule)); [exact DP|]|].
    - apply (is_derive_mult (K := R_AbsRing)); [| |apply Rmult_comm].
      + apply (is_derive_mult (K := R_AbsRing)); [exact Z4|exact DZ|apply Rmult_comm].
      + apply (is_derive_minus (V := R_NormedModule)); [exact DF|exact DP].
    - apply (is_derive_mult (K := R_AbsRing)); [|exact DT|apply Rmult_comm]. apply is_derive_scal.
      apply (is_derive_mult (K := R_AbsRing)); [|exact DZ|apply Rmult_comm].
      apply (is_derive_minus (V := R_NormedModule)); [apply is_derive_const|exact Z4]. }
  rewrite interp3_value. unfold dE, plus, minus, mult, opp, zero; cbn. unfold plus, opp, zero; cbn. fold s. req. ring.
Qed.
Lemma Teter_curve : 0 < rs t0 -> is_derive (fun t : R => vE (eval_XC_Teter (rs t) (z t))) t0 (dE (eval_XC_Teter (rs t0) (z t0))).
Proof.
  intros Pr. pose proof comp_z as DZ. pose proof (fz_nonneg (z t0) Pz) as FN.
  set (ft := fun t => fz (z t)) in *. change (0 <= ft t0) in FN.
  assert (VE : forall t, vE (eval_XC_Teter (rs t) (z t)) =
    - (0.4581652932831429 + ft t * 0.119086804055547 + rs t * (2.217058676663745 + ft t * 0.6157402568883345 + rs t * (0.7405551735357053 + ft t * 0.1574201515892867 + rs t * (0.01968227878617998 + ft t * 0.003532336663397157))))
    / (rs t * (1 + rs t * (4.504130959426697 + ft t * 0.2673612973836267 + rs t * (1.110667363742916 + ft t * 0.2052004607777787 + rs t * (0.02359291751427506 + ft t * 0.004200005045691381)))))).
  { intros t. unfold eval_XC_Teter, ft, fz. destruct (spinInterpolation (z t)). reflexivity. }
  apply (is_derive_ext _ _ _ _ (fun t => eq_sym (VE t))). clear VE.
  unfold eval_XC_Teter, dE. replace (spinInterpolation (z t0)) with (fz (z t0), fz' (z t0)) by (unfold fz, fz'; destruct (spinInterpolation (z t0)); reflexivity).
  cbn [fst snd]. fold (ft t0). revert DZ. generalize (fz' (z t0)). intros fp DZ.
  generalize 0.4581652932831429 0.119086804055547 2.217058676663745 0.6157402568883345 0.7405551735357053 0.1574201515892867 0.01968227878617998 0.003532336663397157.
  intros pa0 da0 pa1 da1 pa2 da2 pa3 da3.
  assert (K2 : 0 < 4.504130959426697 + ft t0 * 0.2673612973836267) by lra. assert (K3 : 0 < 1.110667363742916 + ft t0 * 0.2052004607777787) by lra.
  assert (K4 : 0 < 0.02359291751427506 + ft t0 * 0.004200005045691381) by lra. revert K2 K3 K4.
  generalize 4.504130959426697 0.2673612973836267 1.110667363742916 0.2052004607777787 0.02359291751427506 0.004200005045691381. intros pb2 db2 pb3 db3 pb4 db4 K2 K3 K4.
  assert (PD : 0 < 1 + rs t0 * (pb2 + ft t0 * db2 + rs t0 * (pb3 + ft t0 * db3 + rs t0 * (pb4 + ft t0 * db4)))).
  { assert (0 < pb3 + ft t0 * db3 + rs t0 * (pb4 + ft t0 * db4)) by nra. assert (0 < pb2 + ft t0 * db2 + rs t0 * (pb3 + ft t0 * db3 + rs t0 * (pb4 + ft t0 * db4))) by nra. nra. }
  evar_last. { auto_derive; [|reflexivity]. repeat split; try (eexists; eassumption). apply Rmult_integral_contrapositive_currified; lra. }
  repeat match goal with |- context[Derive ?u t0] =>
    first [replace (Derive u t0) with rs' by (symmetry; apply is_derive_unique; exact Drs) | replace (Derive u t0) with (z' * fp) by (symmetry; apply is_derive_unique; exact DZ)] end.
  clear FN DZ K2 K3 K4. revert PD Pr. generalize (ft t0) (rs t0). clear. intros f r PD Pr. req. field. split; lra.
Qed.
Lemma eval_curve v : 0 < rs t0 -> (v = C_PZ -> rs t0 <> 1) -> is_derive (fun t : R => vE (LDA_eval v (rs t) (z t))) t0 (dE (LDA_eval v (rs t0) (z t0))).
Proof.
  intros H N. destruct v; cbn [LDA_eval].
  - apply interp2_curve; apply PZ_derive; auto.
  - apply interp3_curve; apply PWs_derive; auto.
  - apply interp3_curve; apply PWs_derive; auto.
  - apply interp3_curve; apply VWNs_derive; auto.
  - apply Teter_curve. exact H.
Qed.
End Curves.
