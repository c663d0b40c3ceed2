From Coq Require Import ZArith Reals List Bool Lia Lra Psatz.
From Coquelicot Require Import Coquelicot.
From Verif Require Import Base Cavity_Proofs2 LDA_Model LDA_Proofs LDA_Proofs2 GGA_Model GGA_Proofs.
Import ListNotations.
Open Scope R_scope.

(** ** the uniform correlation energy is negative *)
Lemma ln_tangent u w : 0 < u -> 0 < w -> ln u <= ln w + (u - w) / w.
Proof.
  intros U W. assert (P : 0 < u / w) by (apply Rdiv_lt_0_compat; lra). pose proof (exp_ineq1_le (ln (u / w))) as E. rewrite exp_ln in E by exact P.
  replace u with (w * (u / w)) at 1 by (field; lra). rewrite ln_mult by lra. replace ((u - w) / w) with (u / w - 1) by (field; lra). lra.
Qed.
Lemma ln_scale c x : 0 < c <= 1 -> 0 < x -> c * ln (1 + x / c) <= ln (1 + x).
Proof.
  intros C X. assert (0 < x / c) by (apply Rdiv_lt_0_compat; lra). pose proof (ln_tangent (1 + x / c) (1 + x) ltac:(lra) ltac:(lra)) as A. pose proof (ln_tangent 1 (1 + x) ltac:(lra) ltac:(lra)) as B. rewrite ln_1 in B.
  assert (E : c * ((1 + x / c - (1 + x)) / (1 + x)) + (1 - c) * ((1 - (1 + x)) / (1 + x)) = 0) by (field; lra). nra.
Qed.
Lemma PW_ratio prec rs : 0 < rs -> - fst (eval_C_PW Stiff prec rs) <= 1.25 * - fst (eval_C_PW Para prec rs).
Proof.
  intros H. unfold eval_C_PW, PW_formula, bySpin. cbv zeta. cbn [fst]. assert (S : 0 < sqrt rs) by (apply sqrt_lt_R0; exact H). assert (SS : sqrt rs * sqrt rs = rs) by (apply sqrt_sqrt; lra). set (x := sqrt rs) in *. clearbody x.
  assert (G : forall As Ap, (As = 0.0168869 /\ Ap = 0.0310907) \/ (As = 0.016887 /\ Ap = 0.031091) ->
    - (- (2 * As) * (1 + 0.11125 * rs) * ln (1 + 1 / (2 * As * x * (10.357 + x * (3.6231 + x * (0.88026 + x * 0.49671)))))) <=
    1.25 * - (- (2 * Ap) * (1 + 0.21370 * rs) * ln (1 + 1 / (2 * Ap * x * (7.5957 + x * (3.5876 + x * (1.6382 + x * 0.49294))))))).
  { intros As Ap AA. set (ds := 2 * As * x * (10.357 + x * (3.6231 + x * (0.88026 + x * 0.49671)))). set (dp := 2 * Ap * x * (7.5957 + x * (3.5876 + x * (1.6382 + x * 0.49294)))).
    assert (X2 : 0 < x * x) by (apply Rmult_lt_0_compat; exact S). assert (X3 : 0 < x * x * x) by (apply Rmult_lt_0_compat; assumption).
    assert (X4 : 0 <= x * x * ((x - 2.3) * (x - 2.3))) by (apply Rmult_le_pos; [lra|apply Rle_0_sqr]). assert (X5 : 0 < x * x * x * x) by (apply Rmult_lt_0_compat; assumption).
    assert (DP : 0 < dp) by (unfold dp; destruct AA as [[-> ->]|[-> ->]]; lra).
    assert (DS : 0.44 * dp <= ds) by (unfold dp, ds; destruct AA as [[-> ->]|[-> ->]]; lra).
    clearbody dp ds. assert (I1 : 1 / ds <= (1 / dp) / 0.44). { replace ((1 / dp) / 0.44) with (1 / (0.44 * dp)) by (field; lra). unfold Rdiv. rewrite !Rmult_1_l. apply Rinv_le_contravar; lra. }
    assert (P0 : 0 < 1 / dp) by (apply Rdiv_lt_0_compat; lra). assert (P1 : 0 < 1 / ds) by (apply Rdiv_lt_0_compat; lra).
    pose proof (ln_scale 0.44 (1 / dp) ltac:(lra) P0) as L. assert (L2 : ln (1 + 1 / ds) <= ln (1 + 1 / dp / 0.44)). { destruct (Rle_lt_or_eq_dec _ _ I1) as [I2|I2]; [left; apply ln_increasing; lra|rewrite I2; lra]. }
    assert (L0 : 0 < ln (1 + 1 / dp)) by (rewrite <- ln_1; apply ln_increasing; lra). assert (L1 : 0 < ln (1 + 1 / ds)) by (rewrite <- ln_1; apply ln_increasing; lra).
    revert L L0 L1 L2. generalize (ln (1 + 1 / ds)) (ln (1 + 1 / dp)) (ln (1 + 1 / dp / 0.44)). intros ls lp lm L L0 L1 L2.
    assert (L3 : 0.44 * ls <= lp) by lra. assert (C : As * (1 + 0.11125 * rs) <= 0.44 * 1.25 * (Ap * (1 + 0.21370 * rs))) by (destruct AA as [[-> ->]|[-> ->]]; lra).
    assert (C0 : 0 < Ap * (1 + 0.21370 * rs)) by (destruct AA as [[-> ->]|[-> ->]]; lra). set (u := As * (1 + 0.11125 * rs)) in *. set (w := Ap * (1 + 0.21370 * rs)) in *.
    replace (- (- (2 * As) * (1 + 0.11125 * rs) * ls)) with (2 * (u * ls)) by (unfold u; ring). replace (1.25 * - (- (2 * Ap) * (1 + 0.21370 * rs) * lp)) with (1.25 * (2 * (w * lp))) by (unfold w; ring).
    clearbody u w. assert (u * ls <= 0.44 * 1.25 * w * ls) by nra. assert (w * (0.44 * ls) <= w * lp) by nra. lra. }
  destruct prec; apply G; auto.
Qed.
Lemma two13' : cpow 2 (1/3) < 1.3.
Proof. pose proof (cbrt_cube 2 ltac:(lra)) as E. pose proof two13 as T. destruct (Rlt_dec (cpow 2 (1/3)) 1.3); [assumption|]. exfalso. set (c := cpow 2 (1/3)) in *. assert (1.3 <= c) by lra. assert (1.69 <= c * c) by nra. nra. Qed.
Lemma fDbl_big : 1.3 < fDblPrime0_default.
Proof. unfold fDblPrime0_default. pose proof two13' as A. pose proof two13 as B. set (c := cpow 2 (1/3)) in *. clearbody c. apply (Rmult_lt_reg_r (9 * (c - 1))); [lra|]. replace (4 / (9 * (c - 1)) * (9 * (c - 1))) with 4 by (field; lra). lra. Qed.
Lemma fz_le_1 y : -1 < y < 1 -> fz y <= 1.
Proof.
  intros H. rewrite <- fz_1. pose proof scale_pos as SP. unfold fz, spinInterpolation. cbn [fst]. apply Rmult_le_compat_l; [lra|].
  replace (1 + 1) with 2 by ring. replace (1 - 1) with 0 by ring. pose proof (cpow_incr (1 + y) 2 (1/3) ltac:(lra) ltac:(lra) ltac:(lra)). pose proof (cpow_incr (1 - y) 2 (1/3) ltac:(lra) ltac:(lra) ltac:(lra)). nra.
Qed.
Lemma ec_neg v rs y : v = C_PW_prec \/ v = C_PW -> 0 < rs -> -1 < y < 1 -> vE (LDA_eval v rs y) < 0.
Proof.
  intros V Hr Hy. pose proof (fz_nonneg y Hy) as F0. pose proof (fz_le_1 y Hy) as F1.
  assert (G : forall P F T k, P < 0 -> F < 0 -> T < 0 -> - T <= 1.25 * - P -> 1.3 < k -> P + (y*y*(y*y) * fz y) * (F - P) + (-1 / k * ((1 - y*y*(y*y)) * fz y)) * T < 0).
  { intros P F T k HP HF HT HR Hk. assert (W0 : 0 <= y * y < 1) by nra. assert (W : 0 <= y * y * (y * y) < 1) by nra. set (w := y * y * (y * y)) in *. clearbody w. set (f := fz y) in *. clearbody f.
    assert (K : 0 < / k < 10/13) by (split; [apply Rinv_0_lt_compat; lra|]; replace (10/13) with (/ 1.3) by lra; apply Rinv_lt_contravar; lra). replace (-1 / k) with (- / k) by (field; lra). set (q := / k) in *. clearbody q.
    assert (A1 : 0 <= w * f) by nra. assert (A2 : 0 <= (1 - w) * f) by nra. assert (A3 : (1 - w) * f <= 1 - w * f) by nra. assert (A4 : 0 < 1 - w * f) by nra.
    assert (B : (- q * ((1 - w) * f)) * T <= q * ((1 - w) * f) * (1.25 * - P)) by (assert (0 <= q * ((1 - w) * f)) by nra; nra).
    assert (B2 : q * ((1 - w) * f) <= 10/13 * (1 - w * f)) by nra. assert (w * f * F <= 0) by nra. assert (q * ((1 - w) * f) * (1.25 * - P) <= 10/13 * (1 - w * f) * (1.25 * - P)) by nra. nra. }
  destruct V as [->| ->]; cbn [LDA_eval]; rewrite interp3_value; unfold vE; cbn [fst]; apply G; try (apply PW_negative; exact Hr); try (apply PW_ratio; exact Hr); [apply fDbl_big|lra].
Qed.

(** ** H0 *)
Lemma inner_curve (A b u : R -> R) (t0 A' b' u' : R) : is_derive A t0 A' -> is_derive b t0 b' -> is_derive u t0 u' -> 0 < A t0 -> 0 < b t0 -> 0 <= u t0 ->
  let q := A t0 * u t0 in let den := 1 + q * (1 + q) in let frac := (1 + q) / den in let fq := (1 * den - (1 + q) * (1 + 2 * q)) / (den * den) in let L := 1 + b t0 * u t0 * frac in
  is_derive (fun t : R => ln (1 + b t * u t * ((1 + A t * u t) / (1 + A t * u t * (1 + A t * u t))))) t0
    (u t0 * frac / L * b' + b t0 * (frac + u t0 * A t0 * fq) / L * u' + b t0 * u t0 * u t0 * fq / L * A').
Proof.
  intros DA Db Du PA Pb Pu. cbv zeta. set (q := A t0 * u t0). assert (Q0 : 0 <= q) by (unfold q; nra). assert (DEN : 0 < 1 + q * (1 + q)) by nra.
  assert (Dq : is_derive (fun t : R => A t * u t) t0 (A' * u t0 + A t0 * u')) by (apply dmul; assumption).
  assert (FR : 0 < (1 + q) / (1 + q * (1 + q))) by (apply Rdiv_lt_0_compat; lra).
  assert (LP : 0 < 1 + b t0 * u t0 * ((1 + q) / (1 + q * (1 + q)))) by (assert (0 <= b t0 * u t0) by nra; nra).
  assert (DF : is_derive (fun t : R => (1 + A t * u t) / (1 + A t * u t * (1 + A t * u t))) t0 ((1 * (1 + q * (1 + q)) - (1 + q) * (1 + 2 * q)) / ((1 + q * (1 + q)) * (1 + q * (1 + q))) * (A' * u t0 + A t0 * u'))).
  { apply dis with ((A' * u t0 + A t0 * u') * ((1 * (1 + q * (1 + q)) - (1 + q) * (1 + 2 * q)) / ((1 + q * (1 + q)) * (1 + q * (1 + q))))); [|ring].
    apply (along (fun x : R => (1 + x) / (1 + x * (1 + x))) (fun t => A t * u t)); [exact Dq|]. cbv beta. fold q. clearbody q. auto_derive; [repeat split; lra|]. field. lra. }
  assert (DL : is_derive (fun t : R => 1 + b t * u t * ((1 + A t * u t) / (1 + A t * u t * (1 + A t * u t)))) t0
    (0 + ((b' * u t0 + b t0 * u') * ((1 + q) / (1 + q * (1 + q))) + b t0 * u t0 * ((1 * (1 + q * (1 + q)) - (1 + q) * (1 + 2 * q)) / ((1 + q * (1 + q)) * (1 + q * (1 + q))) * (A' * u t0 + A t0 * u'))))).
  { apply (dadd (fun _ => 1)); [apply (is_derive_const (V := R_NormedModule))|]. apply (dmul (fun t => b t * u t) (fun t => (1 + A t * u t) / (1 + A t * u t * (1 + A t * u t)))); [apply dmul; assumption|exact DF]. }
  eapply dis. { apply (along ln _ t0 _ (/ (1 + b t0 * u t0 * ((1 + q) / (1 + q * (1 + q))))) DL). cbv beta. fold q. revert LP. generalize (1 + b t0 * u t0 * ((1 + q) / (1 + q * (1 + q)))). intros L LP. auto_derive; [exact LP|]. field; lra. }
  revert LP. generalize ((1 + q) / (1 + q * (1 + q))) ((1 * (1 + q * (1 + q)) - (1 + q) * (1 + 2 * q)) / ((1 + q * (1 + q)) * (1 + q * (1 + q)))). intros fr fq LP. field. lra.
Qed.
Lemma H0_curve (gamma : R) (be g3 u ec : R -> R) (t0 be' g3' u' ec' : R) : 0 < gamma -> is_derive be t0 be' -> is_derive g3 t0 g3' -> is_derive u t0 u' -> is_derive ec t0 ec' ->
  0 < be t0 -> 0 < g3 t0 -> 0 <= u t0 -> ec t0 < 0 -> let o := PW91_H0 gamma (be t0) (g3 t0) (u t0) (ec t0) in
  is_derive (fun t : R => h_H (PW91_H0 gamma (be t) (g3 t) (u t) (ec t))) t0 (h_beta o * be' + h_g3 o * g3' + h_t2 o * u' + h_ec o * ec').
Proof.
  intros Pg Db Dg Du De Pb P3 Pu Pe. cbv zeta. unfold PW91_H0. cbn [h_H h_beta h_g3 h_t2 h_ec].
  assert (P4 : 0 < gamma * g3 t0) by nra.
  assert (X0 : ec t0 / (gamma * g3 t0) < 0) by (assert (0 < / (gamma * g3 t0)) by (apply Rinv_0_lt_compat; exact P4); unfold Rdiv; nra).
  assert (E1 : 1 < exp (- (ec t0 / (gamma * g3 t0)))) by (rewrite <- exp_0; apply exp_increasing; lra).
  assert (Dx : is_derive (fun t : R => ec t / (gamma * g3 t)) t0 ((ec' * (gamma * g3 t0) - ec t0 * (gamma * g3')) / ((gamma * g3 t0) * (gamma * g3 t0)))) by (apply (ddiv ec (fun t => gamma * g3 t)); [exact De|apply dscal; exact Dg|lra]).
  set (x' := (ec' * (gamma * g3 t0) - ec t0 * (gamma * g3')) / ((gamma * g3 t0) * (gamma * g3 t0))) in *.
  set (E := exp (- (ec t0 / (gamma * g3 t0)))) in *.
  assert (DAB : is_derive (fun t : R => 1 / (exp (- (ec t / (gamma * g3 t))) - 1)) t0 (1 / (E - 1) * (1 / (E - 1)) * E * x')).
  { apply dis with (x' * (1 / (E - 1) * (1 / (E - 1)) * E)); [|ring]. apply (along (fun x : R => 1 / (exp (- x) - 1)) (fun t => ec t / (gamma * g3 t))); [exact Dx|]. unfold E in *. auto_derive; [lra|field; lra]. }
  set (AB := 1 / (E - 1)) in *. assert (PAB : 0 < AB) by (unfold AB; apply Rdiv_lt_0_compat; lra).
  assert (Dbb : is_derive (fun t : R => be t / gamma) t0 (be' / gamma)). { apply dis with (/ gamma * be'); [|field; lra]. apply (is_derive_ext (fun t => / gamma * be t)); [intros t; req; field; lra|apply dscal; exact Db]. }
  assert (Pbb : 0 < be t0 / gamma) by (apply Rdiv_lt_0_compat; lra).
  assert (DA : is_derive (fun t : R => be t / gamma * (1 / (exp (- (ec t / (gamma * g3 t))) - 1))) t0 (be' / gamma * AB + be t0 / gamma * (AB * AB * E * x'))) by (apply (dmul (fun t => be t / gamma)); [exact Dbb|exact DAB]).
  assert (PA : 0 < be t0 / gamma * AB) by nra.
  pose proof (inner_curve _ _ _ t0 _ _ _ DA Dbb Du PA Pbb Pu) as IC. cbv zeta beta in IC. fold E in IC. fold AB in IC.
  eapply dis. { apply (dmul (fun t : R => gamma * g3 t)); [apply dscal; exact Dg|exact IC]. }
  cbv beta. fold E. fold AB. clear IC DA DAB Dx Dbb. set (A := be t0 / gamma * AB) in *. set (q := A * u t0). set (bb := be t0 / gamma) in *.
  assert (Q0 : 0 <= q) by (unfold q; nra). assert (DEN : 0 < 1 + q * (1 + q)) by nra. assert (FR : 0 < (1 + q) / (1 + q * (1 + q))) by (apply Rdiv_lt_0_compat; lra).
  assert (LP : 0 < 1 + bb * u t0 * ((1 + q) / (1 + q * (1 + q)))) by (assert (0 <= bb * u t0) by nra; nra).
  revert LP. generalize ((1 + q) / (1 + q * (1 + q))) ((1 * (1 + q * (1 + q)) - (1 + q) * (1 + 2 * q)) / ((1 + q * (1 + q)) * (1 + q * (1 + q)))). intros fr fq. generalize (ln (1 + bb * u t0 * fr)) as ll. intros ll LP.
  unfold x'. clear x'. unfold A. clearbody E AB. clear - Pg P3 LP. revert LP P3. generalize (u t0) (g3 t0) (ec t0). intros w g e LP P3. field. repeat split; lra.
Qed.
