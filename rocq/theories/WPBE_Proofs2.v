From Coq Require Import ZArith Reals List Bool Lia Lra Psatz.
From Coquelicot Require Import Coquelicot.
From Verif Require Import Base Gauss LDA_Model GGA_Model GGA_Proofs Radial_Proofs2 WPBE_Model WPBE_Spec WPBE_Proofs.
Open Scope R_scope.

(** functions that decay at least as 1/y *)
Definition O1 (f : R -> R) : Prop := exists K, forall y, 1 <= y -> Rabs (f y) <= K / y.
Lemma O1_plus f g : O1 f -> O1 g -> O1 (fun y => f y + g y).
Proof.
  intros [K HK] [L HL]. exists (K + L). intros y Hy. specialize (HK y Hy). specialize (HL y Hy). pose proof (Rabs_triang (f y) (g y)). replace ((K + L) / y) with (K / y + L / y) by (field; lra). lra.
Qed.
Lemma O1_mult f g M : O1 f -> (forall y, Rabs (g y) <= M) -> O1 (fun y => g y * f y).
Proof.
  intros [K HK] HM. exists (M * K). intros y Hy. rewrite Rabs_mult. replace (M * K / y) with (M * (K / y)) by (field; lra).
  apply Rmult_le_compat; try apply Rabs_pos; auto.
Qed.
Lemma O1_scal c f : O1 f -> O1 (fun y => c * f y).
Proof. intros H. apply (O1_mult f (fun _ => c) (Rabs c)); [exact H|intros; lra]. Qed.
Lemma O1_lim f v : O1 (fun y => f y - v) -> is_lim f p_infty v.
Proof.
  intros [K HK]. apply is_lim_spec. intros eps. exists (Rmax 1 (Rabs K / eps)). intros y Hy. assert (P := cond_pos eps).
  assert (1 < y) by (apply Rle_lt_trans with (2 := Hy); apply Rmax_l). assert (Rabs K / eps < y) by (apply Rle_lt_trans with (2 := Hy); apply Rmax_r).
  apply Rle_lt_trans with (1 := HK y ltac:(lra)). apply Rle_lt_trans with (Rabs K / y). { apply Rmult_le_compat_r; [left; apply Rinv_0_lt_compat; lra|apply Rle_abs]. }
  apply (Rmult_lt_reg_r y); [lra|]. replace (Rabs K / y * y) with (Rabs K) by (field; lra). replace (Rabs K) with (Rabs K / eps * eps) by (field; lra). rewrite (Rmult_comm eps). apply Rmult_lt_compat_r; lra.
Qed.
Lemma exp_cube u : 0 <= u -> u * u * u / 27 <= exp u.
Proof.
  intros H. replace u with (u / 3 + u / 3 + u / 3) at 4 by field. rewrite !exp_plus. assert (u / 3 <= exp (u / 3)). { destruct (Req_dec u 0) as [->|N]; [pose proof (exp_pos (0 / 3)); lra|]. left. pose proof (exp_ineq1 (u / 3) ltac:(lra)). lra. }
  replace (u * u * u / 27) with (u / 3 * (u / 3) * (u / 3)) by field. assert (0 <= u / 3) by lra. apply Rmult_le_compat; try lra; [nra|]. apply Rmult_le_compat; lra.
Qed.
Lemma O1_gauss c k : 0 < c -> (k <= 5)%nat -> O1 (fun y => y ^ k * exp (- (c * (y * y)))).
Proof.
  intros Hc Hk. exists (27 / (c * c * c)). intros y Hy. assert (P := pow_lt y k ltac:(lra)). assert (Q := exp_pos (- (c * (y * y)))). rewrite Rabs_pos_eq by nra.
  assert (E : exp (- (c * (y * y))) <= 27 / (c * c * c * y ^ 6)).
  { rewrite exp_Ropp. assert (X := exp_cube (c * (y * y)) ltac:(nra)). assert (0 < y ^ 6) by (apply pow_lt; lra). assert (0 < c * c * c) by (repeat apply Rmult_lt_0_compat; lra). assert (0 < c * c * c * y ^ 6) by (apply Rmult_lt_0_compat; lra).
    replace (27 / (c * c * c * y ^ 6)) with (/ (c * (y * y) * (c * (y * y)) * (c * (y * y)) / 27)). 2: { field. lra. }
    apply Rinv_le_contravar; [|exact X]. replace (c * (y * y) * (c * (y * y)) * (c * (y * y)) / 27) with (c * c * c * y ^ 6 / 27) by field. lra. }
  apply Rle_trans with (y ^ 5 * (27 / (c * c * c * y ^ 6))). { apply Rmult_le_compat; [lra|lra|apply Rle_pow; [lra|lia]|exact E]. }
  right. field. lra.
Qed.
Lemma O1_ext f g : (forall y, f y = g y) -> O1 f -> O1 g.
Proof. intros E [K H]. exists K. intros y Hy. rewrite <- E. auto. Qed.

Section Anti.
Context (A B : R) (HA : 0 < A) (HB : 0 <= B).
Let S := A + B * B.
Let s := sqrt S.
Lemma S_pos : 0 < S. Proof using HA. unfold S. nra. Qed.
Lemma s_pos : 0 < s /\ s * s = S. Proof using HA. pose proof S_pos. unfold s. split; [apply sqrt_lt_R0; exact H|apply sqrt_sqrt; lra]. Qed.
Lemma w_is : isq A B = / s.
Proof using HA. destruct (isq_pos A B HA) as [P Q]. fold S in Q. pose proof s_pos as [s0 ss]. apply (Rmult_eq_reg_r s); [|lra]. rewrite Rinv_l by lra. assert (X : (isq A B * s) * (isq A B * s) = 1) by (replace (isq A B * s * (isq A B * s)) with (isq A B * isq A B * (s * s)) by ring; rewrite Q, ss; pose proof S_pos; field; lra). assert (0 < isq A B * s) by (apply Rmult_lt_0_compat; lra). nra. Qed.
Context (p0 p2 p4 al b g : R).
Definition anti (y : R) : R := (p0 + p2 * y ^ 2 + p4 * y ^ 4) * (exp (- (A * (y * y))) * erfc (B * y)) + al * erf (s * y) + (b * y + g * y ^ 3) * exp (- (S * (y * y))).
Lemma anti_derive y : is_derive anti y
  ((2 * p2 * y + 4 * p4 * y ^ 3 - 2 * A * y * (p0 + p2 * y ^ 2 + p4 * y ^ 4)) * (exp (- (A * (y * y))) * erfc (B * y)) +
   exp (- (S * (y * y))) * (- (2 * B / sqrt PI) * (p0 + p2 * y ^ 2 + p4 * y ^ 4) + al * s * (2 / sqrt PI) + b + 3 * g * y ^ 2 - 2 * S * y * (b * y + g * y ^ 3))).
Proof using HA.
  pose proof s_pos as [s0 ss]. unfold anti.
  assert (DE : forall c : R, is_derive (fun y : R => exp (- (c * (y * y)))) y (-2 * c * y * exp (- (c * (y * y))))) by (intros c; auto_derive; [exact I|ring]).
  assert (DC : is_derive (fun y : R => erfc (B * y)) y (B * - (2 / sqrt PI * gauss (B * y)))). { apply (along erfc (fun y => B * y)); [auto_derive; [exact I|ring]|apply is_derive_erfc]. }
  assert (DF : is_derive (fun y : R => erf (s * y)) y (s * (2 / sqrt PI * gauss (s * y)))). { apply (along erf (fun y => s * y)); [auto_derive; [exact I|ring]|apply is_derive_erf]. }
  assert (DP : is_derive (fun y : R => p0 + p2 * y ^ 2 + p4 * y ^ 4) y (2 * p2 * y + 4 * p4 * y ^ 3)) by (auto_derive; [exact I|ring]).
  assert (DQ : is_derive (fun y : R => b * y + g * y ^ 3) y (b + 3 * g * y ^ 2)) by (auto_derive; [exact I|ring]).
  assert (G1 : gauss (s * y) = exp (- (S * (y * y)))) by (unfold gauss; f_equal; rewrite <- ss; ring).
  assert (G2 : exp (- (A * (y * y))) * gauss (B * y) = exp (- (S * (y * y)))) by (unfold gauss; rewrite <- exp_plus; f_equal; unfold S; ring).
  eapply dis. { apply dadd; [apply dadd|]. - apply (dmul (fun y => p0 + p2 * y ^ 2 + p4 * y ^ 4) (fun y => exp (- (A * (y * y))) * erfc (B * y))); [exact DP|apply (dmul (fun y => exp (- (A * (y * y)))) (fun y => erfc (B * y))); [apply DE|exact DC]].
    - apply dscal. exact DF. - apply (dmul (fun y => b * y + g * y ^ 3) (fun y => exp (- (S * (y * y))))); [exact DQ|apply DE]. }
  cbv beta. rewrite G1.
  replace (exp (- (A * (y * y))) * (B * - (2 / sqrt PI * gauss (B * y)))) with (- B * (2 / sqrt PI) * exp (- (S * (y * y)))) by (rewrite <- G2; ring).
  clear. generalize (exp (- (A * (y * y)))) (exp (- (S * (y * y)))) (erfc (B * y)) s. intros. unfold Rdiv. ring.
Qed.
Lemma anti_lim : is_lim anti p_infty al.
Proof using HA HB.
  apply O1_lim. unfold anti. pose proof s_pos as [s0 ss]. pose proof S_pos as PS.
  assert (BC : forall y, Rabs (erfc (B * y)) <= 2) by (intros y; pose proof (erfc_bounds (B * y)); rewrite Rabs_pos_eq; lra).
  assert (E1 : O1 (fun y => erfc (s * y))).
  { destruct (O1_gauss S 0 PS ltac:(lia)) as [K HK]. exists (4 / PI * K). intros y Hy. specialize (HK y Hy). rewrite pow_O, Rmult_1_l in HK. rewrite Rabs_pos_eq in HK by (left; apply exp_pos).
    pose proof (erfc_bounds (s * y)). rewrite Rabs_pos_eq by lra. apply Rle_trans with (1 := erfc_le (s * y) ltac:(nra)). replace (gauss (s * y)) with (exp (- (S * (y * y)))) by (unfold gauss; f_equal; rewrite <- ss; ring).
    pose proof PI_RGT_0. assert (0 < 4 / PI) by (apply Rdiv_lt_0_compat; lra). replace (4 / PI * K / y) with (4 / PI * (K / y)) by (field; lra). apply Rmult_le_compat_l; lra. }
  eapply O1_ext; [|apply O1_plus; [apply O1_plus|]].
  2: { apply (O1_mult (fun y => p0 * (y ^ 0 * exp (- (A * (y * y)))) + p2 * (y ^ 2 * exp (- (A * (y * y)))) + p4 * (y ^ 4 * exp (- (A * (y * y))))) (fun y => erfc (B * y)) 2); [|exact BC].
       apply O1_plus; [apply O1_plus|]; apply O1_scal, O1_gauss; first [exact HA|lia]. }
  2: { apply (O1_scal (- al)). exact E1. }
  2: { apply (O1_plus (fun y => b * (y ^ 1 * exp (- (S * (y * y))))) (fun y => g * (y ^ 3 * exp (- (S * (y * y)))))); apply O1_scal, O1_gauss; first [exact PS|lia]. }
  intros y. cbv beta. unfold erfc. ring.
Qed.
Lemma anti_0 : anti 0 = p0.
Proof using. unfold anti, erfc. rewrite !Rmult_0_r, erf_0, Ropp_0, exp_0. ring. Qed.
Lemma anti_improper f : (forall y, f y = (2 * p2 * y + 4 * p4 * y ^ 3 - 2 * A * y * (p0 + p2 * y ^ 2 + p4 * y ^ 4)) * (exp (- (A * (y * y))) * erfc (B * y)) +
   exp (- (S * (y * y))) * (- (2 * B / sqrt PI) * (p0 + p2 * y ^ 2 + p4 * y ^ 4) + al * s * (2 / sqrt PI) + b + 3 * g * y ^ 2 - 2 * S * y * (b * y + g * y ^ 3))) ->
  (forall y, continuous f y) -> improper f (al - p0).
Proof using HA HB.
  intros E C. unfold improper. apply (is_lim_ext (fun Y => anti Y - p0)).
  { intros Y. rewrite <- anti_0. symmetry. apply int_by; [|exact C]. intros y. rewrite E. apply anti_derive. }
  apply (is_lim_minus' anti (fun _ => p0)); [apply anti_lim|apply is_lim_const].
Qed.
End Anti.

Notation integrand := (integrandOf erfc).
Lemma integrand_cont n A B y : continuous (integrand n A B) y.
Proof.
  apply (@ex_derive_continuous R_AbsRing R_NormedModule). unfold integrandOf. eexists. apply (dmul (fun y => y ^ n * exp (- (A * (y * y)))) (fun y => erfc (B * y))).
  - auto_derive; [exact I|reflexivity].
  - apply (along erfc (fun y => B * y)); [auto_derive; [exact I|reflexivity]|apply is_derive_erfc].
Qed.
Lemma sPI : 0 < sqrt PI. Proof. apply sqrt_lt_R0, PI_RGT_0. Qed.
Ltac prep A B HA := unfold integrandOf; pose proof (S_pos A B HA) as PS; destruct (s_pos A B HA) as [s0 ss]; pose proof sPI as pp; rewrite <- ss in *; set (s := sqrt (A + B * B)) in *.
Lemma int1 A B : 0 < A -> 0 <= B -> improper (integrand 1 A B) (ei (integralErfcGaussian1 A B)).
Proof.
  intros HA HB. unfold integralErfcGaussian1. cbn [ei]. fold (isq A B). rewrite (w_is A B HA).
  replace ((1 - B * / sqrt (A + B * B)) * 0.5 * (1 / A)) with (- (B * / sqrt (A + B * B)) / (2 * A) - - (1 / (2 * A))).
  2: { replace 0.5 with (/ 2) by lra. pose proof (proj1 (s_pos A B HA)). field. split; lra. }
  apply (anti_improper A B HA HB (- (1 / (2 * A))) 0 0 (- (B * / sqrt (A + B * B)) / (2 * A)) 0 0); [|intros; apply integrand_cont].
  intros y. unfold integrandOf. pose proof (proj1 (s_pos A B HA)) as s0. pose proof sPI as pp. generalize (exp (- (A * (y * y)))) (exp (- ((A + B * B) * (y * y)))) (erfc (B * y)). intros e1 e2 c. revert s0. generalize (sqrt (A + B * B)). intros s s0. field. repeat split; lra.
Qed.
Lemma int3 A B : 0 < A -> 0 <= B -> improper (integrand 3 A B) (ei (integralErfcGaussian3 A B)).
Proof.
  intros HA HB. unfold integralErfcGaussian3. cbn [ei]. fold (isq A B). rewrite (w_is A B HA). destruct (s_pos A B HA) as [s0 ss]. set (s := sqrt (A + B * B)) in *. pose proof sPI as pp.
  set (b := B / (2 * sqrt PI * A * (s * s))).
  replace ((1 - B * (/ s + 0.5 * A * (/ s * (1 / (A + B * B))))) * 0.5 * (1 / A) * (1 / A)) with (- / s * (B / (2 * (A * A)) + b * sqrt PI / 2) - - (1 / (2 * (A * A)))).
  2: { replace 0.5 with (/ 2) by lra. rewrite <- ss. unfold b. field. repeat split; lra. }
  apply (anti_improper A B HA HB (- (1 / (2 * (A * A)))) (- (1 / (2 * A))) 0 (- / s * (B / (2 * (A * A)) + b * sqrt PI / 2)) b 0); [|intros; apply integrand_cont].
  intros y. unfold integrandOf. fold s. generalize (exp (- (A * (y * y)))) (exp (- ((A + B * B) * (y * y)))) (erfc (B * y)). intros e1 e2 c. rewrite <- ss. unfold b. clearbody s. clear b ss HB. revert pp. generalize (sqrt PI). intros p pp. field. repeat split; lra.
Qed.
Lemma int5 A B : 0 < A -> 0 <= B -> improper (integrand 5 A B) (ei (integralErfcGaussian5 A B)).
Proof.
  intros HA HB. unfold integralErfcGaussian5. cbn [ei]. fold (isq A B). rewrite (w_is A B HA). destruct (s_pos A B HA) as [s0 ss]. set (s := sqrt (A + B * B)) in *. pose proof sPI as pp.
  set (g := B / (2 * sqrt PI * A * (s * s))). set (b := (B / (sqrt PI * (A * A)) + 3 * g / 2) / (s * s)).
  match goal with |- improper _ ?v => replace v with (- / s * (B / (A * A * A) + b * sqrt PI / 2) - - (1 / (A * A * A))) end.
  2: { replace 0.5 with (/ 2) by lra. replace 0.375 with (3 / 8) by lra. rewrite <- ss. unfold b, g. field. repeat split; lra. }
  apply (anti_improper A B HA HB (- (1 / (A * A * A))) (- (1 / (A * A))) (- (1 / (2 * A))) (- / s * (B / (A * A * A) + b * sqrt PI / 2)) b g); [|intros; apply integrand_cont].
  intros y. unfold integrandOf. fold s. generalize (exp (- (A * (y * y)))) (exp (- ((A + B * B) * (y * y)))) (erfc (B * y)). intros e1 e2 c. rewrite <- ss. unfold b, g.
  clearbody s. clear b g ss HB. revert pp. generalize (sqrt PI). intros p pp. field. repeat split; lra.
Qed.
(** n = 2: the derivative with respect to B is that of the integral, and the value vanishes for large B *)
Lemma moment3 S : 0 < S -> improper (fun y => y ^ 3 * exp (- (S * (y * y)))) (1 / (2 * S * S)).
Proof.
  intros HS. unfold improper. apply (is_lim_ext (fun Y => 1 / (2 * S * S) - (1 / (2 * S) * (Y ^ 2 * exp (- (S * (Y * Y)))) + 1 / (2 * S * S) * (Y ^ 0 * exp (- (S * (Y * Y))))))).
  { intros Y. symmetry. rewrite (int_by (fun Y => - (1 / (2 * S) * Y ^ 2 + 1 / (2 * S * S)) * exp (- (S * (Y * Y))))).
    - rewrite !Rmult_0_r, Ropp_0, exp_0. req. field. lra.
    - intros y. auto_derive; [exact I|]. field. lra.
    - intros y. apply (@ex_derive_continuous R_AbsRing R_NormedModule). auto_derive. exact I. }
  apply O1_lim. eapply O1_ext; [|apply (O1_scal (-1)); apply O1_plus; [apply (O1_scal (1 / (2 * S))), (O1_gauss S 2); [exact HS|lia]|apply (O1_scal (1 / (2 * S * S))), (O1_gauss S 0); [exact HS|lia]]].
  intros y. cbv beta. ring.
Qed.
Lemma int2_B A B : 0 < A -> 0 < B -> exists m, improper (fun y => y ^ 3 * exp (- ((A + B * B) * (y * y)))) m /\ is_derive (fun B : R => ei (integralErfcGaussian2 A B)) B (- (2 / sqrt PI) * m).
Proof.
  intros HA HB. exists (1 / (2 * (A + B * B) * (A + B * B))). split; [apply moment3; nra|].
  eapply dis; [apply (curve2 (fun _ => A) (fun b => b) B 0 1); [apply dconst|apply (is_derive_id (K := R_AbsRing))|exact HA|exact HB]|].
  unfold integralErfcGaussian2. cbn [ei_A ei_B]. rewrite Rmult_0_r, Rplus_0_l. pose proof sPI. assert (0 < A + B * B) by nra. field. split; lra.
Qed.
Lemma int2_lim A : 0 < A -> is_lim (fun B => ei (integralErfcGaussian2 A B)) p_infty 0.
Proof.
  intros HA. unfold integralErfcGaussian2. cbn [ei]. set (k := 0.5 * (1 / sqrt PI)). assert (R0 : 0 < sqrt A) by (apply sqrt_lt_R0; exact HA). clearbody k.
  apply O1_lim. apply (O1_ext (fun B => k * (- B * (1 / (A + B * B)) / A + atan (sqrt A / B) * (1 / A) / sqrt A))). { intros y. ring. }
  apply O1_scal. apply O1_plus.
  - exists (1 / A). intros y Hy. assert (0 < A + y * y) by nra. replace (- y * (1 / (A + y * y)) / A) with (- (y / ((A + y * y) * A))) by (field; split; nra). rewrite Rabs_Ropp, Rabs_pos_eq by (apply Rlt_le, Rdiv_lt_0_compat; nra).
    apply (Rmult_le_reg_r ((A + y * y) * A * y)); [apply Rmult_lt_0_compat; nra|]. replace (y / ((A + y * y) * A) * ((A + y * y) * A * y)) with (y * y) by (field; split; nra). replace (1 / A / y * ((A + y * y) * A * y)) with (A + y * y) by (field; split; nra). lra.
  - exists (1 / A). intros y Hy. assert (P : 0 < sqrt A / y) by (apply Rdiv_lt_0_compat; lra). assert (A1 : 0 < atan (sqrt A / y)) by (rewrite <- atan_0; apply atan_increasing; exact P).
    assert (A2 : atan (sqrt A / y) <= sqrt A / y).
    { destruct (MVT_cor2 atan (fun x => / (1 + x * x)) 0 (sqrt A / y) P) as (c&E&Hc). { intros c _. pose proof (derivable_pt_lim_atan c) as D. replace (c * c) with (c ^ 2) by ring. exact D. }
      rewrite atan_0 in E. replace (atan (sqrt A / y)) with (/ (1 + c * c) * (sqrt A / y)) by lra. assert (/ (1 + c * c) <= 1) by (rewrite <- Rinv_1; apply Rinv_le_contravar; nra). nra. }
    rewrite Rabs_pos_eq. 2: { apply Rlt_le, Rdiv_lt_0_compat; [apply Rmult_lt_0_compat; [lra|apply Rdiv_lt_0_compat; lra]|lra]. }
    replace (1 / A / y) with (sqrt A / y * (1 / A) / sqrt A) by (field; repeat split; lra). apply Rmult_le_compat_r; [left; apply Rinv_0_lt_compat; lra|]. apply Rmult_le_compat_r; [|exact A2]. apply Rlt_le, Rdiv_lt_0_compat; lra.
Qed.
