From Coq Require Import ZArith Reals List Bool Lia Lra Psatz.
From Coquelicot Require Import Coquelicot.
From Verif Require Import Base Gauss LDA_Model GGA_Model GGA_Proofs WPBE_Model.
Open Scope R_scope.

Ltac decs := replace 0.5 with (/ 2) by lra; replace 1.5 with (3 / 2) by lra; replace 0.375 with (3 / 8) by lra; replace 0.3125 with (5 / 16) by lra;
  replace 1.25 with (5 / 4) by lra; replace 0.75 with (3 / 4) by lra; replace 1.875 with (15 / 8) by lra;
  replace (-0.5) with (- (/ 2)) by lra; replace (-0.75) with (- (3 / 4)) by lra; replace (-1.875) with (- (15 / 8)) by lra.

Lemma dconst (c x : R) : is_derive (fun _ : R => c) x 0. Proof. apply (is_derive_const (V := R_NormedModule)). Qed.
(** the inverse square root along a curve *)
Definition isq (A B : R) : R := sqrt (1 / (A + B * B)).
Lemma isq_pos A B : 0 < A -> 0 < isq A B /\ isq A B * isq A B = 1 / (A + B * B).
Proof. intros H. assert (0 < A + B * B) by nra. assert (0 < 1 / (A + B * B)) by (apply Rdiv_lt_0_compat; lra). unfold isq. split; [apply sqrt_lt_R0; exact H1|apply sqrt_sqrt; lra]. Qed.
Lemma isq_derive (A B : R -> R) (t A' B' : R) : is_derive A t A' -> is_derive B t B' -> 0 < A t ->
  is_derive (fun t : R => isq (A t) (B t)) t (- (A' + 2 * B t * B') / 2 * (isq (A t) (B t) * (1 / (A t + B t * B t)))).
Proof.
  intros DA DB H. destruct (isq_pos (A t) (B t) H) as [P S]. unfold isq in *.
  assert (Q : 0 < A t + B t * B t) by nra.
  assert (D : is_derive (fun t : R => A t + B t * B t) t (A' + (B' * B t + B t * B'))) by (apply dadd; [exact DA|apply dmul; exact DB]).
  assert (D1 : is_derive (fun t : R => 1 / (A t + B t * B t)) t ((0 * (A t + B t * B t) - 1 * (A' + (B' * B t + B t * B'))) / ((A t + B t * B t) * (A t + B t * B t)))).
  { apply (ddiv (fun _ => 1) (fun t => A t + B t * B t)); [apply dconst|exact D|lra]. }
  eapply dis. { apply (along sqrt (fun t => 1 / (A t + B t * B t))); [exact D1|]. apply is_derive_Reals. apply derivable_pt_lim_sqrt. apply Rdiv_lt_0_compat; lra. }
  revert P S. generalize (sqrt (1 / (A t + B t * B t))). intros w P S. assert (W : / (2 * w) = w * (A t + B t * B t) / 2).
  { apply (Rmult_eq_reg_r (2 * w)); [|lra]. rewrite Rinv_l by lra. replace (w * (A t + B t * B t) / 2 * (2 * w)) with (w * w * (A t + B t * B t)) by field. rewrite S. field. lra. }
  rewrite W. field. lra.
Qed.
Lemma inv_derive (A : R -> R) (t A' : R) : is_derive A t A' -> 0 < A t -> is_derive (fun t : R => 1 / A t) t (- A' * (1 / A t) * (1 / A t)).
Proof. intros D P. eapply dis; [apply (ddiv (fun _ => 1) A); [apply dconst|exact D|lra]|]. cbv beta. field. lra. Qed.
Lemma isq2_derive (A B : R -> R) (t A' B' : R) : is_derive A t A' -> is_derive B t B' -> 0 < A t ->
  is_derive (fun t : R => 1 / (A t + B t * B t)) t (- (A' + 2 * B t * B') * (1 / (A t + B t * B t)) * (1 / (A t + B t * B t))).
Proof.
  intros DA DB H. assert (Q : 0 < A t + B t * B t) by nra. eapply dis; [apply (inv_derive (fun t => A t + B t * B t)); [apply dadd; [exact DA|apply dmul; exact DB]|exact Q]|]. cbv beta. field. lra.
Qed.
Lemma dsub (f g : R -> R) (x f' g' : R) : is_derive f x f' -> is_derive g x g' -> is_derive (fun t : R => f t - g t) x (f' - g').
Proof. intros A B. apply (is_derive_minus (V := R_NormedModule)); [exact A|exact B]. Qed.
Ltac der := match goal with
  | |- is_derive (fun _ => _ - _) _ _ => apply dsub; der
  | |- is_derive (fun _ => _ + _) _ _ => apply dadd; der
  | |- is_derive (fun _ => _ * _) _ _ => apply dmul; der
  | H : is_derive ?f ?x _ |- is_derive (fun t => ?f t) ?x _ => exact H
  | H : is_derive ?f ?x _ |- is_derive ?f ?x _ => exact H
  | |- is_derive (fun _ => ?c) _ _ => apply (dconst c)
  end.

Section Curve.
Context (A B : R -> R) (t A' B' : R) (DA : is_derive A t A') (DB : is_derive B t B') (HA : 0 < A t).
Let w := fun t : R => isq (A t) (B t).
Let q := fun t : R => 1 / (A t + B t * B t).
Let i := fun t : R => 1 / A t.
Lemma Dw : is_derive w t (- (A' + 2 * B t * B') / 2 * (w t * q t)). Proof using DA DB HA. apply isq_derive; assumption. Qed.
Lemma Dq : is_derive q t (- (A' + 2 * B t * B') * q t * q t). Proof using DA DB HA. apply isq2_derive; assumption. Qed.
Lemma Di : is_derive i t (- A' * i t * i t). Proof using DA HA. apply inv_derive; assumption. Qed.
Lemma qi : q t * (A t + B t * B t) = 1 /\ i t * A t = 1.
Proof using HA. unfold q, i. assert (0 < A t + B t * B t) by nra. split; field; lra. Qed.

Lemma curve1 : is_derive (fun t : R => ei (integralErfcGaussian1 (A t) (B t))) t (ei_A (integralErfcGaussian1 (A t) (B t)) * A' + ei_B (integralErfcGaussian1 (A t) (B t)) * B').
Proof using DA DB HA.
  pose proof Dw as W. pose proof Dq as Q. pose proof Di as I. destruct qi as [Eq Ei]. unfold integralErfcGaussian1. cbn [ei ei_A ei_B].
  change (is_derive (fun t : R => (1 - B t * w t) * 0.5 * i t) t ((B t * (1.5 * A t + B t * B t) * (w t * q t) - 1) * 0.5 * i t * i t * A' + -0.5 * (w t * q t) * B')).
  clearbody w q i. eapply dis; [der|]. cbv beta. decs. clear W Q I. revert Eq Ei. generalize (w t) (q t) (i t) (A t) (B t). clear w q i. intros w q i a b Eq Ei.
  assert (E : i = 1 / a) by (assert (a <> 0) by (intros ->; lra); apply (Rmult_eq_reg_r a); [rewrite Ei; field; auto|auto]). assert (N : a <> 0) by (intros ->; lra).
  assert (Eq' : q = 1 / (a + b * b)) by (assert (a + b * b <> 0) by (intros Z; rewrite Z in Eq; lra); apply (Rmult_eq_reg_r (a + b * b)); [rewrite Eq; field; auto|auto]).
  assert (N2 : a + b * b <> 0) by (intros Z; rewrite Z in Eq; lra). subst q i. field. split; auto.
Qed.
Lemma curve3 : is_derive (fun t : R => ei (integralErfcGaussian3 (A t) (B t))) t (ei_A (integralErfcGaussian3 (A t) (B t)) * A' + ei_B (integralErfcGaussian3 (A t) (B t)) * B').
Proof using DA DB HA.
  pose proof Dw as W. pose proof Dq as Q. pose proof Di as I. destruct qi as [Eq Ei]. unfold integralErfcGaussian3. cbn [ei ei_A ei_B].
  change (is_derive (fun t : R => (1 - B t * (w t + 0.5 * A t * (w t * q t))) * 0.5 * i t * i t) t
    ((- i t * i t + B t * (0.375 * (w t * q t * q t) + i t * (0.5 * (w t * q t) + i t * w t))) * i t * A' + -0.75 * (w t * q t * q t) * B')).
  clearbody w q i. eapply dis; [der|]. cbv beta. decs. clear W Q I. revert Eq Ei. generalize (w t) (q t) (i t) (A t) (B t). clear w q i. intros w q i a b Eq Ei.
  assert (N : a <> 0) by (intros ->; lra). assert (N2 : a + b * b <> 0) by (intros Z; rewrite Z in Eq; lra).
  assert (E : i = 1 / a) by (apply (Rmult_eq_reg_r a); [rewrite Ei; field; auto|auto]). assert (Eq' : q = 1 / (a + b * b)) by (apply (Rmult_eq_reg_r (a + b * b)); [rewrite Eq; field; auto|auto]).
  subst q i. field. split; auto.
Qed.
Lemma curve5 : is_derive (fun t : R => ei (integralErfcGaussian5 (A t) (B t))) t (ei_A (integralErfcGaussian5 (A t) (B t)) * A' + ei_B (integralErfcGaussian5 (A t) (B t)) * B').
Proof using DA DB HA.
  pose proof Dw as W. pose proof Dq as Q. pose proof Di as I. destruct qi as [Eq Ei]. unfold integralErfcGaussian5. cbn [ei ei_A ei_B].
  change (is_derive (fun t : R => i t * (i t * i t - B t * (0.375 * (w t * q t * q t) + i t * (0.5 * (w t * q t) + i t * w t)))) t
    (-3 * i t * (i t * i t * i t - B t * (0.3125 * (w t * q t * q t * q t) + i t * (0.375 * (w t * q t * q t) + i t * (0.5 * (w t * q t) + i t * w t)))) * A' + -1.875 * (w t * q t * q t * q t) * B')).
  clearbody w q i. eapply dis; [der|]. cbv beta. decs. clear W Q I. revert Eq Ei. generalize (w t) (q t) (i t) (A t) (B t). clear w q i. intros w q i a b Eq Ei.
  assert (N : a <> 0) by (intros ->; lra). assert (N2 : a + b * b <> 0) by (intros Z; rewrite Z in Eq; lra).
  assert (E : i = 1 / a) by (apply (Rmult_eq_reg_r a); [rewrite Ei; field; auto|auto]). assert (Eq' : q = 1 / (a + b * b)) by (apply (Rmult_eq_reg_r (a + b * b)); [rewrite Eq; field; auto|auto]).
  subst q i. field. split; auto.
Qed.
Lemma curve2 : 0 < B t -> is_derive (fun t : R => ei (integralErfcGaussian2 (A t) (B t))) t (ei_A (integralErfcGaussian2 (A t) (B t)) * A' + ei_B (integralErfcGaussian2 (A t) (B t)) * B').
Proof using DA DB HA.
  intros HB. pose proof Dq as Q. pose proof Di as I. destruct qi as [Eq Ei]. unfold integralErfcGaussian2. cbn [ei ei_A ei_B].
  set (r := fun t : R => sqrt (A t)). assert (R0 : 0 < r t) by (apply sqrt_lt_R0; exact HA). assert (RR : r t * r t = A t) by (apply sqrt_sqrt; lra).
  assert (Dr : is_derive r t (A' * / (2 * r t))). { apply (along sqrt A); [exact DA|]. apply is_derive_Reals. apply derivable_pt_lim_sqrt. exact HA. }
  assert (Dv : is_derive (fun t : R => r t / B t) t ((A' * / (2 * r t) * B t - r t * B') / (B t * B t))) by (apply ddiv; [exact Dr|exact DB|lra]).
  assert (Dt : is_derive (fun t : R => atan (r t / B t)) t ((A' * / (2 * r t) * B t - r t * B') / (B t * B t) * / (1 + (r t / B t) ^ 2))).
  { apply (along atan (fun t => r t / B t)); [exact Dv|]. apply is_derive_Reals. apply derivable_pt_lim_atan. }
  change (is_derive (fun t : R => 0.5 * (1 / sqrt PI) * (- B t * q t / A t + atan (r t / B t) * i t / r t)) t
    (1 / sqrt PI * (B t * (1.25 + 0.75 * B t * B t * i t) * q t * q t * i t - 0.75 * (atan (r t / B t) * i t / r t) / A t) * A' + - (1 / sqrt PI) * q t * q t * B')).
  set (a := fun t : R => atan (r t / B t)) in *.
  apply (is_derive_ext (fun t : R => 0.5 * (1 / sqrt PI) * ((0 - B t) * q t * i t + a t * i t * (1 / r t)))). { intros x. unfold i, a. unfold Rdiv. req. ring. }
  pose proof (inv_derive r t _ Dr R0) as DR. set (p := fun t : R => 1 / r t) in *. change (fun t : R => 1 / r t) with p in DR.
  change (atan (r t / B t)) with (a t). change (is_derive (fun t : R => 0.5 * (1 / sqrt PI) * ((0 - B t) * q t * i t + a t * i t * p t)) t
    (1 / sqrt PI * (B t * (1.25 + 0.75 * B t * B t * i t) * q t * q t * i t - 0.75 * (a t * i t / r t) / A t) * A' + - (1 / sqrt PI) * q t * q t * B')).
  assert (Pp : p t = 1 / r t) by reflexivity. assert (Pq : q t = 1 / (A t + B t * B t)) by reflexivity. assert (Pi : i t = 1 / A t) by reflexivity.
  clear Dv. clearbody p a q i. eapply dis; [der|]. cbv beta. decs. clear Q I Dr Dt DR. rewrite Pp, Pq, Pi. generalize (1 / sqrt PI) (a t). clearbody r. clear DA DB. revert R0 RR HA HB. generalize (r t) (A t) (B t). intros s x b R0 RR HA HB k y. subst x.
  assert (0 < s * s + b * b) by nra. assert (E : / (1 + (s / b) ^ 2) = b * b / (s * s + b * b)) by (field; split; nra). rewrite E. field. repeat split; nra.
Qed.
End Curve.
