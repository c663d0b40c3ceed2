(** Spherical Bessel functions: all arguments, parity, unsupported degrees. *)
From Coq Require Import Reals List Lra Lia AltSeries.
From Coquelicot Require Import Coquelicot.
From Verif Require Import RealUtil Bessel_Model Bessel_Spec Bessel_Proofs Bessel_Proofs2.
Import ListNotations.
Local Open Scope R_scope.

Lemma large_exact : forall l x, (l <= 6)%nat -> 1 + 0.1 * INR l < Rabs x -> sphBessel l x (bessel_jl l x).
Proof.
  intros l x Hl Hx. unfold bessel_jl. destruct (Rlt_dec _ _) as [_|C]; [|contradiction]. apply closed_ok; [exact Hl|]. intros ->. rewrite Rabs_R0 in Hx. pose proof (pos_INR l). lra.
Qed.
Lemma all_error : forall l x, (l <= 6)%nat -> exists v, sphBessel l x v /\ Rabs (bessel_jl l x - v) <= 4 / 10 ^ 15 * (Rabs x ^ l / oddFact (S l)).
Proof.
  intros l x Hl. destruct (Rlt_dec (1 + 0.1 * INR l) (Rabs x)) as [C|C].
  - exists (bessel_jl l x). split; [apply large_exact; assumption|]. replace (bessel_jl l x - bessel_jl l x) with 0 by ring. rewrite Rabs_R0. apply Rmult_le_pos; [lra|]. apply Rdiv_le_0_compat; [apply pow_le, Rabs_pos|apply oddFact_pos].
  - destruct (small_error l x Hl ltac:(lra)) as [v [A B]]. exists v. split; [exact A|]. unfold bessel_jl. destruct (Rlt_dec _ _); [contradiction|exact B].
Qed.
Lemma sphBessel_unique : forall l x v w, sphBessel l x v -> sphBessel l x w -> v = w.
Proof. intros l x v w A B. rewrite <- (is_series_unique _ _ A). exact (is_series_unique _ _ B). Qed.
Lemma closed_parity l x : x <> 0 -> besselClosed l (- x) = (-1) ^ l * besselClosed l x.
Proof.
  intros N. assert (1 / - x = - (1 / x)) as E by (field; exact N). destruct l as [|[|[|[|[|[|[|l]]]]]]]; unfold besselClosed; rewrite ?E, ?sin_neg, ?cos_neg; cbn [pow]; ring.
Qed.
Lemma series_parity l x : besselSeries l (- x) = (-1) ^ l * besselSeries l x.
Proof.
  rewrite !series_value, !lead_ok. replace (- x * - x) with (x * x) by ring. replace ((- x) ^ l) with ((-1) ^ l * x ^ l) by (rewrite <- Rpow_mult_distr; f_equal; ring). unfold Rdiv. ring.
Qed.
Lemma parity : forall l x, bessel_jl l (- x) = (-1) ^ l * bessel_jl l x.
Proof.
  intros l x. unfold bessel_jl. rewrite Rabs_Ropp. destruct (Rlt_dec _ _) as [C|C]; [|apply series_parity]. apply closed_parity. intros ->. rewrite Rabs_R0 in C. pose proof (pos_INR l). lra.
Qed.
Lemma at_zero : forall l, bessel_jl l 0 = if Nat.eqb l 0 then 1 else 0.
Proof.
  intros l. unfold bessel_jl. destruct (Rlt_dec _ _) as [C|_]; [rewrite Rabs_R0 in C; pose proof (pos_INR l); lra|]. rewrite series_value, lead_ok. destruct l as [|l].
  - cbn [Nat.eqb pow oddFact INR]. replace (0 * 0) with 0 by ring. unfold tg_alt. cbn [sum_f_R0 u pow]. unfold Rdiv. ring_simplify. field.
  - cbn [Nat.eqb]. rewrite pow_ne_zero by lia. unfold Rdiv. ring.
Qed.
Lemma unsupported : exists l x v, 1 + 0.1 * INR l < x /\ sphBessel l x v /\ 0 < v /\ bessel_jl l x = 0.
Proof.
  exists 7%nat, (171 / 100). destruct (small_sum 7 (171 / 100) ltac:(lra)) as [s [A B]]. exists (besselLead 7 (171 / 100) * s). split; [cbn [INR]; lra|]. split; [exact A|]. split.
  - apply Rmult_lt_0_compat; [rewrite lead_ok; apply Rdiv_lt_0_compat; [apply pow_lt; lra|apply oddFact_pos]|].
    pose proof (u_decr 7 (171 / 100 * (171 / 100)) ltac:(lra) 8%nat) as D. assert (0 < sum_f_R0 (tg_alt (u 7 (171 / 100 * (171 / 100)))) 7) as P by (unfold tg_alt; cbn [sum_f_R0 pow u INR]; lra). lra.
  - unfold bessel_jl. destruct (Rlt_dec _ _) as [_|C]; [reflexivity|]. exfalso. apply C. rewrite Rabs_pos_eq by lra. cbn [INR]. lra.
Qed.
Lemma large_example : (2 <= 6)%nat /\ 1 + 0.1 * INR 2 < Rabs (- 3) /\ bessel_jl 1 PI = / PI.
Proof.
  split; [lia|]. split; [rewrite Rabs_left by lra; cbn [INR]; lra|]. unfold bessel_jl. pose proof PI2_3_2. pose proof PI_RGT_0. destruct (Rlt_dec _ _) as [_|C]; [unfold besselClosed; rewrite sin_PI, cos_PI; field; lra|]. exfalso. apply C. rewrite Rabs_pos_eq by lra. cbn [INR]. unfold PI2 in *. lra.
Qed.
