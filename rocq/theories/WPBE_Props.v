(** C109, C110, C111: short-ranged exchange and exchange potentials without an energy.  Only theorems closed by [exact], examples and assumptions. *)
From Coq Require Import ZArith Reals List Bool Lra.
From Coquelicot Require Import Coquelicot.
From Verif Require Import Base Gauss LDA_Model LDA_Proofs LDA_Proofs2 GGA_Model GGA_Proofs3 WPBE_Model WPBE_Spec WPBE_Proofs WPBE_Proofs2 WPBE_Proofs3 WPBE_Proofs4.
Open Scope R_scope.

(** the closed forms are the integrals over the half line *)
Theorem C109_integral1 : forall A B, 0 < A -> 0 <= B -> improper (integrandOf erfc 1 A B) (ei (integralErfcGaussian1 A B)).
Proof. exact int1. Qed.
Print Assumptions C109_integral1.
Theorem C109_integral3 : forall A B, 0 < A -> 0 <= B -> improper (integrandOf erfc 3 A B) (ei (integralErfcGaussian3 A B)).
Proof. exact int3. Qed.
Print Assumptions C109_integral3.
Theorem C109_integral5 : forall A B, 0 < A -> 0 <= B -> improper (integrandOf erfc 5 A B) (ei (integralErfcGaussian5 A B)).
Proof. exact int5. Qed.
Print Assumptions C109_integral5.
(** for n = 2: zero for large B, and its derivative with respect to B is the integral of the derivative of the integrand *)
Theorem C109_integral2_derivative : forall A B, 0 < A -> 0 < B ->
  exists m, improper (fun y => y ^ 3 * exp (- ((A + B * B) * (y * y)))) m /\ is_derive (fun B : R => ei (integralErfcGaussian2 A B)) B (- (2 / sqrt PI) * m).
Proof. exact int2_B. Qed.
Print Assumptions C109_integral2_derivative.
Theorem C109_integral2_limit : forall A, 0 < A -> is_lim (fun B => ei (integralErfcGaussian2 A B)) p_infty 0.
Proof. exact int2_lim. Qed.
Print Assumptions C109_integral2_limit.
(** the derivatives returned beside them, along every curve *)
Theorem C109_derivatives1 : forall (A B : R -> R) (t A' B' : R), is_derive A t A' -> is_derive B t B' -> 0 < A t ->
  is_derive (fun t : R => ei (integralErfcGaussian1 (A t) (B t))) t (ei_A (integralErfcGaussian1 (A t) (B t)) * A' + ei_B (integralErfcGaussian1 (A t) (B t)) * B').
Proof. exact curve1. Qed.
Print Assumptions C109_derivatives1.
Theorem C109_derivatives2 : forall (A B : R -> R) (t A' B' : R), is_derive A t A' -> is_derive B t B' -> 0 < A t -> 0 < B t ->
  is_derive (fun t : R => ei (integralErfcGaussian2 (A t) (B t))) t (ei_A (integralErfcGaussian2 (A t) (B t)) * A' + ei_B (integralErfcGaussian2 (A t) (B t)) * B').
Proof. exact curve2. Qed.
Print Assumptions C109_derivatives2.
Theorem C109_derivatives3 : forall (A B : R -> R) (t A' B' : R), is_derive A t A' -> is_derive B t B' -> 0 < A t ->
  is_derive (fun t : R => ei (integralErfcGaussian3 (A t) (B t))) t (ei_A (integralErfcGaussian3 (A t) (B t)) * A' + ei_B (integralErfcGaussian3 (A t) (B t)) * B').
Proof. exact curve3. Qed.
Print Assumptions C109_derivatives3.
Theorem C109_derivatives5 : forall (A B : R -> R) (t A' B' : R), is_derive A t A' -> is_derive B t B' -> 0 < A t ->
  is_derive (fun t : R => ei (integralErfcGaussian5 (A t) (B t))) t (ei_A (integralErfcGaussian5 (A t) (B t)) * A' + ei_B (integralErfcGaussian5 (A t) (B t)) * B').
Proof. exact curve5. Qed.
Print Assumptions C109_derivatives5.
Example C109_example : 0 < 1 /\ 0 <= 0 /\ ei (integralErfcGaussian1 1 0) = 1 / 2 /\ ei (integralErfcGaussian3 1 0) = 1 / 2 /\ ei (integralErfcGaussian5 1 0) = 1.
Proof. unfold integralErfcGaussian1, integralErfcGaussian3, integralErfcGaussian5. cbn [ei]. repeat split; lra. Qed.

(** derivatives of the energy per particle along every curve of rs and s2, away from the two thresholds of the scaling *)
Theorem C110_derivatives : forall (rs u : R -> R) (t rs' u' : R), is_derive rs t rs' -> is_derive u t u' -> 0 < rs t -> 0 < u t -> u t <> 1 -> u t <> 225 ->
  exists d, wo_s2 (GGA_X_wPBE_SR (rs t) (u t)) = Some d /\
    is_derive (fun t : R => wo_e (GGA_X_wPBE_SR (rs t) (u t))) t (wo_rs (GGA_X_wPBE_SR (rs t) (u t)) * rs' + d * u').
Proof. exact wPBE_curve. Qed.
Print Assumptions C110_derivatives.
Example C110_example : 0 < 2 /\ 0 < 3 /\ 3 <> 1 /\ 3 <> 225.
Proof. repeat split; lra. Qed.
(** without a gradient the derivative with respect to s2 is not finite *)
Theorem C110_uniform_refuted : exists rs, 0 < rs /\ forall d, wo_s2 (GGA_X_wPBE_SR rs 0) <> Some d.
Proof. exact wPBE_uniform_ex. Qed.
Print Assumptions C110_uniform_refuted.
(** the scaled s is not a continuous function of s *)
Theorem C110_scaling_refuted : exists x, 0 < x /\ ~ continuity_pt (fun u => fst (scaleS u)) x.
Proof. exact scale_discontinuous. Qed.
Print Assumptions C110_scaling_refuted.
(** it jumps down at s = 1 by at least the following *)
Theorem C110_scaling_jump : forall x, 1 < x <= 225 -> sqrt (fst (scaleS x)) < sqrt x - exp (1 - sMax) / 2.
Proof. exact scale_jump1. Qed.
Print Assumptions C110_scaling_jump.
Example C110_scaling_example : fst (scaleS 1) = 1 /\ 1 < 1.0001 <= 225.
Proof. unfold scaleS. destruct (Rlt_dec 225 1); [lra|]. destruct (Rlt_dec 1 1); [lra|]. cbn. lra. Qed.

(** LB94: the published formula, with the density and gradient multiplied by the number of spin channels *)
Theorem C111_LB94 : forall c k n s, 0 < c -> nCutoff <= n * c -> 0 <= s -> LB94 c k n s = k * published (n * c) (c * sqrt s).
Proof. exact LB94_val. Qed.
Print Assumptions C111_LB94.
Theorem C111_LB94_sign : forall c k n s, 0 < c -> 0 <= k -> LB94 c k n s <= 0 /\ LB94 c k n 0 = 0.
Proof. exact LB94_sign. Qed.
Print Assumptions C111_LB94_sign.
Theorem C111_LB94_equal_spins : forall k n s, 0 <= s -> LB94 2 k (n / 2) (s / 4) = LB94 1 k n s.
Proof. exact LB94_equal. Qed.
Print Assumptions C111_LB94_equal_spins.
(** the published formula is one of the spin density itself *)
Theorem C111_LB94_spin_refuted : exists n s, nCutoff <= n /\ 0 <= s /\ LB94 2 1 n s <> published n (sqrt s).
Proof. exact LB94_spin_ex. Qed.
Print Assumptions C111_LB94_spin_refuted.
(** an exponentially decaying density has no -1/r potential: it is zero beyond some radius *)
Theorem C111_LB94_tail : forall N al, 0 < N -> 0 < al -> exists r0, forall r s, r0 < r -> LB94 1 1 (N * exp (- (al * r))) s = 0.
Proof. exact LB94_tail. Qed.
Print Assumptions C111_LB94_tail.
Theorem C111_LB94_asymptote_refuted : exists N al, 0 < N /\ 0 < al /\ ~ is_lim (fun r => r * LB94 1 1 (N * exp (- (al * r))) ((al * (N * exp (- (al * r)))) ^ 2)) p_infty (-1).
Proof. exact LB94_asymptote. Qed.
Print Assumptions C111_LB94_asymptote_refuted.
(** GLLB-sc: energy of PBEsol exchange, potential twice its energy per particle *)
Theorem C111_GLLBsc : forall c k n s, 0 < n -> fst (GLLBsc c k n s) = i_E (calcX X_PBEsol c k n s) /\ n * snd (GLLBsc c k n s) = 2 * i_E (calcX X_PBEsol c k n s).
Proof. exact GLLBsc_val. Qed.
Print Assumptions C111_GLLBsc.
Example C111_example : 0 < 2 /\ nCutoff <= 1 * 2 /\ 0 <= 3.
Proof. pose proof (big 2 ltac:(lra)). lra. Qed.
