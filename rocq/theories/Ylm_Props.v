(** Properties of the real spherical harmonics: C100-C102. *)
From Coq Require Import ZArith QArith Qreals Reals List.
From Coquelicot Require Import Coquelicot.
From Verif Require Import Base Vec3_Model Ylm_Model Ylm_Spec Poly_Proofs Ylm_Proofs Ylm_Proofs2 Ylm_Proofs3 Ylm_Proofs4 Ylm_Proofs5.
Import ListNotations.
Import Vec3_Model.
Open Scope R_scope.

(** ** C100 *)
Theorem C100_homogeneous : forall l m t q, supported l m -> Ylm l m (rvscale t q) = t ^ Z.to_nat l * Ylm l m q.
Proof. exact ylm_homogeneous. Qed.
Print Assumptions C100_homogeneous.
Theorem C100_smooth : forall l m x y z, supported l m -> exists dxx dyy dzz,
  is_derive_n (fun t => Ylm l m (V t y z)) 2 x dxx /\ is_derive_n (fun t => Ylm l m (V x t z)) 2 y dyy /\ is_derive_n (fun t => Ylm l m (V x y t)) 2 z dzz.
Proof. exact ylm_smooth. Qed.
Print Assumptions C100_smooth.
Theorem C100_harmonic : forall l m x y z dxx dyy dzz, supported l m ->
  is_derive_n (fun t => Ylm l m (V t y z)) 2 x dxx -> is_derive_n (fun t => Ylm l m (V x t z)) 2 y dyy -> is_derive_n (fun t => Ylm l m (V x y t)) 2 z dzz -> dxx + dyy + dzz = 0.
Proof. exact ylm_harmonic. Qed.
Print Assumptions C100_harmonic.
Theorem C100_orthogonal : forall l m l' m', supported l m -> supported l' m' -> (l, m) <> (l', m') -> sphereInt (fun q => Ylm l m q * Ylm l' m' q) 0.
Proof. exact ylm_orthogonal. Qed.
Print Assumptions C100_orthogonal.
Theorem C100_normalised : forall l m, supported l m -> exists I, sphereInt (fun q => Ylm l m q * Ylm l m q) I /\ Rabs (I - 1) <= 4 / 10 ^ 16.
Proof. exact ylm_normalised. Qed.
Print Assumptions C100_normalised.
Theorem C100_integral_unique : forall f I J, sphereInt f I -> sphereInt f J -> I = J.
Proof. exact sphereInt_unique. Qed.
Print Assumptions C100_integral_unique.
Theorem C100_addition : forall l p q, (l <= 6)%nat -> isUnit p -> isUnit q ->
  Rabs (sumOrders l (fun m => Ylm (Z.of_nat l) m p * Ylm (Z.of_nat l) m q) - (2 * INR l + 1) / (4 * PI) * legendre l (c0 p * c0 q + c1 p * c1 q + c2 p * c2 q)) <= 3 / 10 ^ 12.
Proof. exact addition_theorem. Qed.
Print Assumptions C100_addition.
Theorem C100_axis : forall l, (0 <= l <= 6)%Z -> Ylm l 0 (V 0 0 1) > 28 / 100.
Proof. exact pole_axis. Qed.
Print Assumptions C100_axis.
Example C100_example : isUnit (V 0 0 1) /\ isUnit (V (3/5) 0 (4/5)) /\ supported 2 1 /\ Ylm 2 1 (V (3/5) 0 (4/5)) = 1.0925484305920792 * (12 / 25).
Proof. exact ylm_example. Qed.

(** ** C101 *)
Theorem C101_product : forall l1 m1 l2 m2 q, (0 <= l1 <= 3)%Z -> (- l1 <= m1 <= l1)%Z -> (0 <= l2 <= 3)%Z -> (- l2 <= m2 <= l2)%Z -> isUnit q ->
  Rabs (Ylm l1 m1 q * Ylm l2 m2 q - expansion (fun l m => Ylm l m q) (map (fun t => (fst t, Q2R (snd t))) (expandYlmProd_lm l1 m1 l2 m2))) <= 2 / 10 ^ 15.
Proof. exact product_value. Qed.
Print Assumptions C101_product.
Theorem C101_terms : forall l1 m1 l2 m2 l m c, (0 <= l1 <= 3)%Z -> (- l1 <= m1 <= l1)%Z -> (0 <= l2 <= 3)%Z -> (- l2 <= m2 <= l2)%Z -> In (l, m, c) (expandYlmProd_lm l1 m1 l2 m2) ->
  supported l m /\ (Z.abs (l1 - l2) <= l <= l1 + l2)%Z /\ Q2R c <> 0.
Proof. exact product_terms. Qed.
Print Assumptions C101_terms.
Theorem C101_symmetric : forall lm1 lm2, expandYlmProd lm1 lm2 = expandYlmProd lm2 lm1.
Proof. exact product_symmetric. Qed.
Print Assumptions C101_symmetric.
Theorem C101_high_degree_refuted : exists l1 m1 l2 m2 q, supported l1 m1 /\ supported l2 m2 /\ isUnit q /\ expandYlmProd_lm l1 m1 l2 m2 = [] /\ Ylm l1 m1 q * Ylm l2 m2 q > 7 / 100.
Proof. exact product_beyond. Qed.
Print Assumptions C101_high_degree_refuted.
Example C101_example : expandYlmProd_lm 1 0 1 0 = [(0, 0, 0.28209479177387814%Q); (2, 0, 0.252313252202016%Q)]%Z /\ isUnit (V (3/5) 0 (4/5)).
Proof. exact (conj product_example slanted_unit). Qed.

(** ** C102 *)
Theorem C102_gradient : forall l m x y z, supported l m -> isUnit (V x y z) -> exists dx dy dz,
  is_derive (fun t => Ylm l m (V t y z)) x dx /\ is_derive (fun t => Ylm l m (V x t z)) y dy /\ is_derive (fun t => Ylm l m (V x y t)) z dz /\
  Rabs (c0 (YlmPrime l m (V x y z)) - dx) <= 2 / 10 ^ 14 /\ Rabs (c1 (YlmPrime l m (V x y z)) - dy) <= 2 / 10 ^ 14 /\ Rabs (c2 (YlmPrime l m (V x y z)) - dz) <= 2 / 10 ^ 14.
Proof. exact ylm_gradient. Qed.
Print Assumptions C102_gradient.
Example C102_example : forall q, c2 (YlmPrime 1 0 q) = sqrt 3 * 0.28209479177387814 /\ c0 (YlmPrime 1 0 q) = 0.
Proof. exact prime_example. Qed.
