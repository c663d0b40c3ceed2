(** Properties of the spherical Bessel functions: C103. *)
From Coq Require Import Reals.
From Coquelicot Require Import Coquelicot.
From Verif Require Import Bessel_Model Bessel_Spec Bessel_Proofs Bessel_Proofs2 Bessel_Proofs3.
Local Open Scope R_scope.

Theorem C103_large_exact : forall l x, (l <= 6)%nat -> 1 + 0.1 * INR l < Rabs x -> sphBessel l x (bessel_jl l x).
Proof. exact large_exact. Qed.
Print Assumptions C103_large_exact.
Theorem C103_error : forall l x, (l <= 6)%nat -> exists v, sphBessel l x v /\ Rabs (bessel_jl l x - v) <= 4 / 10 ^ 15 * (Rabs x ^ l / oddFact (S l)).
Proof. exact all_error. Qed.
Print Assumptions C103_error.
Theorem C103_unique : forall l x v w, sphBessel l x v -> sphBessel l x w -> v = w.
Proof. exact sphBessel_unique. Qed.
Print Assumptions C103_unique.
Theorem C103_parity : forall l x, bessel_jl l (- x) = (-1) ^ l * bessel_jl l x.
Proof. exact parity. Qed.
Print Assumptions C103_parity.
Theorem C103_zero : forall l, bessel_jl l 0 = if Nat.eqb l 0 then 1 else 0.
Proof. exact at_zero. Qed.
Print Assumptions C103_zero.
(** the comment in the code promises 1 part in 1e15 at the crossover *)
Theorem C103_accuracy_refuted : exists v, sphBessel 0 1 v /\ bessel_jl 0 1 < v * (1 - 3 / 10 ^ 15).
Proof. exact crossover_error. Qed.
Print Assumptions C103_accuracy_refuted.
Theorem C103_high_degree_refuted : exists l x v, 1 + 0.1 * INR l < x /\ sphBessel l x v /\ 0 < v /\ bessel_jl l x = 0.
Proof. exact unsupported. Qed.
Print Assumptions C103_high_degree_refuted.
Example C103_example : (2 <= 6)%nat /\ 1 + 0.1 * INR 2 < Rabs (- 3) /\ bessel_jl 1 PI = / PI.
Proof. exact large_example. Qed.
