(** What a minimal residual method owes its caller. *)
From Coq Require Import Reals ZArith List.
From Verif Require Import XR_Model VecOps LinSolve_Model LinSolve_Spec.
Import ListNotations.
Open Scope R_scope.

(** Square of a vector. *)
Definition sq {V} (v : VectorOps V) (x : V) : R := v_dot v x x.
(** Inner product without negative squares. *)
Definition semidefinite {V} (v : VectorOps V) : Prop := forall x, 0 <= sq v x.
(** Residual of A x + b = 0 at x = Ks y, scaled by Ks. *)
Definition scaledRes {V} (v : VectorOps V) (A Ks : V -> V) (b y : V) : V := Ks (residual0 v A b (Ks y)).
(** B^n r *)
Definition power {V} (B : V -> V) (n : nat) (r : V) : V := Nat.iter n B r.
(** x + a_0 r + a_1 B r + ... + a_(n-1) B^(n-1) r *)
Definition krylov {V} (v : VectorOps V) (B : V -> V) (x r : V) (a : nat -> R) (n : nat) : V :=
  v_add v x (vsum v (fun i => v_scal v (a i) (power B i r)) n).
(** Only vectors orthogonal to everything are mapped to such. *)
Definition nondegenerate {V} (v : VectorOps V) (B : V -> V) : Prop :=
  forall x, (forall z, v_dot v z (B x) = 0) -> forall z, v_dot v z x = 0.
