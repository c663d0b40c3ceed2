(** What a linear solver owes its caller. *)
From Coq Require Import Reals ZArith List Bool.
From Verif Require Import XR_Model VecOps LinSolve_Model.
Import ListNotations.
Open Scope R_scope.

Definition linear {V} (v : VectorOps V) (A : V -> V) : Prop :=
  (forall x y, A (v_add v x y) = v_add v (A x) (A y)) /\ (forall a x, A (v_scal v a x) = v_scal v a (A x)).

(** The residual of A x = rhs, and of A x + b = 0. *)
Definition residual {V} (v : VectorOps V) (A : V -> V) (rhs x : V) : V := v_add v rhs (v_scal v (-1) (A x)).
Definition residual0 {V} (v : VectorOps V) (A : V -> V) (b x : V) : V := v_scal v (-1) (v_add v (A x) b).

(** All recorded residuals are the true ones, with their preconditioned square norms. *)
Definition true_residuals {V} (v : VectorOps V) (K : V -> V) (res : V -> V) (out : SolveOut V) : Prop :=
  forall it, In it (so_trace out) -> it_r it = res (it_x it) /\ it_rz it = v_dot v (res (it_x it)) (K (res (it_x it))).
(** Preconditioned square norm of the residual of a state. *)
Definition rz_of {V} (v : VectorOps V) (K : V -> V) (res : V -> V) (x : V) : R := v_dot v (res x) (K (res x)).
(** Symmetric operators, and positive definite ones. *)
Definition symmetric {V} (v : VectorOps V) (A : V -> V) : Prop := forall x y, v_dot v (A x) y = v_dot v x (A y).
Definition definite {V} (v : VectorOps V) (A : V -> V) : Prop := forall x, (exists y, v_dot v x y <> 0) -> 0 < v_dot v x (A x).
(** At most n vectors are linearly independent. *)
Fixpoint vsum {V} (v : VectorOps V) (f : nat -> V) (n : nat) : V := match n with O => v_zero v | S k => v_add v (vsum v f k) (f k) end.
Definition dimension_le {V} (v : VectorOps V) (n : nat) : Prop :=
  forall f : nat -> V, exists c : nat -> R, (exists i, (i <= n)%nat /\ c i <> 0) /\ vsum v (fun i => v_scal v (c i) (f i)) (S n) = v_zero v.
