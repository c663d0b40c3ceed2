(** Rotations of space and of spinors. *)
From Coq Require Import Reals.
From Coquelicot Require Import Complex.
From Verif Require Import Vec3_Model Euler_Model.
Local Open Scope R_scope.

(** proper orthogonal matrix *)
Definition is_rotation (m : mat R) : Prop := rmm m (mtrans m) = rid /\ rdet m = 1.
(** orthogonal matrix: a rotation, possibly followed by the inversion *)
Definition is_orthogonal (m : mat R) : Prop := rmm m (mtrans m) = rid.
(** v . sigma for the Pauli matrices *)
Definition pauli (v : vec R) : mat2 :=
  (RtoC (c2 v), (c0 v, - c1 v)%R, (c0 v, c1 v), RtoC (- c2 v)).
Definition dagger2 (a : mat2) : mat2 := let '(a00, a01, a10, a11) := a in (Cconj a00, Cconj a10, Cconj a01, Cconj a11).
Definition id2 : mat2 := (RtoC 1, RtoC 0, RtoC 0, RtoC 1).
Definition det2 (a : mat2) : C := let '(a00, a01, a10, a11) := a in (a00 * a11 - a01 * a10)%C.
Definition is_SU2 (a : mat2) : Prop := mm2 a (dagger2 a) = id2 /\ det2 a = RtoC 1.
(** entrywise distance below d *)
Definition entries_within (d : R) (a b : mat R) : Prop :=
  forall i j, Rabs (mget a i j - mget b i j) < d.
Definition neg2 (a : mat2) : mat2 := let '(a00, a01, a10, a11) := a in (Copp a00, Copp a01, Copp a10, Copp a11).
(** the rotations on which the decomposition into Euler angles is exact: further than 1e-7 from gimbal lock, or locked *)
Definition away (m : mat R) : Prop := Rabs (m22 m) <= 1 - 1/10000000 \/ Rabs (m22 m) = 1.
