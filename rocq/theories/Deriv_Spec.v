(** Specifications for differential operators and inner products of fields. *)
From Coq Require Import ZArith Reals List.
From Coquelicot Require Import Complex.
From Verif Require Import Base Grid_Spec Vec3_Model Convert_Spec.
Import ListNotations.
Open Scope C_scope.

Definition cdot3 (a b : vec C) : C := Cconj (c0 a) * c0 b + Cconj (c1 a) * c1 b + Cconj (c2 a) * c2 b.
(** Hermitian product of lists of components *)
Fixpoint ldot (v w : list C) : C := match v, w with a :: v', b :: w' => Cconj a * b + ldot v' w' | _, _ => RtoC 0 end.
(** full contraction of two 3x3 tensors *)
Definition contract (a b : mat C) : C :=
  Cconj (m00 a) * m00 b + Cconj (m01 a) * m01 b + Cconj (m02 a) * m02 b + Cconj (m10 a) * m10 b + Cconj (m11 a) * m11 b + Cconj (m12 a) * m12 b
  + Cconj (m20 a) * m20 b + Cconj (m21 a) * m21 b + Cconj (m22 a) * m22 b.
Definition symmetric_traceless (m : mat C) : Prop := m01 m = m10 m /\ m12 m = m21 m /\ m20 m = m02 m /\ m00 m + m11 m + m22 m = RtoC 0.
(** Hermitian inner product over the full grid of the fields whose half-space coefficients are x and y: X holds the coefficient of every grid point,
    conjugate at mirrored points *)
Definition extends (S : Z*Z*Z) (x : Z -> C) (X : Z*Z*Z -> C) : Prop :=
  (forall g g', same_mod S g g' -> X g = X g') /\ (forall g, X (neg3 g) = Cconj (X g)) /\ (forall g, halfG_point S g -> X g = coefH S x g).
Fixpoint csum (l : list (Z*Z*Z)) (f : Z*Z*Z -> C) : C := match l with [] => RtoC 0 | g :: l' => f g + csum l' f end.
(** every residue class of the grid once *)
Definition full_grid (S : Z*Z*Z) : list (Z*Z*Z) :=
  let '(a,b,c) := S in flat_map (fun x => flat_map (fun y => map (fun z => (x,y,z)) (zrange 0 c)) (zrange 0 b)) (zrange 0 a).
