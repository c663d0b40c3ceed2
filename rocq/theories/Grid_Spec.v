(** Specification of grid coordinates. *)
From Coq Require Import ZArith List.
From Verif Require Import Base.
Import ListNotations.
Open Scope Z_scope.

Definition pos3 (S : Z*Z*Z) := let '(a,b,c) := S in 0 < a /\ 0 < b /\ 0 < c.

(** Real-space points of the box. *)
Definition r_point (S g : Z*Z*Z) : Prop :=
  let '(a,b,c) := S in let '(x,y,z) := g in 0 <= x < a /\ 0 <= y < b /\ 0 <= z < c.
(** Reciprocal points: the unique representatives with -S/2 < g <= S/2. *)
Definition G_point (S g : Z*Z*Z) : Prop :=
  let '(a,b,c) := S in let '(x,y,z) := g in - a < 2*x <= a /\ - b < 2*y <= b /\ - c < 2*z <= c.
(** Half of reciprocal space kept for real fields: third component non-negative. *)
Definition halfG_point (S g : Z*Z*Z) : Prop :=
  let '(a,b,c) := S in let '(x,y,z) := g in - a < 2*x <= a /\ - b < 2*y <= b /\ 0 <= 2*z <= c.

(** Row-major position of a point in an array with last dimension L (third coordinate contiguous),
    coordinates taken modulo the sample counts. *)
Definition row_major (S : Z*Z*Z) (L : Z) (g : Z*Z*Z) : Z :=
  let '(a,b,c) := S in let '(x,y,z) := g in
  ((x mod a) * b + (y mod b)) * L + z mod c.

Definition neg3 (g : Z*Z*Z) : Z*Z*Z := let '(x,y,z) := g in (-x,-y,-z).

(** A loop visits exactly the indices iStart..iStop-1, in order, each with coordinates that
    are a valid point stored at that index. *)
Definition visits (point : Z*Z*Z -> Prop) (index : Z*Z*Z -> Z) (iStart iStop : Z) (L : list (Z * (Z*Z*Z))) : Prop :=
  map fst L = zrange iStart iStop /\ Forall (fun ig => point (snd ig) /\ index (snd ig) = fst ig) L.
