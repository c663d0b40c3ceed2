(** Wigner-Seitz cell of a lattice. *)
From Coq Require Import ZArith Reals List Sorted.
From Verif Require Import Vec3_Model.
Import ListNotations.
Local Open Scope R_scope.

(** squared Cartesian length and inner product of lattice coordinates *)
Definition cart2 (Rl : mat R) (x : vec R) : R := rlen2 (rmv Rl x).
(** closer to the origin than to the lattice point l, up to eps |l|^2 *)
Definition closer (Rl : mat R) (eps : R) (x : vec R) (l : vec Z) : Prop :=
  cart2 Rl x <= cart2 Rl (rvsub x (vIZR l)) + eps * cart2 Rl (vIZR l).
(** the Wigner-Seitz cell *)
Definition in_cell (Rl : mat R) (x : vec R) : Prop := forall l, closer Rl 0 x l.
(** intersection of the half spaces of a list of lattice points *)
Definition poly (Rl : mat R) (planes : list (vec Z)) (x : vec R) : Prop := forall l, In l planes -> closer Rl 0 x l.
Definition nonzero (l : vec Z) : Prop := l <> V 0%Z 0%Z 0%Z.
Definition equivalent (x y : vec R) : Prop := exists l : vec Z, y = rvadd x (vIZR l).

(** on or beyond the bisecting plane of the lattice point l *)
Definition beyond (Rl : mat R) (x : vec R) (l : vec Z) : Prop := cart2 Rl (rvsub x (vIZR l)) <= cart2 Rl x.
(** a list of lattice points, taken with both signs, whose bisecting planes bound the cell *)
Definition bounds_cell (Rl : mat R) (planes : list (vec Z)) : Prop :=
  forall y, (forall l, In l planes -> closer Rl 0 y l /\ closer Rl 0 y (zvopp l)) -> in_cell Rl y.
(** a routine that cuts the polyhedron of a list of planes by one more plane, and may forget planes that no longer touch it *)
Definition slices (Rl : mat R) (addPlane : list (vec Z) -> vec Z -> list (vec Z)) : Prop :=
  forall p a, incl (addPlane p a) (a :: p) /\ forall y, poly Rl (addPlane p a) y <-> poly Rl p y /\ closer Rl 0 y a.
(** a bound on the squared extent of the polyhedra inside the parallelepiped of the lattice vectors *)
Definition units : list (vec Z) := [V (-1) 0 0; V 1 0 0; V 0 (-1) 0; V 0 1 0; V 0 0 (-1); V 0 0 1]%Z.
Definition inside_initial (Rl : mat R) (p : list (vec Z)) : Prop := forall y, poly Rl p y -> poly Rl units y.
Definition extent (Rl : mat R) (rMax : list (vec Z) -> R) : Prop :=
  forall p, inside_initial Rl p -> forall y, poly Rl p y -> cart2 Rl y <= rMax p.
Definition by_distance (Rl : mat R) : list (vec Z) -> Prop := StronglySorted (fun a b => cart2 Rl (vIZR a) <= cart2 Rl (vIZR b)).
