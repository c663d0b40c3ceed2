(** Translation of periodic functions on a grid. *)
From Coq Require Import ZArith Reals List.
From Verif Require Import Base Grid_Spec Vec3_Model.
Import ListNotations.
Local Open Scope R_scope.

(** periodic function of the grid point g given by a row-major array *)
Definition per (S : Z*Z*Z) (f : Z -> R) (g : Z*Z*Z) : R := f (row_major S (snd S) g).
Definition plus3 (a b : Z*Z*Z) : Z*Z*Z := let '(x,y,z) := a in let '(u,v,w) := b in (x+u, y+v, z+w)%Z.
Definition minus3 (a b : Z*Z*Z) : Z*Z*Z := let '(x,y,z) := a in let '(u,v,w) := b in (x-u, y-v, z-w)%Z.
(** n is a nearest integer of t *)
Definition nearest (t : R) (n : Z) : Prop := Rabs (t - IZR n) <= 1/2.
(** piecewise linear interpolation in one variable, by the integer n at or below t *)
Definition below (t : R) (n : Z) : Prop := IZR n <= t < IZR n + 1.
Definition lerp (t : R) (n : Z) (f : Z -> R) : R := (1 - (t - IZR n)) * f n + (t - IZR n) * f (n + 1)%Z.
Definition trilerp (t : vec R) (n : Z*Z*Z) (F : Z*Z*Z -> R) : R :=
  let '(a,b,c) := n in
  lerp (c0 t) a (fun i => lerp (c1 t) b (fun j => lerp (c2 t) c (fun k => F (i, j, k)))).
(** Cartesian position of the (possibly fractional) grid coordinates u *)
Definition position (Rl : mat R) (S : Z*Z*Z) (u : vec R) : vec R :=
  let '(a,b,c) := S in rmv Rl (V (c0 u / IZR a) (c1 u / IZR b) (c2 u / IZR c)).
Definition vgrid (g : Z*Z*Z) : vec R := let '(x,y,z) := g in V (IZR x) (IZR y) (IZR z).
(** sums over the array *)
Fixpoint rsumf (l : list Z) (f : Z -> R) : R := match l with [] => 0 | i :: l' => f i + rsumf l' f end.
Definition count (S : Z*Z*Z) : Z := let '(a,b,c) := S in (a * b * c)%Z.
Definition total (S : Z*Z*Z) (f : Z -> R) : R := rsumf (zrange 0 (count S)) f.
Definition inner (S : Z*Z*Z) (f g : Z -> R) : R := total S (fun i => f i * g i).
