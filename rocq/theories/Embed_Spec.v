(** Images of the points of a periodic mesh in the Wigner-Seitz cell, on an enlarged mesh. *)
From Coq Require Import ZArith Reals List.
From Verif Require Import Vec3_Model WS_Spec.
Import ListNotations.
Local Open Scope R_scope.

(** row-major index of mesh coordinates modulo the sample counts *)
Definition flatMod (S q : vec Z) : Z := (((c0 q mod c0 S) * c1 S + c1 q mod c1 S) * c2 S + c2 q mod c2 S)%Z.
Definition points (S : vec Z) : Z := (c0 S * c1 S * c2 S)%Z.
(** lattice coordinates of a mesh point *)
Definition frac (S q : vec Z) : vec R := V (IZR (c0 q) / IZR (c0 S)) (IZR (c1 q) / IZR (c1 S)) (IZR (c2 q) / IZR (c2 S)).
(** point p of the enlarged mesh is an image, in the closed Wigner-Seitz cell, of point i of the original mesh *)
Definition image (Rl : mat R) (S Se : vec Z) (i p : Z) : Prop :=
  exists q : vec Z, in_cell Rl (frac S q) /\ i = flatMod S q /\ p = flatMod Se q.
Definition images (Rl : mat R) (S Se : vec Z) (i : Z) (l : list Z) : Prop := NoDup l /\ forall p, In p l <-> image Rl S Se i p.
(** enlarged mesh: twice as many points along the truncated directions *)
Definition doubled (tr : nat -> bool) (S Se : vec Z) : Prop := forall k, (k < 3)%nat -> vget Se k = ((if tr k then 2 else 1) * vget S k)%Z.
(** the mesh is resolved by the tolerance: mesh points are on a bounding plane or clearly off it *)
Definition resolved (Rl : mat R) (S : vec Z) (planes : list (vec Z)) (tol : R) : Prop :=
  forall q l, In l planes \/ In (zvopp l) planes ->
    let g := cart2 Rl (rvsub (frac S q) (vIZR l)) - cart2 Rl (frac S q) in
    (g < 0 -> g < - (2 * tol) * cart2 Rl (vIZR l)) /\ (0 < g -> 4 * tol * cart2 Rl (vIZR l) <= g * g).
(** mesh coordinates of the cell fit in 16 bits *)
Definition fits16 (Rl : mat R) (S : vec Z) : Prop :=
  (forall k, (k < 3)%nat -> (0 < vget S k < 65536)%Z) /\ forall q, in_cell Rl (frac S q) -> forall k, (k < 3)%nat -> (-32768 <= vget q k < 32768)%Z.
Definition zsum (f : Z -> R) (n : Z) : R := fold_right (fun k s => f (Z.of_nat k) + s) 0 (seq 0 (Z.to_nat n)).
Definition lsum (f : Z -> R) (l : list Z) : R := fold_right (fun p s => f p + s) 0 l.
