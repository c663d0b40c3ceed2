(** Plane waves below the cutoff, independent of the code. *)
From Coq Require Import ZArith Reals List.
From Verif Require Import Base Vec3_Model.
Import ListNotations.
Open Scope R_scope.

(** q is the Cartesian wave vector with fractional reciprocal coordinates g + k: its products with the lattice vectors
    (the columns of R) are 2 pi (g + k) *)
Definition wave_vector (Rl : mat R) (k : vec R) (g : vec Z) (q : vec R) : Prop :=
  rdot q (col0 Rl) = 2 * PI * (IZR (c0 g) + c0 k) /\ rdot q (col1 Rl) = 2 * PI * (IZR (c1 g) + c1 k) /\ rdot q (col2 Rl) = 2 * PI * (IZR (c2 g) + c2 k).
Definition below_cutoff (Rl : mat R) (Ecut : R) (k : vec R) (g : vec Z) : Prop :=
  exists q, wave_vector Rl k g q /\ rlen2 q / 2 <= Ecut.
Definition low_G (g : vec Z) : Prop := (-1 <= c0 g <= 1 /\ -1 <= c1 g <= 1 /\ -1 <= c2 g <= 1)%Z.
Definition fits_box (S : Z * Z * Z) (g : vec Z) : Prop :=
  let '(a,b,c) := S in (- a < 2 * c0 g <= a /\ - b < 2 * c1 g <= b /\ - c < 2 * c2 g <= c)%Z.
