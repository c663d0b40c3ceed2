(** Specifications for the exchange kernels. *)
From Coq Require Import ZArith Reals List.
From Verif Require Import Base Gauss Vec3_Model CellMap_Spec.
Import ListNotations.
Local Open Scope R_scope.

Definition real3 (g : vec Z) : vec R := V (IZR (c0 g)) (IZR (c1 g)) (IZR (c2 g)).
(** squared Cartesian length of the wave vector with reduced coordinates k *)
Definition waveSq (Rl : mat R) (k : vec R) : R := rlen2 (rvscale (2 * PI) (rvm k (rinv Rl))).
(** either equal k-points, or k-points not differing by a reciprocal lattice vector on the grid; all other wave vectors are longer than the threshold *)
Definition regular (Rl : mat R) (th : R) (grid : list (vec Z)) (kDiff : vec R) : Prop :=
  (kDiff = V 0 0 0 /\ forall g, In g grid -> g <> (V 0 0 0)%Z -> th < waveSq Rl (real3 g)) \/
  (th <= rlen2 kDiff /\ forall g, In g grid -> th < waveSq Rl (rvadd (real3 g) kDiff)).
(** energy per cell of a unit charge with its images on the lattice, interacting with erfc(omega r)/r *)
Definition imageEnergy (Rl : mat R) (omega : R) (box : list (Z*Z*Z)) : R :=
  1/2 * rsum (fun g => let '(x, y, z) := g in let d := rlen (rmv Rl (V (IZR x) (IZR y) (IZR z))) in
    if Req_EM_T d 0 then 0 else erfc (omega * d) / d) box.
(** a direction without periodicity is not summed over *)
Definition summed (truncated : nat -> bool) (g : Z*Z*Z) : Prop :=
  let '(x, y, z) := g in (truncated 0%nat = true -> x = 0%Z) /\ (truncated 1%nat = true -> y = 0%Z) /\ (truncated 2%nat = true -> z = 0%Z).
Definition integer3 (v : vec R) : Prop := exists x y z : Z, v = V (IZR x) (IZR y) (IZR z).
