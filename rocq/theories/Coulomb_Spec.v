(** Meaning of a lattice derivative: homogeneous strain of the lattice vectors. *)
From Coq Require Import ZArith Reals List.
From Verif Require Import Vec3_Model Basis_Model Coulomb_Model.
Import ListNotations.
Local Open Scope R_scope.

(** the lattice R deformed by the strain t e: every column r becomes r + t e r *)
Definition strained (Rl e : mat R) (t : R) : mat R := rmm (rmadd rid (rmscale t e)) Rl.
(** sum over all components *)
Definition ddot (a b : mat R) : R :=
  m00 a * m00 b + m01 a * m01 b + m02 a * m02 b + m10 a * m10 b + m11 a * m11 b + m12 a * m12 b
  + m20 a * m20 b + m21 a * m21 b + m22 a * m22 b.
(** the lattice vector n = R.column(i) is orthogonal to the two others *)
Definition normal_dir (Rl : mat R) (i : nat) : Prop :=
  (i < 3)%nat /\ forall j, (j < 3)%nat -> j <> i -> rdot (mcol Rl i) (mcol Rl j) = 0.
(** the strain neither tilts the direction n nor mixes it with the plane normal to it *)
Definition keeps_normal (e : mat R) (n : vec R) (c : R) : Prop :=
  rmv e n = rvscale c n /\ rvm n e = rvscale c n.
(** the interaction energy of two densities, given on the half reciprocal space, at fixed cell volume v *)
Definition pairEnergy (v : R) (S2 : Z) (K : vec Z -> R) (l : list (vec Z * ((R * R) * (R * R)))) : R :=
  v * fold_right (fun p acc => let '(iG, ((xr, xi), (yr, yi))) := p in
        (if orb (Z.eqb (c2 iG) 0) (Z.eqb (2 * c2 iG) S2) then 1 else 2) * (xr * yr + xi * yi) * K iG + acc) 0 l.
