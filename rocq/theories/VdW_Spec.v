(** Specifications for the dispersion corrections. *)
From Coq Require Import ZArith Reals List.
From Verif Require Import Base Vec3_Model CellMap_Spec.
Import ListNotations.
Local Open Scope R_scope.

(** positions displaced along delta by t, and the lattice strained by t eps *)
Definition displaced (pos delta : nat -> vec R) (t : R) : nat -> vec R := fun c => rvadd (pos c) (rvscale t (delta c)).
Definition strained (Rl eps : mat R) (t : R) : mat R := rmm (rmadd rid (rmscale t eps)) Rl.
(** work done by forces (covariant components) along displacements of n atoms *)
Definition workOf (n : nat) (f delta : nat -> vec R) : R := rsum (fun c => rdot (f c) (delta c)) (seq 0 n).
(** sum of products of all entries *)
Definition contraction (a b : mat R) : R :=
  m00 a * m00 b + m01 a * m01 b + m02 a * m02 b + m10 a * m10 b + m11 a * m11 b + m12 a * m12 b + m20 a * m20 b + m21 a * m21 b + m22 a * m22 b.
(** distance of atom c1 from the image of atom c2 displaced by minus the lattice vector g *)
Definition distance (Rl : mat R) (pos : nat -> vec R) (c1 c2 : nat) (g : Z*Z*Z) : R :=
  let '(x, y, z) := g in rlen (rmv Rl (rvadd (V (IZR x) (IZR y) (IZR z)) (rvsub (pos c1) (pos c2)))).
(** no two different atoms (or images) coincide *)
Definition separate (Rl : mat R) (pos : nat -> vec R) (n : nat) (cells : list (Z*Z*Z)) : Prop :=
  forall c1 c2 g, (c1 < n)%nat -> (c2 < n)%nat -> In g cells -> distance Rl pos c1 c2 g = 0 -> c1 = c2 /\ g = (0, 0, 0)%Z.
(** no pair of atoms at distance exactly d *)
Definition none_at (Rl : mat R) (pos : nat -> vec R) (n : nat) (cells : list (Z*Z*Z)) (d : R) : Prop :=
  forall c1 c2 g, (c1 < n)%nat -> (c2 < n)%nat -> In g cells -> distance Rl pos c1 c2 g <> d.
(** lattice vectors whose components do not exceed half the (odd) sample counts, each once *)
Definition whole_box (S : Z*Z*Z) (l : list (Z*Z*Z)) : Prop :=
  NoDup l /\ forall x y z, In (x, y, z) l <-> let '(a, b, c) := S in (2 * Z.abs x < a /\ 2 * Z.abs y < b /\ 2 * Z.abs z < c)%Z.
(** sum over atoms c2 and images g of a function of the distance from atom c1, leaving out the atom itself and everything beyond the cutoff *)
Definition neighbour_sum (Rl : mat R) (pos : nat -> vec R) (n : nat) (box : list (Z*Z*Z)) (cut : R -> bool) (f : nat -> R -> R) (c1 : nat) : R :=
  rsum (fun c2 => rsum (fun g => let d := distance Rl pos c1 c2 g in if Req_EM_T d 0 then 0 else if cut d then f c2 d else 0) box) (seq 0 n).
(** lattice vectors that are pairwise orthogonal *)
Definition orthogonal (Rl : mat R) : Prop := rdot (col0 Rl) (col1 Rl) = 0 /\ rdot (col0 Rl) (col2 Rl) = 0 /\ rdot (col1 Rl) (col2 Rl) = 0.
(** the pair potentials in the form they are published: attraction damped at short distance, Lennard-Jones, counting function of coordination numbers,
    zero and Becke-Johnson damping *)
Definition grimme2 (C6 R0 d : R) : R := C6 / d ^ 6 / (1 + exp (- (20) * (d / R0 - 1))).
Definition lennardJones (C6 R0 d : R) : R := C6 * (1 / d ^ 6 - R0 ^ 6 / (2 * d ^ 12)).
Definition counting (k d : R) : R := / (1 + exp (- (16) * (k / d - 1))).
Definition zeroDamped (n alpha : nat) (r0 d : R) : R := / (d ^ n * (1 + 6 * (r0 / d) ^ alpha)).
Definition beckeJohnson (n : nat) (r0 d : R) : R := / (d ^ n + r0 ^ n).
(** C6 and C8 attraction; p6 and p8 are the two parameters of the damping function *)
Definition d3attraction (bj : bool) (s6 s8 p6 p8 C6 C8 R0 d : R) : R :=
  if bj then s6 * C6 * beckeJohnson 6 (p6 * R0 + p8) d + s8 * C8 * beckeJohnson 8 (p6 * R0 + p8) d
  else s6 * C6 * zeroDamped 6 14 (p6 * R0) d + s8 * C8 * zeroDamped 8 16 (p8 * R0) d.
(** Gaussian weights of the reference coordination numbers, and interpolation of a table with them *)
Definition gaussSum (refs : list R) (x : R) : R := rsum (fun c => exp (- (4) * (x - c) ^ 2)) refs.
Definition gaussWeight (refs : list R) (x : R) (i : nat) : R := exp (- (4) * (x - nth i refs 0) ^ 2) / gaussSum refs x.
Definition interpolated (refs1 refs2 : list R) (table : nat -> nat -> R) (x1 x2 : R) : R :=
  rsum (fun i => rsum (fun j => gaussWeight refs1 x1 i * gaussWeight refs2 x2 j * table i j) (seq 0 (length refs2))) (seq 0 (length refs1)).
(** the pair parameters belonging to two atomic numbers (the fluid particle has its own) when no species overrides them *)
Definition pairCombination (C6 R0 : Z -> R) (z1 z2 : Z) : R * R := (sqrt (C6 z1 * C6 z2), R0 z1 + R0 z2).
