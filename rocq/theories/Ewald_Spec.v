(** Specifications for the Ewald sums. *)
From Coq Require Import ZArith Reals List.
From Verif Require Import Base Gauss Vec3_Model CellMap_Spec VdW_Spec.
Import ListNotations.
Local Open Scope R_scope.

(** the integer vectors of components not exceeding N in magnitude, each once *)
Definition centred_box (N : Z*Z*Z) (l : list (Z*Z*Z)) : Prop :=
  NoDup l /\ forall x y z, In (x, y, z) l <-> let '(a, b, c) := N in (Z.abs x <= a /\ Z.abs y <= b /\ Z.abs z <= c)%Z.
(** x less half is not an integer *)
Definition off_edge (x : R) : Prop := forall z : Z, x + 1/2 <> IZR z.
Definition off_edges (n : nat) (pos : nat -> vec R) (p0 : nat -> vec R) : Prop :=
  forall c, (c < n)%nat -> off_edge (c0 (pos c) - c0 (p0 c)) /\ off_edge (c1 (pos c) - c1 (p0 c)) /\ off_edge (c2 (pos c) - c2 (p0 c)).
(** two lists of positions equal up to lattice vectors *)
Definition integral3 (v : vec R) : Prop := exists x y z : Z, v = V (IZR x) (IZR y) (IZR z).
Definition equivalent (n : nat) (pos pos' : nat -> vec R) : Prop := forall c, (c < n)%nat -> integral3 (rvsub (pos' c) (pos c)).
(** no two atoms are images of each other *)
Definition distinct_atoms (n : nat) (pos : nat -> vec R) : Prop := forall c1 c2, (c1 < n)%nat -> (c2 < n)%nat -> integral3 (rvsub (pos c1) (pos c2)) -> c1 = c2.
(** the reduced position nearest to the origin *)
Definition home (x y : vec R) : Prop :=
  integral3 (rvsub y x) /\ -1/2 <= c0 y < 1/2 /\ -1/2 <= c1 y < 1/2 /\ -1/2 <= c2 y < 1/2.
(** forces relative to those passed in *)
Definition added (f g : nat -> vec R) : nat -> vec R := fun c => rvsub (g c) (f c).

(** ** Ewald's formula.  sigma: width of the Gaussian charges *)
(** Cartesian reciprocal lattice vector *)
Definition recipVec (Rl : mat R) (g : Z*Z*Z) : vec R := let '(x, y, z) := g in rvscale (2 * PI) (rvm (V (IZR x) (IZR y) (IZR z)) (rinv Rl)).
(** squared modulus of the sum of charges times phases *)
Definition structure2 (n : nat) (q : nat -> R) (pos : nat -> vec R) (G : vec R) : R :=
  rsum (fun c => q c * cos (rdot G (pos c))) (seq 0 n) ^ 2 + rsum (fun c => q c * sin (rdot G (pos c))) (seq 0 n) ^ 2.
(** screened interactions of all pairs of atoms and images *)
Definition shortRange (Rl : mat R) (sigma : R) (n : nat) (q : nat -> R) (pos : nat -> vec R) (box : list (Z*Z*Z)) : R :=
  1/2 * rsum (fun c1 => rsum (fun c2 => rsum (fun g => let d := distance Rl pos c1 c2 g in
    if Req_EM_T d 0 then 0 else q c1 * q c2 * erfc (d / (sqrt 2 * sigma)) / d) box) (seq 0 n)) (seq 0 n).
(** interaction of the smooth charge densities *)
Definition longRange (Rl : mat R) (sigma : R) (n : nat) (q : nat -> R) (pos : nat -> vec R) (box : list (Z*Z*Z)) : R :=
  2 * PI / Rabs (rdet Rl) * rsum (fun g => let G := recipVec Rl g in
    if Req_EM_T (rlen G) 0 then 0 else exp (- (sigma * rlen G) ^ 2 / 2) / rlen G ^ 2 * structure2 n q (fun c => rmv Rl (pos c)) G) box.
(** interaction of each Gaussian with itself *)
Definition selfTerm (sigma : R) (n : nat) (q : nat -> R) : R := rsum (fun c => q c ^ 2 / (sqrt (2 * PI) * sigma)) (seq 0 n).
(** difference between Gaussians and point charges in the neutralising background *)
Definition background (Rl : mat R) (sigma : R) (n : nat) (q : nat -> R) : R := PI * sigma ^ 2 * rsum q (seq 0 n) ^ 2 / Rabs (rdet Rl).
Definition ewaldFormula (Rl : mat R) (sigma : R) (n : nat) (q : nat -> R) (pos : nat -> vec R) (boxR boxG : list (Z*Z*Z)) : R :=
  shortRange Rl sigma n q pos boxR + longRange Rl sigma n q pos boxG - selfTerm sigma n q - background Rl sigma n q.

(** ** Two-dimensional periodicity *)
(** lattice vector number i *)
Definition latticeVec (Rl : mat R) (i : nat) : vec R := match i with O => col0 Rl | 1%nat => col1 Rl | _ => col2 Rl end.
Definition entry (v : vec R) (i : nat) : R := match i with O => c0 v | 1%nat => c1 v | _ => c2 v end.
(** lattice vector i is perpendicular to the two others *)
Definition perpendicular (Rl : mat R) (i : nat) : Prop := (i < 3)%nat /\ forall j, (j < 3)%nat -> j <> i -> rdot (latticeVec Rl i) (latticeVec Rl j) = 0.
(** v times lattice vector i *)
Definition alongAxis (i : nat) (v : R) : vec R := match i with O => V v 0 0 | 1%nat => V 0 v 0 | _ => V 0 0 v end.
(** coordinate along lattice vector i *)
Definition height (Rl : mat R) (i : nat) (r : vec R) : R := rdot (latticeVec Rl i) r / rlen (latticeVec Rl i).
(** potential of a sheet of Gaussian charges modulated with wave vector G, at height z *)
Definition sheet (sigma G z : R) : R :=
  if Req_EM_T G 0 then - z * erf (z / (sqrt 2 * sigma)) - sqrt (2 / PI) * sigma * exp (- (z / sigma) ^ 2 / 2)
  else (exp (G * z) * erfc (sigma * G / sqrt 2 + z / (sqrt 2 * sigma)) + exp (- G * z) * erfc (sigma * G / sqrt 2 - z / (sqrt 2 * sigma))) / (2 * G).
Definition slabFormula (Rl : mat R) (sigma : R) (i n : nat) (q : nat -> R) (pos : nat -> vec R) (boxR boxG : list (Z*Z*Z)) : R :=
  shortRange Rl sigma n q pos boxR
  + PI * rlen (latticeVec Rl i) / Rabs (rdet Rl) * rsum (fun c1 => rsum (fun c2 => q c1 * q c2 * rsum (fun g =>
      let r := rmv Rl (rvsub (pos c1) (pos c2)) in cos (rdot (recipVec Rl g) r) * sheet sigma (rlen (recipVec Rl g)) (height Rl i r)) boxG) (seq 0 n)) (seq 0 n)
  - selfTerm sigma n q.
(** position with the component along i within half a lattice vector of that of the first atom and the others near the origin *)
Definition homeSlab (i : nat) (x0 x y : vec R) : Prop :=
  integral3 (rvsub y x) /\ forall k, (k < 3)%nat -> let p := if Nat.eqb k i then entry x0 i else 0 in p - 1/2 <= entry y k < p + 1/2.
(** bound on the sheet terms left out when G z exceeds 100 *)
Definition leftOut (Rl : mat R) (i n : nat) (q : nat -> R) (pos : nat -> vec R) (boxG : list (Z*Z*Z)) : R :=
  PI * rlen (latticeVec Rl i) / Rabs (rdet Rl) * rsum (fun c1 => rsum (fun c2 => Rabs (q c1 * q c2) * rsum (fun g =>
    let G := rlen (recipVec Rl g) in if Rlt_dec 100 (G * Rabs (height Rl i (rmv Rl (rvsub (pos c1) (pos c2))))) then 2 * exp (- (100)) / G else 0) boxG) (seq 0 n)) (seq 0 n).

(** ** No periodicity *)
(** Coulomb's law over all pairs of different atoms *)
Definition coulombLaw (Rl : mat R) (n : nat) (q : nat -> R) (pos : nat -> vec R) : R :=
  1/2 * rsum (fun c1 => rsum (fun c2 => if Nat.eqb c1 c2 then 0 else q c1 * q c2 / rlen (rmv Rl (rvsub (pos c1) (pos c2)))) (seq 0 n)) (seq 0 n).
(** no two atoms at the same place *)
Definition apart (n : nat) (pos : nat -> vec R) : Prop := forall c1 c2, (c1 < n)%nat -> (c2 < n)%nat -> pos c1 = pos c2 -> c1 = c2.

(** ** Cutoffs *)
(** distance between the lattice planes across which the lattice coordinate k changes by one *)
Definition planeSpacing (Rl : mat R) (k : nat) : R := / rlen (mrow (rinv Rl) k).
(** number of widths of a Gaussian of unit variance kept *)
Definition widths : R := 1 + sqrt (104 * ln 2).
Definition inPlane (i : nat) (g : Z*Z*Z) : Prop := let '(x, y, z) := g in match i with O => x | 1%nat => y | _ => z end = 0%Z.
