(** What "an FFT box that fits the symmetries" means, independent of the code. *)
From Coq Require Import ZArith List Znumtheory.
From Verif Require Import Grid_Model.
Open Scope Z_scope.

(** n factors into 2, 3, 5 and 7 only. *)
Definition smooth (n : Z) : Prop := exists a b c d, 0 <= a /\ 0 <= b /\ 0 <= c /\ 0 <= d /\ n = 2^a * 3^b * 5^c * 7^d.
(** The rotation given by entries m (in lattice coordinates) maps the S-mesh to itself:
    S_i m_ij / S_j is an integer for all i, j. *)
Definition mesh_compatible (s : nat -> Z) (m : nat -> nat -> Z) : Prop :=
  forall i j, (i < 3)%nat -> (j < 3)%nat -> exists q, s i * m i j = q * s j.

(** Geometry of mesh points: fractional coordinates of mesh index m, rotation in lattice coordinates,
    wrapping into the unit cell and the list of mesh points of one cell. *)
From Coq Require Import QArith.
From Verif Require Import Base FFTBox_Model.
Definition frac_of (Sv : V3) (m : V3) (i : nat) : Q := (inject_Z (get m i) / inject_Z (get Sv i))%Q.
Definition rotate_frac (rot : M3) (x : nat -> Q) (i : nat) : Q :=
  (inject_Z (mget rot i 0) * x 0%nat + inject_Z (mget rot i 1) * x 1%nat + inject_Z (mget rot i 2) * x 2%nat)%Q.
Definition wrap_cell (Sv : V3) (m : V3) : V3 :=
  (get m 0 mod get Sv 0, get m 1 mod get Sv 1, get m 2 mod get Sv 2)%Z.
Definition cell_points (Sv : V3) : list V3 :=
  flat_map (fun a => flat_map (fun b => map (fun c => (a,b,c)) (zrange 0 (get Sv 2))) (zrange 0 (get Sv 1))) (zrange 0 (get Sv 0)).
(** inv is a two-sided integer inverse of rot. *)
Definition integer_inverse (rot inv : M3) : Prop :=
  (forall i k, (i<3)%nat -> (k<3)%nat -> mget rot i 0 * mget inv 0 k + mget rot i 1 * mget inv 1 k + mget rot i 2 * mget inv 2 k = if Nat.eqb i k then 1 else 0)%Z /\
  (forall i k, (i<3)%nat -> (k<3)%nat -> mget inv i 0 * mget rot 0 k + mget inv i 1 * mget rot 1 k + mget inv i 2 * mget rot 2 k = if Nat.eqb i k then 1 else 0)%Z.
