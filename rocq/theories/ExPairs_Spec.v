(** Specification for pairs of k-points and the division of bands. *)
From Coq Require Import ZArith Reals List Arith.
From Verif Require Import Base Vec3_Model ExPairs_Model.
Import ListNotations.

(** two k-points differ by a reciprocal lattice vector *)
Definition equivK (a b : vec R) : Prop := exists x y z : Z, a = V (c0 b + IZR x)%R (c1 b + IZR y)%R (c2 b + IZR z)%R.
Definition unimodular (m : mat Z) : Prop := (zdet m = 1 \/ zdet m = -1)%Z.
(** number of mesh points that reduce to q *)
Definition meshCount (reduced : list nat) (q : nat) : nat := length (filter (Nat.eqb q) reduced).
(** bands (state, band) of a range of bands of a state *)
Definition bandsOf (iq b0 b1 : nat) : list (nat * nat) := map (pair iq) (seq b0 (b1 - b0)).
Definition allBands (qCount nBands : nat) : list (nat * nat) := flat_map (fun q => bandsOf q 0 nBands) (seq 0 qCount).
(** what process a sends to d, and what d receives from a, in the order of posting *)
Definition sentTo (d : nat) (l : list message) : list (item * nat * nat) := flat_map (fun m => match m with Send w iq b x => if (x =? d)%nat then [(w, iq, b)] else [] | _ => [] end) l.
Definition receivedFrom (a : nat) (l : list message) : list (item * nat * nat) := flat_map (fun m => match m with Recv w iq b x => if (x =? a)%nat then [(w, iq, b)] else [] | _ => [] end) l.
(** bands of a list of ranges, and their total cost when a band of state q costs nth q cost 0 *)
Definition bandsOfRanges (l : list LocalState) : list (nat * nat) := flat_map (fun r => bandsOf (ls_iq r) (ls_bStart r) (ls_bStop r)) l.
Definition costOfBands (cost : list nat) (l : list (nat * nat)) : nat := list_sum (map (fun x => nth (fst x) cost 0%nat) l).
(** total multiplicity and total weight *)
Definition totalMultiplicity (l : list Ktransform) : nat := list_sum (map kt_multiplicity l).
Definition rtotal (l : list R) : R := fold_right Rplus 0%R l.
