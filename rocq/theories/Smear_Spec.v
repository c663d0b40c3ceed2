(** What the smearing functions and the chemical potential search should satisfy, stated without their code. *)
From Coq Require Import Reals List ZArith.
Import ListNotations.
Open Scope R_scope.

(** sum of a list of reals *)
Fixpoint Rsum (l : list R) : R := match l with [] => 0 | x :: r => x + Rsum r end.
(** electrons held when every band is full; a state is (weight, number of bands) *)
Definition capacity (l : list (R * nat)) : R := Rsum (map (fun wn => fst wn * INR (snd wn)) l).
(** electron-number tolerance that goes with a target value *)
Definition valueTol (target : R) : R := Rmax (1/10^10) (1/10^14 * Rabs target).
(** [r] is the midpoint of an interval [lo,hi] on which [F] crosses [target] up to the value tolerance, and which is
    narrower than 1e-10 of the width or 1e-14 of the initial bracket [lo1,hi1]; that bracket is the starting interval
    or was reached by doubling from an interval that missed the target *)
Definition bracketed (F : R -> R) (width target lo0 hi0 r : R) : Prop :=
  exists lo hi lo1 hi1,
    lo1 <= lo /\ lo <= hi /\ hi <= hi1 /\ r = (lo + hi) / 2 /\
    F lo < target + valueTol target /\ target - valueTol target < F hi /\
    hi - lo < Rmax (1/10^10 * width) (1/10^14 * Rmax (Rabs lo1) (Rabs hi1)) /\
    (lo1 = lo0 \/ lo1 < lo0 /\ target + valueTol target <= F ((lo1 + hi0) / 2)) /\
    (hi1 = hi0 \/ hi0 < hi1 /\ F ((lo1 + hi1) / 2) <= target - valueTol target).
(** [F] varies by at most [L] times the distance *)
Definition lipschitz (L : R) (F : R -> R) : Prop := forall a b, Rabs (F a - F b) <= L * Rabs (a - b).
