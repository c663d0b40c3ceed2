(** Power series of the spherical Bessel functions. *)
From Coq Require Import Reals.
From Coquelicot Require Import Coquelicot.
Local Open Scope R_scope.
(** 1 3 5 ... (2 n - 1) *)
Fixpoint oddFact (n : nat) : R := match n with O => 1 | S n => (2 * INR n + 1) * oddFact n end.
(** v = j_l(x) = sum over k of (-1)^k x^(2k+l) / (2^k k! (2l+2k+1)!!) *)
Definition sphBessel (l : nat) (x v : R) : Prop :=
  is_series (fun k => (-1) ^ k * x ^ (2 * k + l) / (2 ^ k * INR (fact k) * oddFact (l + k + 1))) v.
