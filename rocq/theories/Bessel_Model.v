(** Spherical Bessel functions: /repo/jdftx/core/SphericalHarmonics.h lines 30-58.
    Doubles are idealised as reals; l is a natural number (callers never pass a negative l). *)
From Coq Require Import Reals List.
Import ListNotations.
Local Open Scope R_scope.

(** lines 33-45: large arguments *)
Definition besselClosed (l : nat) (x : R) : R :=
  let s := sin x in let c := cos x in
  let xInv := 1 / x in let xInvSq := xInv * xInv in
  match l with
  | 0%nat => xInv * s
  | 1%nat => xInv * (xInv * s - c)
  | 2%nat => xInv * ((3 * xInvSq - 1) * s - 3 * xInv * c)
  | 3%nat => xInv * ((15 * xInvSq - 6) * xInv * s + (1 - 15 * xInvSq) * c)
  | 4%nat => xInv * ((1 + xInvSq * (-45 + xInvSq * 105)) * s + xInv * (10 - 105 * xInvSq) * c)
  | 5%nat => xInv * (xInv * (15 + xInvSq * (-420 + xInvSq * 945)) * s + (-1 + xInvSq * (105 - 945 * xInvSq)) * c)
  | 6%nat => xInv * ((-1 + xInvSq * (210 + xInvSq * (-4725 + 10395 * xInvSq))) * s + xInv * (-21 + xInvSq * (1260 - 10395 * xInvSq)) * c)
  | _ => 0
  end.
(** lines 47-50: for i = 3, 5, ..., 2l+1 *)
Definition besselLead (l : nat) (x : R) : R := fold_left (fun term k => term * (x / INR (2 * k + 3))) (seq 0 l) 1.
(** lines 51-56: for i = 2, 4, ..., 14; the state is (term, ret) *)
Definition besselStep (l : nat) (xSq : R) (st : R * R) (k : nat) : R * R :=
  let i := INR (2 * k + 2) in
  let term := fst st * (- xSq / (i * (i + 2 * INR l + 1))) in (term, snd st + term).
Definition besselSeries (l : nat) (x : R) : R :=
  let term := besselLead l x in snd (fold_left (besselStep l (x * x)) (seq 0 7) (term, term)).
(** line 32 *)
Definition bessel_jl (l : nat) (x : R) : R := if Rlt_dec (1 + 0.1 * INR l) (Rabs x) then besselClosed l x else besselSeries l x.
