(** Improper integrals over the half line, and the potential of van Leeuwen and Baerends (C109, C111). *)
From Coq Require Import Reals.
From Coquelicot Require Import Coquelicot.
Open Scope R_scope.
Definition improper (f : R -> R) (v : R) : Prop := is_lim (fun Y => RInt f 0 Y) p_infty v.
(** y^n exp(-A y^2) erfc(B y), for any function in the place of erfc *)
Definition integrandOf (erfc : R -> R) (n : nat) (A B y : R) : R := y ^ n * exp (- (A * (y * y))) * erfc (B * y).
(** equation (55) of PRA 49, 2421: density and magnitude of the gradient of one spin channel *)
Definition published (n grad : R) : R :=
  let x := grad / Rpower n (4/3) in - 0.05 * Rpower n (1/3) * x ^ 2 / (1 + 3 * 0.05 * x * arcsinh x).
