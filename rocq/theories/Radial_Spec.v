(** Splines and the rules for integrating them. *)
From Coq Require Import Reals Arith.
From Coquelicot Require Import Coquelicot.
Local Open Scope R_scope.

Fixpoint total (n : nat) (f : nat -> R) : R := match n with O => 0 | S k => total k f + f k end.
(** A cubic polynomial and its derivatives. *)
Record cubic := Cub { k0 : R; k1 : R; k2 : R; k3 : R }.
Definition cval (p : cubic) (x : R) : R := k0 p + k1 p * x + k2 p * x ^ 2 + k3 p * x ^ 3.
Definition cder (p : cubic) (x : R) : R := k1 p + 2 * k2 p * x + 3 * k3 p * x ^ 2.
Definition cder2 (p : cubic) (x : R) : R := 2 * k2 p + 6 * k3 p * x.
(** Increasing positive locations. *)
Definition grid (n : nat) (r : nat -> R) : Prop := 0 < r 0%nat /\ forall i, (S i < n)%nat -> r i < r (S i).
(** One cubic per interval through the samples, with continuous first and second derivatives and no curvature at the ends. *)
Record natural_spline (n : nat) (r f : nat -> R) (s : nat -> cubic) : Prop := NS {
  ns_left : forall i, (S i < n)%nat -> cval (s i) (r i) = f i;
  ns_right : forall i, (S i < n)%nat -> cval (s i) (r (S i)) = f (S i);
  ns_der : forall i, (S (S i) < n)%nat -> cder (s i) (r (S i)) = cder (s (S i)) (r (S i));
  ns_der2 : forall i, (S (S i) < n)%nat -> cder2 (s i) (r (S i)) = cder2 (s (S i)) (r (S i));
  ns_first : cder2 (s 0%nat) (r 0%nat) = 0;
  ns_last : cder2 (s (n - 2)%nat) (r (n - 1)%nat) = 0 }.
(** Integral over r^2 dr from zero to the last location, the spline being continued by its tangent before the first. *)
Definition spline_integral (n : nat) (r f : nat -> R) (s : nat -> cubic) : R :=
  RInt (fun x => x ^ 2 * (f 0%nat + cder (s 0%nat) (r 0%nat) * (x - r 0%nat))) 0 (r 0%nat) +
  total (n - 1) (fun i => RInt (fun x => x ^ 2 * cval (s i) x) (r i) (r (S i))).
