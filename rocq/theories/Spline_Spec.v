(** What the quintic spline must satisfy (C39-C41), stated without reference to the implementation. *)
From Coq Require Import ZArith Reals List.
From Coquelicot Require Import Coquelicot.
Import ListNotations.
Open Scope R_scope.

(** a partial function made total, for speaking about its derivatives where it is defined *)
Definition total (f : R -> option R) (x : R) : R := match f x with Some v => v | None => 0 end.
(** f is defined at every point of the open interval (a,b) *)
Definition defined_on (f : R -> option R) (a b : R) : Prop := forall x, a < x < b -> exists v, f x = Some v.
(** f has n continuous derivatives on the open interval (a,b) *)
Definition smooth_on (n : nat) (f : R -> R) (a b : R) : Prop :=
  forall k x, (k <= n)%nat -> a < x < b -> ex_derive_n f k x /\ continuous (Derive_n f k) x.
(** f tends to v as its argument tends to b from below *)
Definition tends_left (f : R -> R) (b v : R) : Prop := forall eps, 0 < eps -> exists d, 0 < d /\ forall x, b - d < x < b -> Rabs (f x - v) < eps.
Definition tends_right (f : R -> R) (a v : R) : Prop := forall eps, 0 < eps -> exists d, 0 < d /\ forall x, a < x < a + d -> Rabs (f x - v) < eps.
(** l with entry n changed by e *)
Fixpoint bump (l : list R) (n : nat) (e : R) : list R :=
  match l, n with
  | [], _ => []
  | a :: l', O => (a + e) :: l'
  | a :: l', S n' => a :: bump l' n' e
  end.
(** the partial derivative of f(l) with respect to entry n of l *)
Definition is_partial (f : list R -> R) (l : list R) (n : nat) (d : R) : Prop := is_derive (fun e => f (bump l n e)) 0 d.
(** sum of f over the first n naturals *)
Fixpoint rsumn (n : nat) (f : nat -> R) : R := match n with O => 0 | S n' => rsumn n' f + f n' end.
