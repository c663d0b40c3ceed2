(** What the convergence checks are documented to do. *)
From Coq Require Import Reals List Bool.
Import ListNotations.
Open Scope R_scope.

(** Every two neighbours of the list are related. *)
Inductive linked (P : R -> R -> Prop) : list R -> Prop :=
| linked_nil : linked P []
| linked_one a : linked P [a]
| linked_cons a b l : P a b -> linked P (b :: l) -> linked P (a :: b :: l).

(** The last n changes of the sequence all satisfy P. *)
Definition last_changes (n : nat) (P : R -> R -> Prop) (l : list R) : Prop :=
  exists pre tail, l = pre ++ tail /\ length tail = S n /\ linked P tail.
(** The last n members of the sequence all satisfy P. *)
Definition last_all (n : nat) (P : R -> Prop) (l : list R) : Prop :=
  exists pre tail, l = pre ++ tail /\ length tail = n /\ List.Forall P tail.

(** The documented criterion: the change is small in magnitude. *)
Definition small_change (thr a b : R) : Prop := Rabs (b - a) < Rabs thr.
(** The criterion that is implemented: the energy decreased, by no more than the threshold. *)
Definition small_decrease (thr a b : R) : Prop := b < a /\ a - b <= Rabs thr.
