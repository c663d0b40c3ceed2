(** Cells modulo a supercell, and weights over them. *)
From Coq Require Import ZArith Reals List.
From Verif Require Import Vec3_Model WS_Spec.
Import ListNotations.
Local Open Scope R_scope.

(** cells that differ by an integer combination of the supercell vectors (columns of super, in units of the lattice vectors) *)
Definition same_cell (super : mat Z) (a b : vec Z) : Prop := exists n : vec Z, b = zvadd a (zmv super n).
(** one cell of every class, each once *)
Definition representatives (super : mat Z) (ok : vec Z -> Prop) (reps : list (vec Z)) : Prop :=
  (forall c, In c reps -> ok c) /\ (forall c, ok c -> exists r, In r reps /\ same_cell super r c) /\
  (forall i j, (i < length reps)%nat -> (j < length reps)%nat -> same_cell super (nth i reps (V 0 0 0)%Z) (nth j reps (V 0 0 0)%Z) -> i = j).
Definition rsum {A} (f : A -> R) (l : list A) : R := fold_right (fun a s => f a + s) 0 l.
(** directions without periodicity: no cells along them, and orthogonal to the others in the lattice *)
Definition planar (isTruncated : nat -> bool) (c : vec Z) : Prop := forall k, (k < 3)%nat -> isTruncated k = true -> vget c k = 0%Z.
Definition truncation_orthogonal (Rl : mat R) (isTruncated : nat -> bool) : Prop :=
  forall i j, (i < 3)%nat -> (j < 3)%nat -> isTruncated i = true -> isTruncated j = false -> mget (rmm (mtrans Rl) Rl) i j = 0.
Definition truncation_diagonal (super : mat Z) (isTruncated : nat -> bool) : Prop :=
  forall i j, (i < 3)%nat -> (j < 3)%nat -> isTruncated i <> isTruncated j -> mget super i j = 0%Z.
(** supercell neighbours that bound its Wigner-Seitz cell, and a radius containing it *)
Definition bounding (Rsup : mat R) (neigh : list (vec Z)) : Prop := forall y, poly Rsup neigh y -> in_cell Rsup y.
Definition contains_cell (Rsup : mat R) (r : R) : Prop := 0 <= r /\ forall y, in_cell Rsup y -> cart2 Rsup y <= r * r.
