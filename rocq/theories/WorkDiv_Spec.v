(** What users of the work division rely on, stated without reference to how it is computed. *)
From Coq Require Import ZArith List Reals.
From Verif Require Import Base.
Import ListNotations.
Open Scope Z_scope.

(** A division of tasks 0..nTasks-1 over ranks 0..nProcs-1 into contiguous, rank ordered,
    balanced ranges [start p, stop p) covering each task exactly once. *)
Record balanced_partition (nTasks nProcs : Z) (start stop : Z -> Z) : Prop := {
  bp_bounds : forall p, 0 <= p < nProcs -> 0 <= start p <= stop p /\ stop p <= nTasks;
  bp_owner : forall q, 0 <= q < nTasks -> exists! p, 0 <= p < nProcs /\ start p <= q < stop p;
  bp_order : forall p p', 0 <= p < p' /\ p' < nProcs -> stop p <= start p';
  bp_balance : forall p p', 0 <= p < nProcs -> 0 <= p' < nProcs ->
    Z.abs ((stop p - start p) - (stop p' - start p')) <= 1 }.

(** Serial sums. *)
Definition Rsum (f : Z -> R) (n : Z) : R := fold_right (fun i acc => (f i + acc)%R) 0%R (zrange 0 n).

(** Serial loop: every cell 0..n-1 updated once, all others untouched. *)
Definition pointwise_update {A} (body : Z -> A -> A) (n : Z) (mem mem' : Z -> A) : Prop :=
  forall j, mem' j = if ((0 <=? j) && (j <? n))%bool then body j (mem j) else mem j.
