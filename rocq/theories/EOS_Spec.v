(** Specification of exact derivatives of partial functions (C50). *)
From Coq Require Import Reals.
From Coquelicot Require Import Coquelicot.
Open Scope R_scope.
(** a partial function with its claimed derivative: defined near x with values v, and v'(x) is what is returned *)
Definition exact_at (f : R -> option (R * R)) (x : R) : Prop :=
  exists (v : R -> R) (g : R), f x = Some (v x, g) /\ locally x (fun y => exists gy, f y = Some (v y, gy)) /\ is_derive v x g.

