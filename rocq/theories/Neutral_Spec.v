(** Independent statements about the neutrality of the unit cell. *)
From Coq Require Import List Reals.
Import ListNotations.
Local Open Scope R_scope.

(** a species: fixed count (none if not positive), uncorrected count, charge *)
Record species := Species { fixedN : R; count0 : R; charge : R }.
Definition addup {A} (f : A -> R) (l : list A) : R := fold_right (fun x s => f x + s) 0 l.
(** number of molecules at the potential shift [b] *)
Definition count (b : R) (s : species) : R := if Rlt_dec 0 (fixedN s) then fixedN s else count0 s * exp (- (charge s * b)).
Definition netCharge (ext b : R) (l : list species) : R := ext + addup (fun s => charge s * count b s) l.
(** a species whose uncorrected count changes, with the rate of change *)
Record varying := Varying { vFixed : R; vCharge : R; vCount : R -> R; vRate : R }.
Definition at_time (t : R) (v : varying) : species := Species (vFixed v) (vCount v t) (vCharge v).
