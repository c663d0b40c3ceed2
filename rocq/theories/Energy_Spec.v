From Coq Require Import List String Ascii Bool Reals.
Import ListNotations.
(** Sum of a list of reals. *)
Definition lsum (l : list R) : R := fold_right Rplus 0%R l.
(** A string ending in none of the given characters, followed by such characters only. *)
Definition ends_without (p : ascii -> bool) (s : string) : Prop :=
  forall t c, s = String.append t (String c EmptyString) -> p c = false.
Fixpoint all_chars (p : ascii -> bool) (s : string) : Prop :=
  match s with EmptyString => True | String c s' => p c = true /\ all_chars p s' end.
