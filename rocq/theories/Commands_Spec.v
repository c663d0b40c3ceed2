(** Specification vocabulary for the command table and the processing order. *)
From Coq Require Import List String Bool Arith Relations.
From Verif Require Import SMap Commands_Model.
Import ListNotations.
Open Scope list_scope.

(** Command names are unique up to letter case (they are the keys of a std::map). *)
Definition UniqueNames (t : table) : Prop := NoDup (map (fun c => lower (c_name c)) t).
(** c requires d directly. *)
Definition Req (t : table) (c d : cmd) : Prop := In c t /\ In d t /\ exists r, In r (c_requires c) /\ ieq r (c_name d).
Definition ReqStar (t : table) : cmd -> cmd -> Prop := clos_trans cmd (Req t).
(** A non-empty collection of commands each of which requires another of them. *)
Definition Stuck (t : table) (S : cmd -> Prop) : Prop :=
  (exists c, S c) /\ forall c, S c -> In c t /\ exists d, Req t c d /\ S d.
(** Every required name is a command. *)
Definition RequiresValid (t : table) : Prop := forall c r, In c t -> In r (c_requires c) -> exists d, In d t /\ ieq r (c_name d).

(** a forbids b *)
Definition Forb (t : table) (a b : string) : Prop :=
  exists c f, In c t /\ ieq (c_name c) a /\ In f (c_forbids c) /\ ieq f b.
(** Commands a and b are in the same section. *)
Definition SameSection (t : table) (a b : string) : Prop :=
  exists c d, In c t /\ In d t /\ ieq (c_name c) a /\ ieq (c_name d) b /\ ieq (c_section c) (c_section d).

(** Lines of the input that issue the command n (whatever the letter case). *)
Definition issues (n : string) (e : event) : bool := ieqb n (fst e).
Definition Issued (n : string) (input : list event) : Prop := exists e, In e input /\ ieq n (fst e).

(** The order of processing, stated as a sort: passes in increasing order, in each pass the lines of the
    input in their order and then the missing commands that have a default, in the order of the table. *)
Definition line_of_level (t : table) (lv : levels) (p : nat) (e : event) : list event :=
  match lookup (fst e) t with
  | Some c => match lv (c_name c) with Some l => if l =? p then [(c_name c, (snd e ++ " ")%string)] else [] | None => [] end
  | None => []
  end.
Definition default_of_level (lv : levels) (p : nat) (input : list event) (c : cmd) : list event :=
  match lv (c_name c) with
  | Some l => if (l =? p) && c_hasDefault c && negb (existsb (issues (c_name c)) input) then [(c_name c, ""%string)] else []
  | None => []
  end.
Definition sorted_by_level (t : table) (lv : levels) (nPasses : nat) (input : list event) : list event :=
  flat_map (fun p => flat_map (line_of_level t lv p) input ++ flat_map (default_of_level lv p input) t) (seq 0 (S nPasses)).

(** The commands that end up being run: those issued, and those with a default. *)
Definition Active (t : table) (input : list event) (c : cmd) : Prop :=
  In c t /\ (Issued (c_name c) input \/ c_hasDefault c = true).
(** An input whose content is acceptable whatever the order of its lines. *)
Record Valid (t : table) (input : list event) : Prop := {
  valid_known : forall e, In e input -> exists c, In c t /\ ieq (fst e) (c_name c);
  valid_requires : forall c r, Active t input c -> In r (c_requires c) -> exists d, Active t input d /\ ieq r (c_name d);
  valid_once : forall c, In c t -> c_allowMultiple c = false -> List.length (filter (issues (c_name c)) input) <= 1;
  valid_compatible : forall c d, Active t input c -> Active t input d -> ~ Forb t (c_name c) (c_name d);
  valid_params : forall e c, In e input -> In c t -> ieq (fst e) (c_name c) -> c_emptyParamError c = true -> trim_empty (snd e) = false }.
