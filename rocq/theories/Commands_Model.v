(** Command table and processing order of the commands in an input file.
    Source: jdftx/commands/parser.cpp (ProcessedCommandMap, safeProcess, parse), jdftx/commands/command.cpp. *)
From Coq Require Import List String Bool Arith.
From Verif Require Import SMap Reader_Model.
Import ListNotations.
Open Scope string_scope.
Open Scope nat_scope.
Open Scope list_scope.

(** commands/command.h:35-60, commands/command.cpp:30-45.  requires and forbids are std::set<string>
    (only iterated and searched); section is the part of the path before '/'. *)
Record cmd := {
  c_name : string; c_section : string; c_requires : list string; c_forbids : list string;
  c_allowMultiple : bool; c_hasDefault : bool; c_emptyParamError : bool }.

(** getCommandMap(): std::map from name to command; a list in the order of iteration. *)
Definition table := list cmd.
Fixpoint lookup (n : string) (t : table) : option cmd :=
  match t with [] => None | c :: t' => if ieqb n (c_name c) then Some c else lookup n t' end.
Definition imem (n : string) (l : list string) : bool := existsb (ieqb n) l.

Inductive failure :=
| BadRequire | BadForbid | Cyclic | RequireForbid | TooManyPasses (* not an outcome of the program *).
Inductive result (A : Type) := Good (a : A) | Bad (f : failure).
Arguments Good {A}. Arguments Bad {A}.

(** pass number of each command; None stands for INT_MAX. *)
Definition levels := string -> option nat.
Definition set_level (lv : levels) (n : string) (p : nat) : levels := fun m => if ieqb m n then Some p else lv m.
Definition level_above (o : option nat) (p : nat) : bool := match o with None => true | Some l => p <? l end.
Definition level_atleast (o : option nat) (p : nat) : bool := match o with None => true | Some l => p <=? l end.

(** parser.cpp:53-60  are all required commands assigned to earlier passes? *)
Fixpoint ready (t : table) (lv : levels) (p : nat) (req : list string) : result bool :=
  match req with
  | [] => Good true
  | r :: req' =>
    match lookup r t with
    | None => Bad BadRequire
    | Some c => if level_atleast (lv (c_name c)) p then Good false else ready t lv p req'
    end
  end.
(** parser.cpp:46-67  one pass over the map; returns levels, nProcessed, nRemaining. *)
Fixpoint onePass (t : table) (p : nat) (todo : table) (lv : levels) (nProcessed nRemaining : nat) : result (levels * nat * nat) :=
  match todo with
  | [] => Good (lv, nProcessed, nRemaining)
  | c :: todo' =>
    if level_above (lv (c_name c)) p then
      match ready t lv p (c_requires c) with
      | Bad f => Bad f
      | Good true => onePass t p todo' (set_level lv (c_name c) p) (S nProcessed) nRemaining
      | Good false => onePass t p todo' lv nProcessed (S nRemaining)
      end
    else onePass t p todo' lv nProcessed nRemaining
  end.
(** parser.cpp:45-76  passes until nothing remains; returns levels and nPasses. *)
Fixpoint passes (fuel : nat) (t : table) (p : nat) (lv : levels) : result (levels * nat) :=
  match fuel with
  | O => Bad TooManyPasses
  | S k =>
    match onePass t p t lv 0 0 with
    | Bad f => Bad f
    | Good (lv', nProcessed, nRemaining) =>
      if nRemaining =? 0 then Good (lv', p)
      else if nProcessed =? 0 then Bad Cyclic
      else passes k t (S p) lv'
    end
  end.

(** parser.cpp:77-93  make forbids mutual within each section, in place. *)
Definition addForbid (n : string) (c : cmd) : cmd :=
  {| c_name := c_name c; c_section := c_section c; c_requires := c_requires c; c_forbids := c_forbids c ++ [n];
     c_allowMultiple := c_allowMultiple c; c_hasDefault := c_hasDefault c; c_emptyParamError := c_emptyParamError c |}.
Definition modify (n : string) (f : cmd -> cmd) (t : table) : table := map (fun c => if ieqb n (c_name c) then f c else c) t.
Fixpoint mutualOne (ci : cmd) (fs : list string) (t : table) : result table :=
  match fs with
  | [] => Good t
  | f :: fs' =>
    match lookup f t with
    | None => Bad BadForbid
    | Some cj =>
      if negb (imem (c_name ci) (c_forbids cj)) && ieqb (c_section cj) (c_section ci)
      then mutualOne ci fs' (modify f (addForbid (c_name ci)) t)
      else mutualOne ci fs' t
    end
  end.
Fixpoint mutual (names : list string) (t : table) : result table :=
  match names with
  | [] => Good t
  | n :: names' =>
    match lookup n t with
    | None => Good t (* not reached: names are those of the table *)
    | Some ci => match mutualOne ci (c_forbids ci) t with Bad f => Bad f | Good t' => mutual names' t' end
    end
  end.

(** parser.cpp:115-123  getDependencies: all direct and indirect requirements, and everything they forbid.
    The recursion follows requires, which has been found acyclic; fuel is the number of commands. *)
Fixpoint getDependencies (fuel : nat) (t : table) (c : cmd) : list string * list string :=
  match fuel with
  | O => ([], [])
  | S k =>
    fold_left (fun acc r =>
      match lookup r t with
      | None => acc
      | Some cr => let '(d, f) := getDependencies k t cr in (fst acc ++ c_name cr :: d, snd acc ++ c_forbids cr ++ f)
      end) (c_requires c) ([], [])
  end.
(** parser.cpp:94-110 *)
Definition consistent (t : table) : bool :=
  forallb (fun c => let '(d, f) := getDependencies (List.length t) t c in negb (existsb (fun n => imem n f) d)) t.

(** parser.cpp:40-111  the constructor of ProcessedCommandMap *)
Definition processTable (t : table) : result (table * levels * nat) :=
  match passes (S (List.length t)) t 0 (fun _ => None) with
  | Bad f => Bad f
  | Good (lv, n) =>
    match mutual (map c_name t) t with
    | Bad f => Bad f
    | Good t' => if consistent t' then Good (t', lv, n) else Bad RequireForbid
    end
  end.

(** Errors collected while parsing *)
Inductive perror :=
| Unknown (n : string) | MissingDeps (n : string) | Repeated (n : string) | Incompatible (n f : string)
| EmptyParams (n : string) | Failed (n : string).

Definition event := (string * string)%type.
Section Parse.
  (** c.process(pl, everything) throws, or leaves arguments over; everything depends on the calls made so far. *)
  Variable fails : list event -> string -> string -> bool.

  Record pstate := { encountered : string -> nat; errors : list perror; trace : list event }.
  Definition count_up (e : string -> nat) (n : string) : string -> nat := fun m => if ieqb m n then S (e m) else e m.

  (** parser.cpp:277-318  safeProcess *)
  Definition safeProcess (c : cmd) (params : string) (st : pstate) : pstate :=
    let enc := count_up (encountered st) (c_name c) in
    if existsb (fun r => enc r =? 0) (c_requires c) then
      {| encountered := enc; errors := errors st ++ [MissingDeps (c_name c)]; trace := trace st |}
    else if negb (c_allowMultiple c) && (1 <? enc (c_name c)) then
      {| encountered := enc; errors := errors st ++ [Repeated (c_name c)]; trace := trace st |}
    else
      let errs := errors st ++ map (Incompatible (c_name c)) (filter (fun f => negb (enc f =? 0)) (c_forbids c)) in
      let tr := trace st ++ [(c_name c, params)] in
      {| encountered := enc; errors := if fails (trace st) (c_name c) params then errs ++ [Failed (c_name c)] else errs; trace := tr |}.

  Definition trim_empty (s : string) : bool := match trim (list_ascii_of_string s) with [] => true | _ => false end.
  Definition at_level (lv : levels) (p : nat) (n : string) : bool := match lv n with Some l => l =? p | None => false end.

  (** parser.cpp:345-364  commands of the input marked for this pass *)
  Fixpoint runInput (t : table) (lv : levels) (p : nat) (input : list event) (st : pstate) : pstate :=
    match input with
    | [] => st
    | (n, params) :: input' =>
      match lookup n t with
      | Some c =>
        if at_level lv p (c_name c) then
          let st1 := if trim_empty params && c_emptyParamError c
                     then {| encountered := encountered st; errors := errors st ++ [EmptyParams (c_name c)]; trace := trace st |}
                     else st in
          runInput t lv p input' (safeProcess c (params ++ " ")%string st1)
        else runInput t lv p input' st
      | None => runInput t lv p input' st
      end
    end.
  (** parser.cpp:365-371  defaults *)
  Fixpoint runDefaults (lv : levels) (p : nat) (todo : table) (st : pstate) : pstate :=
    match todo with
    | [] => st
    | c :: todo' =>
      if at_level lv p (c_name c) && c_hasDefault c && (encountered st (c_name c) =? 0)
      then runDefaults lv p todo' (safeProcess c "" st)
      else runDefaults lv p todo' st
    end.
  (** parser.cpp:343-380  all passes.  (The removal of unused pseudopotentials after the ion command acts
      on everything only and is not modelled.) *)
  Fixpoint runPasses (t : table) (lv : levels) (p n : nat) (input : list event) (st : pstate) : pstate :=
    match n with
    | O => st
    | S n' => runPasses t lv (S p) n' input (runDefaults lv p t (runInput t lv p input st))
    end.

  Definition known (t : table) (e : event) : bool := match lookup (fst e) t with Some _ => true | None => false end.
  (** parser.cpp:320-389  parse, up to the decision to quit; returns the errors and the commands run.
      (unknown is a set in the code; here a name may be listed twice.) *)
  Definition parse (t : table) (lv : levels) (nPasses : nat) (input : list event) : list perror * list event :=
    let unknown := filter (fun e => negb (known t e)) input in
    let input' := filter (known t) input in
    let st := runPasses t lv 0 (S nPasses) input' {| encountered := fun _ => 0; errors := []; trace := [] |} in
    (map (fun e => Unknown (fst e)) unknown ++ errors st, trace st).
End Parse.
