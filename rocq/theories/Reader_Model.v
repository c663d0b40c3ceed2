(** Reading the input file: trimming, comments, continuation lines, environment variables,
    include files, and broadcast to the other processes.
    Sources: jdftx/core/string.h, jdftx/commands/parser.cpp, jdftx/core/MPIUtil.cpp.
    Texts are lists of characters holding no NUL (getline and operator<< go through c_str()). *)
From Coq Require Import List Ascii Bool NArith.
From Verif Require Import SMap.
Import ListNotations.

Notation text := (list ascii).
Definition NL : ascii := ascii_of_N 10.
Definition TAB : ascii := ascii_of_N 9.
Definition CR : ascii := ascii_of_N 13.
Definition SP : ascii := ascii_of_N 32.
Definition HASH : ascii := ascii_of_N 35.
Definition DOLLAR : ascii := ascii_of_N 36.
Definition BACKSLASH : ascii := ascii_of_N 92.
Definition LBRACE : ascii := ascii_of_N 123.
Definition RBRACE : ascii := ascii_of_N 125.

Definition is_ws (c : ascii) : bool :=
  Ascii.eqb c SP || Ascii.eqb c TAB || Ascii.eqb c NL || Ascii.eqb c CR.

(** string comparison is case-insensitive (string.h:34-45). *)
Definition itext (s : text) : text := map lowerc s.
Fixpoint text_eqb (a b : text) : bool :=
  match a, b with
  | [], [] => true
  | x :: a', y :: b' => Ascii.eqb x y && text_eqb a' b'
  | _, _ => false
  end.
Definition itext_eqb (a b : text) : bool := text_eqb (itext a) (itext b).

(** s.erase(0, s.find_first_not_of(ws)): drops everything when all is white space. *)
Fixpoint drop_ws (s : text) : text :=
  match s with c :: s' => if is_ws c then drop_ws s' else s | [] => [] end.
(** find_last_not_of and erase of what follows; unchanged when all is white space (string.h:50-53). *)
Definition drop_trailing_ws (s : text) : text :=
  match drop_ws (rev s) with [] => s | t => rev t end.
(** string.h:48-55  trim *)
Definition trim (s : text) : text := drop_ws (drop_trailing_ws s).

(** text before the first character satisfying f, and the rest starting there
    (find / find_first_of followed by substr / erase). *)
Fixpoint before (f : ascii -> bool) (s : text) : text :=
  match s with c :: s' => if f c then [] else c :: before f s' | [] => [] end.
Fixpoint from (f : ascii -> bool) (s : text) : text :=
  match s with c :: s' => if f c then s else from f s' | [] => [] end.

(** parser.cpp:160-163  removal of a comment *)
Definition cut_comment (s : text) : text := before (fun c => Ascii.eqb c HASH) s.

(** outcomes: a value, death with an error message, or a loop that did not finish in the given
    number of steps (not an outcome of the program). *)
Inductive error :=
| Unterminated                  (* parser.cpp:147 *)
| CannotOpen (f : text)         (* parser.cpp:188 *)
| NoFileName                    (* parser.cpp:212 *)
| CyclicInclude (f : text)      (* parser.cpp:215 *)
| DeprecatedFailed (c : text).  (* parser.cpp:233 *)
Inductive outcome (A : Type) := Done (a : A) | Die (e : error) | NotFinished.
Arguments Done {A}. Arguments Die {A}. Arguments NotFinished {A}.
Definition obind {A B} (m : outcome A) (f : A -> outcome B) : outcome B :=
  match m with Done a => f a | Die e => Die e | NotFinished => NotFinished end.

(** s.find("${"): text before the first occurrence and text after it. *)
Fixpoint find_ref (s : text) : option (text * text) :=
  match s with
  | [] => None
  | c :: s' =>
    let rec_ := match find_ref s' with Some (p, r) => Some (c :: p, r) | None => None end in
    match s' with
    | c' :: s'' => if Ascii.eqb c DOLLAR && Ascii.eqb c' LBRACE then Some ([], s'') else rec_
    | [] => None
    end
  end.
(** s.find("}", varStart): varStart points at '$', so the search effectively starts after "${". *)
Definition find_close (s : text) : option (text * text) :=
  match from (fun c => Ascii.eqb c RBRACE) s with
  | _ :: r => Some (before (fun c => Ascii.eqb c RBRACE) s, r)
  | [] => None
  end.

(** the process environment; getenv returns a null pointer (None) for unset names. *)
Definition environ := text -> option text.
Definition getenv (env : environ) (n : text) : text := match env n with Some v => v | None => [] end.
(** setenv(name, value, 1): names that are empty or contain '=' are refused (POSIX), exact match. *)
Definition setenv (env : environ) (n v : text) : environ :=
  if match n with [] => true | _ => false end || existsb (fun c => Ascii.eqb c (ascii_of_N 61)) n then env
  else fun m => if text_eqb m n then Some v else env m.

(** parser.cpp:141-152  environmentSubstitute; one unit of fuel per iteration of while(true). *)
Fixpoint environmentSubstitute (fuel : nat) (env : environ) (s : text) : outcome text :=
  match fuel with
  | O => NotFinished
  | S k =>
    match find_ref s with
    | None => Done s
    | Some (p, r) =>
      match find_close r with
      | None => Die Unterminated
      | Some (n, q) => environmentSubstitute k env (p ++ getenv env n ++ q)
      end
    end
  end.

(** parser.cpp:168-173  does the line end with a backslash, and the line without it *)
Definition continued (s : text) : bool :=
  match rev s with c :: _ => Ascii.eqb c BACKSLASH | [] => false end.
Definition body (s : text) : text := if continued s then removelast s else s.

(** An input stream is the list of its lines (the text split at every newline, hence never empty);
    eof() becomes true when the last of them has been read.
    parser.cpp:155-178  readLine: returns the line and the unread lines. *)
Fixpoint readLine_loop (fuel : nat) (env : environ) (line : text) (ls : list text) : outcome (text * list text) :=
  match ls with
  | [] => Done (line, [])
  | l :: ls' =>
    obind (environmentSubstitute fuel env (trim (cut_comment l))) (fun lineIn =>
      let line' := (match line with [] => [] | _ => line ++ [SP] end) ++ body lineIn in
      if continued lineIn then readLine_loop fuel env line' ls' else Done (line', ls'))
  end.
Definition readLine (fuel : nat) (env : environ) (ls : list text) : outcome (text * list text) :=
  readLine_loop fuel env [] ls.

Definition text_set : text := ["s"; "e"; "t"]%char.
Definition text_include : text := ["i"; "n"; "c"; "l"; "u"; "d"; "e"]%char.

Definition command := (text * text)%type.

Section Reader.
  (** The file system: contents of each file that can be opened (the empty name stands for stdin). *)
  Variable open : text -> option (list text).
  (** getDeprecatedMap(): replacement rule of a deprecated command, and its result on parameters
      (None when it throws or leaves arguments over, parser.cpp:221-235). *)
  Variable deprecated : text -> option (text -> option command).

  Record rstate := { r_env : environ; r_input : list command }.

  (** parser.cpp:183-241  readInputFile.  [stack] is the vector filename (last opened file first);
      lines [ls] of the current file are still unread.  One unit of fuel per line read or file opened;
      [fs] bounds each substitution loop. *)
  Fixpoint readLines (fuel fs : nat) (st : rstate) (stack : list text) (ls : list text) : outcome rstate :=
    match fuel with
    | O => NotFinished
    | S k =>
      match ls with
      | [] => Done st
      | _ =>
        obind (readLine fs (r_env st) ls) (fun '(line, ls') =>
          match line with
          | [] => readLines k fs st stack ls'
          | _ =>
            let cmd := before is_ws line in
            let params := from is_ws line in
            if itext_eqb cmd text_set then
              let params := trim params in
              let varName := before is_ws params in
              let varValue := from is_ws params in
              readLines k fs {| r_env := setenv (r_env st) (trim varName) (trim varValue); r_input := r_input st |} stack ls'
            else if itext_eqb cmd text_include then
              let params := trim params in
              match params with
              | [] => Die NoFileName
              | _ =>
                if existsb (itext_eqb params) stack then Die (CyclicInclude params)
                else
                  match open params with
                  | None => Die (CannotOpen params)
                  | Some ls'' => obind (readLines k fs st (params :: stack) ls'') (fun st' => readLines k fs st' stack ls')
                  end
              end
            else
              match deprecated cmd with
              | Some replace =>
                match replace (params ++ [SP]) with
                | Some c => readLines k fs {| r_env := r_env st; r_input := r_input st ++ [c] |} stack ls'
                | None => Die (DeprecatedFailed cmd)
                end
              | None => readLines k fs {| r_env := r_env st; r_input := r_input st ++ [(cmd, params)] |} stack ls'
              end
          end)
      end
    end.

  (** parser.cpp:243-249  reading on the head process *)
  Definition readInputFile (fuel fs : nat) (env : environ) (filename : text) : outcome (list command) :=
    match open filename with
    | None => Die (CannotOpen filename)
    | Some ls => obind (readLines fuel fs {| r_env := env; r_input := [] |} [filename] ls) (fun st => Done (r_input st))
    end.
End Reader.

(** parser.cpp:256-262  serialisation on the head process *)
Definition serialize (input : list command) : text :=
  concat (map (fun p : command => fst p ++ [NL] ++ snd p ++ [NL]) input).
(** getline on a string stream: text up to the next newline (which is consumed) or the end *)
Definition getline (s : text) : text * text :=
  (before (fun c => Ascii.eqb c NL) s, tl (from (fun c => Ascii.eqb c NL) s)).
(** parser.cpp:265-271  on the other processes: nInputs pairs are read back.
    MPIUtil.cpp:216-229 transmits the string unchanged (length, then characters). *)
Fixpoint deserialize (n : nat) (s : text) : list command :=
  match n with
  | O => []
  | S k => let '(a, s1) := getline s in let '(b, s2) := getline s1 in (a, b) :: deserialize k s2
  end.
Definition received (input : list command) : list command := deserialize (length input) (serialize input).
