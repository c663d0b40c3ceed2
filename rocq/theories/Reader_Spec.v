(** Specification vocabulary for reading the input file (independent of the program). *)
From Coq Require Import List Ascii Bool NArith Relations.
From Verif Require Import SMap.
Import ListNotations.

Notation chars := (list ascii).
Definition White (c : ascii) : Prop := In c [" "%char; "009"%char; "010"%char; "013"%char].
Definition Blank (s : chars) : Prop := Forall White s.

(** t is s without its leading and trailing white space. *)
Definition Trimmed (s t : chars) : Prop :=
  exists a b, s = a ++ t ++ b /\ Blank a /\ Blank b /\
    (t = [] \/ exists c1 c2 u1 u2, t = c1 :: u1 /\ t = u2 ++ [c2] /\ ~ White c1 /\ ~ White c2).

(** u is line l without its comment. *)
Definition Uncommented (l u : chars) : Prop :=
  ~ In "#"%char u /\ (l = u \/ exists c, l = u ++ "#"%char :: c).

(** c is what matters of line l. *)
Definition Clean (l c : chars) : Prop := exists u, Uncommented l u /\ Trimmed u c.
Definition SameLine (l1 l2 : chars) : Prop := exists c, Clean l1 c /\ Clean l2 c.

(** Words of a line: maximal runs of non-white characters, in order. *)
Inductive Words : chars -> list chars -> Prop :=
| Words_nil s : Blank s -> Words s []
| Words_cons a w s ws : Blank a -> w <> [] -> Forall (fun c => ~ White c) w ->
    (s = [] \/ exists c s', s = c :: s' /\ White c) -> Words s ws -> Words (a ++ w ++ s) (w :: ws).

(** References to environment variables. *)
Definition HasRef (s : chars) : Prop := exists p q, s = p ++ "$"%char :: "{"%char :: q.
Definition env_value (env : chars -> option chars) (n : chars) : chars :=
  match env n with Some v => v | None => [] end.
(** Repeated replacement of the first reference until none is left. *)
Inductive Expands (env : chars -> option chars) : chars -> chars -> Prop :=
| Expands_done s : ~ HasRef s -> Expands env s s
| Expands_step p n q t : ~ HasRef (p ++ ["$"%char]) -> ~ In "}"%char n ->
    Expands env (p ++ env_value env n ++ q) t -> Expands env (p ++ "$"%char :: "{"%char :: n ++ "}"%char :: q) t.
(** Replacement arrives at a first reference that is opened but not closed. *)
Inductive Fails (env : chars -> option chars) : chars -> Prop :=
| Fails_now p r : ~ HasRef (p ++ ["$"%char]) -> ~ In "}"%char r -> Fails env (p ++ "$"%char :: "{"%char :: r)
| Fails_step p n q : ~ HasRef (p ++ ["$"%char]) -> ~ In "}"%char n ->
    Fails env (p ++ env_value env n ++ q) -> Fails env (p ++ "$"%char :: "{"%char :: n ++ "}"%char :: q).

(** l stands for piece b of a command line, which is continued on the following line iff [cont]. *)
Definition Piece (env : chars -> option chars) (l : chars) (cont : bool) (b : chars) : Prop :=
  exists c e, Clean l c /\ Expands env c e /\
    (if cont then e = b ++ ["\"%char] else e = b /\ ~ exists b', e = b' ++ ["\"%char]).

(** Pieces are joined with one blank, except that nothing is put before the first non-empty one. *)
Definition joined (pieces : list chars) : chars :=
  fold_left (fun acc b => match acc with [] => b | _ => acc ++ [" "%char] ++ b end) pieces [].

(** [lines] is one command line (continued up to its last piece, or up to the end of the file when
    [rest] is empty) made of [pieces]. *)
Inductive LogicalLine (env : chars -> option chars) : list chars -> list chars -> list chars -> Prop :=
| LL_last l b rest : Piece env l false b -> LogicalLine env [l] rest [b]
| LL_eof l b : Piece env l true b -> LogicalLine env [l] [] [b]
| LL_more l b lines rest bs : Piece env l true b -> LogicalLine env lines rest bs ->
    LogicalLine env (l :: lines) rest (b :: bs).
(** A file without references: the pieces of all its command lines. *)
Inductive LogicalLines (env : chars -> option chars) : list chars -> list (list chars) -> Prop :=
| LLs_nil : LogicalLines env [] []
| LLs_cons lines rest bs bss : LogicalLine env lines rest bs -> LogicalLines env rest bss ->
    LogicalLines env (lines ++ rest) (bs :: bss).
Definition no_env : chars -> option chars := fun _ => None.

(** Equality of names up to letter case. *)
Definition SameName (a b : chars) : Prop := map lowerc a = map lowerc b.
Definition word_set : chars := ["s"; "e"; "t"]%char.
Definition word_include : chars := ["i"; "n"; "c"; "l"; "u"; "d"; "e"]%char.

(** The command line t consists of the word i followed by the arguments r. *)
Definition Splits (t i r : chars) : Prop :=
  t = i ++ r /\ Forall (fun c => ~ White c) i /\ (r = [] \/ exists c r', r = c :: r' /\ White c).

(** Include graph of reference-free files. *)
Definition Includes (open : chars -> option (list chars)) (f g : chars) : Prop :=
  exists ls bss bs i r, open f = Some ls /\ LogicalLines no_env ls bss /\ In bs bss /\
    Splits (joined bs) i r /\ SameName i word_include /\ Trimmed r g /\ g <> [].
(** Files being read, innermost first, starting from f0. *)
Inductive Chain (open : chars -> option (list chars)) (f0 : chars) : list chars -> Prop :=
| Chain_start : Chain open f0 [f0]
| Chain_more f g fs : Chain open f0 (f :: fs) -> Includes open f g -> Chain open f0 (g :: f :: fs).
Definition Returns (g : chars) (fs : list chars) : Prop := Exists (SameName g) fs.

(** Assignment of an environment variable (refused for an empty name or one containing '='). *)
Definition SetVar (env : chars -> option chars) (n v : chars) (env' : chars -> option chars) : Prop :=
  ((n = [] \/ In "="%char n) /\ env' = env) \/
  (n <> [] /\ ~ In "="%char n /\ env' n = Some v /\ forall m, m <> n -> env' m = env m).

(** Commands read from lines, starting with environment env and leaving env'. *)
Section Reads.
  Variable open : chars -> option (list chars).
  Variable deprecated : chars -> option (chars -> option (chars * chars)).
  Inductive Reads : (chars -> option chars) -> list chars -> list (chars * chars) -> (chars -> option chars) -> Prop :=
  | R_eof env : Reads env [] [] env
  | R_blank env used rest bs cs env' : LogicalLine env used rest bs -> joined bs = [] ->
      Reads env rest cs env' -> Reads env (used ++ rest) cs env'
  | R_set env used rest bs i r r' n v v' env1 cs env' : LogicalLine env used rest bs -> joined bs <> [] ->
      Splits (joined bs) i r -> SameName i word_set -> Trimmed r r' -> Splits r' n v -> Trimmed v v' ->
      SetVar env n v' env1 -> Reads env1 rest cs env' -> Reads env (used ++ rest) cs env'
  | R_include env used rest bs i r g ls cs1 env1 cs2 env2 : LogicalLine env used rest bs -> joined bs <> [] ->
      Splits (joined bs) i r -> SameName i word_include -> Trimmed r g -> g <> [] -> open g = Some ls ->
      Reads env ls cs1 env1 -> Reads env1 rest cs2 env2 -> Reads env (used ++ rest) (cs1 ++ cs2) env2
  | R_deprecated env used rest bs i r rep c cs env' : LogicalLine env used rest bs -> joined bs <> [] ->
      Splits (joined bs) i r -> ~ SameName i word_set -> ~ SameName i word_include ->
      deprecated i = Some rep -> rep (r ++ [" "%char]) = Some c ->
      Reads env rest cs env' -> Reads env (used ++ rest) (c :: cs) env'
  | R_command env used rest bs i r cs env' : LogicalLine env used rest bs -> joined bs <> [] ->
      Splits (joined bs) i r -> ~ SameName i word_set -> ~ SameName i word_include ->
      deprecated i = None -> Reads env rest cs env' -> Reads env (used ++ rest) ((i, r) :: cs) env'.
End Reads.

(** Every '$' starts a "${". *)
Definition DollarsOpen (s : chars) : Prop := forall p q, s = p ++ "$"%char :: q -> exists q', q = "{"%char :: q'.
