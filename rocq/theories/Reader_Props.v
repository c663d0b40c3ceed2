(** C20, C21, C22, C23: reading the input file. *)
From Coq Require Import List String Ascii Bool NArith.
From Verif Require Import SMap Reader_Model Reader_Spec Reader_Proofs Reader_Proofs2 Reader_Proofs3 Reader_Proofs4.
Import ListNotations.
Open Scope string_scope.
Open Scope list_scope.

(** ** C20 *)
Theorem C20_trim : forall s, Trimmed s (trim s) /\ forall t, Trimmed s t -> t = trim s.
Proof. exact (fun s => conj (trim_Trimmed s) (fun t H => eq_sym (Trimmed_trim s t H))). Qed.
Print Assumptions C20_trim.
Example C20_trim_ex : trim (T " 	kpoint 0 0 1  ") = T "kpoint 0 0 1".
Proof. reflexivity. Qed.

Theorem C20_trim_idempotent : forall s, trim (trim s) = trim s.
Proof. exact trim_idempotent. Qed.
Print Assumptions C20_trim_idempotent.

(** Changing comments and surrounding white space in any file never changes what is read. *)
Theorem C20_comments_and_white_space_irrelevant : forall open1 open2 deprecated fuel fs env f,
  (forall f, match open1 f, open2 f with
             | Some a, Some b => Forall2 SameLine a b
             | None, None => True
             | _, _ => False
             end) ->
  readInputFile open1 deprecated fuel fs env f = readInputFile open2 deprecated fuel fs env f.
Proof. exact readInputFile_same. Qed.
Print Assumptions C20_comments_and_white_space_irrelevant.
Example C20_comments_ex :
  readInputFile (one_file (T "in") [T "# heading"; T "  coords \  # more"; T "   Lattice "]) no_deprecated 9 9 (fun _ => None) (T "in") =
  readInputFile (one_file (T "in") [T ""; T "coords \"; T "Lattice#"]) no_deprecated 9 9 (fun _ => None) (T "in")
  /\ readInputFile (one_file (T "in") [T ""; T "coords \"; T "Lattice#"]) no_deprecated 9 9 (fun _ => None) (T "in") = Done [(T "coords", T "  Lattice")].
Proof. split; reflexivity. Qed.

(** What is read consists of exactly the command lines of the files, in order: comment-free, trimmed,
    expanded, with continuation lines joined; set and include lines take effect where they stand. *)
Theorem C20_commands_read : forall open deprecated fuel fs env f cs,
  readInputFile open deprecated fuel fs env f = Done cs ->
  exists ls env', open f = Some ls /\ Reads open deprecated env ls cs env'.
Proof. exact readInputFile_reads. Qed.
Print Assumptions C20_commands_read.
Example C20_commands_read_ex :
  readInputFile (two_files (T "in") [T "set N 4"; T "Include b"; T "elec-n-bands ${N} # bands"] (T "b") [T "spintype z-spin"]) no_deprecated 9 9
    (fun _ => None) (T "in") = Done [(T "spintype", T " z-spin"); (T "elec-n-bands", T " 4")].
Proof. reflexivity. Qed.

(** Joining continuation lines preserves the sequence of words. *)
Theorem C20_joining_preserves_words : forall pieces words,
  Forall2 Words pieces words -> Words (joined pieces) (List.concat words).
Proof. exact Words_joined. Qed.
Print Assumptions C20_joining_preserves_words.
Theorem C20_words_well_defined : forall s, exists ws, Words s ws /\ forall ws', Words s ws' -> ws' = ws.
Proof. exact (fun s => match Words_exists s with ex_intro _ ws H => ex_intro _ ws (conj H (fun ws' H' => Words_unique s ws' ws H' H)) end). Qed.
Print Assumptions C20_words_well_defined.
Example C20_words_ex : Words (T " a  bc") [T "a"; T "bc"].
Proof.
  apply (Words_cons (T " ") (T "a") (T "  bc")); [repeat constructor|discriminate| |right; exists " "%char, (T " bc"); split; [reflexivity|cbn; auto]|].
  - repeat constructor. cbn. intuition discriminate.
  - apply (Words_cons (T "  ") (T "bc") []); [repeat constructor; cbn; auto|discriminate| |left; reflexivity|repeat constructor].
    repeat constructor; cbn; intuition discriminate.
Qed.

(** Without variable references, the command name is the first word and the parameters hold the others. *)
Theorem C20_name_is_first_word : forall env used rest bs i r ws w,
  Forall (fun l => ~ In "$"%char l) used -> LogicalLine env used rest bs ->
  Splits (joined bs) i r -> Words (joined bs) (w :: ws) -> i = w /\ Words r ws.
Proof. exact first_word. Qed.
Print Assumptions C20_name_is_first_word.

(** With a variable whose value starts with a blank this fails: substitution comes after trimming,
    and the command name read is empty. *)
Theorem C20_name_is_first_word_refuted : exists env lines,
  readInputFile (one_file (T "in") lines) no_deprecated 9 9 env (T "in") = Done [(T "", T " spintype z-spin")].
Proof. exact (ex_intro _ (one_var (T "X") (T " spintype")) (ex_intro _ [T "${X} z-spin"] eq_refl)). Qed.
Print Assumptions C20_name_is_first_word_refuted.

(** ** C23 *)
Theorem C23_no_reference_left : forall env k s t, environmentSubstitute k env s = Done t ->
  ~ exists p q, t = p ++ "$"%char :: "{"%char :: q.
Proof. exact (fun env k s t H => expands_no_ref env s t (subst_expands env k s t H)). Qed.
Print Assumptions C23_no_reference_left.
Theorem C23_result_is_expansion : forall env s t, (exists k, environmentSubstitute k env s = Done t) <-> Expands env s t.
Proof. exact subst_iff. Qed.
Print Assumptions C23_result_is_expansion.
Example C23_ex : environmentSubstitute 9 (one_var (T "X") (T "p")) (T "a${X}b${Y}c") = Done (T "apbc").
Proof. reflexivity. Qed.
(** Termination when no value contains a dollar sign, or none an opening brace. *)
Theorem C23_terminates_for_plain_values : forall env s,
  (forall n v, env n = Some v -> ~ In "$"%char v) \/ (forall n v, env n = Some v -> ~ In "{"%char v) ->
  exists k0 r, r <> NotFinished /\ forall k, k0 <= k -> environmentSubstitute k env s = r.
Proof. exact env_terminates. Qed.
Print Assumptions C23_terminates_for_plain_values.
(** A variable whose value mentions itself: the loop never ends. *)
Theorem C23_terminates_refuted : exists env s, forall k, environmentSubstitute k env s = NotFinished.
Proof. exact (ex_intro _ (one_var (T "V") (T "${V}")) (ex_intro _ (T "${V}") self_loop)). Qed.
Print Assumptions C23_terminates_refuted.
(** The input file alone can do it, with a value that contains no reference at all. *)
Theorem C23_input_file_terminates_refuted : exists lines, forall k fs,
  readInputFile (one_file (T "in") lines) no_deprecated k fs (fun _ => None) (T "in") = NotFinished.
Proof. exact (ex_intro _ loop_lines loop_never_ends). Qed.
Print Assumptions C23_input_file_terminates_refuted.
(** Death exactly when replacement arrives at a reference that is opened and not closed. *)
Theorem C23_error_means_unterminated : forall env s, (exists k e, environmentSubstitute k env s = Die e) <-> Fails env s.
Proof. exact subst_reports. Qed.
Print Assumptions C23_error_means_unterminated.
Example C23_error_ex : environmentSubstitute 3 (one_var (T "X") (T "{")) (T "$${X}a") = Die Unterminated.
Proof. reflexivity. Qed.

(** ** C21 *)
(** Finitely many files, every dollar sign in them opening a reference, environment without dollar signs. *)
Theorem C21_terminates : forall open deprecated names,
  (forall f ls, open f = Some ls -> In f names) -> (forall f ls, open f = Some ls -> Forall DollarsOpen ls) ->
  forall env f, (forall n v, env n = Some v -> ~ In "$"%char v) ->
  exists k0 fs0 r, r <> NotFinished /\ forall k fs, k0 <= k -> fs0 <= fs -> readInputFile open deprecated k fs env f = r.
Proof. exact readInputFile_terminates. Qed.
Print Assumptions C21_terminates.
Example C21_terminates_ex :
  readInputFile (two_files (T "a") [T "include ${B}"] (T "b") [T "include A"]) no_deprecated 20 5 (one_var (T "B") (T "b")) (T "a")
  = Die (CyclicInclude (T "A")).
Proof. reflexivity. Qed.

(** A cycle is reported only when the chain of files being read returns to one of them. *)
Theorem C21_cycle_reported_is_cycle : forall open deprecated,
  (forall f ls, open f = Some ls -> Forall (fun l => ~ In "$"%char l) ls) ->
  forall k fs env f0 g, readInputFile open deprecated k fs env f0 = Die (CyclicInclude g) ->
  exists h hs, Chain open f0 (h :: hs) /\ Includes open h g /\ Returns g (h :: hs).
Proof. exact readInputFile_cycle. Qed.
Print Assumptions C21_cycle_reported_is_cycle.
(** Reading succeeds only when no chain returns. *)
Theorem C21_success_means_no_cycle : forall open deprecated,
  (forall f ls, open f = Some ls -> Forall (fun l => ~ In "$"%char l) ls) ->
  forall k fs env f0 cs, readInputFile open deprecated k fs env f0 = Done cs ->
  forall g stack, Chain open f0 (g :: stack) -> stack = [] \/ ~ Returns g stack.
Proof. exact (fun open dep H k fs env f0 cs R g stack C => proj1 (Done_chain open dep H k fs env f0 cs R g stack C)). Qed.
Print Assumptions C21_success_means_no_cycle.
(** Hence every returning chain ends in an error. *)
Theorem C21_cycle_is_error : forall open deprecated names env f0 g stack,
  (forall f ls, open f = Some ls -> In f names) ->
  (forall f ls, open f = Some ls -> Forall (fun l => ~ In "$"%char l) ls) -> (forall n v, env n = Some v -> ~ In "$"%char v) ->
  Chain open f0 (g :: stack) -> stack <> [] -> Returns g stack ->
  exists k0 fs0 e, forall k fs, k0 <= k -> fs0 <= fs -> readInputFile open deprecated k fs env f0 = Die e.
Proof. exact cycle_is_error. Qed.
Print Assumptions C21_cycle_is_error.
Example C21_cycle_ex :
  readInputFile (two_files (T "a") [T "x"; T "include b"] (T "b") [T "include a"]) no_deprecated 20 5 (fun _ => None) (T "a") = Die (CyclicInclude (T "a"))
  /\ readInputFile (two_files (T "a") [T "include b"; T "include b"] (T "b") [T "x 1"]) no_deprecated 20 5 (fun _ => None) (T "a")
     = Done [(T "x", T " 1"); (T "x", T " 1")].
Proof. split; reflexivity. Qed.
(** Two different files whose names differ in letter case only, without any cycle, are reported as a cycle. *)
Theorem C21_distinct_files_refuted : exists open, open (T "a") = Some [T "include A"] /\ open (T "A") = Some [T "spintype z-spin"] /\
  readInputFile open no_deprecated 9 9 (fun _ => None) (T "a") = Die (CyclicInclude (T "A")).
Proof.
  exact (ex_intro _ (two_files (T "a") [T "include A"] (T "A") [T "spintype z-spin"]) (conj eq_refl (conj eq_refl eq_refl))).
Qed.
Print Assumptions C21_distinct_files_refuted.

(** ** C22 *)
Theorem C22_received_is_sent : forall input, Forall (fun c => ~ In "010"%char (fst c) /\ ~ In "010"%char (snd c)) input ->
  received input = input.
Proof. exact received_same. Qed.
Print Assumptions C22_received_is_sent.
(** Everything read from files is received unchanged, provided no environment variable holds a newline. *)
Theorem C22_all_processes_agree : forall open deprecated fuel fs env f cs,
  (forall f ls, open f = Some ls -> Forall (fun l => ~ In "010"%char l) ls) -> (forall n v, env n = Some v -> ~ In "010"%char v) ->
  (forall n rep p a b, deprecated n = Some rep -> rep p = Some (a, b) -> ~ In "010"%char p -> ~ In "010"%char a /\ ~ In "010"%char b) ->
  readInputFile open deprecated fuel fs env f = Done cs -> received cs = cs.
Proof. exact broadcast_ok. Qed.
Print Assumptions C22_all_processes_agree.
Example C22_ex : received [(T "ion", T " H 0 0 0 1"); (T "dump", T "")] = [(T "ion", T " H 0 0 0 1"); (T "dump", T "")].
Proof. reflexivity. Qed.
(** With a newline in an environment variable the other processes see different commands. *)
Theorem C22_all_processes_agree_refuted : exists env lines cs,
  readInputFile (one_file (T "in") lines) no_deprecated 9 9 env (T "in") = Done cs /\ received cs <> cs.
Proof. exact newline_breaks. Qed.
Print Assumptions C22_all_processes_agree_refuted.
