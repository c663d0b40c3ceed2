(** Properties C18 (commands run after everything they require, whatever the order of the file)
    and C19 (mutually exclusive commands are rejected). *)
From Coq Require Import List String Bool Arith Relations Permutation.
From Verif Require Import SMap Commands_Model Commands_Spec Commands_Proofs Commands_Proofs2 Commands_Proofs3 Commands_Proofs4.
Import ListNotations.
Open Scope string_scope.
Open Scope nat_scope.
Open Scope list_scope.

(** A few commands of the code, with their own requires and forbids (elec_misc.cpp:176-237, scf.cpp:147,
    phonon/commands.cpp:89, lattice.cpp). *)
Definition spintype := {| c_name := "spintype"; c_section := "jdftx"; c_requires := []; c_forbids := [];
  c_allowMultiple := false; c_hasDefault := true; c_emptyParamError := false |}.
Definition lattice := {| c_name := "lattice"; c_section := "jdftx"; c_requires := []; c_forbids := [];
  c_allowMultiple := false; c_hasDefault := false; c_emptyParamError := true |}.
Definition ion := {| c_name := "ion"; c_section := "jdftx"; c_requires := ["lattice"]; c_forbids := [];
  c_allowMultiple := true; c_hasDefault := false; c_emptyParamError := true |}.
Definition fixdensity := {| c_name := "fix-electron-density"; c_section := "jdftx"; c_requires := ["spintype"]; c_forbids := ["electronic-scf"];
  c_allowMultiple := false; c_hasDefault := false; c_emptyParamError := false |}.
Definition scf := {| c_name := "electronic-scf"; c_section := "jdftx"; c_requires := []; c_forbids := [];
  c_allowMultiple := false; c_hasDefault := false; c_emptyParamError := false |}.
Definition phonon := {| c_name := "phonon"; c_section := "phonon"; c_requires := []; c_forbids := ["fix-electron-density"];
  c_allowMultiple := false; c_hasDefault := false; c_emptyParamError := false |}.
Definition mini : table := [scf; fixdensity; ion; lattice; spintype].
Definition never : list event -> string -> string -> bool := fun _ _ _ => false.
Definition run (t : table) (input : list event) := match processTable t with Good (t', lv, n) => Some (parse never t' lv n input) | Bad _ => None end.

(** ** C18 *)
(** The passes put each command after everything it requires, and no later than necessary. *)
Theorem C18_levels : forall t t' lv n, UniqueNames t -> processTable t = Good (t', lv, n) ->
  (forall c, In c t -> exists l, lv (c_name c) = Some l /\ l <= n) /\
  (forall c d, Req t c d -> exists lc ld, lv (c_name c) = Some lc /\ lv (c_name d) = Some ld /\ ld < lc) /\
  (forall c, In c t -> lv (c_name c) = Some 0 <-> c_requires c = []) /\
  (forall c l, In c t -> lv (c_name c) = Some (S l) -> exists d, Req t c d /\ lv (c_name d) = Some l).
Proof. exact final_levels. Qed.
Print Assumptions C18_levels.
Example C18_levels_ex : UniqueNames mini /\ exists t' lv, processTable mini = Good (t', lv, 1) /\ lv "ion" = Some 1 /\ lv "lattice" = Some 0.
Proof. split; [unfold UniqueNames; cbn; repeat constructor; cbn; intuition discriminate|]. eexists. eexists. split; [vm_compute; reflexivity|]. vm_compute. auto. Qed.

(** A cycle among requirements is always reported as such ... *)
Theorem C18_cycle_reported : forall t, UniqueNames t -> RequiresValid t -> (exists S, Stuck t S) -> processTable t = Bad Cyclic.
Proof. exact final_cycle. Qed.
Print Assumptions C18_cycle_reported.
Definition selfish := {| c_name := "a"; c_section := "jdftx"; c_requires := ["b"]; c_forbids := []; c_allowMultiple := false; c_hasDefault := false; c_emptyParamError := false |}.
Definition selfish' := {| c_name := "b"; c_section := "jdftx"; c_requires := ["A"]; c_forbids := []; c_allowMultiple := false; c_hasDefault := false; c_emptyParamError := false |}.
Example C18_cycle_ex : exists S, Stuck [spintype; selfish; selfish'] S.
Proof.
  exists (fun c => c = selfish \/ c = selfish'). split; [exists selfish; auto|]. intros c [->| ->]; cbn; (split; [auto|]); [exists selfish'|exists selfish]; 
  (split; [|auto]); unfold Req; cbn; (split; [auto|split; [auto|]]); eexists; (split; [left; reflexivity|reflexivity]).
Qed.

(** ... the loop over passes always ends, with an error only when there is a reason for it. *)
Theorem C18_passes_end : forall t, UniqueNames t ->
  match processTable t with Bad TooManyPasses => False | Bad Cyclic => exists S, Stuck t S | Bad BadRequire => ~ RequiresValid t | _ => True end.
Proof. exact final_outcome. Qed.
Print Assumptions C18_passes_end.

(** When the input is accepted, what was run is the input sorted by pass. *)
Theorem C18_run_in_passes : forall fails t t' lv n, UniqueNames t -> processTable t = Good (t', lv, n) -> forall input,
  fst (parse fails t' lv n input) = [] -> snd (parse fails t' lv n input) = sorted_by_level t' lv n input.
Proof. exact final_trace. Qed.
Print Assumptions C18_run_in_passes.
Example C18_run_ex : run mini [("ion", "H 0 0 0 1"); ("Lattice", "Cubic 10"); ("ion", "H 1 0 0 1")]
  = Some ([], [("lattice", "Cubic 10 "); ("spintype", ""); ("ion", "H 0 0 0 1 "); ("ion", "H 1 0 0 1 ")]).
Proof. vm_compute. reflexivity. Qed.

(** Every command is run after all its direct and indirect requirements. *)
Theorem C18_requirements_first : forall fails t t' lv n, UniqueNames t -> processTable t = Good (t', lv, n) -> forall input,
  fst (parse fails t' lv n input) = [] ->
  forall l1 nm ps l2, snd (parse fails t' lv n input) = l1 ++ (nm, ps) :: l2 ->
  forall c d, In c t -> ieq nm (c_name c) -> ReqStar t c d -> exists ps', In (c_name d, ps') l1.
Proof. exact final_before. Qed.
Print Assumptions C18_requirements_first.
Example C18_requirements_ex : ReqStar mini ion lattice /\ In ("lattice", "Cubic 10 ") [("lattice", "Cubic 10 "); ("spintype", "")].
Proof. split; [|cbn; auto]. apply t_step. split; [cbn; auto|]. split; [cbn; auto|]. exists "lattice". cbn. split; [auto|reflexivity]. Qed.

(** Each command is run once per line that issues it, in the order of those lines; if there is none, its
    default (if any) is run once. *)
Theorem C18_once_per_line : forall fails t t' lv n, UniqueNames t -> processTable t = Good (t', lv, n) -> forall input c,
  fst (parse fails t' lv n input) = [] -> In c t ->
  filter (issues (c_name c)) (snd (parse fails t' lv n input)) =
    map (fun e => (c_name c, (snd e ++ " ")%string)) (filter (issues (c_name c)) input) ++
    (if c_hasDefault c && negb (existsb (issues (c_name c)) input) then [(c_name c, ""%string)] else []).
Proof. exact final_lines. Qed.
Print Assumptions C18_once_per_line.

(** Acceptance depends on the content of the file only (when process itself never fails and no command
    forbids one of another section). *)
Theorem C18_accepts_iff : forall fails t t' lv n, UniqueNames t -> processTable t = Good (t', lv, n) -> forall input,
  (forall a b, Forb t a b -> SameSection t a b) -> (forall tr a b, fails tr a b = false) ->
  (fst (parse fails t' lv n input) = [] <-> Valid t input).
Proof. exact final_valid. Qed.
Print Assumptions C18_accepts_iff.
Corollary C18_order_irrelevant_for_acceptance : forall fails t t' lv n, UniqueNames t -> processTable t = Good (t', lv, n) -> forall input input',
  (forall a b, Forb t a b -> SameSection t a b) -> (forall tr a b, fails tr a b = false) -> Permutation input input' ->
  fst (parse fails t' lv n input) = [] -> fst (parse fails t' lv n input') = [].
Proof.
  intros fails t t' lv n U PT input input' HS NF P H. apply (C18_accepts_iff fails t t' lv n U PT input HS NF) in H.
  apply (C18_accepts_iff fails t t' lv n U PT input' HS NF). exact (valid_perm fails t input input' P H).
Qed.
Print Assumptions C18_order_irrelevant_for_acceptance.
Example C18_order_ex : (forall a b, Forb mini a b -> SameSection mini a b) /\ fst (match run mini [("ion", "H"); ("lattice", "Cubic")] with Some x => x | None => ([Unknown ""], []) end) = [].
Proof.
  split; [|vm_compute; reflexivity]. intros a b [c [f [H1 [H2 [H3 H4]]]]]. cbn in H1. destruct H1 as [<-|[<-|[<-|[<-|[<-|[]]]]]]; cbn in H3; try contradiction.
  destruct H3 as [<-|[]]. exists fixdensity, scf. cbn. repeat split; auto.
Qed.

(** Two orders of the same lines need not run the commands in the same order: within a pass the order of
    the file is kept. *)
Theorem C18_same_order_refuted : exists input input', Permutation input input' /\ 
  (exists tr tr', run mini input = Some ([], tr) /\ run mini input' = Some ([], tr') /\ tr <> tr').
Proof.
  exists [("lattice", "Cubic"); ("ion", "H"); ("ion", "O")], [("lattice", "Cubic"); ("ion", "O"); ("ion", "H")]. split; [apply perm_skip, perm_swap|].
  eexists. eexists. split; [vm_compute; reflexivity|]. split; [vm_compute; reflexivity|]. discriminate.
Qed.
Print Assumptions C18_same_order_refuted.

(** ** C19 *)
(** Two commands that end up active (issued or defaulted), one of which forbids the other, are reported:
    always within a section, and across sections when the forbidding one is run in a later pass. *)
Theorem C19_conflict_reported : forall fails t t' lv n, UniqueNames t -> processTable t = Good (t', lv, n) -> forall input c d,
  Active t input c -> Active t input d -> Forb t (c_name c) (c_name d) ->
  (SameSection t (c_name c) (c_name d) \/ (exists lc ld, lv (c_name c) = Some lc /\ lv (c_name d) = Some ld /\ ld < lc)) ->
  fst (parse fails t' lv n input) <> [].
Proof. exact final_conflict. Qed.
Print Assumptions C19_conflict_reported.
Example C19_conflict_ex : run mini [("fix-electron-density", "f"); ("electronic-scf", "")]
  = Some ([Incompatible "fix-electron-density" "electronic-scf"], [("electronic-scf", " "); ("spintype", ""); ("fix-electron-density", "f ")]).
Proof. vm_compute. reflexivity. Qed.

(** A command that may not be repeated and is issued twice is reported. *)
Theorem C19_repeat_reported : forall fails t t' lv n, UniqueNames t -> processTable t = Good (t', lv, n) -> forall input c,
  In c t -> c_allowMultiple c = false -> 2 <= List.length (filter (issues (c_name c)) input) -> fst (parse fails t' lv n input) <> [].
Proof. exact final_repeat. Qed.
Print Assumptions C19_repeat_reported.
Example C19_repeat_ex : List.length (filter (issues "lattice") [("lattice", "Cubic"); ("LATTICE", "Cubic")]) = 2.
Proof. vm_compute. reflexivity. Qed.

(** The forbids become mutual within a section, and nothing else is added. *)
Theorem C19_mutual : forall t t' lv n, UniqueNames t -> processTable t = Good (t', lv, n) ->
  (forall a b, Forb t a b -> Forb t' a b) /\
  (forall a b, Forb t a b -> SameSection t a b -> Forb t' b a) /\
  (forall a b, Forb t' a b -> Forb t a b \/ (Forb t b a /\ SameSection t a b)).
Proof.
  intros t t' lv n U PT. destruct (processTable_ok t t' lv n U PT) as [_ [_ [_ [S [_ [_ [M1 M2]]]]]]].
  exact (conj (fun a b => similar_forb t t' a b S) (conj M1 M2)).
Qed.
Print Assumptions C19_mutual.
Example C19_mutual_ex : match processTable mini with Good (t', _, _) => map c_forbids t' | Bad _ => [] end = [["fix-electron-density"]; ["electronic-scf"]; []; []; []].
Proof. vm_compute. reflexivity. Qed.

(** Accepted tables: no two (indirect) requirements of a command forbid each other. *)
Theorem C19_requirements_compatible : forall t t' lv n, UniqueNames t -> processTable t = Good (t', lv, n) -> forall c d e,
  ReqStar t c d -> ReqStar t c e -> ~ Forb t (c_name d) (c_name e) /\ ~ Forb t (c_name e) (c_name d).
Proof. exact final_static. Qed.
Print Assumptions C19_requirements_compatible.

(** False across sections: phonon forbids fix-electron-density, but is run before it and so never sees it. *)
Theorem C19_cross_section_refuted : exists t input c d, UniqueNames t /\ Active t input c /\ Active t input d /\ Forb t (c_name c) (c_name d) /\
  exists tr, run t input = Some ([], tr).
Proof.
  exists [fixdensity; scf; phonon; spintype], [("phonon", "supercell 2 2 2"); ("fix-electron-density", "f")], phonon, fixdensity.
  split; [unfold UniqueNames; cbn; repeat constructor; cbn; intuition discriminate|].
  split; [split; [cbn; auto|left; eexists; split; [left; reflexivity|reflexivity]]|].
  split; [split; [cbn; auto|left; eexists; split; [right; left; reflexivity|reflexivity]]|].
  split; [exists phonon, "fix-electron-density"; cbn; repeat split; auto|]. eexists. vm_compute. reflexivity.
Qed.
Print Assumptions C19_cross_section_refuted.

(** The check of the table ignores what a command itself forbids: a command that forbids one of its own
    requirements, and so can never be used, is accepted. *)
Definition hopeless := {| c_name := "hopeless"; c_section := "jdftx"; c_requires := ["spintype"]; c_forbids := ["spintype"];
  c_allowMultiple := false; c_hasDefault := false; c_emptyParamError := false |}.
Theorem C19_own_forbids_unchecked_refuted : exists t c d, UniqueNames t /\ Req t c d /\ Forb t (c_name c) (c_name d) /\ exists r, processTable t = Good r.
Proof.
  exists [hopeless; spintype], hopeless, spintype. split; [unfold UniqueNames; cbn; repeat constructor; cbn; intuition discriminate|].
  split; [unfold Req; cbn; split; [auto|split; [auto|]]; eexists; split; [left; reflexivity|reflexivity]|].
  split; [exists hopeless, "spintype"; cbn; repeat split; auto|]. eexists. vm_compute. reflexivity.
Qed.
Print Assumptions C19_own_forbids_unchecked_refuted.
