From Coq Require Import List String Ascii Bool NArith Lia Arith.
From Verif Require Import SMap Reader_Model Reader_Spec Reader_Proofs Reader_Proofs2 Reader_Proofs3.
Open Scope list_scope.
Import ListNotations.

Definition T (s : String.string) : text := list_ascii_of_string s.
Definition one_file (name : text) (lines : list text) : text -> option (list text) :=
  fun f => if text_eqb f name then Some lines else None.
Definition two_files (n1 : text) (l1 : list text) (n2 : text) (l2 : list text) : text -> option (list text) :=
  fun f => if text_eqb f n1 then Some l1 else if text_eqb f n2 then Some l2 else None.
Definition one_var (name value : text) : environ := fun n => if text_eqb n name then Some value else None.
Definition no_deprecated : text -> option (text -> option command) := fun _ => None.

Definition loop_lines : list text := [T "set V {V}{V}$$"; T "title $${V}"].
Lemma loop_first fs env rest : readLine (S fs) env (T "set V {V}{V}$$" :: rest) = Done (T "set V {V}{V}$$", rest).
Proof.
  unfold readLine. cbn [readLine_loop].
  change (trim (cut_comment (T "set V {V}{V}$$"))) with (T "set V {V}{V}$$").
  rewrite (subst_noref env (T "set V {V}{V}$$")) by (rewrite <- find_ref_none; reflexivity). reflexivity.
Qed.
Lemma loop_second fs env rest : env ["V"%char] = Some (T "{V}{V}$$") -> readLine fs env (T "title $${V}" :: rest) = NotFinished.
Proof.
  intros E. unfold readLine. cbn [readLine_loop].
  change (trim (cut_comment (T "title $${V}"))) with (T "title " ++ ["$";"$";"{";"V";"}"]%char ++ [])%list.
  rewrite (growing_diverges env E); [reflexivity|]. cbn. intuition discriminate.
Qed.
Lemma loop_never_ends k fs : readInputFile (one_file (T "in") loop_lines) no_deprecated k fs (fun _ => None) (T "in") = NotFinished.
Proof.
  unfold readInputFile. change (one_file (T "in") loop_lines (T "in")) with (Some loop_lines).
  destruct k as [|k]; [reflexivity|]. destruct fs as [|fs]; [reflexivity|].
  unfold loop_lines at 2. cbn [readLines]. cbn [r_env]. rewrite loop_first. cbn [obind].
  set (env' := setenv _ _ _).
  destruct k as [|k]; [reflexivity|]. cbn [readLines r_env].
  match goal with |- context[readLine _ ?e _] => assert (E : e ["V"%char] = Some (T "{V}{V}$$")) by reflexivity end.
  change (T "set V {V}{V}$$") with ("s"%char :: T "et V {V}{V}$$"). cbv iota beta zeta.
  change (itext_eqb (before is_ws ("s"%char :: T "et V {V}{V}$$")) text_set) with true. cbv iota.
  rewrite loop_second; [reflexivity|]. exact E.
Qed.

Lemma env_terminates env s : (forall n v, env n = Some v -> ~ In "$"%char v) \/ (forall n v, env n = Some v -> ~ In "{"%char v) ->
  exists k0 r, r <> NotFinished /\ forall k, k0 <= k -> environmentSubstitute k env s = r.
Proof.
  intros [H|H].
  - pose proof (subst_terminates_measure env DOLLAR (or_introl eq_refl) H (S (count DOLLAR s)) s (le_n _)) as X.
    exists (S (count DOLLAR s)), (environmentSubstitute (S (count DOLLAR s)) env s). split; [exact X|]. intros k L. eapply subst_mono; eauto.
  - pose proof (subst_terminates_measure env LBRACE (or_intror eq_refl) H (S (count LBRACE s)) s (le_n _)) as X.
    exists (S (count LBRACE s)), (environmentSubstitute (S (count LBRACE s)) env s). split; [exact X|]. intros k L. eapply subst_mono; eauto.
Qed.

Lemma subst_iff env s t : (exists k, environmentSubstitute k env s = Done t) <-> Expands env s t.
Proof. split; [intros [k H]; eapply subst_expands; eauto|apply expands_subst]. Qed.

Lemma subst_reports env s : (exists k e, environmentSubstitute k env s = Die e) <-> Fails env s.
Proof.
  split.
  - intros [k [e H]]. revert s H. induction k as [|k IH]; intros s H; cbn in H; [discriminate|].
    destruct (find_ref s) as [[p r]|] eqn:F; [|discriminate]. apply find_ref_some in F. destruct F as [-> F].
    destruct (find_close r) as [[n q]|] eqn:C.
    + apply find_close_some in C. destruct C as [-> C]. apply Fails_step; auto.
    + apply find_close_none in C. apply Fails_now; auto.
  - induction 1 as [p r Hp Hr|p n q Hp Hn _ [k [e IH]]].
    + exists 1, Unterminated. cbn. rewrite find_ref_first by auto. apply find_close_none in Hr. rewrite Hr. reflexivity.
    + exists (S k), e. cbn. rewrite find_ref_first by auto.
      assert (C : find_close (n ++ RBRACE :: q) = Some (n, q)) by (apply find_close_some; auto).
      change "}"%char with RBRACE. rewrite C. exact IH.
Qed.

Lemma cycle_is_error open dep dom env f0 g stack :
  (forall f ls, open f = Some ls -> In f dom) ->
  (forall f ls, open f = Some ls -> Forall (fun l => ~ In "$"%char l) ls) -> env_free "$"%char env ->
  Chain open f0 (g :: stack) -> stack <> [] -> Returns g stack ->
  exists k0 fs0 e, forall k fs, k0 <= k -> fs0 <= fs -> readInputFile open dep k fs env f0 = Die e.
Proof.
  intros Hd Hp He HC Hs Hr.
  assert (Ho : forall f ls, open f = Some ls -> Forall DollarsOpen ls).
  { intros f ls H. apply Hp in H. eapply Forall_impl; [|exact H]. intros l Hl p q E. exfalso. apply Hl. rewrite E. apply in_elt. }
  destruct (readInputFile_terminates open dep dom Hd Ho env f0 He) as [k0 [fs0 [r [N H]]]].
  destruct r as [cs|e|]; [|exists k0, fs0, e; exact H|congruence].
  exfalso. specialize (H k0 fs0 (le_n _) (le_n _)).
  destruct (Done_chain open dep Hp k0 fs0 env f0 cs H g stack HC) as [[X|X] _]; contradiction.
Qed.

Lemma self_loop k : environmentSubstitute k (one_var (T "V") (T "${V}")) (T "${V}") = NotFinished.
Proof. apply (selfref_diverges _ (T "V") eq_refl). cbn. intuition discriminate. Qed.
Lemma newline_breaks : exists env lines cs,
  readInputFile (one_file (T "in") lines) no_deprecated 9 9 env (T "in") = Done cs /\ received cs <> cs.
Proof.
  exists (one_var (T "X") ["a"; "010"; "b"]%char), [T "title ${X}"; T "dump End None"]. eexists. split; [reflexivity|]. vm_compute. discriminate.
Qed.
