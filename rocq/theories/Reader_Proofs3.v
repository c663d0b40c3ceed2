From Coq Require Import List Ascii Bool NArith Lia Arith.
From Verif Require Import SMap Reader_Model Reader_Spec Reader_Proofs Reader_Proofs2.
Import ListNotations.

(** ** more fuel changes nothing *)
Lemma readLine_mono fs fs' env line ls r : readLine_loop fs env line ls = r -> r <> NotFinished -> fs <= fs' ->
  readLine_loop fs' env line ls = r.
Proof.
  revert line. induction ls as [|l ls IH]; intros line E N L; cbn in *; auto.
  destruct (environmentSubstitute fs env (trim (cut_comment l))) as [t|e|] eqn:S.
  - rewrite (subst_mono env _ fs fs' (Done t)) by (auto; discriminate). cbn in *. destruct (continued t); auto.
  - rewrite (subst_mono env _ fs fs' (Die e)) by (auto; discriminate). auto.
  - cbn in E. congruence.
Qed.
Lemma readLines_mono open dep k : forall k' fs fs' st stack ls r, readLines open dep k fs st stack ls = r -> r <> NotFinished ->
  k <= k' -> fs <= fs' -> readLines open dep k' fs' st stack ls = r.
Proof.
  induction k as [|k IH]; intros k' fs fs' st stack ls r E N L1 L2; cbn [readLines] in E; [congruence|].
  destruct k' as [|k']; [lia|]. cbn [readLines]. destruct ls as [|l0 ls0]; [auto|].
  destruct (readLine fs (r_env st) (l0 :: ls0)) as [[line rest]|e|] eqn:RL; cbn [obind] in E; try congruence.
  - unfold readLine in *. rewrite (readLine_mono fs fs' _ _ _ _ RL) by (auto; discriminate). cbn [obind].
    destruct line as [|c line]; [apply (IH k' fs fs' _ _ _ _ E N); lia|].
    destruct (itext_eqb _ text_set); [apply (IH k' fs fs' _ _ _ _ E N); lia|].
    destruct (itext_eqb _ text_include).
    + destruct (trim _) as [|c0 g0]; [auto|]. destruct (existsb _ _); [auto|]. destruct (open _); [|auto].
      destruct (readLines open dep k fs st _ l) as [st1|e|] eqn:R1; cbn [obind] in E; try congruence.
      * rewrite (IH k' fs fs' _ _ _ _ R1) by (try lia; discriminate). cbn [obind]. apply (IH k' fs fs' _ _ _ _ E N); lia.
      * rewrite (IH k' fs fs' _ _ _ _ R1) by (try lia; discriminate). exact E.
    + destruct (dep _) as [rep|]; [destruct (rep _); [|auto]|]; apply (IH k' fs fs' _ _ _ _ E N); lia.
  - unfold readLine in *. rewrite (readLine_mono fs fs' _ _ _ _ RL) by (auto; discriminate). exact E.
Qed.

(** ** files whose dollars all open a reference *)
Lemma DollarsOpen_clean l x : DollarsOpen l -> Clean l x -> DollarsOpen x.
Proof.
  intros HD [u [HU HT]] p q E. destruct HT as [a [b [Eu [Ba [Bb _]]]]]. subst x.
  assert (X : exists z, l = (a ++ p) ++ "$"%char :: q ++ z /\ (z = [] \/ exists c z', z = c :: z' /\ (White c \/ c = "#"%char))).
  { destruct HU as [_ HU]. subst u.
    assert (Hb : b = [] \/ exists c z', b = c :: z' /\ (White c \/ c = "#"%char)).
    { destruct b as [|c b]; [auto|]. inversion Bb; subst. right. eauto. }
    destruct HU as [->|[cm ->]].
    - exists b. split; [rewrite <- !app_assoc; cbn; rewrite <- ?app_assoc; reflexivity|exact Hb].
    - exists (b ++ "#"%char :: cm). split; [rewrite <- !app_assoc; cbn; rewrite <- ?app_assoc; reflexivity|].
      right. destruct Hb as [->|[c [z' [-> Hc]]]]; cbn; eauto. }
  destruct X as [z [El Hz]]. apply HD in El. destruct El as [q' Eq].
  destruct q as [|c q]; cbn in Eq; [|inversion Eq; subst; eauto].
  exfalso. subst z. destruct Hz as [Hz|[c [z' [Hz Hc]]]]; [discriminate|]. inversion Hz; subst.
  destruct Hc as [Hc|Hc]; [|discriminate]. cbn in Hc. intuition discriminate.
Qed.
Lemma HasRef_app s t : HasRef s -> HasRef (s ++ t).
Proof. intros [p [q ->]]. exists p, (q ++ t). rewrite <- app_assoc. reflexivity. Qed.
Lemma DollarsOpen_expands env s t : env_free "$"%char env -> DollarsOpen s -> Expands env s t -> ~ In "$"%char t.
Proof.
  intros He HD HE. induction HE as [s H|p n q t Hp Hn HE IH].
  - intros X. apply in_split in X. destruct X as [p [q ->]]. destruct (HD p q eq_refl) as [q' ->]. apply H. exists p, q'. reflexivity.
  - apply IH. clear IH HE.
    assert (Np : ~ In "$"%char p).
    { intros X. apply in_split in X. destruct X as [p1 [p2 ->]].
      destruct (HD p1 (p2 ++ "$"%char :: "{"%char :: n ++ "}"%char :: q)) as [q' Eq]; [rewrite <- app_assoc; reflexivity|].
      destruct p2 as [|c p2]; cbn in Eq; [discriminate|]. inversion Eq; subst. apply Hp. apply HasRef_app. exists p1, p2. reflexivity. }
    intros a b E.
    assert (Nv : ~ In "$"%char (env_value env n)).
    { unfold env_value. destruct (env n) eqn:En; [eapply He; eauto|auto]. }
    assert (X : exists a', q = a' ++ "$"%char :: b).
    { clear -E Np Nv. rewrite app_assoc in E. assert (N : ~ In "$"%char (p ++ env_value env n)) by (rewrite in_app_iff; tauto).
      revert a E N. generalize (p ++ env_value env n) as w. induction w as [|c w IH]; intros a E N; cbn in E; [eauto|].
      destruct a as [|a0 a]; cbn in E; inversion E; subst; [exfalso; apply N; cbn; auto|]. eapply IH; eauto. intros X; apply N; cbn; auto. }
    destruct X as [a' ->]. apply (HD (p ++ "$"%char :: "{"%char :: n ++ "}"%char :: a') b).
    rewrite <- !app_assoc. cbn. rewrite <- !app_assoc. reflexivity.
Qed.
Lemma DollarsOpen_piece env l cont b : env_free "$"%char env -> DollarsOpen l -> Piece env l cont b -> ~ In "$"%char b.
Proof.
  intros He HD [x [e [HC [HE HB]]]].
  pose proof (DollarsOpen_expands env x e He (DollarsOpen_clean _ _ HD HC) HE) as N.
  destruct cont; [rewrite HB in N; rewrite in_app_iff in N; tauto|destruct HB as [-> _]; auto].
Qed.

Lemma subst_terminates env s : env_free "$"%char env -> exists k, environmentSubstitute k env s <> NotFinished.
Proof. intros H. exists (S (count DOLLAR s)). apply (subst_terminates_measure env DOLLAR); auto. Qed.
Lemma readLine_terminates env line ls : env_free "$"%char env -> exists fs, readLine_loop fs env line ls <> NotFinished.
Proof.
  intros He. revert line. induction ls as [|l ls IH]; intros line; [exists 0; discriminate|].
  destruct (subst_terminates env (trim (cut_comment l)) He) as [k1 H1].
  destruct (environmentSubstitute k1 env (trim (cut_comment l))) as [t|e|] eqn:E1; [| |congruence].
  - destruct (IH ((match line with [] => [] | _ => line ++ [SP] end) ++ body t)) as [k2 H2].
    exists (Nat.max k1 k2). cbn. rewrite (subst_mono env _ k1 _ (Done t)) by (auto; try discriminate; lia). cbn.
    destruct (continued t); [|discriminate].
    erewrite readLine_mono; [exact H2|reflexivity|exact H2|lia].
  - exists k1. cbn. rewrite E1. discriminate.
Qed.

Definition avail (dom stack : list text) : nat := length (filter (fun f => negb (existsb (itext_eqb f) stack)) dom).
Lemma avail_le dom g stack : avail dom (g :: stack) <= avail dom stack.
Proof.
  unfold avail. induction dom as [|f dom IH]; cbn in *; [lia|].
  destruct (itext_eqb f g), (existsb (itext_eqb f) stack); cbn; lia.
Qed.
Lemma avail_lt dom g stack : In g dom -> existsb (itext_eqb g) stack = false -> avail dom (g :: stack) < avail dom stack.
Proof.
  intros H E. induction dom as [|f dom IH]; [destruct H|]. pose proof (avail_le dom g stack) as L. unfold avail in *. cbn in *. destruct H as [->|H].
  - rewrite E. destruct (itext_eqb_spec g g) as [_|N]; [|exfalso; apply N; reflexivity]. cbn. lia.
  - specialize (IH H). destruct (itext_eqb f g), (existsb (itext_eqb f) stack); cbn in *; lia.
Qed.

Section Terminates.
  Variable open : text -> option (list text).
  Variable dep : text -> option (text -> option command).
  Variable dom : list text.
  Hypothesis Hdom : forall f ls, open f = Some ls -> In f dom.
  Hypothesis Hopen : forall f ls, open f = Some ls -> Forall DollarsOpen ls.

  Lemma readLines_env_free k fs st stack ls st' : env_free "$"%char (r_env st) -> Forall DollarsOpen ls ->
    readLines open dep k fs st stack ls = Done st' -> env_free "$"%char (r_env st').
  Proof.
    intros He Hl H. apply readLines_spec in H. destruct H as [cs [_ H]].
    eapply Reads_free with (c := "$"%char) (P := DollarsOpen) in H; auto; [tauto|discriminate|].
    intros. eapply DollarsOpen_piece; eauto.
  Qed.

  Lemma readLines_terminates n : forall m st stack ls, avail dom stack <= n -> length ls <= m ->
    env_free "$"%char (r_env st) -> Forall DollarsOpen ls -> exists k fs, readLines open dep k fs st stack ls <> NotFinished.
  Proof.
    induction n as [n IHn] using (well_founded_induction lt_wf).
    induction m as [|m IHm]; intros st stack ls Hn Hm He Hl.
    { destruct ls as [|l0 ls0]; [exists 1, 0; discriminate|cbn in Hm; lia]. }
    destruct ls as [|l0 ls0]; [exists 1, 0; discriminate|].
    destruct (readLine_terminates (r_env st) [] (l0 :: ls0) He) as [fs1 H1].
    destruct (readLine_loop fs1 (r_env st) [] (l0 :: ls0)) as [[line rest]|e|] eqn:E1; [|exists 1, fs1; cbn [readLines]; unfold readLine; rewrite E1; discriminate|congruence].
    assert (Hr : length rest <= m /\ Forall DollarsOpen rest /\ ~ In "$"%char line).
    { pose proof E1 as R. apply readLine_spec in R; [|discriminate]. destruct R as [used [bs [U [HL [Ej L]]]]].
      split; [cbn in *; lia|]. rewrite U in Hl. apply Forall_app in Hl. destruct Hl as [Hu Hrest]. split; [exact Hrest|].
      rewrite Ej. assert (Hd : "$"%char <> " "%char) by discriminate.
      exact (LogicalLine_free "$"%char DollarsOpen Hd (fun e l cont b A B C => DollarsOpen_piece e l cont b A B C) _ _ _ _ He Hu HL). }
    destruct Hr as [Hr1 [Hr2 Hr3]].
    assert (Cont : forall st1, env_free "$"%char (r_env st1) -> exists k fs, fs1 <= fs /\ readLines open dep k fs st1 stack rest <> NotFinished).
    { intros st1 He1. destruct (IHm st1 stack rest Hn Hr1 He1 Hr2) as [k [fs H]]. exists k, (Nat.max fs fs1). split; [lia|].
      erewrite readLines_mono; [exact H|reflexivity|exact H|lia|lia]. }
    destruct line as [|c line].
    { destruct (Cont st He) as [k [fs [L H]]]. exists (S k), fs. cbn [readLines]. unfold readLine.
      rewrite (readLine_mono _ fs _ _ _ _ E1) by (try lia; discriminate). cbn [obind]. exact H. }
    destruct (itext_eqb (before is_ws (c :: line)) text_set) eqn:Eset.
    { set (st1 := {| r_env := setenv (r_env st) (trim (before is_ws (trim (from is_ws (c :: line))))) (trim (from is_ws (trim (from is_ws (c :: line))))); r_input := r_input st |}).
      destruct (Cont st1) as [k [fs [L H]]].
      { eapply SetVar_free; [exact He| |apply setenv_spec]. intros X. apply Hr3.
        destruct (from_suffix is_ws (c :: line)) as [u1 U1]. rewrite U1. apply in_or_app. right.
        eapply Trimmed_incl; [apply trim_Trimmed|].
        destruct (from_suffix is_ws (trim (from is_ws (c :: line)))) as [u2 U2]. rewrite U2. apply in_or_app. right.
        eapply Trimmed_incl; [apply trim_Trimmed|]. exact X. }
      exists (S k), fs. cbn [readLines]. unfold readLine. rewrite (readLine_mono _ fs _ _ _ _ E1) by (try lia; discriminate). cbn [obind].
      rewrite Eset. exact H. }
    destruct (itext_eqb (before is_ws (c :: line)) text_include) eqn:Einc.
    { destruct (trim (from is_ws (c :: line))) as [|c0 g0] eqn:Eg.
      { exists 1, fs1. cbn [readLines]. unfold readLine. rewrite E1. cbn [obind]. rewrite Eset, Einc, Eg. discriminate. }
      destruct (existsb (itext_eqb (c0 :: g0)) stack) eqn:Ex.
      { exists 1, fs1. cbn [readLines]. unfold readLine. rewrite E1. cbn [obind]. rewrite Eset, Einc, Eg, Ex. discriminate. }
      destruct (open (c0 :: g0)) as [ls2|] eqn:Eo.
      2:{ exists 1, fs1. cbn [readLines]. unfold readLine. rewrite E1. cbn [obind]. rewrite Eset, Einc, Eg, Ex, Eo. discriminate. }
      pose proof (avail_lt dom (c0 :: g0) stack (Hdom _ _ Eo) Ex) as La.
      destruct (IHn (avail dom ((c0 :: g0) :: stack))) with (m := length ls2) (st := st) (stack := (c0 :: g0) :: stack) (ls := ls2) as [k2 [fs2 H2]];
        [lia|lia|lia|exact He|eapply Hopen; eauto|].
      destruct (readLines open dep k2 fs2 st ((c0 :: g0) :: stack) ls2) as [st2|e2|] eqn:E2; [| |congruence].
      - destruct (Cont st2) as [k [fs [L H]]]; [eapply readLines_env_free; [exact He| |exact E2]; eapply Hopen; eauto|].
        exists (S (Nat.max k k2)), (Nat.max fs fs2). cbn [readLines]. unfold readLine.
        rewrite (readLine_mono _ (Nat.max fs fs2) _ _ _ _ E1) by (try lia; discriminate). cbn [obind]. rewrite Eset, Einc, Eg, Ex, Eo.
        rewrite (readLines_mono open dep k2 (Nat.max k k2) fs2 (Nat.max fs fs2) _ _ _ _ E2) by (try lia; discriminate). cbn [obind].
        erewrite readLines_mono; [exact H|reflexivity|exact H|lia|lia].
      - exists (S k2), (Nat.max fs1 fs2). cbn [readLines]. unfold readLine.
        rewrite (readLine_mono _ (Nat.max fs1 fs2) _ _ _ _ E1) by (try lia; discriminate). cbn [obind]. rewrite Eset, Einc, Eg, Ex, Eo.
        rewrite (readLines_mono open dep k2 k2 fs2 (Nat.max fs1 fs2) _ _ _ _ E2) by (try lia; discriminate). discriminate. }
    destruct (dep (before is_ws (c :: line))) as [rep|] eqn:Ed.
    { destruct (rep (from is_ws (c :: line) ++ [SP])) as [cc|] eqn:Er.
      - destruct (Cont {| r_env := r_env st; r_input := r_input st ++ [cc] |} He) as [k [fs [L H]]].
        exists (S k), fs. cbn [readLines]. unfold readLine. rewrite (readLine_mono _ fs _ _ _ _ E1) by (try lia; discriminate). cbn [obind].
        rewrite Eset, Einc, Ed, Er. exact H.
      - exists 1, fs1. cbn [readLines]. unfold readLine. rewrite E1. cbn [obind]. rewrite Eset, Einc, Ed, Er. discriminate. }
    destruct (Cont {| r_env := r_env st; r_input := r_input st ++ [(before is_ws (c :: line), from is_ws (c :: line))] |} He) as [k [fs [L H]]].
    exists (S k), fs. cbn [readLines]. unfold readLine. rewrite (readLine_mono _ fs _ _ _ _ E1) by (try lia; discriminate). cbn [obind].
    rewrite Eset, Einc, Ed. exact H.
  Qed.

  Lemma readInputFile_terminates env f : env_free "$"%char env ->
    exists k0 fs0 r, r <> NotFinished /\ forall k fs, k0 <= k -> fs0 <= fs -> readInputFile open dep k fs env f = r.
  Proof.
    intros He. unfold readInputFile. destruct (open f) as [ls|] eqn:O; [|exists 0, 0, (Die (CannotOpen f)); split; [discriminate|auto]].
    destruct (readLines_terminates (avail dom [f]) (length ls) {| r_env := env; r_input := [] |} [f] ls) as [k0 [fs0 H]]; auto; [eapply Hopen; eauto|].
    exists k0, fs0, (obind (readLines open dep k0 fs0 {| r_env := env; r_input := [] |} [f] ls) (fun st => Done (r_input st))).
    split.
    - destruct (readLines _ _ _ _ _ _ _); cbn; congruence.
    - intros k fs L1 L2. f_equal. eapply readLines_mono; eauto.
  Qed.
End Terminates.

(** ** include chains in reference-free files *)
Section Cycles.
  Variable open : text -> option (list text).
  Variable dep : text -> option (text -> option command).
  Definition plain (l : text) : Prop := ~ In "$"%char l.
  Hypothesis Hopen : forall f ls, open f = Some ls -> Forall plain ls.

  Lemma Piece_plain env env' l cont b : plain l -> Piece env l cont b -> Piece env' l cont b.
  Proof.
    intros H [x [e [HC [HE HB]]]]. assert (N : ~ In "$"%char x) by (intros X; apply H; eapply Clean_incl; eauto).
    pose proof (expands_nodollar _ _ _ N HE) as ->. exists x, x. split; [exact HC|]. split; [|exact HB].
    apply Expands_done. apply noref_nodollar'. exact N.
  Qed.
  Lemma LogicalLine_plain env env' used rest bs : Forall plain used -> LogicalLine env used rest bs -> LogicalLine env' used rest bs.
  Proof.
    intros HF HL. induction HL as [l b rest P|l b P|l b lines rest bs P HL IH]; inversion HF; subst;
      [apply LL_last|apply LL_eof|apply LL_more]; eauto using Piece_plain.
  Qed.
  Lemma readLine_complete env env' used rest bs k : Forall plain used -> LogicalLine env' used rest bs ->
    forall line, readLine_loop (S k) env line (used ++ rest) = Done (fold_left joins bs line, rest).
  Proof.
    intros HF HL.
    assert (X : forall l cont b, plain l -> Piece env' l cont b ->
      exists e, environmentSubstitute (S k) env (trim (cut_comment l)) = Done e /\ continued e = cont /\ body e = b).
    { intros l cont b Hp [x [e [HC [HE HB]]]]. assert (N : ~ In "$"%char x) by (intros Y; apply Hp; eapply Clean_incl; eauto).
      pose proof (expands_nodollar _ _ _ N HE) as ->. apply Clean_iff in HC. subst x. exists (trim (cut_comment l)).
      split; [apply subst_noref; apply noref_nodollar'; exact N|]. destruct cont.
      - assert (C : continued (trim (cut_comment l)) = true) by (unfold continued; rewrite HB, rev_app_distr; reflexivity).
        split; [exact C|]. unfold body. rewrite C, HB. rewrite removelast_app by discriminate. cbn. apply app_nil_r.
      - destruct HB as [HB1 HB2]. destruct (continued (trim (cut_comment l))) eqn:C.
        + exfalso. apply HB2. exists (body (trim (cut_comment l))). apply continued_true. exact C.
        + split; [reflexivity|]. unfold body. rewrite C. exact HB1. }
    assert (J : forall line b, match line with [] => [] | _ :: _ => line ++ [SP] end ++ b = joins line b).
    { intros line b. unfold joins. destruct line; [reflexivity|]. rewrite <- app_assoc. reflexivity. }
    induction HL as [l b rest P|l b P|l b lines rest bs P HL IH]; inversion HF; subst; intros line; cbn [app readLine_loop].
    - destruct (X _ _ _ H1 P) as [e [E1 [E2 E3]]]. rewrite E1. cbn [obind]. rewrite E2, E3, J. reflexivity.
    - destruct (X _ _ _ H1 P) as [e [E1 [E2 E3]]]. rewrite E1. cbn [obind]. rewrite E2, E3, J. reflexivity.
    - destruct (X _ _ _ H1 P) as [e [E1 [E2 E3]]]. rewrite E1. cbn [obind]. rewrite E2, E3, J. apply IH. auto.
  Qed.
  Lemma LogicalLine_nonempty env used rest bs : LogicalLine env used rest bs -> used <> [].
  Proof. intros H. inversion H; discriminate. Qed.
  Lemma Splits_ieq s i r : Splits s i r -> before is_ws s = i /\ from is_ws s = r.
  Proof. intros H. apply Splits_unique in H. intuition congruence. Qed.
  Lemma includes_not_set i : SameName i word_include -> ~ SameName i word_set.
  Proof. unfold SameName. intros H1 H2. rewrite H1 in H2. discriminate. Qed.

  Lemma Done_include k : forall fs st stack ls st' bss bs i r g,
    readLines open dep k fs st stack ls = Done st' -> Forall plain ls -> LogicalLines no_env ls bss -> In bs bss ->
    Splits (joined bs) i r -> SameName i word_include -> Trimmed r g -> g <> [] ->
    exists k' st1 st2 ls2, open g = Some ls2 /\ ~ Returns g stack /\ readLines open dep k' fs st1 (g :: stack) ls2 = Done st2.
  Proof.
    induction k as [|k IH]; intros fs st stack ls st' bss bs i r g HR HP HL Hin HS Hi Hg Hne; cbn [readLines] in HR; [discriminate|].
    destruct HL as [|lines rest bs0 bss HL0 HLs]; [destruct Hin|].
    destruct (lines ++ rest) as [|l0 ls0] eqn:El.
    { exfalso. apply LogicalLine_nonempty in HL0. destruct lines; [congruence|discriminate]. }
    rewrite <- El in *. clear El l0 ls0. apply Forall_app in HP. destruct HP as [HPu HPr].
    destruct fs as [|fs].
    { exfalso. destruct lines as [|l lines]; [apply LogicalLine_nonempty in HL0; congruence|]. cbn in HR. discriminate. }
    unfold readLine in HR. rewrite (readLine_complete (r_env st) no_env lines rest bs0 fs HPu HL0) in HR. cbn [obind] in HR.
    rewrite <- joined_fold in HR.
    assert (Later : forall st0, readLines open dep k (S fs) st0 stack rest = Done st' -> In bs bss ->
      exists k' st1 st2 ls2, open g = Some ls2 /\ ~ Returns g stack /\ readLines open dep k' (S fs) st1 (g :: stack) ls2 = Done st2).
    { intros st0 H0 Hb. eapply IH; eauto. }
    destruct Hin as [->|Hin].
    - clear Later. destruct (Splits_ieq _ _ _ HS) as [E1 E2]. destruct (joined bs) as [|c0 u0] eqn:Ej.
      + exfalso. cbn in E1. subst i. discriminate.
      + rewrite <- Ej in *. rewrite E1, E2 in HR. 
        destruct (itext_eqb_spec i text_set) as [Y|Y]; [exfalso; apply (includes_not_set i Hi Y)|].
        destruct (itext_eqb_spec i text_include) as [Z|Z]; [|contradiction].
        apply Trimmed_trim in Hg. rewrite Hg in HR. destruct g as [|g0 g]; [congruence|].
        destruct (existsb (itext_eqb (g0 :: g)) stack) eqn:Ex; [discriminate|].
        destruct (open (g0 :: g)) as [ls2|] eqn:Eo; [|discriminate].
        destruct (readLines open dep k (S fs) st ((g0 :: g) :: stack) ls2) as [st2|e|] eqn:R2; cbn [obind] in HR; try discriminate.
        exists k, st, st2, ls2. split; [reflexivity|]. split; [|exact R2].
        intros X. unfold Returns in X. apply Exists_exists in X. destruct X as [x [X1 X2]].
        assert (F : existsb (itext_eqb (g0 :: g)) stack = true); [|congruence].
        apply existsb_exists. exists x. split; auto. destruct (itext_eqb_spec (g0 :: g) x); auto.
    - destruct (joined bs0) as [|c0 u0]; [eauto|].
      destruct (itext_eqb _ text_set); [eauto|].
      destruct (itext_eqb _ text_include).
      + destruct (trim _) as [|? ?]; [discriminate|]. destruct (existsb _ _); [discriminate|]. destruct (open _); [|discriminate].
        match type of HR with obind ?m _ = _ => destruct m as [st2|e|] end; cbn [obind] in HR; try discriminate. eauto.
      + destruct (dep _) as [rep|]; [destruct (rep _); [|discriminate]|]; eauto.
  Qed.

  Lemma Done_chain k fs env f0 cs : readInputFile open dep k fs env f0 = Done cs -> forall g stack, Chain open f0 (g :: stack) ->
    (stack = [] \/ ~ Returns g stack) /\
    exists k' st1 st2 ls, open g = Some ls /\ readLines open dep k' fs st1 (g :: stack) ls = Done st2.
  Proof.
    intros HR g stack HC. remember (g :: stack) as ch eqn:Ech. revert g stack Ech.
    induction HC as [|f g' fs' HC IH HI]; intros g stack Ech; inversion Ech; subst.
    - split; [left; reflexivity|]. unfold readInputFile in HR. destruct (open g) as [ls|] eqn:O; [|discriminate].
      destruct (readLines open dep k fs {| r_env := env; r_input := [] |} [g] ls) as [st2|e|] eqn:R; cbn in HR; try discriminate.
      exists k, {| r_env := env; r_input := [] |}, st2, ls. auto.
    - destruct (IH f fs' eq_refl) as [_ [k1 [st1 [st2 [ls [O R]]]]]].
      destruct HI as [ls' [bss [bs [i [r [O' [HL [Hin [HS [Hi [Hg Hne]]]]]]]]]]]. rewrite O in O'. inversion O'; subst ls'.
      destruct (Done_include _ _ _ _ _ _ _ _ _ _ _ R (Hopen _ _ O) HL Hin HS Hi Hg Hne) as [k2 [st3 [st4 [ls2 [X1 [X2 X3]]]]]].
      split; [right; exact X2|]. exists k2, st3, st4, ls2. auto.
  Qed.

  Lemma LogicalLines_exists m : forall ls, length ls <= m -> Forall plain ls -> exists bss, LogicalLines no_env ls bss.
  Proof.
    induction m as [|m IH]; intros ls L HP.
    - destruct ls; [exists []; constructor|cbn in L; lia].
    - destruct ls as [|l ls]; [exists []; constructor|].
      destruct (readLine_terminates no_env [] (l :: ls)) as [fs H]; [intros n v X; discriminate|].
      assert (E : exists x, readLine_loop 1 no_env [] (l :: ls) = Done x).
      { clear H IH L m. revert HP. generalize (l :: ls) as w. intros w. generalize (@nil ascii) as line. induction w as [|x w IHw]; intros line HP; [eexists; reflexivity|].
        inversion HP as [|? ? Hx Hw]; subst. cbn [readLine_loop].
        rewrite subst_noref by (apply noref_nodollar'; intros Y; apply Hx; eapply Clean_incl; [apply Clean_iff; reflexivity|exact Y]).
        cbn [obind]. destruct (continued _); [apply IHw; auto|eexists; reflexivity]. }
      destruct E as [[line rest] E]. apply readLine_spec in E; [|discriminate].
      destruct E as [used [bs [U [HL [_ Lr]]]]]. rewrite U in *. apply Forall_app in HP. destruct HP as [_ HP].
      destruct (IH rest) as [bss Hb]; [rewrite app_length in *; lia|auto|]. exists (bs :: bss). constructor; auto.
  Qed.

  Lemma Die_cycle f0 k : forall fs st f stack ls g whole bss0, 
    readLines open dep k fs st (f :: stack) ls = Die (CyclicInclude g) -> Forall plain ls ->
    Chain open f0 (f :: stack) -> open f = Some whole -> (forall bss, LogicalLines no_env ls bss -> LogicalLines no_env whole (bss0 ++ bss)) ->
    exists h hs, Chain open f0 (h :: hs) /\ Includes open h g /\ Returns g (h :: hs).
  Proof.
    induction k as [|k IH]; intros fs st f stack ls g whole bss0 HR HP HC HO HW; cbn [readLines] in HR; [discriminate|].
    destruct ls as [|l0 ls0]; [discriminate|]. remember (l0 :: ls0) as ls eqn:Els. assert (Hls : ls <> []) by congruence. clear Els.
    destruct (readLine fs (r_env st) ls) as [[line rest]|e|] eqn:RL; cbn [obind] in HR; try discriminate.
    2:{ inversion HR; subst. exfalso. unfold readLine in RL. clear -RL. revert RL. generalize (@nil ascii) as line. induction ls as [|l ls IHl]; intros line H; cbn in H; [discriminate|].
        destruct (environmentSubstitute fs (r_env st) (trim (cut_comment l))) as [t|e|] eqn:S; cbn in H; try discriminate.
        - destruct (continued t); [eapply IHl; eauto|discriminate].
        - apply subst_die in S. subst. discriminate. }
    apply readLine_spec in RL; [|exact Hls]. destruct RL as [used [bs [-> [HL [Ej _]]]]].
    apply Forall_app in HP. destruct HP as [HPu HPr].
    apply (LogicalLine_plain _ no_env) in HL; [|exact HPu].
    assert (HW' : forall bss, LogicalLines no_env rest bss -> LogicalLines no_env whole ((bss0 ++ [bs]) ++ bss)).
    { intros bss Hb. rewrite <- app_assoc. apply HW. constructor; auto. }
    assert (Later : forall st0, readLines open dep k fs st0 (f :: stack) rest = Die (CyclicInclude g) ->
       exists h hs, Chain open f0 (h :: hs) /\ Includes open h g /\ Returns g (h :: hs)).
    { intros st0 H. eapply IH; eauto. }
    destruct line as [|c line]; [eauto|].
    destruct (itext_eqb _ text_set); [eauto|].
    destruct (itext_eqb_spec (before is_ws (c :: line)) text_include) as [Hi|Hi].
    - assert (HI : forall g0, trim (from is_ws (c :: line)) = g0 -> g0 <> [] -> Includes open f g0).
      { intros g0 Eg Ng. destruct (LogicalLines_exists (length rest) rest (le_n _) HPr) as [bss Hb].
        exists whole, ((bss0 ++ [bs]) ++ bss), bs, (before is_ws (c :: line)), (from is_ws (c :: line)).
        split; [exact HO|]. split; [auto|]. split; [rewrite !in_app_iff; cbn; auto|]. split; [rewrite <- Ej; apply Splits_before_from|].
        split; [exact Hi|]. split; [rewrite <- Eg; apply trim_Trimmed|exact Ng]. }
      destruct (trim (from is_ws (c :: line))) as [|c0 g0] eqn:Eg; [discriminate|].
      specialize (HI _ eq_refl). 
      destruct (existsb (itext_eqb (c0 :: g0)) (f :: stack)) eqn:Ex.
      + inversion HR; subst. exists f, stack. split; [exact HC|]. split; [apply HI; discriminate|].
        apply existsb_exists in Ex. destruct Ex as [x [X1 X2]]. apply Exists_exists. exists x. split; [exact X1|].
        destruct (itext_eqb_spec (c0 :: g0) x); [auto|discriminate].
      + destruct (open (c0 :: g0)) as [ls2|] eqn:Eo; [|discriminate].
        destruct (readLines open dep k fs st ((c0 :: g0) :: f :: stack) ls2) as [st2|e|] eqn:R2; cbn [obind] in HR; try discriminate; [eauto|].
        inversion HR; subst e. eapply (IH fs st (c0 :: g0) (f :: stack) ls2 g ls2 []); eauto.
        apply Chain_more; auto. apply HI. discriminate.
    - destruct (dep _) as [rep|]; [destruct (rep _); [|discriminate]|]; eauto.
  Qed.

  Lemma readInputFile_cycle k fs env f0 g : readInputFile open dep k fs env f0 = Die (CyclicInclude g) ->
    exists h hs, Chain open f0 (h :: hs) /\ Includes open h g /\ Returns g (h :: hs).
  Proof.
    unfold readInputFile. destruct (open f0) as [ls|] eqn:O; [|discriminate].
    destruct (readLines open dep k fs {| r_env := env; r_input := [] |} [f0] ls) as [st|e|] eqn:R; cbn; try discriminate.
    intros H. inversion H; subst. eapply (Die_cycle f0 k fs _ f0 [] ls g ls []); eauto; constructor.
  Qed.
End Cycles.
