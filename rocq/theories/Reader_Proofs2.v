From Coq Require Import List Ascii Bool NArith Lia.
From Verif Require Import SMap Reader_Model Reader_Spec Reader_Proofs.
Import ListNotations.

(** ** names *)
Lemma text_eqb_spec a b : reflect (a = b) (text_eqb a b).
Proof.
  revert b. induction a as [|x a IH]; intros [|y b]; cbn; try (constructor; congruence).
  destruct (Ascii.eqb_spec x y); cbn; [|constructor; congruence].
  destruct (IH b); constructor; congruence.
Qed.
Lemma itext_eqb_spec a b : reflect (SameName a b) (itext_eqb a b).
Proof. unfold itext_eqb, SameName. destruct (text_eqb_spec (itext a) (itext b)); constructor; assumption. Qed.
Lemma setenv_spec env n v : SetVar env n v (setenv env n v).
Proof.
  unfold SetVar, setenv. destruct n as [|c n]; [left; auto|].
  cbn [orb]. destruct (existsb (fun c => Ascii.eqb c (ascii_of_N 61)) (c :: n)) eqn:E.
  - left. split; [|reflexivity]. right. apply existsb_exists in E. destruct E as [x [H1 H2]]. apply Ascii.eqb_eq in H2. subst. exact H1.
  - right. split; [discriminate|]. split.
    + intros H. assert (X : existsb (fun c => Ascii.eqb c (ascii_of_N 61)) (c :: n) = true).
      { apply existsb_exists. exists "="%char. split; [exact H|reflexivity]. }
      congruence.
    + split.
      * destruct (text_eqb_spec (c :: n) (c :: n)); congruence.
      * intros m Hm. destruct (text_eqb_spec m (c :: n)); congruence.
Qed.
Lemma Splits_before_from s : Splits s (before is_ws s) (from is_ws s).
Proof.
  split; [apply before_from|]. split.
  - apply Forall_forall. intros c H. apply before_no in H. apply is_ws_false. exact H.
  - destruct (from_head is_ws s) as [->|[c [s' [E Ec]]]]; [left; auto|right]. exists c, s'. split; auto. apply is_ws_true. exact Ec.
Qed.
Lemma Splits_unique s i r : Splits s i r -> i = before is_ws s /\ r = from is_ws s.
Proof.
  intros [-> [H1 H2]]. destruct (before_app is_ws i r) as [E1 E2].
  - intros c Hc. rewrite Forall_forall in H1. apply is_ws_false. auto.
  - destruct H2 as [H2|[c [r' [H2 H3]]]]; [left; exact H2|right]. exists c, r'. split; auto. apply is_ws_true. exact H3.
  - split; congruence.
Qed.
Lemma trim_Splits_name s : trim (before is_ws s) = before is_ws s.
Proof.
  apply Trimmed_trim. exists [], []. rewrite app_nil_r. split; [reflexivity|]. split; [constructor|]. split; [constructor|].
  destruct (Splits_before_from s) as [_ [H _]]. destruct (before is_ws s) as [|c u] eqn:E; [left; reflexivity|right].
  destruct (exists_last (l := c :: u)) as [u2 [c2 E2]]; [discriminate|].
  exists c, c2, u, u2. rewrite Forall_forall in H. split; [reflexivity|]. split; [exact E2|]. split; apply H; [cbn; auto|].
  rewrite E2. apply in_elt.
Qed.

(** ** one line *)
Lemma continued_true e : continued e = true -> e = body e ++ ["\"%char].
Proof.
  intros H. unfold body. rewrite H. unfold continued in H. destruct (rev e) as [|c u] eqn:E; [discriminate|].
  apply Ascii.eqb_eq in H. assert (Ee : e = rev u ++ [c]) by (rewrite <- (rev_involutive e), E; reflexivity).
  rewrite Ee. rewrite removelast_app by discriminate. cbn. rewrite app_nil_r. subst c. reflexivity.
Qed.
Lemma continued_false e : continued e = false -> body e = e /\ ~ exists b, e = b ++ ["\"%char].
Proof.
  intros H. unfold body. rewrite H. split; [reflexivity|]. intros [b ->]. unfold continued in H. rewrite rev_app_distr in H. discriminate.
Qed.

Definition joins : text -> text -> text := fun acc b => match acc with [] => b | _ => acc ++ [" "%char] ++ b end.
Lemma joined_fold bs : joined bs = fold_left joins bs [].
Proof. reflexivity. Qed.

Lemma readLine_loop_spec fuel env ls line line' rest : ls <> [] -> readLine_loop fuel env line ls = Done (line', rest) ->
  exists used bs, ls = used ++ rest /\ LogicalLine env used rest bs /\ line' = fold_left joins bs line /\ length rest < length ls.
Proof.
  revert line. induction ls as [|l ls IH]; intros line Hne H; [congruence|]. cbn in H.
  destruct (environmentSubstitute fuel env (trim (cut_comment l))) as [e|x|] eqn:E; cbn in H; try discriminate.
  apply subst_expands in E.
  set (new := match line with [] => [] | _ :: _ => line ++ [SP] end ++ body e) in *.
  assert (Hnew : new = joins line (body e)).
  { unfold new, joins. destruct line; [reflexivity|]. rewrite <- app_assoc. reflexivity. }
  destruct (continued e) eqn:C.
  - assert (P : Piece env l true (body e)).
    { exists (trim (cut_comment l)), e. rewrite Clean_iff. split; [reflexivity|]. split; [exact E|]. apply continued_true. exact C. }
    destruct ls as [|l2 ls].
    + cbn in H. inversion H; subst. exists [l], [body e]. split; [reflexivity|]. split; [apply LL_eof; exact P|]. split; [exact Hnew|cbn; lia].
    + apply IH in H; [|discriminate]. destruct H as [used [bs [E1 [E2 [E3 E4]]]]].
      exists (l :: used), (body e :: bs). split; [cbn; congruence|]. split; [apply LL_more; auto|]. split.
      * cbn. rewrite <- Hnew. exact E3.
      * cbn in *. lia.
  - inversion H; subst. exists [l], [body e]. split; [reflexivity|]. split.
    + apply LL_last. exists (trim (cut_comment l)), e. rewrite Clean_iff. split; [reflexivity|]. split; [exact E|].
      apply continued_false in C. destruct C as [C1 C2]. split; auto.
    + split; [exact Hnew|cbn; lia].
Qed.
Lemma readLine_spec fuel env ls line rest : ls <> [] -> readLine fuel env ls = Done (line, rest) ->
  exists used bs, ls = used ++ rest /\ LogicalLine env used rest bs /\ line = joined bs /\ length rest < length ls.
Proof. intros H1 H2. unfold readLine in H2. apply readLine_loop_spec in H2; auto. Qed.

(** ** soundness of the reader *)
Lemma readLines_spec open dep fuel fs : forall st stack ls st',
  readLines open dep fuel fs st stack ls = Done st' ->
  exists cs, r_input st' = r_input st ++ cs /\ Reads open dep (r_env st) ls cs (r_env st').
Proof.
  induction fuel as [|k IH]; intros st stack ls st' H; cbn [readLines] in H; [discriminate|].
  destruct ls as [|l0 ls0].
  { inversion H; subst. exists []. rewrite app_nil_r. split; [reflexivity|constructor]. }
  remember (l0 :: ls0) as ls eqn:Els. assert (Hne : ls <> []) by congruence. clear Els.
  destruct (readLine fs (r_env st) ls) as [[line rest]|e|] eqn:L; cbn [obind] in H; try discriminate.
  apply readLine_spec in L; [|exact Hne]. destruct L as [used [bs [-> [HL [Hj _]]]]].
  destruct line as [|c line].
  { apply IH in H. destruct H as [cs [H1 H2]]. exists cs. split; auto. eapply R_blank; eauto. }
  remember (c :: line) as t eqn:Et. assert (Ht : joined bs <> []) by (rewrite <- Hj, Et; discriminate). clear Et c line.
  pose proof (Splits_before_from t) as HS. rewrite Hj in HS.
  rewrite Hj in H.
  set (cmd := before is_ws (joined bs)) in *. set (params := from is_ws (joined bs)) in *.
  destruct (itext_eqb_spec cmd text_set) as [Hset|Hset].
  { apply IH in H. destruct H as [cs [H1 H2]]. exists cs. split; [exact H1|].
    cbn [r_env] in H2. rewrite trim_Splits_name in H2.
    eapply R_set with (r' := trim params) (v' := trim (from is_ws (trim params))); eauto.
    - apply trim_Trimmed.
    - apply Splits_before_from.
    - apply trim_Trimmed.
    - apply setenv_spec. }
  destruct (itext_eqb_spec cmd text_include) as [Hinc|Hinc].
  { destruct (trim params) as [|c0 g0] eqn:Eg; [discriminate|]. remember (c0 :: g0) as g eqn:Eg'.
    assert (Hg : g <> []) by congruence. clear Eg'.
    destruct (existsb (itext_eqb g) stack); [discriminate|].
    destruct (open g) as [ls2|] eqn:O; [|discriminate].
    destruct (readLines open dep k fs st (g :: stack) ls2) as [st1|e|] eqn:R1; cbn [obind] in H; try discriminate.
    apply IH in R1. apply IH in H. destruct R1 as [cs1 [A1 A2]]. destruct H as [cs2 [B1 B2]].
    exists (cs1 ++ cs2). split; [rewrite B1, A1, app_assoc; reflexivity|].
    eapply R_include with (g := g); eauto. rewrite <- Eg. apply trim_Trimmed. }
  destruct (dep cmd) as [rep|] eqn:D.
  - destruct (rep (params ++ [SP])) as [cc|] eqn:Rp; [|discriminate].
    apply IH in H. destruct H as [cs [H1 H2]]. exists (cc :: cs). split; [rewrite H1; cbn; rewrite <- app_assoc; reflexivity|].
    eapply R_deprecated with (rep := rep); eauto.
  - apply IH in H. destruct H as [cs [H1 H2]]. exists ((cmd, params) :: cs). split; [rewrite H1; cbn; rewrite <- app_assoc; reflexivity|].
    eapply R_command; eauto.
Qed.
Lemma readInputFile_reads open dep fuel fs env f cs : readInputFile open dep fuel fs env f = Done cs ->
  exists ls env', open f = Some ls /\ Reads open dep env ls cs env'.
Proof.
  unfold readInputFile. destruct (open f) as [ls|]; [|discriminate].
  destruct (readLines _ _ _ _ _ _ _) as [st|e|] eqn:R; cbn; try discriminate. intros H. inversion H; subst.
  apply readLines_spec in R. destruct R as [cs [H1 H2]]. cbn in *. exists ls, (r_env st). split; [reflexivity|]. rewrite H1. exact H2.
Qed.

(** ** words *)
Lemma Words_blank_prefix a s ws : Blank a -> Words s ws -> Words (a ++ s) ws.
Proof.
  intros Ha H. inversion H; subst.
  - constructor. apply Blank_app; auto.
  - rewrite app_assoc. constructor; auto. apply Blank_app; auto.
Qed.
Lemma Words_join a b wa wb : Words a wa -> Words b wb -> Words (a ++ [" "%char] ++ b) (wa ++ wb).
Proof.
  intros Ha Hb. assert (Bs : Blank [" "%char]) by (constructor; [cbn; auto|constructor]).
  induction Ha as [s Hs|x w s ws Hx Hw1 Hw2 Hs Ha IH].
  - cbn [app]. apply Words_blank_prefix; auto. apply (Words_blank_prefix [" "%char]); auto.
  - rewrite <- !app_assoc. cbn [app]. apply Words_cons; auto.
    right. destruct Hs as [->|[c [s' [-> Hc]]]]; cbn; [exists " "%char, b|exists c, (s' ++ " "%char :: b)]; split; auto; cbn; auto.
Qed.
Lemma Words_nil_inv ws : Words [] ws -> ws = [].
Proof.
  intros H. inversion H as [s Hs|x w s ws' Hx Hw1 Hw2 Hs Ha E]; subst; auto.
  destruct x; [|discriminate]. destruct w; [congruence|discriminate].
Qed.
Lemma Words_fold bs wss : Forall2 Words bs wss -> forall acc wa, Words acc wa -> Words (fold_left joins bs acc) (wa ++ concat wss).
Proof.
  induction 1 as [|b w bs wss H Hs IH]; intros acc wa Ha; cbn.
  - rewrite app_nil_r. exact Ha.
  - rewrite app_assoc. apply IH. unfold joins. destruct acc as [|c acc].
    + apply Words_nil_inv in Ha. subst. exact H.
    + apply Words_join; auto.
Qed.
Lemma Words_joined bs wss : Forall2 Words bs wss -> Words (joined bs) (concat wss).
Proof. intros H. rewrite joined_fold. apply (Words_fold bs wss H [] []). constructor. constructor. Qed.

Lemma Words_exists s : exists ws, Words s ws.
Proof.
  remember (length s) as n eqn:En. revert s En. induction n as [n IH] using (well_founded_induction Wf_nat.lt_wf). intros s ->.
  destruct (drop_ws_split s) as [a [E [Ba [H|[c [u [H Hc]]]]]]].
  - exists []. constructor. rewrite E, H, app_nil_r. exact Ba.
  - destruct (Splits_before_from (drop_ws s)) as [E2 [F1 F2]]. 
    assert (Hw : before is_ws (drop_ws s) <> []).
    { rewrite H. cbn. apply is_ws_false in Hc. rewrite Hc. discriminate. }
    destruct (IH (length (from is_ws (drop_ws s)))) with (s := from is_ws (drop_ws s)) as [ws Hws]; [|reflexivity|].
    + rewrite E at 2. rewrite E2 at 2. rewrite !app_length. destruct (before is_ws (drop_ws s)); [congruence|]. cbn. lia.
    + exists (before is_ws (drop_ws s) :: ws). rewrite E at 1. rewrite E2 at 1. apply Words_cons; auto.
Qed.
Lemma Words_unique s ws1 ws2 : Words s ws1 -> Words s ws2 -> ws1 = ws2.
Proof.
  intros H. revert ws2. induction H as [s Hs|a w s ws Ha Hw1 Hw2 Hs H IH]; intros ws2 H2.
  - inversion H2 as [|a w s' ws Ha Hw1 Hw2 Hs' H']; subst; auto. exfalso.
    unfold Blank in Hs. rewrite !Forall_app in Hs. destruct Hs as [_ [Hs _]]. destruct w as [|c w]; [congruence|].
    inversion Hs; inversion Hw2; subst. auto.
  - inversion H2 as [s0 Hs0|a' w' s' ws' Ha' Hw1' Hw2' Hs' H' E]; subst.
    + exfalso. unfold Blank in Hs0. rewrite !Forall_app in Hs0. destruct Hs0 as [_ [Hs0 _]]. destruct w as [|c w]; [congruence|].
      inversion Hs0; inversion Hw2; subst. auto.
    + assert (D : drop_ws (a ++ w ++ s) = w ++ s).
      { rewrite drop_ws_app by auto. destruct w as [|c w]; [congruence|]. inversion Hw2; subst. apply drop_ws_id. auto. }
      assert (D' : drop_ws (a' ++ w' ++ s') = w' ++ s').
      { rewrite drop_ws_app by auto. destruct w' as [|c w']; [congruence|]. inversion Hw2'; subst. apply drop_ws_id. auto. }
      assert (Eq : w ++ s = w' ++ s') by congruence.
      destruct (Splits_unique (w ++ s) w s) as [E1 E2]; [split; auto|].
      destruct (Splits_unique (w' ++ s') w' s') as [E1' E2']; [split; auto|].
      rewrite Eq in E1, E2. rewrite <- E1 in E1'. rewrite <- E2 in E2'. subst w' s'. f_equal. apply IH. exact H'.
Qed.

(** ** first word is the command name, when no variable is substituted *)
Lemma noref_nodollar' s : ~ In "$"%char s -> ~ HasRef s.
Proof. intros H [p [q ->]]. apply H. apply in_elt. Qed.
Lemma expands_nodollar env s t : ~ In "$"%char s -> Expands env s t -> t = s.
Proof.
  intros H E. inversion E; subst; auto. exfalso. apply H. apply in_elt.
Qed.
Lemma Uncommented_incl l u c : Uncommented l u -> In c u -> In c l.
Proof. intros [_ [->|[x ->]]] H; auto. apply in_or_app. auto. Qed.
Lemma Trimmed_incl l u c : Trimmed l u -> In c u -> In c l.
Proof. intros [a [b [-> _]]] H. rewrite !in_app_iff. auto. Qed.
Lemma Clean_incl l u c : Clean l u -> In c u -> In c l.
Proof. intros [v [H1 H2]] H. eapply Uncommented_incl; eauto. eapply Trimmed_incl; eauto. Qed.
Definition NoLead (s : chars) : Prop := s = [] \/ exists c u, s = c :: u /\ ~ White c.
Lemma Piece_nolead env l cont b : ~ In "$"%char l -> Piece env l cont b -> NoLead b.
Proof.
  intros H [c [e [HC [HE HB]]]].
  assert (Ee : e = c). { eapply expands_nodollar; [|exact HE]. intros X. apply H. eapply Clean_incl; eauto. }
  subst e. destruct HC as [u [_ HT]]. destruct HT as [x [y [_ [_ [_ HT]]]]].
  destruct cont.
  - destruct HT as [->|[c1 [c2 [u1 [u2 [E1 [_ [N1 _]]]]]]]]; [destruct b; discriminate|].
    destruct b as [|b0 b]; [left; reflexivity|]. right. exists b0, b. split; auto. rewrite HB in E1. inversion E1; subst. exact N1.
  - destruct HB as [-> _]. destruct HT as [->|[c1 [c2 [u1 [u2 [E1 [_ [N1 _]]]]]]]]; [left; reflexivity|right; eauto].
Qed.
Lemma joined_nolead env used rest bs : Forall (fun l => ~ In "$"%char l) used -> LogicalLine env used rest bs -> NoLead (joined bs).
Proof.
  intros HF HL. rewrite joined_fold.
  assert (X : forall acc, NoLead acc -> Forall NoLead bs -> NoLead (fold_left joins bs acc)).
  { clear. induction bs as [|b bs IH]; intros acc Ha Hb; cbn; auto. inversion Hb; subst. apply IH; auto.
    unfold joins. destruct acc as [|c acc]; auto. right. destruct Ha as [Ha|[c' [u [E N]]]]; [discriminate|].
    inversion E; subst. cbn. eauto. }
  apply X; [left; reflexivity|]. clear X.
  induction HL as [l b rest P|l b P|l b lines rest bs P _ IH]; inversion HF; subst; constructor; eauto using Piece_nolead.
Qed.
Lemma first_word env used rest bs i r ws w : Forall (fun l => ~ In "$"%char l) used -> LogicalLine env used rest bs ->
  Splits (joined bs) i r -> Words (joined bs) (w :: ws) -> i = w /\ Words r ws.
Proof.
  intros HF HL HS HW. pose proof (joined_nolead _ _ _ _ HF HL) as HN. remember (joined bs) as t. clear Heqt.
  inversion HW as [|a w' s ws' Ha Hw1 Hw2 Hs H E]; subst.
  destruct a as [|c a].
  - cbn in HS. destruct (Splits_unique (w ++ s) w s) as [E1 E2]; [split; auto|]. apply Splits_unique in HS. destruct HS as [H1 H2].
    split; congruence.
  - exfalso. inversion Ha; subst. destruct HN as [HN|[c' [u [E N]]]]; [discriminate|]. inversion E; subst. auto.
Qed.

(** ** broadcast *)
Lemma getline_line s q : ~ In NL s -> getline (s ++ NL :: q) = (s, q).
Proof.
  intros H. unfold getline. destruct (before_app (fun c => Ascii.eqb c NL) s (NL :: q)) as [E1 E2].
  - intros c Hc. apply Ascii.eqb_neq. intros ->. auto.
  - right. eauto.
  - rewrite E1, E2. reflexivity.
Qed.
Definition no_newline (c : command) : Prop := ~ In NL (fst c) /\ ~ In NL (snd c).
Lemma received_same input : Forall no_newline input -> received input = input.
Proof.
  unfold received. induction 1 as [|[a b] input [H1 H2] _ IH]; [reflexivity|].
  cbn [length deserialize fst snd] in *. unfold serialize. cbn [map concat]. rewrite <- !app_assoc. cbn [app fst snd].
  rewrite getline_line by auto. rewrite getline_line by auto. f_equal. exact IH.
Qed.

Definition env_free (c : ascii) (env : environ) : Prop := forall n v, env n = Some v -> ~ In c v.
Lemma expands_incl env c s t : env_free c env -> Expands env s t -> In c t -> In c s.
Proof.
  intros He H Hc. induction H as [s H|p n q t Hp Hn H IH]; auto.
  specialize (IH Hc). rewrite !in_app_iff in *. destruct IH as [IH|[IH|IH]]; [auto| |].
  - exfalso. unfold env_value in IH. destruct (env n) eqn:E; [|destruct IH]. eapply He; eauto.
  - right. cbn. right. right. rewrite in_app_iff. right. cbn. auto.
Qed.
Lemma Piece_incl env c l cont b : env_free c env -> Piece env l cont b -> In c b -> In c l.
Proof.
  intros He [x [e [HC [HE HB]]]] Hc. eapply Clean_incl; [exact HC|]. eapply expands_incl; [exact He|exact HE|].
  destruct cont; [rewrite HB; apply in_or_app; auto|destruct HB as [-> _]; auto].
Qed.
Lemma joined_incl c bs : In c (joined bs) -> c = " "%char \/ exists b, In b bs /\ In c b.
Proof.
  rewrite joined_fold.
  assert (X : forall acc, In c (fold_left joins bs acc) -> In c acc \/ c = " "%char \/ exists b, In b bs /\ In c b).
  { induction bs as [|b bs IH]; intros acc H; cbn in *; [auto|]. apply IH in H. destruct H as [H|[H|[b' [H1 H2]]]].
    - unfold joins in H. destruct acc as [|d acc]; [right; right; exists b; auto|]. rewrite !in_app_iff in H.
      destruct H as [H|[H|H]]; [auto| |right; right; exists b; auto]. destruct H as [H|[]]; auto.
    - auto.
    - right; right; exists b'; auto. }
  intros H. apply X in H. destruct H as [[]|H]; auto.
Qed.
Lemma SetVar_free env n v env' c : env_free c env -> ~ In c v -> SetVar env n v env' -> env_free c env'.
Proof.
  intros He Hv [[_ ->]|[_ [_ [E1 E2]]]]; auto. intros m w Hm.
  destruct (text_eqb_spec m n) as [->|Hn]; [congruence|]. rewrite E2 in Hm by auto. eapply He; eauto.
Qed.

(** characters absent from the pieces of the files and from the environment are absent from the commands *)
Section Free.
  Variable c : ascii.
  Variable P : text -> Prop.
  Hypothesis Hsp : c <> " "%char.
  Hypothesis HP : forall env l cont b, env_free c env -> P l -> Piece env l cont b -> ~ In c b.
  Lemma LogicalLine_free env used rest bs : env_free c env -> Forall P used -> LogicalLine env used rest bs -> ~ In c (joined bs).
  Proof.
    intros He HF HL Hc. apply joined_incl in Hc. destruct Hc as [->|[b [H1 H2]]]; [congruence|].
    induction HL as [l b0 rest Q|l b0 Q|l b0 lines rest bs Q _ IH]; inversion HF; subst; cbn in H1.
    - destruct H1 as [->|[]]. eapply HP; eauto.
    - destruct H1 as [->|[]]. eapply HP; eauto.
    - destruct H1 as [->|H1]; [eapply HP; eauto|auto].
  Qed.
  Lemma Reads_free open dep env ls cs env' :
    (forall f ls, open f = Some ls -> Forall P ls) ->
    env_free c env -> Forall P ls -> Reads open dep env ls cs env' ->
    env_free c env' /\
    ((forall n rep p a b, dep n = Some rep -> rep p = Some (a, b) -> ~ In c p -> ~ In c a /\ ~ In c b) ->
     Forall (fun x => ~ In c (fst x) /\ ~ In c (snd x)) cs).
  Proof.
    intros Hopen He Hls HR.
    assert (Hsplit : forall s i r, Splits s i r -> ~ In c s -> ~ In c i /\ ~ In c r).
    { intros s i r [-> _] H. rewrite in_app_iff in H. tauto. }
    induction HR; try (apply Forall_app in Hls; destruct Hls as [Hused Hrest]; assert (Hj := LogicalLine_free _ _ _ _ He Hused H)).
    - split; [auto|constructor].
    - auto.
    - destruct (Hsplit _ _ _ H1 Hj) as [_ Hr].
      assert (Hr' : ~ In c r') by (intros X; apply Hr; eapply Trimmed_incl; eauto).
      destruct (Hsplit _ _ _ H4 Hr') as [_ Hv].
      apply IHHR; auto. eapply SetVar_free; [exact He| |eassumption]. intros X. apply Hv. eapply Trimmed_incl; eauto.
    - destruct IHHR1 as [A1 A2]; auto; [eapply Hopen; eauto|]. destruct IHHR2 as [B1 B2]; auto. split; auto.
      intros Hd. apply Forall_app. auto.
    - destruct IHHR as [A1 A2]; auto. split; auto. intros Hd. constructor; auto. destruct c0 as [a b].
      destruct (Hsplit _ _ _ H1 Hj) as [_ Hr]. eapply Hd; eauto. rewrite in_app_iff. intros [X|X]; [auto|]. destruct X as [X|[]]. congruence.
    - destruct IHHR as [A1 A2]; auto. split; auto. intros Hd. constructor; auto. destruct (Hsplit _ _ _ H1 Hj). auto.
  Qed.
End Free.

Lemma broadcast_ok open dep fuel fs env f cs :
  (forall f ls, open f = Some ls -> Forall (fun l => ~ In NL l) ls) -> env_free NL env ->
  (forall n rep p a b, dep n = Some rep -> rep p = Some (a, b) -> ~ In NL p -> ~ In NL a /\ ~ In NL b) ->
  readInputFile open dep fuel fs env f = Done cs -> received cs = cs.
Proof.
  intros Ho He Hd HR. apply readInputFile_reads in HR. destruct HR as [ls [env' [H1 H2]]].
  apply received_same.
  eapply Reads_free with (c := NL) (P := fun l => ~ In NL l) in H2; eauto.
  - apply H2. exact Hd.
  - discriminate.
  - intros e l cont b X1 X2 X3 X4. apply X2. eapply Piece_incl; eauto.
Qed.
