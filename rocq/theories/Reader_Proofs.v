From Coq Require Import List Ascii Bool NArith Lia.
From Verif Require Import SMap Reader_Model Reader_Spec.
Import ListNotations.

Lemma is_ws_spec c : reflect (White c) (is_ws c).
Proof.
  apply iff_reflect. unfold White, is_ws. rewrite !orb_true_iff, !Ascii.eqb_eq. cbn.
  unfold SP, TAB, NL, CR. cbn. intuition congruence.
Qed.
Lemma is_ws_true c : is_ws c = true <-> White c.
Proof. destruct (is_ws_spec c); intuition discriminate. Qed.
Lemma is_ws_false c : is_ws c = false <-> ~ White c.
Proof. destruct (is_ws_spec c); intuition discriminate. Qed.

(** ** trim *)
Lemma drop_ws_split s : exists a, s = a ++ drop_ws s /\ Blank a /\
  (drop_ws s = [] \/ exists c u, drop_ws s = c :: u /\ ~ White c).
Proof.
  induction s as [|c s [a [E [B D]]]]; cbn; [exists []; repeat split; auto; constructor|].
  destruct (is_ws_spec c).
  - exists (c :: a). split; [cbn; congruence|]. split; [constructor; auto|auto].
  - exists []. split; [reflexivity|]. split; [constructor|]. right. eauto.
Qed.
Lemma drop_ws_blank s : Blank s -> drop_ws s = [].
Proof. induction 1 as [|c s H _ IH]; cbn; auto. apply is_ws_true in H. rewrite H. auto. Qed.
Lemma drop_ws_app a s : Blank a -> drop_ws (a ++ s) = drop_ws s.
Proof. induction 1 as [|c a H _ IH]; cbn; auto. apply is_ws_true in H. rewrite H. auto. Qed.
Lemma drop_ws_id c u : ~ White c -> drop_ws (c :: u) = c :: u.
Proof. intros H. cbn. apply is_ws_false in H. rewrite H. auto. Qed.
Lemma Blank_app a b : Blank (a ++ b) <-> Blank a /\ Blank b.
Proof. apply Forall_app. Qed.
Lemma Blank_rev a : Blank (rev a) <-> Blank a.
Proof.
  unfold Blank. rewrite !Forall_forall. split; intros H x Hx; apply H.
  - rewrite <- in_rev. auto.
  - rewrite in_rev. auto.
Qed.

Lemma Trimmed_trim s t : Trimmed s t -> trim s = t.
Proof.
  intros [a [b [-> [Ba [Bb H]]]]]. unfold trim, drop_trailing_ws.
  destruct H as [->|[c1 [c2 [u1 [u2 [E1 [E2 [N1 N2]]]]]]]].
  - cbn. assert (B : Blank (a ++ b)) by (apply Blank_app; auto).
    rewrite (drop_ws_blank (rev (a ++ b))) by (apply Blank_rev; auto). apply drop_ws_blank; auto.
  - rewrite !rev_app_distr. rewrite <- app_assoc. rewrite drop_ws_app by (apply Blank_rev; auto).
    rewrite E2 at 1. rewrite rev_app_distr. cbn [rev app]. rewrite drop_ws_id by auto.
    cbn [rev]. rewrite rev_app_distr, !rev_involutive. rewrite <- app_assoc.
    rewrite drop_ws_app by auto. rewrite <- E2. rewrite E1. apply drop_ws_id. auto.
Qed.
Lemma trim_Trimmed s : Trimmed s (trim s).
Proof.
  destruct (drop_ws_split (rev s)) as [b [E [B H]]].
  assert (Es : s = rev (drop_ws (rev s)) ++ rev b).
  { rewrite <- rev_app_distr, <- E, rev_involutive. reflexivity. }
  destruct H as [H|[c2 [u2 [H N2]]]].
  - rewrite H in Es. cbn in Es.
    assert (Bs : Blank s) by (rewrite Es; apply Blank_rev; auto).
    unfold trim, drop_trailing_ws. rewrite H. rewrite (drop_ws_blank s) by auto.
    exists s, []. cbn. rewrite app_nil_r. repeat split; auto. constructor.
  - destruct (drop_ws_split (rev (drop_ws (rev s)))) as [a [Ea [Ba Ha]]].
    assert (Et : trim s = drop_ws (rev (drop_ws (rev s)))).
    { unfold trim, drop_trailing_ws. rewrite H. reflexivity. }
    rewrite Et. set (t := drop_ws (rev (drop_ws (rev s)))) in *.
    exists a, (rev b). split; [rewrite app_assoc, <- Ea; exact Es|].
    split; [auto|]. split; [apply Blank_rev; auto|].
    destruct Ha as [Ha|[c1 [u1 [Ha N1]]]]; [left; auto|right].
    rewrite H in Ea. cbn [rev] in Ea. 
    destruct (exists_last (l := t)) as [u [c Hc]]; [rewrite Ha; discriminate|].
    rewrite Hc in Ea. rewrite app_assoc in Ea. apply app_inj_tail in Ea. destruct Ea as [_ Ec].
    exists c1, c, u1, u. rewrite <- Ec at 2. repeat split; auto.
Qed.
Lemma Trimmed_unique s t1 t2 : Trimmed s t1 -> Trimmed s t2 -> t1 = t2.
Proof. intros H1 H2. apply Trimmed_trim in H1, H2. congruence. Qed.
Lemma Trimmed_self s t : Trimmed s t -> Trimmed t t.
Proof.
  intros [a [b [_ [_ [_ H]]]]]. exists [], []. rewrite app_nil_r. repeat split; auto; constructor.
Qed.
Lemma trim_idempotent s : trim (trim s) = trim s.
Proof. apply Trimmed_trim. eapply Trimmed_self. apply trim_Trimmed. Qed.

(** ** before / from *)
Lemma before_from f s : s = before f s ++ from f s.
Proof. induction s as [|c s IH]; cbn; auto. destruct (f c); cbn; congruence. Qed.
Lemma before_no f s c : In c (before f s) -> f c = false.
Proof.
  induction s as [|d s IH]; cbn; [tauto|]. destruct (f d) eqn:E; cbn; [tauto|]. intros [<-|H]; auto.
Qed.
Lemma from_head f s : from f s = [] \/ exists c s', from f s = c :: s' /\ f c = true.
Proof. induction s as [|d s IH]; cbn; auto. destruct (f d) eqn:E; eauto. Qed.
Lemma before_app f s t : (forall c, In c s -> f c = false) -> (t = [] \/ exists c t', t = c :: t' /\ f c = true) ->
  before f (s ++ t) = s /\ from f (s ++ t) = t.
Proof.
  intros H Ht. induction s as [|c s IH]; cbn.
  - destruct Ht as [->|[c [t' [-> E]]]]; cbn; [auto|]. rewrite E. auto.
  - rewrite (H c) by (cbn; auto). destruct IH as [I1 I2]; [intros; apply H; cbn; auto|]. split; congruence.
Qed.
Lemma from_suffix f s : exists a, s = a ++ from f s.
Proof. exists (before f s). apply before_from. Qed.

Lemma Uncommented_cut l : Uncommented l (cut_comment l).
Proof.
  unfold Uncommented, cut_comment. split.
  - intros H. apply before_no in H. apply Ascii.eqb_neq in H. apply H. reflexivity.
  - destruct (from_head (fun c => Ascii.eqb c HASH) l) as [E|[c [s' [E Ec]]]].
    + left. rewrite (before_from (fun c => Ascii.eqb c HASH) l) at 1. rewrite E, app_nil_r. reflexivity.
    + right. exists s'. rewrite (before_from (fun c => Ascii.eqb c HASH) l) at 1. rewrite E. apply Ascii.eqb_eq in Ec. subst. reflexivity.
Qed.
Lemma Uncommented_unique l u : Uncommented l u -> u = cut_comment l.
Proof.
  intros [H1 H2]. unfold cut_comment. symmetry.
  assert (Hu : forall c, In c u -> (c =? HASH)%char = false).
  { intros c Hc. apply Ascii.eqb_neq. intros ->. auto. }
  destruct H2 as [->|[c ->]].
  - pose proof (before_app (fun c => Ascii.eqb c HASH) u [] Hu (or_introl eq_refl)) as [H _]. rewrite app_nil_r in H. exact H.
  - apply before_app; [exact Hu|]. right. eauto.
Qed.
Lemma Clean_iff l c : Clean l c <-> c = trim (cut_comment l).
Proof.
  split.
  - intros [u [H1 H2]]. apply Uncommented_unique in H1. subst. symmetry. apply Trimmed_trim. auto.
  - intros ->. exists (cut_comment l). split; [apply Uncommented_cut|apply trim_Trimmed].
Qed.
Lemma SameLine_iff l1 l2 : SameLine l1 l2 <-> trim (cut_comment l1) = trim (cut_comment l2).
Proof.
  split.
  - intros [c [H1 H2]]. rewrite Clean_iff in *. congruence.
  - intros H. exists (trim (cut_comment l1)). rewrite !Clean_iff. auto.
Qed.

(** ** Invariance under comments and white space *)
Definition same_fs (open1 open2 : text -> option (list text)) : Prop :=
  forall f, match open1 f, open2 f with
            | Some a, Some b => Forall2 SameLine a b
            | None, None => True
            | _, _ => False
            end.

Lemma readLine_same fuel env a b line : Forall2 SameLine a b ->
  match readLine_loop fuel env line a, readLine_loop fuel env line b with
  | Done (l1, r1), Done (l2, r2) => l1 = l2 /\ Forall2 SameLine r1 r2
  | Die e1, Die e2 => e1 = e2
  | NotFinished, NotFinished => True
  | _, _ => False
  end.
Proof.
  intros H. revert line. induction H as [|x y a b Hxy H IH]; intros line; cbn; [auto|].
  apply SameLine_iff in Hxy. rewrite Hxy.
  destruct (environmentSubstitute fuel env (trim (cut_comment y))) as [t|e|]; cbn; auto.
  destruct (continued t); [apply IH|auto].
Qed.

Lemma readLines_same open1 open2 dep : same_fs open1 open2 -> forall fuel fs st stack a b, Forall2 SameLine a b ->
  readLines open1 dep fuel fs st stack a = readLines open2 dep fuel fs st stack b.
Proof.
  intros Hfs. induction fuel as [|k IH]; intros fs st stack a b H; [reflexivity|]. cbn [readLines].
  destruct H as [|x y a b Hxy H]; [reflexivity|].
  pose proof (readLine_same fs (r_env st) (x :: a) (y :: b) [] (Forall2_cons _ _ Hxy H)) as HL.
  unfold readLine.
  destruct (readLine_loop fs (r_env st) [] (x :: a)) as [[l1 r1]|e1|], (readLine_loop fs (r_env st) [] (y :: b)) as [[l2 r2]|e2|];
    try contradiction; cbn [obind]; try congruence.
  destruct HL as [<- HL]. destruct l1 as [|c l1]; [apply IH; auto|].
  destruct (itext_eqb _ _); [apply IH; auto|].
  destruct (itext_eqb _ _).
  - destruct (trim _) as [|d g] eqn:Eg; [reflexivity|]. destruct (existsb _ _); [reflexivity|].
    specialize (Hfs (d :: g)). destruct (open1 (d :: g)) as [f1|], (open2 (d :: g)) as [f2|]; try contradiction; [|reflexivity].
    rewrite (IH fs st _ _ _ Hfs).
    match goal with |- obind ?m _ = _ => destruct m as [st'|e|] end; cbn; auto.
  - destruct (dep _) as [rep|]; [destruct (rep _); [apply IH; auto|reflexivity]|apply IH; auto].
Qed.

Lemma readInputFile_same open1 open2 dep fuel fs env f : same_fs open1 open2 ->
  readInputFile open1 dep fuel fs env f = readInputFile open2 dep fuel fs env f.
Proof.
  intros H. unfold readInputFile. pose proof (H f) as Hf. destruct (open1 f), (open2 f); try contradiction; [|reflexivity].
  rewrite (readLines_same open1 open2 dep H fuel fs _ [f] l l0 Hf). reflexivity.
Qed.

(** ** Environment substitution *)
Lemma find_ref_cons c c' s : find_ref (c :: c' :: s) =
  if Ascii.eqb c DOLLAR && Ascii.eqb c' LBRACE then Some ([], s)
  else match find_ref (c' :: s) with Some (p, r) => Some (c :: p, r) | None => None end.
Proof. reflexivity. Qed.
Lemma find_ref_some s p r : find_ref s = Some (p, r) -> s = p ++ DOLLAR :: LBRACE :: r /\ ~ HasRef (p ++ [DOLLAR]).
Proof.
  revert p r. induction s as [|c s IH]; intros p r; [discriminate|].
  destruct s as [|c' s]; [discriminate|]. rewrite find_ref_cons.
  destruct (Ascii.eqb c DOLLAR && Ascii.eqb c' LBRACE) eqn:E.
  - apply andb_prop in E. destruct E as [E1 E2]. apply Ascii.eqb_eq in E1, E2. subst.
    intros H. inversion H; subst. split; [reflexivity|]. intros [a [b X]]. destruct a as [|? [|? ?]]; discriminate.
  - destruct (find_ref (c' :: s)) as [[p' r']|] eqn:F; [|discriminate]. intros H. inversion H; subst.
    destruct (IH _ _ eq_refl) as [H1 H2]. split; [rewrite H1; reflexivity|].
    intros [a [b X]]. destruct a as [|a0 a]; cbn in X.
    + inversion X as [[X1 X2]]. subst c. destruct p' as [|p0 p']; cbn in *; [discriminate|].
      inversion X2; inversion H1; subst. discriminate.
    + inversion X; subst. apply H2. exists a, b. auto.
Qed.
Lemma find_ref_none s : find_ref s = None <-> ~ HasRef s.
Proof.
  induction s as [|c s IH].
  - split; auto. intros _ [p [q E]]. destruct p; discriminate.
  - destruct s as [|c' s].
    + split; auto. intros _ [p [q E]]. destruct p as [|? [|? ?]]; discriminate.
    + destruct (find_ref (c :: c' :: s)) as [[p r]|] eqn:F.
      * split; [discriminate|]. intros H. exfalso. apply H. apply find_ref_some in F. destruct F as [F _]. exists p, r. exact F.
      * split; [|reflexivity]. intros _ [p [q E]]. rewrite find_ref_cons in F. destruct p as [|p0 p]; cbn in E.
        -- inversion E; subst. discriminate.
        -- inversion E; subst p0. destruct (Ascii.eqb c DOLLAR && Ascii.eqb c' LBRACE); [discriminate|].
           destruct (find_ref (c' :: s)) as [[? ?]|] eqn:G; [discriminate|]. apply IH; [reflexivity|]. exists p, q. assumption.
Qed.
Lemma find_ref_first p r : ~ HasRef (p ++ [DOLLAR]) -> find_ref (p ++ DOLLAR :: LBRACE :: r) = Some (p, r).
Proof.
  induction p as [|c p IH]; intros H.
  - reflexivity.
  - rewrite <- app_comm_cons. cbn [find_ref].
    assert (Hp : ~ HasRef (p ++ [DOLLAR])).
    { intros [a [b X]]. apply H. exists (c :: a), b. exact (f_equal (cons c) X). }
    specialize (IH Hp).
    destruct (p ++ DOLLAR :: LBRACE :: r) as [|c' s] eqn:Es; [destruct p; discriminate|].
    destruct (Ascii.eqb c DOLLAR && Ascii.eqb c' LBRACE) eqn:E.
    + exfalso. apply andb_prop in E. destruct E as [E1 E2]. apply Ascii.eqb_eq in E1, E2. subst.
      apply H. destruct p as [|p0 p]; cbn in Es; [discriminate|]. inversion Es; subst.
      exists [], (p ++ [DOLLAR]). reflexivity.
    + rewrite IH. reflexivity.
Qed.
Lemma find_close_some r n q : find_close r = Some (n, q) <-> r = n ++ RBRACE :: q /\ ~ In RBRACE n.
Proof.
  unfold find_close. split.
  - destruct (from_head (fun c => Ascii.eqb c RBRACE) r) as [->|[c [s' [E Ec]]]]; [discriminate|]. rewrite E.
    intros H. inversion H; subst. apply Ascii.eqb_eq in Ec. subst. split.
    + rewrite (before_from (fun c => Ascii.eqb c RBRACE) r) at 1. rewrite E. reflexivity.
    + intros X. apply before_no in X. apply Ascii.eqb_neq in X. auto.
  - intros [-> H]. destruct (before_app (fun c => Ascii.eqb c RBRACE) n (RBRACE :: q)) as [E1 E2].
    + intros c Hc. apply Ascii.eqb_neq. intros ->. auto.
    + right. eauto.
    + rewrite E1, E2. reflexivity.
Qed.
Lemma find_close_none r : find_close r = None <-> ~ In RBRACE r.
Proof.
  split.
  - intros H X. apply in_split in X. destruct X as [n [q E]].
    destruct (from_head (fun c => Ascii.eqb c RBRACE) r) as [F|[c [s' [F _]]]].
    + pose proof (before_from (fun c => Ascii.eqb c RBRACE) r) as B. rewrite F, app_nil_r in B.
      assert (X : In RBRACE (before (fun c => Ascii.eqb c RBRACE) r)) by (rewrite <- B, E; apply in_elt).
      apply before_no in X. discriminate.
    + unfold find_close in H. rewrite F in H. discriminate.
  - intros H. destruct (find_close r) as [[n q]|] eqn:E; auto. apply find_close_some in E. destruct E as [-> _].
    exfalso. apply H. apply in_elt.
Qed.

Lemma subst_mono env s k m r : environmentSubstitute k env s = r -> r <> NotFinished -> k <= m -> environmentSubstitute m env s = r.
Proof.
  revert s m. induction k as [|k IH]; intros s m E N L; cbn in E; [congruence|].
  destruct m as [|m]; [lia|]. cbn. destruct (find_ref s) as [[p r']|]; auto.
  destruct (find_close r') as [[n q]|]; auto. apply IH; auto. lia.
Qed.
Lemma subst_expands env k s t : environmentSubstitute k env s = Done t -> Expands env s t.
Proof.
  revert s. induction k as [|k IH]; intros s; cbn; [discriminate|].
  destruct (find_ref s) as [[p r]|] eqn:F.
  - destruct (find_close r) as [[n q]|] eqn:C; [|discriminate]. intros H.
    apply find_ref_some in F. destruct F as [-> F]. apply find_close_some in C. destruct C as [-> C].
    apply Expands_step; auto.
  - intros H. inversion H; subst. apply Expands_done. apply find_ref_none. auto.
Qed.
Lemma expands_subst env s t : Expands env s t -> exists k, environmentSubstitute k env s = Done t.
Proof.
  induction 1 as [s H|p n q t Hp Hn _ [k IH]].
  - exists 1. cbn. apply find_ref_none in H. rewrite H. reflexivity.
  - exists (S k). cbn. rewrite find_ref_first by auto.
    assert (C : find_close (n ++ RBRACE :: q) = Some (n, q)) by (apply find_close_some; auto).
    change "}"%char with RBRACE. rewrite C. exact IH.
Qed.
Lemma expands_no_ref env s t : Expands env s t -> ~ HasRef t.
Proof. induction 1; auto. Qed.

Definition count (c : ascii) (s : text) : nat := count_occ ascii_dec s c.
Lemma count_app c s t : count c (s ++ t) = count c s + count c t.
Proof. apply count_occ_app. Qed.
Lemma count_not_in c s : ~ In c s -> count c s = 0.
Proof. apply count_occ_not_In. Qed.

Lemma subst_terminates_measure env d : (d = DOLLAR \/ d = LBRACE) -> (forall n v, env n = Some v -> ~ In d v) ->
  forall k s, count d s < k -> environmentSubstitute k env s <> NotFinished.
Proof.
  intros Hd Hv. induction k as [|k IH]; intros s L; [lia|]. cbn.
  destruct (find_ref s) as [[p r]|] eqn:F; [|discriminate].
  destruct (find_close r) as [[n q]|] eqn:C; [|discriminate].
  apply find_ref_some in F. destruct F as [-> _]. apply find_close_some in C. destruct C as [-> _].
  apply IH. rewrite !count_app in *.
  assert (G : count d (getenv env n) = 0).
  { unfold getenv. destruct (env n) eqn:E; [|reflexivity]. apply count_not_in. eapply Hv; eauto. }
  rewrite G.
  replace (count d (DOLLAR :: LBRACE :: n ++ RBRACE :: q)) with (1 + (count d n + count d q)) in L; [lia|].
  change (DOLLAR :: LBRACE :: n ++ RBRACE :: q) with ([DOLLAR] ++ [LBRACE] ++ n ++ [RBRACE] ++ q).
  rewrite !count_app. destruct Hd as [-> | ->].
  - change (count DOLLAR [DOLLAR]) with 1. change (count DOLLAR [LBRACE]) with 0. change (count DOLLAR [RBRACE]) with 0. lia.
  - change (count LBRACE [DOLLAR]) with 0. change (count LBRACE [LBRACE]) with 1. change (count LBRACE [RBRACE]) with 0. lia.
Qed.

Lemma subst_die env k s e : environmentSubstitute k env s = Die e -> e = Unterminated.
Proof.
  revert s. induction k as [|k IH]; intros s; cbn; [discriminate|].
  destruct (find_ref s) as [[p r]|]; [|discriminate]. destruct (find_close r) as [[n q]|]; [apply IH|congruence].
Qed.

(** death only with an opened, unclosed reference somewhere along the way; never when the line
    holds no reference *)
Lemma subst_noref env s k : ~ HasRef s -> environmentSubstitute (S k) env s = Done s.
Proof. intros H. cbn. apply find_ref_none in H. rewrite H. reflexivity. Qed.

(** self-reference *)
Lemma noref_nodollar p : ~ In DOLLAR p -> ~ HasRef (p ++ [DOLLAR]).
Proof.
  induction p as [|c p IH]; intros H [a [b E]].
  - destruct a as [|? [|? ?]]; discriminate.
  - destruct a as [|a0 a]; cbn in E.
    + inversion E; subst. apply H. cbn. auto.
    + inversion E; subst. apply IH; [intros X; apply H; cbn; auto|]. exists a, b. auto.
Qed.
Lemma selfref_diverges env v : env v = Some (DOLLAR :: LBRACE :: v ++ [RBRACE]) -> ~ In RBRACE v ->
  forall k, environmentSubstitute k env (DOLLAR :: LBRACE :: v ++ [RBRACE]) = NotFinished.
Proof.
  intros E H. induction k as [|k IH]; [reflexivity|]. cbn [environmentSubstitute].
  assert (F : find_ref (DOLLAR :: LBRACE :: v ++ [RBRACE]) = Some ([], v ++ [RBRACE])) by reflexivity.
  rewrite F. assert (C : find_close (v ++ [RBRACE]) = Some (v, [])) by (apply find_close_some; auto).
  rewrite C. unfold getenv. rewrite E, app_nil_r. exact IH.
Qed.
Lemma noref_twodollar p : ~ In DOLLAR p -> ~ HasRef ((p ++ ["$"%char]) ++ [DOLLAR]).
Proof.
  induction p as [|c p IH]; intros H [a [b E]].
  - destruct a as [|? [|? [|? ?]]]; discriminate.
  - destruct a as [|a0 a]; cbn in E.
    + inversion E; subst. apply H. cbn; auto.
    + inversion E; subst. apply IH; [intros X; apply H; cbn; auto|]. exists a, b. auto.
Qed.
(** divergence without any reference in the value: V = "{V}{V}$$" and line "$${V}" *)
Lemma growing_diverges env : env ["V"%char] = Some ["{";"V";"}";"{";"V";"}";"$";"$"]%char ->
  forall k p q, ~ In DOLLAR p -> environmentSubstitute k env (p ++ ["$";"$";"{";"V";"}"]%char ++ q) = NotFinished.
Proof.
  intros E. assert (X : forall k, (forall p q, ~ In DOLLAR p -> environmentSubstitute k env (p ++ ["$";"$";"{";"V";"}"]%char ++ q) = NotFinished) /\
    (forall p q, ~ In DOLLAR p -> environmentSubstitute (S k) env (p ++ ["$";"$";"{";"V";"}"]%char ++ q) = NotFinished)); [|intros k; apply X].
  induction k as [|k [IH1 IH2]].
  - split; [reflexivity|]. intros p q Hp. cbn [environmentSubstitute].
    pose proof (find_ref_first (p ++ ["$"%char]) (["V";"}"]%char ++ q) (noref_twodollar p Hp)) as F.
    rewrite <- app_assoc in F. cbn [app] in F.
    change (p ++ "$"%char :: DOLLAR :: LBRACE :: "V"%char :: "}"%char :: q) with (p ++ ["$";"$";"{";"V";"}"]%char ++ q) in F.
    rewrite F. reflexivity.
  - split; [exact IH2|]. intros p q Hp.
    pose proof (find_ref_first (p ++ ["$"%char]) (["V";"}"]%char ++ q) (noref_twodollar p Hp)) as F.
    rewrite <- app_assoc in F. cbn [app] in F.
    change (p ++ "$"%char :: DOLLAR :: LBRACE :: "V"%char :: "}"%char :: q) with (p ++ ["$";"$";"{";"V";"}"]%char ++ q) in F.
    cbn [environmentSubstitute]. rewrite F.
    assert (C : forall q, find_close ("V"%char :: "}"%char :: q) = Some (["V"%char], q)) by reflexivity.
    rewrite C. unfold getenv at 1. rewrite E. rewrite <- app_assoc.
    pose proof (find_ref_first p (["V";"}";"{";"V";"}";"$";"$"]%char ++ q) (noref_nodollar p Hp)) as F2.
    change (p ++ DOLLAR :: LBRACE :: ["V"; "}"; "{"; "V"; "}"; "$"; "$"]%char ++ q)
      with (p ++ ["$"]%char ++ ["{"; "V"; "}"; "{"; "V"; "}"; "$"; "$"]%char ++ q) in F2.
    rewrite F2. cbn [app]. rewrite C. unfold getenv. rewrite E.
    change (p ++ ["{"; "V"; "}"; "{"; "V"; "}"; "$"; "$"]%char ++ "{"%char :: "V"%char :: "}"%char :: "$"%char :: "$"%char :: q)
      with (p ++ ["{"; "V"; "}"; "{"; "V"; "}"]%char ++ ["$"; "$"; "{"; "V"; "}"]%char ++ "$"%char :: "$"%char :: q).
    rewrite app_assoc. apply IH1.
    rewrite in_app_iff. intros [Y|Y]; [auto|]. cbn in Y. unfold DOLLAR in Y. cbn in Y. intuition discriminate.
Qed.
