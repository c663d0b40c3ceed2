From Coq Require Import List String Bool Arith Relations Lia Sorting.Sorted Permutation.
From Verif Require Import SMap Commands_Model Commands_Spec Commands_Proofs.
Import ListNotations.
Open Scope nat_scope.
Open Scope list_scope.

(** ** mutual forbids *)
Definition skel (c : cmd) := (c_name c, c_section c, c_requires c, (c_allowMultiple c, c_hasDefault c, c_emptyParamError c)).
Definition Similar (t t' : table) : Prop := Forall2 (fun c c' => skel c = skel c' /\ incl (c_forbids c) (c_forbids c')) t t'.
Lemma similar_refl t : Similar t t.
Proof. induction t; constructor; auto. split; auto. apply incl_refl. Qed.
Lemma similar_trans a b c : Similar a b -> Similar b c -> Similar a c.
Proof.
  intros H. revert c. induction H as [|x y a b [E I] H IH]; intros c K; inversion K; subst; constructor.
  - destruct H2 as [E' I']. split; [congruence|]. eapply incl_tran; eauto.
  - apply IH; auto.
Qed.
Lemma similar_modify t n m : Similar t (modify n (addForbid m) t).
Proof.
  unfold modify. induction t as [|c t IH]; cbn; constructor; auto. destruct (ieqb n (c_name c)); split; auto; [|apply incl_refl].
  cbn. intros x Hx. apply in_or_app; auto.
Qed.
Lemma similar_in t t' c : Similar t t' -> In c t -> exists c', In c' t' /\ skel c = skel c' /\ incl (c_forbids c) (c_forbids c').
Proof. induction 1 as [|x y a b [E I] H IH]; [intros []|]. intros [->|Hc]; [exists y; cbn; auto|]. destruct (IH Hc) as [c' [H1 H2]]. exists c'. cbn. auto. Qed.
Lemma similar_in' t t' c' : Similar t t' -> In c' t' -> exists c, In c t /\ skel c = skel c' /\ incl (c_forbids c) (c_forbids c').
Proof. induction 1 as [|x y a b [E I] H IH]; [intros []|]. intros [->|Hc]; [exists x; cbn; auto|]. destruct (IH Hc) as [c [H1 H2]]. exists c. cbn. auto. Qed.
Lemma similar_names t t' : Similar t t' -> map c_name t' = map c_name t.
Proof. induction 1 as [|x y a b [E I] H IH]; cbn; auto. unfold skel in E. inversion E. congruence. Qed.
Lemma similar_unique t t' : Similar t t' -> UniqueNames t -> UniqueNames t'.
Proof. intros H. unfold UniqueNames. rewrite <- !(map_map c_name lower). rewrite (similar_names t t' H). auto. Qed.
Lemma similar_forb t t' a b : Similar t t' -> Forb t a b -> Forb t' a b.
Proof.
  intros S [c [f [H1 [H2 [H3 H4]]]]]. destruct (similar_in t t' c S H1) as [c' [K1 [K2 K3]]]. unfold skel in K2. inversion K2.
  exists c', f. repeat split; auto. congruence.
Qed.
Lemma similar_section t t' a b : Similar t t' -> SameSection t a b -> SameSection t' a b.
Proof.
  intros S [c [d [H1 [H2 [H3 [H4 H5]]]]]].
  destruct (similar_in t t' c S H1) as [c' [K1 [K2 _]]]. destruct (similar_in t t' d S H2) as [d' [K3 [K4 _]]].
  unfold skel in K2, K4. inversion K2. inversion K4. exists c', d'. repeat split; auto; congruence.
Qed.
Lemma similar_section' t t' a b : Similar t t' -> SameSection t' a b -> SameSection t a b.
Proof.
  intros S [c [d [H1 [H2 [H3 [H4 H5]]]]]].
  destruct (similar_in' t t' c S H1) as [c' [K1 [K2 _]]]. destruct (similar_in' t t' d S H2) as [d' [K3 [K4 _]]].
  unfold skel in K2, K4. inversion K2. inversion K4. exists c', d'. repeat split; auto; congruence.
Qed.

Lemma mutualOne_spec t0 ci : In ci t0 -> forall fs t t', Similar t0 t -> UniqueNames t -> mutualOne ci fs t = Good t' ->
  Similar t t' /\
  (forall f, In f fs -> exists d, In d t /\ ieq f (c_name d)) /\
  (forall f, In f fs -> SameSection t (c_name ci) f -> Forb t' f (c_name ci)) /\
  (forall a b, Forb t' a b -> Forb t a b \/ (ieq b (c_name ci) /\ SameSection t a b /\ exists f, In f fs /\ ieq f a)).
Proof.
  intros Hci. induction fs as [|f fs IH]; intros t t' S0 U H; cbn in H.
  - inversion H; subst. repeat split; auto using similar_refl; intros f [].
  - destruct (lookup f t) as [cj|] eqn:L; [|discriminate]. apply lookup_some in L. destruct L as [L1 L2].
    destruct (similar_in t0 t ci S0 Hci) as [ci' [C1 [C2 _]]]. unfold skel in C2. inversion C2 as [[N1 N2 N3 N4 N5 N6]]. clear C2 N3 N4 N5 N6.
    assert (Fcj : SameSection t (c_name ci) f -> ieqb (c_section cj) (c_section ci) = true).
    { intros [x [y [X1 [X2 [X3 [X4 X5]]]]]]. assert (x = ci') by (apply (unique_in t); auto; unfold ieq in *; congruence).
      assert (y = cj) by (apply (unique_in t); auto; unfold ieq in *; congruence). subst x y.
      destruct (ieqb_spec (c_section cj) (c_section ci)) as [|N]; auto. exfalso. apply N. unfold ieq in *. congruence. }
    destruct (imem_spec (c_name ci) (c_forbids cj)) as [M|M].
    + cbn in H. destruct (IH _ _ S0 U H) as [A1 [A2 [A3 A4]]]. split; auto. split; [|split].
      * intros g [<-|Hg]; auto. exists cj. auto.
      * intros g [<-|Hg] Sg; auto. apply (similar_forb t); auto. destruct M as [x [M1 M2]]. exists cj, x. repeat split; auto; unfold ieq in *; congruence.
      * intros a b F. destruct (A4 a b F) as [X|[X1 [X2 [g [G1 G2]]]]]; auto. right. split; auto. split; auto. exists g. cbn. auto.
    + cbn in H. destruct (ieqb_spec (c_section cj) (c_section ci)) as [Es|Es].
      * assert (Sm : Similar t (modify f (addForbid (c_name ci)) t)) by apply similar_modify.
        destruct (IH _ _ (similar_trans _ _ _ S0 Sm) (similar_unique _ _ Sm U) H) as [A1 [A2 [A3 A4]]].
        assert (Fnew : Forb (modify f (addForbid (c_name ci)) t) f (c_name ci)).
        { exists (addForbid (c_name ci) cj), (c_name ci). repeat split; auto.
          - unfold modify. apply in_map_iff. exists cj. split; auto. destruct (ieqb_spec f (c_name cj)); auto. contradiction.
          - cbn. unfold ieq in *; congruence.
          - cbn. apply in_or_app. right. cbn. auto. }
        split; [eapply similar_trans; eauto|]. split; [|split].
        -- intros g [<-|Hg]; [exists cj; auto|]. destruct (A2 g Hg) as [d [D1 D2]]. destruct (similar_in' _ _ d Sm D1) as [d' [D3 [D4 _]]].
           exists d'. split; auto. unfold skel in D4. inversion D4. congruence.
        -- intros g [<-|Hg] Sg; [|apply A3; auto; apply (similar_section t); auto]. eapply similar_forb; eauto.
        -- intros a b F. destruct (A4 a b F) as [X|[X1 [X2 [g [G1 G2]]]]].
           ++ destruct X as [c [x [X1 [X2 [X3 X4]]]]]. unfold modify in X1. apply in_map_iff in X1. destruct X1 as [c0 [E0 I0]].
              destruct (ieqb_spec f (c_name c0)) as [Ef|Ef].
              ** subst c. cbn in X2, X3. apply in_app_or in X3. destruct X3 as [X3|[<-|[]]].
                 --- left. exists c0, x. auto.
                 --- right. split; [symmetry; exact X4|]. split; [|exists f; cbn; split; auto; unfold ieq in *; congruence].
                     exists c0, ci'. repeat split; auto; [unfold ieq in *; congruence|]. assert (c0 = cj) by (apply (unique_in t); auto; unfold ieq in *; congruence).
                     subst c0. unfold ieq in *. congruence.
              ** subst c. left. exists c0, x. auto.
           ++ right. split; auto. split; [eapply similar_section'; eauto|]. exists g. cbn. auto.
      * assert (NS : ~ SameSection t (c_name ci) f) by (intros X; apply Fcj in X; destruct (ieqb_spec (c_section cj) (c_section ci)); [contradiction|discriminate]).
        destruct (IH _ _ S0 U H) as [A1 [A2 [A3 A4]]]. split; auto. split; [|split].
        -- intros g [<-|Hg]; auto. exists cj. auto.
        -- intros g [<-|Hg] Sg; auto. contradiction.
        -- intros a b F. destruct (A4 a b F) as [X|[X1 [X2 [g [G1 G2]]]]]; auto. right. split; auto. split; auto. exists g. cbn. auto.
Qed.

Lemma mutual_spec t0 : UniqueNames t0 -> forall names t t', Similar t0 t -> incl names (map c_name t0) -> mutual names t = Good t' ->
  Similar t t' /\
  (forall n a b, In n names -> ieq a n -> Forb t a b -> SameSection t a b -> Forb t' b a) /\
  (forall a b, Forb t' a b -> Forb t a b \/ (Forb t b a /\ SameSection t a b)).
Proof.
  intros U. induction names as [|n names IH]; intros t t' S0 Hi H; cbn in H.
  - inversion H; subst. repeat split; auto using similar_refl. intros n a b [].
  - assert (Ut : UniqueNames t) by (eapply similar_unique; eauto).
    destruct (lookup n t) as [ci|] eqn:L.
    + apply lookup_some in L. destruct L as [L1 L2]. destruct (mutualOne ci (c_forbids ci) t) as [t1|] eqn:M; [|discriminate].
      destruct (mutualOne_spec t ci L1 _ _ _ (similar_refl t) Ut M) as [A1 [A2 [A3 A4]]].
      assert (S1 : Similar t0 t1) by (eapply similar_trans; eauto).
      assert (Hi' : incl names (map c_name t0)) by (intros x Hx; apply Hi; cbn; auto).
      destruct (IH t1 t' S1 Hi' H) as [B1 [B2 B3]]. split; [eapply similar_trans; eauto|]. split.
      * intros m a b [<-|Hm] Ea F SS.
        -- apply (similar_forb t1); auto. destruct F as [c [f [F1 [F2 [F3 F4]]]]]. assert (c = ci) by (apply (unique_in t); auto; unfold ieq in *; congruence). subst c.
           assert (X : Forb t1 f (c_name ci)).
           { apply A3; auto. destruct SS as [x [y [Y1 [Y2 [Y3 [Y4 Y5]]]]]]. exists x, y. repeat split; auto; unfold ieq in *; congruence. }
           destruct X as [x [y [X1 [X2 [X3 X4]]]]]. exists x, y. repeat split; auto; unfold ieq in *; congruence.
        -- apply (B2 m a b Hm Ea); [apply (similar_forb t t1); auto|apply (similar_section t t1); auto].
      * assert (C : forall x y, Forb t1 x y -> Forb t x y \/ (Forb t y x /\ SameSection t x y)).
        { intros x y F. destruct (A4 x y F) as [X|[X1 [X2 [f [X3 X4]]]]]; auto. right. split; auto. exists ci, f. repeat split; auto. symmetry. exact X1. }
        assert (Sym : forall x y, SameSection t x y -> SameSection t y x).
        { intros x y [c [d [Y1 [Y2 [Y3 [Y4 Y5]]]]]]. exists d, c. repeat split; auto. symmetry. exact Y5. }
        intros a b F. destruct (B3 a b F) as [X|[X Y]]; [auto|]. apply (similar_section' t t1) in Y; auto.
        destruct (C b a X) as [Z|[Z Z']]; auto.
    + exfalso. rewrite lookup_none in L. assert (X : In n (map c_name t0)) by (apply Hi; cbn; auto).
      rewrite <- (similar_names t0 t S0) in X. apply in_map_iff in X. destruct X as [c [<- Hc]]. apply (L c Hc). reflexivity.
Qed.

(** ** what the constructor guarantees *)
Record LevelsOk (t : table) (lv : levels) (n : nat) : Prop := {
  lo_unique : UniqueNames t;
  lo_proper : proper lv;
  lo_total : forall c, In c t -> exists l, lv (c_name c) = Some l /\ l <= n;
  lo_req : forall c r, In c t -> In r (c_requires c) -> exists d lc ld, In d t /\ ieq r (c_name d) /\ lv (c_name c) = Some lc /\ lv (c_name d) = Some ld /\ ld < lc }.

Lemma unassigned_start t : unassigned (fun _ => None) t = List.length t.
Proof. unfold unassigned. induction t; cbn in *; auto. Qed.
Lemma processTable_ok t t' lv n : UniqueNames t -> processTable t = Good (t', lv, n) ->
  inv t lv (S n) /\ (forall c, In c t -> lv (c_name c) <> None) /\ (t <> [] -> n + 1 <= List.length t) /\
  Similar t t' /\ LevelsOk t' lv n /\ consistent t' = true /\
  (forall a b, Forb t a b -> SameSection t a b -> Forb t' b a) /\
  (forall a b, Forb t' a b -> Forb t a b \/ (Forb t b a /\ SameSection t a b)).
Proof.
  intros U H. unfold processTable in H.
  assert (L : unassigned (fun _ => None) t = List.length t) by apply unassigned_start.
  pose proof (passes_spec t U (S (List.length t)) 0 (fun _ => None) (inv_start t)) as P.
  destruct (passes (S (List.length t)) t 0 (fun _ => None)) as [[lv0 n0]|]; [|discriminate].
  destruct P as [P1 [P2 [P3 P4]]]; [lia|].
  destruct (mutual (map c_name t) t) as [t0|] eqn:M; [|discriminate]. destruct (consistent t0) eqn:C; [|discriminate].
  inversion H; subst t0 lv0 n0. clear H.
  destruct (mutual_spec t U _ t t' (similar_refl t) (incl_refl _) M) as [A1 [A2 A3]].
  split; auto. split; auto. split. { intros Ne. rewrite L in P4. apply P4. destruct t; [congruence|cbn; lia]. }
  split; auto. split; [|split; [auto|split; [|auto]]].
  - split; [eapply similar_unique; eauto|apply (inv_proper _ _ _ P1)| |].
    + intros c' Hc'. destruct (similar_in' _ _ c' A1 Hc') as [c [Hc [E _]]]. unfold skel in E. inversion E. 
      destruct (lv (c_name c)) as [l|] eqn:El; [|exfalso; eapply P2; eauto]. exists l. split; [congruence|]. apply (inv_below _ _ _ P1) in El. lia.
    + intros c' r Hc' Hr. destruct (similar_in' _ _ c' A1 Hc') as [c [Hc [E _]]]. unfold skel in E. inversion E as [[E1 E2 E3 E4 E5 E6]].
      destruct (lv (c_name c)) as [l|] eqn:El; [|exfalso; eapply P2; eauto]. rewrite <- E3 in Hr.
      destruct (inv_req _ _ _ P1 c l Hc El r Hr) as [d [ld [D1 [D2 D3]]]]. apply lookup_some in D1. destruct D1 as [D1 D4].
      destruct (similar_in _ _ d A1 D1) as [d' [Hd' [Ed _]]]. unfold skel in Ed. inversion Ed.
      exists d', l, ld. repeat split; auto; congruence.
  - intros a b F SS. destruct F as [c [f [F1 [F2 [F3 F4]]]]]. apply (A2 (c_name c) a b); auto; [apply in_map; auto|symmetry; auto|]. exists c, f. auto.
Qed.

(** ** the sequence of attempts *)
Section P.
  Variable fails : list event -> string -> string -> bool.
  Notation safeProcess := (safeProcess fails).
  Notation runInput := (runInput fails).
  Notation runDefaults := (runDefaults fails).
  Notation runPasses := (runPasses fails).
  Notation att := (cmd * string * bool)%type.
  Definition acmd (a : att) : cmd := fst (fst a).
  Definition aev (a : att) : event := (c_name (fst (fst a)), snd (fst a)).
  Definition attempt (st : pstate) (a : att) : pstate :=
    safeProcess (acmd a) (snd (fst a))
      (if snd a then {| encountered := encountered st; errors := errors st ++ [EmptyParams (c_name (acmd a))]; trace := trace st |} else st).
  Definition inAtt (t : table) (lv : levels) (p : nat) (e : event) : list att :=
    match lookup (fst e) t with
    | Some c => if at_level lv p (c_name c) then [(c, (snd e ++ " ")%string, trim_empty (snd e) && c_emptyParamError c)] else []
    | None => []
    end.
  Definition defAtt (lv : levels) (p : nat) (input : list event) (c : cmd) : list att :=
    if at_level lv p (c_name c) && c_hasDefault c && negb (existsb (issues (c_name c)) input) then [(c, ""%string, false)] else [].
  Definition passAtt t lv input p := flat_map (inAtt t lv p) input ++ flat_map (defAtt lv p input) t.

  Lemma runInput_fold t lv p input : forall st, runInput t lv p input st = fold_left attempt (flat_map (inAtt t lv p) input) st.
  Proof.
    induction input as [|[n params] input IH]; intros st; cbn; auto. unfold inAtt at 1. cbn. destruct (lookup n t) as [c|]; auto.
    destruct (at_level lv p (c_name c)); auto. cbn [app fold_left]. rewrite IH. reflexivity.
  Qed.
  Lemma enc_attempt st a m : encountered (attempt st a) m = (if ieqb m (c_name (acmd a)) then 1 else 0) + encountered st m.
  Proof.
    unfold attempt, Commands_Model.safeProcess, acmd. destruct (snd a); cbn.
    - destruct (existsb _ _); [|destruct (_ && _)]; cbn; unfold count_up; destruct (ieqb m _); reflexivity.
    - destruct (existsb _ _); [|destruct (_ && _)]; cbn; unfold count_up; destruct (ieqb m _); reflexivity.
  Qed.
  Definition cnt (m : string) (l : list att) : nat := List.length (filter (fun a => ieqb m (c_name (acmd a))) l).
  Lemma enc_fold l : forall st m, encountered (fold_left attempt l st) m = encountered st m + cnt m l.
  Proof.
    induction l as [|a l IH]; intros st m; cbn [fold_left]; [unfold cnt; cbn; lia|]. rewrite IH, enc_attempt. unfold cnt. cbn.
    destruct (ieqb m (c_name (acmd a))); cbn; lia.
  Qed.
  Lemma cnt_zero m l : cnt m l = 0 <-> forall a, In a l -> ~ ieq m (c_name (acmd a)).
  Proof using. clear fails.
    unfold cnt. induction l as [|a l IH]; cbn; [split; auto; intros _ x []|]. destruct (ieqb_spec m (c_name (acmd a))) as [E|E]; cbn.
    - split; [discriminate|]. intros H. exfalso. apply (H a); auto.
    - rewrite IH. split; intros H x; [intros [<-|Hx]; auto|intros; apply H; auto].
  Qed.
  Lemma cnt_app m l l' : cnt m (l ++ l') = cnt m l + cnt m l'.
  Proof using. clear fails. unfold cnt. rewrite filter_app, app_length. reflexivity. Qed.
  Lemma existsb_issues n input : existsb (issues n) input = true <-> Issued n input.
  Proof using. clear fails.
    unfold Issued. rewrite existsb_exists. unfold issues. split; intros [e [H1 H2]]; exists e; split; auto; destruct (ieqb_spec n (fst e)); auto; discriminate.
  Qed.

  Lemma in_inAtt t lv p e a : In a (inAtt t lv p e) <-> exists c, lookup (fst e) t = Some c /\ lv (c_name c) = Some p /\
     a = (c, (snd e ++ " ")%string, trim_empty (snd e) && c_emptyParamError c).
  Proof using. clear fails.
    unfold inAtt, at_level. destruct (lookup (fst e) t) as [c|]; [|split; [intros []|intros [c [X _]]; discriminate]].
    destruct (lv (c_name c)) as [l|] eqn:E; [destruct (Nat.eqb_spec l p) as [->|N]|]; cbn; split.
    - intros [<-|[]]. exists c. auto.
    - intros [c' [X1 [X2 X3]]]. inversion X1; subst. auto.
    - tauto.
    - intros [c' [X1 [X2 X3]]]. inversion X1; subst. congruence.
    - tauto.
    - intros [c' [X1 [X2 X3]]]. inversion X1; subst. congruence.
  Qed.
  Lemma in_defAtt lv p input c a : In a (defAtt lv p input c) <-> lv (c_name c) = Some p /\ c_hasDefault c = true /\ ~ Issued (c_name c) input /\ a = (c, ""%string, false).
  Proof using. clear fails.
    unfold defAtt, at_level. rewrite <- existsb_issues. destruct (lv (c_name c)) as [l|]; [destruct (Nat.eqb_spec l p) as [->|N]|]; cbn.
    - destruct (c_hasDefault c); cbn; [|split; [tauto|intros [_ [X _]]; discriminate]]. destruct (existsb _ input); cbn.
      + split; [tauto|]. intros [_ [_ [X _]]]. exfalso. apply X; reflexivity.
      + split; [intros [<-|[]]; repeat split; auto|intros [_ [_ [_ ->]]]; auto].
    - split; [tauto|]. intros [X _]. inversion X. congruence.
    - split; [tauto|]. intros [X _]. discriminate.
  Qed.

  Lemma runDefaults_fold lv p input : forall todo st, UniqueNames todo ->
    (forall c, In c todo -> lv (c_name c) = Some p -> (encountered st (c_name c) = 0 <-> ~ Issued (c_name c) input)) ->
    runDefaults lv p todo st = fold_left attempt (flat_map (defAtt lv p input) todo) st.
  Proof.
    induction todo as [|c todo IH]; intros st U H; auto. cbn [Commands_Model.runDefaults flat_map].
    assert (Ut : UniqueNames todo) by (unfold UniqueNames in *; cbn in U; inversion U; auto).
    rewrite fold_left_app. unfold defAtt at 2. destruct (at_level lv p (c_name c)) eqn:A; cbn [andb].
    - assert (El : lv (c_name c) = Some p).
      { unfold at_level in A. destruct (lv (c_name c)) as [l|]; [|discriminate]. apply Nat.eqb_eq in A. congruence. }
      destruct (c_hasDefault c); cbn [andb].
      + assert (Eb : (encountered st (c_name c) =? 0) = negb (existsb (issues (c_name c)) input)).
        { specialize (H c (or_introl eq_refl) El). rewrite <- existsb_issues in H. destruct (existsb (issues (c_name c)) input); cbn.
          - apply Nat.eqb_neq. intros X. apply H in X. congruence.
          - apply Nat.eqb_eq. apply H. discriminate. }
        rewrite Eb. destruct (existsb (issues (c_name c)) input); cbn [negb fold_left].
        * apply IH; auto. intros d Hd. apply H. cbn; auto.
        * rewrite <- IH; auto. intros d Hd Ed. rewrite enc_attempt. destruct (ieqb_spec (c_name d) (c_name (acmd (c, ""%string, false)))) as [E|E].
          -- exfalso. cbn in E. unfold UniqueNames in U. cbn in U. inversion U; subst. apply H2. unfold ieq in E. rewrite <- E.
             apply (in_map (fun c => lower (c_name c))). exact Hd.
          -- cbn. apply H; cbn; auto.
      + cbn. apply IH; auto. intros d Hd. apply H. cbn; auto.
    - cbn. apply IH; auto. intros d Hd. apply H. cbn; auto.
  Qed.

  Lemma passAtt_level t lv input p a : In a (passAtt t lv input p) -> lv (c_name (acmd a)) = Some p.
  Proof using. clear fails.
    unfold passAtt. rewrite in_app_iff, !in_flat_map. intros [[e [He Ha]]|[c [Hc Ha]]].
    - apply in_inAtt in Ha. destruct Ha as [c [_ [X ->]]]. exact X.
    - apply in_defAtt in Ha. destruct Ha as [X [_ [_ ->]]]. exact X.
  Qed.
  Lemma runPasses_fold t lv input : UniqueNames t -> proper lv -> forall n p st,
    (forall c l, In c t -> lv (c_name c) = Some l -> p <= l -> encountered st (c_name c) = 0) ->
    runPasses t lv p n input st = fold_left attempt (flat_map (passAtt t lv input) (seq p n)) st.
  Proof.
    intros U Pr. induction n as [|n IH]; intros p st H; auto. cbn [Commands_Model.runPasses seq flat_map]. rewrite fold_left_app.
    assert (E : runDefaults lv p t (runInput t lv p input st) = fold_left attempt (passAtt t lv input p) st).
    { rewrite runInput_fold, (runDefaults_fold lv p input); auto.
      - unfold passAtt. rewrite fold_left_app. reflexivity.
      - intros c Hc El. rewrite enc_fold, (H c p Hc El) by lia. cbn. rewrite cnt_zero. split.
        + intros X [e [He Ee]]. assert (L : lookup (fst e) t = Some c) by (apply lookup_in; auto; symmetry; exact Ee).
          apply (X (c, (snd e ++ " ")%string, trim_empty (snd e) && c_emptyParamError c)); [|reflexivity].
          apply in_flat_map. exists e. split; auto. apply in_inAtt. exists c. auto.
        + intros X a Ha Ea. apply in_flat_map in Ha. destruct Ha as [e [He Ha]]. apply in_inAtt in Ha. destruct Ha as [c' [L [_ ->]]].
          apply X. exists e. split; auto. apply lookup_some in L. destruct L as [_ L]. cbn in Ea. unfold ieq in *. congruence. }
    rewrite E. apply IH. intros c l Hc El Hl. rewrite enc_fold, (H c l Hc El) by lia. cbn. apply cnt_zero.
    intros a Ha Ea. apply passAtt_level in Ha. rewrite <- (Pr _ _ Ea) in Ha. rewrite El in Ha. inversion Ha. lia.
  Qed.

  (** ** success *)
  Definition okAt (l1 : list att) (a : att) : Prop :=
    snd a = false /\
    (forall r, In r (c_requires (acmd a)) -> exists b, In b (l1 ++ [a]) /\ ieq r (c_name (acmd b))) /\
    (c_allowMultiple (acmd a) = true \/ forall b, In b l1 -> ~ ieq (c_name (acmd a)) (c_name (acmd b))) /\
    (forall f b, In f (c_forbids (acmd a)) -> In b (l1 ++ [a]) -> ~ ieq f (c_name (acmd b))) /\
    fails (map aev l1) (fst (aev a)) (snd (aev a)) = false.
  Definition st0 : pstate := {| encountered := fun _ => 0; errors := []; trace := [] |}.

  Lemma errors_attempt st a : exists e, errors (attempt st a) = errors st ++ e.
  Proof.
    unfold attempt, Commands_Model.safeProcess. destruct (snd a); cbn.
    - destruct (existsb _ _); [|destruct (_ && _)]; cbn; [| |destruct (fails _ _ _)]; rewrite <- ?app_assoc; eauto.
    - destruct (existsb _ _); [|destruct (_ && _)]; cbn; [| |destruct (fails _ _ _)]; rewrite <- ?app_assoc; eauto.
  Qed.
  Lemma errors_fold l : forall st, exists e, errors (fold_left attempt l st) = errors st ++ e.
  Proof.
    induction l as [|a l IH]; intros st; cbn; [exists []; rewrite app_nil_r; auto|]. destruct (IH (attempt st a)) as [e E].
    destruct (errors_attempt st a) as [e' E']. exists (e' ++ e). rewrite E, E', app_assoc. reflexivity.
  Qed.
  Lemma attempt_ok l1 a : trace (fold_left attempt l1 st0) = map aev l1 -> errors (fold_left attempt l1 st0) = [] ->
    (errors (attempt (fold_left attempt l1 st0) a) = [] <-> okAt l1 a) /\
    (okAt l1 a -> trace (attempt (fold_left attempt l1 st0) a) = map aev (l1 ++ [a])).
  Proof.
    intros T E. set (st := fold_left attempt l1 st0) in *.
    assert (Enc : forall m, encountered st m = cnt m l1) by (intros m; unfold st; rewrite enc_fold; reflexivity).
    assert (Enc1 : forall m, count_up (encountered st) (c_name (acmd a)) m = cnt m (l1 ++ [a])).
    { intros m. unfold count_up. rewrite cnt_app, Enc. assert (X : cnt m [a] = if ieqb m (c_name (acmd a)) then 1 else 0) by (unfold cnt; cbn; destruct (ieqb m _); reflexivity).
      rewrite X. destruct (ieqb m (c_name (acmd a))); lia. }
    clearbody st. unfold attempt, Commands_Model.safeProcess, okAt.
    destruct (snd a).
    { cbn. rewrite E. split; [|intros [X _]; discriminate]. split; [|intros [X _]; discriminate]. intros X. exfalso.
      destruct (existsb _ _); [|destruct (_ && _)]; cbn in X; [| |destruct (fails _ _ _)]; discriminate. }
    cbn [encountered errors trace]. rewrite E, T.
    destruct (existsb (fun r => count_up (encountered st) (c_name (acmd a)) r =? 0) (c_requires (acmd a))) eqn:Ex.
    { cbn. apply existsb_exists in Ex. destruct Ex as [r [R1 R2]]. apply Nat.eqb_eq in R2. rewrite Enc1, cnt_zero in R2.
      split; [split; [discriminate|]|]; intros [_ [X _]]; destruct (X r R1) as [b [B1 B2]]; exfalso; eapply R2; eauto. }
    assert (Hreq : forall r, In r (c_requires (acmd a)) -> exists b, In b (l1 ++ [a]) /\ ieq r (c_name (acmd b))).
    { intros r Hr. destruct (existsb (fun b => ieqb r (c_name (acmd b))) (l1 ++ [a])) eqn:Y.
      - apply existsb_exists in Y. destruct Y as [b [B1 B2]]. exists b. split; auto. destruct (ieqb_spec r (c_name (acmd b))); auto; discriminate.
      - exfalso. assert (F : existsb (fun r => count_up (encountered st) (c_name (acmd a)) r =? 0) (c_requires (acmd a)) = true); [|congruence].
        apply existsb_exists. exists r. split; auto. apply Nat.eqb_eq. rewrite Enc1. apply cnt_zero. intros b Hb Eb.
        assert (G : existsb (fun b => ieqb r (c_name (acmd b))) (l1 ++ [a]) = true); [|congruence].
        apply existsb_exists. exists b. split; auto. destruct (ieqb_spec r (c_name (acmd b))); auto. }
    clear Ex. rewrite Enc1, cnt_app. assert (C1 : cnt (c_name (acmd a)) [a] = 1) by (unfold cnt; cbn; rewrite ieqb_refl; reflexivity). rewrite C1.
    destruct (negb (c_allowMultiple (acmd a)) && (1 <? cnt (c_name (acmd a)) l1 + 1)) eqn:Am.
    { cbn. apply andb_prop in Am. destruct Am as [M1 M2]. apply negb_true_iff in M1. apply Nat.ltb_lt in M2.
      assert (Nz : ~ (forall b, In b l1 -> ~ ieq (c_name (acmd a)) (c_name (acmd b)))) by (intros X; apply cnt_zero in X; lia).
      split; [split; [discriminate|]|]; intros [_ [_ [[X|X] _]]]; try congruence; contradiction. }
    assert (Hm : c_allowMultiple (acmd a) = true \/ (forall b, In b l1 -> ~ ieq (c_name (acmd a)) (c_name (acmd b)))).
    { destruct (c_allowMultiple (acmd a)); auto. right. cbn [negb andb] in Am. apply Nat.ltb_ge in Am. apply cnt_zero. lia. }
    clear Am. cbn [trace errors].
    assert (Hf : filter (fun f => negb (count_up (encountered st) (c_name (acmd a)) f =? 0)) (c_forbids (acmd a)) = [] <->
      (forall f b, In f (c_forbids (acmd a)) -> In b (l1 ++ [a]) -> ~ ieq f (c_name (acmd b)))).
    { split.
      - intros X f b Hfb Hb Eb. assert (In f (filter (fun f => negb (count_up (encountered st) (c_name (acmd a)) f =? 0)) (c_forbids (acmd a)))).
        { apply filter_In. split; auto. apply negb_true_iff, Nat.eqb_neq. rewrite Enc1. intros Z. rewrite cnt_zero in Z. eapply Z; eauto. }
        rewrite X in H. destruct H.
      - intros X. destruct (filter _ _) as [|f l] eqn:F; auto. exfalso. assert (Hin : In f (f :: l)) by (cbn; auto). rewrite <- F in Hin.
        apply filter_In in Hin. destruct Hin as [H1 H2]. apply negb_true_iff, Nat.eqb_neq in H2. rewrite Enc1 in H2. apply H2. apply cnt_zero.
        intros b Hb. apply X; auto. }
    split; [|intros _; rewrite map_app; reflexivity].
    change (snd (aev a)) with (snd (fst a)). change (fst (aev a)) with (c_name (acmd a)).
    destruct (fails (map aev l1) (c_name (acmd a)) (snd (fst a))) eqn:Fa.
    - split; [intros X; apply app_eq_nil in X; destruct X; discriminate|]. intros [_ [_ [_ [_ X]]]]. congruence.
    - rewrite <- Hf. cbn [app]. split.
      + intros X. split; auto. split; auto. split; auto. split; auto. destruct (filter _ (c_forbids (acmd a))); [auto|discriminate].
      + intros [_ [_ [_ [X _]]]]. rewrite X. reflexivity.
  Qed.
  Lemma fold_ok l : (errors (fold_left attempt l st0) = [] <-> forall l1 a l2, l = l1 ++ a :: l2 -> okAt l1 a) /\
    (errors (fold_left attempt l st0) = [] -> trace (fold_left attempt l st0) = map aev l).
  Proof.
    induction l as [|a l [IH1 IH2]] using rev_ind.
    - cbn. split; [|auto]. split; auto. intros _ l1 a l2 X. destruct l1; discriminate.
    - rewrite fold_left_app. cbn [fold_left]. destruct (errors_attempt (fold_left attempt l st0) a) as [e Ee].
      split; [split|].
      + intros X. rewrite Ee in X. apply app_eq_nil in X. destruct X as [X1 X2]. subst e. rewrite X1 in Ee. cbn in Ee.
        pose proof (attempt_ok l a (IH2 X1) X1) as [A _]. intros l1 b l2 El. destruct l2 as [|c l2] using rev_ind.
        * apply app_inj_tail in El. destruct El as [<- <-]. apply A. exact Ee.
        * clear IHl2. rewrite app_comm_cons, app_assoc in El. apply app_inj_tail in El. destruct El as [El _]. apply (proj1 IH1 X1 l1 b l2 El).
      + intros X. assert (X1 : errors (fold_left attempt l st0) = []).
        { apply IH1. intros l1 b l2 El. apply (X l1 b (l2 ++ [a])). rewrite El, <- app_assoc. reflexivity. }
        apply (attempt_ok l a (IH2 X1) X1). apply (X l a []). reflexivity.
      + intros X. rewrite Ee in X. apply app_eq_nil in X. destruct X as [X1 X2]. subst e. rewrite X1 in Ee. cbn in Ee.
        pose proof (attempt_ok l a (IH2 X1) X1) as [A B]. apply B. apply A. exact Ee.
  Qed.

  (** ** the schedule *)
  Definition schedule t lv n input := flat_map (passAtt t lv input) (seq 0 (S n)).
  Lemma schedule_in t lv n input : LevelsOk t lv n -> (forall a, In a (schedule t lv n input) -> In (acmd a) t /\ Active t input (acmd a)) /\
    (forall c, Active t input c -> exists a, In a (schedule t lv n input) /\ acmd a = c).
  Proof using. clear fails.
    intros [U Pr Tot _]. unfold schedule. split.
    - intros a Ha. apply in_flat_map in Ha. destruct Ha as [p [_ Ha]]. unfold passAtt in Ha. rewrite in_app_iff, !in_flat_map in Ha.
      destruct Ha as [[e [He Ha]]|[c [Hc Ha]]].
      + apply in_inAtt in Ha. destruct Ha as [c [L [_ ->]]]. apply lookup_some in L. destruct L as [L1 L2]. cbn. split; auto. split; auto. left.
        exists e. split; auto. symmetry. exact L2.
      + apply in_defAtt in Ha. destruct Ha as [_ [D [_ ->]]]. cbn. split; auto. split; auto.
    - intros c [Hc [HI|HD]].
      + destruct HI as [e [He Ee]]. destruct (Tot c Hc) as [l [El Hl]]. exists (c, (snd e ++ " ")%string, trim_empty (snd e) && c_emptyParamError c).
        split; [|reflexivity]. apply in_flat_map. exists l. split; [apply in_seq; lia|]. unfold passAtt. apply in_or_app. left. apply in_flat_map.
        exists e. split; auto. apply in_inAtt. exists c. split; auto. apply lookup_in; auto. symmetry. exact Ee.
      + destruct (Tot c Hc) as [l [El Hl]]. destruct (existsb (issues (c_name c)) input) eqn:I.
        * apply existsb_issues in I. destruct I as [e [He Ee]]. exists (c, (snd e ++ " ")%string, trim_empty (snd e) && c_emptyParamError c).
          split; [|reflexivity]. apply in_flat_map. exists l. split; [apply in_seq; lia|]. unfold passAtt. apply in_or_app. left. apply in_flat_map.
          exists e. split; auto. apply in_inAtt. exists c. split; auto. apply lookup_in; auto. symmetry. exact Ee.
        * exists (c, ""%string, false). split; [|reflexivity]. apply in_flat_map. exists l. split; [apply in_seq; lia|]. unfold passAtt.
          apply in_or_app. right. apply in_flat_map. exists c. split; auto. apply in_defAtt. repeat split; auto. rewrite <- existsb_issues. congruence.
  Qed.
  Lemma schedule_sorted t lv input : forall n p l1 a l2, flat_map (passAtt t lv input) (seq p n) = l1 ++ a :: l2 ->
    forall b la lb, In b l2 -> lv (c_name (acmd a)) = Some la -> lv (c_name (acmd b)) = Some lb -> la <= lb.
  Proof using. clear fails.
    induction n as [|n IH]; intros p l1 a l2 E b la lb Hb La Lb; cbn in E; [destruct l1; discriminate|].
    assert (Ge : forall x, In x (flat_map (passAtt t lv input) (seq (S p) n)) -> forall l, lv (c_name (acmd x)) = Some l -> p < l).
    { intros x Hx l Ex. apply in_flat_map in Hx. destruct Hx as [q [Hq Hx]]. apply passAtt_level in Hx. apply in_seq in Hq. rewrite Ex in Hx. inversion Hx; lia. }
    apply app_eq_app in E. destruct E as [l [[E1 E2]|[E1 E2]]].
    - destruct l as [|x l].
      + cbn in E2. eapply (IH (S p) [] a l2); eauto.
      + cbn in E2. inversion E2; subst x l2. assert (Ha : In a (passAtt t lv input p)) by (rewrite E1; apply in_or_app; right; cbn; auto).
        apply passAtt_level in Ha. rewrite La in Ha. inversion Ha; subst la. apply in_app_or in Hb. destruct Hb as [Hb|Hb].
        * assert (Hb' : In b (passAtt t lv input p)) by (rewrite E1; apply in_or_app; right; cbn; auto). apply passAtt_level in Hb'. rewrite Lb in Hb'. inversion Hb'. lia.
        * specialize (Ge b Hb lb Lb). lia.
    - eapply IH; eauto.
  Qed.
End P.
