From Coq Require Import List String Bool Arith Relations Lia Permutation.
From Verif Require Import SMap Commands_Model Commands_Spec Commands_Proofs Commands_Proofs2.
Import ListNotations.
Open Scope nat_scope.
Open Scope list_scope.

Lemma filter_all {A} (f : A -> bool) l : (forall x, In x l -> f x = true) -> filter f l = l.
Proof. induction l as [|a l IH]; intros H; cbn; auto. rewrite (H a), IH; cbn; auto. intros; apply H; cbn; auto. Qed.
Lemma filter_nil {A} (f : A -> bool) l : filter f l = [] <-> forall x, In x l -> f x = false.
Proof.
  induction l as [|a l IH]; cbn; [split; auto; intros _ x []|]. destruct (f a) eqn:E.
  - split; [discriminate|]. intros H. rewrite (H a) in E; auto. discriminate.
  - rewrite IH. split; intros H x; [intros [<-|Hx]; auto|auto].
Qed.
Lemma flat_map_single {A B} (f : A -> list B) x l : NoDup l -> In x l -> (forall y, In y l -> y <> x -> f y = []) -> flat_map f l = f x.
Proof.
  induction l as [|a l IH]; intros ND Hx H; [destruct Hx|]. inversion ND; subst. cbn. destruct Hx as [->|Hx].
  - assert (E : flat_map f l = []).
    { assert (G : forall y, In y l -> f y = []) by (intros y Hy; apply H; cbn; auto; intros ->; contradiction).
      clear -G. induction l as [|b l IH]; cbn; auto. rewrite (G b), IH; cbn; auto. intros; apply G; cbn; auto. }
    rewrite E, app_nil_r. reflexivity.
  - rewrite (H a) by (cbn; auto; intros ->; contradiction). cbn. apply IH; auto. intros; apply H; cbn; auto.
Qed.
Lemma filter_flat_map {A B} (f : A -> list B) g l : filter g (flat_map f l) = flat_map (fun x => filter g (f x)) l.
Proof. induction l; cbn; auto. rewrite filter_app, IHl. reflexivity. Qed.
Lemma map_flat_map {A B C} (f : A -> list B) (g : B -> C) l : map g (flat_map f l) = flat_map (fun x => map g (f x)) l.
Proof. induction l; cbn; auto. rewrite map_app, IHl. reflexivity. Qed.
Lemma flat_map_ext' {A B} (f g : A -> list B) l : (forall x, In x l -> f x = g x) -> flat_map f l = flat_map g l.
Proof. induction l as [|a l IH]; intros H; cbn; auto. rewrite (H a), IH; cbn; auto. intros; apply H; cbn; auto. Qed.

Section P.
  Variable fails : list event -> string -> string -> bool.

  Lemma schedule_sorted_by_level t lv n input : map aev (schedule t lv n input) = sorted_by_level t lv n input.
  Proof.
    unfold schedule, sorted_by_level. rewrite map_flat_map. apply flat_map_ext'. intros p _. unfold passAtt. rewrite map_app, !map_flat_map. f_equal.
    - apply flat_map_ext'. intros e _. unfold inAtt, line_of_level, at_level. destruct (lookup (fst e) t) as [c|]; auto.
      destruct (lv (c_name c)) as [l|]; auto. destruct (l =? p); reflexivity.
    - apply flat_map_ext'. intros c _. unfold defAtt, default_of_level, at_level. destruct (lv (c_name c)) as [l|]; auto.
      destruct ((l =? p) && c_hasDefault c && negb (existsb (issues (c_name c)) input)); reflexivity.
  Qed.

  Lemma parse_fold t lv n input : LevelsOk t lv n -> parse fails t lv n input =
    let st := fold_left (attempt fails) (schedule t lv n (filter (known t) input)) st0 in
    (map (fun e => Unknown (fst e)) (filter (fun e => negb (known t e)) input) ++ errors st, trace st).
  Proof.
    intros [U Pr _ _]. unfold parse. rewrite (runPasses_fold fails t lv (filter (known t) input) U Pr); [reflexivity|]. intros; reflexivity.
  Qed.
  Lemma known_spec t e : known t e = true <-> exists c, In c t /\ ieq (fst e) (c_name c).
  Proof.
    unfold known. destruct (lookup (fst e) t) as [c|] eqn:L.
    - apply lookup_some in L. split; auto. intros _. exists c. auto.
    - rewrite lookup_none in L. split; [discriminate|]. intros [c [H1 H2]]. exfalso. eapply L; eauto.
  Qed.
  Lemma parse_ok t lv n input : LevelsOk t lv n ->
    (fst (parse fails t lv n input) = [] <->
      (forall e, In e input -> known t e = true) /\
      (forall l1 a l2, schedule t lv n input = l1 ++ a :: l2 -> okAt fails l1 a)) /\
    (fst (parse fails t lv n input) = [] -> snd (parse fails t lv n input) = sorted_by_level t lv n input).
  Proof.
    intros H. rewrite (parse_fold _ _ _ _ H). cbn [fst snd]. destruct (fold_ok fails (schedule t lv n (filter (known t) input))) as [F1 F2].
    assert (K : map (fun e => Unknown (fst e)) (filter (fun e => negb (known t e)) input) = [] <-> forall e, In e input -> known t e = true).
    { split.
      - intros X e He. destruct (filter (fun e => negb (known t e)) input) eqn:E; [|discriminate]. rewrite filter_nil in E. specialize (E e He).
        apply negb_false_iff in E. exact E.
      - intros X. assert (E : filter (fun e => negb (known t e)) input = []) by (apply filter_nil; intros e He; rewrite X; auto). rewrite E. reflexivity. }
    split; [split|].
    - intros X. apply app_eq_nil in X. destruct X as [X1 X2]. pose proof (proj1 K X1) as X1'. split; auto. rewrite (filter_all (known t) input) in F1, X2 by auto. apply F1. exact X2.
    - intros [X1 X2]. rewrite (filter_all (known t) input) in F1 by auto. rewrite (filter_all (known t) input) by auto. pose proof (proj2 K X1) as X1'. rewrite X1'. cbn. apply F1. exact X2.
    - intros X. apply app_eq_nil in X. destruct X as [X1 X2]. rewrite (F2 X2). pose proof (proj1 K X1) as X1'. rewrite (filter_all (known t) input) by auto. apply schedule_sorted_by_level.
  Qed.

  Lemma before t lv n input l1 a l2 b la lb : schedule t lv n input = l1 ++ a :: l2 -> In b (schedule t lv n input) ->
    lv (c_name (acmd a)) = Some la -> lv (c_name (acmd b)) = Some lb -> lb < la -> In b l1.
  Proof.
    intros E Hb La Lb Lt. rewrite E in Hb. apply in_app_or in Hb. destruct Hb as [Hb|[<-|Hb]]; auto.
    - rewrite La in Lb. inversion Lb. lia.
    - exfalso. pose proof (schedule_sorted t lv input (S n) 0 l1 a l2 E b la lb Hb La Lb). lia.
  Qed.

  Lemma parse_conflict t lv n input c d : LevelsOk t lv n -> Active t input c -> Active t input d -> Forb t (c_name c) (c_name d) ->
    (Forb t (c_name d) (c_name c) \/ (exists lc ld, lv (c_name c) = Some lc /\ lv (c_name d) = Some ld /\ ld < lc)) ->
    fst (parse fails t lv n input) <> [].
  Proof.
    intros LO Hc Hd F S E0. pose proof LO as [U Pr Tot Rq]. pose proof (proj1 (proj1 (parse_ok t lv n input LO)) E0) as [_ E].
    destruct (schedule_in t lv n input LO) as [I1 I2]. destruct (I2 c Hc) as [a [Ha Ea]]. destruct (I2 d Hd) as [b [Hb Eb]].
    assert (Sees : forall x y l1 l2, schedule t lv n input = l1 ++ x :: l2 -> In y (l1 ++ [x]) -> Forb t (c_name (acmd x)) (c_name (acmd y)) -> False).
    { intros x y l1 l2 Ex Hy [z [f [Z1 [Z2 [Z3 Z4]]]]]. destruct (E _ _ _ Ex) as [_ [_ [_ [O _]]]].
      assert (Hx : In (acmd x) t) by (apply I1; rewrite Ex; apply in_or_app; right; cbn; auto).
      assert (z = acmd x) by (apply (unique_in t); auto). subst z. apply (O f y); auto. }
    apply in_split in Ha. destruct Ha as [l1 [l2 El]]. rewrite El in Hb. apply in_app_or in Hb. subst c d. destruct Hb as [Hb|[<-|Hb]].
    - apply (Sees a b l1 l2); auto. apply in_or_app; auto.
    - apply (Sees a a l1 l2); auto. apply in_or_app; cbn; auto.
    - destruct S as [S|[lc [ld [Lc [Ld Lt]]]]].
      + apply in_split in Hb. destruct Hb as [m1 [m2 Em]]. subst l2. apply (Sees b a (l1 ++ a :: m1) m2); auto.
        * rewrite El, <- app_assoc. reflexivity.
        * rewrite <- app_assoc. apply in_or_app. right. cbn. auto.
      + assert (Hin : In b (schedule t lv n input)) by (rewrite El; apply in_or_app; cbn; auto).
        apply (Sees a b l1 l2); auto. apply in_or_app. left. eapply before; eauto.
  Qed.

  (** the lines of one command *)
  Lemma lines_of t lv n input c : LevelsOk t lv n -> In c t ->
    filter (issues (c_name c)) (sorted_by_level t lv n input) =
      map (fun e => (c_name c, (snd e ++ " ")%string)) (filter (issues (c_name c)) input) ++
      (if c_hasDefault c && negb (existsb (issues (c_name c)) input) then [(c_name c, ""%string)] else []).
  Proof.
    intros [U Pr Tot _] Hc. destruct (Tot c Hc) as [l [El Hl]]. unfold sorted_by_level. rewrite filter_flat_map.
    assert (Only : forall p, filter (issues (c_name c)) (flat_map (line_of_level t lv p) input ++ flat_map (default_of_level lv p input) t) =
      if l =? p then map (fun e => (c_name c, (snd e ++ " ")%string)) (filter (issues (c_name c)) input) ++
        (if c_hasDefault c && negb (existsb (issues (c_name c)) input) then [(c_name c, ""%string)] else []) else []).
    { intros p. rewrite filter_app.
      assert (A : filter (issues (c_name c)) (flat_map (line_of_level t lv p) input) = if l =? p then map (fun e => (c_name c, (snd e ++ " ")%string)) (filter (issues (c_name c)) input) else []).
      { induction input as [|e input IH]; cbn; [destruct (l =? p); auto|]. rewrite filter_app, IH. clear IH. unfold line_of_level.
        destruct (lookup (fst e) t) as [d|] eqn:L.
        - destruct (ieqb_spec (c_name c) (fst e)) as [Ec|Ec].
          + assert (d = c) by (rewrite (lookup_in t (fst e) c U Hc) in L by (symmetry; exact Ec); congruence). subst d. rewrite El.
            assert (Is : issues (c_name c) e = true) by (unfold issues; destruct (ieqb_spec (c_name c) (fst e)); auto; contradiction). rewrite Is.
            destruct (l =? p); [|reflexivity]. cbn [filter map]. assert (Is' : issues (c_name c) (c_name c, (snd e ++ " ")%string) = true) by apply ieqb_refl.
            rewrite Is'. reflexivity.
          + assert (Is : issues (c_name c) e = false) by (unfold issues; destruct (ieqb_spec (c_name c) (fst e)); auto; contradiction). rewrite Is.
            assert (N : forall x, filter (issues (c_name c)) [(c_name d, x)] = []).
            { intros x. cbn. unfold issues. cbn. destruct (ieqb_spec (c_name c) (c_name d)) as [Ed|]; auto. exfalso. apply Ec. apply lookup_some in L. destruct L as [_ L].
              unfold ieq in *. congruence. }
            destruct (lv (c_name d)) as [l'|]; [|reflexivity]. destruct (l' =? p); [rewrite N|]; reflexivity.
        - destruct (ieqb_spec (c_name c) (fst e)) as [Ec|Ec].
          + rewrite lookup_none in L. exfalso. apply (L c Hc). symmetry. exact Ec.
          + assert (Is : issues (c_name c) e = false) by (unfold issues; destruct (ieqb_spec (c_name c) (fst e)); auto; contradiction). rewrite Is. reflexivity. }
      assert (B : filter (issues (c_name c)) (flat_map (default_of_level lv p input) t) = if l =? p then (if c_hasDefault c && negb (existsb (issues (c_name c)) input) then [(c_name c, ""%string)] else []) else []).
      { rewrite filter_flat_map. assert (ND : NoDup t) by (unfold UniqueNames in U; apply NoDup_map_inv in U; exact U).
        rewrite (flat_map_single _ c t ND Hc).
        - unfold default_of_level. rewrite El. destruct (l =? p); cbn [andb]; [|reflexivity].
          destruct (c_hasDefault c && negb (existsb (issues (c_name c)) input)); [|reflexivity]. cbn. unfold issues. cbn. rewrite ieqb_refl. reflexivity.
        - intros d Hd Nd. unfold default_of_level. destruct (lv (c_name d)) as [l'|]; [|reflexivity].
          destruct ((l' =? p) && c_hasDefault d && negb (existsb (issues (c_name d)) input)); [|reflexivity].
          cbn. unfold issues. cbn. destruct (ieqb_spec (c_name c) (c_name d)) as [Ed|]; auto. exfalso. apply Nd. symmetry. apply (unique_in t); auto. }
      rewrite A, B. destruct (l =? p); reflexivity. }
    rewrite (flat_map_single _ l).
    - rewrite Only, Nat.eqb_refl. reflexivity.
    - apply seq_NoDup.
    - apply in_seq. lia.
    - intros p _ Np. rewrite Only. destruct (Nat.eqb_spec l p); [congruence|reflexivity].
  Qed.

  Lemma sched_at t lv n input a : LevelsOk t lv n -> In a (schedule t lv n input) -> In (acmd a) t.
  Proof. intros L H. apply (schedule_in t lv n input L). exact H. Qed.

  (** requirements come first *)
  Lemma requires_before t lv n input : LevelsOk t lv n -> fst (parse fails t lv n input) = [] ->
    forall l1 a l2, schedule t lv n input = l1 ++ a :: l2 -> forall d, ReqStar t (acmd a) d -> exists b, In b l1 /\ acmd b = d.
  Proof.
    intros LO E0. pose proof (proj1 (proj1 (parse_ok t lv n input LO)) E0) as [_ E]. pose proof LO as [U Pr Tot Rq].
    assert (Step : forall l1 a l2, schedule t lv n input = l1 ++ a :: l2 -> forall d, Req t (acmd a) d -> exists b, In b l1 /\ acmd b = d).
    { intros l1 a l2 El d [H1 [H2 [r [H3 H4]]]]. destruct (E _ _ _ El) as [_ [O _]]. destruct (O r H3) as [b [B1 B2]].
      assert (Hb : In b (schedule t lv n input)).
      { rewrite El. apply in_app_or in B1. apply in_or_app. destruct B1 as [B1|[<-|[]]]; cbn; auto. }
      assert (acmd b = d) by (apply (unique_in t); auto; [eapply sched_at; eauto|unfold ieq in *; congruence]).
      exists b. split; auto. destruct (Rq (acmd a) r H1 H3) as [d' [lc [ld [D1 [D2 [D3 [D4 D5]]]]]]].
      assert (d' = d) by (apply (unique_in t); auto; unfold ieq in *; congruence). subst d'. eapply before; eauto. rewrite H. exact D4. }
    intros l1 a l2 El d R. remember (acmd a) as c eqn:Ec. revert l1 a l2 El Ec. apply clos_trans_t1n in R. induction R as [x y Hxy|x y z Hxy R IH].
    - intros l1 a l2 El ->. eapply Step; eauto.
    - intros l1 a l2 El ->. destruct (Step l1 a l2 El y Hxy) as [b [B1 B2]]. apply in_split in B1. destruct B1 as [m1 [m2 Em]]. subst l1.
      destruct (IH m1 b (m2 ++ a :: l2)) as [b' [B3 B4]]; [rewrite El, <- app_assoc; reflexivity|auto|].
      exists b'. split; auto. apply in_or_app. auto.
  Qed.

  (** acceptance of the content *)
  Lemma in_sorted t lv n input a : In a (schedule t lv n input) -> In (aev a) (sorted_by_level t lv n input).
  Proof. intros H. rewrite <- schedule_sorted_by_level. apply in_map. exact H. Qed.
  Lemma cnt_lines t lv n input c : LevelsOk t lv n -> In c t ->
    cnt (c_name c) (schedule t lv n input) = List.length (filter (issues (c_name c)) input) + (if c_hasDefault c && negb (existsb (issues (c_name c)) input) then 1 else 0).
  Proof.
    intros LO Hc. pose proof (lines_of t lv n input c LO Hc) as L. apply (f_equal (@List.length event)) in L. rewrite app_length, map_length in L.
    rewrite <- schedule_sorted_by_level in L. assert (Q : forall l, List.length (filter (issues (c_name c)) (map aev l)) = cnt (c_name c) l).
    { clear. unfold cnt. induction l as [|a l IH]; cbn; auto. unfold issues at 1. cbn. unfold acmd at 1. destruct (ieqb _ _); cbn; rewrite IH; reflexivity. }
    rewrite Q in L. rewrite L. f_equal. destruct (_ && _); reflexivity.
  Qed.
  Lemma cnt_once l : (forall l1 a l2, l = l1 ++ a :: l2 -> c_allowMultiple (acmd a) = true \/ forall b, In b l1 -> ~ ieq (c_name (acmd a)) (c_name (acmd b))) ->
    forall m, (forall a, In a l -> ieq m (c_name (acmd a)) -> c_allowMultiple (acmd a) = false) -> cnt m l <= 1.
  Proof.
    induction l as [|a l IH] using rev_ind; intros H m Hm; [unfold cnt; cbn; lia|].
    rewrite cnt_app. assert (X : cnt m [a] = if ieqb m (c_name (acmd a)) then 1 else 0) by (unfold cnt; cbn; destruct (ieqb m _); reflexivity).
    rewrite X. assert (L : cnt m l <= 1).
    { apply IH. - intros l1 b l2 E. apply (H l1 b (l2 ++ [a])). rewrite E, <- app_assoc. reflexivity. - intros b Hb. apply Hm. apply in_or_app; auto. }
    destruct (ieqb_spec m (c_name (acmd a))) as [E|E]; [|lia].
    assert (Z : cnt m l = 0); [|lia]. apply cnt_zero. intros b Hb Eb. destruct (H l a [] eq_refl) as [Y|Y].
    - rewrite Hm in Y; [discriminate| |exact E]. apply in_or_app; cbn; auto.
    - apply (Y b Hb). unfold ieq in *. congruence.
  Qed.
  Lemma accepts_valid t lv n input : LevelsOk t lv n -> (forall a b, Forb t a b -> Forb t b a) -> fst (parse fails t lv n input) = [] -> Valid t input.
  Proof.
    intros LO Sym E0. pose proof (proj1 (proj1 (parse_ok t lv n input LO)) E0) as [K E]. destruct (schedule_in t lv n input LO) as [I1 I2]. pose proof LO as [U Pr Tot Rq]. split.
    - intros e He. apply known_spec. auto.
    - intros c r Hc Hr. destruct (I2 c Hc) as [a [Ha Ea]]. subst c. apply in_split in Ha. destruct Ha as [l1 [l2 El]].
      destruct (E _ _ _ El) as [_ [O _]]. destruct (O r Hr) as [b [B1 B2]]. exists (acmd b). split; auto. apply I1. rewrite El.
      apply in_app_or in B1. apply in_or_app. destruct B1 as [B1|[<-|[]]]; cbn; auto.
    - intros c Hc Am. pose proof (cnt_lines t lv n input c LO Hc) as C. assert (L : cnt (c_name c) (schedule t lv n input) <= 1); [|lia].
      apply cnt_once.
      + intros l1 a l2 El. destruct (E _ _ _ El) as [_ [_ [O _]]]. exact O.
      + intros a Ha Ea. assert (acmd a = c) by (symmetry; apply (unique_in t); auto; eapply sched_at; eauto). congruence.
    - intros c d Hc Hd F. apply (parse_conflict t lv n input c d LO Hc Hd F); auto.
    - intros e c He Hc Ee Ep. destruct (trim_empty (snd e)) eqn:T; auto. exfalso. destruct (Tot c Hc) as [l [El Hl]].
      assert (Ha : In (c, (snd e ++ " ")%string, trim_empty (snd e) && c_emptyParamError c) (schedule t lv n input)).
      { apply in_flat_map. exists l. split; [apply in_seq; lia|]. unfold passAtt. apply in_or_app. left. apply in_flat_map. exists e. split; auto.
        apply in_inAtt. exists c. split; auto. apply lookup_in; auto. }
      apply in_split in Ha. destruct Ha as [l1 [l2 Ha]]. destruct (E _ _ _ Ha) as [X _]. cbn in X. rewrite T, Ep in X. discriminate.
  Qed.
  Lemma valid_accepts t lv n input : LevelsOk t lv n -> (forall tr a b, fails tr a b = false) -> Valid t input -> fst (parse fails t lv n input) = [].
  Proof.
    intros LO NF [V1 V2 V3 V4 V5]. apply (parse_ok t lv n input LO). destruct (schedule_in t lv n input LO) as [I1 I2]. pose proof LO as [U Pr Tot Rq]. split.
    - intros e He. apply known_spec. auto.
    - intros l1 a l2 El. assert (Ha : In a (schedule t lv n input)) by (rewrite El; apply in_or_app; cbn; auto).
      assert (Sub : forall b, In b (l1 ++ [a]) -> In b (schedule t lv n input)).
      { intros b Hb. rewrite El. apply in_app_or in Hb. apply in_or_app. destruct Hb as [Hb|[<-|[]]]; cbn; auto. }
      split; [|split; [|split; [|split; [|apply NF]]]].
      + pose proof Ha as Ha'. unfold schedule in Ha. apply in_flat_map in Ha. destruct Ha as [p [_ Ha]]. unfold passAtt in Ha. rewrite in_app_iff, !in_flat_map in Ha.
        destruct Ha as [[e [He Ha]]|[c [Hc Ha]]].
        * apply in_inAtt in Ha. destruct Ha as [c [L [_ ->]]]. cbn. apply lookup_some in L. destruct L as [L1 L2]. destruct (c_emptyParamError c) eqn:Ep; [|apply andb_false_r].
          rewrite (V5 e c); auto.
        * apply in_defAtt in Ha. destruct Ha as [_ [_ [_ ->]]]. reflexivity.
      + intros r Hr. destruct (V2 (acmd a) r (proj2 (I1 a Ha)) Hr) as [d [Hd Er]]. destruct (I2 d Hd) as [b [Hb Eb]]. exists b. split; [|congruence].
        apply in_or_app. left. destruct (Rq (acmd a) r (proj1 (I1 a Ha)) Hr) as [d' [lc [ld [D1 [D2 [D3 [D4 D5]]]]]]].
        assert (d' = d) by (apply (unique_in t); auto; [apply Hd|unfold ieq in *; congruence]). subst d'. eapply before; eauto. rewrite Eb. exact D4.
      + destruct (c_allowMultiple (acmd a)) eqn:Am; auto. right. apply cnt_zero.
        pose proof (cnt_lines t lv n input (acmd a) LO (proj1 (I1 a Ha))) as C. specialize (V3 (acmd a) (proj1 (I1 a Ha)) Am).
        rewrite El, cnt_app in C. assert (X : cnt (c_name (acmd a)) (a :: l2) >= 1) by (unfold cnt; cbn; rewrite ieqb_refl; cbn; lia).
        assert (Y : existsb (issues (c_name (acmd a))) input = false -> List.length (filter (issues (c_name (acmd a))) input) = 0).
        { intros Z. destruct (filter (issues (c_name (acmd a))) input) as [|x l] eqn:F; auto. exfalso. assert (In x (x :: l)) by (cbn; auto). rewrite <- F in H.
          apply filter_In in H. assert (existsb (issues (c_name (acmd a))) input = true) by (apply existsb_exists; exists x; auto). congruence. }
        destruct (c_hasDefault (acmd a)), (existsb (issues (c_name (acmd a))) input); cbn [andb negb] in C; try lia; specialize (Y eq_refl); lia.
      + intros f b Hf Hb Ef. apply (V4 (acmd a) (acmd b)); [apply I1; auto|apply I1; auto|]. exists (acmd a), f. repeat split; auto. apply I1; auto.
  Qed.
  Lemma repeat_reported t lv n input c : LevelsOk t lv n -> In c t -> c_allowMultiple c = false -> 2 <= List.length (filter (issues (c_name c)) input) ->
    fst (parse fails t lv n input) <> [].
  Proof.
    intros LO Hc Am L E0. pose proof (proj1 (proj1 (parse_ok t lv n input LO)) E0) as [_ E]. pose proof (cnt_lines t lv n input c LO Hc) as C.
    assert (X : cnt (c_name c) (schedule t lv n input) <= 1); [|lia]. apply cnt_once.
    - intros l1 a l2 El. destruct (E _ _ _ El) as [_ [_ [O _]]]. exact O.
    - intros a Ha Ea. assert (acmd a = c) by (symmetry; apply (unique_in t); auto; [apply (lo_unique _ _ _ LO)|eapply sched_at; eauto]). congruence.
  Qed.
  Lemma valid_perm t input input' : Permutation input input' -> Valid t input -> Valid t input'.
  Proof.
    intros P [V1 V2 V3 V4 V5]. assert (Is : forall n, Issued n input <-> Issued n input').
    { intros n. unfold Issued. split; intros [e [H1 H2]]; exists e; split; auto; [eapply Permutation_in; eauto|apply Permutation_sym in P; eapply Permutation_in; eauto]. }
    assert (Ac : forall c, Active t input c <-> Active t input' c) by (intros c; unfold Active; rewrite Is; tauto).
    assert (In' : forall e, In e input' -> In e input) by (intros e He; apply Permutation_sym in P; eapply Permutation_in; eauto).
    split; auto.
    - intros c r Hc Hr. apply Ac in Hc. destruct (V2 c r Hc Hr) as [d [H1 H2]]. exists d. split; auto. apply Ac; auto.
    - intros c Hc Am. specialize (V3 c Hc Am). assert (Q : List.length (filter (issues (c_name c)) input') = List.length (filter (issues (c_name c)) input)); [|lia].
      clear -P. induction P; cbn; auto; [destruct (issues _ _); cbn; auto|destruct (issues _ _), (issues _ _); cbn; auto|congruence].
    - intros c d Hc Hd. apply V4; apply Ac; auto.
    - intros e c He. apply V5; auto.
  Qed.
End P.

(** ** the static check of requirements against forbids *)
Lemma getDependencies_complete t lv n : LevelsOk t lv n -> forall fuel c l, In c t -> lv (c_name c) = Some l -> l <= fuel ->
  forall d, ReqStar t c d -> In (c_name d) (fst (getDependencies fuel t c)) /\ incl (c_forbids d) (snd (getDependencies fuel t c)).
Proof.
  intros [U Pr Tot Rq]. induction fuel as [|k IH]; intros c l Hc El Hl d R.
  - exfalso. apply clos_trans_t1n in R. assert (exists y, Req t c y) as [y [_ [Hy [r [R1 R2]]]]] by (inversion R; eauto).
    destruct (Rq c r Hc R1) as [d' [lc [ld [D1 [D2 [D3 [D4 D5]]]]]]]. rewrite El in D3. inversion D3; lia.
  - cbn [getDependencies].
    set (F := fun (acc : list string * list string) (r : string) => match lookup r t with
      | None => acc | Some cr => let '(d, f) := getDependencies k t cr in (fst acc ++ c_name cr :: d, snd acc ++ c_forbids cr ++ f) end).
    assert (Grow : forall rs acc, incl (fst acc) (fst (fold_left F rs acc)) /\ incl (snd acc) (snd (fold_left F rs acc))).
    { induction rs as [|r rs IHr]; intros acc; cbn [fold_left]; [split; apply incl_refl|]. destruct (IHr (F acc r)) as [G1 G2].
      assert (G3 : incl (fst acc) (fst (F acc r)) /\ incl (snd acc) (snd (F acc r))).
      { unfold F. destruct (lookup r t) as [cr|]; [|split; apply incl_refl]. destruct (getDependencies k t cr). cbn. split; apply incl_appl, incl_refl. }
      destruct G3. split; eapply incl_tran; eauto. }
    assert (Has : forall rs acc r cr, In r rs -> lookup r t = Some cr ->
      (In (c_name cr) (fst (fold_left F rs acc)) /\ incl (c_forbids cr) (snd (fold_left F rs acc))) /\
      (incl (fst (getDependencies k t cr)) (fst (fold_left F rs acc)) /\ incl (snd (getDependencies k t cr)) (snd (fold_left F rs acc)))).
    { induction rs as [|r0 rs IHr]; intros acc r cr Hr L; [destruct Hr|]. cbn [fold_left]. destruct Hr as [->|Hr]; [|apply (IHr _ r); auto].
      destruct (Grow rs (F acc r)) as [G1 G2]. assert (EF : F acc r = (fst acc ++ c_name cr :: fst (getDependencies k t cr), snd acc ++ c_forbids cr ++ snd (getDependencies k t cr))).
      { unfold F. rewrite L. destruct (getDependencies k t cr). reflexivity. }
      rewrite EF in *. cbn [fst snd] in *. repeat split.
      - apply G1. apply in_or_app. right. cbn. auto.
      - intros x Hx. apply G2. apply in_or_app. right. apply in_or_app. auto.
      - intros x Hx. apply G1. apply in_or_app. right. cbn. auto.
      - intros x Hx. apply G2. apply in_or_app. right. apply in_or_app. auto. }
    apply clos_trans_t1n in R. inversion R as [y Hy|y z Hy Rest]; subst.
    + destruct Hy as [_ [Hd [r [R1 R2]]]]. apply (Has (c_requires c) ([], []) r d R1). apply lookup_in; auto.
    + destruct Hy as [_ [Hd [r [R1 R2]]]]. destruct (Has (c_requires c) ([], []) r y R1) as [_ [B1 B2]]; [apply lookup_in; auto|].
      destruct (Rq c r Hc R1) as [d' [lc [ld [D1 [D2 [D3 [D4 D5]]]]]]]. assert (d' = y) by (apply (unique_in t); auto; unfold ieq in *; congruence). subst d'.
      destruct (IH y ld Hd D4) with (d := d) as [C1 C2]; [rewrite El in D3; inversion D3; lia|apply clos_t1n_trans; exact Rest|].
      split; [apply B1; exact C1|eapply incl_tran; eauto].
Qed.
