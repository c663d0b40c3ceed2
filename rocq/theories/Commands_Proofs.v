From Coq Require Import List String Bool Arith Relations Lia.
From Verif Require Import SMap Commands_Model Commands_Spec.
Import ListNotations.
Open Scope nat_scope.
Open Scope list_scope.

(** ** lookup *)
Lemma lookup_some n t c : lookup n t = Some c -> In c t /\ ieq n (c_name c).
Proof.
  induction t as [|d t IH]; cbn; [discriminate|]. destruct (ieqb_spec n (c_name d)) as [E|E].
  - intros H. inversion H; subst. auto.
  - intros H. destruct (IH H). auto.
Qed.
Lemma lookup_none n t : lookup n t = None <-> forall c, In c t -> ~ ieq n (c_name c).
Proof.
  induction t as [|d t IH]; cbn; [split; auto; intros _ c []|]. destruct (ieqb_spec n (c_name d)) as [E|E].
  - split; [discriminate|]. intros H. exfalso. apply (H d); auto.
  - rewrite IH. split; intros H c; [intros [<-|Hc]; auto|auto].
Qed.
Lemma unique_in t c d : UniqueNames t -> In c t -> In d t -> ieq (c_name c) (c_name d) -> c = d.
Proof.
  unfold UniqueNames. induction t as [|x t IH]; cbn; [tauto|]. intros ND Hc Hd E. inversion ND; subst.
  destruct Hc as [->|Hc], Hd as [->|Hd]; auto.
  - exfalso. apply H1. unfold ieq in E. rewrite E. apply (in_map (fun c => lower (c_name c))). exact Hd.
  - exfalso. apply H1. unfold ieq in E. rewrite <- E. apply (in_map (fun c => lower (c_name c))). exact Hc.
Qed.
Lemma lookup_in t n c : UniqueNames t -> In c t -> ieq n (c_name c) -> lookup n t = Some c.
Proof.
  intros U H E. destruct (lookup n t) as [d|] eqn:L.
  - apply lookup_some in L. destruct L as [L1 L2]. f_equal. apply (unique_in t); auto. unfold ieq in *. congruence.
  - rewrite lookup_none in L. exfalso. eapply L; eauto.
Qed.
Lemma lookup_self t c : UniqueNames t -> In c t -> lookup (c_name c) t = Some c.
Proof. intros U H. apply lookup_in; auto. reflexivity. Qed.
Lemma imem_spec n l : reflect (exists x, In x l /\ ieq n x) (imem n l).
Proof.
  apply iff_reflect. unfold imem. rewrite existsb_exists. split; intros [x [H1 H2]]; exists x; split; auto.
  - destruct (ieqb_spec n x); auto.
  - destruct (ieqb_spec n x); auto; discriminate.
Qed.

(** levels depend on the name up to case only *)
Definition proper (lv : levels) : Prop := forall a b, ieq a b -> lv a = lv b.
Lemma set_level_proper lv n p : proper lv -> proper (set_level lv n p).
Proof. intros H a b E. unfold set_level, ieqb. rewrite E. rewrite (H a b E). reflexivity. Qed.

(** ** one pass *)
Definition below (lv : levels) (p : nat) : Prop := forall m l, lv m = Some l -> l < p.
(** lv' extends lv by some commands of pass p *)
Definition ext (p : nat) (lv lv' : levels) : Prop := forall m, lv' m = lv m \/ (lv m = None /\ lv' m = Some p).
Lemma ready_ext t p lv lv' req : ext p lv lv' -> ready t lv' p req = ready t lv p req.
Proof.
  intros H. induction req as [|r req IH]; cbn; auto. destruct (lookup r t) as [c|]; auto. rewrite IH.
  destruct (H (c_name c)) as [->|[-> ->]]; auto. cbn. rewrite Nat.leb_refl. reflexivity.
Qed.
Lemma ready_true t lv p req : ready t lv p req = Good true <-> 
  forall r, In r req -> exists d l, lookup r t = Some d /\ lv (c_name d) = Some l /\ l < p.
Proof.
  induction req as [|r req IH]; cbn; [split; auto; intros _ r []|].
  destruct (lookup r t) as [d|] eqn:L.
  - destruct (level_atleast (lv (c_name d)) p) eqn:A.
    + split; [discriminate|]. intros H. destruct (H r) as [d' [l [L' [E Lt]]]]; auto.
      rewrite L in L'. inversion L'; subst. rewrite E in A. cbn in A. apply Nat.leb_le in A. lia.
    + rewrite IH. split; intros H.
      * intros r' [<-|Hr]; auto. exists d. destruct (lv (c_name d)) as [l|]; [|discriminate]. exists l. cbn in A. apply Nat.leb_gt in A. auto.
      * intros; apply H; auto.
  - split; [discriminate|]. intros H. destruct (H r) as [d' [l [L' _]]]; auto. congruence.
Qed.
Lemma ready_false t lv p req : ready t lv p req = Good false -> 
  exists r d, In r req /\ lookup r t = Some d /\ level_atleast (lv (c_name d)) p = true.
Proof.
  induction req as [|r req IH]; cbn; [discriminate|]. destruct (lookup r t) as [d|] eqn:L; [|discriminate].
  destruct (level_atleast (lv (c_name d)) p) eqn:A; [intros _; exists r, d; auto|].
  intros H. destruct (IH H) as [r' [d' [H1 H2]]]. exists r', d'. auto.
Qed.

(** what the pass computes *)
Definition assigned (t : table) (lv : levels) (p : nat) (c : cmd) : Prop :=
  lv (c_name c) = None /\ ready t lv p (c_requires c) = Good true.
Lemma onePass_spec t p lv0 : below lv0 p -> proper lv0 -> forall todo lv np nr lv' np' nr',
  incl todo t -> UniqueNames todo -> ext p lv0 lv -> proper lv -> (forall c, In c todo -> lv (c_name c) = lv0 (c_name c)) ->
  onePass t p todo lv np nr = Good (lv', np', nr') ->
  ext p lv lv' /\ proper lv' /\
  (forall m, lv' m = lv m \/ (lv' m = Some p /\ exists c, In c todo /\ ieq m (c_name c) /\ assigned t lv0 p c)) /\
  (forall c, In c todo -> (lv' (c_name c) <> None <-> (lv0 (c_name c) <> None \/ assigned t lv0 p c))) /\
  (forall c, In c todo -> lv0 (c_name c) = None -> ~ assigned t lv0 p c -> ready t lv0 p (c_requires c) = Good false) /\
  (np' = np <-> forall c, In c todo -> ~ assigned t lv0 p c) /\ np <= np' /\
  (nr' = nr <-> forall c, In c todo -> lv' (c_name c) <> None) /\ nr <= nr'.
Proof.
  intros Hb Hp0. induction todo as [|c todo IH]; intros lv np nr lv' np' nr' Hi HU He Hp Hs H; cbn in H.
  - inversion H; subst. split; [intros m; auto|]. split; [auto|]. split; [auto|]. repeat split; auto; try (intros ? []); tauto.
  - assert (Ht : incl todo t) by (intros x Hx; apply Hi; cbn; auto).
    assert (HU' : UniqueNames todo) by (unfold UniqueNames in *; cbn in HU; inversion HU; auto).
    assert (Hc : In c t) by (apply Hi; cbn; auto).
    assert (Hdiff : forall d, In d todo -> ~ ieq (c_name d) (c_name c)).
    { intros d Hd E. unfold UniqueNames in HU. cbn in HU. inversion HU; subst. apply H2. unfold ieq in E. rewrite <- E. apply (in_map (fun c => lower (c_name c))). exact Hd. }
    assert (Elv : lv (c_name c) = lv0 (c_name c)) by (apply Hs; cbn; auto).
    assert (Ha : level_above (lv (c_name c)) p = true <-> lv0 (c_name c) = None).
    { rewrite Elv. destruct (lv0 (c_name c)) as [l|] eqn:E; cbn; [|tauto]. apply Hb in E. split; [|discriminate].
      intros X. apply Nat.ltb_lt in X. lia. }
    destruct (level_above (lv (c_name c)) p) eqn:A.
    + assert (N0 : lv0 (c_name c) = None) by (apply Ha; auto).
      rewrite (ready_ext t p lv0 lv) in H by auto.
      destruct (ready t lv0 p (c_requires c)) as [[|]|f] eqn:R; [| |discriminate].
      * (* assigned *)
        assert (As : assigned t lv0 p c) by (split; auto).
        assert (He1 : ext p lv0 (set_level lv (c_name c) p)).
        { intros m. unfold set_level. destruct (ieqb_spec m (c_name c)) as [E|E]; [|apply He]. right. split; auto. rewrite (Hp0 _ _ E). exact N0. }
        assert (Hs1 : forall d, In d todo -> set_level lv (c_name c) p (c_name d) = lv0 (c_name d)).
        { intros d Hd. unfold set_level. destruct (ieqb_spec (c_name d) (c_name c)) as [E|E]; [exfalso; eapply Hdiff; eauto|]. apply Hs; cbn; auto. }
        destruct (IH _ _ _ _ _ _ Ht HU' He1 (set_level_proper _ _ _ Hp) Hs1 H) as [A1 [A2 [A3 [A4 [A5 [A6 [A6' [A7 A8]]]]]]]].
        assert (Ec : lv' (c_name c) = Some p).
        { destruct (A1 (c_name c)) as [X|[X1 X2]]; auto. rewrite X. unfold set_level. rewrite ieqb_refl. reflexivity. }
        split; [|split; [auto|split; [|split; [|split; [|split; [|split; [|split]]]]]]].
        -- intros m. destruct (A1 m) as [X|[X1 X2]].
           ++ rewrite X. unfold set_level. destruct (ieqb_spec m (c_name c)) as [E|E]; [|auto]. right. split; auto. rewrite (Hp _ _ E), Elv. exact N0.
           ++ unfold set_level in X1. destruct (ieqb m (c_name c)); [discriminate|]. auto.
        -- intros m. destruct (A3 m) as [X|[X1 [d [D1 [D2 D3]]]]]; [|right; split; auto; exists d; cbn; auto].
           rewrite X. unfold set_level. destruct (ieqb_spec m (c_name c)) as [E|E]; [|auto]. right. split; auto. exists c. cbn; auto.
        -- intros d [<-|Hd]; [|auto]. rewrite Ec. split; [auto|discriminate].
        -- intros d [<-|Hd] N1 N2; [contradiction|auto].
        -- split; intros X; [exfalso; lia|]. exfalso. apply (X c); cbn; auto.
        -- lia.
        -- rewrite A7. split; intros X d; [intros [<-|Hd]; [rewrite Ec; discriminate|auto]|intros Hd; apply X; cbn; auto].
        -- auto.
      * (* not ready *)
        assert (NAs : ~ assigned t lv0 p c) by (intros [_ X]; congruence).
        assert (Hs1 : forall d, In d todo -> lv (c_name d) = lv0 (c_name d)) by (intros d Hd; apply Hs; cbn; auto).
        destruct (IH _ _ _ _ _ _ Ht HU' He Hp Hs1 H) as [A1 [A2 [A3 [A4 [A5 [A6 [A6' [A7 A8]]]]]]]].
        assert (Ec : lv' (c_name c) = None).
        { destruct (A3 (c_name c)) as [X|[X1 [d [D1 [D2 D3]]]]]; [congruence|]. exfalso. apply (Hdiff d D1). symmetry. exact D2. }
        split; [auto|split; [auto|split; [|split; [|split; [|split; [|split; [|split]]]]]]].
        -- intros m. destruct (A3 m) as [X|[X1 [d [D1 D2]]]]; [auto|]. right. split; auto. exists d. cbn; auto.
        -- intros d [<-|Hd]; [|auto]. rewrite Ec, N0. tauto.
        -- intros d [<-|Hd] N1 N2; auto.
        -- rewrite A6. split; intros X d; [intros [<-|Hd]; auto|intros Hd; apply X; cbn; auto].
        -- lia.
        -- split; intros X; [exfalso; lia|]. exfalso. apply (X c); cbn; auto.
        -- lia.
    + assert (N0 : lv0 (c_name c) <> None) by (intros X; apply Ha in X; discriminate).
      assert (NAs : ~ assigned t lv0 p c) by (intros [X _]; congruence).
      assert (Hs1 : forall d, In d todo -> lv (c_name d) = lv0 (c_name d)) by (intros d Hd; apply Hs; cbn; auto).
      destruct (IH _ _ _ _ _ _ Ht HU' He Hp Hs1 H) as [A1 [A2 [A3 [A4 [A5 [A6 [A6' [A7 A8]]]]]]]].
      assert (Ec : lv' (c_name c) <> None).
      { destruct (A1 (c_name c)) as [X|[X1 X2]]; congruence. }
      split; [auto|split; [auto|split; [|split; [|split; [|split; [|split; [|split]]]]]]].
      * intros m. destruct (A3 m) as [X|[X1 [d [D1 D2]]]]; [auto|]. right. split; auto. exists d. cbn; auto.
      * intros d [<-|Hd]; [|auto]. tauto.
      * intros d [<-|Hd] N1 N2; [congruence|auto].
      * rewrite A6. split; intros X d; [intros [<-|Hd]; auto|intros Hd; apply X; cbn; auto].
      * lia.
      * rewrite A7. split; intros X d; [intros [<-|Hd]; auto|intros Hd; apply X; cbn; auto].
      * lia.
Qed.

(** ** all passes *)
Record inv (t : table) (lv : levels) (p : nat) : Prop := {
  inv_below : below lv p;
  inv_proper : proper lv;
  inv_req : forall c l, In c t -> lv (c_name c) = Some l -> 
     forall r, In r (c_requires c) -> exists d l', lookup r t = Some d /\ lv (c_name d) = Some l' /\ l' < l;
  inv_min : forall c l, In c t -> lv (c_name c) = Some (S l) -> exists r d, In r (c_requires c) /\ lookup r t = Some d /\ lv (c_name d) = Some l;
  inv_late : forall c p', In c t -> lv (c_name c) = None -> p = S p' ->
     exists r d, In r (c_requires c) /\ lookup r t = Some d /\ (lv (c_name d) = None \/ lv (c_name d) = Some p') }.

Lemma inv_start t : inv t (fun _ => None) 0.
Proof. split; try discriminate. intros a b _. reflexivity. Qed.

Lemma inv_step t lv p lv' np nr : UniqueNames t -> inv t lv p -> onePass t p t lv 0 0 = Good (lv', np, nr) ->
  inv t lv' (S p) /\ ext p lv lv' /\ (nr = 0 <-> forall c, In c t -> lv' (c_name c) <> None) /\
  (np = 0 -> forall c, In c t -> lv' (c_name c) = lv (c_name c)) /\
  (np <> 0 -> exists c, In c t /\ lv (c_name c) = None /\ lv' (c_name c) <> None).
Proof.
  intros U [I1 I2 I3 I4 I5] H.
  destruct (onePass_spec t p lv I1 I2 t lv 0 0 lv' np nr) as [A1 [A2 [A3 [A4 [A5 [A6 [A6' [A7 A8]]]]]]]]; auto.
  { apply incl_refl. } { intros m; auto. }
  assert (New : forall c, In c t -> lv' (c_name c) = lv (c_name c) \/ (lv (c_name c) = None /\ lv' (c_name c) = Some p /\ assigned t lv p c)).
  { intros c Hc. destruct (A3 (c_name c)) as [X|[X1 [d [D1 [D2 D3]]]]]; [auto|]. right.
    assert (c = d) by (apply (unique_in t); auto). subst d. destruct D3 as [D3 D4]. repeat split; auto. }
  split; [|split; [auto|split; [auto|split]]].
  - split.
    + intros m l Hm. destruct (A1 m) as [X|[X1 X2]]; [rewrite X in Hm; apply I1 in Hm; lia|]. rewrite X2 in Hm. inversion Hm; lia.
    + exact A2.
    + intros c l Hc Hl r Hr. destruct (New c Hc) as [X|[X1 [X2 X3]]].
      * rewrite X in Hl. destruct (I3 c l Hc Hl r Hr) as [d [l' [L1 [L2 L3]]]]. exists d, l'. split; auto. split; auto.
        destruct (A1 (c_name d)) as [Y|[Y1 Y2]]; congruence.
      * rewrite X2 in Hl. inversion Hl; subst l. destruct X3 as [_ X3]. rewrite ready_true in X3. destruct (X3 r Hr) as [d [l' [L1 [L2 L3]]]].
        exists d, l'. split; auto. split; auto. destruct (A1 (c_name d)) as [Y|[Y1 Y2]]; congruence.
    + intros c l Hc Hl. destruct (New c Hc) as [X|[X1 [X2 X3]]].
      * rewrite X in Hl. destruct (I4 c l Hc Hl) as [r [d [R1 [R2 R3]]]]. exists r, d. repeat split; auto.
        destruct (A1 (c_name d)) as [Y|[Y1 Y2]]; congruence.
      * rewrite X2 in Hl. inversion Hl; subst p. destruct (I5 c l Hc X1 eq_refl) as [r [d [R1 [R2 R3]]]].
        exists r, d. split; auto. split; auto. destruct X3 as [_ X3]. rewrite ready_true in X3. destruct (X3 r R1) as [d' [l' [L1 [L2 L3]]]].
        rewrite R2 in L1. inversion L1; subst d'. destruct R3 as [R3|R3]; [congruence|]. destruct (A1 (c_name d)) as [Y|[Y1 Y2]]; congruence.
    + intros c p' Hc Hn Ep. inversion Ep; subst p'. destruct (New c Hc) as [X|[X1 [X2 _]]]; [|congruence].
      rewrite X in Hn. assert (NA : ~ assigned t lv p c).
      { intros As. assert (Y : lv' (c_name c) <> None) by (apply A4; auto). congruence. }
      specialize (A5 c Hc Hn NA). apply ready_false in A5. destruct A5 as [r [d [R1 [R2 R3]]]]. exists r, d. split; auto. split; auto.
      destruct (lv (c_name d)) as [l|] eqn:E.
      * cbn in R3. apply Nat.leb_le in R3. apply I1 in E. lia.
      * destruct (A1 (c_name d)) as [Y|[Y1 Y2]]; rewrite ?Y, ?Y2; auto.
  - intros Z c Hc. destruct (New c Hc) as [X|[X1 [X2 X3]]]; auto. exfalso. exact (proj1 A6 Z c Hc X3).
  - intros Z. destruct (existsb (fun c => match lv (c_name c), lv' (c_name c) with None, Some _ => true | _, _ => false end) t) eqn:E.
    + apply existsb_exists in E. destruct E as [c [Hc E]]. exists c. destruct (lv (c_name c)), (lv' (c_name c)); try discriminate. split; [auto|split; [auto|discriminate]].
    + exfalso. apply Z. apply A6. intros c Hc As. assert (Y : lv' (c_name c) <> None) by (apply A4; auto).
      assert (F : existsb (fun c => match lv (c_name c), lv' (c_name c) with None, Some _ => true | _, _ => false end) t = true).
      { apply existsb_exists. exists c. split; auto. destruct As as [-> _]. destruct (lv' (c_name c)); congruence. }
      congruence.
Qed.

Definition unassigned (lv : levels) (t : table) : nat := List.length (filter (fun c => match lv (c_name c) with None => true | _ => false end) t).
Lemma unassigned_le lv lv' t : (forall c, In c t -> lv (c_name c) <> None -> lv' (c_name c) <> None) -> unassigned lv' t <= unassigned lv t.
Proof.
  unfold unassigned. induction t as [|c t IH]; intros H; cbn; [lia|].
  assert (unassigned lv' t <= unassigned lv t) by (apply IH; intros; apply H; cbn; auto). unfold unassigned in *.
  specialize (H c (or_introl eq_refl)). destruct (lv (c_name c)), (lv' (c_name c)); cbn; try lia. exfalso. apply H; congruence.
Qed.
Lemma unassigned_lt lv lv' t c : (forall c, In c t -> lv (c_name c) <> None -> lv' (c_name c) <> None) -> In c t ->
  lv (c_name c) = None -> lv' (c_name c) <> None -> unassigned lv' t < unassigned lv t.
Proof.
  induction t as [|d t IH]; intros H Hc N1 N2; [destruct Hc|].
  assert (L : unassigned lv' t <= unassigned lv t) by (apply unassigned_le; intros; apply H; cbn; auto).
  unfold unassigned in *. cbn. destruct Hc as [->|Hc].
  - rewrite N1. destruct (lv' (c_name c)); [cbn; lia|congruence].
  - assert (X : List.length (filter (fun c => match lv' (c_name c) with None => true | _ => false end) t) < List.length (filter (fun c => match lv (c_name c) with None => true | _ => false end) t)).
    { apply IH; auto. intros; apply H; cbn; auto. }
    specialize (H d (or_introl eq_refl)). destruct (lv (c_name d)), (lv' (c_name d)); cbn; try lia. exfalso. apply H; congruence.
Qed.

Lemma passes_spec t : UniqueNames t -> forall fuel p lv, inv t lv p -> unassigned lv t < fuel ->
  match passes fuel t p lv with
  | Good (lv', n) => inv t lv' (S n) /\ (forall c, In c t -> lv' (c_name c) <> None) /\ (p < n \/ n = p)
       /\ (unassigned lv t <> 0 -> n + 1 <= p + unassigned lv t)
  | Bad Cyclic => exists S, Stuck t S
  | Bad BadRequire => ~ RequiresValid t
  | Bad _ => False
  end.
Proof.
  intros U. induction fuel as [|k IH]; intros p lv I L; [lia|]. cbn [passes].
  destruct (onePass t p t lv 0 0) as [[[lv' np] nr]|f] eqn:O.
  - destruct (inv_step t lv p lv' np nr U I O) as [I' [E [R [Z P]]]].
    assert (Keep : forall c, In c t -> lv (c_name c) <> None -> lv' (c_name c) <> None).
    { intros c _ N. destruct (E (c_name c)) as [X|[X1 X2]]; congruence. }
    destruct (Nat.eqb_spec nr 0) as [->|Nr].
    + split; [exact I'|]. split; [apply R; reflexivity|]. split; [auto|]. intros; lia.
    + destruct (Nat.eqb_spec np 0) as [->|Np].
      * specialize (Z eq_refl). exists (fun c => In c t /\ lv (c_name c) = None). split.
        -- destruct (existsb (fun c => match lv (c_name c) with None => true | _ => false end) t) eqn:X.
           ++ apply existsb_exists in X. destruct X as [c [Hc X]]. exists c. split; auto. destruct (lv (c_name c)); congruence.
           ++ exfalso. apply Nr. apply R. intros c Hc. rewrite (Z c Hc). intros N.
              assert (F : existsb (fun c => match lv (c_name c) with None => true | _ => false end) t = true) by (apply existsb_exists; exists c; rewrite N; auto).
              congruence.
        -- intros c [Hc N]. split; auto. destruct I' as [_ _ _ _ J]. assert (N' : lv' (c_name c) = None) by (rewrite (Z c Hc); auto).
           destruct (J c p Hc N' eq_refl) as [r [d [R1 [R2 R3]]]]. apply lookup_some in R2. destruct R2 as [R2 R4].
           exists d. split; [split; auto; split; auto; exists r; auto|]. split; auto. rewrite <- (Z d R2). destruct R3 as [R3|R3]; auto.
           rewrite (Z d R2) in R3. apply (inv_below _ _ _ I) in R3. lia.
      * destruct (P Np) as [c [Hc [N1 N2]]]. pose proof (unassigned_lt lv lv' t c Keep Hc N1 N2) as Lt.
        specialize (IH (S p) lv' I'). destruct (passes k t (S p) lv') as [[lv'' n]|f].
        -- destruct IH as [X1 [X2 [X3 X4]]]; [lia|]. split; auto. split; auto. split; [lia|].
           intros _. destruct (Nat.eq_dec (unassigned lv' t) 0) as [Z0|Z0]; [|specialize (X4 Z0); lia].
           exfalso. apply Nr. apply R. intros d Hd N.
           assert (Pos : unassigned lv' t <> 0); [|lia]. unfold unassigned.
           assert (In d (filter (fun c => match lv' (c_name c) with None => true | _ => false end) t)) by (apply filter_In; rewrite N; auto).
           destruct (filter _ t); [destruct H|cbn; lia].
        -- destruct f; auto; apply IH; lia.
  - assert (f = BadRequire /\ ~ RequiresValid t) as [-> X]; [|exact X].
    assert (G : forall todo lv np nr, incl todo t -> onePass t p todo lv np nr = Bad f -> f = BadRequire /\ ~ RequiresValid t).
    { clear. induction todo as [|c todo IH]; intros lv np nr Hi H; cbn in H; [discriminate|].
      assert (Hi' : incl todo t) by (intros x Hx; apply Hi; cbn; auto).
      destruct (level_above (lv (c_name c)) p); [|eauto]. destruct (ready t lv p (c_requires c)) as [[|]|f'] eqn:R; [eauto|eauto|].
      inversion H; subst f'. assert (Q : forall req, ready t lv p req = Bad f -> f = BadRequire /\ exists r, In r req /\ lookup r t = None).
      { clear. induction req as [|r req IH]; cbn; [discriminate|]. destruct (lookup r t) as [d|] eqn:L.
        - destruct (level_atleast (lv (c_name d)) p); [discriminate|]. intros H. destruct (IH H) as [X [r' [Y1 Y2]]]. split; auto. exists r'. auto.
        - intros H. inversion H. split; auto. exists r. auto. }
      destruct (Q _ R) as [-> [r [R1 R2]]]. split; auto. intros V. destruct (V c r) as [d [D1 D2]]; auto; [apply Hi; cbn; auto|].
      rewrite lookup_none in R2. eapply R2; eauto. }
    eapply G; [apply incl_refl|exact O].
Qed.

Lemma stuck_no_levels t lv n S : UniqueNames t -> inv t lv n -> (forall c, In c t -> lv (c_name c) <> None) -> ~ Stuck t S.
Proof.
  intros U I A [[c Hc] HS].
  assert (X : forall l c, S c -> lv (c_name c) = Some l -> False).
  { induction l as [l IH] using (well_founded_induction lt_wf). intros x Hx El. destruct (HS x Hx) as [Ht [d [[_ [Hd [r [R1 R2]]]] Sd]]].
    destruct (inv_req _ _ _ I x l Ht El r R1) as [d' [l' [L1 [L2 L3]]]].
    assert (lookup r t = Some d) by (apply lookup_in; auto). assert (d' = d) by congruence. subst d'. eapply IH; eauto. }
  destruct (lv (c_name c)) as [l|] eqn:E; [eapply X; eauto|]. destruct (HS c Hc) as [Ht _]. apply (A c Ht). exact E.
Qed.
