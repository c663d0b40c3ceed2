(** Objects holding managed memory (C16), and the usage report (C17). *)
From Coq Require Import ZArith List Bool Reals Lia Lra String Permutation Arith.
From Verif Require Import XR_Model XR_Facts Mem_Model Mem_Spec Mem_Proofs Mem_Proofs2.
Import ListNotations.
Open Scope Z_scope.

Section Objects.
Variables (raw : World -> Z -> option Z) (cacheSize : Z) (margin : R).
Hypothesis RAW : allocator_ok raw.

(** every object with bytes holds a block of its own *)
Record owning (s : Sys) : Prop := {
  ow_mc : consistent (sy_mc s);
  ow_nonneg : forall i, 0 <= ob_n (sy_obj s i);
  ow_block : forall i, 0 < ob_n (sy_obj s i) -> exists cap, ob_n (sy_obj s i) <= cap /\ In (ob_c (sy_obj s i), cap) (allocated (sy_mc s));
  ow_own : forall i j, i <> j -> 0 < ob_n (sy_obj s i) -> 0 < ob_n (sy_obj s j) -> ob_c (sy_obj s i) <> ob_c (sy_obj s j) }.
(** every block with bytes is owned *)
Definition tight (s : Sys) : Prop := forall p cap, In (p,cap) (allocated (sy_mc s)) -> 0 < cap -> exists i, 0 < ob_n (sy_obj s i) /\ ob_c (sy_obj s i) = p.

Lemma upd_same f i o : upd f i o i = o.
Proof. unfold upd. rewrite Nat.eqb_refl. auto. Qed.
Lemma upd_other f i o j : j <> i -> upd f i o j = f j.
Proof. intros H. unfold upd. apply Nat.eqb_neq in H. rewrite H. auto. Qed.
Lemma addr_unique (l : list (Z*Z)) p a b : NoDup (map fst l) -> In (p,a) l -> In (p,b) l -> a = b.
Proof. intros N A B. pose proof (mfind_in _ _ _ N A). pose proof (mfind_in _ _ _ N B). congruence. Qed.
Lemma alloc_nodup m : consistent m -> NoDup (map fst (allocated m)).
Proof. intros C. pose proof (consistent_nodup m C) as N. rewrite map_app in N. apply (nodup_l _ _ N). Qed.

Lemma memFree_owning s i : owning s -> exists s', memFree s i = Some s' /\ owning s' /\ ob_n (sy_obj s' i) = 0 /\ (tight s -> tight s') /\
  (forall j, j <> i -> sy_obj s' j = sy_obj s j) /\
  (forall c, zsum (map (delta c) (sy_ev s')) = zsum (map (delta c) (sy_ev s)) + (in_category c s' i - in_category c s i)) /\
  zsum (map delta_total (sy_ev s')) = zsum (map delta_total (sy_ev s)) + (ob_n (sy_obj s' i) - ob_n (sy_obj s i)).
Proof.
  assert (ZA : forall a b, zsum (a ++ b) = zsum a + zsum b) by (induction a; intros; cbn; auto; rewrite IHa; lia).
  intros O. unfold memFree. destruct (Z.eqb_spec (ob_n (sy_obj s i)) 0) as [E|E].
  - exists s. repeat split; auto; try apply O; intros; lia.
  - pose proof (ow_nonneg s O i) as Hn. destruct (ow_block s O i) as (cap&Hc&Hi); [lia|].
    destruct (mcFree_ok (sy_mc s) _ _ (ow_mc s O) Hi) as (m&F). rewrite F.
    destruct (mcFree_spec _ _ _ (ow_mc s O) F) as (C&s'&P&_&_).
    pose proof (alloc_nodup _ (ow_mc s O)) as N.
    eexists. split; [reflexivity|]. cbn [sy_obj sy_mc sy_ev]. split; [|rewrite upd_same; split; [reflexivity|split; [|split; [|split]]]].
    + constructor; cbn [sy_obj sy_mc]; auto.
      * intros j. unfold upd. destruct (Nat.eqb j i); [cbn; lia|apply (ow_nonneg s O)].
      * intros j. destruct (Nat.eq_dec j i) as [->|Hj]; [rewrite upd_same; cbn; lia|]. rewrite upd_other by auto. intros Hp.
        destruct (ow_block s O j Hp) as (cap'&L&Hin). exists cap'. split; auto. eapply Permutation_in in Hin; [|exact P]. destruct Hin as [Eq|Hin]; auto.
        exfalso. injection Eq as E1 _. apply (ow_own s O i j); auto. lia.
      * intros j k Hjk. destruct (Nat.eq_dec j i) as [->|Hj]; [rewrite upd_same; cbn; lia|]. rewrite (upd_other _ i _ j) by auto.
        destruct (Nat.eq_dec k i) as [->|Hk]; [rewrite upd_same; cbn; lia|]. rewrite upd_other by auto. apply (ow_own s O); auto.
    + intros T p c Hp Hcp. cbn [sy_obj sy_mc] in *. destruct (T p c) as (j&Hj&Ej). { eapply Permutation_in; [symmetry; exact P|right; auto]. } { auto. }
      assert (j <> i). { intros ->. subst p. assert (N2 : NoDup (map fst ((ob_c (sy_obj s i), s') :: allocated m))) by (eapply Permutation_NoDup; [apply Permutation_map; exact P|auto]).
        cbn in N2. inversion N2; subst. apply H1. apply in_map_iff. exists (ob_c (sy_obj s i), c). auto. }
      exists j. rewrite upd_other by auto. auto.
    + intros j Hj. apply upd_other; auto.
    + intros c. rewrite map_app, ZA. cbn [map zsum delta]. unfold in_category. cbn [sy_obj]. rewrite upd_same. cbn [noObj ob_n ob_cat].
      destruct (String.eqb (ob_cat (sy_obj s i)) c), (String.eqb "" c); lia.
    + rewrite map_app, ZA. cbn. lia.
Qed.
Definition good (s : Sys) (i : nat) (s' : Sys) : Prop :=
  (forall j, j <> i -> sy_obj s' j = sy_obj s j) /\
  (forall c, zsum (map (delta c) (sy_ev s')) = zsum (map (delta c) (sy_ev s)) + (in_category c s' i - in_category c s i)) /\
  zsum (map delta_total (sy_ev s')) = zsum (map delta_total (sy_ev s)) + (ob_n (sy_obj s' i) - ob_n (sy_obj s i)).
Lemma memInit_owning s i cat n gpu : owning s -> 0 <= n ->
  match memInit raw cacheSize margin s i cat n gpu with
  | Fine s' => owning s' /\ (ob_cat (sy_obj s' i) = cat /\ ob_n (sy_obj s' i) = n) /\ (tight s -> tight s') /\ good s i s'
  | Dead s' => owning s' /\ cache (sy_mc s') = []
  | Undefined => False
  end.
Proof.
  assert (ZA : forall a b, zsum (a ++ b) = zsum a + zsum b) by (induction a; intros; cbn; auto; rewrite IHa; lia).
  intros O Hn. unfold memInit.
  destruct (String.eqb cat (ob_cat (sy_obj s i)) && (n =? ob_n (sy_obj s i)) && Bool.eqb gpu (ob_gpu (sy_obj s i))) eqn:E.
  { apply andb_prop in E. destruct E as (E&_). apply andb_prop in E. destruct E as (E1&E2). apply String.eqb_eq in E1. apply Z.eqb_eq in E2.
    split; auto. split; auto. split; auto. unfold good. repeat split; intros; lia. }
  clear E. destruct (memFree_owning s i O) as (s1&->&O1&Z1&T1&G1&G2&G3).
  pose proof (mcAlloc_spec raw cacheSize margin RAW (sy_mc s1) n (ow_mc s1 O1) Hn) as G.
  destruct (mcAlloc raw cacheSize margin (sy_mc s1) n) as [p m|m|]; cbn in G; [|destruct G as (C&Ea&Ec)|auto].
  - destruct G as (C&cap&Lc&P&How).
    assert (FR : forall c, ~ In (p,c) (allocated (sy_mc s1))).
    { intros c Hc. pose proof (alloc_nodup m C) as N. apply (Permutation_NoDup (Permutation_map fst P)) in N. cbn in N. inversion N; subst. apply H1. apply in_map_iff. exists (p,c). auto. }
    split; [|split; [|split]].
    + constructor; cbn [sy_obj sy_mc]; auto.
      * intros j. unfold upd. destruct (Nat.eqb j i); [cbn; lia|apply (ow_nonneg s1 O1)].
      * intros j. destruct (Nat.eq_dec j i) as [->|Hj].
        -- rewrite upd_same. cbn. intros _. exists cap. split; auto. eapply Permutation_in; [symmetry; exact P|left; auto].
        -- rewrite upd_other by auto. intros Hp. destruct (ow_block s1 O1 j Hp) as (c&L&Hin). exists c. split; auto. eapply Permutation_in; [symmetry; exact P|right; auto].
      * assert (FRj : forall j, j <> i -> 0 < ob_n (sy_obj s1 j) -> ob_c (sy_obj s1 j) <> p).
        { intros j _ Hj E. destruct (ow_block s1 O1 j Hj) as (c&_&Hin). rewrite E in Hin. apply (FR c Hin). }
        intros j k Hjk. destruct (Nat.eq_dec j i) as [->|Hj]; [rewrite upd_same; rewrite upd_other by auto|rewrite (upd_other _ i _ j) by auto; destruct (Nat.eq_dec k i) as [->|Hk]; [rewrite upd_same|rewrite upd_other by auto]]; cbn [ob_n ob_c].
        -- intros _ Hk E. symmetry in E. revert E. apply FRj; auto.
        -- intros Hk _. apply FRj; auto.
        -- apply (ow_own s1 O1); auto.
    + cbn. rewrite upd_same. auto.
    + intros T q c Hq Hcp. cbn [sy_obj sy_mc] in *. eapply Permutation_in in Hq; [|exact P]. destruct Hq as [E|Hq].
      * injection E as <- <-. exists i. rewrite upd_same. cbn. split; auto. destruct (Z.eq_dec n 0) as [->|]; [|lia]. exfalso.
        destruct How as [(_&How)|(How&_)]; [|lia]. rewrite Rmult_0_l in How. apply lt_IZR in How. lia.
      * destruct (T1 T q c Hq Hcp) as (j&Hj&Ej). exists j. assert (j <> i) by (intros ->; lia). rewrite upd_other by auto. auto.
    + unfold good. cbn [sy_obj sy_ev]. split; [|split].
      * intros j Hj. rewrite upd_other by auto. auto.
      * intros c. rewrite map_app, ZA, G2. cbn [map zsum delta]. unfold in_category. cbn [sy_obj]. rewrite upd_same. cbn [ob_n ob_cat]. rewrite Z1.
        destruct (String.eqb (ob_cat (sy_obj s1 i)) c), (String.eqb (ob_cat (sy_obj s i)) c), (String.eqb cat c); lia.
      * rewrite map_app, ZA, G3, Z1, upd_same. cbn. lia.
  - split; auto. constructor; cbn [sy_obj sy_mc]; auto; try apply O1. rewrite Ea. apply O1.
Qed.
Lemma memMove_obj s i j k : sy_obj (memMove s i j) k = sy_obj s (if Nat.eqb k j then i else if Nat.eqb k i then j else k).
Proof. cbn. unfold upd. destruct (Nat.eqb_spec k j), (Nat.eqb_spec k i); subst; auto. Qed.
Lemma swapn_inj i j k l : (if Nat.eqb k j then i else if Nat.eqb k i then j else k) = (if Nat.eqb l j then i else if Nat.eqb l i then j else l) -> k = l.
Proof. destruct (Nat.eqb_spec k j), (Nat.eqb_spec k i), (Nat.eqb_spec l j), (Nat.eqb_spec l i); subst; intros; subst; congruence. Qed.
Lemma memMove_owning s i j : owning s -> owning (memMove s i j) /\ (tight s -> tight (memMove s i j)).
Proof.
  intros O. split.
  - constructor; [apply O|..]; intros; rewrite ?memMove_obj in *; try apply O; auto.
    intros X. apply H. eapply swapn_inj; eauto.
  - intros T p c Hp Hcp. destruct (T p c Hp Hcp) as (k&Hk&Ek). exists (if Nat.eqb k j then i else if Nat.eqb k i then j else k). rewrite memMove_obj.
    assert (X : (if Nat.eqb (if Nat.eqb k j then i else if Nat.eqb k i then j else k) j then i else if Nat.eqb (if Nat.eqb k j then i else if Nat.eqb k i then j else k) i then j else (if Nat.eqb k j then i else if Nat.eqb k i then j else k)) = k).
    { destruct (Nat.eqb_spec k j); subst; [destruct (Nat.eqb_spec i j); subst; auto; rewrite Nat.eqb_refl; auto|].
      destruct (Nat.eqb_spec k i); subst; [rewrite Nat.eqb_refl; auto|]. apply Nat.eqb_neq in n, n0. rewrite n, n0. auto. }
    rewrite X. auto.
Qed.

(** sums over objects *)
Lemma zsum_eq {A} (f g : A -> Z) l : (forall x, In x l -> f x = g x) -> zsum (map f l) = zsum (map g l).
Proof. induction l; cbn; intros H; auto. rewrite (H a) by auto. rewrite IHl; auto. Qed.
Lemma zsum_one f g N : forall i, (i < N)%nat -> (forall j, j <> i -> f j = g j) -> zsum (map f (seq 0 N)) = zsum (map g (seq 0 N)) + (f i - g i).
Proof.
  assert (G : forall n a i, (a <= i < a + n)%nat -> (forall j, j <> i -> f j = g j) -> zsum (map f (seq a n)) = zsum (map g (seq a n)) + (f i - g i)).
  { induction n as [|n IH]; intros a i Hi H; [lia|]. cbn. destruct (Nat.eq_dec i a) as [->|Hne].
    - rewrite (zsum_eq f g). lia. intros x Hx. apply H. apply in_seq in Hx. lia.
    - rewrite (H a) by auto. rewrite (IH (S a) i) by (auto; lia). lia. }
  intros i Hi H. apply G; auto. lia.
Qed.
Lemma zsum_swap f N i j : (i < N)%nat -> (j < N)%nat -> zsum (map (fun k => f (if Nat.eqb k j then i else if Nat.eqb k i then j else k)) (seq 0 N)) = zsum (map f (seq 0 N)).
Proof.
  intros Hi Hj. destruct (Nat.eq_dec i j) as [->|Hne].
  { apply zsum_eq. intros x _. destruct (Nat.eqb_spec x j); subst; auto. }
  set (g := fun k => if Nat.eqb k j then f i else f k).
  rewrite (zsum_one _ g N i Hi).
  - rewrite (zsum_one g f N j Hj).
    + unfold g. rewrite !Nat.eqb_refl. assert (E : Nat.eqb i j = false) by (apply Nat.eqb_neq; auto). rewrite E. lia.
    + intros k Hk. unfold g. apply Nat.eqb_neq in Hk. rewrite Hk. auto.
  - intros k Hk. unfold g. destruct (Nat.eqb_spec k j); auto. apply Nat.eqb_neq in Hk. rewrite Hk. auto.
Qed.
(** the recorded events account for all objects *)
Definition accounted (N : nat) (s : Sys) : Prop :=
  (forall c, zsum (map (delta c) (sy_ev s)) = category_bytes c s N) /\ zsum (map delta_total (sy_ev s)) = total_bytes s N.
Lemma good_accounted N s i s' : (i < N)%nat -> good s i s' -> accounted N s -> accounted N s'.
Proof.
  intros Hi (G1&G2&G3) (A1&A2). split.
  - intros c. rewrite G2, A1. unfold category_bytes. rewrite (zsum_one (in_category c s') (in_category c s) N i Hi); auto.
    intros j Hj. unfold in_category. rewrite G1; auto.
  - rewrite G3, A2. unfold total_bytes. rewrite (zsum_one (fun i => ob_n (sy_obj s' i)) (fun i => ob_n (sy_obj s i)) N i Hi); auto.
    intros j Hj. rewrite G1; auto.
Qed.
Lemma move_accounted N s i j : (i < N)%nat -> (j < N)%nat -> accounted N s -> accounted N (memMove s i j).
Proof.
  intros Hi Hj (A1&A2). split.
  - intros c. cbn [sy_ev memMove]. rewrite A1. unfold category_bytes. rewrite <- (zsum_swap (in_category c s) N i j Hi Hj). apply zsum_eq. intros k _.
    unfold in_category. rewrite memMove_obj. auto.
  - cbn [sy_ev memMove]. rewrite A2. unfold total_bytes. rewrite <- (zsum_swap (fun i => ob_n (sy_obj s i)) N i j Hi Hj). apply zsum_eq. intros k _. rewrite memMove_obj. auto.
Qed.
Definition reach (ops : list ObjOp) (w : World) : SysOut := fold_left (sysStep raw cacheSize margin) ops (Fine (sys0 w)).
Lemma sys_run N ops : sizes (fun n => 0 <= n) ops -> (forall o i, In o ops -> touches o i -> (i < N)%nat) -> forall s0, owning s0 -> accounted N s0 ->
  match fold_left (sysStep raw cacheSize margin) ops (Fine s0) with
  | Fine s => owning s /\ accounted N s /\ (tight s0 -> tight s)
  | Dead s => owning s /\ cache (sy_mc s) = []
  | Undefined => False
  end.
Proof.
  induction ops as [|o ops IH]; intros OK HN s0 O A; cbn [fold_left]; auto.
  assert (OK' : sizes (fun n => 0 <= n) ops) by (intros i c n g Hn; eapply OK; right; eauto).
  assert (HN' : forall o i, In o ops -> touches o i -> (i < N)%nat) by (intros; eapply HN; [right|]; eauto).
  pose proof (HN o) as Ho.
  assert (LIFT : forall s1, sysStep raw cacheSize margin (Fine s0) o = Fine s1 -> owning s1 -> accounted N s1 -> (tight s0 -> tight s1) ->
    match fold_left (sysStep raw cacheSize margin) ops (sysStep raw cacheSize margin (Fine s0) o) with
    | Fine s => owning s /\ accounted N s /\ (tight s0 -> tight s)
    | Dead s => owning s /\ cache (sy_mc s) = []
    | Undefined => False end).
  { intros s1 -> O1 A1 T. specialize (IH OK' HN' s1 O1 A1). destruct (fold_left _ ops (Fine s1)); auto. destruct IH as (I1&I2&I3).
    split; auto. }
  destruct o as [i c n g|i|i j].
  - pose proof (memInit_owning s0 i c n g O (OK i c n g (or_introl eq_refl))) as M. cbn [sysStep] in *. destruct (memInit raw cacheSize margin s0 i c n g) as [s1|s1|] eqn:E.
    + destruct M as (O1&_&T1&G). apply (LIFT s1); auto.
      * eapply good_accounted; [|exact G|auto]. apply Ho; [left; auto|cbn; auto].
    + clear LIFT. assert (D : fold_left (sysStep raw cacheSize margin) ops (Dead s1) = Dead s1) by (clear; induction ops; cbn; auto). rewrite D. auto.
    + destruct M.
  - destruct (memFree_owning s0 i O) as (s1&F&O1&_&T1&G). cbn [sysStep] in *. rewrite F in *. apply (LIFT s1); auto. eapply good_accounted; [|exact G|auto]. apply Ho; [left; auto|cbn; auto].
  - destruct (memMove_owning s0 i j O) as (O1&T1). apply (LIFT (memMove s0 i j)); auto. apply move_accounted; auto; apply Ho; cbn; auto.
Qed.
Lemma start_owning w : w_live w = [] -> owning (sys0 w) /\ tight (sys0 w) /\ forall N, accounted N (sys0 w).
Proof.
  intros E. split; [|split].
  - constructor; cbn; try lia. apply start_consistent; auto.
  - intros p c [].
  - intros N. split.
    + intros c. cbn [sys0 sy_ev map zsum]. unfold category_bytes. induction (seq 0 N) as [|x l IH]; cbn [map zsum]; auto. rewrite <- IH.
      unfold in_category. cbn [sys0 sy_obj noObj ob_n]. destruct (String.eqb _ c); auto.
    + cbn. unfold total_bytes. induction (seq 0 N); cbn; auto.
Qed.

Lemma bytes_zero l : (forall b, In b l -> snd b = 0) -> bytes l = 0.
Proof. induction l; cbn; intros H; auto. rewrite (H a) by auto. rewrite IHl; auto. Qed.
Theorem objects_spec ops w N : w_live w = [] -> sizes (fun n => 0 <= n) ops -> (forall o i, In o ops -> touches o i -> (i < N)%nat) ->
  match fold_left (sysStep raw cacheSize margin) ops (Fine (sys0 w)) with
  | Fine s => consistent (sy_mc s) /\
      (forall i, 0 < ob_n (sy_obj s i) -> exists cap, ob_n (sy_obj s i) <= cap /\ holds s i cap) /\
      (forall i j a b, i <> j -> holds s i a -> holds s j b -> apart (ob_c (sy_obj s i), a) (ob_c (sy_obj s j), b)) /\
      ((forall i, ob_n (sy_obj s i) = 0) -> allocatedTot (sy_mc s) = 0) /\
      (forall c, used (delta c) (List.length (sy_ev s)) (sy_ev s) = category_bytes c s N) /\
      used delta_total (List.length (sy_ev s)) (sy_ev s) = total_bytes s N
  | Dead s => consistent (sy_mc s) /\ cache (sy_mc s) = []
  | Undefined => False
  end.
Proof.
  intros Hw OK HN. destruct (start_owning w Hw) as (O&T&A). pose proof (sys_run N ops OK HN _ O (A N)) as H.
  destruct (fold_left (sysStep raw cacheSize margin) ops (Fine (sys0 w))) as [s|s|]; auto; [|split; [apply H|apply H]].
  destruct H as (Os&(A1&A2)&Ts). specialize (Ts T). pose proof (ow_mc s Os) as C.
  split; auto. split; [|split; [|split; [|split]]].
  - intros i Hi. destruct (ow_block s Os i Hi) as (cap&L&Hin). exists cap. split; auto. split; auto.
  - intros i j a b Hij (Pi&Hi) (Pj&Hj). pose proof (ow_own s Os i j Hij Pi Pj) as Hd.
    pose proof (fop_perm _ apart_sym _ _ (co_live _ C) (co_apart _ C)) as F.
    destruct (ForallOrdPairs_In F (ob_c (sy_obj s i), a) (ob_c (sy_obj s j), b)) as [E|[E|E]]; auto using in_or_app.
    + injection E as E _. contradiction.
    + apply apart_sym. auto.
  - intros Z0. rewrite (co_alloc _ C). apply bytes_zero. intros (p,c) Hb. cbn. destruct (Z.eq_dec c 0); auto. exfalso.
    assert (0 <= c). { apply (co_size _ C (p,c)). eapply Permutation_in; [symmetry; apply (co_live _ C)|apply in_or_app; auto]. }
    destruct (Ts p c Hb) as (i&Hi&_); [lia|]. rewrite Z0 in Hi. lia.
  - intros c. unfold used. rewrite firstn_all. auto.
  - unfold used. rewrite firstn_all. auto.
Qed.
End Objects.

(** an allocator for examples: above everything live *)
Fixpoint top (l : list (Z * Z)) : Z := match l with [] => 0 | b :: l' => Z.max (Z.max (fst b) (fst b + snd b)) (top l') end.
Definition bump (w : World) (size : Z) : option Z := Some (1 + top (w_live w)).
Lemma bump_ok : allocator_ok bump.
Proof.
  intros w size p Hs E b Hb. assert (p = 1 + top (w_live w)) by (unfold bump in E; congruence). subst p. clear E.
  assert (H : Z.max (fst b) (fst b + snd b) <= top (w_live w)). { induction (w_live w) as [|x l IH]; [destruct Hb|]. cbn [top]. destruct Hb as [->|Hb]; [lia|]. specialize (IH Hb). lia. }
  unfold apart. cbn [fst snd]. split; lia.
Qed.

