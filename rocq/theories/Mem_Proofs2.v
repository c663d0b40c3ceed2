(** Sequences of allocations and releases (C16). *)
From Coq Require Import ZArith List Bool Reals Lia Lra String Permutation Sorted.
From Verif Require Import XR_Model XR_Facts Mem_Model Mem_Spec Mem_Proofs.
Import ListNotations.
Open Scope Z_scope.

Section Runs.
Variables (raw : World -> Z -> option Z) (cacheSize : Z) (margin : R).
Hypothesis RAW : allocator_ok raw.

Definition csorted (m : MC) : Prop := StronglySorted (fun a b => fst a <= fst b) (cache m).
Lemma ss_app_in {A} (R : A -> A -> Prop) a b : StronglySorted R (a ++ b) -> forall x y, In x a -> In y b -> R x y.
Proof.
  induction a as [|z a IH]; intros H x y Hx Hy; [destruct Hx|]. cbn in H. inversion H; subst. destruct Hx as [->|Hx]; auto.
  rewrite Forall_forall in H3. apply H3. apply in_or_app. auto.
Qed.
Lemma ss_remove {A} (R : A -> A -> Prop) a x b : StronglySorted R (a ++ x :: b) -> StronglySorted R (a ++ b).
Proof.
  induction a as [|z a IH]; cbn; intros H; inversion H; subst; auto. constructor; auto. rewrite Forall_forall in *. intros y Hy. apply H3.
  apply in_app_or in Hy. apply in_or_app. destruct Hy; auto. right. right. auto.
Qed.
Lemma cinsert_sorted c s p : StronglySorted (fun a b : Z*Z => fst a <= fst b) c -> StronglySorted (fun a b : Z*Z => fst a <= fst b) (cinsert c s p).
Proof.
  induction c as [|e c IH]; cbn; intros H; [repeat constructor|]. inversion H; subst. destruct (Z.leb_spec (fst e) s).
  - constructor; auto. rewrite Forall_forall in *. intros y Hy. eapply Permutation_in in Hy; [|apply cinsert_perm]. destruct Hy as [<-|Hy]; auto.
  - constructor; auto. constructor; [cbn; lia|]. rewrite Forall_forall in *. intros y Hy. cbn. specialize (H3 y Hy). lia.
Qed.
Lemma mcFree_sorted m p m' : csorted m -> mcFree m p = Some m' -> csorted m'.
Proof. unfold mcFree. destruct (mfind _ p); [|discriminate]. intros S H. injection H as <-. apply cinsert_sorted. auto. Qed.
Lemma freeRaw_sorted m m' : csorted m -> freeRaw m = Some m' -> csorted m'.
Proof.
  unfold freeRaw, csorted. destruct (cache m) as [|(s,p) c]; [discriminate|]. intros S. destruct (rawFree _ p); [|discriminate]. intros H. injection H as <-. cbn.
  inversion S; auto.
Qed.
Lemma allocRaw_sorted m size : csorted m -> csorted (fst (allocRaw raw m size)).
Proof. unfold allocRaw. destruct (raw _ size); auto. Qed.
Definition outSorted (r : AllocOut) : Prop := match r with Got _ m | OutOfMemory m => csorted m | BadFree => True end.
Lemma retry_sorted n : forall size m, csorted m -> outSorted (retry raw n size m).
Proof.
  induction n as [|n IH]; intros size m S; cbn [retry]; auto. destruct (freeRaw m) as [m1|] eqn:E; [|exact I].
  pose proof (allocRaw_sorted m1 size (freeRaw_sorted _ _ S E)) as S1. destruct (allocRaw raw m1 size) as (m2&[p|]); cbn in *; auto.
Qed.
Lemma clearAhead_sorted n : forall size m m', csorted m -> clearAhead cacheSize n size m = Some m' -> csorted m'.
Proof.
  induction n as [|n IH]; intros size m m' S; cbn [clearAhead]. - intros H. injection H as <-. auto.
  - destruct (freeRaw m) as [m1|] eqn:E; [|discriminate]. pose proof (freeRaw_sorted _ _ S E) as S1. destruct (_ <=? _).
    + intros H. injection H as <-. auto. + apply IH. auto.
Qed.
Lemma allocNew_sorted size m : csorted m -> outSorted (allocNew raw cacheSize size m).
Proof.
  intros S. unfold allocNew.
  assert (H : forall m1, (if negb (cacheSize =? 0) && (cacheSize <? overallTot m + size) then clearAhead cacheSize (List.length (cache m)) size m else Some m) = Some m1 -> csorted m1).
  { intros m1. destruct (negb _ && _). - apply clearAhead_sorted; auto. - intros E. injection E as <-. auto. }
  destruct (if negb _ && _ then _ else _) as [m1|]; [|exact I]. specialize (H m1 eq_refl).
  pose proof (allocRaw_sorted m1 size H) as S1. destruct (allocRaw raw m1 size) as (m2&[p|]); cbn in *; auto. apply retry_sorted; auto.
Qed.
Lemma mcAlloc_sorted size m : csorted m -> outSorted (mcAlloc raw cacheSize margin m size).
Proof.
  intros S. unfold mcAlloc. destruct (lowerBound (cache m) size) as [((a,(s,p)),b)|] eqn:L; [|apply allocNew_sorted; auto].
  destruct (Rltb _ _); [|apply allocNew_sorted; auto]. cbn. apply lowerBound_some in L. destruct L as (E&_). unfold csorted in *. rewrite E in S. cbn. eapply ss_remove; eauto.
Qed.

(** after a release, a request of the same size needs nothing from the system *)
Lemma reuse m p m' s : consistent m -> csorted m -> In (p,s) (allocated m) -> 0 < s -> (0 < margin)%R -> mcFree m p = Some m' ->
  exists q m'', mcAlloc raw cacheSize margin m' s = Got q m'' /\ world m'' = world m /\ In (q,s) (cached m') /\ Permutation (allocated m'') ((q,s) :: allocated m').
Proof.
  intros C S Hi Hs Hm F. pose proof (mcFree_sorted _ _ _ S F) as S'. destruct (mcFree_spec _ _ _ C F) as (C'&s'&P&PC&W).
  assert (s' = s).
  { pose proof (consistent_nodup m C) as N. rewrite map_app in N. apply nodup_l in N.
    assert (H1 : mfind (allocated m) p = Some s) by (apply mfind_in; auto).
    assert (H2 : mfind (allocated m) p = Some s'). { apply mfind_in; auto. eapply Permutation_in; [symmetry; exact P|left; auto]. } congruence. }
  subst s'. assert (Hc : In (s,p) (cache m')).
  { assert (X : In (p,s) (cached m')) by (eapply Permutation_in; [symmetry; exact PC|left; auto]). unfold cached in X. apply in_map_iff in X. destruct X as ((u,v)&E&X). cbn in E. injection E as -> ->. auto. }
  pose proof (mcAlloc_spec raw cacheSize margin RAW m' s C' ltac:(lia)) as G. revert G. unfold mcAlloc.
  destruct (lowerBound (cache m') s) as [((a,(t,q)),b)|] eqn:L.
  - pose proof (lowerBound_some _ _ _ _ _ _ L) as (E&Lt&La). unfold csorted in S'. rewrite E in S', Hc.
    assert (t = s). { apply in_app_or in Hc. destruct Hc as [Hc|[Hc|Hc]].
      - specialize (La _ Hc). cbn in La. lia. - congruence.
      - rewrite (app_assoc a [(t,q)] b) in S' || idtac. change (a ++ (t,q) :: b) with (a ++ [(t,q)] ++ b) in S'. rewrite app_assoc in S'.
        assert (X := ss_app_in _ _ _ S' (t,q) (s,p) ltac:(apply in_or_app; right; left; auto) Hc). cbn in X. lia. }
    subst t. assert (R : Rltb (IZR s) (IZR s + IZR s * margin) = true).
    { apply Rltb_true. assert (0 < IZR s)%R by (apply IZR_lt; lia). nra. }
    rewrite R. cbn. intros (_&cap&_&PA&_). eexists q, _. split; [reflexivity|]. cbn. split; auto. split.
    + unfold cached. rewrite E, map_app. apply in_or_app. right. left. reflexivity.
    + assert (NF : mfind (allocated m') q = None).
      { pose proof (consistent_nodup m' C') as N. rewrite map_app in N. apply mfind_none. intros z Hz Ez.
        assert (Hq : In q (map fst (cached m'))). { unfold cached. rewrite E, map_map, map_app. apply in_or_app. right. left. reflexivity. }
        clear -N Ez Hz Hq. induction (allocated m') as [|x l IH]; [destruct Hz|]. cbn in N. inversion N; subst. destruct Hz as [->|Hz]; [|auto].
        apply H1. apply in_or_app. right. auto. }
      unfold minsert. rewrite NF. reflexivity.
  - exfalso. clear -L Hc. induction (cache m') as [|e c IH]; [destruct Hc|]. cbn in L. destruct (Z.leb_spec s (fst e)); [discriminate|].
    destruct (lowerBound c s) as [((?,?),?)|]; [discriminate|]. destruct Hc as [->|Hc]; [cbn in *; lia|auto].
Qed.

(** sequences *)
Definition sizesOk (ops : list Op) : Prop := forall n, In (Alloc n) ops -> 0 <= n.
Lemma run_app a b r : fold_left (step raw cacheSize margin) (a ++ b) r = fold_left (step raw cacheSize margin) b (fold_left (step raw cacheSize margin) a r).
Proof. apply fold_left_app. Qed.
Lemma run_stuck_died ops m : fold_left (step raw cacheSize margin) ops (Died m) = Died m.
Proof. induction ops; cbn; auto. Qed.
Lemma run_stuck_inv ops : fold_left (step raw cacheSize margin) ops Invalid = Invalid.
Proof. induction ops; cbn; auto. Qed.
Theorem run_consistent ops : sizesOk ops -> forall m0, consistent m0 -> csorted m0 ->
  match fold_left (step raw cacheSize margin) ops (Running m0) with
  | Running m => consistent m /\ csorted m
  | Died m => consistent m /\ cache m = []
  | Invalid => exists pre p post m, ops = pre ++ Free p :: post /\ fold_left (step raw cacheSize margin) pre (Running m0) = Running m /\ ~ In p (map fst (allocated m))
  end.
Proof.
  induction ops as [|o ops IH]; intros OK m0 C S; cbn [fold_left]; auto.
  assert (OK' : sizesOk ops) by (intros n Hn; apply OK; right; auto).
  assert (LIFT : forall m1, step raw cacheSize margin (Running m0) o = Running m1 -> consistent m1 -> csorted m1 ->
    match fold_left (step raw cacheSize margin) ops (Running m1) with
    | Running m => consistent m /\ csorted m
    | Died m => consistent m /\ cache m = []
    | Invalid => exists pre p post m, o :: ops = pre ++ Free p :: post /\ fold_left (step raw cacheSize margin) pre (Running m0) = Running m /\ ~ In p (map fst (allocated m))
    end).
  { intros m1 E C1 S1. specialize (IH OK' m1 C1 S1). destruct (fold_left _ ops (Running m1)); auto. destruct IH as (pre&p&post&m&->&R&N).
    exists (o :: pre), p, post, m. split; auto. split; auto. cbn [fold_left]. rewrite E. auto. }
  destruct o as [size|p].
  - pose proof (mcAlloc_spec raw cacheSize margin RAW m0 size C (OK _ (or_introl eq_refl))) as G. pose proof (mcAlloc_sorted size m0 S) as GS. cbn [step] in *.
    destruct (mcAlloc raw cacheSize margin m0 size) as [p m1|m1|]; cbn in G, GS.
    + apply LIFT; tauto. + rewrite run_stuck_died. tauto. + destruct G.
  - cbn [step] in *. destruct (mcFree m0 p) as [m1|] eqn:F.
    + apply LIFT; auto. * eapply mcFree_spec; eauto. * eapply mcFree_sorted; eauto.
    + rewrite run_stuck_inv. exists [], p, ops, m0. split; auto. split; auto. intros Hi. apply in_map_iff in Hi. destruct Hi as ((q,s)&Eq&Hi). cbn in Eq. subst q.
      destruct (mcFree_ok m0 p s C Hi) as (m'&E). congruence.
Qed.
End Runs.
