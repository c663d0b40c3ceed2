(** Proofs about the allocation cache (C16). *)
From Coq Require Import ZArith List Bool Reals Lia Lra String Permutation.
From Verif Require Import XR_Model XR_Facts Mem_Model Mem_Spec.
Import ListNotations.
Open Scope Z_scope.

Lemma apart_sym a b : apart a b -> apart b a.
Proof. unfold apart. intros (H&H'). split; [congruence|tauto]. Qed.
Lemma fop_in {A} (R : A -> A -> Prop) x l : ForallOrdPairs R (x :: l) -> forall y, In y l -> R x y.
Proof. intros H. inversion H; subst. rewrite Forall_forall in H2. auto. Qed.
Lemma fop_perm {A} (R : A -> A -> Prop) : (forall x y, R x y -> R y x) -> forall l l', Permutation l l' -> ForallOrdPairs R l -> ForallOrdPairs R l'.
Proof.
  intros Sy l l' P. induction P; intros H; auto.
  - inversion H; subst. constructor; auto. rewrite Forall_forall in *. intros y Hy. apply H2. eapply Permutation_in; [symmetry; eauto|auto].
  - inversion H; subst. inversion H3; subst. rewrite Forall_forall in *. constructor; [|constructor]; auto.
    + rewrite Forall_forall. intros z [<-|Hz]; [apply Sy; apply H2; left; auto|auto].
    + rewrite Forall_forall. intros z Hz. apply H2. right. auto.
Qed.
Lemma fop_nodup l : ForallOrdPairs apart l -> NoDup (map fst l).
Proof.
  induction 1; cbn; constructor; auto. intros Hi. apply in_map_iff in Hi. destruct Hi as (b&E&Hb). rewrite Forall_forall in H. destruct (H b Hb) as (N&_). congruence.
Qed.
Lemma bytes_app a b : bytes (a ++ b) = bytes a + bytes b.
Proof. induction a; cbn; lia. Qed.
Lemma bytes_perm a b : Permutation a b -> bytes a = bytes b.
Proof. induction 1; cbn; lia. Qed.
Lemma filter_unique (l : list (Z*Z)) p s : NoDup (map fst l) -> In (p,s) l -> Permutation l ((p,s) :: filter (fun b => negb (fst b =? p)) l).
Proof.
  induction l as [|(q,t) l IH]; intros N Hi; [destruct Hi|]. cbn in N. inversion N; subst. cbn [filter fst]. destruct Hi as [E|Hi].
  - injection E as -> ->. rewrite Z.eqb_refl. cbn. constructor.
    assert (F : filter (fun b => negb (fst b =? p)) l = l); [|rewrite F; auto].
    clear -H1. induction l as [|b l IH]; cbn; auto. destruct (Z.eqb_spec (fst b) p) as [E|E]; cbn.
    + exfalso. apply H1. left. auto.
    + f_equal. apply IH. intros Hi. apply H1. right. auto.
  - destruct (Z.eqb_spec q p) as [E|E]; cbn [negb].
    + subst. exfalso. apply H1. apply in_map_iff. exists (p,s). auto.
    + rewrite perm_swap. constructor. auto.
Qed.
Lemma mfind_some l p s : mfind l p = Some s -> In (p,s) l.
Proof.
  unfold mfind. destruct (find _ l) as [(q,t)|] eqn:E; cbn; [|discriminate]. intros H. injection H as <-.
  apply find_some in E. destruct E as (Hi&Hq). cbn in Hq. apply Z.eqb_eq in Hq. subst. auto.
Qed.
Lemma mfind_none l p : (forall b, In b l -> fst b <> p) -> mfind l p = None.
Proof.
  intros H. unfold mfind. destruct (find _ l) as [b|] eqn:E; auto. apply find_some in E. destruct E as (Hi&Hq). apply Z.eqb_eq in Hq. exfalso. apply (H b Hi Hq).
Qed.
Lemma mfind_in l p s : NoDup (map fst l) -> In (p,s) l -> mfind l p = Some s.
Proof.
  intros N Hi. unfold mfind. destruct (find _ l) as [(q,t)|] eqn:E.
  - apply find_some in E. destruct E as (Hj&Hq). cbn in Hq. apply Z.eqb_eq in Hq. subst q. cbn. f_equal.
    clear -N Hi Hj. induction l as [|b l IH]; [destruct Hi|]. cbn in N. inversion N; subst. destruct Hi as [->|Hi], Hj as [E|Hj].
    + congruence. + exfalso. apply H1. apply in_map_iff. exists (p,t). auto. + subst b. exfalso. apply H1. apply in_map_iff. exists (p,s). auto. + auto.
  - exfalso. pose proof (find_none _ _ E (p,s) Hi) as H. cbn in H. rewrite Z.eqb_refl in H. discriminate.
Qed.
Definition swap (e : Z * Z) : Z * Z := (snd e, fst e).
Lemma cinsert_perm c s p : Permutation (cinsert c s p) ((s,p) :: c).
Proof. induction c as [|e c IH]; cbn; auto. destruct (fst e <=? s); auto. rewrite IH. apply perm_swap. Qed.
Lemma lowerBound_some c size a s p b : lowerBound c size = Some (a, (s,p), b) -> c = a ++ (s,p) :: b /\ size <= s /\ forall e, In e a -> fst e < size.
Proof.
  revert a. induction c as [|e c IH]; intros a; cbn; [discriminate|]. destruct (Z.leb_spec size (fst e)).
  - intros E. injection E as <- -> <-. split; auto. split; auto. intros ? [].
  - destruct (lowerBound c size) as [((a',x),b')|]; [|discriminate]. intros E. injection E as <- -> <-. destruct (IH a' eq_refl) as (->&L&Ha).
    split; auto. split; auto. intros e' [<-|He]; auto.
Qed.

Lemma nodup_l {A} (a b : list A) : NoDup (a ++ b) -> NoDup a.
Proof. induction a; cbn; intros H; [constructor|]. inversion H; subst. constructor; auto. intros Hi. apply H2. apply in_or_app. auto. Qed.
Lemma consistent_nodup m : consistent m -> NoDup (map fst (allocated m ++ cached m)).
Proof. intros C. apply fop_nodup. eapply fop_perm; [apply apart_sym|apply (co_live _ C)|apply (co_apart _ C)]. Qed.

(** free: exactly that block moves from the blocks in use to the cache *)
Lemma mcFree_spec m p m' : consistent m -> mcFree m p = Some m' ->
  consistent m' /\ exists s, Permutation (allocated m) ((p,s) :: allocated m') /\ Permutation (cached m') ((p,s) :: cached m) /\ world m' = world m.
Proof.
  intros C. unfold mcFree. destruct (mfind (allocated m) p) as [s|] eqn:E; [|discriminate]. intros H. injection H as <-.
  apply mfind_some in E. pose proof (consistent_nodup m C) as N. 
  assert (NA : NoDup (map fst (allocated m))). { rewrite map_app in N. apply (nodup_l _ _ N). }
  pose proof (filter_unique (allocated m) p s NA E) as P. fold (merase (allocated m) p) in P.
  assert (PC : Permutation (map (fun e => (snd e, fst e)) (cinsert (cache m) s p)) ((p,s) :: cached m)).
  { rewrite cinsert_perm. cbn. reflexivity. }
  pose proof (bytes_perm _ _ P) as BP. pose proof (bytes_perm _ _ PC) as BC. cbn in BP, BC.
  split.
  - constructor; cbn [allocated cached cache world allocatedTot cacheTot overallTot].
    + rewrite (co_live _ C). eapply Permutation_trans; [apply Permutation_app_tail; exact P|].
      unfold cached at 2. cbn [cache]. eapply Permutation_trans; [|apply Permutation_app_head; symmetry; exact PC].
      cbn. apply Permutation_middle.
    + apply (co_apart _ C).
    + apply (co_size _ C).
    + rewrite (co_alloc _ C). lia.
    + unfold cached. cbn [cache]. rewrite (co_cache _ C). lia.
    + destruct (co_all _ C) as (O1&O2). split; auto. lia.
  - exists s. split; [exact P|]. split; [exact PC|reflexivity].
Qed.
(** freeing a block in use never fails *)
Lemma mcFree_ok m p s : consistent m -> In (p,s) (allocated m) -> exists m', mcFree m p = Some m'.
Proof.
  intros C H. pose proof (consistent_nodup m C) as N. rewrite map_app in N. apply nodup_l in N.
  unfold mcFree. rewrite (mfind_in _ _ _ N H). eauto.
Qed.

Section Alloc.
Variables (raw : World -> Z -> option Z) (cacheSize : Z) (margin : R).
Hypothesis RAW : allocator_ok raw.

Lemma rawFree_spec w p s : ForallOrdPairs apart (w_live w) -> In (p,s) (w_live w) ->
  exists w', rawFree w p = Some w' /\ Permutation (w_live w) ((p,s) :: w_live w').
Proof.
  intros A H. unfold rawFree. assert (E : existsb (fun b => fst b =? p) (w_live w) = true).
  { apply existsb_exists. exists (p,s). split; auto. apply Z.eqb_refl. }
  rewrite E. eexists. split; [reflexivity|]. cbn. apply filter_unique; auto. apply fop_nodup; auto.
Qed.
Lemma freeRaw_spec m : consistent m -> cache m <> [] ->
  exists m1 e, freeRaw m = Some m1 /\ consistent m1 /\ allocated m1 = allocated m /\ cache m = e :: cache m1 /\ overallTot m1 <= overallTot m.
Proof.
  intros C Hne. unfold freeRaw. destruct (cache m) as [|(s,p) c] eqn:EC; [contradiction|].
  assert (Hin : In (p,s) (w_live (world m))).
  { eapply Permutation_in; [symmetry; apply (co_live _ C)|]. apply in_or_app. right. unfold cached. rewrite EC. left. reflexivity. }
  destruct (rawFree_spec (world m) p s (co_apart _ C) Hin) as (w&->&P). eexists. exists (s,p). split; [reflexivity|]. 
  pose proof (fop_perm _ apart_sym _ _ P (co_apart _ C)) as F.
  assert (PL : Permutation (w_live w) (allocated m ++ map (fun e => (snd e, fst e)) c)).
  { apply (Permutation_cons_inv (a := (p,s))). rewrite <- P, (co_live _ C). unfold cached. rewrite EC. cbn. rewrite <- Permutation_middle. reflexivity. }
  pose proof (co_cache _ C) as Hc. unfold cached in Hc. rewrite EC in Hc. cbn in Hc.
  pose proof (bytes_perm _ _ P) as BP. cbn in BP. destruct (co_all _ C) as (O1&O2).
  pose proof (co_size _ C _ Hin) as Ps. cbn in Ps.
  split; [|cbn; repeat split; auto; lia]. constructor; cbn [allocated cached cache world allocatedTot cacheTot overallTot].
  - exact PL.
  - inversion F; auto.
  - intros b Hb. apply (co_size _ C). eapply Permutation_in; [symmetry; exact P|]. right. auto.
  - apply (co_alloc _ C).
  - unfold cached. cbn [cache]. lia.
  - split; lia.
Qed.
Lemma allocRaw_spec m size : consistent m -> 0 <= size ->
  let '(m', r) := allocRaw raw m size in consistent m' /\ cache m' = cache m /\
  match r with Some p => allocated m' = (p,size) :: allocated m /\ overallTot m' = overallTot m + size | None => allocated m' = allocated m /\ overallTot m' = overallTot m end.
Proof.
  intros C Hs. unfold allocRaw. destruct (raw (world m) size) as [p|] eqn:E.
  - pose proof (RAW _ _ _ Hs E) as AP. destruct (co_all _ C) as (O1&O2).
    assert (NF : mfind (allocated m) p = None).
    { apply mfind_none. intros b Hb. assert (Hl : In b (w_live (world m))) by (eapply Permutation_in; [symmetry; apply (co_live _ C)|apply in_or_app; auto]).
      destruct (AP b Hl) as (N&_). cbn in N. congruence. }
    unfold minsert. rewrite NF. split; [|auto]. constructor; cbn [allocated cached cache world allocatedTot cacheTot overallTot w_live].
    + cbn. constructor. apply (co_live _ C).
    + constructor; [|apply (co_apart _ C)]. apply Forall_forall. auto.
    + intros b [<-|Hb]; [auto|]. apply (co_size _ C). auto.
    + cbn. rewrite (co_alloc _ C). lia.
    + apply (co_cache _ C).
    + cbn [bytes snd]. split; lia.
  - split; [|auto]. destruct C. constructor; auto.
Qed.

(** within the target, if there is one, as far as the cache allows *)
Definition target (room : Z) (m : MC) : Prop := cacheSize = 0 \/ overallTot m + room <= cacheSize \/ cache m = [].
Definition gives (m : MC) (size : Z) (r : AllocOut) : Prop :=
  match r with
  | Got p m' => consistent m' /\ exists cap, size <= cap /\ Permutation (allocated m') ((p,cap) :: allocated m) /\
      ((world m' = world m /\ (IZR cap < IZR size * (1 + margin))%R) \/ (cap = size /\ target 0 m'))
  | OutOfMemory m' => consistent m' /\ allocated m' = allocated m /\ cache m' = []
  | BadFree => False
  end.
Lemma got_new m0 m p m' size : allocated m' = (p,size) :: allocated m0 -> allocated m0 = allocated m -> consistent m' -> target 0 m' -> gives m size (Got p m').
Proof. intros E E0 C T. cbn. split; auto. exists size. split; [lia|]. rewrite E, E0. auto. Qed.
Lemma target_new m m2 size : target size m -> cache m2 = cache m -> overallTot m2 = overallTot m + size -> target 0 m2.
Proof. intros [T|[T|T]] E O; [left; auto|right; left; lia|right; right; congruence]. Qed.
Lemma retry_spec n : forall size m ma, consistent m -> 0 <= size -> n = List.length (cache m) -> allocated m = allocated ma -> target size m ->
  gives ma size (retry raw n size m).
Proof.
  induction n as [|n IH]; intros size m ma C Hs Hn Ea T; cbn [retry].
  - cbn. split; auto. split; auto. destruct (cache m); auto. discriminate.
  - destruct (freeRaw_spec m C) as (m1&e&->&C1&E1&E2&OL). { intros E. rewrite E in Hn. discriminate. }
    assert (T1 : target size m1). { destruct T as [T|[T|T]]; [left; auto|right; left; lia|]. rewrite E2 in T. discriminate. }
    pose proof (allocRaw_spec m1 size C1 Hs) as A. destruct (allocRaw raw m1 size) as (m2&[p|]); destruct A as (C2&Ec&Eb&O).
    + eapply got_new; eauto; [congruence|]. eapply target_new; eauto.
    + apply IH; auto; [|congruence|].
      * rewrite Ec. rewrite E2 in Hn. cbn in Hn. lia.
      * destruct T1 as [T1|[T1|T1]]; [left; auto|right; left; lia|right; right; congruence].
Qed.
Lemma clearAhead_spec n : forall size m, consistent m -> n = List.length (cache m) ->
  exists m1, clearAhead cacheSize n size m = Some m1 /\ consistent m1 /\ allocated m1 = allocated m /\ (overallTot m1 + size <= cacheSize \/ cache m1 = []).
Proof.
  induction n as [|n IH]; intros size m C Hn; cbn [clearAhead].
  - exists m. split; auto. split; auto. split; auto. right. destruct (cache m); auto. discriminate.
  - destruct (freeRaw_spec m C) as (m1&e&->&C1&E1&E2&_). { intros E. rewrite E in Hn. discriminate. }
    destruct (Z.leb_spec (overallTot m1 + size) cacheSize).
    + exists m1. split; auto.
    + assert (Hn1 : n = List.length (cache m1)) by (rewrite E2 in Hn; cbn in Hn; lia).
      destruct (IH size m1 C1 Hn1) as (m2&->&C2&E3&L). exists m2. split; auto. split; auto. split; [congruence|auto].
Qed.
Lemma allocNew_spec m size : consistent m -> 0 <= size -> gives m size (allocNew raw cacheSize size m).
Proof.
  intros C Hs. unfold allocNew.
  assert (H : exists m1, (if negb (cacheSize =? 0) && (cacheSize <? overallTot m + size) then clearAhead cacheSize (List.length (cache m)) size m else Some m) = Some m1 /\
    consistent m1 /\ allocated m1 = allocated m /\ target size m1).
  { destruct (Z.eqb_spec cacheSize 0); cbn [negb andb].
    - exists m. split; auto. split; auto. split; auto. left. auto.
    - destruct (Z.ltb_spec cacheSize (overallTot m + size)).
      + destruct (clearAhead_spec _ size m C eq_refl) as (m1&A&B&D&E). exists m1. split; auto. split; auto. split; auto. right. auto.
      + exists m. split; auto. split; auto. split; auto. right. left. lia. }
  destruct H as (m1&->&C1&E1&T). pose proof (allocRaw_spec m1 size C1 Hs) as A. destruct (allocRaw raw m1 size) as (m2&[p|]); destruct A as (C2&Ec&Eb&O).
  - eapply got_new; eauto. eapply target_new; eauto.
  - apply retry_spec; auto; [congruence|]. destruct T as [T|[T|T]]; [left; auto|right; left; lia|right; right; congruence].
Qed.
Theorem mcAlloc_spec m size : consistent m -> 0 <= size -> gives m size (mcAlloc raw cacheSize margin m size).
Proof.
  intros C Hs. unfold mcAlloc. destruct (lowerBound (cache m) size) as [((a,(s,p)),b)|] eqn:L; [|apply allocNew_spec; auto].
  destruct (Rltb (IZR s) (IZR size + IZR size * margin)%R) eqn:M; [|apply allocNew_spec; auto].
  apply lowerBound_some in L. destruct L as (EC&Ls&_). apply Rltb_true in M.
  assert (PC : Permutation (cached m) ((p,s) :: map (fun e => (snd e, fst e)) (a ++ b))).
  { unfold cached. rewrite EC, !map_app. cbn. rewrite <- Permutation_middle. reflexivity. }
  pose proof (consistent_nodup m C) as N.
  assert (NF : mfind (allocated m) p = None).
  { apply mfind_none. intros q Hq E. rewrite map_app in N. 
    assert (Hp : In p (map fst (cached m))). { apply in_map_iff. exists (p,s). split; auto. eapply Permutation_in; [symmetry; exact PC|left; auto]. }
    clear -N E Hq Hp. induction (allocated m) as [|x l IH]; [destruct Hq|]. cbn in N. inversion N; subst. destruct Hq as [->|Hq]; [|auto].
    apply H1. apply in_or_app. right. auto. }
  unfold minsert. rewrite NF. cbn. pose proof (bytes_perm _ _ PC) as BC. cbn in BC. destruct (co_all _ C) as (O1&O2). split.
  - constructor; cbn [allocated cached cache world allocatedTot cacheTot overallTot].
    + rewrite (co_live _ C), PC. cbn. rewrite <- Permutation_middle. reflexivity.
    + apply (co_apart _ C).
    + apply (co_size _ C).
    + cbn. rewrite (co_alloc _ C). lia.
    + unfold cached. cbn [cache]. rewrite (co_cache _ C). lia.
    + split; lia.
  - exists s. split; [lia|]. split; [reflexivity|]. left. split; [reflexivity|]. lra.
Qed.

(** destructor: everything is returned to the system *)
Lemma freeAll_spec l : forall w rest, ForallOrdPairs apart (w_live w) -> Permutation (w_live w) (l ++ rest) ->
  exists w', freeAll (map fst l) w = Some w' /\ Permutation (w_live w') rest /\ ForallOrdPairs apart (w_live w').
Proof.
  induction l as [|(p,s) l IH]; intros w rest A P; cbn.
  - eauto.
  - destruct (rawFree_spec w p s A) as (w1&->&P1). { eapply Permutation_in; [symmetry; exact P|]. left. auto. }
    apply IH.
    + pose proof (fop_perm _ apart_sym _ _ P1 A) as F. inversion F; auto.
    + apply (Permutation_cons_inv (a := (p,s))). rewrite <- P1. exact P.
Qed.
Theorem destroy_spec m : consistent m -> exists w, mcDestroy m = Some w /\ w_live w = [].
Proof.
  intros C. unfold mcDestroy. destruct (freeAll_spec (allocated m) (world m) (cached m) (co_apart _ C) (co_live _ C)) as (w&->&P&A).
  replace (map snd (cache m)) with (map fst (cached m)) by (unfold cached; rewrite map_map; reflexivity).
  rewrite <- (app_nil_r (cached m)) in P. destruct (freeAll_spec (cached m) w [] A P) as (w'&->&P'&_). exists w'. split; auto. 
  apply Permutation_nil. symmetry. auto.
Qed.

End Alloc.
Lemma start_consistent w : w_live w = [] -> consistent (emptyMC w).
Proof. intros E. constructor; cbn; rewrite ?E; auto; try constructor. intros b []. Qed.
