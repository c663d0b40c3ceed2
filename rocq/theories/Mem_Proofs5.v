(** Statements on reachable states, and examples (C16). *)
From Coq Require Import ZArith List Bool Reals String Permutation Lia Lra Sorted.
From Verif Require Import XR_Model XR_Facts Mem_Model Mem_Spec Mem_Proofs Mem_Proofs2 Mem_Proofs3.
Import ListNotations.
Open Scope Z_scope.
Open Scope Z_scope.

Lemma start_sorted w : csorted (emptyMC w).
Proof. constructor. Qed.
Lemma run_from_start : forall raw cacheSize margin, allocator_ok raw -> forall ops, (forall n, In (Alloc n) ops -> 0 <= n) ->
  forall w, w_live w = [] ->
  match fold_left (step raw cacheSize margin) ops (Running (emptyMC w)) with
  | Running m => consistent m
  | Died m => consistent m /\ cache m = []
  | Invalid => exists pre p post m, ops = pre ++ Free p :: post /\
      fold_left (step raw cacheSize margin) pre (Running (emptyMC w)) = Running m /\ ~ In p (map fst (allocated m))
  end.
Proof.
  intros raw cs mg RAW ops OK w Hw. pose proof (run_consistent raw cs mg RAW ops OK _ (start_consistent w Hw) (start_sorted w)) as H.
  destruct (fold_left _ ops _); auto. apply H.
Qed.
Lemma alloc_apart : forall raw cacheSize margin, allocator_ok raw -> forall m size, consistent m -> 0 <= size ->
  match mcAlloc raw cacheSize margin m size with
  | Got p m' => consistent m' /\ exists cap, size <= cap /\ Permutation (allocated m') ((p, cap) :: allocated m) /\
      (forall b, In b (allocated m) -> apart (p, cap) b) /\
      ((world m' = world m /\ (IZR cap < IZR size * (1 + margin))%R) \/
       (cap = size /\ (cacheSize = 0 \/ overallTot m' <= cacheSize \/ cache m' = [])))
  | OutOfMemory m' => consistent m' /\ allocated m' = allocated m /\ cache m' = []
  | BadFree => False
  end.
Proof.
  intros raw cs mg RAW m size C Hs. pose proof (mcAlloc_spec raw cs mg RAW m size C Hs) as G.
  destruct (mcAlloc raw cs mg m size) as [p m'|m'|]; auto. destruct G as (C'&cap&L&P&How). split; auto. exists cap. split; auto. split; auto. split.
  - intros b Hb. pose proof (fop_perm _ apart_sym _ _ (co_live _ C') (co_apart _ C')) as F.
    assert (F2 : ForallOrdPairs apart (((p,cap) :: allocated m) ++ cached m')). { eapply fop_perm; [apply apart_sym| |exact F]. apply Permutation_app_tail. auto. }
    cbn in F2. apply (fop_in _ _ _ F2). apply in_or_app. auto.
  - destruct How as [How|(E&T)]; auto. right. split; auto. destruct T as [T|[T|T]]; auto. right. left. lia.
Qed.
Lemma free_spec : forall m p s, consistent m -> In (p, s) (allocated m) -> exists m', mcFree m p = Some m' /\ consistent m' /\
  Permutation (allocated m) ((p, s) :: allocated m') /\ Permutation (cached m') ((p, s) :: cached m) /\ world m' = world m.
Proof.
  intros m p s C H. destruct (mcFree_ok m p s C H) as (m'&F). exists m'. split; auto. destruct (mcFree_spec m p m' C F) as (C'&s'&P&PC&W).
  assert (s' = s). { eapply (addr_unique (allocated m)); [apply alloc_nodup; auto| |exact H]. eapply Permutation_in; [symmetry; exact P|left; auto]. }
  subst. auto.
Qed.
Lemma reuse_reachable : forall raw cacheSize margin, allocator_ok raw -> forall ops w m, (forall n, In (Alloc n) ops -> 0 <= n) -> w_live w = [] ->
  fold_left (step raw cacheSize margin) ops (Running (emptyMC w)) = Running m ->
  forall p s m', In (p, s) (allocated m) -> 0 < s -> (0 < margin)%R -> mcFree m p = Some m' ->
  exists q m'', mcAlloc raw cacheSize margin m' s = Got q m'' /\ world m'' = world m /\ In (q, s) (cached m') /\
    Permutation (allocated m'') ((q, s) :: allocated m').
Proof.
  intros raw cs mg RAW ops w m OK Hw E p s m' Hi Hs Hm F. pose proof (run_consistent raw cs mg RAW ops OK _ (start_consistent w Hw) (start_sorted w)) as H.
  rewrite E in H. destruct H as (C&S). eapply reuse; eauto.
Qed.
Lemma zero_bytes : exists raw cacheSize margin ops w s, allocator_ok raw /\ w_live w = [] /\ sizes (fun n => 0 <= n) ops /\
  fold_left (sysStep raw cacheSize margin) ops (Fine (sys0 w)) = Fine s /\ (forall i, ob_n (sy_obj s i) = 0) /\ allocated (sy_mc s) <> [].
Proof.
  exists bump, 0, 0%R, [Init 0 "a"%string 0 false; Release 0], (mkW [] 0). eexists. split; [apply bump_ok|]. split; [auto|]. split.
  - intros i c n g [E|[E|[]]]; inversion E; lia.
  - split; [reflexivity|]. split; [|discriminate]. intros [|i]; reflexivity.
Qed.
Lemma example_reuse : exists m, fold_left (step bump 0 0.2) [Alloc 8; Alloc 16; Free 1; Alloc 7] (Running (emptyMC (mkW [] 0))) = Running m /\
  allocated m = [(1, 8); (10, 16)] /\ cache m = [] /\ overallTot m = 24.
Proof.
  assert (R : Rltb 8 (7 + 7 * 0.2) = true) by (apply Rltb_true; lra).
  eexists. split. - cbn [fold_left]. cbn -[Rltb]. rewrite R. reflexivity. - auto.
Qed.
Lemma example_trim : exists m, fold_left (step bump 20 0.2) [Alloc 8; Alloc 9; Free 1; Alloc 11] (Running (emptyMC (mkW [] 0))) = Running m /\
  allocated m = [(20, 11); (10, 9)] /\ cache m = [] /\ overallTot m = 20.
Proof. eexists. split. - cbv -[Rltb IZR Rmult Rplus]. reflexivity. - auto. Qed.
