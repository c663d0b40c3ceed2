(** Loop and memory lemmas; the threaded product (C56). *)
From Coq Require Import ZArith List Bool Reals Lia Permutation.
From Coquelicot Require Import Complex.
From Verif Require Import Base WorkDiv_Model WorkDiv_Spec WorkDiv_Proofs Matrix_Model Matrix_Spec.
Import ListNotations.
Open Scope Z_scope.

Lemma foldM_app {S A} (f : S -> A -> res S) l1 l2 s :
  foldM f (l1 ++ l2) s = bind (foldM f l1 s) (foldM f l2).
Proof.
  revert s; induction l1 as [|x l1 IH]; intros s; cbn [app foldM bind]; [reflexivity|].
  destruct (f s x); cbn; auto.
Qed.

Lemma foldM_inv {S} (I : Z -> S -> Prop) (f : S -> Z -> res S) a b s : a <= b -> I a s ->
  (forall i s, a <= i < b -> I i s -> exists s', f s i = Ok s' /\ I (i+1) s') ->
  exists s', foldM f (zrange a b) s = Ok s' /\ I b s'.
Proof.
  intros Hab. remember (Z.to_nat (b - a)) as n eqn:En. revert a s Hab En.
  induction n as [|n IH]; intros a s Hab En Ha Hstep.
  - assert (a = b) by lia; subst. rewrite zrange_nil by lia. exists s; auto.
  - rewrite zrange_cons by lia. cbn [foldM].
    destruct (Hstep a s) as [s' [E Hs']]; [lia|auto|]. rewrite E; cbn [bind].
    apply IH; auto; try lia. intros i s0 Hi. apply Hstep; lia.
Qed.

Lemma foldM_eq {S A} (f g : S -> A -> res S) l s : (forall s x, In x l -> f s x = g s x) -> foldM f l s = foldM g l s.
Proof.
  revert s; induction l as [|x l IH]; intros s H; cbn; [reflexivity|].
  rewrite H by (left; auto). destruct (g s x); cbn; auto. apply IH. intros; apply H; right; auto.
Qed.

Lemma inb_iff b a : inb b a = true <-> 0 <= a < len b.
Proof. unfold inb. rewrite andb_true_iff, Z.leb_le, Z.ltb_lt. tauto. Qed.
Lemma rd_ok b a : 0 <= a < len b -> rd b a = Ok (cell b a).
Proof. intros H. unfold rd. apply inb_iff in H. rewrite H. reflexivity. Qed.
Lemma upd_ok b a f : 0 <= a < len b ->
  upd b a f = Ok (mkBuf (len b) (fun x => if x =? a then f (cell b a) else cell b x)).
Proof. intros H. unfold upd. apply inb_iff in H. rewrite H. reflexivity. Qed.

Lemma beq_refl b : beq b b. Proof. split; auto. Qed.
Lemma req_refl r : req r r. Proof. destruct r; cbn; auto using beq_refl. Qed.
Lemma req_trans r1 r2 r3 : req r1 r2 -> req r2 r3 -> req r1 r3.
Proof.
  destruct r1, r2, r3; cbn; try tauto. intros [H1 H2] [H3 H4]; split; [congruence|].
  intros a2; rewrite H2; auto.
Qed.
Lemma req_sym r1 r2 : req r1 r2 -> req r2 r1.
Proof. destruct r1, r2; cbn; try tauto. intros [H1 H2]; split; auto. Qed.

Lemma gemmOp_beq al be b1 b2 op : beq b1 b2 -> req (gemmOp al be b1 op) (gemmOp al be b2 op).
Proof.
  intros [Hl Hc]. unfold gemmOp. destruct (snd op); cbn; auto.
  unfold upd, inb. rewrite Hl. destruct ((0 <=? fst op) && (fst op <? len b2)); cbn; auto.
  split; cbn; auto. intros x. rewrite !Hc. reflexivity.
Qed.
Lemma run_beq al be ops b1 b2 : beq b1 b2 -> req (run_gemm al be ops b1) (run_gemm al be ops b2).
Proof.
  unfold run_gemm. revert b1 b2. induction ops as [|op ops IH]; intros b1 b2 H; cbn [foldM]; [exact H|].
  pose proof (gemmOp_beq al be b1 b2 op H) as Hop.
  destruct (gemmOp al be b1 op), (gemmOp al be b2 op); cbn in *; auto; contradiction.
Qed.

Lemma opRead_not_rejected t A a0 lda i l : opRead t A a0 lda i l <> Rejected.
Proof. unfold opRead, rd. destruct t; destruct (inb _ _); cbn; discriminate. Qed.
Lemma gemmDot_not_rejected tA tB K A a0 lda B b0 ldb i j : gemmDot tA tB K A a0 lda B b0 ldb i j <> Rejected.
Proof.
  unfold gemmDot. generalize (RtoC 0). induction (zrange 0 K) as [|l ls IH]; intros c; cbn [foldM]; [discriminate|].
  pose proof (opRead_not_rejected tA A a0 lda i l).
  pose proof (opRead_not_rejected tB B b0 ldb l j).
  destruct (opRead tA A a0 lda i l); cbn; try congruence.
  destruct (opRead tB B b0 ldb l j); cbn; try congruence; apply IH.
Qed.

Lemma gemmOp_swap al be b op1 op2 : fst op1 <> fst op2 -> snd op1 <> Rejected -> snd op2 <> Rejected ->
  req (bind (gemmOp al be b op1) (fun b' => gemmOp al be b' op2))
      (bind (gemmOp al be b op2) (fun b' => gemmOp al be b' op1)).
Proof.
  intros Hd H1 H2. unfold gemmOp, upd, inb. destruct (snd op1); cbn; try congruence.
  2:{ destruct (snd op2); cbn; try congruence; auto.
      destruct ((0 <=? fst op2) && (fst op2 <? len b)); cbn; auto. }
  destruct (snd op2); cbn; try congruence.
  2:{ destruct ((0 <=? fst op1) && (fst op1 <? len b)); cbn; auto. }
  destruct ((0 <=? fst op1) && (fst op1 <? len b)) eqn:E1;
  destruct ((0 <=? fst op2) && (fst op2 <? len b)) eqn:E2; cbn; rewrite ?E1, ?E2; cbn; auto.
  split; cbn; auto. intros x.
  destruct (x =? fst op2) eqn:X2; destruct (x =? fst op1) eqn:X1; auto.
  - apply Z.eqb_eq in X1, X2. congruence.
  - destruct (fst op2 =? fst op1) eqn:X3; auto. apply Z.eqb_eq in X3. congruence.
  - destruct (fst op1 =? fst op2) eqn:X3; auto. apply Z.eqb_eq in X3. congruence.
Qed.

Lemma run_perm al be ops1 ops2 : Permutation ops1 ops2 -> NoDup (map fst ops1) ->
  Forall (fun op => snd op <> Rejected) ops1 ->
  forall b, req (run_gemm al be ops1 b) (run_gemm al be ops2 b).
Proof.
  unfold run_gemm. induction 1 as [|op l1 l2 HP IH|op1 op2 l|l1 l2 l3 H1 IH1 H2 IH2]; intros ND HF b.
  - apply req_refl.
  - cbn [foldM]. inversion ND; subst. inversion HF; subst. destruct (gemmOp al be b op); cbn; auto.
  - cbn [foldM]. inversion ND as [|? ? Hn1 ND1]; subst. inversion HF as [|? ? Hr1 HF1]; subst.
    inversion HF1 as [|? ? Hr2 HF2]; subst.
    assert (Hd : fst op2 <> fst op1) by (intros E; apply Hn1; left; auto).
    pose proof (gemmOp_swap al be b op2 op1 Hd Hr1 Hr2) as Hs.
    destruct (gemmOp al be b op2) as [b2| |] eqn:E2; destruct (gemmOp al be b op1) as [b1| |] eqn:E1; cbn [bind] in *.
    all: repeat match goal with |- context[gemmOp ?p ?q ?x ?o] => destruct (gemmOp p q x o) eqn:?; cbn [bind] in * end.
    all: cbn in *; auto; try contradiction.
    apply run_beq; auto.
  - assert (ND2 : NoDup (map fst l2)) by (eapply Permutation_NoDup; [apply Permutation_map; eassumption|auto]).
    assert (HF2 : Forall (fun op => snd op <> Rejected) l2).
    { rewrite Forall_forall in *. intros x Hx. apply HF. eapply Permutation_in; [symmetry; eassumption|auto]. }
    eapply req_trans; [apply IH1|apply IH2]; auto.
Qed.

(** *** The list of element updates of one call. *)
Lemma in_gemmOps tA tB M N K A a0 lda B b0 ldb c0 ldc op :
  In op (gemmOps tA tB M N K A a0 lda B b0 ldb c0 ldc) <->
  exists i j, 0 <= i < M /\ 0 <= j < N /\ op = (c0 + i + ldc * j, gemmDot tA tB K A a0 lda B b0 ldb i j).
Proof.
  unfold gemmOps. rewrite in_flat_map. split.
  - intros [j [Hj H]]. apply in_map_iff in H. destruct H as [i [E Hi]]. apply in_zrange in Hj, Hi.
    exists i, j. auto.
  - intros [i [j [Hi [Hj E]]]]. exists j. split; [apply in_zrange; auto|]. subst. apply in_map_iff.
    exists i. split; auto. apply in_zrange; auto.
Qed.

Lemma gemm_addr_inj M ldc i j i' j' : M <= ldc -> 0 <= i < M -> 0 <= i' < M ->
  i + ldc * j = i' + ldc * j' -> i = i' /\ j = j'.
Proof.
  intros HM Hi Hi' E. assert (j = j') by nia. subst. split; lia.
Qed.

Lemma gemmOps_NoDup tA tB M N K A a0 lda B b0 ldb c0 ldc : M <= ldc ->
  NoDup (map fst (gemmOps tA tB M N K A a0 lda B b0 ldb c0 ldc)).
Proof.
  intros HM. unfold gemmOps. rewrite flat_map_concat_map, concat_map, map_map, <- flat_map_concat_map.
  apply NoDup_flat_map.
  - apply zrange_NoDup.
  - intros j Hj. rewrite map_map. cbn [fst].
    apply FinFun.Injective_map_NoDup; [|apply zrange_NoDup]. intros x y; lia.
  - intros j j' a Hj Hj' H1 H2. rewrite map_map in H1, H2. apply in_map_iff in H1, H2.
    destruct H1 as [i [E1 H1]], H2 as [i' [E2 H2]]. cbn in E1, E2. apply in_zrange in H1, H2.
    assert (i = i' /\ j = j') by (apply (gemm_addr_inj M ldc); lia). tauto.
Qed.

Lemma gemmOps_not_rejected tA tB M N K A a0 lda B b0 ldb c0 ldc :
  Forall (fun op => snd op <> Rejected) (gemmOps tA tB M N K A a0 lda B b0 ldb c0 ldc).
Proof.
  rewrite Forall_forall. intros op H. apply in_gemmOps in H. destruct H as [i [j [_ [_ ->]]]].
  apply gemmDot_not_rejected.
Qed.

Lemma zrange_shift a b : zrange a b = map (fun k => a + k) (zrange 0 (b - a)).
Proof.
  destruct (Z_le_gt_dec b a); [rewrite !zrange_nil by lia; reflexivity|].
  unfold zrange. rewrite map_map. replace (b - a - 0) with (b - a) by lia. apply map_ext. intros; lia.
Qed.

Lemma opRead_shift_row t A a0 lda i l s : opRead t A (a0 + s * (if isNoTrans t then 1 else lda)) lda i l = opRead t A a0 lda (s + i) l.
Proof.
  destruct t; cbn [isNoTrans opRead];
    match goal with |- context[rd _ ?x] => match goal with |- _ = ?r => match r with context[rd _ ?y] => replace x with y by ring; reflexivity end end end.
Qed.
Lemma opRead_shift_col t A a0 lda i l s : opRead t A (a0 + s * (if isNoTrans t then lda else 1)) lda i l = opRead t A a0 lda i (s + l).
Proof.
  destruct t; cbn [isNoTrans opRead];
    match goal with |- context[rd _ ?x] => match goal with |- _ = ?r => match r with context[rd _ ?y] => replace x with y by ring; reflexivity end end end.
Qed.

Lemma gemmDot_shift_row tA tB K A a0 lda B b0 ldb i j s :
  gemmDot tA tB K A (a0 + s * (if isNoTrans tA then 1 else lda)) lda B b0 ldb i j = gemmDot tA tB K A a0 lda B b0 ldb (s + i) j.
Proof. unfold gemmDot. apply foldM_eq. intros c l _. rewrite opRead_shift_row. reflexivity. Qed.
Lemma gemmDot_shift_col tA tB K A a0 lda B b0 ldb i j s :
  gemmDot tA tB K A a0 lda B (b0 + s * (if isNoTrans tB then ldb else 1)) ldb i j = gemmDot tA tB K A a0 lda B b0 ldb i (s + j).
Proof. unfold gemmDot. apply foldM_eq. intros c l _. rewrite opRead_shift_col. reflexivity. Qed.

(** Element updates for rows in I and columns in J. *)
Definition blockOps tA tB K A a0 lda B b0 ldb c0 ldc (I J : list Z) : list (Z * res C) :=
  flat_map (fun j => map (fun i => (c0 + i + ldc * j, gemmDot tA tB K A a0 lda B b0 ldb i j)) I) J.

Lemma blockOps_rows tA tB K A a0 lda B b0 ldb c0 ldc I1 I2 J :
  Permutation (blockOps tA tB K A a0 lda B b0 ldb c0 ldc (I1 ++ I2) J)
    (blockOps tA tB K A a0 lda B b0 ldb c0 ldc I1 J ++ blockOps tA tB K A a0 lda B b0 ldb c0 ldc I2 J).
Proof.
  unfold blockOps. induction J as [|j J IH]; cbn [flat_map]; [auto|].
  rewrite map_app, IH, <- !app_assoc. apply Permutation_app_head. rewrite !app_assoc.
  apply Permutation_app_tail. apply Permutation_app_comm.
Qed.
Lemma blockOps_cols tA tB K A a0 lda B b0 ldb c0 ldc I J1 J2 :
  blockOps tA tB K A a0 lda B b0 ldb c0 ldc I (J1 ++ J2) =
    blockOps tA tB K A a0 lda B b0 ldb c0 ldc I J1 ++ blockOps tA tB K A a0 lda B b0 ldb c0 ldc I J2.
Proof. apply flat_map_app. Qed.

Lemma gemmOps_rows tA tB N K A a0 lda B b0 ldb c0 ldc iMin iMax :
  gemmOps tA tB (iMax - iMin) N K A (a0 + iMin * (if isNoTrans tA then 1 else lda)) lda B b0 ldb (c0 + iMin) ldc
  = blockOps tA tB K A a0 lda B b0 ldb c0 ldc (zrange iMin iMax) (zrange 0 N).
Proof.
  unfold gemmOps, blockOps. apply flat_map_ext. intros j. rewrite (zrange_shift iMin iMax), map_map.
  apply map_ext. intros i. rewrite gemmDot_shift_row. f_equal. lia.
Qed.
Lemma gemmOps_cols tA tB M K A a0 lda B b0 ldb c0 ldc iMin iMax :
  gemmOps tA tB M (iMax - iMin) K A a0 lda B (b0 + iMin * (if isNoTrans tB then ldb else 1)) ldb (c0 + iMin * ldc) ldc
  = blockOps tA tB K A a0 lda B b0 ldb c0 ldc (zrange 0 M) (zrange iMin iMax).
Proof.
  unfold gemmOps, blockOps. rewrite (zrange_shift iMin iMax). rewrite (flat_map_concat_map _ (map _ _)), map_map, <- flat_map_concat_map.
  apply flat_map_ext. intros j.
  apply map_ext. intros i. rewrite gemmDot_shift_col. f_equal. lia.
Qed.

Lemma zgemm_threads_perm nThreads tA tB M N K A a0 lda B b0 ldb c0 ldc : 0 < nThreads -> 0 <= M -> 0 <= N ->
  Permutation (concat (zgemm_threads nThreads tA tB M N K A a0 lda B b0 ldb c0 ldc))
    (gemmOps tA tB M N K A a0 lda B b0 ldb c0 ldc).
Proof.
  intros HT HM HN. unfold zgemm_threads, zgemm_sub_ops.
  destruct (N <? M) eqn:E.
  - apply Z.ltb_lt in E. rewrite Z.max_l by lia.
    rewrite (map_ext _ _ (fun t => gemmOps_rows tA tB N K A a0 lda B b0 ldb c0 ldc _ _)).
    change (gemmOps tA tB M N K A a0 lda B b0 ldb c0 ldc) with (blockOps tA tB K A a0 lda B b0 ldb c0 ldc (zrange 0 M) (zrange 0 N)).
    rewrite <- (thread_partition nThreads M) by lia. unfold thread_iterations.
    induction (zrange 0 nThreads) as [|t ts IH]; cbn [map concat].
    + unfold blockOps. cbn [map]. induction (zrange 0 N); cbn; auto.
    + rewrite IH. symmetry. apply blockOps_rows.
  - apply Z.ltb_ge in E. rewrite Z.max_r by lia.
    destruct (Z.eq_dec N 0) as [->|HN0].
    { assert (M = 0) by lia. subst M.
      replace (concat _) with (@nil (Z * res C)); [unfold gemmOps; rewrite (zrange_nil 0 0) by lia; reflexivity|].
      induction (zrange 0 nThreads) as [|t ts IH]; cbn [map concat]; [reflexivity|]. rewrite <- IH, app_nil_r.
      unfold gemmOps. rewrite (zrange_nil 0 0) by lia.
      induction (zrange 0 _); cbn; auto. }
    rewrite (map_ext _ _ (fun t => gemmOps_cols tA tB M K A a0 lda B b0 ldb c0 ldc _ _)).
    change (gemmOps tA tB M N K A a0 lda B b0 ldb c0 ldc) with (blockOps tA tB K A a0 lda B b0 ldb c0 ldc (zrange 0 M) (zrange 0 N)).
    rewrite <- (thread_partition nThreads N) by lia. unfold thread_iterations.
    induction (zrange 0 nThreads) as [|t ts IH]; cbn [map concat]; [auto|].
    rewrite blockOps_cols, IH. auto.
Qed.

(** Each thread may perform its updates in any order, and threads interleave arbitrarily. *)
Theorem zgemm_threaded_serial nThreads tA tB M N K alpha A a0 lda B b0 ldb beta Cb c0 ldc threadOps sched :
  0 < nThreads -> 0 <= M -> 0 <= N -> M <= ldc ->
  Forall2 (@Permutation _) (zgemm_threads nThreads tA tB M N K A a0 lda B b0 ldb c0 ldc) threadOps ->
  interleave threadOps sched ->
  Permutation sched (gemmOps tA tB M N K A a0 lda B b0 ldb c0 ldc) /\
  NoDup (map fst sched) /\
  req (run_gemm alpha beta sched Cb) (zgemm tA tB M N K alpha A a0 lda B b0 ldb beta Cb c0 ldc).
Proof.
  intros HT HM HN Hl HP HI.
  assert (HS : Permutation (gemmOps tA tB M N K A a0 lda B b0 ldb c0 ldc) sched).
  { rewrite <- (zgemm_threads_perm nThreads) by lia. apply interleave_perm in HI. rewrite <- HI.
    clear HI. induction HP; cbn; auto. apply Permutation_app; auto. }
  repeat split.
  - symmetry; auto.
  - eapply Permutation_NoDup; [apply Permutation_map, HS|]. apply gemmOps_NoDup; auto.
  - apply req_sym. apply run_perm; auto using gemmOps_NoDup, gemmOps_not_rejected.
Qed.
