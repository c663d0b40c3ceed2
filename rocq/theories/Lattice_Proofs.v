(** Proofs about reduceMatrix. *)
From Coq Require Import ZArith Reals List Lia Lra Bool.
From Verif Require Import Base Vec3_Model Vec3_Facts Lattice_Model Lattice_Spec.
Import ListNotations.
Open Scope R_scope.

Lemma in_moves k1 i j : In (k1,i,j) red_moves <-> (k1 < 3)%nat /\ (-1 <= i <= 1)%Z /\ (-1 <= j <= 1)%Z.
Proof.
  unfold red_moves. rewrite in_flat_map. split.
  - intros (a&Ha&H). apply in_flat_map in H as (b&Hb&H). apply in_map_iff in H as (c&E&Hc).
    injection E as -> -> ->. cbn in Ha, Hb, Hc. lia.
  - intros (H1&H2&H3). exists k1. split; [cbn; lia|]. apply in_flat_map. exists i. split; [cbn; lia|].
    apply in_map_iff. exists j. split; auto. cbn; lia.
Qed.

Lemma red_d_0 i j : red_d 0 i j = (M 1 0 0 i 1 0 j 0 1)%Z. Proof. reflexivity. Qed.
Lemma red_d_1 i j : red_d 1 i j = (M 1 j 0 0 1 0 0 i 1)%Z. Proof. reflexivity. Qed.
Lemma red_d_2 i j : red_d 2 i j = (M 1 0 i 0 1 j 0 0 1)%Z. Proof. reflexivity. Qed.

Lemma red_d_inv k1 i j : (k1 < 3)%nat -> zmm (red_d k1 i j) (red_d k1 (-i) (-j)) = zid
  /\ zmm (red_d k1 (-i) (-j)) (red_d k1 i j) = zid /\ zdet (red_d k1 i j) = 1%Z.
Proof.
  intros H. destruct k1 as [|[|[|k]]]; [| | |exfalso; lia];
  rewrite ?red_d_0, ?red_d_1, ?red_d_2; unfold zid, zdiag; v3_unfold.
  - split; [f_equal; ring|]. split; [f_equal; ring|ring].
  - split; [f_equal; ring|]. split; [f_equal; ring|ring].
  - split; [f_equal; ring|]. split; [f_equal; ring|ring].
Qed.

(** Invariant linking the state to the input matrix *)
Definition red_inv (R0 : mat R) (st : rstate) : Prop :=
  rs_R st = rmm R0 (mIZR (rs_t st)) /\
  zmm (rs_t st) (rs_tInv st) = zid /\ zmm (rs_tInv st) (rs_t st) = zid /\ zdet (rs_t st) = 1%Z.

Lemma red_try_inv thr R0 st ch m : In m red_moves -> red_inv R0 st -> red_inv R0 (fst (red_try thr (st,ch) m)).
Proof.
  destruct m as [[k1 i] j]. intros Hm (H1&H2&H3&H4). apply in_moves in Hm as (Hk&_&_).
  unfold red_try. destruct (Rlt_dec _ _); [|repeat split; auto].
  destruct (red_d_inv k1 i j Hk) as (D1&D2&D3). unfold red_inv; cbn [fst rs_R rs_t rs_tInv].
  repeat split.
  - rewrite H1, mIZR_mm, rmm_assoc. reflexivity.
  - rewrite <- zmm_assoc, (zmm_assoc (red_d k1 i j)), D1, zmm_id_l. exact H2.
  - rewrite <- zmm_assoc, (zmm_assoc (rs_tInv st)), H3, zmm_id_l. exact D2.
  - rewrite zdet_mm, H4, D3. reflexivity.
Qed.
Lemma red_fold_inv thr R0 l acc : incl l red_moves -> red_inv R0 (fst acc) -> red_inv R0 (fst (fold_left (red_try thr) l acc)).
Proof.
  revert acc. induction l as [|m l IH]; intros acc Hl H; cbn; auto.
  apply IH; [intros x Hx; apply Hl; right; auto|]. destruct acc as [st ch].
  apply red_try_inv; auto. apply Hl; left; auto.
Qed.

(** Norm never grows, and drops by more than the tolerance when something changed. *)
Lemma red_try_norm thr st ch m : 0 <= thr ->
  rnrm2 (rs_R (fst (red_try thr (st,ch) m))) <= rnrm2 (rs_R st).
Proof.
  intros Ht. destruct m as [[k1 i] j]. unfold red_try. destruct (Rlt_dec _ _) as [h|h]; cbn [fst rs_R]; lra.
Qed.
Lemma red_fold_norm thr l st ch : 0 <= thr ->
  let r := fold_left (red_try thr) l (st,ch) in
  rnrm2 (rs_R (fst r)) <= rnrm2 (rs_R st) /\
  (snd r = true -> ch = true \/ rnrm2 (rs_R (fst r)) < rnrm2 (rs_R st) - thr) /\
  (snd r = false -> ch = false /\ fst r = st /\
     forall k1 i j, In (k1,i,j) l -> rnrm2 (rs_R st) - thr <= rnrm2 (rmm (rs_R st) (mIZR (red_d k1 i j)))).
Proof.
  intros Ht. revert st ch. induction l as [|m l IH]; intros st ch; cbn zeta; cbn [fold_left].
  - cbn. repeat split; auto; try lra. intros; contradiction.
  - destruct (red_try thr (st,ch) m) as [st' ch'] eqn:E. specialize (IH st' ch'). cbn zeta in IH.
    destruct m as [[k1 i] j]. unfold red_try in E.
    destruct (Rlt_dec (rnrm2 (rmm (rs_R st) (mIZR (red_d k1 i j)))) (rnrm2 (rs_R st) - thr)) as [h|h]; injection E as E1 E2.
    + subst ch'. destruct IH as (A&B&C).
      assert (Hd : rnrm2 (rs_R st') < rnrm2 (rs_R st) - thr) by (subst st'; cbn [rs_R]; lra).
      split; [lra|]. split; [right; lra|]. intros F. destruct (C F); discriminate.
    + subst st' ch'. destruct IH as (A&B&C). split; [auto|]. split; [auto|].
      intros F. destruct (C F) as (F1&F2&F3). split; auto. split; auto.
      intros k i' j' [Q|Q]; [injection Q as <- <- <-; lra|auto].
Qed.

Lemma red_fold_norm' thr l st st1 ch : 0 <= thr -> fold_left (red_try thr) l (st,false) = (st1,ch) ->
  rnrm2 (rs_R st1) <= rnrm2 (rs_R st) /\
  (ch = true -> rnrm2 (rs_R st1) < rnrm2 (rs_R st) - thr) /\
  (ch = false -> st1 = st /\
     forall k1 i j, In (k1,i,j) l -> rnrm2 (rs_R st) - thr <= rnrm2 (rmm (rs_R st) (mIZR (red_d k1 i j)))).
Proof.
  intros Ht E. pose proof (red_fold_norm thr l st false Ht) as N. cbn zeta in N.
  rewrite E in N. cbn [fst snd] in N. destruct N as (N1&N2&N3). split; [exact N1|]. split.
  - intros H. destruct (N2 H); [discriminate|assumption].
  - intros H. destruct (N3 H) as (_&A&B). split; assumption.
Qed.
Lemma red_fold_inv' thr l R0 st st1 ch : incl l red_moves -> red_inv R0 st ->
  fold_left (red_try thr) l (st,false) = (st1,ch) -> red_inv R0 st1.
Proof.
  intros Hl Hi E. pose proof (red_fold_inv thr R0 l (st,false) Hl Hi) as I1.
  rewrite E in I1. exact I1.
Qed.
Lemma red_sweep_norm thr st st1 ch : 0 <= thr -> red_sweep thr st = (st1,ch) ->
  rnrm2 (rs_R st1) <= rnrm2 (rs_R st) /\
  (ch = true -> rnrm2 (rs_R st1) < rnrm2 (rs_R st) - thr) /\
  (ch = false -> st1 = st /\
     forall k1 i j, In (k1,i,j) red_moves -> rnrm2 (rs_R st) - thr <= rnrm2 (rmm (rs_R st) (mIZR (red_d k1 i j)))).
Proof. unfold red_sweep. intros Ht E. exact (red_fold_norm' thr red_moves st st1 ch Ht E). Qed.
Lemma red_sweep_inv thr R0 st st1 ch : red_inv R0 st -> red_sweep thr st = (st1,ch) -> red_inv R0 st1.
Proof. unfold red_sweep. intros Hi E. exact (red_fold_inv' thr red_moves R0 st st1 ch (incl_refl _) Hi E). Qed.
Opaque red_sweep.

Lemma red_loop_some fuel thr R0 st st' : 0 <= thr -> red_inv R0 st -> red_loop fuel thr st = Some st' ->
  red_inv R0 st' /\ rnrm2 (rs_R st') <= rnrm2 (rs_R st) /\
  forall k1 i j, (k1 < 3)%nat -> (-1 <= i <= 1)%Z -> (-1 <= j <= 1)%Z ->
    rnrm2 (rs_R st') - thr <= rnrm2 (rmm (rs_R st') (mIZR (red_d k1 i j))).
Proof.
  intros Ht. revert st. induction fuel as [|fuel IH]; intros st Hi; cbn [red_loop]; [discriminate|].
  destruct (red_sweep thr st) as [st1 ch] eqn:E.
  destruct (red_sweep_norm thr st st1 ch Ht E) as (N1&N2&N3).
  pose proof (red_sweep_inv thr R0 st st1 ch Hi E) as I1. destruct ch; intros Q.
  - destruct (IH st1 I1 Q) as (A&B&C). split; auto. split; auto. lra.
  - injection Q as <-. destruct (N3 eq_refl) as (->&F). split; auto. split; [lra|].
    intros k i j H1 H2 H3. apply F. apply in_moves; auto.
Qed.

(** Termination: the number of sweeps is bounded by norm/tolerance. *)
Lemma red_loop_terminates thr : 0 < thr -> forall fuel st, rnrm2 (rs_R st) < INR fuel * thr -> red_loop fuel thr st <> None.
Proof.
  intros Ht. induction fuel as [|fuel IH]; intros st H.
  - cbn in H. pose proof (rnrm2_pos (rs_R st)). lra.
  - cbn [red_loop]. destruct (red_sweep thr st) as [st1 ch] eqn:E. destruct ch; [|discriminate].
    apply IH. destruct (red_sweep_norm thr st st1 true (Rlt_le _ _ Ht) E) as (_&N&_).
    specialize (N eq_refl). rewrite S_INR in H. lra.
Qed.

(** ** Statements used by the property file *)
Lemma in_lattice_iff Rl x : in_lattice Rl x <-> exists n, x = rmv Rl (vIZR n).
Proof.
  split.
  - intros (n0&n1&n2&H0&H1&H2). exists (V n0 n1 n2). apply vec_ext; v3_unfold; auto.
  - intros ([n0 n1 n2]&->). exists n0, n1, n2. v3_unfold. repeat split; ring.
Qed.
Lemma same_lattice Rl t tInv : zmm t tInv = zid -> forall x, in_lattice (rmm Rl (mIZR t)) x <-> in_lattice Rl x.
Proof.
  intros H x. rewrite !in_lattice_iff. split; intros (n&->).
  - exists (zmv t n). rewrite rmv_mm, vIZR_mv. reflexivity.
  - exists (zmv tInv n). rewrite rmv_mm, vIZR_mv, <- (rmv_mm (mIZR t)), <- mIZR_mm, H. rewrite mIZR_id, rmv_id. reflexivity.
Qed.

Lemma red_norm_combo Rl k1 i j : (k1 < 3)%nat ->
  let x := match k1 with O => col0 Rl | 1%nat => col1 Rl | _ => col2 Rl end in
  let y := match k1 with O => col1 Rl | 1%nat => col2 Rl | _ => col0 Rl end in
  let z := match k1 with O => col2 Rl | 1%nat => col0 Rl | _ => col1 Rl end in
  rnrm2 (rmm Rl (mIZR (red_d k1 i j))) = sqrt (combo2 x y z 1 (IZR i) (IZR j) + len2 y + len2 z) /\
  rnrm2 Rl = sqrt (len2 x + len2 y + len2 z).
Proof.
  intros Hk. assert (L : forall v, rlen2 v = len2 v) by (intros []; unfold rlen2, rdot, gdot, len2; reflexivity).
  unfold rnrm2. destruct k1 as [|[|[|k]]]; [| | |exfalso; lia]; cbv beta iota zeta; rewrite ?red_d_0, ?red_d_1, ?red_d_2;
  (split; [|rewrite rnrm2sq_cols, (L (col0 _)), (L (col1 _)), (L (col2 _)); apply (f_equal sqrt); ring]); apply (f_equal sqrt); rewrite rnrm2sq_cols, (L (col0 _)), (L (col1 _)), (L (col2 _)).
  - replace (len2 (col0 (rmm Rl (mIZR (M 1 0 0 i 1 0 j 0 1)%Z)))) with (combo2 (col0 Rl) (col1 Rl) (col2 Rl) 1 (IZR i) (IZR j))
      by (destruct Rl; unfold combo2, len2; v3_unfold; ring).
    replace (col1 (rmm Rl (mIZR (M 1 0 0 i 1 0 j 0 1)%Z))) with (col1 Rl) by (destruct Rl; v3_unfold; f_equal; ring).
    replace (col2 (rmm Rl (mIZR (M 1 0 0 i 1 0 j 0 1)%Z))) with (col2 Rl) by (destruct Rl; v3_unfold; f_equal; ring).
    reflexivity.
  - replace (len2 (col1 (rmm Rl (mIZR (M 1 j 0 0 1 0 0 i 1)%Z)))) with (combo2 (col1 Rl) (col2 Rl) (col0 Rl) 1 (IZR i) (IZR j))
      by (destruct Rl; unfold combo2, len2; v3_unfold; ring).
    replace (col0 (rmm Rl (mIZR (M 1 j 0 0 1 0 0 i 1)%Z))) with (col0 Rl) by (destruct Rl; v3_unfold; f_equal; ring).
    replace (col2 (rmm Rl (mIZR (M 1 j 0 0 1 0 0 i 1)%Z))) with (col2 Rl) by (destruct Rl; v3_unfold; f_equal; ring).
    ring.
  - replace (len2 (col2 (rmm Rl (mIZR (M 1 0 i 0 1 j 0 0 1)%Z)))) with (combo2 (col2 Rl) (col0 Rl) (col1 Rl) 1 (IZR i) (IZR j))
      by (destruct Rl; unfold combo2, len2; v3_unfold; ring).
    replace (col0 (rmm Rl (mIZR (M 1 0 i 0 1 j 0 0 1)%Z))) with (col0 Rl) by (destruct Rl; v3_unfold; f_equal; ring).
    replace (col1 (rmm Rl (mIZR (M 1 0 i 0 1 j 0 0 1)%Z))) with (col1 Rl) by (destruct Rl; v3_unfold; f_equal; ring).
    ring.
Qed.

Lemma lattice_reduced_of Rl thr :
  (forall k1 i j, (k1 < 3)%nat -> (-1 <= i <= 1)%Z -> (-1 <= j <= 1)%Z ->
    rnrm2 Rl - thr <= rnrm2 (rmm Rl (mIZR (red_d k1 i j)))) -> lattice_reduced thr Rl.
Proof.
  intros H. unfold lattice_reduced, not_shortened. repeat split; intros i j Hi Hj.
  - destruct (red_norm_combo Rl 0 i j) as (A&B); [lia|]. rewrite <- A, <- B. apply H; auto.
  - destruct (red_norm_combo Rl 1 i j) as (A&B); [lia|]. rewrite <- A, <- B. apply H; auto.
  - destruct (red_norm_combo Rl 2 i j) as (A&B); [lia|]. rewrite <- A, <- B. apply H; auto.
Qed.

Lemma reduceMatrix_result fuel thr Rl st : 0 <= thr -> reduceMatrix fuel thr Rl = Some st ->
  rs_R st = rmm Rl (mIZR (rs_t st)) /\ zmm (rs_t st) (rs_tInv st) = zid /\ zmm (rs_tInv st) (rs_t st) = zid /\
  zdet (rs_t st) = 1%Z /\ rdet (rs_R st) = rdet Rl /\ lattice_reduced thr (rs_R st) /\ rnrm2 (rs_R st) <= rnrm2 Rl.
Proof.
  intros Ht H. apply (red_loop_some fuel thr Rl) in H; auto.
  - destruct H as ((A&B&C&D)&E&F). repeat split; auto; try (apply lattice_reduced_of; auto).
    rewrite A, rdet_mm, <- mIZR_det, D. ring.
  - unfold red_inv; cbn [rs_R rs_t rs_tInv]. rewrite mIZR_id, rmm_id_r. auto.
Qed.

Lemma reduceMatrix_terminates thr Rl fuel : 0 < thr -> (Z.to_nat (up (rnrm2 Rl / thr)) <= fuel)%nat -> reduceMatrix fuel thr Rl <> None.
Proof.
  intros Ht Hf. apply red_loop_terminates; auto. cbn [rs_R].
  destruct (archimed (rnrm2 Rl / thr)) as (A&_).
  assert (P : 0 <= rnrm2 Rl / thr). { apply Rmult_le_pos; [apply rnrm2_pos|]. left. apply Rinv_0_lt_compat; auto. }
  assert (Q : (0 < up (rnrm2 Rl / thr))%Z). { apply lt_IZR. lra. }
  apply le_INR in Hf. rewrite INR_IZR_INZ in Hf. rewrite Z2Nat.id in Hf by lia.
  replace (rnrm2 Rl) with (rnrm2 Rl / thr * thr) by (field; lra).
  apply Rmult_lt_compat_r; lra.
Qed.
