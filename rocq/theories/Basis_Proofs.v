(** Proofs about the plane-wave basis (C37). *)
From Coq Require Import ZArith Reals List Bool Lia Lra Sorted.
From Verif Require Import Base Grid_Model Grid_Spec Grid_Proofs Vec3_Model Vec3_Facts Basis_Model Basis_Spec.
Import ListNotations.
Open Scope R_scope.

Lemma quad_form Rl v : rdot v (rmv (gGGT Rl) v) = rlen2 (rvm v (gG Rl)).
Proof. unfold gGGT. generalize (gG Rl). intros m. v3_sring. Qed.
Lemma cols_dot m q : V (rdot q (col0 m)) (rdot q (col1 m)) (rdot q (col2 m)) = rvm q m.
Proof. v3_ring. Qed.
Lemma rvm_scale_m s v m : rvm v (rmscale s m) = rvscale s (rvm v m). Proof. v3_ring. Qed.
Lemma rvm_scale_v s v m : rvm (rvscale s v) m = rvscale s (rvm v m). Proof. v3_ring. Qed.
Lemma wave_unique Rl k g q : rdet Rl <> 0 -> (wave_vector Rl k g q <-> q = rvm (rvadd (vIZR g) k) (gG Rl)).
Proof.
  intros H. assert (E : wave_vector Rl k g q <-> rvm q Rl = rvscale (2 * PI) (rvadd (vIZR g) k)).
  { rewrite <- cols_dot. unfold wave_vector. replace (rvscale (2 * PI) (rvadd (vIZR g) k)) with (V (2 * PI * (IZR (c0 g) + c0 k)) (2 * PI * (IZR (c1 g) + c1 k)) (2 * PI * (IZR (c2 g) + c2 k))) by (clear; destruct g, k; v3_ring).
    split; [intros (A&B&C); rewrite A, B, C; auto|]. intros X. injection X. auto. }
  rewrite E. unfold gG. rewrite rvm_scale_m. split; intros X.
  - rewrite <- (rvm_id q), <- (rinv_r Rl H), rvm_mm, X. apply rvm_scale_v.
  - rewrite X, rvm_scale_v, <- rvm_mm, rinv_l, rvm_id by auto. auto.
Qed.
Lemma within_spec Rl Ecut k g : rdet Rl <> 0 -> (within Rl Ecut k g = true <-> below_cutoff Rl Ecut k g).
Proof.
  intros H. unfold within, below_cutoff. rewrite quad_form. split.
  - destruct (Rle_dec _ _) as [L|]; [|discriminate]. intros _. exists (rvm (rvadd (vIZR g) k) (gG Rl)). split; [apply wave_unique; auto|lra].
  - intros (q&W&L). apply wave_unique in W; auto. subst q. destruct (Rle_dec _ _) as [|N]; auto. exfalso. apply N. lra.
Qed.
(** Cauchy-Schwarz *)
Lemma cauchy a b : rdot a b * rdot a b <= rlen2 a * rlen2 b.
Proof.
  destruct a as [a0 a1 a2], b as [b0 b1 b2]. v3_unfold.
  pose proof (Rle_0_sqr (a0 * b1 - a1 * b0)). pose proof (Rle_0_sqr (a1 * b2 - a2 * b1)). pose proof (Rle_0_sqr (a2 * b0 - a0 * b2)). unfold Rsqr in *. lra.
Qed.
Lemma ceil_bound x : x <= IZR (ceilZ x).
Proof. unfold ceilZ. rewrite opp_IZR. pose proof (base_Int_part (- x)). lra. Qed.
Lemma trunc_bound x : x < IZR (truncZ x) + 1.
Proof. unfold truncZ. pose proof (base_Int_part x). lra. Qed.
Lemma in_box Ecut a q ki (g : Z) : 0 <= Ecut -> rlen2 q / 2 <= Ecut -> rdot q a = 2 * PI * (IZR g + ki) -> (- iGbox Ecut a ki <= g <= iGbox Ecut a ki)%Z.
Proof.
  intros HE L D. pose proof PI_RGT_0 as Hpi. set (b := sqrt (2 * Ecut) * sqrt (rlen2 a) / (2 * PI)).
  assert (B : Rabs (IZR g + ki) <= b).
  { unfold b. apply (Rmult_le_reg_l (2 * PI)); [lra|]. replace (2 * PI * (sqrt (2 * Ecut) * sqrt (rlen2 a) / (2 * PI))) with (sqrt (2 * Ecut) * sqrt (rlen2 a)) by (field; lra).
    rewrite <- (Rabs_pos_eq (2 * PI)) at 1 by lra. rewrite <- Rabs_mult, <- D. rewrite <- sqrt_mult by (try apply rlen2_pos; lra).
    rewrite <- (sqrt_Rsqr_abs (rdot q a)). apply sqrt_le_1_alt. unfold Rsqr. apply (Rle_trans _ _ _ (cauchy q a)). apply Rmult_le_compat_r; [apply rlen2_pos|lra]. }
  pose proof (trunc_bound b). pose proof (ceil_bound (Rabs ki)). unfold iGbox. fold b.
  assert (X : Rabs (IZR g) < IZR (1 + truncZ b + ceilZ (Rabs ki))).
  { rewrite !plus_IZR. replace (IZR g) with ((IZR g + ki) + - ki) by ring. pose proof (Rabs_triang (IZR g + ki) (- ki)). rewrite Rabs_Ropp in *. lra. }
  rewrite <- abs_IZR in X. apply lt_IZR in X. lia.
Qed.
Lemma in_sym b x : In x (symRange b) <-> (- b <= x <= b)%Z.
Proof. unfold symRange. rewrite in_zrange. lia. Qed.
Lemma basis_in Rl Ecut k g : rdet Rl <> 0 -> 0 <= Ecut -> (In g (basisVectors Rl Ecut k) <-> below_cutoff Rl Ecut k g).
Proof.
  intros H HE. unfold basisVectors. cbv zeta. rewrite in_flat_map. split.
  - intros (x&_&Hx). apply in_flat_map in Hx. destruct Hx as (y&_&Hy). apply in_flat_map in Hy. destruct Hy as (z&_&Hz).
    destruct (within Rl Ecut k (V x y z)) eqn:W; [|destruct Hz]. destruct Hz as [<-|[]]. apply within_spec in W; auto.
  - intros B. pose proof B as (q&(W0&W1&W2)&L). exists (c0 g). split; [apply in_sym; apply (in_box Ecut _ q); auto|].
    apply in_flat_map. exists (c1 g). split; [apply in_sym; apply (in_box Ecut _ q); auto|].
    apply in_flat_map. exists (c2 g). split; [apply in_sym; apply (in_box Ecut _ q); auto|].
    apply within_spec in B; auto. destruct g as [x y z]. cbn [c0 c1 c2]. rewrite B. left. auto.
Qed.
Lemma NoDup_flat_map {A B} (f : A -> list B) (key : B -> A) l : NoDup l -> (forall a, In a l -> NoDup (f a)) -> (forall a b, In a l -> In b (f a) -> key b = a) -> NoDup (flat_map f l).
Proof.
  induction l as [|a l IH]; intros N H K; cbn; [constructor|]. inversion N as [|? ? Na N']; subst. apply NoDup_app_intro.
  - apply H. left. auto.
  - apply IH; auto. + intros; apply H; right; auto. + intros; apply K; auto; right; auto.
  - intros b Hb Hb'. apply in_flat_map in Hb'. destruct Hb' as (a'&Ha'&Hb'). assert (a = a') by (rewrite <- (K a b), <- (K a' b); auto; [right|left]; auto). subst. auto.
Qed.
Lemma basis_nodup Rl Ecut k : NoDup (basisVectors Rl Ecut k).
Proof.
  unfold basisVectors. cbv zeta. apply (NoDup_flat_map _ c0).
  - apply zrange_NoDup.
  - intros x _. apply (NoDup_flat_map _ c1).
    + apply zrange_NoDup.
    + intros y _. apply (NoDup_flat_map _ c2).
      * apply zrange_NoDup.
      * intros z _. destruct within; repeat constructor; auto.
      * intros z b _ Hb. destruct within; [destruct Hb as [<-|[]]; auto|destruct Hb].
    + intros y b _ Hb. apply in_flat_map in Hb. destruct Hb as (z&_&Hb). destruct within; [destruct Hb as [<-|[]]; auto|destruct Hb].
  - intros x b _ Hb. apply in_flat_map in Hb. destruct Hb as (y&_&Hb). apply in_flat_map in Hb. destruct Hb as (z&_&Hb). destruct within; [destruct Hb as [<-|[]]; auto|destruct Hb].
Qed.
(** indices *)
Lemma decode_ok S g : pos3 S -> fits_box S g -> decodeIndex S (fullGindex S (c0 g, c1 g, c2 g)) = g.
Proof.
  intros H F. assert (G : G_point S (c0 g, c1 g, c2 g)) by (destruct S as ((a,b),c); exact F).
  rewrite fullGindex_row by auto. set (i := row_major S (v2 S) (c0 g, c1 g, c2 g)).
  assert (R : (0 <= i < nr S)%Z) by (apply full_row_range; auto).
  assert (E : fullG_init S i = (c0 g, c1 g, c2 g)). { destruct (fullG_init_spec S i H R) as (G'&E). apply (full_row_inj S); auto. }
  assert (D : decodeIndex S i = V (v0 (fullG_init S i)) (v1 (fullG_init S i)) (v2 (fullG_init S i))).
  { unfold decodeIndex, fullG_init. destruct S as ((a,b),c). destruct H as (Ha&Hb&Hc). cbn [v0 v1 v2 fst snd] in *.
    assert (Hbc : (0 < b * c)%Z) by nia. rewrite (Z.quot_div_nonneg i (b * c)) by lia.
    replace (i - b * c * (i / (b * c)))%Z with (i mod (b * c))%Z by (rewrite Z.mod_eq; lia).
    pose proof (Z.mod_pos_bound i (b * c) Hbc). rewrite (Z.quot_div_nonneg (i mod (b * c)) c) by lia.
    replace (i mod (b * c) - c * (i mod (b * c) / c))%Z with ((i mod (b * c)) mod c)%Z by (rewrite Z.mod_eq; lia).
    replace (c * b)%Z with (b * c)%Z by ring. f_equal.
    - f_equal. rewrite (Z.mul_comm b c), Z.rem_mul_r by lia. rewrite Z.mul_comm, Z.div_add by lia. rewrite Z.div_small by (apply Z.mod_pos_bound; lia). lia.
    - f_equal. rewrite (Z.mul_comm b c), Z.rem_mul_r by lia. rewrite Z.mul_comm, Z_mod_plus_full. apply Zmod_mod. }
  rewrite D, E. destruct g; auto.
Qed.
Lemma decode_list S l : pos3 S -> Forall (fits_box S) l -> setupFromIndices S (basisIndices S l) = l /\ (NoDup l -> NoDup (basisIndices S l)).
Proof.
  intros H F. assert (E : setupFromIndices S (basisIndices S l) = l).
  { unfold setupFromIndices, basisIndices. rewrite map_map. induction F; cbn; auto. rewrite decode_ok by auto. f_equal. auto. }
  split; auto. intros N. rewrite <- E in N. unfold setupFromIndices in N. apply NoDup_map_inv in N. auto.
Qed.
Lemma index_range S l : pos3 S -> Forall (fits_box S) l -> Forall (fun i => 0 <= i < nr S)%Z (basisIndices S l).
Proof.
  intros H F. unfold basisIndices. rewrite Forall_map. rewrite Forall_forall in *. intros g Hg. rewrite fullGindex_row; auto.
  - apply full_row_range; auto. - specialize (F g Hg). destruct S as ((a,b),c). exact F.
Qed.
(** head *)
Lemma low_iff g : ((zdot g g <? 4)%Z = true <-> low_G g).
Proof. destruct g as [x y z]. unfold low_G. v3_unfold. rewrite Z.ltb_lt. split; [intros; nia|]. intros (Hx&Hy&Hz). assert (x * x <= 1 /\ y * y <= 1 /\ z * z <= 1)%Z by nia. lia. Qed.
Lemma headFrom_in l : forall n m, In m (headFrom n l) <-> (exists g, (n <= m)%nat /\ nth_error l (m - n) = Some g /\ low_G g).
Proof.
  induction l as [|g l IH]; intros n m; cbn [headFrom].
  - split; [intros []|]. intros (g&_&E&_). destruct (m - n)%nat; discriminate.
  - assert (T : In m (headFrom (S n) l) <-> (exists g', (S n <= m)%nat /\ nth_error (g :: l) (m - n) = Some g' /\ low_G g')).
    { rewrite IH. split; intros (g'&A&B&C); exists g'; (split; [lia|split; auto]).
      - replace (m - n)%nat with (S (m - S n)) by lia. auto. - replace (m - n)%nat with (S (m - S n)) in B by lia. auto. }
    destruct (zdot g g <? 4)%Z eqn:L.
    + apply low_iff in L. cbn [In]. rewrite T. split.
      * intros [->|(g'&A&B)]; [exists g; rewrite Nat.sub_diag; auto|exists g'; split; [lia|auto]].
      * intros (g'&A&B&C). destruct (Nat.eq_dec n m) as [->|]; [left; auto|right]. exists g'. split; [lia|auto].
    + rewrite T. split; intros (g'&A&B&C); [exists g'; split; [lia|auto]|].
      destruct (Nat.eq_dec n m) as [->|]. * rewrite Nat.sub_diag in B. cbn in B. injection B as <-. apply low_iff in C. congruence. * exists g'. split; [lia|auto].
Qed.
Lemma headFrom_sorted l : forall n, StronglySorted lt (headFrom n l) /\ Forall (le n) (headFrom n l).
Proof.
  induction l as [|g l IH]; intros n; cbn [headFrom]; [split; constructor|]. destruct (IH (S n)) as (A&B). destruct (zdot g g <? 4)%Z.
  - split; constructor; auto. eapply Forall_impl; [|exact B]. cbn. intros. lia.
  - split; auto. eapply Forall_impl; [|exact B]. cbn. intros. lia.
Qed.
Lemma head_ok l : StronglySorted lt (basisHead l) /\ forall n, In n (basisHead l) <-> exists g, nth_error l n = Some g /\ low_G g.
Proof.
  split; [apply headFrom_sorted|]. intros n. unfold basisHead. rewrite headFrom_in. rewrite Nat.sub_0_r. split; intros (g&A); exists g; [apply A|split; [lia|auto]].
Qed.
(** the automatic FFT box holds the sphere *)
Lemma fits_dim Ecut GmaxRho a q ki (g s : Z) : 0 <= Ecut -> rlen2 q / 2 <= Ecut -> rdot q a = 2 * PI * (IZR g + ki) -> Rabs ki < 1 ->
  (gridSmin Ecut GmaxRho a <= s)%Z -> (- s < 2 * g <= s)%Z.
Proof.
  intros HE L D K M. pose proof PI_RGT_0 as Hpi. set (b := sqrt (2 * Ecut) * sqrt (rlen2 a) / (2 * PI)).
  assert (B : Rabs (IZR g + ki) <= b).
  { unfold b. apply (Rmult_le_reg_l (2 * PI)); [lra|]. replace (2 * PI * (sqrt (2 * Ecut) * sqrt (rlen2 a) / (2 * PI))) with (sqrt (2 * Ecut) * sqrt (rlen2 a)) by (field; lra).
    rewrite <- (Rabs_pos_eq (2 * PI)) at 1 by lra. rewrite <- Rabs_mult, <- D. rewrite <- sqrt_mult by (try apply rlen2_pos; lra).
    rewrite <- (sqrt_Rsqr_abs (rdot q a)). apply sqrt_le_1_alt. unfold Rsqr. apply (Rle_trans _ _ _ (cauchy q a)). apply Rmult_le_compat_r; [apply rlen2_pos|lra]. }
  unfold gridSmin in M. set (b' := Rmax (sqrt (2 * Ecut)) (0.5 * GmaxRho) * sqrt (rlen2 a) / (2 * PI)) in M.
  assert (BB : b <= b'). { unfold b, b', Rdiv. apply Rmult_le_compat_r; [left; apply Rinv_0_lt_compat; lra|]. apply Rmult_le_compat_r; [apply sqrt_pos|]. apply Rmax_l. }
  pose proof (ceil_bound b'). set (n := ceilZ b') in *.
  assert (X : Rabs (IZR g) < IZR (n + 1)).
  { rewrite plus_IZR. replace (IZR g) with ((IZR g + ki) + - ki) by ring. pose proof (Rabs_triang (IZR g + ki) (- ki)). rewrite Rabs_Ropp in *. lra. }
  rewrite <- abs_IZR in X. apply lt_IZR in X. lia.
Qed.
Lemma fits_all Rl Ecut GmaxRho k s0 s1 s2 g : rdet Rl <> 0 -> 0 <= Ecut -> Rabs (c0 k) < 1 -> Rabs (c1 k) < 1 -> Rabs (c2 k) < 1 ->
  (gridSmin Ecut GmaxRho (col0 Rl) <= s0)%Z -> (gridSmin Ecut GmaxRho (col1 Rl) <= s1)%Z -> (gridSmin Ecut GmaxRho (col2 Rl) <= s2)%Z ->
  below_cutoff Rl Ecut k g -> fits_box (s0,s1,s2) g.
Proof. intros H HE K0 K1 K2 S0 S1 S2 (q&(W0&W1&W2)&L). cbn. refine (conj _ (conj _ _)); eapply fits_dim; eauto. Qed.
Lemma basis_fits Rl Ecut GmaxRho k s0 s1 s2 : rdet Rl <> 0 -> 0 <= Ecut -> Rabs (c0 k) < 1 -> Rabs (c1 k) < 1 -> Rabs (c2 k) < 1 ->
  (gridSmin Ecut GmaxRho (col0 Rl) <= s0)%Z -> (gridSmin Ecut GmaxRho (col1 Rl) <= s1)%Z -> (gridSmin Ecut GmaxRho (col2 Rl) <= s2)%Z ->
  Forall (fits_box (s0,s1,s2)) (basisVectors Rl Ecut k).
Proof. intros. apply Forall_forall. intros g Hg. apply basis_in in Hg; auto. eapply fits_all; eauto. Qed.
Lemma gridSmin_pos Ecut GmaxRho a : (1 <= gridSmin Ecut GmaxRho a)%Z. Proof. unfold gridSmin. lia. Qed.
(** cubic example *)
Definition cubic := rmscale (2 * PI) rid.
Lemma cubic_det : rdet cubic <> 0.
Proof.
  unfold cubic. v3_unfold. pose proof PI_RGT_0. match goal with |- ?x <> 0 => replace x with (2 * PI * (2 * PI * (2 * PI))) by ring end.
  assert (0 < 2 * PI) by lra. assert (0 < 2 * PI * (2 * PI)) by (apply Rmult_lt_0_compat; auto). assert (0 < 2 * PI * (2 * PI * (2 * PI))) by (apply Rmult_lt_0_compat; auto). lra.
Qed.
Lemma cubic_below Ecut k g : below_cutoff cubic Ecut k g <-> rlen2 (rvadd (vIZR g) k) / 2 <= Ecut.
Proof.
  pose proof PI_RGT_0.
  assert (E : forall q, wave_vector cubic k g q <-> q = rvadd (vIZR g) k).
  { intros q. rewrite wave_unique by apply cubic_det. assert (G : gG cubic = rid).
    { unfold gG. assert (X : rmm (rmscale (2 * PI) (rinv cubic)) rid = rmm (rinv cubic) cubic) by (unfold cubic at 3; generalize (rinv cubic); v3_ring).
      rewrite rmm_id_r in X. rewrite X. apply rinv_l, cubic_det. }
    rewrite G, rvm_id. tauto. }
  split. - intros (q&W&L). apply E in W. subst. auto. - intros L. eexists. split; [apply E; reflexivity|auto].
Qed.
Lemma cubic_smin : gridSmin (1/2) 0 (col0 cubic) = 4%Z /\ gridSmin (1/2) 0 (col1 cubic) = 4%Z /\ gridSmin (1/2) 0 (col2 cubic) = 4%Z.
Proof.
  pose proof PI_RGT_0.
  assert (X : forall a, rlen2 a = (2 * PI) * (2 * PI) -> gridSmin (1/2) 0 a = 4%Z).
  { intros a Ha. unfold gridSmin. rewrite Ha, sqrt_square by lra. replace (2 * (1/2)) with 1 by field. rewrite sqrt_1, Rmax_left by lra.
    replace (1 * (2 * PI) / (2 * PI)) with 1 by (field; lra). unfold ceilZ.
    replace (Int_part (- (1))) with (-1)%Z; [lia|]. unfold Int_part. rewrite <- (tech_up (- (1)) 0); [lia| |]; lra. }
  unfold cubic. repeat split; apply X; v3_unfold; ring.
Qed.
Lemma roundtrip_all : forall Rl Ecut GmaxRho k s0 s1 s2, rdet Rl <> 0 -> 0 <= Ecut ->
  Rabs (c0 k) < 1 -> Rabs (c1 k) < 1 -> Rabs (c2 k) < 1 ->
  (gridSmin Ecut GmaxRho (col0 Rl) <= s0)%Z -> (gridSmin Ecut GmaxRho (col1 Rl) <= s1)%Z -> (gridSmin Ecut GmaxRho (col2 Rl) <= s2)%Z ->
  let b := basisVectors Rl Ecut k in
  Forall (fits_box (s0,s1,s2)) b /\ Forall (fun i => 0 <= i < nr (s0,s1,s2))%Z (basisIndices (s0,s1,s2) b) /\
  NoDup (basisIndices (s0,s1,s2) b) /\ setupFromIndices (s0,s1,s2) (basisIndices (s0,s1,s2) b) = b.
Proof.
  intros Rl Ecut GmaxRho k s0 s1 s2 H HE K0 K1 K2 S0 S1 S2 b. pose proof (basis_fits Rl Ecut GmaxRho k s0 s1 s2 H HE K0 K1 K2 S0 S1 S2) as F. fold b in F.
  assert (P : pos3 (s0,s1,s2)). { pose proof (gridSmin_pos Ecut GmaxRho (col0 Rl)). pose proof (gridSmin_pos Ecut GmaxRho (col1 Rl)). pose proof (gridSmin_pos Ecut GmaxRho (col2 Rl)). cbn. lia. }
  destruct (decode_list _ b P F) as (E&N). split; [exact F|split; [apply index_range; auto|split; [|exact E]]]. apply N, basis_nodup.
Qed.
Lemma roundtrip_far_k : exists Rl Ecut k s, rdet Rl <> 0 /\ 0 <= Ecut /\
  (gridSmin Ecut 0 (col0 Rl) <= s)%Z /\ (gridSmin Ecut 0 (col1 Rl) <= s)%Z /\ (gridSmin Ecut 0 (col2 Rl) <= s)%Z /\
  let b := basisVectors Rl Ecut k in setupFromIndices (s,s,s) (basisIndices (s,s,s) b) <> b.
Proof.
  exists cubic, (1/2), (V 1 0 0), 4%Z. destruct cubic_smin as (A&B&C). rewrite A, B, C. split; [apply cubic_det|]. split; [lra|]. split; [lia|]. split; [lia|]. split; [lia|]. cbv zeta.
  set (b := basisVectors cubic (1/2) (V 1 0 0)). assert (I : In (V (-2) 0 0)%Z b). { apply basis_in; [apply cubic_det|lra|]. apply cubic_below. v3_unfold. lra. }
  unfold setupFromIndices, basisIndices. rewrite map_map. intros E.
  assert (X : forall l, map (fun x => decodeIndex (4, 4, 4)%Z (fullGindex (4, 4, 4)%Z (c0 x, c1 x, c2 x))) l = l -> In (V (-2) 0 0)%Z l -> False).
  { induction l as [|a l IH]; cbn; [tauto|]. intros Y [->|J]; injection Y; intros Y1 Y2; [discriminate Y2|auto]. }
  eapply X; eauto.
Qed.
