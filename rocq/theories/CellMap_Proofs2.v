(** Equivalence of cells, nearest images and weights. *)
From Coq Require Import ZArith Reals List Bool Lia Lra Psatz Permutation Sorted Classical.
From Verif Require Import Base Vec3_Model Vec3_Facts Lattice_Model RealUtil Coulomb_Model Coulomb_Proofs WS_Model WS_Spec WS_Proofs WS_Proofs2 WS_Proofs3 CellMap_Model CellMap_Spec CellMap_Proofs.
Import ListNotations.
Local Open Scope R_scope.

Lemma sup_det Rl super : rdet Rl <> 0 -> zdet super <> 0%Z -> rdet (rmm Rl (mIZR super)) <> 0.
Proof. intros D Z. rewrite rdet_mm, <- mIZR_det. intros Q. apply Rmult_integral in Q. destruct Q as [Q|Q]; [auto|apply eq_IZR in Q; auto]. Qed.
Lemma mdet_nz super : zdet super <> 0%Z -> rdet (mIZR super) <> 0.
Proof. intros Z Q. rewrite <- mIZR_det in Q. apply eq_IZR in Q. auto. Qed.
Lemma superInv_eq Rl super : rdet Rl <> 0 -> zdet super <> 0%Z -> superInv Rl (rmm Rl (mIZR super)) = rinv (mIZR super).
Proof. intros D Z. unfold superInv. rewrite rinv_mm by auto using mdet_nz. rewrite <- rmm_assoc, rinv_l by auto. apply rmm_id_r. Qed.
Lemma rmv_add m u v : rmv m (rvadd u v) = rvadd (rmv m u) (rmv m v).
Proof. destruct m, u, v. v3u. f_equal; ring. Qed.
Lemma rmv_sub m u v : rmv m (rvsub u v) = rvsub (rmv m u) (rmv m v).
Proof. destruct m, u, v. v3u. f_equal; ring. Qed.
Lemma vIZR_add u v : vIZR (zvadd u v) = rvadd (vIZR u) (vIZR v).
Proof. destruct u as [u0 u1 u2], v as [v0 v1 v2]. unfold zvadd, gvadd, vIZR, vmap. cbn [c0 c1 c2]. rewrite !plus_IZR. reflexivity. Qed.
Lemma vIZR_sub u v : vIZR (zvsub u v) = rvsub (vIZR u) (vIZR v).
Proof. destruct u as [u0 u1 u2], v as [v0 v1 v2]. unfold zvsub, gvsub, vIZR, vmap. cbn [c0 c1 c2]. rewrite !minus_IZR. reflexivity. Qed.
Lemma vIZR_inj u v : vIZR u = vIZR v -> u = v.
Proof. destruct u as [u0 u1 u2], v as [v0 v1 v2]. unfold vIZR, vmap. cbn [c0 c1 c2]. intros H. injection H as H0 H1 H2. f_equal; apply eq_IZR; auto. Qed.
Lemma inv_apply m v : rdet m <> 0 -> rmv (rinv m) (rmv m v) = v.
Proof. intros D. rewrite <- rmv_mm, rinv_l by auto. apply rmv_id. Qed.
Lemma apply_inv m v : rdet m <> 0 -> rmv m (rmv (rinv m) v) = v.
Proof. intros D. rewrite <- rmv_mm, rinv_r by auto. apply rmv_id. Qed.
Lemma rinv_adj super d : zdet super <> 0%Z -> rmv (rinv (mIZR super)) (vIZR d) = rvscale (1 / IZR (zdet super)) (vIZR (zmv (zadj super) d)).
Proof.
  intros Z. rewrite vIZR_mv. unfold rinv. rewrite <- mIZR_det.
  replace (radj (mIZR super)) with (mIZR (zadj super)).
  2:{ destruct super as [s00 s01 s02 s10 s11 s12 s20 s21 s22]. unfold mIZR, mmap, zadj, radj, gadj. cbv [gcross mtrans set_rows set_cols row0 row1 row2 col0 col1 col2]. cbn [c0 c1 c2 m00 m01 m02 m10 m11 m12 m20 m21 m22]. f_equal; rewrite ?minus_IZR, ?mult_IZR; reflexivity. }
  destruct (zadj super), d. v3u. f_equal; ring.
Qed.
Lemma rround_IZR n : rround (IZR n) = n.
Proof.
  unfold rround. destruct (Rle_dec 0 (IZR n)); [apply rfloor_unique; lra|]. rewrite (rfloor_unique _ (- n)%Z); [lia|]. rewrite opp_IZR. lra.
Qed.
Lemma rlen_comp v : Rabs (c0 v) <= rlen v /\ Rabs (c1 v) <= rlen v /\ Rabs (c2 v) <= rlen v.
Proof.
  destruct v as [a b c]. unfold rlen. cbn [c0 c1 c2]. rewrite <- (sqrt_Rsqr_abs a), <- (sqrt_Rsqr_abs b), <- (sqrt_Rsqr_abs c). unfold Rsqr. v3u.
  assert (A := Rle_0_sqr a). assert (B := Rle_0_sqr b). assert (C := Rle_0_sqr c). unfold Rsqr in *. repeat split; apply sqrt_le_1; lra.
Qed.
Lemma near_int D a x : (D <> 0)%Z -> x = 1 / IZR D * IZR a -> Rabs (x - IZR (rround x)) * Rabs (IZR D) < 1 -> x = IZR (rround x).
Proof.
  intros Z E H. set (n := rround x) in *. assert (IZR D <> 0) by (intros Q; apply eq_IZR in Q; auto). rewrite <- Rabs_mult in H.
  replace ((x - IZR n) * IZR D) with (IZR (a - n * D)) in H by (rewrite minus_IZR, mult_IZR, E; field; auto).
  rewrite Rabs_Zabs in H. apply lt_IZR in H. assert (a = n * D)%Z by lia. subst a. rewrite E, mult_IZR. field. auto.
Qed.
Lemma equiv_iff Rl super thr a b : rdet Rl <> 0 -> zdet super <> 0%Z -> 0 < thr -> thr * Rabs (IZR (zdet super)) <= 1 ->
  equivCell Rl (rmm Rl (mIZR super)) thr a b = true <-> same_cell super a b.
Proof.
  intros D Z T B. unfold equivCell. rewrite superInv_eq by auto. set (d := zvsub b a).
  assert (Qb : forall n, b = zvadd a n <-> d = n).
  { intros n. unfold d. destruct a as [a0 a1 a2], b as [b0 b1 b2], n as [n0 n1 n2]. unfold zvadd, zvsub, gvadd, gvsub. cbn [c0 c1 c2]. split; intros H; injection H; intros; f_equal; lia. }
  split.
  { destruct (Rlt_dec _ thr) as [L|]; [|discriminate]. intros _. unfold roundErr in L. set (v := rmv (rinv (mIZR super)) (vIZR d)) in *.
    assert (Ev := rinv_adj super d Z). fold v in Ev. set (w := zmv (zadj super) d) in *. destruct (rlen_comp (rvadd v (rvopp (vIZR (vmap rround v))))) as (A0 & A1 & A2).
    assert (Dp : 0 < Rabs (IZR (zdet super))) by (apply Rabs_pos_lt; intros Q; apply eq_IZR in Q; auto).
    assert (N : v = vIZR (vmap rround v)).
    { clearbody w. destruct v as [p q r], w as [w0 w1 w2]. revert Ev A0 A1 A2 L. v3u. intros Ev A0 A1 A2 L. injection Ev as E0 E1 E2. unfold rlen in *.
      set (e := sqrt _) in *. assert (K : e * Rabs (IZR (zdet super)) < 1) by nra. clearbody e.
      f_equal; (eapply near_int; [exact Z|rewrite Rmult_comm; eassumption|]); (eapply Rle_lt_trans; [|exact K]; apply Rmult_le_compat_r; [lra|]; unfold Rminus; assumption). }
    exists (vmap rround v). apply Qb. apply vIZR_inj. rewrite vIZR_mv, <- N. unfold v. rewrite apply_inv by auto using mdet_nz. reflexivity. }
  { intros (n & E). apply Qb in E. rewrite E, vIZR_mv, inv_apply by auto using mdet_nz. unfold roundErr.
    replace (rvadd (vIZR n) _) with (V 0 0 0). 2:{ destruct n as [n0 n1 n2]. v3u. rewrite !rround_IZR. f_equal; ring. }
    replace (rlen (V 0 0 0)) with 0. 2:{ unfold rlen. v3u. replace (0*0+0*0+0*0) with 0 by ring. symmetry; apply sqrt_0. }
    destruct (Rlt_dec 0 thr); [reflexivity|lra]. }
Qed.
Lemma same_refl super a : same_cell super a a.
Proof. exists (V 0 0 0)%Z. destruct a as [a0 a1 a2], super as [s00 s01 s02 s10 s11 s12 s20 s21 s22]. unfold zvadd, zmv, gvadd, gmv, gdot, row0, row1, row2. cbn. f_equal; ring. Qed.
Lemma same_sym super a b : same_cell super a b -> same_cell super b a.
Proof. intros (n & ->). exists (zvopp n). destruct a as [a0 a1 a2], super as [s00 s01 s02 s10 s11 s12 s20 s21 s22], n as [n0 n1 n2]. unfold zvadd, zvopp, zmv, gvadd, gvopp, gmv, gdot, vmap, row0, row1, row2. cbn [c0 c1 c2 m00 m01 m02 m10 m11 m12 m20 m21 m22]. f_equal; ring. Qed.
Lemma same_trans super a b c : same_cell super a b -> same_cell super b c -> same_cell super a c.
Proof. intros (n & ->) (m & ->). exists (zvadd n m). destruct a as [a0 a1 a2], super as [s00 s01 s02 s10 s11 s12 s20 s21 s22], n as [n0 n1 n2], m as [p0 p1 p2]. unfold zvadd, zmv, gvadd, gmv, gdot, row0, row1, row2. cbn [c0 c1 c2 m00 m01 m02 m10 m11 m12 m20 m21 m22]. f_equal; ring. Qed.

Lemma smooth_bound t w : smoothW t = Some w -> 0 < w <= 1.
Proof.
  unfold smoothW. destruct (Rlt_dec t 1); [|discriminate]. intros H. injection H as <-. destruct (Rle_dec t (-1)); [lra|].
  assert (0 < (1 - t) * (1 - t)) by nra. assert (0 <= (1 + t) * (1 + t)) by nra. split; nra.
Qed.
Lemma smooth_in t : t <= 0 -> exists w, smoothW t = Some w /\ 1 / 2 <= w.
Proof.
  intros H. unfold smoothW. destruct (Rlt_dec t 1); [|lra]. eexists. split; [reflexivity|]. destruct (Rle_dec t (-1)); [lra|]. nra.
Qed.
Lemma neigh_some l dr d : drSqNeigh l dr = Some d -> exists n, In n l /\ d = rlen2 (rvsub dr n).
Proof.
  unfold drSqNeigh. assert (G : forall l m d, fold_left (fun m rSup => let d := rlen2 (rvsub dr rSup) in Some (match m with None => d | Some m => Rmin m d end)) l m = Some d ->
    m = Some d \/ exists n, In n l /\ d = rlen2 (rvsub dr n)).
  { induction l0 as [|a l0 IH]; intros m e; cbn [fold_left]; [auto|]. intros H. apply IH in H. destruct H as [H|(n & I & E)]; [|right; exists n; split; [right; auto|auto]].
    injection H as <-. destruct m as [m|]; [|right; exists a; split; [left; auto|auto]]. unfold Rmin. destruct (Rle_dec m _); [left; auto|right; exists a; split; [left; auto|auto]]. }
  intros H. apply G in H. destruct H as [H|H]; [discriminate|auto].
Qed.
Lemma t_in rSmooth l dr : 0 < rSmooth -> (forall n, In n l -> rlen2 dr <= rlen2 (rvsub dr n)) -> tOf rSmooth l dr <= 0.
Proof.
  intros P H. unfold tOf. destruct (drSqNeigh l dr) as [d|] eqn:E; [|lra]. apply neigh_some in E. destruct E as (n & I & ->). specialize (H n I).
  assert (0 < / rSmooth) by (apply Rinv_0_lt_compat; auto). unfold Rdiv. nra.
Qed.

Lemma tri Rl a b r s : 0 <= r -> 0 <= s -> cart2 Rl a <= r * r -> cart2 Rl b <= s * s -> cart2 Rl (rvadd a b) <= (r + s) * (r + s).
Proof.
  intros R0 S0 A B. assert (C := ip_cs Rl a b). replace (cart2 Rl (rvadd a b)) with (cart2 Rl a + 2 * ip Rl a b + cart2 Rl b).
  2:{ unfold cart2, ip. rewrite rmv_add. generalize (rmv Rl a) (rmv Rl b). intros [x y z] [u v w]. v3u. ring. }
  assert (ip Rl a b <= r * s). { apply sq_le; [nra|]. assert (0 <= cart2 Rl a) by apply cart_pos. assert (0 <= cart2 Rl b) by apply cart_pos. assert (cart2 Rl a * cart2 Rl b <= (r * r) * (s * s)) by (apply Rmult_le_compat; auto). nra. }
  nra.
Qed.
Lemma argmin {A} (f : A -> R) (a : A) l : exists m, In m (a :: l) /\ forall b, In b (a :: l) -> f m <= f b.
Proof.
  revert a. induction l as [|b l IH]; intros a. { exists a. split; [left; auto|]. intros b [<-|[]]. lra. }
  destruct (IH b) as (m & I & M). destruct (Rle_dec (f a) (f m)).
  { exists a. split; [left; auto|]. intros c [<-|Ic]; [lra|]. specialize (M c Ic). lra. }
  { exists m. split; [right; auto|]. intros c [<-|Ic]; [lra|]. apply M; auto. }
Qed.
Lemma nearest_exact Rs x : rdet Rs <> 0 -> exists l, forall l', cart2 Rs (rvsub x (vIZR l)) <= cart2 Rs (rvsub x (vIZR l')).
Proof.
  intros D. set (r := cart2 Rs x + 1). assert (P : 0 <= cart2 Rs x) by apply cart_pos.
  set (rg k := zrange (- ivMax Rs r k) (ivMax Rs r k + 1)).
  set (L := flat_map (fun a => flat_map (fun b => map (fun c => V a b c) (rg 2%nat)) (rg 1%nat)) (rg 0%nat)).
  destruct (argmin (fun l => cart2 Rs (rvsub x (vIZR l))) (V 0 0 0)%Z L) as (m & _ & M). exists m. intros l'.
  assert (Z0 : cart2 Rs (rvsub x (vIZR (V 0 0 0)%Z)) = cart2 Rs x). { f_equal. destruct x. v3u. f_equal; ring. }
  destruct (Rle_dec (cart2 Rs (rvsub x (vIZR l'))) (cart2 Rs x)) as [S|S].
  { apply M. right. assert (B : cart2 Rs (vIZR l') < 4 * r).
    { assert (T := cart_pos Rs (rvsub (rvscale 2 x) (vIZR l'))). unfold r. rewrite cart_sub1 in S.
      replace (cart2 Rs (rvsub (rvscale 2 x) (vIZR l'))) with (4 * cart2 Rs x - 4 * ip Rs x (vIZR l') + cart2 Rs (vIZR l')) in T.
      2:{ rewrite cart_sub1. unfold cart2, ip. generalize (vIZR l'). intros [a b c]. destruct Rs, x. v3u. ring. }
      assert (U := ip_cs Rs x (vIZR l')). nra. }
    assert (Q : forall k, (k < 3)%nat -> In (vget l' k) (rg k)). { intros k K. unfold rg. apply in_zrange. assert (X := box_coord Rs r l' k D K ltac:(unfold r; lra) B). lia. }
    unfold L. apply in_flat_map. exists (c0 l'). split; [apply (Q 0%nat); lia|]. apply in_flat_map. exists (c1 l'). split; [apply (Q 1%nat); lia|]. apply in_map_iff. exists (c2 l').
    split; [destruct l'; reflexivity|apply (Q 2%nat); lia]. }
  { assert (X := M (V 0 0 0)%Z (or_introl eq_refl)). cbv beta in X. rewrite Z0 in X. lra. }
Qed.
