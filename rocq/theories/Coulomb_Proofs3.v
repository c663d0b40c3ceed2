(** The slab kernels. *)
From Coq Require Import ZArith Reals List Lia Lra.
From Coquelicot Require Import Coquelicot.
From Verif Require Import Vec3_Model Vec3_Facts Basis_Model Coulomb_Model Coulomb_Spec Coulomb_Proofs Coulomb_Proofs2.
Import ListNotations.
Local Open Scope R_scope.

Lemma gG_R Rl : rdet Rl <> 0 -> rmm (gG Rl) Rl = rmscale (2 * PI) rid.
Proof. intros D. unfold gG. rewrite rmm_scale, (rinv_l Rl D). reflexivity. Qed.
Lemma mm_entry A B i j : (i < 3)%nat -> (j < 3)%nat -> mget (rmm A B) i j = rdot (mrow A i) (mcol B j).
Proof. intros I J. destruct i as [|[|[|i]]]; try lia; destruct j as [|[|[|j]]]; try lia; reflexivity. Qed.
Lemma rows_cols Rl i j : rdet Rl <> 0 -> (i < 3)%nat -> (j < 3)%nat ->
  rdot (mrow (gG Rl) i) (mcol Rl j) = if Nat.eqb i j then 2 * PI else 0.
Proof.
  intros D I J. rewrite <- mm_entry by auto. rewrite gG_R by auto.
  destruct i as [|[|[|i]]]; try lia; destruct j as [|[|[|j]]]; try lia; cbn; v3u; ring.
Qed.
Lemma ext_cols Rl u v : rdet Rl <> 0 -> (forall j, (j < 3)%nat -> rdot u (mcol Rl j) = rdot v (mcol Rl j)) -> u = v.
Proof.
  intros D H. assert (E : rvm u Rl = rvm v Rl).
  { unfold rvm, gvm. f_equal; [apply (H 0%nat)|apply (H 1%nat)|apply (H 2%nat)]; lia. }
  rewrite <- (rvm_id u), <- (rvm_id v), <- (rinv_r Rl D), !rvm_mm, E. reflexivity.
Qed.
Lemma col_pos Rl i : rdet Rl <> 0 -> (i < 3)%nat -> 0 < rlen2 (mcol Rl i).
Proof.
  intros D I. destruct (Rle_lt_or_eq_dec _ _ (rlen2_pos (mcol Rl i))) as [L|E]; [exact L|exfalso].
  assert (Z := rows_cols Rl i i D I I). rewrite Nat.eqb_refl in Z. rewrite (rlen2_0 _ (eq_sym E)) in Z.
  destruct (mrow (gG Rl) i). v3_unfold. assert (P := PI_RGT_0). lra.
Qed.
Lemma rdot_scale_l s u v : rdot (rvscale s u) v = s * rdot u v. Proof. destruct u, v. v3u. ring. Qed.
Lemma rdot_scale_r s u v : rdot u (rvscale s v) = s * rdot u v. Proof. destruct u, v. v3u. ring. Qed.

Section Normal.
  Variables (Rl : mat R) (i : nat).
  Hypothesis D : rdet Rl <> 0.
  Hypothesis H : normal_dir Rl i.
  Let n := mcol Rl i.
  Lemma row_normal : mrow (gG Rl) i = rvscale (2 * PI / rlen2 n) n.
  Proof.
    destruct H as [I O]. assert (P := col_pos Rl i D I). fold n in P. apply (ext_cols Rl); [exact D|]. intros j J.
    rewrite rows_cols by auto. rewrite rdot_scale_l.
    destruct (Nat.eqb_spec i j) as [<-|N].
    - fold n. change (rdot n n) with (rlen2 n). field. lra.
    - unfold n. rewrite (O j J) by auto. ring.
  Qed.
  Lemma row_plane j : (j < 3)%nat -> j <> i -> rdot n (mrow (gG Rl) j) = 0.
  Proof.
    intros J N. destruct H as [I _]. rewrite rdot_comm. unfold n. rewrite rows_cols by auto.
    destruct (Nat.eqb_spec j i); [congruence|reflexivity].
  Qed.
  Lemma plane_vec w : rdot n (rvm (vset w i 0) (gG Rl)) = 0.
  Proof.
    destruct H as [I _].
    assert (E : rvm (vset w i 0) (gG Rl) = rvadd (rvscale (vget (vset w i 0) 0) (mrow (gG Rl) 0))
       (rvadd (rvscale (vget (vset w i 0) 1) (mrow (gG Rl) 1)) (rvscale (vget (vset w i 0) 2) (mrow (gG Rl) 2)))).
    { generalize (vset w i 0) (gG Rl). intros a b. destruct a, b. cbn [vget mrow]. v3u. f_equal; ring. }
    rewrite E. clear E. rewrite (rdot_comm n), !rdot_add_l, !rdot_scale_l, !(rdot_comm _ n).
    assert (X : forall j, (j < 3)%nat -> vget (vset w i 0) j * rdot n (mrow (gG Rl) j) = 0).
    { intros j J. destruct (Nat.eq_dec j i) as [->|N].
      - replace (vget (vset w i 0) i) with 0; [ring|]. destruct w, i as [|[|[|q]]]; try lia; reflexivity.
      - rewrite (row_plane j J N). ring. }
    rewrite !X by lia. ring.
  Qed.
  Lemma split_vec w : rvm w (gG Rl) = rvadd (rvm (vset w i 0) (gG Rl)) (rvscale (vget w i * (2 * PI / rlen2 n)) n).
  Proof.
    destruct H as [I _].
    assert (E : rvscale (vget w i * (2 * PI / rlen2 n)) n = rvscale (vget w i) (mrow (gG Rl) i)).
    { rewrite row_normal. generalize (2 * PI / rlen2 n). intros s. destruct n. v3u. f_equal; ring. }
    rewrite E. destruct w, (gG Rl), i as [|[|[|q]]]; try lia; cbn [vget vset mrow]; v3u; f_equal; ring.
  Qed.
  Lemma GGT_ii : mget (gGGT Rl) i i = 4 * PI * PI / rlen2 n.
  Proof.
    destruct H as [I _]. assert (P := col_pos Rl i D I). fold n in P. unfold gGGT. rewrite mm_entry by auto.
    replace (mcol (mtrans (gG Rl)) i) with (mrow (gG Rl) i) by (destruct (gG Rl), i as [|[|[|q]]]; try lia; reflexivity).
    rewrite row_normal, rdot_scale_l, rdot_scale_r. change (rdot n n) with (rlen2 n). field. lra.
  Qed.
  Lemma split_len w : metric2 (gGGT Rl) w - mget (gGGT Rl) i i * vget w i * vget w i = rlen2 (rvm (vset w i 0) (gG Rl)).
  Proof.
    destruct H as [I _]. assert (P := col_pos Rl i D I). fold n in P.
    rewrite metric_len, GGT_ii, split_vec. assert (O := plane_vec w). fold n in O.
    set (a := vget w i). set (p := rvm (vset w i 0) (gG Rl)) in *. 
    replace (rlen2 (rvadd p (rvscale (a * (2 * PI / rlen2 n)) n)))
      with (rlen2 p + 2 * (a * (2 * PI / rlen2 n)) * rdot n p + (a * (2 * PI / rlen2 n)) * (a * (2 * PI / rlen2 n)) * rlen2 n).
    2: { generalize (a * (2 * PI / rlen2 n)). intros s. destruct p, n. v3u. ring. }
    rewrite O. field. lra.
  Qed.
End Normal.

Lemma mcol_mm A B i : (i < 3)%nat -> mcol (rmm A B) i = rmv A (mcol B i).
Proof. intros I. destruct i as [|[|[|i]]]; try lia; reflexivity. Qed.
Lemma def1_mv e t v : rmv (def1 e t) v = rvadd v (rvscale t (rmv e v)).
Proof. destruct e, v. unfold def1. v3u. f_equal; ring. Qed.
Lemma strained_col Rl e i c t : (i < 3)%nat -> keeps_normal e (mcol Rl i) c ->
  mcol (strained Rl e t) i = rvscale (1 + t * c) (mcol Rl i).
Proof.
  intros I [K _]. unfold strained. rewrite mcol_mm by auto. fold (def1 e t). rewrite def1_mv, K.
  destruct (mcol Rl i). v3u. f_equal; ring.
Qed.
Lemma strained_normal Rl e i c t : normal_dir Rl i -> keeps_normal e (mcol Rl i) c -> normal_dir (strained Rl e t) i.
Proof.
  intros [I O] K. split; [exact I|]. intros j J N. rewrite (strained_col Rl e i c t I K). rewrite rdot_scale_l.
  unfold strained. rewrite mcol_mm by auto. fold (def1 e t). rewrite def1_mv.
  rewrite rdot_comm, rdot_add_l, rdot_scale_l, (rdot_comm (rmv e _)), rdot_mv_vm. destruct K as [_ K]. rewrite K, rdot_scale_l.
  rewrite (rdot_comm _ (mcol Rl i)), (O j J N). ring.
Qed.
Lemma hlfL_len Rl i : (i < 3)%nat -> hlfL_of i Rl = 1/2 * sqrt (rlen2 (mcol Rl i)).
Proof.
  intros I. unfold hlfL_of. do 2 f_equal. rewrite mm_entry by auto. 
  replace (mrow (mtrans Rl) i) with (mcol Rl i) by (destruct Rl, i as [|[|[|q]]]; try lia; reflexivity). reflexivity.
Qed.
Lemma strained_hlfL Rl e i c t : (i < 3)%nat -> keeps_normal e (mcol Rl i) c -> 0 < 1 + t * c ->
  hlfL_of i (strained Rl e t) = (1 + t * c) * hlfL_of i Rl.
Proof.
  intros I K P. rewrite !hlfL_len by auto. rewrite (strained_col Rl e i c t I K).
  replace (rlen2 (rvscale (1 + t * c) (mcol Rl i))) with ((1 + t * c) * (1 + t * c) * rlen2 (mcol Rl i)) by (destruct (mcol Rl i); v3u; ring).
  rewrite sqrt_mult_alt by nra. rewrite sqrt_square by lra. ring.
Qed.
Lemma pos_loc c : locally 0 (fun t => 0 < 1 + t * c).
Proof.
  assert (C : continuous (fun t => 1 + t * c) 0) by (apply (ex_derive_continuous (V := R_NormedModule)); auto_derive; exact I).
  apply (C (fun x => 0 < x)). exists (mkposreal 1 Rlt_0_1). cbn. intros y Hy.
  unfold ball in Hy; cbn in Hy; unfold AbsRing_ball, abs, minus, plus, opp in Hy; cbn in Hy. apply Rabs_def2 in Hy. lra.
Qed.
Lemma strained_GGT Rl e i c t : rdet (strained Rl e t) <> 0 -> rdet Rl <> 0 -> normal_dir Rl i -> keeps_normal e (mcol Rl i) c -> 0 < 1 + t * c ->
  mget (gGGT (strained Rl e t)) i i = mget (gGGT Rl) i i / ((1 + t * c) * (1 + t * c)).
Proof.
  intros Dt D Hn K P. rewrite (GGT_ii _ _ Dt (strained_normal _ _ _ _ _ Hn K)), (GGT_ii _ _ D Hn).
  rewrite (strained_col Rl e i c t (proj1 Hn) K). assert (Q := col_pos Rl i D (proj1 Hn)).
  replace (rlen2 (rvscale (1 + t * c) (mcol Rl i))) with ((1 + t * c) * (1 + t * c) * rlen2 (mcol Rl i)) by (destruct (mcol Rl i); v3u; ring).
  field. split; lra.
Qed.

(** scalar core *)
Definition kslab (pl2 gsq h g : R) : R := 4 * PI * (1 - exp (- (if Rlt_dec 0 pl2 then sqrt pl2 else 0) * h) * cos (PI * g)) / gsq.
Lemma core_derive (p gam h : R -> R) S c a g :
  is_derive p 0 (-2 * S) -> is_derive gam 0 (-2 * c * gam 0) -> is_derive h 0 (c * h 0) ->
  (forall t, 0 <= p t) -> (p 0 = 0 -> locally 0 (fun t => p t = 0)) -> p 0 + a * a * gam 0 <> 0 ->
  let gsq := p 0 + a * a * gam 0 in
  let P := sqrt (p 0) in
  let Pinv := if Req_EM_T P 0 then 0 else 1 / P in
  let ec := exp (- P * h 0) * cos (PI * g) in
  let prefac1 := 2 * (1 - ec) * (1 / gsq) in
  is_derive (fun t => kslab (p t) (p t + a * a * gam t) (h t) g) 0
    (4 * PI * (1 / gsq) * ((prefac1 - ec * h 0 * Pinv) * S + (prefac1 * (a * a * gam 0) + ec * h 0 * P) * c)).
Proof.
  intros Dp Dg Dh Pp Z N gsq P Pinv ec prefac1.
  assert (Dgs : is_derive (fun t => p t + a * a * gam t) 0 (-2 * S + a * a * (-2 * c * gam 0))).
  { apply (is_derive_plus (V := R_NormedModule)); [exact Dp|]. apply is_derive_scal. exact Dg. }
  assert (Din : exists P', is_derive (fun t => (if Rlt_dec 0 (p t) then sqrt (p t) else 0) * h t) 0 (P' * h 0 + P * (c * h 0)) /\ P' = - S * Pinv).
  { destruct (Rle_lt_or_eq_dec _ _ (Pp 0)) as [L|E].
    - assert (PP : 0 < P) by (apply sqrt_lt_R0; exact L). exists (-2 * S / (2 * sqrt (p 0))). split.
      2: { fold P. unfold Pinv. destruct (Req_EM_T P 0); [lra|]. field. lra. }
      assert (C : continuous p 0) by (apply (ex_derive_continuous (V := R_NormedModule)); eexists; exact Dp).
      apply (is_derive_ext_loc (fun t => sqrt (p t) * h t)).
      { assert (Lc : locally 0 (fun t => 0 < p t)).
        { apply (C (fun x => 0 < x)). exists (mkposreal _ L). cbn. intros y Hy.
          unfold ball in Hy; cbn in Hy; unfold AbsRing_ball, abs, minus, plus, opp in Hy; cbn in Hy. apply Rabs_def2 in Hy. lra. }
        generalize Lc. apply filter_imp. intros t Ht. destruct (Rlt_dec 0 (p t)); [reflexivity|lra]. }
      assert (Ds : is_derive (fun t => sqrt (p t)) 0 (-2 * S / (2 * sqrt (p 0)))) by (apply is_derive_sqrt; auto).
      evar_last; [apply (is_derive_mult (K := R_AbsRing) (fun t => sqrt (p t)) h 0); [exact Ds|exact Dh|apply Rmult_comm]|].
      unfold plus, mult; cbn. unfold P. ring.
    - assert (P0 : P = 0) by (unfold P; rewrite <- E; apply sqrt_0). exists 0. split.
      2: { unfold Pinv. destruct (Req_EM_T P 0); [|lra]. ring. }
      apply (is_derive_ext_loc (fun _ => 0)).
      { generalize (Z (eq_sym E)). apply filter_imp. intros t Ht. rewrite Ht. destruct (Rlt_dec 0 0); [lra|]. symmetry. apply Rmult_0_l. }
      rewrite P0. replace (0 * h 0 + 0 * (c * h 0)) with 0 by ring. apply (is_derive_const (V := R_NormedModule) 0 0). }
  destruct Din as [P' [Din EP']].
  set (q := fun t => (if Rlt_dec 0 (p t) then sqrt (p t) else 0) * h t) in *.
  assert (q0 : q 0 = P * h 0).
  { unfold q, P. destruct (Rlt_dec 0 (p 0)) as [L|L]; [reflexivity|]. assert (E : p 0 = 0) by (specialize (Pp 0); lra). rewrite E, sqrt_0. ring. }
  apply (is_derive_ext (fun t => 4 * PI * (1 - exp (- q t) * cos (PI * g)) / (p t + a * a * gam t))).
  { intros t. unfold kslab, q. do 5 f_equal. ring. }
  set (gs := fun t => p t + a * a * gam t) in *. assert (gs0 : gs 0 = gsq) by reflexivity.
  assert (Dq : is_derive q 0 (P' * h 0 + P * (c * h 0))) by exact Din.
  assert (Dgg : is_derive gs 0 (-2 * S + a * a * (-2 * c * gam 0))) by exact Dgs. change (is_derive (fun t => 4 * PI * (1 - exp (- q t) * cos (PI * g)) / gs t) 0 (4 * PI * (1 / gsq) * ((prefac1 - ec * h 0 * Pinv) * S + (prefac1 * (a * a * gam 0) + ec * h 0 * P) * c))). clear Din Dgs. clearbody gs q.
  assert (QD : is_derive (fun t => 4 * PI * (1 - exp (- q t) * cos (PI * g)) / gs t) 0
     (4 * PI * (exp (- q 0) * cos (PI * g) * (P' * h 0 + P * (c * h 0)) / gs 0 - (1 - exp (- q 0) * cos (PI * g)) * (-2 * S + a * a * (-2 * c * gam 0)) / (gs 0 * gs 0)))).
  { auto_derive. { repeat split. eexists; exact Dq. eexists; exact Dgg. rewrite gs0. exact N. }
    assert (E1 : Derive q 0 = P' * h 0 + P * (c * h 0)) by (apply is_derive_unique; exact Dq).
    assert (E2 : Derive gs 0 = -2 * S + a * a * (-2 * c * gam 0)) by (apply is_derive_unique; exact Dgg).
    change (Derive (fun x : R => q x) 0) with (Derive q 0). change (Derive (fun x : R => gs x) 0) with (Derive gs 0).
    rewrite E1, E2. field. rewrite gs0. exact N. }
  evar_last; [exact QD|]. rewrite q0, gs0, EP'. replace (- (P * h 0)) with (- P * h 0) by ring. fold ec. unfold prefac1.
  field. exact N.
Qed.

(** ** assembled *)
Lemma vset_GGT Rl i w : rdet Rl <> 0 -> normal_dir Rl i ->
  metric2 (gGGT Rl) w = rlen2 (rvm (vset w i 0) (gG Rl)) + vget w i * vget w i * mget (gGGT Rl) i i.
Proof. intros D H. assert (S := split_len Rl i D H w). lra. Qed.
Lemma ddot_normal Rl e i c : rdet Rl <> 0 -> normal_dir Rl i -> keeps_normal e (mcol Rl i) c ->
  ddot (smat_mat (outer (mrow (gG Rl) i))) e = mget (gGGT Rl) i i * c.
Proof.
  intros D H K. rewrite (row_normal Rl i D H), (GGT_ii Rl i D H). assert (P := col_pos Rl i D (proj1 H)). destruct K as [K _].
  set (n := mcol Rl i) in *.
  assert (E : forall s, ddot (smat_mat (outer (rvscale s n))) e = s * s * rdot n (rmv e n)) by (intros s; destruct n, e; unfold ddot, smat_mat, outer; v3u; cbn; ring).
  rewrite E, K, rdot_scale_r. change (rdot n n) with (rlen2 n). field. lra.
Qed.

Definition slab_deriv (i : nat) (Rl e : mat R) (c : R) (w : vec R) (g : R) : R :=
  let vp := rvm (vset w i 0) (gG Rl) in
  let a := vget w i in
  let gsq := metric2 (gGGT Rl) w in
  let P := sqrt (rlen2 vp) in
  let Pinv := if Req_EM_T P 0 then 0 else 1 / P in
  let h := hlfL_of i Rl in
  let ec := exp (- P * h) * cos (PI * g) in
  let prefac1 := 2 * (1 - ec) * (1 / gsq) in
  4 * PI * (1 / gsq) * ((prefac1 - ec * h * Pinv) * ddot (smat_mat (outer vp)) e + (prefac1 * (a * a * mget (gGGT Rl) i i) + ec * h * P) * c).

Lemma slab_curve i Rl e c w g : rdet Rl <> 0 -> normal_dir Rl i -> keeps_normal e (mcol Rl i) c -> metric2 (gGGT Rl) w <> 0 ->
  is_derive (fun t => let M' := gGGT (strained Rl e t) in
    kslab (metric2 M' w - mget M' i i * vget w i * vget w i) (metric2 M' w) (hlfL_of i (strained Rl e t)) g) 0 (slab_deriv i Rl e c w g).
Proof.
  intros D H K N.
  assert (L : locally 0 (fun t => rdet (strained Rl e t) <> 0 /\ 0 < 1 + t * c)) by (apply filter_and; [apply det_strained; exact D|apply pos_loc]).
  set (p := fun t => rlen2 (rvm (vset w i 0) (gG (strained Rl e t)))).
  set (gam := fun t => mget (gGGT Rl) i i / ((1 + t * c) * (1 + t * c))).
  set (h := fun t => (1 + t * c) * hlfL_of i Rl).
  apply (is_derive_ext_loc (fun t => kslab (p t) (p t + vget w i * vget w i * gam t) (h t) g)).
  { generalize L. apply filter_imp. intros t [Dt Pt]. cbv zeta.
    rewrite (split_len _ i Dt (strained_normal _ _ _ _ _ H K) w), (vset_GGT _ i w Dt (strained_normal _ _ _ _ _ H K)).
    rewrite (strained_GGT Rl e i c t Dt D H K Pt), (strained_hlfL Rl e i c t (proj1 H) K Pt). reflexivity. }
  assert (p0 : p 0 = rlen2 (rvm (vset w i 0) (gG Rl))) by (unfold p; rewrite strained_0; reflexivity).
  assert (g0 : gam 0 = mget (gGGT Rl) i i) by (unfold gam; field).
  assert (h0 : h 0 = hlfL_of i Rl) by (unfold h; ring).
  assert (G0 : p 0 + vget w i * vget w i * gam 0 = metric2 (gGGT Rl) w) by (rewrite p0, g0; symmetry; apply vset_GGT; auto).
  evar_last.
  { apply (core_derive p gam h (ddot (smat_mat (outer (rvm (vset w i 0) (gG Rl)))) e) c (vget w i) g).
    - apply len2_strained. exact D.
    - rewrite g0. unfold gam. generalize (mget (gGGT Rl) i i). intros b. auto_derive. { intro HH; ring_simplify in HH; lra. } field.
    - rewrite h0. unfold h. auto_derive. exact I. ring.
    - intros t. apply rlen2_pos.
    - rewrite p0. intros E. apply rlen2_0 in E. apply rvm_inj in E; [|apply det_gG; exact D].
      exists (mkposreal 1 Rlt_0_1). intros t _. unfold p. rewrite E. generalize (gG (strained Rl e t)). intros m. destruct m. v3u. ring.
    - rewrite G0. exact N. }
  unfold slab_deriv. rewrite <- G0, p0, g0, h0. reflexivity.
Qed.

Lemma sdiag_split i v b x : (i < 3)%nat -> vget v i = 0 ->
  sdiagset (sscale x (outer v)) i b = sadd (sscale x (outer v)) (sscale b (outer (vset (V 0 0 0) i 1))).
Proof.
  intros I E. destruct v as [p q r]. destruct i as [|[|[|i]]]; try lia; cbn in E; subst; unfold sdiagset, sadd, sscale, outer; cbn; f_equal; ring.
Qed.
Lemma vset_IZR iG i : vIZR (vset iG i 0%Z) = vset (vIZR iG) i 0.
Proof. destruct iG, i as [|[|i]]; reflexivity. Qed.
Lemma vget_IZR iG i : IZR (vget iG i) = vget (vIZR iG) i.
Proof. destruct iG, i as [|[|i]]; reflexivity. Qed.
Lemma unit_row i G : (i < 3)%nat -> rvm (vset (V 0 0 0) i 1) G = mrow G i.
Proof. intros I. destruct G, i as [|[|[|i]]]; try lia; cbn [vset mrow]; v3u; f_equal; ring. Qed.

Lemma slab_ok i Rl e c iG : rdet Rl <> 0 -> normal_dir Rl i -> keeps_normal e (mcol Rl i) c ->
  is_derive (fun t => slab i (hlfL_of i (strained Rl e t)) iG (gGGT (strained Rl e t))) 0
    (ddot (cart (gG Rl) (slab_grad i (hlfL_of i Rl) iG (gGGT Rl))) e).
Proof.
  intros D H K. assert (I := proj1 H). unfold slab_grad. set (gsq := metric2 (gGGT Rl) (vIZR iG)).
  assert (Gpos : 0 < mget (gGGT Rl) i i).
  { rewrite (GGT_ii Rl i D H). assert (P := col_pos Rl i D I). assert (Q := PI_RGT_0). apply Rdiv_lt_0_compat; [nra|exact P]. }
  destruct (Req_EM_T gsq 0) as [E|N].
  - assert (Z : iG = V 0%Z 0%Z 0%Z).
    { apply vIZR_0. apply (rvm_inj (gG Rl)). apply det_gG; exact D. apply rlen2_0. rewrite <- metric_len. exact E. }
    assert (S0 : forall b, sdiagset szero i b = sscale b (outer (vset (V 0 0 0) i 1))).
    { intros b. destruct i as [|[|[|q]]]; try lia; unfold sdiagset, szero, sscale, outer; cbn; f_equal; ring. }
    rewrite S0. unfold cart. rewrite outer_conv, unit_row by auto. rewrite ddot_sscale, (ddot_normal Rl e i c D H K).
    apply (is_derive_ext_loc (fun t => 4 * PI * (- (1/2) * ((1 + t * c) * hlfL_of i Rl) * ((1 + t * c) * hlfL_of i Rl)))).
    { generalize (pos_loc c). apply filter_imp. intros t Pt. unfold slab. rewrite Z, metric2_0.
      destruct (Req_EM_T 0 0); [|congruence]. rewrite (strained_hlfL Rl e i c t I K Pt). reflexivity. }
    auto_derive. exact Logic.I. field. lra.
  - cbv zeta. rewrite cart_scale.
    rewrite sdiag_split by (auto; rewrite vset_IZR; destruct (vIZR iG), i as [|[|[|q]]]; try lia; reflexivity).
    rewrite cart_add. unfold cart. rewrite !outer_conv, unit_row by auto. rewrite !ddot_sscale, (ddot_normal Rl e i c D H K).
    rewrite vset_IZR, !metric_len.
    evar_last.
    { apply (is_derive_ext_loc (fun t => let M' := gGGT (strained Rl e t) in
        kslab (metric2 M' (vIZR iG) - mget M' i i * vget (vIZR iG) i * vget (vIZR iG) i) (metric2 M' (vIZR iG)) (hlfL_of i (strained Rl e t)) (IZR (vget iG i)))).
      2: apply (slab_curve i Rl e c (vIZR iG) (IZR (vget iG i)) D H K N).
      generalize (det_strained Rl e D). apply filter_imp. intros t Dt. unfold slab, kslab. rewrite <- !vget_IZR.
      destruct (Req_EM_T (metric2 (gGGT (strained Rl e t)) (vIZR iG)) 0) as [E|NE].
      - exfalso. apply N. assert (Z : vIZR iG = V 0 0 0).
        { apply (rvm_inj (gG (strained Rl e t))). apply det_gG; exact Dt. apply rlen2_0. rewrite <- metric_len. exact E. }
        unfold gsq. rewrite (proj1 (vIZR_0 iG) Z). apply metric2_0.
      - match goal with |- @eq _ ?a ?b => change (@eq R a b) end. field. exact NE. }
    unfold slab_deriv. cbv zeta. fold gsq. rewrite !vget_IZR. field. split; [lra|exact N].
Qed.

Lemma above_loc Rl e w th : rdet Rl <> 0 -> th < metric2 (gGGT Rl) w -> locally 0 (fun t => th < metric2 (gGGT (strained Rl e t)) w).
Proof.
  intros D Lt. assert (C : continuous (fun t => metric2 (gGGT (strained Rl e t)) w) 0).
  { apply (ex_derive_continuous (V := R_NormedModule)). eexists.
    apply (is_derive_ext (fun t => rlen2 (rvm w (gG (strained Rl e t))))); [intros t; symmetry; apply metric_len|]. apply len2_strained. exact D. }
  apply (C (fun x => th < x)). assert (P : 0 < metric2 (gGGT Rl) w - th) by lra. exists (mkposreal _ P). cbn. intros y Hy.
  rewrite strained_0 in Hy. unfold ball in Hy; cbn in Hy; unfold AbsRing_ball, abs, minus, plus, opp in Hy; cbn in Hy. apply Rabs_def2 in Hy. lra.
Qed.
Lemma below_loc Rl e w th : rdet Rl <> 0 -> metric2 (gGGT Rl) w < th -> locally 0 (fun t => metric2 (gGGT (strained Rl e t)) w < th).
Proof.
  intros D Lt. assert (C : continuous (fun t => metric2 (gGGT (strained Rl e t)) w) 0).
  { apply (ex_derive_continuous (V := R_NormedModule)). eexists.
    apply (is_derive_ext (fun t => rlen2 (rvm w (gG (strained Rl e t))))); [intros t; symmetry; apply metric_len|]. apply len2_strained. exact D. }
  apply (C (fun x => x < th)). assert (P : 0 < th - metric2 (gGGT Rl) w) by lra. exists (mkposreal _ P). cbn. intros y Hy.
  rewrite strained_0 in Hy. unfold ball in Hy; cbn in Hy; unfold AbsRing_ball, abs, minus, plus, opp in Hy; cbn in Hy. apply Rabs_def2 in Hy. lra.
Qed.
Lemma ddot_sadd a b e : ddot (smat_mat (sadd a b)) e = ddot (smat_mat a) e + ddot (smat_mat b) e.
Proof. destruct a, b, e. unfold ddot, smat_mat, sadd; cbn. ring. Qed.

Lemma exslab_ok i Rl e c iG kDiff Vzero th : rdet Rl <> 0 -> normal_dir Rl i -> keeps_normal e (mcol Rl i) c -> vget kDiff i = 0 ->
  0 <= th < metric2 (gGGT Rl) (rvadd (vIZR iG) kDiff) ->
  is_derive (fun t => exslab i (hlfL_of i (strained Rl e t)) Vzero th iG kDiff (gGGT (strained Rl e t))) 0
    (ddot (smat_mat (exslab_grad i (hlfL_of i Rl) (zHatOuter Rl i) th iG kDiff (gG Rl))) e).
Proof.
  intros D H K Kd [T0 T]. assert (I := proj1 H). set (w := rvadd (vIZR iG) kDiff) in *.
  assert (Vw : vget w i = IZR (vget iG i)).
  { unfold w. rewrite vget_IZR. destruct kDiff, (vIZR iG), i as [|[|[|q]]]; try lia; cbn in *; rewrite Kd; ring. }
  unfold exslab_grad. fold w. rewrite <- metric_len. destruct (Rlt_dec th (metric2 (gGGT Rl) w)) as [_|X]; [|lra].
  cbv zeta. rewrite ddot_sadd, !ddot_sscale.
  assert (Zn : ddot (smat_mat (zHatOuter Rl i)) e = c).
  { unfold zHatOuter. destruct K as [K _]. assert (P := col_pos Rl i D I). set (n := mcol Rl i) in *.
    assert (E : forall s, ddot (smat_mat (outer (rvscale s n))) e = s * s * rdot n (rmv e n)) by (intros s; destruct n, e; unfold ddot, smat_mat, outer; v3u; cbn; ring).
    rewrite E, K, rdot_scale_r. change (rdot n n) with (rlen2 n). unfold rlen.
    assert (Q : sqrt (rlen2 n) * sqrt (rlen2 n) = rlen2 n) by (apply sqrt_sqrt; lra). assert (Q' := sqrt_lt_R0 _ P).
    rewrite <- Q at 3. field. lra. }
  rewrite Zn.
  evar_last.
  { apply (is_derive_ext_loc (fun t => let M' := gGGT (strained Rl e t) in
      kslab (metric2 M' w - mget M' i i * vget w i * vget w i) (metric2 M' w) (hlfL_of i (strained Rl e t)) (IZR (vget iG i)))).
    2: apply (slab_curve i Rl e c w (IZR (vget iG i)) D H K); lra.
    generalize (above_loc Rl e w th D T). apply filter_imp. intros t Lt. unfold exslab, kslab. fold w.
    destruct (Rlt_dec (metric2 (gGGT (strained Rl e t)) w) th); [lra|]. rewrite Vw. reflexivity. }
  unfold slab_deriv. cbv zeta.
  replace (metric2 (gGGT Rl) w - rlen2 (rvm (vset w i 0) (gG Rl))) with (vget w i * vget w i * mget (gGGT Rl) i i)
    by (rewrite (vset_GGT Rl i w D H); ring).
  ring.
Qed.
