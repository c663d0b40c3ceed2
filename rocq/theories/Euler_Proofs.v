(** Euler angles: proper rotations and round trips. *)
From Coq Require Import ZArith Reals Lra Lia.
From Coquelicot Require Import Complex.
From Verif Require Import Vec3_Model Vec3_Facts Euler_Model Euler_Spec.
Local Open Scope R_scope.

Ltac v3l := lazy beta iota zeta delta [rlen2
    rvadd rvsub rvopp rvscale rdot rcross rmv rvm rmm rmadd rmsub rmscale rdet radj rid rdiag
    rtrace rnrm2sq vIZR mIZR gnrm2sq
    gvadd gvsub gvopp gvscale gmv gvm gmm gmadd gmsub gmscale gdiag gtrace gdet gbox gadj gnrm2sq
    gdot gcross mtrans set_rows set_cols row0 row1 row2 col0 col1 col2 vmap mmap
    c0 c1 c2 m00 m01 m02 m10 m11 m12 m20 m21 m22].

(** ** atan2 *)
Lemma sqrt_1sq t : 0 < sqrt (1 + t * t).
Proof. apply sqrt_lt_R0. nra. Qed.
Lemma cos_atan' t : cos (atan t) = 1 / sqrt (1 + t * t).
Proof. rewrite cos_atan. unfold Rsqr. reflexivity. Qed.
Lemma sin_atan' t : sin (atan t) = t / sqrt (1 + t * t).
Proof. rewrite sin_atan. unfold Rsqr. reflexivity. Qed.
Lemma sqrt_ratio x y : x <> 0 -> sqrt (1 + y / x * (y / x)) = sqrt (x * x + y * y) / Rabs x.
Proof.
  intros N. assert (P := Rabs_pos_lt _ N).
  replace (1 + y / x * (y / x)) with ((x * x + y * y) / (x * x)) by (field; exact N).
  rewrite sqrt_div_alt by nra. f_equal. replace (x * x) with (Rsqr x) by reflexivity. apply sqrt_Rsqr_abs.
Qed.
Lemma hyp_pos x y : ~ (x = 0 /\ y = 0) -> 0 < sqrt (x * x + y * y).
Proof.
  intros N. apply sqrt_lt_R0. assert (A := Rle_0_sqr x). assert (B := Rle_0_sqr y). unfold Rsqr in *.
  destruct (Req_dec x 0) as [E|E]; [|assert (0 < x * x) by nra; lra].
  destruct (Req_dec y 0) as [F|F]; [tauto|assert (0 < y * y) by nra; lra].
Qed.
Lemma sqrt_sq_abs y : sqrt (0 * 0 + y * y) = Rabs y.
Proof. replace (0 * 0 + y * y) with (Rsqr y) by (unfold Rsqr; ring). apply sqrt_Rsqr_abs. Qed.
Lemma atan2_spec y x : ~ (x = 0 /\ y = 0) ->
  cos (atan2 y x) = x / sqrt (x * x + y * y) /\ sin (atan2 y x) = y / sqrt (x * x + y * y).
Proof.
  intros N. assert (H := hyp_pos x y N). unfold atan2.
  destruct (Rlt_dec 0 x) as [P|P].
  - rewrite cos_atan', sin_atan', sqrt_ratio by lra. rewrite Rabs_right by lra. split; field; lra.
  - destruct (Rlt_dec x 0) as [Q|Q].
    + assert (E : cos (atan (y / x)) = - x / sqrt (x * x + y * y) /\ sin (atan (y / x)) = - y / sqrt (x * x + y * y)).
      { rewrite cos_atan', sin_atan', sqrt_ratio by lra. rewrite Rabs_left by lra. split; field; lra. }
      destruct E as [E F]. destruct (Rle_dec 0 y).
      * rewrite neg_cos, neg_sin, E, F. split; field; lra.
      * replace (atan (y / x) - PI) with (- (- atan (y / x) + PI)) by ring.
        rewrite cos_neg, sin_neg, neg_cos, neg_sin, cos_neg, sin_neg, E, F. split; field; lra.
    + assert (x = 0) by lra. subst x. rewrite sqrt_sq_abs in *.
      destruct (Rlt_dec 0 y).
      * rewrite cos_PI2, sin_PI2, Rabs_right by lra. split; field; lra.
      * assert (y < 0) by (destruct (Rtotal_order y 0) as [?|[?|?]]; [assumption|tauto|lra]).
        destruct (Rlt_dec y 0); [|lra]. rewrite cos_neg, sin_neg, cos_PI2, sin_PI2, Rabs_left by lra. split; field; lra.
Qed.
Lemma atan2_range y x : - PI < atan2 y x <= PI.
Proof.
  assert (P := PI_RGT_0). unfold atan2. assert (A := atan_bound (y / x)).
  destruct (Rlt_dec 0 x); [lra|]. destruct (Rlt_dec x 0) as [Q|Q].
  - destruct (Rle_dec 0 y) as [Y|Y].
    + assert (atan (y / x) <= 0).
      { rewrite <- atan_0. destruct (Req_dec y 0) as [->|N]; [unfold Rdiv; rewrite Rmult_0_l; lra|].
        left. apply atan_increasing. apply Ropp_lt_cancel. rewrite Ropp_0. replace (- (y / x)) with (y / - x) by (field; lra). apply Rdiv_lt_0_compat; lra. }
      lra.
    + assert (0 < atan (y / x)).
      { rewrite <- atan_0. apply atan_increasing. replace (y / x) with (- y / - x) by (field; lra). apply Rdiv_lt_0_compat; lra. }
      lra.
  - destruct (Rlt_dec 0 y); [lra|]. destruct (Rlt_dec y 0); lra.
Qed.
(** an angle in (-pi,pi] is determined by its cosine and sine *)
Lemma angle_unique a b : - PI < a <= PI -> - PI < b <= PI -> cos a = cos b -> sin a = sin b -> a = b.
Proof.
  intros A B EC ES. assert (P := PI_RGT_0).
  assert (Nn : forall a b, 0 <= a <= PI -> 0 <= b <= PI -> cos a = cos b -> a = b).
  { intros u v U W E. destruct (Rtotal_order u v) as [L|[L|L]]; [|exact L|].
    - assert (X := cos_decreasing_1 u v). lra.
    - assert (X := cos_decreasing_1 v u). lra. }
  destruct (Rle_lt_dec 0 a) as [A0|A0]; destruct (Rle_lt_dec 0 b) as [B0|B0].
  - apply Nn; lra.
  - exfalso. assert (S1 := sin_ge_0 a A0 (proj2 A)). assert (S2 : sin (- b) > 0) by (apply sin_gt_0; lra). rewrite sin_neg in S2. lra.
  - exfalso. assert (S1 := sin_ge_0 b B0 (proj2 B)). assert (S2 : sin (- a) > 0) by (apply sin_gt_0; lra). rewrite sin_neg in S2. lra.
  - assert (- a = - b); [|lra]. apply Nn; [lra|lra|]. rewrite !cos_neg. exact EC.
Qed.
Lemma atan2_polar k a : 0 < k -> - PI < a <= PI -> atan2 (k * sin a) (k * cos a) = a.
Proof.
  intros K A. assert (N : ~ (k * cos a = 0 /\ k * sin a = 0)).
  { intros [E F]. assert (S := sin2_cos2 a). unfold Rsqr in S. assert (cos a = 0) by nra. assert (sin a = 0) by nra. rewrite H, H0 in S. lra. }
  assert (E : sqrt (k * cos a * (k * cos a) + k * sin a * (k * sin a)) = k).
  { replace (k * cos a * (k * cos a) + k * sin a * (k * sin a)) with (k * k * (Rsqr (sin a) + Rsqr (cos a))) by (unfold Rsqr; ring).
    rewrite sin2_cos2, Rmult_1_r. apply sqrt_square. lra. }
  destruct (atan2_spec (k * sin a) (k * cos a) N) as [C S]. rewrite E in *.
  apply angle_unique; [apply atan2_range|exact A| |].
  - rewrite C. field. lra.
  - rewrite S. field. lra.
Qed.

(** ** the matrix of three angles *)
Definition mE (ca sa cb sb cg sg : R) : mat R :=
  M (ca * cb * cg - sa * sg) (ca * cb * sg + sa * cg) (- (ca * sb))
    (- (sa * cb * cg) - ca * sg) (- (sa * cb * sg) + ca * cg) (sa * sb)
    (sb * cg) (sb * sg) cb.
Lemma matrix_entries u : matrixFromEuler u = mE (cos (c0 u)) (sin (c0 u)) (cos (c1 u)) (sin (c1 u)) (cos (c2 u)) (sin (c2 u)).
Proof.
  destruct u as [a b g]. unfold matrixFromEuler, rotation, mE. cbn [c0 c1 c2].
  generalize (cos a) (sin a) (cos b) (sin b) (cos g) (sin g). intros. v3l. f_equal; ring.
Qed.
Lemma trig1 x : cos x * cos x + sin x * sin x = 1.
Proof. assert (S := sin2_cos2 x). unfold Rsqr in S. lra. Qed.
Lemma mE_rotation ca sa cb sb cg sg : ca * ca + sa * sa = 1 -> cb * cb + sb * sb = 1 -> cg * cg + sg * sg = 1 ->
  is_rotation (mE ca sa cb sb cg sg).
Proof.
  intros A B G. assert (A' : ca * ca = 1 - sa * sa) by lra. assert (B' : cb * cb = 1 - sb * sb) by lra. assert (G' : cg * cg = 1 - sg * sg) by lra.
  unfold is_rotation, mE. split; v3l; [f_equal|]; ring [A' B' G'].
Qed.
Lemma euler_proper u : is_rotation (matrixFromEuler u).
Proof. rewrite matrix_entries. apply mE_rotation; apply trig1. Qed.

(** ** entries of a rotation *)
Lemma rot_rows m : is_rotation m -> rmm m (mtrans m) = rid /\ rmm (mtrans m) m = rid /\ radj m = mtrans m.
Proof.
  intros [O D]. assert (Dn : rdet m <> 0) by lra.
  assert (I : mtrans m = rinv m).
  { rewrite <- (rmm_id_l (mtrans m)), <- (rinv_l m Dn), <- rmm_assoc, O. apply rmm_id_r. }
  split; [exact O|]. split; [rewrite I; apply rinv_l; exact Dn|].
  rewrite I. unfold rinv. rewrite D. destruct (radj m). v3l. f_equal; field.
Qed.
Record rotf (m : mat R) : Prop := RF {
  r2 : m20 m * m20 m + m21 m * m21 m + m22 m * m22 m = 1;
  c2' : m02 m * m02 m + m12 m * m12 m + m22 m * m22 m = 1;
  r1 : m10 m * m10 m + m11 m * m11 m + m12 m * m12 m = 1;
  a00 : m11 m * m22 m - m12 m * m21 m = m00 m;
  a01 : m12 m * m20 m - m10 m * m22 m = m01 m;
  a10 : m02 m * m21 m - m01 m * m22 m = m10 m;
  a11 : m00 m * m22 m - m02 m * m20 m = m11 m }.
Lemma rot_facts m : is_rotation m -> rotf m.
Proof.
  intros H. destruct (rot_rows m H) as (A & B & C). destruct m as [x00 x01 x02 x10 x11 x12 x20 x21 x22].
  revert A B C. v3l. intros A B C. injection A as A0 A1 A2 A3 A4 A5 A6 A7 A8. injection B as B0 B1 B2 B3 B4 B5 B6 B7 B8.
  injection C as C0 C1 C2 C3 C4 C5 C6 C7 C8. constructor; v3l; lra.
Qed.

(** the generic branch *)
Lemma generic_roundtrip m : is_rotation m -> Rabs (m22 m) < 1 ->
  let sb := sqrt (1 - m22 m * m22 m) in
  matrixFromEuler (V (atan2 (m12 m) (- m02 m)) (acos (m22 m)) (atan2 (m21 m) (m20 m))) = m.
Proof.
  intros H L sb. destruct (rot_facts m H) as [Rr2 Cc2 Rr1 A00 A01 A10 A11].
  apply Rabs_def2 in L. assert (Ps : 0 < 1 - m22 m * m22 m) by nra. assert (Psb := sqrt_lt_R0 _ Ps). fold sb in Psb.
  assert (Sb : sb * sb = 1 - m22 m * m22 m) by (apply sqrt_sqrt; lra).
  rewrite matrix_entries. cbn [c0 c1 c2].
  rewrite cos_acos by lra. rewrite sin_acos by lra. replace (1 - Rsqr (m22 m)) with (1 - m22 m * m22 m) by reflexivity. 
  replace (1 - (m22 m)²) with (1 - m22 m * m22 m) by reflexivity. fold sb.
  destruct (atan2_spec (m12 m) (- m02 m)) as [Ca Sa]. { intros [E F]. assert (m02 m = 0) by lra. rewrite F, H0 in Cc2. lra. }
  replace (- m02 m * - m02 m + m12 m * m12 m) with (1 - m22 m * m22 m) in * by lra. fold sb in Ca, Sa.
  destruct (atan2_spec (m21 m) (m20 m)) as [Cg Sg]. { intros [E F]. rewrite F, E in Rr2. lra. }
  replace (m20 m * m20 m + m21 m * m21 m) with (1 - m22 m * m22 m) in * by lra. fold sb in Cg, Sg.
  rewrite Ca, Sa, Cg, Sg. clearbody sb. clear Ca Sa Cg Sg H.
  destruct m as [x00 x01 x02 x10 x11 x12 x20 x21 x22]. cbn [m00 m01 m02 m10 m11 m12 m20 m21 m22] in *.
  unfold mE.
  assert (E : forall p q, p = q * (sb * sb) -> p / (sb * sb) = q) by (intros p q ->; field; lra).
  f_equal.
  - replace (- x02 / sb * x22 * (x20 / sb) - x12 / sb * (x21 / sb)) with ((- x02 * x22 * x20 - x12 * x21) / (sb * sb)) by (field; lra).
    apply E. rewrite Sb. rewrite <- A11 in A00. lra.
  - replace (- x02 / sb * x22 * (x21 / sb) + x12 / sb * (x20 / sb)) with ((- x02 * x22 * x21 + x12 * x20) / (sb * sb)) by (field; lra).
    apply E. rewrite Sb. rewrite <- A10 in A01. lra.
  - field; lra.
  - replace (- (x12 / sb * x22 * (x20 / sb)) - - x02 / sb * (x21 / sb)) with ((- x12 * x22 * x20 + x02 * x21) / (sb * sb)) by (field; lra).
    apply E. rewrite Sb. rewrite <- A01 in A10. lra.
  - replace (- (x12 / sb * x22 * (x21 / sb)) + - x02 / sb * (x20 / sb)) with ((- x12 * x22 * x21 - x02 * x20) / (sb * sb)) by (field; lra).
    apply E. rewrite Sb. rewrite <- A00 in A11. lra.
  - field; lra.
  - field; lra.
  - field; lra.
Qed.

(** the gimbal-locked branch *)
Lemma locked_matrix m : is_rotation m -> 1 - 1/10000000 < Rabs (m22 m) ->
  exists r, 0 < r <= 1 /\ r * r = m10 m * m10 m + m11 m * m11 m /\
    matrixFromEuler (eulerFromMatrix m) =
      if Rlt_dec 0 (m22 m) then M (m11 m / r) (- m10 m / r) 0 (m10 m / r) (m11 m / r) 0 0 0 1
      else M (- (m11 m / r)) (m10 m / r) 0 (m10 m / r) (m11 m / r) 0 0 0 (-1).
Proof.
  intros H L. destruct (rot_facts m H) as [Rr2 Cc2 Rr1 A00 A01 A10 A11].
  assert (L2 : (1 - 1/10000000) * (1 - 1/10000000) < m22 m * m22 m).
  { replace (m22 m * m22 m) with (Rabs (m22 m) * Rabs (m22 m)) by (rewrite <- Rabs_mult; apply Rabs_right; nra). nra. }
  assert (P : 0 < m10 m * m10 m + m11 m * m11 m) by nra.
  exists (sqrt (m10 m * m10 m + m11 m * m11 m)). split.
  { split; [apply sqrt_lt_R0; exact P|]. rewrite <- sqrt_1. apply sqrt_le_1_alt. nra. }
  split; [apply sqrt_sqrt; lra|].
  assert (Hr := sqrt_lt_R0 _ P).
  unfold eulerFromMatrix. destruct (Rlt_dec (1 - 1/10000000) (Rabs (m22 m))) as [_|X]; [|lra].
  rewrite matrix_entries. cbn [c0 c1 c2]. rewrite cos_0, sin_0.
  destruct (atan2_spec (- m10 m) (m11 m)) as [Cg Sg]. { intros [E F]. assert (m10 m = 0) by lra. rewrite E, H0 in P. lra. }
  replace (m11 m * m11 m + - m10 m * - m10 m) with (m10 m * m10 m + m11 m * m11 m) in * by ring.
  rewrite Cg, Sg. set (r := sqrt (m10 m * m10 m + m11 m * m11 m)) in *.
  destruct (Rlt_dec 0 (m22 m)).
  - rewrite cos_0, sin_0. unfold mE. f_equal; field; lra.
  - rewrite cos_PI, sin_PI. unfold mE. f_equal; field; lra.
Qed.
Lemma roundtrip m : is_rotation m -> Rabs (m22 m) <= 1 - 1/10000000 \/ Rabs (m22 m) = 1 -> matrixFromEuler (eulerFromMatrix m) = m.
Proof.
  intros H [L|L].
  - unfold eulerFromMatrix. destruct (Rlt_dec (1 - 1/10000000) (Rabs (m22 m))); [lra|]. apply generic_roundtrip; [exact H|lra].
  - destruct (locked_matrix m H) as (r & [Rp R1] & Rsq & E); [lra|]. rewrite E. clear E.
    destruct (rot_facts m H) as [Rr2 Cc2 Rr1 A00 A01 A10 A11].
    assert (L2 : m22 m * m22 m = 1). { replace (m22 m * m22 m) with (Rabs (m22 m) * Rabs (m22 m)) by (rewrite <- Rabs_mult; apply Rabs_right; nra). rewrite L. ring. }
    assert (Z02 : m02 m = 0) by nra. assert (Z12 : m12 m = 0) by nra. assert (Z20 : m20 m = 0) by nra. assert (Z21 : m21 m = 0) by nra.
    assert (r = 1) by nra. subst r.
    destruct m as [x00 x01 x02 x10 x11 x12 x20 x21 x22]. cbn [m00 m01 m02 m10 m11 m12 m20 m21 m22] in *. subst x02 x12 x20 x21.
    destruct (Rlt_dec 0 x22).
    + assert (x22 = 1) by nra. subst x22. f_equal; try lra; rewrite ?Rdiv_1; lra.
    + assert (x22 = -1) by nra. subst x22. f_equal; lra.
Qed.
