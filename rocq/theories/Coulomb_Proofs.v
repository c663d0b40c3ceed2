(** Derivative of reciprocal-space lengths with respect to strain, and of the isotropic kernels. *)
From Coq Require Import ZArith Reals List Lia Lra.
From Coquelicot Require Import Coquelicot.
From Verif Require Import Vec3_Model Vec3_Facts Basis_Model Coulomb_Model Coulomb_Spec.
Import ListNotations.
Local Open Scope R_scope.

Ltac v3u := lazy beta iota zeta delta [rlen2
    rvadd rvsub rvopp rvscale rdot rcross rmv rvm rmm rmadd rmsub rmscale rdet radj rid rdiag
    rtrace rnrm2sq vIZR mIZR gnrm2sq
    gvadd gvsub gvopp gvscale gmv gvm gmm gmadd gmsub gmscale gdiag gtrace gdet gbox gadj gnrm2sq
    gdot gcross mtrans set_rows set_cols row0 row1 row2 col0 col1 col2 vmap mmap
    c0 c1 c2 m00 m01 m02 m10 m11 m12 m20 m21 m22].
Lemma rinv_unique X A : rdet A <> 0 -> rmm X A = rid -> X = rinv A.
Proof. intros D E. rewrite <- (rmm_id_r X), <- (rinv_r A D), rmm_assoc, E. apply rmm_id_l. Qed.
Lemma rinv_mm A B : rdet A <> 0 -> rdet B <> 0 -> rinv (rmm A B) = rmm (rinv B) (rinv A).
Proof.
  intros DA DB. symmetry. apply rinv_unique.
  - rewrite rdet_mm. apply Rmult_integral_contrapositive; auto.
  - rewrite rmm_assoc, <- (rmm_assoc (rinv B) (rinv A) A), (rinv_l A DA), rmm_id_r. apply rinv_l; exact DB.
Qed.
Lemma rmm_scale s A B : rmm (rmscale s A) B = rmscale s (rmm A B). Proof. v3_ring. Qed.
Lemma rvm_scale s v A : rvm v (rmscale s A) = rvscale s (rvm v A). Proof. v3_ring. Qed.

Definition def1 (e : mat R) (t : R) : mat R := rmadd rid (rmscale t e).
Lemma gG_strained Rl e t : rdet Rl <> 0 -> rdet (def1 e t) <> 0 ->
  gG (strained Rl e t) = rmm (gG Rl) (rinv (def1 e t)).
Proof. intros D E. unfold gG, strained. fold (def1 e t). rewrite rinv_mm by auto. rewrite rmm_scale. reflexivity. Qed.

Lemma det1_0 e : rdet (def1 e 0) = 1.
Proof. destruct e. unfold def1. v3u. ring. Qed.
Lemma det1_loc e : locally 0 (fun t => rdet (def1 e t) <> 0).
Proof.
  assert (C : continuous (fun t => rdet (def1 e t)) 0).
  { apply (ex_derive_continuous (V := R_NormedModule)). destruct e. unfold def1. v3u. auto_derive. exact I. }
  apply (C (fun x => x <> 0)). exists (mkposreal 1 Rlt_0_1). cbn. intros y Hy. rewrite det1_0 in Hy.
  unfold ball in Hy; cbn in Hy; unfold AbsRing_ball, abs, minus, plus, opp in Hy; cbn in Hy.
  intro E. subst y. rewrite Rabs_left in Hy by lra. lra.
Qed.
Lemma det_strained Rl e : rdet Rl <> 0 -> locally 0 (fun t => rdet (strained Rl e t) <> 0).
Proof.
  intros D. generalize (det1_loc e). apply filter_imp. intros t E. unfold strained. rewrite rdet_mm. fold (def1 e t).
  apply Rmult_integral_contrapositive; auto.
Qed.
Lemma strained_0 Rl e : strained Rl e 0 = Rl.
Proof. unfold strained. replace (rmadd rid (rmscale 0 e)) with rid. apply rmm_id_l. destruct e. v3u. f_equal; ring. Qed.

(** components of u (1 + t e)^-1 *)
Definition cv (u : vec R) (e : mat R) (t : R) : vec R := rvm u (rinv (def1 e t)).
Lemma det1_poly e t : rdet (def1 e t) = 1 + t * rtrace e + t * t * rtrace (radj e) + t * t * t * rdet e.
Proof. destruct e. unfold def1. v3u. ring. Qed.
Lemma adj1_poly e t : radj (def1 e t) = rmadd rid (rmadd (rmscale t (rmsub (rmscale (rtrace e) rid) e)) (rmscale (t * t) (radj e))).
Proof.
  assert (E : def1 e t = M (1 + m00 e * t) (0 + m01 e * t) (0 + m02 e * t) (0 + m10 e * t) (1 + m11 e * t) (0 + m12 e * t) (0 + m20 e * t) (0 + m21 e * t) (1 + m22 e * t)) by reflexivity.
  rewrite E. clear E. destruct e as [a b c d f g h k l]; cbn [m00 m01 m02 m10 m11 m12 m20 m21 m22].
  v3u. f_equal; ring.
Qed.
Lemma rvm_madd v A B : rvm v (rmadd A B) = rvadd (rvm v A) (rvm v B).
Proof. destruct v, A, B. v3u. f_equal; ring. Qed.
Lemma rvm_msub v A B : rvm v (rmsub A B) = rvsub (rvm v A) (rvm v B).
Proof. destruct v, A, B. v3u. f_equal; ring. Qed.
Lemma cv_poly u e t : cv u e t = rvscale (1 / rdet (def1 e t))
  (rvadd u (rvadd (rvscale t (rvsub (rvscale (rtrace e) u) (rvm u e))) (rvscale (t * t) (rvm u (radj e))))).
Proof. unfold cv, rinv. rewrite rvm_scale, adj1_poly, !rvm_madd, !rvm_scale, rvm_msub, rvm_scale, !rvm_id. reflexivity. Qed.
Lemma quot_derive a b c T A B : is_derive (fun t => (a + (b * t + c * (t * t))) * (1 / (1 + t * T + t * t * A + t * t * t * B))) 0 (b - a * T).
Proof.
  auto_derive. { intro HH; ring_simplify in HH; lra. }
  field.
Qed.
Lemma cv_derive k u e : is_derive (fun t => vget (cv u e t) k) 0 (- vget (rvm u e) k).
Proof.
  evar_last.
  { apply (is_derive_ext (fun t => (vget u k + (vget (rvsub (rvscale (rtrace e) u) (rvm u e)) k * t + vget (rvm u (radj e)) k * (t * t)))
      * (1 / (1 + t * rtrace e + t * t * rtrace (radj e) + t * t * t * rdet e)))).
    { intros t. rewrite cv_poly, det1_poly. generalize (rvm u (radj e)) (rvsub (rvscale (rtrace e) u) (rvm u e)). intros p q.
      destruct u, p, q, k as [|[|k]]; reflexivity. }
    apply quot_derive. }
  generalize (rvm u e) (rtrace e). intros p q. destruct u, p, k as [|[|k]]; cbn; ring.
Qed.
Lemma cv_0 u e : cv u e 0 = u.
Proof.
  assert (E0 : def1 e 0 = rid) by (unfold def1; destruct e; v3u; f_equal; ring).
  assert (D1 : rdet rid <> 0) by (v3u; lra).
  unfold cv. rewrite E0. rewrite <- (rmm_id_r (rinv rid)), (rinv_l rid D1). apply rvm_id.
Qed.
(** reciprocal vector along the strain *)
Lemma gvec_strained Rl e w : rdet Rl <> 0 -> locally 0 (fun t => rvm w (gG (strained Rl e t)) = cv (rvm w (gG Rl)) e t).
Proof. intros D. generalize (det1_loc e). apply filter_imp. intros t E. rewrite gG_strained by auto. unfold cv. apply rvm_mm. Qed.

Lemma metric_len Rl w : metric2 (gGGT Rl) w = rlen2 (rvm w (gG Rl)).
Proof. unfold gGGT. generalize (gG Rl). intros G. unfold metric2. v3_sring. Qed.

Lemma len2_strained Rl e w : rdet Rl <> 0 ->
  is_derive (fun t => rlen2 (rvm w (gG (strained Rl e t)))) 0 (-2 * ddot (smat_mat (outer (rvm w (gG Rl)))) e).
Proof.
  intros D. set (u := rvm w (gG Rl)).
  apply (is_derive_ext_loc (fun t => rlen2 (cv u e t))).
  { generalize (gvec_strained Rl e w D). apply filter_imp. intros t E. rewrite E. reflexivity. }
  assert (D0 := cv_derive 0 u e). assert (D1 := cv_derive 1 u e). assert (D2 := cv_derive 2 u e). cbn [vget] in *.
  apply (is_derive_ext (fun t => c0 (cv u e t) * c0 (cv u e t) + c1 (cv u e t) * c1 (cv u e t) + c2 (cv u e t) * c2 (cv u e t))).
  { intros t. destruct (cv u e t). v3u. reflexivity. }
  evar_last.
  { apply (is_derive_plus (V := R_NormedModule)); [apply (is_derive_plus (V := R_NormedModule))|].
    - apply (is_derive_mult (K := R_AbsRing)); [exact D0|exact D0|apply Rmult_comm].
    - apply (is_derive_mult (K := R_AbsRing)); [exact D1|exact D1|apply Rmult_comm].
    - apply (is_derive_mult (K := R_AbsRing)); [exact D2|exact D2|apply Rmult_comm]. }
  cbv beta; rewrite !cv_0. clear. destruct u, e. unfold plus, mult, ddot, outer, smat_mat; cbn. v3u. cbn. ring.
Qed.

(** contraction of an outer product *)
Definition om (s : R) (a b : vec R) : mat R :=
  M (s * (c0 a * c0 b)) (s * (c0 a * c1 b)) (s * (c0 a * c2 b)) (s * (c1 a * c0 b)) (s * (c1 a * c1 b)) (s * (c1 a * c2 b))
    (s * (c2 a * c0 b)) (s * (c2 a * c1 b)) (s * (c2 a * c2 b)).
Lemma om_outer s w : smat_mat (sscale s (outer w)) = om s w w.
Proof. destruct w. unfold smat_mat, sscale, outer, om. cbn. f_equal; ring. Qed.
Lemma om_l s a b G : rmm (mtrans G) (om s a b) = om s (rvm a G) b.
Proof. destruct a, b, G. unfold om. v3u. f_equal; ring. Qed.
Lemma om_r s a b G : rmm (om s a b) G = om s a (rvm b G).
Proof. destruct a, b, G. unfold om. v3u. f_equal; ring. Qed.
Lemma outer_conv s w G : rmm (rmm (mtrans G) (smat_mat (sscale s (outer w)))) G = smat_mat (sscale s (outer (rvm w G))).
Proof. rewrite !om_outer, om_l, om_r. reflexivity. Qed.
Lemma ddot_sscale s m e : ddot (smat_mat (sscale s m)) e = s * ddot (smat_mat m) e.
Proof. destruct m, e. unfold ddot, smat_mat, sscale; cbn. ring. Qed.

Lemma metric2_0 M' : metric2 M' (vIZR (V 0%Z 0%Z 0%Z)) = 0.
Proof. destruct M'. unfold metric2. cbn. ring. Qed.
Lemma rvm_inj A w : rdet A <> 0 -> rvm w A = V 0 0 0 -> w = V 0 0 0.
Proof.
  intros D E. rewrite <- (rvm_id w), <- (rinv_r A D), rvm_mm, E. v3u. f_equal; ring.
Qed.
Lemma det_gG Rl : rdet Rl <> 0 -> rdet (gG Rl) <> 0.
Proof.
  intros D. unfold gG.
  assert (E : rdet (rmscale (2 * PI) (rinv Rl)) = (2 * PI) * (2 * PI) * (2 * PI) * rdet (rinv Rl)) by (generalize (rinv Rl) (2 * PI); v3_sring).
  rewrite E. assert (P := PI_RGT_0).
  assert (N : rdet (rinv Rl) * rdet Rl = 1) by (rewrite <- rdet_mm, (rinv_l Rl D); v3u; ring).
  intro Z. assert (rdet (rinv Rl) = 0).
  { apply Rmult_integral in Z. destruct Z as [Z|Z]; [|exact Z]. exfalso.
    assert (0 < 2 * PI * (2 * PI) * (2 * PI)) by (assert (0 < 2 * PI) by lra; apply Rmult_lt_0_compat; [apply Rmult_lt_0_compat; assumption|assumption]). lra. }
  rewrite H in N. lra.
Qed.
Lemma rlen2_0 v : rlen2 v = 0 -> v = V 0 0 0.
Proof.
  destruct v as [x y z]. v3u. intros E.
  assert (A := Rle_0_sqr x). assert (B := Rle_0_sqr y). assert (C := Rle_0_sqr z). unfold Rsqr in *.
  f_equal; apply Rsqr_0_uniq; unfold Rsqr; lra.
Qed.
Lemma Gsq_pos Rl w : rdet Rl <> 0 -> w <> V 0 0 0 -> 0 < rlen2 (rvm w (gG Rl)).
Proof.
  intros D N. destruct (Rle_lt_or_eq_dec _ _ (rlen2_pos (rvm w (gG Rl)))) as [L|E]; [exact L|].
  exfalso. apply N. apply (rvm_inj (gG Rl)). apply det_gG; exact D. apply rlen2_0. auto.
Qed.
Lemma vIZR_0 iG : vIZR iG = V 0 0 0 <-> iG = V 0%Z 0%Z 0%Z.
Proof.
  destruct iG as [a b c]. unfold vIZR, vmap; cbn. split; intros E; injection E as E1 E2 E3.
  - apply eq_IZR in E1, E2, E3. subst. reflexivity.
  - subst. reflexivity.
Qed.

(** every kernel that is a function k of the length with derivative k' has the lattice gradient -2 k' outer(iG) *)
Lemma iso_kernel Rl e w (k : R -> R) k' : rdet Rl <> 0 ->
  is_derive k (rlen2 (rvm w (gG Rl))) k' ->
  is_derive (fun t => k (metric2 (gGGT (strained Rl e t)) w)) 0 (ddot (smat_mat (sscale (-2 * k') (outer (rvm w (gG Rl))))) e).
Proof.
  intros D K. apply (is_derive_ext (fun t => k (rlen2 (rvm w (gG (strained Rl e t)))))).
  { intros t. rewrite metric_len. reflexivity. }
  assert (L := len2_strained Rl e w D).
  evar_last.
  { apply (is_derive_comp (V := R_NormedModule) k (fun t => rlen2 (rvm w (gG (strained Rl e t)))) 0); [|exact L].
    cbv beta. rewrite strained_0. exact K. }
  rewrite ddot_sscale. unfold scal; cbn; unfold mult; cbn. ring.
Qed.
Lemma iso_loc (k k2 : R -> R) x k' : 0 < x -> (forall y, 0 < y -> k y = k2 y) -> is_derive k2 x k' -> is_derive k x k'.
Proof.
  intros P E D. apply (is_derive_ext_loc k2); [|exact D].
  exists (mkposreal x P). intros y Hy. unfold ball in Hy; cbn in Hy; unfold AbsRing_ball, abs, minus, plus, opp in Hy; cbn in Hy.
  symmetry. apply E. apply Rabs_def2 in Hy. lra.
Qed.

Lemma d_periodic x : 0 < x -> is_derive (fun y => 4 * PI / y) x (- (4 * PI) / (x * x)).
Proof. intros P. auto_derive. lra. field. lra. Qed.
Lemma d_gauss a x : 0 < x ->
  is_derive (fun y => 4 * PI * (1 - exp (- a * y)) / y) x (- (4 * PI) * (1 - exp (- a * x) * (1 + a * x)) / (x * x)).
Proof. intros P. auto_derive. lra. field. lra. Qed.
Lemma d_sphere Rc x : 0 < x ->
  is_derive (fun y => 4 * PI * (1 - cos (Rc * sqrt y)) / y) x
    (- (2 * PI) * (2 * (1 - cos (sqrt x * Rc)) - sqrt x * Rc * sin (sqrt x * Rc)) / (x * x)).
Proof.
  intros P. auto_derive. repeat split; auto; lra.
  rewrite (Rmult_comm Rc (sqrt x)). assert (S := sqrt_lt_R0 x P).
  generalize (cos (sqrt x * Rc)) (sin (sqrt x * Rc)). intros c s.
  assert (Q : x = sqrt x * sqrt x) by (symmetry; apply sqrt_sqrt; lra).
  set (r := sqrt x) in *. rewrite Q. field. lra.
Qed.
