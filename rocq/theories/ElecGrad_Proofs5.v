(** Concrete systems for the electronic gradients and steps. *)
From Coq Require Import Reals Lra Lia FunctionalExtensionality List.
From Coq Require Fin.
From Coquelicot Require Import Coquelicot.
From Verif Require Import CMat Smear_Model Smear_Proofs FillGrad_Proofs MatFun_Model MatFun_Spec MatFun_Proofs MatFun_Proofs2 MatFun_Proofs3 MatFun_Proofs4 ElecGrad_Model ElecGrad_Spec ElecGrad_Proofs ElecGrad_Proofs2 ElecGrad_Proofs3 ElecGrad_Proofs4.
Open Scope C_scope.

Definition m21 (a b : C) : mat 2 1 := fun i _ => Fin.caseS' i (fun _ => C) a (fun _ => b).
Definition m11 (a : C) : mat 1 1 := fun _ _ => a.
Lemma fin1 : forall (P : Fin.t 1 -> Prop), P Fin.F1 -> forall i, P i.
Proof. intros P H i. apply (Fin.caseS' i); [exact H|]. intros q. inversion q. Qed.
Ltac small := apply mat_ext; intros i j; revert j; revert i; first [refine (fin2 _ _ _)|refine (fin1 _ _)]; first [refine (fin2 _ _ _)|refine (fin1 _ _)]; unfold mmul, madj, madd, msub, mscal, m21, m11; cbn; try ring.
Lemma m21_11 : forall a b c, mmul (m21 a b) (m11 c) = m21 (a * c) (b * c). Proof. intros. small. Qed.
Lemma m11_11 : forall a b, mmul (m11 a) (m11 b) = m11 (a * b). Proof. intros. small. Qed.
Lemma m22_21 : forall a b c d x y, mmul (m22 a b c d) (m21 x y) = m21 (a * x + b * y) (c * x + d * y). Proof. intros. small. Qed.
Lemma m21_gram : forall a b x y, mmul (madj (m21 a b)) (m21 x y) = m11 (Cconj a * x + Cconj b * y). Proof. intros. small. Qed.
Lemma m21_outer : forall a b x y, mmul (m21 a b) (madj (m21 x y)) = m22 (a * Cconj x) (a * Cconj y) (b * Cconj x) (b * Cconj y). Proof. intros. small. Qed.
Lemma m11_one : (mone : mat 1 1) = m11 1. Proof. small; reflexivity. Qed.
Lemma m11_adj : forall a, madj (m11 a) = m11 (Cconj a). Proof. intros. small; reflexivity. Qed.
Lemma m21_add : forall a b c d, madd (m21 a b) (m21 c d) = m21 (a + c) (b + d). Proof. intros. small. Qed.
Lemma m21_sub : forall a b c d, msub (m21 a b) (m21 c d) = m21 (a - c) (b - d). Proof. intros. small. Qed.
Lemma m21_scal : forall k a b, mscal k (m21 a b) = m21 (k * a) (k * b). Proof. intros. small. Qed.
Lemma m11_ext : forall a b, a = b -> m11 a = m11 b. Proof. intros; subst; reflexivity. Qed.
Lemma m21_ext : forall a b c d, a = c -> b = d -> m21 a b = m21 c d. Proof. intros; subst; reflexivity. Qed.
Lemma chol_11 : forall x, (0 < x)%R -> choleskyTri (m11 (RtoC x)) (m11 (RtoC (/ sqrt x))).
Proof.
  intros x Hx. pose proof (sqrt_lt_R0 x Hx) as Hs. pose proof (Rinv_0_lt_compat _ Hs) as Hi. exists (m11 (RtoC (sqrt x))). repeat match goal with |- _ /\ _ => split end.
  - rewrite m11_adj, m11_11, Cconj_R, <- RtoC_mult, sqrt_sqrt by lra. reflexivity.
  - rewrite m11_11, <- RtoC_mult, Rinv_l by lra. symmetry. apply m11_one.
  - rewrite m11_11, <- RtoC_mult, Rinv_r by lra. symmetry. apply m11_one.
  - split; [|intros; cbn; auto]. refine (fin1 _ _). refine (fin1 _ _). unfold pos. cbn. lia.
  - split; [|intros; cbn; auto]. refine (fin1 _ _). refine (fin1 _ _). unfold pos. cbn. lia.
Qed.
(** one band of two basis functions: C along the first, step along the second *)
Definition e1 : mat 2 1 := m21 1 0.
Definition e2 : mat 2 1 := m21 0 1.
Definition h2 : mat 2 2 := m22 0 0 0 1.
Lemma e1_orth : orthonormal mone e1.
Proof. unfold orthonormal, e1. rewrite mone_l, m21_gram, m11_one. apply m11_ext. rewrite Cconj_1, Cconj_0. ring. Qed.
Lemma h2_herm : hermitian h2.
Proof. unfold hermitian, h2. rewrite m22_adj. apply m22_ext; rewrite ?Cconj_0, ?Cconj_1; reflexivity. Qed.
Definition zero1 : Fin.t 1 -> R := fun _ => 0%R.
Lemma moved_overlap : forall x y a k : R, mmul (madj (m21 x (y + a * k)%R)) (mmul mone (m21 x (y + a * k)%R)) = m11 (RtoC (x * x + (y + a * k) * (y + a * k))).
Proof. intros. rewrite mone_l, m21_gram. apply m11_ext. rewrite !Cconj_R. rewrite <- !RtoC_mult, <- RtoC_plus. reflexivity. Qed.
(** going forward and back with constant scalar fillings *)
Definition s0 : mstate 2 1 := initState e1 zero1.
Definition s1 : mstate 2 1 := stepScalar s0 1 e2 (m11 (RtoC (/ sqrt 2))).
Definition s2 : mstate 2 1 := stepScalar s1 (-1) e2 (m11 (RtoC (/ sqrt (2 - 2 * / sqrt 2)))).
Lemma s0_moved : forall a, movedC s0 a e2 = m21 1%R (0 + a * 1)%R.
Proof. intros. unfold movedC, s0, initState. cbn [sC sExists]. unfold e1, e2. rewrite m21_scal, m21_add. apply m21_ext; [ring|]. rewrite RtoC_plus, RtoC_mult. ring. Qed.
Lemma s1_C : sC s1 = m21 (/ sqrt 2)%R (/ sqrt 2)%R.
Proof. unfold s1, stepScalar. cbn [sC]. rewrite s0_moved. unfold orthoMatrix. rewrite m11_adj, Cconj_R, m21_11. apply m21_ext; rewrite <- RtoC_mult; f_equal; ring. Qed.
Lemma s1_moved : forall a, movedC s1 a e2 = m21 (/ sqrt 2)%R (/ sqrt 2 + a * 1)%R.
Proof. intros. unfold movedC. rewrite s1_C. cbn [sExists s1 s0 stepScalar initState]. unfold e2. rewrite m21_scal, m21_add. apply m21_ext; [ring|]. rewrite RtoC_plus, RtoC_mult. ring. Qed.
Lemma r2_pos : (0 < r2 < 1)%R.
Proof. unfold r2. pose proof (sqrt_lt_R0 2 ltac:(lra)) as H. split; [apply Rinv_0_lt_compat; exact H|]. pose proof r2_sq as E. pose proof (Rinv_0_lt_compat _ H). unfold r2 in E. nra. Qed.
Lemma back_refuted : exists (O : mat 2 2) (s : mstate 2 1) d L1 L2, madj O = O /\ orthonormal O (sC s) /\ mmul (madj (sC s)) (mmul O d) = mzero /\ wf s /\
  choleskyTri (mmul (madj (movedC s 1 d)) (mmul O (movedC s 1 d))) L1 /\
  choleskyTri (mmul (madj (movedC (stepScalar s 1 d L1) (-1) d)) (mmul O (movedC (stepScalar s 1 d L1) (-1) d))) L2 /\
  let s' := stepScalar (stepScalar s 1 d L1) (-1) d L2 in mmul (sC s') (madj (sC s')) <> mmul (sC s) (madj (sC s)).
Proof.
  exists mone, s0, e2, (m11 (RtoC (/ sqrt 2))), (m11 (RtoC (/ sqrt (2 - 2 * / sqrt 2)))). fold s1. fold s2.
  pose proof r2_pos as Hr. pose proof r2_sq as Hq.
  assert (/ sqrt 2 = r2)%R as E by reflexivity.
  repeat match goal with |- _ /\ _ => split end.
  - apply madj_one.
  - exact e1_orth.
  - cbn. unfold e1, e2. rewrite mone_l, m21_gram, Cconj_1, Cconj_0. apply mat_ext. intros. unfold m11, mzero. ring.
  - apply wf_init.
  - rewrite s0_moved, moved_overlap. replace (1 * 1 + (0 + 1 * 1) * (0 + 1 * 1))%R with 2%R by ring. apply chol_11. lra.
  - rewrite s1_moved, moved_overlap. rewrite E. replace (r2 * r2 + (r2 + -1 * 1) * (r2 + -1 * 1))%R with (2 - 2 * r2)%R by (ring_simplify; replace (r2 ^ 2)%R with (r2 * r2)%R by ring; lra). apply chol_11. lra.
  - cbv zeta. intros H. unfold s2, stepScalar in H. cbn [sC] in H. rewrite s1_moved in H. unfold orthoMatrix in H. rewrite m11_adj, Cconj_R, m21_11, m21_outer in H. unfold s0, initState in H. cbn [sC] in H. unfold e1 in H. rewrite m21_outer in H.
    pose proof (f_equal (fun M => M (Fin.FS Fin.F1) (Fin.FS Fin.F1)) H) as H22. cbn [m22 Fin.caseS'] in H22. rewrite E in H22. rewrite <- RtoC_mult, Cconj_R, <- RtoC_mult, Cmult_0_l in H22. apply RtoC_inj in H22.
    pose proof (sqrt_lt_R0 (2 - 2 * r2) ltac:(lra)) as Hs. pose proof (Rinv_0_lt_compat _ Hs). assert ((r2 + -1 * 1) * / sqrt (2 - 2 * r2) = 0)%R as Z by nra. apply Rmult_integral in Z. lra.
Qed.
(** the derivative at a trial point *)
Definition t1 : mstate 2 1 := stepRot s0 1 e2 (m11 (RtoC (/ sqrt 2))) mone zero1 (m11 (RtoC (sqrt 2))).
Lemma t1_moved : forall a, movedC t1 a e2 = m21 (/ sqrt 2)%R (/ sqrt 2 + a * / sqrt 2)%R.
Proof.
  intros. unfold movedC, t1, stepRot. cbv zeta. cbn [sC sExists sRotC s0 initState]. change (initState e1 zero1) with s0. rewrite s0_moved, mone_l, mone_r. unfold orthoMatrix. rewrite m11_adj, Cconj_R. unfold e2. rewrite !m21_11, m21_scal, m21_add.
  apply m21_ext; rewrite ?RtoC_plus, ?RtoC_mult; ring.
Qed.
Definition LinvT (a : R) : mat 1 1 := m11 (RtoC (/ sqrt (/ sqrt 2 * / sqrt 2 + (/ sqrt 2 + a * / sqrt 2) * (/ sqrt 2 + a * / sqrt 2)))).
Lemma ov_pos : forall a, (0 < / sqrt 2 * / sqrt 2 + (/ sqrt 2 + a * / sqrt 2) * (/ sqrt 2 + a * / sqrt 2))%R.
Proof. intros a. change (/ sqrt 2)%R with r2. pose proof r2_sq. pose proof (Rle_0_sqr (r2 + a * r2)). unfold Rsqr in *. lra. Qed.
Lemma t1_energy : forall a, bandEnergy 1 h2 (sC (stepRot t1 a e2 (LinvT a) mone zero1 (m11 1))) (fun _ => 1%R) = ((1 + a) * (1 + a) / (1 + (1 + a) * (1 + a)))%R.
Proof.
  intros a. unfold stepRot. cbv zeta. cbn [sC]. rewrite t1_moved, mone_r. unfold orthoMatrix, LinvT. rewrite m11_adj, Cconj_R, m21_11. pose proof (ov_pos a) as Hp. set (N := (/ sqrt 2 * / sqrt 2 + (/ sqrt 2 + a * / sqrt 2) * (/ sqrt 2 + a * / sqrt 2))%R) in *.
  pose proof (sqrt_lt_R0 N Hp) as Hs. pose proof (sqrt_sqrt N (Rlt_le _ _ Hp)) as Hq.
  assert (N = (1 + (1 + a) * (1 + a)) / 2)%R as EN. { unfold N. change (/ sqrt 2)%R with r2. replace (r2 * r2 + (r2 + a * r2) * (r2 + a * r2))%R with (r2 * r2 * (1 + (1 + a) * (1 + a)))%R by ring. rewrite r2_sq. field. }
  unfold bandEnergy, rsumF. cbn. change (/ sqrt 2)%R with r2. transitivity ((r2 * r2) * ((1 + a) * (1 + a)) * (/ sqrt N * / sqrt N))%R; [ring|]. rewrite r2_sq, <- Rinv_mult_distr by lra. rewrite Hq, EN. field. pose proof (Rle_0_sqr (1 + a)). unfold Rsqr in *. lra.
Qed.
Lemma trial_refuted : exists (O H : mat 2 2) (s t : mstate 2 1) d B (Linv rot inv : R -> mat 1 1) (eigs : R -> Fin.t 1 -> R) D,
  madj O = O /\ hermitian H /\ wf s /\ orthonormal O (sC s) /\ mmul (madj (sC s)) (mmul O d) = mzero /\ reaches O d B s 1 t /\
  (forall a, choleskyTri (mmul (madj (movedC t a d)) (mmul O (movedC t a d))) (Linv a)) /\ (forall a, eigensystem (movedH t a B) (rot a) (eigs a)) /\
  is_derive (fun a => bandEnergy 1 H (sC (stepRot t a d (Linv a) (rot a) (eigs a) (inv a))) (fun _ => 1%R)) 0 D /\
  dotC (rotatedGradC t (gradC O (sC t) (mmul H (sC t)) (fun _ => 1%R) 1)) d = (2 * D)%R /\ (D <> 0)%R.
Proof.
  exists mone, h2, s0, t1, e2, mzero, LinvT, (fun _ => mone), (fun _ => m11 1), (fun _ => zero1), (1/2)%R.
  assert (forall (s : mstate 2 1) a, sEigs s = zero1 -> eigensystem (movedH s a mzero) mone zero1) as HE.
  { intros s a Es. split; [apply unitary_one|]. intros i k. rewrite mone_r. unfold movedH. rewrite Es. rewrite mmul_0_r, mmul_0_l. destruct (sExists s); unfold madd, mscal, mzero, mdiag, zero1; destruct (Fin.eq_dec i k); ring. }
  pose proof r2_pos as Hr. pose proof r2_sq as Hq. pose proof (sqrt_lt_R0 2 ltac:(lra)) as S2.
  repeat match goal with |- _ /\ _ => split end.
  - apply madj_one.
  - exact h2_herm.
  - apply wf_init.
  - exact e1_orth.
  - cbn. unfold e1, e2. rewrite mone_l, m21_gram, Cconj_1, Cconj_0. apply mat_ext. intros. unfold m11, mzero. ring.
  - replace 1%R with (0 + 1)%R by ring. unfold t1. apply reach_step; [apply reach_start| | | |].
    + rewrite s0_moved, moved_overlap. replace (1 * 1 + (0 + 1 * 1) * (0 + 1 * 1))%R with 2%R by ring. apply chol_11. lra.
    + apply HE. reflexivity.
    + unfold orthoMatrix. rewrite mone_r, m11_adj, Cconj_R, m11_11, <- RtoC_mult, Rinv_r by lra. symmetry. apply m11_one.
    + unfold orthoMatrix. rewrite mone_r, m11_adj, Cconj_R, m11_11, <- RtoC_mult, Rinv_l by lra. symmetry. apply m11_one.
  - intros a. rewrite t1_moved, moved_overlap. apply chol_11. apply ov_pos.
  - intros a. apply HE. reflexivity.
  - apply (is_derive_ext (fun a => (1 + a) * (1 + a) / (1 + (1 + a) * (1 + a)))%R); [intros; symmetry; apply t1_energy|]. auto_derive; [|field]. lra.
  - unfold rotatedGradC, t1, stepRot. cbv zeta. cbn [sC sExists sRotCinv s0 initState]. change (initState e1 zero1) with s0. rewrite s0_moved, !mone_r. unfold orthoMatrix. rewrite m11_adj, Cconj_R, m21_11. unfold gradC, hsub, h2. rewrite mone_l, m22_21, m21_gram, m21_11, m21_sub.
    assert (mdiag (fun _ : Fin.t 1 => RtoC (1 * 1)) = m11 1) as ->. { apply mat_ext. refine (fin1 _ _). refine (fin1 _ _). cbn. apply injective_projections; cbn; ring. }
    rewrite !m21_11. unfold dotC, e2. rewrite m21_gram. unfold mtr. cbn. change (/ sqrt 2)%R with r2. replace (sqrt 2) with (2 * r2)%R; [|unfold r2; rewrite <- (sqrt_sqrt 2) at 1 by lra; field; lra].
    transitivity (2 * ((r2 * r2) * 2 * (1 - r2 * r2)))%R; [ring|]. rewrite Hq. field.
  - lra.
Qed.
(** rotations: half-filled pair of bands and a Hamiltonian that couples them *)
Definition sx : mat 2 2 := m22 0 1 1 0.
Definition sy : mat 2 2 := m22 0 (- Ci) Ci 0.
Definition syV : mat 2 2 := m22 r2 r2 (Ci * r2) (- Ci * r2).
Definition syd : Fin.t 2 -> R := v2 1%R (-1)%R.
Lemma sy_eig : eigensystem sy syV syd.
Proof.
  split.
  - split; unfold syV; rewrite m22_adj, m22_mul, m22_one; apply m22_ext; csimp.
  - intros i k. unfold sy, syV. rewrite m22_mul. revert k; revert i. refine (fin2 _ _ _); refine (fin2 _ _ _); cbn; csimp.
Qed.
Lemma sy_herm : hermitian sy.
Proof. unfold hermitian, sy. rewrite m22_adj. apply m22_ext; apply injective_projections; cbn; ring. Qed.
Lemma sx_herm : hermitian sx.
Proof. unfold hermitian, sx. rewrite m22_adj. apply m22_ext; apply injective_projections; cbn; ring. Qed.
Lemma chol_id : forall n, choleskyTri (mone : mat n n) mone.
Proof.
  intros n. assert (lowerPos (mone : mat n n)) as L. { split; intros i; [intros j H; unfold mone, mdiag; destruct (Fin.eq_dec i j); [subst; lia|reflexivity]|]. unfold mone, mdiag. destruct (Fin.eq_dec i i); [|contradiction]. cbn. lra. }
  exists mone. rewrite madj_one, mone_l. tauto.
Qed.
Definition q0 : mstate 2 2 := initState mone (v2 1%R (-1)%R).
Definition half : Fin.t 2 -> R := v2 1%R 0%R.
Lemma q0_moved : forall a, movedC q0 a mzero = mone.
Proof. intros. unfold movedC, q0. cbn [sC sExists initState]. apply mat_ext. intros. unfold madd, mscal, mzero. ring. Qed.
Lemma q0_chol : forall a, choleskyTri (mmul (madj (movedC q0 a mzero)) (mmul mone (movedC q0 a mzero))) mone.
Proof. intros. rewrite q0_moved, madj_one, !mone_l. apply chol_id. Qed.
Lemma q0_cis : forall a, exists W' d', eigensystem (mscal (RtoC a) sy) W' d' /\ cisMat syV (fun i => (a * syd i)%R) = cisMat W' d'.
Proof.
  intros a. exists syV, (fun i => (a * syd i)%R). split; [|reflexivity]. destruct sy_eig as [U E]. split; [exact U|]. intros i k. rewrite mmul_scal_l. unfold mscal. rewrite E, RtoC_mult. ring.
Qed.
Lemma q0_dot : dotH (gradRotation half (hsub (sC q0) (mmul sx (sC q0)))) sy = (-2)%R.
Proof.
  unfold q0, hsub. cbn [sC initState]. rewrite mone_r, madj_one, mone_l. unfold dotH, gradRotation. cbv zeta.
  destruct (sym_ok 2 (mscal Ci (msub (mmul (mdiag (fun b => RtoC (half b))) sx) (mmul sx (mdiag (fun b => RtoC (half b))))))) as (S1 & _ & S3). rewrite S1, (S3 _ sy_herm). rewrite mdiag_l, mdiag_r. unfold mtr, mmul, msub, mscal. cbn. ring.
Qed.
Lemma q0_dotC : dotC (rotatedGradC q0 (gradC mone (sC q0) (mmul sx (sC q0)) half 2)) mzero = 0%R.
Proof. unfold dotC. rewrite mmul_0_r, mtr_0. cbn. ring. Qed.
Lemma weight_refuted : exists (O H : mat 2 2) (s : mstate 2 2) d B W dB F w (V : R -> mat 2 2) e,
  madj O = O /\ hermitian H /\ orthonormal O (sC s) /\ ready s /\ mmul (madj (sC s)) (mmul O d) = mzero /\ hermitian B /\ eigensystem B W dB /\
  (forall a, choleskyTri (mmul (madj (movedC s a d)) (mmul O (movedC s a d))) mone) /\
  (forall a, exists W' d', eigensystem (mscal (RtoC a) B) W' d' /\ V a = cisMat W' d') /\
  ~ is_derive (fun a => bandEnergy w H (sC (stepRot s a d mone (V a) e (madj (V a)))) F) 0
    (dotC (rotatedGradC s (gradC O (sC s) (mmul H (sC s)) F w)) d + dotH (gradRotation F (hsub (sC s) (mmul H (sC s)))) B)%R.
Proof.
  exists mone, sx, q0, mzero, sy, syV, syd, half, 2%R, (fun a => cisMat syV (fun i => (a * syd i)%R)), (v2 0%R 0%R).
  assert (orthonormal mone (sC q0)) as Ho. { unfold orthonormal, q0. cbn [sC initState]. rewrite madj_one, !mone_l. reflexivity. }
  assert (hermitian (hsub (sC q0) (mmul sx (sC q0)))) as Hh. { unfold q0, hsub. cbn [sC initState]. rewrite mone_r, madj_one, mone_l. exact sx_herm. }
  assert (mmul (madj (sC q0)) (mmul mone (mzero : mat 2 2)) = mzero) as Hp by (rewrite !mmul_0_r; reflexivity).
  repeat match goal with |- _ /\ _ => split end; auto using madj_one, sx_herm, sy_herm, sy_eig, q0_chol, q0_cis; try (left; reflexivity).
  intros Hbad. assert (mderive (fun _ : R => (mone : mat 2 2)) 0 mzero) as HdL by apply mderive_const.
  pose proof (rotation_gradient 2 2 mone q0 mzero sy (mmul sx (sC q0)) half 2 (bandEnergy 2 sx) (fun _ => mone) (fun a => cisMat syV (fun i => (a * syd i)%R)) mzero syV syd (v2 0%R 0%R) (fun a => madj (cisMat syV (fun i => (a * syd i)%R)))
    (madj_one 2) Ho Hh (or_introl eq_refl) Hp sy_herm sy_eig (bandEnergy_ok 2 2 2 sx (sC q0) half sx_herm) q0_chol HdL q0_cis) as Hg.
  apply is_derive_unique in Hbad. apply is_derive_unique in Hg. rewrite Hbad in Hg. rewrite q0_dot, q0_dotC in Hg. lra.
Qed.
(** a rotating auxiliary Hamiltonian [[1,a],[a,-1]] *)
Definition hrot (a : R) : mat 2 2 := rotV (atan a / 2).
Definition heig (a : R) : Fin.t 2 -> R := v2 (sqrt (1 + a * a))%R (- sqrt (1 + a * a))%R.
Lemma q0_eig : forall a, eigensystem (movedH q0 a sx) (hrot a) (heig a).
Proof.
  intros a. split; [apply rotV_unitary|].
  assert (movedH q0 a sx = m22 1 (RtoC a) (RtoC a) (-1)%R) as ->. { unfold movedH, q0. cbn [sEigs sExists initState]. apply mat_ext. refine (fin2 _ _ _); refine (fin2 _ _ _); unfold madd, mscal, sx; cbn; apply injective_projections; cbn; ring. }
  set (t := (atan a / 2)%R). assert (0 < 1 + a * a)%R as Hp by (pose proof (Rle_0_sqr a); unfold Rsqr in *; lra). pose proof (sqrt_lt_R0 _ Hp) as Hs.
  pose proof (cos_atan a) as HC. pose proof (sin_atan a) as HS. unfold Rsqr in HC, HS. replace (atan a) with (2 * t)%R in HC, HS by (unfold t; field).
  set (q := sqrt (1 + a * a)) in *.
  assert (q * cos (2 * t) = 1)%R as E1 by (rewrite HC; field; lra). assert (q * sin (2 * t) = a)%R as E2 by (rewrite HS; field; lra).
  pose proof (cos_minus (2 * t) t) as C1. pose proof (sin_minus (2 * t) t) as C2. replace (2 * t - t)%R with t in C1, C2 by ring.
  intros i k. unfold hrot, rotV. fold t. rewrite m22_mul. unfold heig. fold q. set (c := cos t) in *. set (z := sin t) in *. set (c2 := cos (2 * t)) in *. set (z2 := sin (2 * t)) in *.
  assert (q * c = c + a * z)%R as Q1 by (transitivity (q * c2 * c + q * z2 * z)%R; [rewrite C1 at 1; ring|rewrite E1, E2; ring]).
  assert (q * z = a * c - z)%R as Q2 by (transitivity (q * z2 * c - q * c2 * z)%R; [rewrite C2 at 1; ring|rewrite E1, E2; ring]).
  clearbody q c z c2 z2. revert k; revert i. refine (fin2 _ _ _); refine (fin2 _ _ _); cbn; apply injective_projections; cbn; try ring; lra.
Qed.
Lemma hrot_0 : hrot 0 = mone.
Proof. unfold hrot. rewrite atan_0. replace (0 / 2)%R with 0%R by field. apply rotV_0. Qed.
Lemma hrot_der : mderive hrot 0 (m22 0 (-1/2)%R (1/2)%R 0).
Proof.
  assert (is_derive (fun a => atan a / 2)%R 0 (1/2)%R) as HA by (auto_derive; auto; field).
  intros i j. revert j; revert i. refine (fin2 _ _ _); refine (fin2 _ _ _); cbn; split; try exact (is_derive_const (K:=R_AbsRing) (V:=R_NormedModule) 0%R 0%R).
  - auto_derive; auto. rewrite atan_0. replace (0 * / 2)%R with 0%R by field. rewrite sin_0. field.
  - auto_derive; auto. rewrite atan_0. replace (0 * / 2)%R with 0%R by field. rewrite cos_0. field.
  - auto_derive; auto. rewrite atan_0. replace (0 * / 2)%R with 0%R by field. rewrite cos_0. field.
  - auto_derive; auto. rewrite atan_0. replace (0 * / 2)%R with 0%R by field. rewrite sin_0. field.
Qed.
Lemma heig_der : forall b, is_derive (fun a => heig a b) 0 0%R.
Proof.
  refine (fin2 _ _ _); cbn; auto_derive; rewrite ?Rmult_0_l, ?Rplus_0_r; repeat split; auto; try lra; field; rewrite sqrt_1; lra.
Qed.
