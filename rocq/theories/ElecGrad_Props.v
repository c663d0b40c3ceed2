(** Theorems for the electronic gradients and the steps of the electronic minimizer (C93, C94). *)
From Coq Require Import Reals Lra FunctionalExtensionality.
From Coq Require Fin.
From Coquelicot Require Import Coquelicot.
From Verif Require Import CMat Smear_Model MatFun_Model MatFun_Spec MatFun_Proofs2 MatFun_Proofs3 MatFun_Proofs4 ElecGrad_Model ElecGrad_Spec ElecGrad_Proofs2 ElecGrad_Proofs3 ElecGrad_Proofs4 ElecGrad_Proofs5 Smear_Proofs.
Open Scope C_scope.

(** ** C93: gradients *)
(** Constrained directions have no overlap with the wavefunctions; the projection is idempotent and removes nothing but components along them. *)
Theorem C93_constrain : forall m n (O : mat m m) (Cq dir : mat m n), orthonormal O Cq ->
  mmul (madj Cq) (mmul O (constrainC O Cq dir)) = mzero /\ constrainC O Cq (constrainC O Cq dir) = constrainC O Cq dir /\
  (forall X, constrainC O Cq (madd dir (mmul Cq X)) = constrainC O Cq dir).
Proof. exact constrain_ok. Qed.
Print Assumptions C93_constrain.
(** Constant scalar fillings: the wavefunction gradient is the derivative of every energy along every step, constrained or not. *)
Theorem C93_scalar_fillings_gradient : forall m n (O : mat m m) (s : mstate m n) d HC f w G (Linv : R -> mat n n) dL, madj O = O -> orthonormal O (sC s) -> hermitian (hsub (sC s) HC) -> ready s ->
  energyFunctional G w (sC s) HC (fun _ => f) ->
  (forall a, choleskyTri (mmul (madj (movedC s a d)) (mmul O (movedC s a d))) (Linv a)) -> mderive Linv 0 dL ->
  is_derive (fun a => G (sC (stepScalar s a d (Linv a))) (fun _ => f)) 0 (dotC (rotatedGradC s (gradC O (sC s) HC (fun _ => f) w)) d).
Proof. exact scalar_gradient. Qed.
Print Assumptions C93_scalar_fillings_gradient.
(** Auxiliary Hamiltonian: along a constrained direction the free energy of a state changes by the products of direction and gradients, plus terms that
    vanish in the sum over states when the number of electrons is conserved and c is the ratio of the sums of f'(Hsub-eps) and f', or when mu is constant and c = 0. *)
Theorem C93_auxiliary_gradient : forall m n (O : mat m m) (s : mstate m n) d HC B w width ty G (Linv rot : R -> mat n n) eigs mu inv dL dV deps dmu c,
  madj O = O -> orthonormal O (sC s) -> hermitian (hsub (sC s) HC) -> ready s -> mmul (madj (sC s)) (mmul O d) = mzero -> hermitian B -> (0 < width)%R ->
  energyFunctional G w (sC s) HC (fun b => smear ty width (mu 0%R) (sEigs s b)) ->
  (forall a, choleskyTri (mmul (madj (movedC s a d)) (mmul O (movedC s a d))) (Linv a)) -> mderive Linv 0 dL ->
  (forall a, eigensystem (movedH s a B) (rot a) (eigs a)) -> rot 0%R = mone -> mderive rot 0 dV -> (forall b, is_derive (fun a => eigs a b) 0 (deps b)) -> is_derive mu 0 dmu ->
  (forall i j, sEigs s i = sEigs s j \/ (1 / 1000000 <= Rabs (sEigs s i - sEigs s j))%R) ->
  (ty = SmearingFermi -> forall b, (tiny < smear ty width (mu 0) (sEigs s b) /\ tiny < 1 - smear ty width (mu 0) (sEigs s b))%R) ->
  let f' := fun b => smearPrime ty width (mu 0%R) (sEigs s b) in
  let dN := (w * rsumF (fun b => (deps b - dmu) * f' b))%R in
  let h := hsub (sC s) HC in
  is_derive (electronsAt s d w width ty Linv rot eigs mu inv) 0 dN /\
  is_derive (freeEnergyAt s d w width ty G Linv rot eigs mu inv) 0
    (dotC (rotatedGradC s (gradC O (sC s) HC (fun b => smear ty width (mu 0%R) (sEigs s b)) w)) d
    + dotH (rotatedGradH s (gradHauxMat ty width (mu 0) c w (sEigs s) h)) B
    + (mu 0 + c) * dN + dmu * (w * (c * rsumF f' - rsumF (fun b => f' b * (Re (h b b) - sEigs s b)))))%R.
Proof. intros; eapply Haux_gradient; eassumption. Qed.
Print Assumptions C93_auxiliary_gradient.
(** Constant fillings that differ between bands: the derivative along a constrained direction and a rotation. The subspace gradient of the code enters with the weight of the state. *)
Theorem C93_rotation_derivative : forall m n (O : mat m m) (s : mstate m n) d B HC F w G (Linv V : R -> mat n n) dL W dB e inv, madj O = O -> orthonormal O (sC s) -> hermitian (hsub (sC s) HC) -> ready s ->
  mmul (madj (sC s)) (mmul O d) = mzero -> hermitian B -> eigensystem B W dB ->
  energyFunctional G w (sC s) HC F ->
  (forall a, choleskyTri (mmul (madj (movedC s a d)) (mmul O (movedC s a d))) (Linv a)) -> mderive Linv 0 dL ->
  (forall a, exists W' d', eigensystem (mscal (RtoC a) B) W' d' /\ V a = cisMat W' d') ->
  is_derive (fun a => G (sC (stepRot s a d (Linv a) (V a) e (inv a))) F) 0
    (dotC (rotatedGradC s (gradC O (sC s) HC F w)) d + w * dotH (gradRotation F (hsub (sC s) HC)) B)%R.
Proof. exact rotation_gradient. Qed.
Print Assumptions C93_rotation_derivative.
(** The code leaves out the weight (ElecMinimizer.cpp line 214), so that its gradient is not the derivative of the energy, unless the weight is one. *)
Theorem C93_rotation_gradient_refuted : exists (O H : mat 2 2) (s : mstate 2 2) d B W dB F w (V : R -> mat 2 2) e,
  madj O = O /\ hermitian H /\ orthonormal O (sC s) /\ ready s /\ mmul (madj (sC s)) (mmul O d) = mzero /\ hermitian B /\ eigensystem B W dB /\
  (forall a, choleskyTri (mmul (madj (movedC s a d)) (mmul O (movedC s a d))) mone) /\
  (forall a, exists W' d', eigensystem (mscal (RtoC a) B) W' d' /\ V a = cisMat W' d') /\
  ~ is_derive (fun a => bandEnergy w H (sC (stepRot s a d mone (V a) e (madj (V a)))) F) 0
    (dotC (rotatedGradC s (gradC O (sC s) (mmul H (sC s)) F w)) d + dotH (gradRotation F (hsub (sC s) (mmul H (sC s)))) B)%R.
Proof. exact weight_refuted. Qed.
Print Assumptions C93_rotation_gradient_refuted.
(** The energies covered include those of fixed Hamiltonians. *)
Theorem C93_fixed_Hamiltonian : forall m n w (H : mat m m) (Cq : mat m n) F, hermitian H -> energyFunctional (bandEnergy w H) w Cq (mmul H Cq) F.
Proof. exact bandEnergy_ok. Qed.
Print Assumptions C93_fixed_Hamiltonian.

(** ** C94: steps *)
(** However a line search is divided into steps, the wavefunctions are orthonormal, follow a straight line up to the rotation, and the auxiliary Hamiltonian follows a straight line. *)
Theorem C94_steps_compose : forall m n (O : mat m m) d B (s s' : mstate m n) a, wf s -> orthonormal O (sC s) -> reaches O d B s a s' ->
  orthonormal O (sC s') /\ wf s' /\
  sC s' = mmul (madd (mmul (sC s) (sRotCinv s)) (mscal (RtoC a) d)) (sRotC s') /\
  matFunc (sRot s') (fun b => RtoC (sEigs s' b)) = madd (matFunc (sRot s) (fun b => RtoC (sEigs s b))) (mscal (RtoC a) B).
Proof. intros m n O d B s s' a Hw Ho Hr. exact (conj (reach_orth m n O d B s s' a Ho Hr) (conj (reach_wf m n O d B s s' a Hw Hr) (conj (reach_C m n O d B s s' a Hw Hr) (reach_H m n O d B s s' a Hw Hr)))). Qed.
Print Assumptions C94_steps_compose.
(** The occupied space and the auxiliary Hamiltonian depend only on the total length. *)
Theorem C94_only_total_length : forall m n (O : mat m m) d B (s s1 s2 : mstate m n) a, wf s -> orthonormal O (sC s) -> reaches O d B s a s1 -> reaches O d B s a s2 ->
  mmul (sC s1) (madj (sC s1)) = mmul (sC s2) (madj (sC s2)) /\
  matFunc (sRot s1) (fun b => RtoC (sEigs s1 b)) = matFunc (sRot s2) (fun b => RtoC (sEigs s2 b)).
Proof. exact reach_same. Qed.
Print Assumptions C94_only_total_length.
(** The constructor sets up, and report restores, a state from which the gradients are exact. *)
Theorem C94_start : forall m n (Cq : mat m n) e, wf (initState Cq e).
Proof. exact wf_init. Qed.
Print Assumptions C94_start.
Theorem C94_report : forall m n (s : mstate m n), wf s ->
  wf (reportState s) /\ ready (reportState s) /\ sC (reportState s) = sC s /\ sEigs (reportState s) = sEigs s /\ sRot (reportState s) = sRot s.
Proof. exact wf_report. Qed.
Print Assumptions C94_report.
(** With constant scalar fillings, the steps of a line search do not compose: a step followed by its reverse does not lead back. *)
Theorem C94_scalar_steps_refuted : exists (O : mat 2 2) (s : mstate 2 1) d L1 L2, madj O = O /\ orthonormal O (sC s) /\ mmul (madj (sC s)) (mmul O d) = mzero /\ wf s /\
  choleskyTri (mmul (madj (movedC s 1 d)) (mmul O (movedC s 1 d))) L1 /\
  choleskyTri (mmul (madj (movedC (stepScalar s 1 d L1) (-1) d)) (mmul O (movedC (stepScalar s 1 d L1) (-1) d))) L2 /\
  let s' := stepScalar (stepScalar s 1 d L1) (-1) d L2 in mmul (sC s') (madj (sC s')) <> mmul (sC s) (madj (sC s)).
Proof. exact back_refuted. Qed.
Print Assumptions C94_scalar_steps_refuted.
(** Away from the start of a line search the rotated gradient is not the derivative along the line: the inverse of the rotation stands where its adjoint should. *)
Theorem C94_trial_gradient_refuted : exists (O H : mat 2 2) (s t : mstate 2 1) d B (Linv rot inv : R -> mat 1 1) (eigs : R -> Fin.t 1 -> R) D,
  madj O = O /\ hermitian H /\ wf s /\ orthonormal O (sC s) /\ mmul (madj (sC s)) (mmul O d) = mzero /\ reaches O d B s 1 t /\
  (forall a, choleskyTri (mmul (madj (movedC t a d)) (mmul O (movedC t a d))) (Linv a)) /\ (forall a, eigensystem (movedH t a B) (rot a) (eigs a)) /\
  is_derive (fun a => bandEnergy 1 H (sC (stepRot t a d (Linv a) (rot a) (eigs a) (inv a))) (fun _ => 1%R)) 0 D /\
  dotC (rotatedGradC t (gradC O (sC t) (mmul H (sC t)) (fun _ => 1%R) 1)) d = (2 * D)%R /\ (D <> 0)%R.
Proof. exact trial_refuted. Qed.
Print Assumptions C94_trial_gradient_refuted.

(** Examples *)
Example C93_ex_orthonormal : orthonormal mone e1 /\ mmul (madj e1) (mmul mone e2) = mzero /\ constrainC mone e1 e1 = mzero.
Proof.
  split; [exact e1_orth|]. split.
  - unfold e1, e2. rewrite mone_l, m21_gram, Cconj_1, Cconj_0. apply mat_ext. intros. unfold m11, mzero. ring.
  - unfold constrainC. rewrite e1_orth, mone_r. apply mat_ext. intros. unfold msub, mzero. ring.
Qed.
Example C93_ex_scalar : ready s0 /\ (forall a, choleskyTri (mmul (madj (movedC s0 a e2)) (mmul mone (movedC s0 a e2))) (m11 (RtoC (/ sqrt (1 * 1 + (0 + a * 1) * (0 + a * 1)))))) /\
  mderive (fun a => m11 (RtoC (/ sqrt (1 * 1 + (0 + a * 1) * (0 + a * 1))))) 0 mzero.
Proof.
  split; [left; reflexivity|]. split.
  - intros a. rewrite s0_moved, moved_overlap. apply chol_11. pose proof (Rle_0_sqr (0 + a * 1)). unfold Rsqr in *. lra.
  - intros i j. split; cbn.
    + auto_derive; replace (1 * 1 + (0 + 0 * 1) * (0 + 0 * 1))%R with 1%R by ring; rewrite ?sqrt_1; [repeat split; lra|field; repeat split; lra].
    + exact (is_derive_const (K:=R_AbsRing) (V:=R_NormedModule) 0%R 0%R).
Qed.
Example C93_ex_auxiliary : (forall a, eigensystem (movedH q0 a sx) (hrot a) (heig a)) /\ hrot 0 = mone /\ mderive hrot 0 (m22 0 (-1/2)%R (1/2)%R 0) /\
  (forall b, is_derive (fun a => heig a b) 0 0%R) /\ hermitian sx /\ ready q0 /\ (forall a, choleskyTri (mmul (madj (movedC q0 a mzero)) (mmul mone (movedC q0 a mzero))) mone) /\
  (forall i j, sEigs q0 i = sEigs q0 j \/ (1 / 1000000 <= Rabs (sEigs q0 i - sEigs q0 j))%R).
Proof.
  split; [exact q0_eig|]. split; [exact hrot_0|]. split; [exact hrot_der|]. split; [exact heig_der|]. split; [exact sx_herm|]. split; [left; reflexivity|]. split; [exact q0_chol|].
  refine (fin2 _ _ _); refine (fin2 _ _ _); cbn; try (left; reflexivity); right; unfold Rabs; destruct (Rcase_abs _); lra.
Qed.
Example C93_ex_rotation : eigensystem sy syV syd /\ hermitian sy /\ energyFunctional (bandEnergy 2 sx) 2 mone (mmul sx mone) half.
Proof. split; [exact sy_eig|]. split; [exact sy_herm|]. apply bandEnergy_ok. exact sx_herm. Qed.
Example C94_ex_reaches : reaches mone e2 mzero s0 (0 + 1)%R t1.
Proof.
  pose proof r2_pos. pose proof r2_sq. pose proof (sqrt_lt_R0 2 ltac:(lra)). unfold t1. apply reach_step; [apply reach_start| | | |].
  - rewrite s0_moved, moved_overlap. replace (1 * 1 + (0 + 1 * 1) * (0 + 1 * 1))%R with 2%R by ring. apply chol_11. lra.
  - split; [apply unitary_one|]. intros i k. rewrite mone_r. unfold movedH, s0. cbn [sEigs sExists initState]. unfold madd, mscal, mzero, mdiag, zero1. destruct (Fin.eq_dec i k); ring.
  - unfold orthoMatrix. rewrite mone_r, m11_adj, Cconj_R, m11_11, <- RtoC_mult, Rinv_r by lra. symmetry. apply m11_one.
  - unfold orthoMatrix. rewrite mone_r, m11_adj, Cconj_R, m11_11, <- RtoC_mult, Rinv_l by lra. symmetry. apply m11_one.
Qed.
