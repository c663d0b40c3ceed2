(** Properties of the exchange kernels as a whole. *)
From Coq Require Import ZArith Reals List Bool.
From Coquelicot Require Import Coquelicot.
From Verif Require Import Base Gauss Grid_Model Vec3_Model Lattice_Model Basis_Model Coulomb_Model Coulomb_Spec CellMap_Spec VdW_Model Ewald_Model Ewald_Spec Exchange_Model Exchange_Spec
  Exchange_Proofs2 Exchange_Proofs3 Exchange_Proofs4 Exchange_Proofs5 Exchange_Proofs6 Exchange_Proofs7.
Import ListNotations.
Local Open Scope R_scope.

(** * C85 *)
(** The lattice gradient of the exchange energy of a pair density, including its G=0 term, is the derivative of the energy with respect to strain. *)
Theorem C85_periodic : forall omega grid X th kDiff Rl e (corr : R -> R * mat R),
  rdet Rl <> 0 -> 0 < th -> NoDup grid -> In (V 0 0 0)%Z grid -> regular Rl th grid kDiff ->
  is_derive (fun t => fst (corr t)) 0 (ddot (snd (corr 0)) e) ->
  is_derive (fun t => exchangeEnergy grid X (fun g => exchange (periodicKernel omega) (fst (VzeroPeriodic omega (corr t))) th g kDiff (gGGT (strained Rl e t))) (Rabs (rdet Rl))) 0
    (ddot (exchangeStress grid X th kDiff (fun g => exchange_grad (periodicKernel omega) th g kDiff (gG Rl)) (snd (VzeroPeriodic omega (corr 0))) (Rabs (rdet Rl))) e).
Proof. exact periodic_whole. Qed.
Print Assumptions C85_periodic.
(** With the probe-charge correction on the supercell there is no assumption on the correction left. *)
Theorem C85_screened_probe : forall omega N S grid X th kDiff Rl e, 0 < omega -> rdet Rl <> 0 -> rdet S <> 0 -> 0 < th -> NoDup grid -> In (V 0 0 0)%Z grid -> regular Rl th grid kDiff ->
  let Vz Rl := VzeroPeriodic omega (probeCorrection (rmm Rl S) (probeScreened (rmm Rl S) omega N)) in
  is_derive (fun t => exchangeEnergy grid X (fun g => exchange (periodicKernel omega) (fst (Vz (strained Rl e t))) th g kDiff (gGGT (strained Rl e t))) (Rabs (rdet Rl))) 0
    (ddot (exchangeStress grid X th kDiff (fun g => exchange_grad (periodicKernel omega) th g kDiff (gG Rl)) (snd (Vz Rl)) (Rabs (rdet Rl))) e).
Proof. exact screened_probe_whole. Qed.
Print Assumptions C85_screened_probe.
Theorem C85_ewald_probe : forall sigma NR NG S grid X th kDiff Rl e, 0 < sigma -> rdet Rl <> 0 -> rdet S <> 0 -> 0 < th -> NoDup grid -> In (V 0 0 0)%Z grid -> regular Rl th grid kDiff ->
  let Vz Rl := VzeroPeriodic 0 (probeCorrection (rmm Rl S) (probeEwald (rmm Rl S) sigma NR NG)) in
  is_derive (fun t => exchangeEnergy grid X (fun g => exchange (periodicKernel 0) (fst (Vz (strained Rl e t))) th g kDiff (gGGT (strained Rl e t))) (Rabs (rdet Rl))) 0
    (ddot (exchangeStress grid X th kDiff (fun g => exchange_grad (periodicKernel 0) th g kDiff (gG Rl)) (snd (Vz Rl)) (Rabs (rdet Rl))) e).
Proof. exact ewald_probe_whole. Qed.
Print Assumptions C85_ewald_probe.
Theorem C85_spherical : forall nk grid X th kDiff Rl e,
  0 < nk -> rdet Rl <> 0 -> 0 < th -> NoDup grid -> In (V 0 0 0)%Z grid -> regular Rl th grid kDiff ->
  is_derive (fun t => exchangeEnergy grid X (fun g => exchange (exSpherical (superRc nk (strained Rl e t))) (fst (VzeroSpherical nk (strained Rl e t))) th g kDiff (gGGT (strained Rl e t))) (Rabs (rdet Rl))) 0
    (ddot (exchangeStress grid X th kDiff (fun g => exchange_grad (exSpherical (superRc nk Rl)) th g kDiff (gG Rl)) (snd (VzeroSpherical nk Rl)) (Rabs (rdet Rl))) e).
Proof. exact spherical_whole. Qed.
Print Assumptions C85_spherical.
Theorem C85_slab : forall iDir grid X th kDiff Rl e c (corr : R -> R * mat R),
  rdet Rl <> 0 -> normal_dir Rl iDir -> keeps_normal e (Coulomb_Model.mcol Rl iDir) c -> vget kDiff iDir = 0 ->
  0 < th -> NoDup grid -> In (V 0 0 0)%Z grid -> regular Rl th grid kDiff ->
  is_derive (fun t => fst (corr t)) 0 (ddot (snd (corr 0)) e) ->
  is_derive (fun t => exchangeEnergy grid X (fun g => exslab iDir (hlfL_of iDir (strained Rl e t)) (fst (VzeroSlab iDir (strained Rl e t) (corr t))) th g kDiff (gGGT (strained Rl e t))) (Rabs (rdet Rl))) 0
    (ddot (exchangeStress grid X th kDiff (fun g => exslab_grad iDir (hlfL_of iDir Rl) (zHatOuter Rl iDir) th g kDiff (gG Rl)) (snd (VzeroSlab iDir Rl (corr 0))) (Rabs (rdet Rl))) e).
Proof. exact slab_whole. Qed.
Print Assumptions C85_slab.
(** k-points equal up to a non-zero reciprocal lattice vector: the energy uses the G=0 value for the component iG = -kDiff, the gradient omits its derivative. *)
Theorem C85_shifted_kpoint_refuted : exists grid X th kDiff Rl e, 0 < th /\ rdet Rl <> 0 /\ NoDup grid /\ In (V 0 0 0)%Z grid /\ integer3 kDiff /\
  (forall g, In g grid -> rvadd (real3 g) kDiff <> V 0 0 0 -> th < waveSq Rl (rvadd (real3 g) kDiff)) /\
  ~ is_derive (fun t => exchangeEnergy grid X (fun g => exchange (exSpherical (superRc 1 (strained Rl e t))) (fst (VzeroSpherical 1 (strained Rl e t))) th g kDiff (gGGT (strained Rl e t))) (Rabs (rdet Rl))) 0
    (ddot (exchangeStress grid X th kDiff (fun g => exchange_grad (exSpherical (superRc 1 Rl)) th g kDiff (gG Rl)) (snd (VzeroSpherical 1 Rl)) (Rabs (rdet Rl))) e).
Proof. exact shifted_wrong. Qed.
Print Assumptions C85_shifted_kpoint_refuted.
(** Without correction, the G=0 value is the limit of the kernel. *)
Theorem C85_screened_zero : forall omega, omega <> 0 -> is_lim (xval (periodicKernel omega)) 0 (fst (VzeroPeriodic omega (0, rzero))).
Proof. exact periodic_zero_limit. Qed.
Print Assumptions C85_screened_zero.
Theorem C85_spherical_zero : forall nk Rl, is_lim (fun g => xval (exSpherical (superRc nk Rl)) (g * g)) 0 (fst (VzeroSpherical nk Rl)).
Proof. exact spherical_zero_limit. Qed.
Print Assumptions C85_spherical_zero.
Example C85_example : rdet rid <> 0 /\ NoDup exGrid /\ In (V 0 0 0)%Z exGrid /\ regular rid (1/100) exGrid (V 0 0 0) /\ regular rid (1/100) exGrid (V (1/2) (1/2) 0) /\
  normal_dir rid 2 /\ keeps_normal (rdiag 1 2 3) (Coulomb_Model.mcol rid 2) 3 /\ vget (V (1/2) (1/2) 0) 2 = 0 /\ rdet (rdiag 2 2 1) <> 0.
Proof. exact example_grid. Qed.

(** * C86 *)
(** The probe-charge energy is the interaction of a unit charge with its images, its lattice derivative is the derivative of that energy, and the terms left out are negligible. *)
Theorem C86_probe_energy : forall omega, 0 < omega -> forall Rl N box, centred_box N box -> fst (probeScreened Rl omega N) = imageEnergy Rl omega box.
Proof. exact probe_energy. Qed.
Print Assumptions C86_probe_energy.
Theorem C86_probe_derivative : forall omega, 0 < omega -> forall Rl N eps, rdet Rl <> 0 ->
  is_derive (fun t => fst (probeScreened (strained Rl eps t) omega N)) 0 (ddot (snd (probeScreened Rl omega N)) eps).
Proof. exact probe_derive. Qed.
Print Assumptions C86_probe_derivative.
Theorem C86_probe_cutoff : forall omega, 0 < omega -> forall Rl tr box x y z, rdet Rl <> 0 -> centred_box (probeBox Rl omega tr) box -> summed tr (x, y, z) -> ~ In (x, y, z) box ->
  erfc (omega * rlen (rmv Rl (V (IZR x) (IZR y) (IZR z)))) < / 2 ^ 59.
Proof. exact probe_cutoff. Qed.
Print Assumptions C86_probe_cutoff.
Theorem C86_ewald_probe_energy : forall Rl sigma NR NG boxR boxG, 0 < sigma -> rdet Rl <> 0 -> centred_box NR boxR -> centred_box NG boxG ->
  fst (probeEwald Rl sigma NR NG) = ewaldFormula Rl sigma 1 (fun _ => 1) (fun _ => V 0 0 0) boxR boxG.
Proof. exact probeEwald_formula. Qed.
Print Assumptions C86_ewald_probe_energy.
Theorem C86_correction : forall Rs E, fst (probeCorrection Rs E) = - 2 * (Rabs (rdet Rs) * fst E).
Proof. exact correction_value. Qed.
Print Assumptions C86_correction.
(** The squared wave vector of the auxiliary function is periodic, non-negative, zero only on the reciprocal lattice, and quadratic around its zeros. *)
Theorem C86_effGsq_periodic : forall g n A, integer3 n -> effGsq (rvadd g n) A = effGsq g A.
Proof. exact effGsq_periodic. Qed.
Print Assumptions C86_effGsq_periodic.
Theorem C86_effGsq_nonneg : forall Rl g, rdet Rl <> 0 -> 0 <= effGsq g (gGGT Rl).
Proof. exact effGsq_nonneg. Qed.
Print Assumptions C86_effGsq_nonneg.
Theorem C86_effGsq_zero : forall Rl g, rdet Rl <> 0 -> effGsq g (gGGT Rl) = 0 <-> integer3 g.
Proof. exact effGsq_zero. Qed.
Print Assumptions C86_effGsq_zero.
Theorem C86_effGsq_limit : forall Rl g, is_lim (fun t => effGsq (rvscale t g) (gGGT Rl) / (t * t)) 0 (waveSq Rl g).
Proof. exact effGsq_wave. Qed.
Print Assumptions C86_effGsq_limit.
(** The auxiliary function has the singularity of the kernel: 4 pi / G^2 unscreened, bounded by its value pi / omega^2 when screened. *)
Theorem C86_singular_3D : forall Rl g, rdet Rl <> 0 -> g <> V 0 0 0 -> is_lim (fun t => (t * t) * fSingular3D (rvscale t g) (gGGT Rl) 0) 0 (4 * PI / waveSq Rl g).
Proof. exact fSingular3D_wave. Qed.
Print Assumptions C86_singular_3D.
Theorem C86_singular_3D_value : forall Rl g, rdet Rl <> 0 -> ~ integer3 g -> fSingular3D g (gGGT Rl) 0 * effGsq g (gGGT Rl) = 4 * PI /\ 0 < fSingular3D g (gGGT Rl) 0.
Proof. exact fSingular3D_unscreened. Qed.
Print Assumptions C86_singular_3D_value.
Theorem C86_singular_3D_screened : forall Rl g w, rdet Rl <> 0 -> 0 < w ->
  PI / w - PI * effGsq g (gGGT Rl) / (8 * w * w) <= fSingular3D g (gGGT Rl) w <= PI / w /\ (integer3 g -> fSingular3D g (gGGT Rl) w = PI / w) /\ 0 < fSingular3D g (gGGT Rl) w.
Proof. exact fSingular3D_screened. Qed.
Print Assumptions C86_singular_3D_screened.
Theorem C86_singular_2D_value : forall Rl g, rdet Rl <> 0 -> ~ integer3 g -> fSingular2D g (gGGT Rl) 0 * sqrt (effGsq g (gGGT Rl)) = 2 * PI /\ 0 < fSingular2D g (gGGT Rl) 0.
Proof. exact fSingular2D_unscreened. Qed.
Print Assumptions C86_singular_2D_value.
Theorem C86_singular_2D_screened : forall Rl g w, rdet Rl <> 0 -> 0 < w -> ~ integer3 g -> let G := sqrt (effGsq g (gGGT Rl)) in
  Rabs (fSingular2D g (gGGT Rl) w - 2 * PI / G * erf (G / (2 * sqrt w))) <= PI / sqrt w * / 10 ^ 19.
Proof. exact fSingular2D_screened. Qed.
Print Assumptions C86_singular_2D_screened.
Theorem C86_singular_2D_zero : forall Rl g w, rdet Rl <> 0 -> 0 < w -> integer3 g -> fSingular2D g (gGGT Rl) w = 2 * sqrt PI / sqrt w.
Proof. exact fSingular2D_zero. Qed.
Print Assumptions C86_singular_2D_zero.
Theorem C86_erf_by_x : forall x, x <> 0 -> Rabs (erf_by_x x - erf x / x) <= / 10 ^ 19.
Proof. exact erf_by_x_close. Qed.
Print Assumptions C86_erf_by_x.
Theorem C86_erf_by_x_derivative : forall x, 1 / 1000000 < x * x -> is_derive erf_by_x x (x * erf_by_xPrime_by_x x).
Proof. exact erf_by_x_derive. Qed.
Print Assumptions C86_erf_by_x_derivative.
Theorem C86_erf_series_derivative : forall x, x * x < 1 / 1000000 -> is_derive erf_by_x x (x * erf_by_xPrime_by_x x).
Proof. exact erf_series_derive. Qed.
Print Assumptions C86_erf_series_derivative.
(** With the correction as the value at the origin the mesh sum is the number of k-points times the integral. *)
Theorem C86_mesh_sum : forall (f : vec R -> R) (I : R) k0 ks,
  f (rvsub k0 k0) + integralMinusSum f I (k0 :: ks) + fold_right (fun k s => f (rvsub k k0) + s) 0 ks = INR (length (k0 :: ks)) * I.
Proof. exact mesh_sum. Qed.
Print Assumptions C86_mesh_sum.
Theorem C86_mesh_constant : forall (f : vec R -> R) (c I : R) l, integralMinusSum (fun k => f k + c) (I + c) l = integralMinusSum f I l.
Proof. exact mesh_const. Qed.
Print Assumptions C86_mesh_constant.
(** The six strains determine every symmetric derivative. *)
Theorem C86_finite_difference : forall h F Rl S, h <> 0 -> m01 S = m10 S -> m02 S = m20 S -> m12 S = m21 S ->
  (forall d, In d strainBasis -> F (rmm (rmadd rid (rmscale h d)) Rl) - F (rmm (rmsub rid (rmscale h d)) Rl) = 2 * h * ddot S d) ->
  finiteDifference h F Rl = S.
Proof. exact finite_difference. Qed.
Print Assumptions C86_finite_difference.
Example C86_example : integer3 (V 2 (-1) 0) /\ ~ integer3 (V (1/2) 0 0) /\ centred_box (1, 0, 0)%Z [(-1, 0, 0); (0, 0, 0); (1, 0, 0)]%Z /\ summed (fun k => Nat.eqb k 2) (1, 5, 0)%Z.
Proof. exact example_aux. Qed.
