(** C46: cavity shape functions lie in [0,1], decrease with density and have exact gradients. *)
From Coq Require Import ZArith Reals List Lia Lra.
From Coquelicot Require Import Coquelicot.
From Verif Require Import Base Vec3_Model Vec3_Facts Lattice_Model Gauss Cavity_Model Cavity_Proofs Cavity_Proofs2 Cavity_Proofs3.
Import ListNotations.
Open Scope R_scope.

(** ** ShapeFunction (GLSSA13/LA12 and nonlinear) *)
Theorem C46_shape_range : forall nc sigma n, 0 < nc -> 0 < sigma ->
  0 < shape_calc nc sigma n <= 1 /\ (n <> 0 -> shape_calc nc sigma n < 1).
Proof. exact shape_range. Qed.
Print Assumptions C46_shape_range.
Theorem C46_shape_decreasing : forall nc sigma a b, 0 < nc -> 0 < sigma -> 0 <= a < b ->
  shape_calc nc sigma b < shape_calc nc sigma a.
Proof. exact shape_decr. Qed.
Print Assumptions C46_shape_decreasing.
(** the propagated gradient accumulates the exact derivative times the incoming gradient *)
Theorem C46_shape_gradient : forall nc sigma n, 0 < nc -> 0 < sigma -> 0 < n ->
  exists s', is_derive (shape_calc nc sigma) n s' /\ forall g a, shape_grad_calc nc sigma n g a = a + g * s'.
Proof. exact shape_gradient. Qed.
Print Assumptions C46_shape_gradient.
(** compute takes fabs(n), so the shape function is even, but propagateGradient does not flip the sign of the
    derivative for negative n: the gradient is wrong there (grid densities can be slightly negative) *)
Theorem C46_shape_negative_density_refuted :
  exists nc sigma n, 0 < nc /\ 0 < sigma /\ ~ is_derive (shape_calc nc sigma) n (shape_grad_calc nc sigma n 1 0).
Proof. exact shape_negative. Qed.
Print Assumptions C46_shape_negative_density_refuted.
Example C46_shape_ex : shape_calc 2 3 2 = / 2.
Proof.
  unfold shape_calc. destruct (Req_EM_T 2 0); [lra|]. rewrite Rabs_pos_eq by lra. replace (2/2) with 1 by lra. rewrite ln_1.
  replace (sqrt 0.5 * 0 / 3) with 0 by lra. unfold erfc. rewrite erf_0. lra.
Qed.

(** ** ShapeFunctionSCCS *)
Theorem C46_sccs_range : forall rhoMin rhoMax eps, 0 < rhoMin -> rhoMin < rhoMax -> 1 < eps -> forall rho,
  0 <= sccs_calc rhoMin rhoMax eps rho <= 1.
Proof. exact sccs_range. Qed.
Print Assumptions C46_sccs_range.
Theorem C46_sccs_decreasing : forall rhoMin rhoMax eps, 0 < rhoMin -> rhoMin < rhoMax -> 1 < eps -> forall a b, a <= b ->
  sccs_calc rhoMin rhoMax eps b <= sccs_calc rhoMin rhoMax eps a.
Proof. exact sccs_decr. Qed.
Print Assumptions C46_sccs_decreasing.
(** also at the end points rhoMin and rhoMax, where the branches are glued *)
Theorem C46_sccs_gradient : forall rhoMin rhoMax eps, 0 < rhoMin -> rhoMin < rhoMax -> 1 < eps -> forall rho,
  is_derive (sccs_calc rhoMin rhoMax eps) rho (sccs_grad_calc rhoMin rhoMax eps rho 1 0).
Proof. exact sccs_derive. Qed.
Print Assumptions C46_sccs_gradient.
Theorem C46_sccs_accumulates : forall rhoMin rhoMax eps rho g a,
  sccs_grad_calc rhoMin rhoMax eps rho g a = a + g * sccs_grad_calc rhoMin rhoMax eps rho 1 0.
Proof. exact sccs_grad_acc. Qed.
Print Assumptions C46_sccs_accumulates.
Example C46_sccs_ex : sccs_calc 1 2 80 (1/2) = 1 /\ sccs_calc 1 2 80 3 = 0.
Proof. unfold sccs_calc. destruct (Rle_dec 2 (1/2)), (Rle_dec (1/2) 1), (Rle_dec 2 3); lra. Qed.

(** ** ShapeFunctionCANDLE *)
Theorem C46_candle_range : forall nc k n Dn Dphi p, 0 < candle nc k n Dn Dphi p <= 1.
Proof. exact candle_range. Qed.
Print Assumptions C46_candle_range.
Theorem C46_candle_decreasing : forall nc k a b Dn Dphi p, 0 < nc -> 0 < k -> a <= b ->
  candle nc k b Dn Dphi p <= candle nc k a Dn Dphi p.
Proof. exact candle_decr. Qed.
Print Assumptions C46_candle_decreasing.
(** joint directional derivative in density, density gradient, potential gradient and pCavity *)
Theorem C46_candle_gradient : forall nc k n dn Dn dDn Dphi dDphi p dp A, 0 < nc -> / 10 ^ 8 < n -> cd_x nc Dn Dphi p <> 4 ->
  is_derive (fun t : R => A * candle nc k (n + t * dn) (rvadd Dn (rvscale t dDn)) (rvadd Dphi (rvscale t dDphi)) (p + t * dp)) 0
    (let '(An, ADn, ADphi, Ap) := candle_grad nc k n Dn Dphi p A in An * dn + rdot ADn dDn + rdot ADphi dDphi + Ap * dp).
Proof. exact candle_derive. Qed.
Print Assumptions C46_candle_gradient.
(** the asymmetry tanh(x^2) is replaced by 1 for x > 4, so the shape function has a (tiny) jump at x = 4 and no
    derivative there *)
Theorem C46_candle_cutoff_refuted : exists nc k n Dn Dphi p A, 0 < nc /\ 0 < k /\ 1 / 10 < n /\
  ~ is_derive (fun t : R => A * candle nc k n Dn Dphi (p + t)) 0 (snd (candle_grad nc k n Dn Dphi p A)).
Proof. exact candle_jump. Qed.
Print Assumptions C46_candle_cutoff_refuted.
Example C46_candle_ex : cd_x 1 (V 1 0 0) (V 0 1 0) 2 <> 4.
Proof. unfold cd_x, cd_eDotE, cd_e. v3_unfold. lra. Qed.

(** ** ShapeFunctionSGA13::expandDensity *)
Theorem C46_expand_gradient : forall alpha n D2, / 10 ^ 9 < n ->
  is_derive (fun n : R => fst (fst (expandDensity_calc alpha n D2))) n (snd (fst (expandDensity_calc alpha n D2))) /\
  is_derive (fun D2 : R => fst (fst (expandDensity_calc alpha n D2))) D2 (snd (expandDensity_calc alpha n D2)).
Proof. exact expand_derive. Qed.
Print Assumptions C46_expand_gradient.
Theorem C46_expand_positive : forall alpha n D2, 0 < alpha -> 0 <= D2 -> 0 < fst (fst (expandDensity_calc alpha n D2)).
Proof. exact expand_pos. Qed.
Print Assumptions C46_expand_positive.
Example C46_expand_ex : fst (fst (expandDensity_calc 2 3 3)) = 7.
Proof.
  unfold expandDensity_calc. destruct (Rlt_dec 3 (/ 10 ^ 9)) as [L|L]; cbn [fst snd]; [|lra].
  exfalso. assert (/ 10 ^ 9 < / 1) as L1; [apply Rinv_lt_contravar; lra|]. rewrite Rinv_1 in L1. lra.
Qed.

(** ** ShapeFunctionSoftSphere: depends on the atomic positions and radii instead of the density *)
Theorem C46_softsphere_range : forall RTR sigmaInv reps y atoms, 0 < softSphere RTR sigmaInv reps atoms y <= 1.
Proof. exact soft_range. Qed.
Print Assumptions C46_softsphere_range.
Theorem C46_softsphere_decreasing : forall RTR sigmaInv reps y, 0 < sigmaInv -> forall atoms atoms',
  Forall2 (fun a b => fst a = fst b /\ snd a <= snd b) atoms atoms' ->
  softSphere RTR sigmaInv reps atoms' y <= softSphere RTR sigmaInv reps atoms y.
Proof. exact soft_decr. Qed.
Print Assumptions C46_softsphere_decreasing.
(** gradient with respect to the position and radius of any one atom, at grid points that are not on the cell
    boundary of the wrapped displacement nor on an atom *)
Theorem C46_softsphere_gradient : forall RTR sigmaInv reps y pre x r post d e E,
  m01 RTR = m10 RTR /\ m02 RTR = m20 RTR /\ m12 RTR = m21 RTR ->
  interior (c0 x - c0 y) /\ interior (c1 x - c1 y) /\ interior (c2 x - c2 y) ->
  (forall rep, In rep reps -> / 10 ^ 14 <= repDist RTR x y rep) ->
  let s := softSphere RTR sigmaInv reps (pre ++ (x, r) :: post) y in
  / 10 ^ 14 < s ->
  let g := softSphere_grad RTR sigmaInv reps x r y s E in
  is_derive (fun h : R => E * softSphere RTR sigmaInv reps (pre ++ (rvadd x (rvscale h d), r + h * e) :: post) y) 0 (rdot (fst g) d + snd g * e).
Proof. exact soft_derive. Qed.
Print Assumptions C46_softsphere_gradient.
(** a grid point that coincides with the atom is skipped entirely: right for the force, but the derivative with
    respect to the radius is lost *)
Theorem C46_softsphere_radius_refuted : exists RTR sigmaInv reps x r y, 0 < sigmaInv /\ 0 < r /\ sym RTR /\
  / 10 ^ 14 < softSphere RTR sigmaInv reps [(x, r)] y /\
  ~ is_derive (fun r : R => softSphere RTR sigmaInv reps [(x, r)] y) r (snd (softSphere_grad RTR sigmaInv reps x r y (softSphere RTR sigmaInv reps [(x, r)] y) 1)).
Proof. exact soft_radius_dropped. Qed.
Print Assumptions C46_softsphere_radius_refuted.
Example C46_softsphere_ex : interior (c0 (V (1/4) 0 0) - c0 (V 0 0 0)) /\ repDist rid (V (1/4) 0 0) (V 0 0 0) (V 0 0 0)%Z = 1/4.
Proof.
  assert (F1 : rfloor (0.5 + (1/4 - 0)) = 0%Z) by (apply RealUtil.rfloor_unique; cbn; lra).
  assert (F0 : rfloor (0.5 + (0 - 0)) = 0%Z) by (apply RealUtil.rfloor_unique; cbn; lra).
  split; [unfold interior; cbn [c0]; rewrite F1; cbn; lra|].
  unfold repDist, repDisp, wrapDisp, wrap1. cbn [c0 c1 c2]. rewrite F1, F0. unfold metric_len2. v3_unfold. cbn.
  match goal with |- sqrt ?e = _ => replace e with ((1/4) * (1/4)) by field end. apply sqrt_square. lra.
Qed.
