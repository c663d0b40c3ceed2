(** Assembly of C51 and concrete witnesses. *)
From Coq Require Import ZArith Reals List Lia Lra.
From Coquelicot Require Import Coquelicot.
From Verif Require Import Vec3_Model Vec3_Facts Basis_Model LDA_Model Coulomb_Model Coulomb_Spec Coulomb_Proofs Coulomb_Proofs2 Coulomb_Proofs3 Coulomb_Proofs4.
Import ListNotations.
Local Open Scope R_scope.

Lemma c51_periodic Rl e S2 l : rdet Rl <> 0 ->
  is_derive (fun t => pairEnergy (Rabs (rdet Rl)) S2 (fun iG => periodic iG (gGGT (strained Rl e t))) l) 0
    (ddot (latticeGradient Rl (stressSum S2 (fun iG => periodic_grad iG (gGGT Rl)) l)) e).
Proof. intros D. apply (stress_ok periodic). intros iG. apply periodic_ok. exact D. Qed.
Lemma c51_spherical Rc Rl e S2 l : rdet Rl <> 0 ->
  is_derive (fun t => pairEnergy (Rabs (rdet Rl)) S2 (fun iG => spherical Rc iG (gGGT (strained Rl e t))) l) 0
    (ddot (latticeGradient Rl (stressSum S2 (fun iG => spherical_grad Rc iG (gGGT Rl)) l)) e).
Proof. intros D. apply (stress_ok (spherical Rc)). intros iG. apply spherical_ok. exact D. Qed.
Lemma c51_ionkernel w z Rl e S2 l : rdet Rl <> 0 ->
  is_derive (fun t => pairEnergy (Rabs (rdet Rl)) S2 (fun iG => ionkernel w z iG (gGGT (strained Rl e t))) l) 0
    (ddot (latticeGradient Rl (stressSum S2 (fun iG => ionkernel_grad w iG (gGGT Rl)) l)) e).
Proof. intros D. apply (stress_ok (ionkernel w z)). intros iG. apply ionkernel_ok. exact D. Qed.

Lemma stress_ok2 (K : vec Z -> R -> R) (gr : vec Z -> smat) S2 Rl e l :
  (forall iG, is_derive (K iG) 0 (ddot (cart (gG Rl) (gr iG)) e)) ->
  is_derive (fun t => pairEnergy (Rabs (rdet Rl)) S2 (fun iG => K iG t) l) 0
    (ddot (latticeGradient Rl (stressSum S2 gr l)) e).
Proof.
  intros H. unfold pairEnergy, latticeGradient. set (v := Rabs (rdet Rl)). clearbody v.
  assert (Q : is_derive (fun t => fold_right (fun p acc => let '(iG, ((xr, xi), (yr, yi))) := p in
        (if orb (Z.eqb (c2 iG) 0) (Z.eqb (2 * c2 iG) S2) then 1 else 2) * (xr * yr + xi * yi) * K iG t + acc) 0 l) 0
     (ddot (cart (gG Rl) (stressSum S2 gr l)) e)).
  { induction l as [|[iG [[xr xi] [yr yi]]] l IH].
    - cbn [fold_right stressSum]. apply (const_derive _ 0); [reflexivity|]. rewrite sscale_0. apply cart_0.
    - cbn [fold_right stressSum]. rewrite cart_add, cart_scale. unfold weight.
      apply (is_derive_plus (V := R_NormedModule)); [|exact IH]. apply is_derive_scal. apply H. }
  evar_last; [apply is_derive_scal; exact Q|].
  fold (cart (gG Rl) (stressSum S2 gr l)). generalize (cart (gG Rl) (stressSum S2 gr l)). intros m. destruct m, e. unfold ddot. v3u. ring.
Qed.
Lemma c51_slab i Rl e c S2 l : rdet Rl <> 0 -> normal_dir Rl i -> keeps_normal e (mcol Rl i) c ->
  is_derive (fun t => pairEnergy (Rabs (rdet Rl)) S2 (fun iG => slab i (hlfL_of i (strained Rl e t)) iG (gGGT (strained Rl e t))) l) 0
    (ddot (latticeGradient Rl (stressSum S2 (fun iG => slab_grad i (hlfL_of i Rl) iG (gGGT Rl)) l)) e).
Proof.
  intros D H K. apply (stress_ok2 (fun iG t => slab i (hlfL_of i (strained Rl e t)) iG (gGGT (strained Rl e t)))).
  intros iG. apply (slab_ok i Rl e c iG D H K).
Qed.
Lemma c51_exchange_spherical nk Rl e iG kDiff Vzero th :
  0 < nk -> rdet Rl <> 0 -> 0 <= th -> metric2 (gGGT Rl) (rvadd (vIZR iG) kDiff) <> th ->
  is_derive (fun t => exchange (exSpherical (superRc nk (strained Rl e t))) Vzero th iG kDiff (gGGT (strained Rl e t))) 0
    (ddot (smat_mat (exchange_grad (exSpherical (superRc nk Rl)) th iG kDiff (gG Rl))) e).
Proof.
  intros Nk D T N. assert (E := exSpherical_ok (fun t => superRc nk (strained Rl e t)) Rl e iG kDiff Vzero th D T N).
  cbv beta in E. rewrite strained_0 in E. apply E. apply superRc_derive; auto.
Qed.

Definition cube : mat R := M (2 * PI) 0 0 0 (2 * PI) 0 0 0 (2 * PI).
Lemma cube_det : rdet cube <> 0.
Proof. unfold cube. v3u. assert (P := PI_RGT_0). intro E. assert (0 < 2 * PI * (2 * PI * (2 * PI))) by (apply Rmult_lt_0_compat; [lra|apply Rmult_lt_0_compat; lra]). lra. Qed.
Lemma cube_G : gG cube = rid.
Proof.
  unfold gG. assert (P := PI_RGT_0).
  assert (E : rinv cube = rmscale (1 / (2 * PI)) rid).
  { symmetry. apply rinv_unique. apply cube_det. unfold cube. v3u. f_equal; field; lra. }
  rewrite E. v3u. f_equal; field; lra.
Qed.
Lemma cube_GGT : gGGT cube = rid.
Proof. unfold gGGT. rewrite cube_G. v3u. f_equal; ring. Qed.
Lemma c51_fixed_radius :
  exists (Rc : R) (Rl e : mat R) (iG : vec Z) (kDiff : vec R) (Vzero th : R),
    0 < Rc /\ rdet Rl <> 0 /\ 0 <= th /\ th < metric2 (gGGT Rl) (rvadd (vIZR iG) kDiff) /\
    ~ is_derive (fun t => exchange (exSpherical Rc) Vzero th iG kDiff (gGGT (strained Rl e t))) 0
        (ddot (smat_mat (exchange_grad (exSpherical Rc) th iG kDiff (gG Rl))) e).
Proof.
  assert (P := PI_RGT_0).
  exists (PI / 2), cube, (rdiag 0 1 0), (V 1%Z 0%Z 0%Z), (V 0 0 0), 0, 0.
  assert (W : rvadd (vIZR (V 1%Z 0%Z 0%Z)) (V 0 0 0) = V 1 0 0) by (v3u; f_equal; ring).
  assert (G1 : metric2 (gGGT cube) (V 1 0 0) = 1) by (rewrite cube_GGT; unfold metric2; v3u; ring).
  rewrite W, G1. split; [lra|]. split; [apply cube_det|]. split; [lra|]. split; [lra|].
  intros D.
  assert (Z : is_derive (fun t => exchange (exSpherical (PI / 2)) 0 0 (V 1%Z 0%Z 0%Z) (V 0 0 0) (gGGT (strained cube (rdiag 0 1 0) t))) 0 0).
  { apply (exchange_ok (fun _ => exSpherical (PI / 2))).
    - apply cube_det.
    - rewrite W, G1. lra.
    - rewrite W. evar_last; [apply (iso_kernel cube (rdiag 0 1 0) (V 1 0 0) (xval (exSpherical (PI / 2)))
        (- (2 * PI) * (2 * (1 - cos (sqrt 1 * (PI / 2))) - sqrt 1 * (PI / 2) * sin (sqrt 1 * (PI / 2))) / (1 * 1)))|].
      + apply cube_det.
      + rewrite <- metric_len, G1. apply (d_sphere (PI / 2) 1). lra.
      + rewrite ddot_sscale, cube_G. unfold ddot, smat_mat, outer. v3u. cbn [sxx syy szz syz szx sxy]. ring. }
  assert (E := is_derive_unique _ _ _ D). rewrite (is_derive_unique _ _ _ Z) in E.
  rewrite exchange_grad_above in E by (rewrite W, G1; lra). rewrite W, G1, cube_G in E.
  unfold exSpherical in E. cbv zeta in E. cbn [xpre xlnDet] in E. rewrite sqrt_1 in E. rewrite Rmult_1_l, cos_PI2, sin_PI2 in E.
  replace (ddot (smat_mat (outer (rvm (V 1 0 0) rid))) (rdiag 0 1 0)) with 0 in E by (unfold ddot, smat_mat, outer; v3u; cbn; ring).
  replace (rtrace (rdiag 0 1 0)) with 1 in E by (v3u; ring).
  assert (0 < 4 * PI * (PI / 2 * 1) / (3 * 1)) by (apply Rdiv_lt_0_compat; [apply Rmult_lt_0_compat; lra|lra]). lra.
Qed.
Lemma c51_nonzero : ddot (latticeGradient cube (stressSum 8 (fun iG => periodic_grad iG (gGGT cube)) [(V 1%Z 0%Z 0%Z, ((1, 0), (1, 0)))])) rid <> 0.
Proof.
  unfold latticeGradient. assert (P := PI_RGT_0). assert (D := Rabs_pos_lt _ cube_det). generalize dependent (Rabs (rdet cube)). intros v Hv.
  unfold stressSum. cbn [fold_right]. unfold periodic_grad. rewrite cube_GGT, cube_G.
  assert (G1 : metric2 rid (vIZR (V 1%Z 0%Z 0%Z)) = 1) by (unfold metric2; v3u; ring). rewrite G1.
  destruct (Req_EM_T 1 0); [lra|].
  assert (W : weight 8 (V 1%Z 0%Z 0%Z) = 1) by reflexivity. rewrite W.
  replace (mtrans rid) with rid by reflexivity. rewrite rmm_id_l, rmm_id_r.
  intro E. assert (E2 : v * (8 * PI) = 0).
  { rewrite <- E. unfold ddot, smat_mat, szero, sadd, sscale, outer. v3u. cbn [sxx syy szz syz szx sxy]. field. }
  assert (0 < v * (8 * PI)) by (apply Rmult_lt_0_compat; lra). lra.
Qed.
