(** The G=0 values are limits of the kernels. *)
From Coq Require Import ZArith Reals List Bool Lra Lia.
From Coquelicot Require Import Coquelicot.
From Verif Require Import Base Vec3_Model Coulomb_Model Exchange_Model.
Local Open Scope R_scope.
Lemma slope_lim (f : R -> R) l : f 0 = 0 -> is_derive f 0 l -> is_lim (fun t => f t / t) 0 l.
Proof.
  intros F D. apply is_derive_Reals in D. apply is_lim_spec. intros eps. destruct (D eps (cond_pos eps)) as [d H].
  exists d. intros t Ht Nt. change (Rabs (t - 0) < d) in Ht. rewrite Rminus_0_r in Ht. specialize (H t Nt Ht). rewrite Rplus_0_l, F, Rminus_0_r in H. exact H.
Qed.
Lemma periodic_zero_limit omega : omega <> 0 -> is_lim (xval (periodicKernel omega)) 0 (fst (VzeroPeriodic omega (0, rzero))).
Proof.
  intros N. unfold periodicKernel, VzeroPeriodic. destruct (Req_EM_T omega 0) as [E|_]; [contradiction|]. cbn [fst xval exScreened]. rewrite Rplus_0_l.
  apply (slope_lim (fun k => 4 * PI * (1 - exp (- inv4omegaSq omega * k)))).
  - rewrite Rmult_0_r, exp_0. ring.
  - auto_derive; [exact I|]. rewrite Rmult_0_r, exp_0. unfold inv4omegaSq. field. exact N.
Qed.
Lemma spherical_zero_limit nk Rl : is_lim (fun g => xval (exSpherical (superRc nk Rl)) (g * g)) 0 (fst (VzeroSpherical nk Rl)).
Proof.
  unfold VzeroSpherical. cbn [fst xval exSpherical]. set (Rc := superRc nk Rl).
  assert (is_lim (fun g => sin (Rc / 2 * g) / g) 0 (Rc / 2)) as S.
  { apply (slope_lim (fun g => sin (Rc / 2 * g))); [rewrite Rmult_0_r; apply sin_0|]. auto_derive; [exact I|]. rewrite Rmult_0_r, cos_0. field. }
  assert (is_lim (fun g => 8 * PI * ((sin (Rc / 2 * g) / g) * (sin (Rc / 2 * g) / g))) 0 (8 * PI * (Rc / 2 * (Rc / 2)))) as T.
  { apply (is_lim_scal_l _ (8 * PI) 0 (Rc / 2 * (Rc / 2))). apply (is_lim_mult _ _ 0 (Rc / 2) (Rc / 2)); [exact S|exact S|exact I]. }
  replace (2 * PI * Rc * Rc) with (8 * PI * (Rc / 2 * (Rc / 2))) by field. apply (is_lim_ext_loc (fun g => 8 * PI * ((sin (Rc / 2 * g) / g) * (sin (Rc / 2 * g) / g)))); [|exact T].
  exists (mkposreal 1 Rlt_0_1). intros g _ Ng. assert (cos (Rc * sqrt (g * g)) = cos (2 * (Rc / 2 * g))) as ->.
  { replace (g * g) with (Rsqr g) by reflexivity. rewrite sqrt_Rsqr_abs. unfold Rabs. destruct (Rcase_abs g); [rewrite <- cos_neg|]; f_equal; field. }
  rewrite cos_2a_sin. field. exact Ng.
Qed.
