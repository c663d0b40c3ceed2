(** The isotropic exchange kernels. *)
From Coq Require Import ZArith Reals List Lia Lra.
From Coquelicot Require Import Coquelicot.
From Verif Require Import Vec3_Model Vec3_Facts Basis_Model LDA_Model LDA_Proofs Coulomb_Model Coulomb_Spec Coulomb_Proofs Coulomb_Proofs2 Coulomb_Proofs3.
Import ListNotations.
Local Open Scope R_scope.

Lemma diag_ddot d e : ddot (smat_mat (SM d d d 0 0 0)) e = d * rtrace e.
Proof. destruct e. unfold ddot, smat_mat. v3u. cbn. ring. Qed.

(** a radius that changes with the lattice like [Rc'] *)
Lemma exchange_ok (K : R -> xkernel) Rl e iG kDiff Vzero th (val' : R) :
  rdet Rl <> 0 -> 0 <= th < metric2 (gGGT Rl) (rvadd (vIZR iG) kDiff) ->
  is_derive (fun t => xval (K t) (metric2 (gGGT (strained Rl e t)) (rvadd (vIZR iG) kDiff))) 0 val' ->
  is_derive (fun t => exchange (K t) Vzero th iG kDiff (gGGT (strained Rl e t))) 0 val'.
Proof.
  intros D [T0 T] V. apply (is_derive_ext_loc (fun t => xval (K t) (metric2 (gGGT (strained Rl e t)) (rvadd (vIZR iG) kDiff)))); [|exact V].
  generalize (above_loc Rl e _ th D T). apply filter_imp. intros t Lt. unfold exchange.
  destruct (Rlt_dec _ th); [lra|reflexivity].
Qed.
Lemma exchange_grad_above K Rl e iG kDiff th : th <= metric2 (gGGT Rl) (rvadd (vIZR iG) kDiff) ->
  let x := metric2 (gGGT Rl) (rvadd (vIZR iG) kDiff) in
  ddot (smat_mat (exchange_grad K th iG kDiff (gG Rl))) e
  = xpre K x * ddot (smat_mat (outer (rvm (rvadd (vIZR iG) kDiff) (gG Rl)))) e + xlnDet K x * rtrace e.
Proof.
  intros T x. unfold exchange_grad. rewrite <- metric_len. fold x. destruct (Rlt_dec x th); [unfold x in *; lra|].
  cbv zeta. rewrite ddot_sadd, ddot_sscale, diag_ddot. reflexivity.
Qed.
Lemma exchange_below K Rl e iG kDiff Vzero th (D : rdet Rl <> 0) : metric2 (gGGT Rl) (rvadd (vIZR iG) kDiff) < th ->
  is_derive (fun t => exchange (K t) Vzero th iG kDiff (gGGT (strained Rl e t))) 0
    (ddot (smat_mat (exchange_grad (K 0) th iG kDiff (gG Rl))) e).
Proof.
  intros T. apply (is_derive_ext_loc (fun _ => Vzero)).
  { generalize (below_loc Rl e _ th D T). apply filter_imp. intros t Lt. unfold exchange. destruct (Rlt_dec _ th); [reflexivity|lra]. }
  unfold exchange_grad. rewrite <- metric_len. destruct (Rlt_dec _ th); [|lra]. rewrite ddot_sscale, Rmult_0_l.
  apply (is_derive_const (V := R_NormedModule) Vzero 0).
Qed.

Lemma exPeriodic_ok Rl e iG kDiff Vzero th : rdet Rl <> 0 -> 0 <= th -> metric2 (gGGT Rl) (rvadd (vIZR iG) kDiff) <> th ->
  is_derive (fun t => exchange exPeriodic Vzero th iG kDiff (gGGT (strained Rl e t))) 0
    (ddot (smat_mat (exchange_grad exPeriodic th iG kDiff (gG Rl))) e).
Proof.
  intros D T0 N. destruct (Rlt_or_le (metric2 (gGGT Rl) (rvadd (vIZR iG) kDiff)) th) as [B|A].
  - apply (exchange_below (fun _ => exPeriodic)); auto.
  - apply (exchange_ok (fun _ => exPeriodic)); [exact D|lra|]. rewrite exchange_grad_above by exact A.
    set (w := rvadd (vIZR iG) kDiff) in *. cbn [xval xpre xlnDet exPeriodic].
    assert (P : 0 < metric2 (gGGT Rl) w) by lra.
    evar_last; [apply (iso_kernel Rl e w (fun y => 4 * PI / y) (- (4 * PI) / (metric2 (gGGT Rl) w * metric2 (gGGT Rl) w)) D)|].
    + rewrite <- metric_len. apply d_periodic. exact P.
    + rewrite ddot_sscale. field. lra.
Qed.
Lemma exScreened_ok om Rl e iG kDiff Vzero th : rdet Rl <> 0 -> 0 <= th -> metric2 (gGGT Rl) (rvadd (vIZR iG) kDiff) <> th ->
  is_derive (fun t => exchange (exScreened om) Vzero th iG kDiff (gGGT (strained Rl e t))) 0
    (ddot (smat_mat (exchange_grad (exScreened om) th iG kDiff (gG Rl))) e).
Proof.
  intros D T0 N. destruct (Rlt_or_le (metric2 (gGGT Rl) (rvadd (vIZR iG) kDiff)) th) as [B|A].
  - apply (exchange_below (fun _ => exScreened om)); auto.
  - apply (exchange_ok (fun _ => exScreened om)); [exact D|lra|]. rewrite exchange_grad_above by exact A.
    set (w := rvadd (vIZR iG) kDiff) in *. unfold exScreened. cbv zeta. cbn [xval xpre xlnDet]. set (a := inv4omegaSq om).
    set (x := metric2 (gGGT Rl) w) in *. assert (P : 0 < x) by lra.
    evar_last; [apply (iso_kernel Rl e w (fun y => 4 * PI * (1 - exp (- a * y)) / y) (- (4 * PI) * (1 - exp (- a * x) * (1 + a * x)) / (x * x)) D)|].
    + rewrite <- metric_len. apply d_gauss. exact P.
    + rewrite ddot_sscale. field. lra.
Qed.
(** radius f(t) with logarithmic derivative tr(e)/3 *)
Lemma exSpherical_ok f Rl e iG kDiff Vzero th : rdet Rl <> 0 -> 0 <= th -> metric2 (gGGT Rl) (rvadd (vIZR iG) kDiff) <> th ->
  is_derive f 0 (f 0 * (rtrace e / 3)) ->
  is_derive (fun t => exchange (exSpherical (f t)) Vzero th iG kDiff (gGGT (strained Rl e t))) 0
    (ddot (smat_mat (exchange_grad (exSpherical (f 0)) th iG kDiff (gG Rl))) e).
Proof.
  intros D T0 N Df. destruct (Rlt_or_le (metric2 (gGGT Rl) (rvadd (vIZR iG) kDiff)) th) as [B|A].
  - apply (exchange_below (fun t => exSpherical (f t))); auto.
  - apply (exchange_ok (fun t => exSpherical (f t))); [exact D|lra|]. rewrite exchange_grad_above by exact A.
    set (w := rvadd (vIZR iG) kDiff) in *. unfold exSpherical. cbv zeta. cbn [xval xpre xlnDet].
    set (S := ddot (smat_mat (outer (rvm w (gG Rl)))) e).
    assert (Dx : is_derive (fun t => metric2 (gGGT (strained Rl e t)) w) 0 (-2 * S)).
    { apply (is_derive_ext (fun t => rlen2 (rvm w (gG (strained Rl e t))))); [intros; symmetry; apply metric_len|]. apply len2_strained; exact D. }
    set (q := fun t => metric2 (gGGT (strained Rl e t)) w) in *.
    assert (q0 : q 0 = metric2 (gGGT Rl) w) by (unfold q; rewrite strained_0; reflexivity).
    change (is_derive (fun t => 4 * PI * (1 - cos (f t * sqrt (q t))) / q t) 0
      (4 * PI * (2 * (1 - cos (sqrt (metric2 (gGGT Rl) w) * f 0)) - sqrt (metric2 (gGGT Rl) w) * f 0 * sin (sqrt (metric2 (gGGT Rl) w) * f 0)) /
        (metric2 (gGGT Rl) w * metric2 (gGGT Rl) w) * S +
       4 * PI * (sqrt (metric2 (gGGT Rl) w) * f 0 * sin (sqrt (metric2 (gGGT Rl) w) * f 0)) / (3 * metric2 (gGGT Rl) w) * rtrace e)).
    rewrite <- q0. assert (P : 0 < q 0) by lra. assert (Dq : is_derive q 0 (-2 * S)) by exact Dx. clearbody q. clear Dx q0 A N.
    auto_derive. { repeat split; try (eexists; eassumption); lra. }
    assert (E1 : Derive f 0 = f 0 * (rtrace e / 3)) by (apply is_derive_unique; exact Df).
    assert (E2 : Derive q 0 = -2 * S) by (apply is_derive_unique; exact Dq).
    change (Derive (fun x : R => f x) 0) with (Derive f 0). change (Derive (fun x : R => q x) 0) with (Derive q 0).
    rewrite E1, E2, (Rmult_comm (f 0) (sqrt (q 0))).
    generalize (cos (sqrt (q 0) * f 0)) (sin (sqrt (q 0) * f 0)). intros cc ss.
    assert (Sq := sqrt_lt_R0 _ P). assert (Q : q 0 = sqrt (q 0) * sqrt (q 0)) by (symmetry; apply sqrt_sqrt; lra).
    set (r := sqrt (q 0)) in *. rewrite Q. field. lra.
Qed.
(** the radius taken from the supercell volume *)
Lemma vol_derive Rl e : rdet Rl <> 0 -> is_derive (fun t => Rabs (rdet (strained Rl e t))) 0 (Rabs (rdet Rl) * rtrace e).
Proof.
  intros D.
  assert (L : locally 0 (fun t => 0 < rdet (def1 e t))).
  { assert (C : continuous (fun t => rdet (def1 e t)) 0).
    { apply (continuous_ext (fun t => 1 + t * rtrace e + t * t * rtrace (radj e) + t * t * t * rdet e)); [intros; symmetry; apply det1_poly|].
      apply (ex_derive_continuous (V := R_NormedModule)). auto_derive. exact I. }
    apply (C (fun x => 0 < x)). exists (mkposreal 1 Rlt_0_1). cbn. intros y Hy. rewrite det1_0 in Hy.
    unfold ball in Hy; cbn in Hy; unfold AbsRing_ball, abs, minus, plus, opp in Hy; cbn in Hy. apply Rabs_def2 in Hy. lra. }
  apply (is_derive_ext_loc (fun t => Rabs (rdet Rl) * (1 + t * rtrace e + t * t * rtrace (radj e) + t * t * t * rdet e))).
  { generalize L. apply filter_imp. intros t Ht. unfold strained. rewrite rdet_mm. fold (def1 e t). rewrite Rabs_mult, (Rabs_pos_eq (rdet (def1 e t))) by lra.
    rewrite det1_poly. match goal with |- @eq _ ?a ?b => change (@eq R a b) end. ring. }
  auto_derive. exact I. ring.
Qed.
Lemma superRc_derive nk Rl e : 0 < nk -> rdet Rl <> 0 ->
  is_derive (fun t => superRc nk (strained Rl e t)) 0 (superRc nk Rl * (rtrace e / 3)).
Proof.
  intros Nk D. unfold superRc. assert (P := PI_RGT_0). assert (Pd := Rabs_pos_lt _ D).
  set (X := 3 / (4 * PI) * (nk * Rabs (rdet Rl))).
  assert (PX : 0 < X) by (unfold X; apply Rmult_lt_0_compat; [apply Rdiv_lt_0_compat; lra|apply Rmult_lt_0_compat; lra]).
  evar_last.
  { apply (is_derive_comp (V := R_NormedModule) (fun x => cpow x (1/3)) (fun t => 3 / (4 * PI) * (nk * Rabs (rdet (strained Rl e t)))) 0).
    - cbv beta. rewrite strained_0. fold X. apply cpow_derive. exact PX.
    - apply is_derive_scal. apply is_derive_scal. apply vol_derive. exact D. }
  unfold scal; cbn; unfold mult; cbn. generalize (cpow X (1/3)). intros y. unfold X. field. lra.
Qed.
