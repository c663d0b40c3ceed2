(** The error function and the Gaussian integral. *)
From Coq Require Import Reals Lra.
From Coquelicot Require Import Coquelicot.
Open Scope R_scope.

Definition gauss (t : R) : R := exp (-(t*t)).
Definition gint (x : R) : R := RInt gauss 0 x.
(** C library erf and erfc *)
Definition erf (x : R) : R := 2 / sqrt PI * gint x.
Definition erfc (x : R) : R := 1 - erf x.

Lemma is_derive_gauss t : is_derive gauss t (-2 * t * gauss t).
Proof. unfold gauss. auto_derive; auto. ring. Qed.
Lemma continuous_gauss t : continuous gauss t.
Proof. apply (ex_derive_continuous (V:=R_NormedModule)). eexists. apply is_derive_gauss. Qed.
Lemma ex_RInt_gauss a b : ex_RInt gauss a b.
Proof. apply (ex_RInt_continuous (V:=R_CompleteNormedModule)). intros; apply continuous_gauss. Qed.
Lemma gauss_pos t : 0 < gauss t. Proof. apply exp_pos. Qed.
Lemma gauss_even t : gauss (-t) = gauss t. Proof. unfold gauss. f_equal. ring. Qed.
Lemma gauss_le1 t : gauss t <= 1.
Proof. unfold gauss. rewrite <- exp_0. destruct (Req_dec t 0) as [->|N]; [right; f_equal; ring|left]. apply exp_increasing. assert (0 < t*t) by nra. lra. Qed.

Lemma is_derive_gint x : is_derive gint x (gauss x).
Proof.
  unfold gint. apply (is_derive_RInt (V:=R_NormedModule) gauss _ 0 x).
  - exists (mkposreal 1 Rlt_0_1). intros y _. apply (RInt_correct (V:=R_CompleteNormedModule)). apply ex_RInt_gauss.
  - apply continuous_gauss.
Qed.
Lemma gint_0 : gint 0 = 0. Proof. apply (RInt_point (V:=R_CompleteNormedModule)). Qed.

(** ** Gaussian integral *)
Definition gpar (x t : R) : R := exp (-(x*x*(1+t*t))) / (1+t*t).
Definition gq (x : R) : R := RInt (gpar x) 0 1.
Lemma one_sq t : 0 < 1 + t*t. Proof. nra. Qed.
Lemma is_derive_gpar x t : is_derive (fun u => gpar u t) x (-2 * x * exp (-(x*x*(1+t*t)))).
Proof. unfold gpar. assert (H := one_sq t). auto_derive; auto. field. lra. Qed.
Lemma continuous_gpar x t : continuous (gpar x) t.
Proof. apply (ex_derive_continuous (V:=R_NormedModule)). unfold gpar. auto_derive. assert (H := one_sq t). lra. Qed.
Lemma ex_RInt_gpar x : ex_RInt (gpar x) 0 1.
Proof. apply (ex_RInt_continuous (V:=R_CompleteNormedModule)). intros; apply continuous_gpar. Qed.
Lemma is_derive_gq x : is_derive gq x (RInt (fun t => -2 * x * exp (-(x*x*(1+t*t)))) 0 1).
Proof.
  unfold gq.
  replace (RInt (fun t => -2 * x * exp (-(x*x*(1+t*t)))) 0 1) with (RInt (fun t => Derive (fun u => gpar u t) x) 0 1).
  - apply is_derive_RInt_param.
    + exists (mkposreal 1 Rlt_0_1). intros y _ t _. eexists. apply is_derive_gpar.
    + intros t _. apply continuity_2d_pt_ext with (fun u v => (-2 * u) * exp (-(u*u*(1+v*v)))).
      { intros u v. symmetry. apply is_derive_unique. apply is_derive_gpar. }
      apply continuity_2d_pt_mult.
      * apply continuity_2d_pt_mult; [apply continuity_2d_pt_const|apply continuity_2d_pt_id1].
      * apply (continuity_1d_2d_pt_comp exp).
        { apply derivable_continuous_pt. apply derivable_pt_exp. }
        apply continuity_2d_pt_opp. apply continuity_2d_pt_mult.
        { apply continuity_2d_pt_mult; apply continuity_2d_pt_id1. }
        apply continuity_2d_pt_plus; [apply continuity_2d_pt_const|]. apply continuity_2d_pt_mult; apply continuity_2d_pt_id2.
    + exists (mkposreal 1 Rlt_0_1). intros y _. apply ex_RInt_gpar.
  - apply RInt_ext. intros t _. apply is_derive_unique. apply is_derive_gpar.
Qed.
Lemma gq_derivative x : RInt (fun t => -2 * x * exp (-(x*x*(1+t*t)))) 0 1 = -2 * gauss x * gint x.
Proof.
  apply is_RInt_unique.
  apply (is_RInt_ext (fun t => scal (-2 * gauss x) (scal x (gauss (x*t+0))))).
  - intros t _. unfold scal; cbn; unfold mult; cbn. unfold gauss.
    replace (-(x*x*(1+t*t))) with (-(x*x) + -((x*t+0)*(x*t+0))) by ring. rewrite exp_plus. ring.
  - apply (is_RInt_scal (V:=R_NormedModule) (fun t => scal x (gauss (x*t+0))) 0 1 (-2 * gauss x) (gint x)).
    apply (is_RInt_comp_lin (V:=R_NormedModule) gauss x 0 0 1 (gint x)).
    replace (x*0+0) with 0 by ring. replace (x*1+0) with x by ring. apply (RInt_correct (V:=R_CompleteNormedModule)). apply ex_RInt_gauss.
Qed.
Lemma gq_0 : gq 0 = PI/4.
Proof.
  unfold gq. rewrite <- atan_1. apply is_RInt_unique.
  apply (is_RInt_ext (fun t => / (1 + t^2))).
  { intros t _. unfold gpar. replace (-(0*0*(1+t*t))) with 0 by ring. rewrite exp_0. assert (H := one_sq t). change (/ (1 + t^2) = 1 / (1 + t*t)). field. lra. }
  replace (atan 1) with (minus (atan 1) (atan 0)).
  2:{ rewrite atan_0. unfold minus, plus, opp; cbn. ring. }
  apply (is_RInt_derive (V:=R_CompleteNormedModule) atan).
  - intros x _. evar_last. apply is_derive_atan. assert (H := one_sq x). unfold Rsqr. field. lra.
  - intros x _. apply (ex_derive_continuous (V:=R_NormedModule)). auto_derive. assert (H := one_sq x). lra.
Qed.
Lemma zero_derive_const f : (forall x, is_derive f x 0) -> forall x y, f x = f y.
Proof.
  intros H x y. destruct (MVT_gen f y x (fun _ => 0)) as (c&_&E).
  - intros z _. apply H.
  - intros z _. apply continuity_pt_filterlim. apply (ex_derive_continuous (V:=R_NormedModule) f z). eexists; apply H.
  - lra.
Qed.
Lemma gauss_identity x : gint x * gint x + gq x = PI/4.
Proof.
  rewrite <- gq_0. replace (gq 0) with (gint 0 * gint 0 + gq 0) by (rewrite gint_0; ring).
  apply (zero_derive_const (fun x => gint x * gint x + gq x)). clear x. intros x.
  evar_last.
  - apply (is_derive_plus (V:=R_NormedModule) (fun x => gint x * gint x) gq).
    + apply (is_derive_mult gint gint); [apply is_derive_gint|apply is_derive_gint|]. intros; apply Rmult_comm.
    + apply is_derive_gq.
  - rewrite gq_derivative. unfold plus; cbn; unfold mult; cbn. ring.
Qed.
Lemma gq_bounds x : 0 < gq x <= gauss x.
Proof.
  assert (B : forall t, 0 <= t <= 1 -> gauss x * exp (-(x*x)) / 2 <= gpar x t <= gauss x).
  { intros t Ht. unfold gpar, gauss. replace (-(x*x*(1+t*t))) with (-(x*x) + -(x*x*(t*t))) by ring. rewrite exp_plus.
    assert (P := exp_pos (-(x*x))). assert (Q : exp (-(x*x)) <= exp (-(x*x*(t*t))) <= 1).
    { split.
      - destruct (Req_dec (x*x*(t*t)) (x*x)) as [->|N]; [lra|]. left. apply exp_increasing. assert (x*x*(t*t) <= x*x*1); [|lra].
        apply Rmult_le_compat_l; nra.
      - rewrite <- exp_0. destruct (Req_dec (x*x*(t*t)) 0) as [->|N]; [right; f_equal; ring|]. left. apply exp_increasing.
        assert (0 <= (x*x)*(t*t)) by (apply Rmult_le_pos; nra). lra. }
    set (e := exp (-(x*x))) in *. set (d := exp (-(x*x*(t*t)))) in *. clearbody e d.
    assert (T := one_sq t). assert (T2 : 1 + t*t <= 2) by nra. split.
    - apply Rmult_le_reg_r with (1 + t*t); [lra|]. unfold Rdiv. rewrite (Rmult_assoc (e*d)), Rinv_l by lra.
      assert (e * e * / 2 * (1+t*t) <= e*e) by nra. nra.
    - apply Rmult_le_reg_r with (1 + t*t); [lra|]. unfold Rdiv. rewrite (Rmult_assoc (e*d)), Rinv_l by lra. nra. }
  assert (I1 : gauss x * exp (-(x*x)) / 2 <= gq x).
  { replace (gauss x * exp (-(x*x)) / 2) with (RInt (fun _ : R => gauss x * exp (-(x*x)) / 2) 0 1).
    - apply RInt_le; [lra|apply (ex_RInt_const (V:=R_CompleteNormedModule))|apply ex_RInt_gpar|]. intros t Ht. apply B. lra.
    - rewrite (RInt_const (V:=R_CompleteNormedModule)). unfold scal; cbn; unfold mult; cbn. ring. }
  assert (I2 : gq x <= gauss x).
  { replace (gauss x) with (RInt (fun _ : R => gauss x) 0 1).
    - apply RInt_le; [lra|apply ex_RInt_gpar|apply (ex_RInt_const (V:=R_CompleteNormedModule))|]. intros t Ht. apply B. lra.
    - rewrite (RInt_const (V:=R_CompleteNormedModule)). unfold scal; cbn; unfold mult; cbn. ring. }
  split; auto. assert (0 < gauss x * exp (-(x*x))) by (apply Rmult_lt_0_compat; [apply gauss_pos|apply exp_pos]). lra.
Qed.

(** ** erf and erfc *)
Lemma sqrtPI_pos : 0 < sqrt PI. Proof. apply sqrt_lt_R0. apply PI_RGT_0. Qed.
Lemma sqrtPI_sq : sqrt PI * sqrt PI = PI. Proof. apply sqrt_sqrt. left. apply PI_RGT_0. Qed.
Lemma is_derive_erf x : is_derive erf x (2 / sqrt PI * gauss x).
Proof. unfold erf. apply (is_derive_scal gint x (2 / sqrt PI) (gauss x)). apply is_derive_gint. Qed.
Lemma is_derive_erfc x : is_derive erfc x (- (2 / sqrt PI * gauss x)).
Proof.
  unfold erfc. evar_last. apply (is_derive_minus (V:=R_NormedModule) (fun _ => 1) erf).
  - apply (is_derive_const (V:=R_NormedModule)).
  - apply is_derive_erf.
  - unfold minus, plus, opp, zero; cbn. ring.
Qed.
Lemma gint_odd x : gint (-x) = - gint x.
Proof.
  assert (H : forall x y, gint (-x) + gint x = gint (-y) + gint y).
  { apply (zero_derive_const (fun x => gint (-x) + gint x)). intros z. evar_last.
    - apply (is_derive_plus (V:=R_NormedModule) (fun x => gint (-x)) gint); [|apply is_derive_gint].
      apply (is_derive_comp gint (fun x => -x)); [apply is_derive_gint|]. apply (is_derive_opp (V:=R_NormedModule) (fun x => x)). apply (is_derive_id (K:=R_AbsRing)).
    - unfold plus, scal, opp, one; cbn; unfold mult; cbn. rewrite gauss_even. ring. }
  specialize (H x 0). rewrite Ropp_0, gint_0 in H. lra.
Qed.
Lemma erf_odd x : erf (-x) = - erf x. Proof. unfold erf. rewrite gint_odd. ring. Qed.
Lemma erf_0 : erf 0 = 0. Proof. unfold erf. rewrite gint_0. ring. Qed.
Lemma erfc_neg x : erfc (-x) = 2 - erfc x. Proof. unfold erfc. rewrite erf_odd. ring. Qed.
Lemma erf_sq x : erf x * erf x = 1 - 4/PI * gq x.
Proof.
  unfold erf. assert (P := sqrtPI_pos). assert (S := sqrtPI_sq). assert (I := gauss_identity x). assert (Q := PI_RGT_0).
  replace (2 / sqrt PI * gint x * (2 / sqrt PI * gint x)) with (4 / (sqrt PI * sqrt PI) * (gint x * gint x)) by (field; lra).
  rewrite S. replace (gint x * gint x) with (PI/4 - gq x) by lra. field. lra.
Qed.
Lemma erf_bounds x : -1 < erf x < 1.
Proof.
  assert (H := erf_sq x). assert (G := gq_bounds x). assert (Q := PI_RGT_0).
  assert (0 < 4/PI * gq x). { apply Rmult_lt_0_compat; [|lra]. apply Rdiv_lt_0_compat; lra. } nra.
Qed.
Lemma erfc_bounds x : 0 < erfc x < 2.
Proof. unfold erfc. assert (H := erf_bounds x). lra. Qed.
Lemma deriv_neg_decr f f' : (forall x, is_derive f x (f' x)) -> (forall x, f' x < 0) -> forall x y, x < y -> f y < f x.
Proof.
  intros H N x y L. destruct (MVT_gen f x y f') as (c&_&E).
  - intros z _. apply H.
  - intros z _. apply continuity_pt_filterlim. apply (ex_derive_continuous (V:=R_NormedModule) f z). eexists; apply H.
  - assert (P := N c). nra.
Qed.
Lemma erfc_decr x y : x < y -> erfc y < erfc x.
Proof.
  apply (deriv_neg_decr erfc (fun x => - (2 / sqrt PI * gauss x))); [apply is_derive_erfc|].
  intros z. assert (0 < 2 / sqrt PI * gauss z); [|lra]. apply Rmult_lt_0_compat; [|apply gauss_pos]. apply Rdiv_lt_0_compat; [lra|apply sqrtPI_pos].
Qed.
Lemma erf_nonneg x : 0 <= x -> 0 <= erf x.
Proof. intros [H| <-]; [|rewrite erf_0; lra]. apply erfc_decr in H. unfold erfc in H. rewrite erf_0 in H. lra. Qed.
(** erfc decays at least as a Gaussian *)
Lemma erfc_le x : 0 <= x -> erfc x <= 4/PI * gauss x.
Proof.
  intros Hx. assert (E := erf_sq x). assert (B := erf_bounds x). assert (N := erf_nonneg x Hx). assert (G := gq_bounds x).
  assert (Q := PI_RGT_0). assert (P : 0 < 4/PI) by (apply Rdiv_lt_0_compat; lra). unfold erfc.
  assert (4/PI * gq x <= 4/PI * gauss x) by (apply Rmult_le_compat_l; lra). nra.
Qed.
Lemma exp_ge_1p x : 1 + x <= exp x.
Proof.
  destruct (Req_dec x 0) as [->|N]; [rewrite exp_0; lra|]. left. apply exp_ineq1. auto.
Qed.
Lemma gauss_small eps : 0 < eps -> exists X, 0 < X /\ forall x, X <= Rabs x -> gauss x < eps.
Proof.
  intros He. exists (1 + / eps). assert (Hi := Rinv_0_lt_compat eps He). split; [lra|]. intros x Hx.
  assert (S : x*x = Rabs x * Rabs x) by (rewrite <- Rabs_mult; symmetry; apply Rabs_pos_eq; nra).
  unfold gauss. rewrite exp_Ropp. rewrite <- (Rinv_inv eps). apply Rinv_lt_contravar.
  - apply Rmult_lt_0_compat; [auto|apply exp_pos].
  - assert (E := exp_ge_1p (x*x)). nra.
Qed.
Lemma erfc_small eps : 0 < eps -> exists X, 0 < X /\ forall x, X <= x -> erfc x < eps.
Proof.
  intros He. assert (Q := PI_RGT_0). assert (P : 0 < PI/4) by lra.
  destruct (gauss_small (PI/4*eps)) as (X&HX&H); [nra|]. exists X. split; auto. intros x Hx.
  apply Rle_lt_trans with (4/PI * gauss x); [apply erfc_le; lra|].
  assert (G := H x ltac:(rewrite Rabs_pos_eq; lra)).
  assert (P4 : 0 < 4/PI) by (apply Rdiv_lt_0_compat; lra).
  apply Rlt_le_trans with (4/PI * (PI/4*eps)); [apply Rmult_lt_compat_l; auto|]. right. field. lra.
Qed.
(** Mills bound *)
Lemma erfc_mills x : 0 < x -> erfc x < gauss x / (x * sqrt PI).
Proof.
  intros Hx. assert (P := sqrtPI_pos).
  set (h := fun x => gauss x / (x * sqrt PI) - erfc x).
  assert (D : forall z, 0 < z -> is_derive h z (- (gauss z / (z*z*sqrt PI)))).
  { intros z Hz. unfold h. evar_last. apply (is_derive_minus (V:=R_NormedModule) (fun x => gauss x / (x * sqrt PI)) erfc); [|apply is_derive_erfc].
    - unfold gauss. auto_derive; [|reflexivity]. apply Rmult_integral_contrapositive. split; lra.
    - unfold minus, plus, opp; cbn. unfold gauss. field. split; lra. }
  assert (Dec : forall a b, 0 < a -> a < b -> h b < h a).
  { intros a b Ha Hab. destruct (MVT_gen h a b (fun z => - (gauss z / (z*z*sqrt PI)))) as (c&Hc&E).
    - intros z Hz. apply D. rewrite Rmin_left in Hz by lra. lra.
    - intros z Hz. rewrite Rmin_left in Hz by lra. apply continuity_pt_filterlim. apply (ex_derive_continuous (V:=R_NormedModule) h z). eexists; apply D; lra.
    - rewrite Rmin_left, Rmax_right in Hc by lra. assert (0 < gauss c / (c*c*sqrt PI)); [|nra].
      apply Rdiv_lt_0_compat; [apply gauss_pos|]. repeat apply Rmult_lt_0_compat; lra. }
  assert (Hh : 0 <= h (x+1)).
  { destruct (Rle_dec 0 (h (x+1))) as [|N]; auto. exfalso. apply Rnot_le_lt in N.
    destruct (erfc_small (- h (x+1))) as (X&HX&HS); [lra|].
    set (y := Rmax (x+2) X). assert (Y1 : x+2 <= y) by apply Rmax_l. assert (Y2 : X <= y) by apply Rmax_r.
    assert (L := Dec (x+1) y ltac:(lra) ltac:(lra)). specialize (HS y Y2). unfold h in L at 1.
    assert (0 < gauss y / (y * sqrt PI)) by (apply Rdiv_lt_0_compat; [apply gauss_pos|apply Rmult_lt_0_compat; lra]). lra. }
  assert (L := Dec x (x+1) Hx ltac:(lra)). unfold h in L at 2. lra.
Qed.
