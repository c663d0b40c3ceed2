(** Proofs about the smearing functions. *)
From Coq Require Import Reals List ZArith Lra.
From Coquelicot Require Import Coquelicot.
From Verif Require Import Gauss Smear_Model.
Open Scope R_scope.

Lemma sqrt2_sq : sqrt 2 * sqrt 2 = 2. Proof. apply sqrt_sqrt; lra. Qed.
Lemma sqrt2_pos : 0 < sqrt 2. Proof. apply sqrt_lt_R0; lra. Qed.
Lemma sqrthalf : sqrt (1/2) = sqrt 2 / 2.
Proof.
  apply Rsqr_inj; [apply sqrt_pos|assert (H := sqrt2_pos); lra|]. unfold Rsqr. rewrite sqrt_sqrt by lra.
  replace (sqrt 2 / 2 * (sqrt 2 / 2)) with (sqrt 2 * sqrt 2 / 4) by field. rewrite sqrt2_sq. lra.
Qed.
Lemma sqrt2PI : sqrt (2 * PI) = sqrt 2 * sqrt PI.
Proof. apply sqrt_mult; [lra|left; apply PI_RGT_0]. Qed.
Lemma gauss_sq y : exp (-(y^2)) = gauss y. Proof. unfold gauss. f_equal. ring. Qed.

Lemma fermi_eq x : 1/2 * (1 - tanh x) = / (1 + exp (2*x)).
Proof.
  unfold tanh, sinh, cosh. replace (2*x) with (x+x) by ring. rewrite exp_plus, exp_Ropp. assert (P := exp_pos x).
  field. repeat split; nra.
Qed.

Definition xof (width mu eps : R) : R := (eps - mu) / (2*width).
Lemma is_derive_xof width mu eps : 0 < width -> is_derive (xof width mu) eps (/ (2*width)).
Proof. intros H. unfold xof. auto_derive; auto. field. lra. Qed.
Lemma is_derive_chain f f' width mu eps : 0 < width -> is_derive f (xof width mu eps) f' ->
  is_derive (fun e => f (xof width mu e)) eps (f' / (2*width)).
Proof.
  intros H D. evar_last. apply (is_derive_comp f (xof width mu)); [exact D|apply is_derive_xof; auto].
  unfold scal; cbn; unfold mult; cbn. field. lra.
Qed.

(** each function of x with its derivative *)
Definition sm (ty : SmearingType) (x : R) : R :=
  match ty with
  | SmearingFermi => / (1 + exp (2*x))
  | SmearingGauss => 1/2 * erfc x
  | SmearingMP1 => 1/2 * erfc x - x * gauss x / (2 * sqrt PI)
  | SmearingCold => 1/2 * erfc (x + sqrt (1/2)) + gauss (x + sqrt (1/2)) / sqrt (2 * PI)
  end.
Definition sm' (ty : SmearingType) (x : R) : R :=
  match ty with
  | SmearingFermi => - (2 * exp (2*x)) / ((1 + exp (2*x)) ^ 2)
  | SmearingGauss => - gauss x / sqrt PI
  | SmearingMP1 => (x*x - 3/2) * gauss x / sqrt PI
  | SmearingCold => - gauss (x + sqrt (1/2)) * (2 + x * sqrt 2) / sqrt PI
  end.
Definition ent (ty : SmearingType) (x : R) : R :=
  match ty with
  | SmearingFermi => let f := / (1 + exp (2*x)) in - f * ln f - (1 - f) * ln (1 - f)
  | SmearingGauss => gauss x / sqrt PI
  | SmearingMP1 => (1/2 - x*x) * gauss x / sqrt PI
  | SmearingCold => gauss (x + sqrt (1/2)) * (1 + x * sqrt 2) / sqrt PI
  end.

Lemma smear_sm ty width mu eps : smear ty width mu eps = sm ty (xof width mu eps).
Proof.
  unfold smear, sm. fold (xof width mu eps). destruct ty; auto.
  - apply fermi_eq.
  - rewrite gauss_sq. reflexivity.
Qed.
Lemma smearPrime_sm ty width mu eps : 0 < width -> smearPrime ty width mu eps = sm' ty (xof width mu eps) / (2*width).
Proof.
  intros H. unfold smearPrime, sm'. fold (xof width mu eps). assert (P := sqrtPI_pos). set (x := xof width mu eps). destruct ty.
  - unfold cosh. rewrite exp_Ropp. replace (2*x) with (x+x) by ring. rewrite exp_plus. assert (Q := exp_pos x). field. repeat split; nra.
  - fold (gauss x). field. lra.
  - fold (gauss x). field. lra.
  - rewrite gauss_sq. field. lra.
Qed.

Lemma is_derive_erfc_comp (f : R -> R) f' x : is_derive f x f' -> is_derive (fun x => erfc (f x)) x (- (2 / sqrt PI * gauss (f x)) * f').
Proof.
  intros D. evar_last. apply (is_derive_comp erfc f); [apply is_derive_erfc|exact D]. unfold scal; cbn; unfold mult; cbn. ring.
Qed.
Lemma is_derive_sm ty x : is_derive (sm ty) x (sm' ty x).
Proof.
  assert (P := sqrtPI_pos). assert (P2 := sqrt2_pos). destruct ty; unfold sm, sm'.
  - assert (Q := exp_pos (2*x)). auto_derive; [lra|]. field. lra.
  - evar_last. apply (is_derive_scal erfc x (1/2)). apply is_derive_erfc. unfold scal; cbn; unfold mult; cbn. field. lra.
  - evar_last. apply (is_derive_minus (V:=R_NormedModule) (fun x => 1/2 * erfc x) (fun x => x * gauss x / (2 * sqrt PI))).
    + apply (is_derive_scal erfc x (1/2)). apply is_derive_erfc.
    + unfold gauss. auto_derive; auto.
    + unfold minus, plus, opp; cbn. unfold gauss. field. lra.
  - evar_last. apply (is_derive_plus (V:=R_NormedModule) (fun x => 1/2 * erfc (x + sqrt (1/2))) (fun x => gauss (x + sqrt (1/2)) / sqrt (2*PI))).
    + apply (is_derive_scal (fun x => erfc (x + sqrt (1/2))) x (1/2)). apply (is_derive_erfc_comp (fun x => x + sqrt (1/2)) 1).
      auto_derive; auto. 
    + unfold gauss. auto_derive; auto.
    + unfold plus; cbn. rewrite sqrt2PI, sqrthalf. fold (gauss (x + sqrt 2 / 2)). set (g := gauss (x + sqrt 2 / 2)).
      replace (exp (- ((x + sqrt 2 / 2) * (x + sqrt 2 / 2)))) with g by reflexivity. clearbody g.
      set (s := sqrt PI) in *. assert (S2 := sqrt2_sq). set (r := sqrt 2) in *. clearbody s r.
      replace (- g * (2 + x * r) / s) with (- g / s * (2 + x * r)) by (field; lra).
      match goal with |- ?l = _ => replace l with (- g / s * (1 + (2*x + r) / r)) by (field; lra) end. f_equal.
      replace (x * r) with (x * (r * r) / r) by (field; lra). rewrite S2. field. lra.
Qed.
Lemma derivative ty width mu eps : 0 < width -> is_derive (smear ty width mu) eps (smearPrime ty width mu eps).
Proof.
  intros H. rewrite smearPrime_sm by auto. apply (is_derive_ext (fun e => sm ty (xof width mu e))).
  - intros e. symmetry. apply smear_sm.
  - apply is_derive_chain; auto. apply is_derive_sm.
Qed.

(** ** entropy *)
Lemma fermi_range x : 0 < / (1 + exp (2*x)) < 1.
Proof.
  assert (Q := exp_pos (2*x)). split; [apply Rinv_0_lt_compat; lra|]. rewrite <- Rinv_1. apply Rinv_lt_contravar; lra.
Qed.
Lemma fermi_odds x : ln (1 - / (1 + exp (2*x))) - ln (/ (1 + exp (2*x))) = 2*x.
Proof.
  assert (Q := exp_pos (2*x)). replace (1 - / (1 + exp (2*x))) with (exp (2*x) * / (1 + exp (2*x))) by (field; lra).
  rewrite ln_mult; [|auto|apply Rinv_0_lt_compat; lra]. rewrite ln_exp. ring.
Qed.
Lemma is_derive_ent ty x : is_derive (ent ty) x (2 * x * sm' ty x).
Proof.
  assert (P := sqrtPI_pos). assert (P2 := sqrt2_pos). destruct ty; unfold ent, sm'.
  - assert (Q := exp_pos (2*x)). assert (F := fermi_range x). assert (O := fermi_odds x). auto_derive.
    + repeat split; try lra.
    + set (f := / (1 + exp (2*x))) in *.
      match goal with |- ?l = _ => replace l with ((ln (1 - f) - ln f) * (- (2 * exp (2*x)) / (1 + exp (2*x))^2)) end.
      * rewrite O. field. lra.
      * change (1 + - f) with (1 - f). generalize (ln (1 - f)) (ln f). intros a b. clearbody f. clear O; generalize dependent (exp (2*x)); intros u Hu; field. lra.
  - unfold gauss. auto_derive; auto. field. lra.
  - unfold gauss. auto_derive; auto. field. lra.
  - unfold gauss. auto_derive; auto. rewrite sqrthalf. set (g := exp _). set (s := sqrt PI) in *. assert (S2 := sqrt2_sq). set (r := sqrt 2) in *. clearbody s r g.
    match goal with |- ?l = ?q => replace l with (g / s * (r - (2*x + r) * (1 + x*r))) by (field; lra); replace q with (g / s * (- 2 * x * (2 + x*r))) by (field; lra) end.
    f_equal. replace (r - (2 * x + r) * (1 + x * r)) with (-2*x - 2*x*x*r - x*(r*r)) by ring. rewrite S2. ring.
Qed.
Lemma smearEntropy_ent ty width mu eps :
  (ty = SmearingFermi -> tiny < smear ty width mu eps /\ tiny < 1 - smear ty width mu eps) ->
  smearEntropy ty width mu eps = ent ty (xof width mu eps).
Proof.
  unfold smearEntropy, ent. fold (xof width mu eps). intros H. destruct ty; auto.
  - destruct (H eq_refl) as (H1&H2). unfold smear in H1, H2. fold (xof width mu eps) in H1, H2. rewrite fermi_eq in *.
    destruct (Rlt_dec _ _); [|lra]. destruct (Rlt_dec _ _); [|lra]. ring.
  - rewrite gauss_sq. reflexivity.
Qed.
Lemma entropy_derivative ty width mu eps : 0 < width ->
  (ty = SmearingFermi -> tiny < smear ty width mu eps /\ tiny < 1 - smear ty width mu eps) ->
  is_derive (fun e => width * smearEntropy ty width mu e) eps ((eps - mu) * smearPrime ty width mu eps).
Proof.
  intros Hw H. assert (E : locally eps (fun e => width * ent ty (xof width mu e) = width * smearEntropy ty width mu e)).
  { assert (C : continuous (smear ty width mu) eps).
    { apply (ex_derive_continuous (V:=R_NormedModule)). eexists. apply derivative; auto. }
    destruct ty; [|exists (mkposreal 1 Rlt_0_1); intros e _; rewrite smearEntropy_ent; [reflexivity|discriminate]..].
    destruct (H eq_refl) as (H1&H2).
    assert (L1 : locally eps (fun e => tiny < smear SmearingFermi width mu e)).
    { apply (C (fun y => tiny < y)). apply open_gt. auto. }
    assert (L2 : locally eps (fun e => smear SmearingFermi width mu e < 1 - tiny)).
    { apply (C (fun y => y < 1 - tiny)). apply open_lt. lra. }
    generalize (filter_and _ _ L1 L2). apply filter_imp. intros e (A&B). rewrite smearEntropy_ent; auto. intros _. lra. }
  apply (is_derive_ext_loc _ _ _ _ E). evar_last.
  - apply (is_derive_scal (fun e => ent ty (xof width mu e)) eps width). apply is_derive_chain; [auto|apply is_derive_ent].
  - rewrite smearPrime_sm by auto. unfold xof. field. lra.
Qed.

(** ** range, monotonicity, symmetry *)
Lemma sm_range ty x : ty = SmearingFermi \/ ty = SmearingGauss -> 0 < sm ty x < 1.
Proof. intros [-> | ->]; unfold sm; [apply fermi_range|]. assert (H := erfc_bounds x). lra. Qed.
Lemma sm_decr ty x y : ty = SmearingFermi \/ ty = SmearingGauss -> x < y -> sm ty y < sm ty x.
Proof.
  intros [-> | ->] H; unfold sm.
  - apply Rinv_lt_contravar; [apply Rmult_lt_0_compat; assert (A := exp_pos (2*x)); assert (B := exp_pos (2*y)); lra|].
    assert (E := exp_increasing (2*x) (2*y) ltac:(lra)). lra.
  - apply erfc_decr in H. lra.
Qed.
Lemma sm_sym ty x : ty <> SmearingCold -> sm ty (-x) = 1 - sm ty x.
Proof.
  intros H. destruct ty; unfold sm; [| | |congruence].
  - replace (2 * - x) with (- (2*x)) by ring. rewrite exp_Ropp. assert (Q := exp_pos (2*x)). field. split; lra.
  - rewrite erfc_neg. field.
  - rewrite erfc_neg, gauss_even. assert (P := sqrtPI_pos). field. lra.
Qed.
Lemma sm_cold_pos x : 0 < sm SmearingCold x.
Proof.
  unfold sm. assert (H := erfc_bounds (x + sqrt (1/2))). assert (0 < gauss (x + sqrt (1/2)) / sqrt (2 * PI)); [|lra].
  apply Rdiv_lt_0_compat; [apply gauss_pos|]. apply sqrt_lt_R0. assert (Q := PI_RGT_0). lra.
Qed.
Lemma xof_lt width mu a b : 0 < width -> a < b -> xof width mu a < xof width mu b.
Proof. intros H L. unfold xof. apply Rmult_lt_compat_r; [apply Rinv_0_lt_compat|]; lra. Qed.
Lemma xof_at width mu x : 0 < width -> xof width mu (mu + 2*width*x) = x.
Proof. intros H. unfold xof. field. lra. Qed.

(** ** limits *)
Lemma x_gauss_small eps : 0 < eps -> exists X, 0 < X /\ forall x, X <= Rabs x -> Rabs (x * gauss x) < eps.
Proof.
  intros He. exists (1 + / eps). assert (Hi := Rinv_0_lt_compat eps He). split; [lra|]. intros x Hx.
  assert (S : x*x = Rabs x * Rabs x) by (rewrite <- Rabs_mult; symmetry; apply Rabs_pos_eq; nra).
  rewrite Rabs_mult, (Rabs_pos_eq (gauss x)) by (left; apply gauss_pos). unfold gauss. rewrite exp_Ropp.
  assert (E := exp_ge_1p (x*x)). set (a := Rabs x) in *. set (e := exp (x*x)) in *. assert (Pe : 0 < e) by apply exp_pos. clearbody e.
  apply Rmult_lt_reg_r with e; auto. rewrite Rmult_assoc, Rinv_l by lra.
  assert (eps * a >= eps * (1 + / eps)) by nra. assert (eps * / eps = 1) by (field; lra). nra.
Qed.
Lemma fermi_limit eps : 0 < eps -> exists X, 0 < X /\ forall x, X <= x -> / (1 + exp (2*x)) < eps.
Proof.
  intros He. exists (1 + / eps). assert (Hi := Rinv_0_lt_compat eps He). split; [lra|]. intros x Hx.
  rewrite <- (Rinv_inv eps). apply Rinv_lt_contravar; assert (E := exp_ge_1p (2*x)); [|lra].
  apply Rmult_lt_0_compat; lra.
Qed.
Lemma sm_lim_hi ty eps : 0 < eps -> exists X, 0 < X /\ forall x, X <= x -> Rabs (sm ty x) < eps.
Proof.
  intros He. assert (P := sqrtPI_pos). destruct ty.
  - destruct (fermi_limit eps He) as (X&HX&H). exists X. split; auto. intros x Hx. unfold sm. rewrite Rabs_pos_eq; auto. left. apply fermi_range.
  - destruct (erfc_small eps He) as (X&HX&H). exists X. split; auto. intros x Hx. unfold sm. assert (B := erfc_bounds x). specialize (H x Hx).
    rewrite Rabs_pos_eq; lra.
  - destruct (erfc_small eps He) as (X&HX&H). destruct (x_gauss_small (eps * sqrt PI)) as (Y&HY&H2); [apply Rmult_lt_0_compat; auto|].
    exists (Rmax X Y). split; [apply Rlt_le_trans with X; [auto|apply Rmax_l]|]. intros x Hx.
    assert (HX' : X <= x) by (eapply Rle_trans; [apply Rmax_l|apply Hx]). assert (HY' : Y <= x) by (eapply Rle_trans; [apply Rmax_r|apply Hx]).
    specialize (H x HX'). specialize (H2 x ltac:(rewrite Rabs_pos_eq; lra)). assert (B := erfc_bounds x). unfold sm.
    assert (K : Rabs (x * gauss x / (2 * sqrt PI)) < eps / 2).
    { unfold Rdiv at 1. rewrite Rabs_mult, (Rabs_pos_eq (/ (2 * sqrt PI))) by (left; apply Rinv_0_lt_compat; lra).
      apply Rmult_lt_reg_r with (2 * sqrt PI); [lra|]. rewrite Rmult_assoc, Rinv_l by lra. lra. }
    unfold Rminus. eapply Rle_lt_trans; [apply Rabs_triang|]. rewrite Rabs_Ropp, (Rabs_pos_eq (1/2 * erfc x)) by lra. lra.
  - destruct (erfc_small eps He) as (X&HX&H). destruct (gauss_small (eps / 2)) as (Y&HY&H2); [lra|].
    exists (Rmax X Y). split; [apply Rlt_le_trans with X; [auto|apply Rmax_l]|]. intros x Hx. assert (R2 := sqrt_pos (1/2)).
    assert (HX' : X <= x) by (eapply Rle_trans; [apply Rmax_l|apply Hx]). assert (HY' : Y <= x) by (eapply Rle_trans; [apply Rmax_r|apply Hx]).
    rewrite Rabs_pos_eq by (left; apply sm_cold_pos). unfold sm. set (y := x + sqrt (1/2)) in *. assert (y >= x) by (unfold y; lra). clearbody y.
    specialize (H y ltac:(lra)). specialize (H2 y ltac:(rewrite Rabs_pos_eq; lra)).
    assert (1 <= sqrt (2 * PI)). { rewrite <- sqrt_1. apply sqrt_le_1_alt. assert (Q := PI_4). assert (Q2 := PI2_1). lra. }
    assert (gauss y / sqrt (2*PI) <= gauss y). { assert (G := gauss_pos y). apply Rmult_le_reg_r with (sqrt (2*PI)); [lra|]. unfold Rdiv. rewrite Rmult_assoc, Rinv_l by lra. nra. }
    lra.
Qed.
Lemma sm_lim_lo ty eps : 0 < eps -> exists X, 0 < X /\ forall x, x <= -X -> Rabs (sm ty x - 1) < eps.
Proof.
  intros He. assert (C : ty = SmearingCold \/ ty <> SmearingCold) by (destruct ty; auto; right; discriminate). destruct C as [->|C].
  - destruct (erfc_small eps He) as (X&HX&H). destruct (gauss_small (eps / 2)) as (Y&HY&H2); [lra|].
    exists (Rmax X Y + 1). assert (M1 := Rmax_l X Y). assert (M2 := Rmax_r X Y). split; [lra|]. intros x Hx.
    assert (R2 := sqrt_pos (1/2)). assert (R3 : sqrt (1/2) <= 1). { rewrite sqrthalf. assert (A := sqrt2_sq). assert (B := sqrt2_pos). nra. }
    unfold sm. set (y := x + sqrt (1/2)) in *. assert (Hy : y <= - Rmax X Y) by (unfold y; lra). clearbody y.
    specialize (H (-y) ltac:(lra)). rewrite erfc_neg in H. assert (B := erfc_bounds (-y)). rewrite erfc_neg in B.
    specialize (H2 y ltac:(rewrite Rabs_left1; lra)).
    assert (1 <= sqrt (2 * PI)). { rewrite <- sqrt_1. apply sqrt_le_1_alt. assert (Q := PI_4). assert (Q2 := PI2_1). lra. }
    assert (G := gauss_pos y).
    assert (0 < gauss y / sqrt (2*PI) <= gauss y). { split; [apply Rdiv_lt_0_compat; lra|]. apply Rmult_le_reg_r with (sqrt (2*PI)); [lra|]. unfold Rdiv. rewrite Rmult_assoc, Rinv_l by lra. nra. }
    apply Rabs_def1; lra.
  - destruct (sm_lim_hi ty eps He) as (X&HX&H). exists X. split; auto. intros x Hx. specialize (H (-x) ltac:(lra)).
    rewrite sm_sym in H by auto. rewrite Rabs_minus_sym. auto.
Qed.

(** ** out-of-range values of MP1 and cold smearing *)
Lemma mp1_negative : sm SmearingMP1 1 < 0.
Proof.
  unfold sm. assert (M := erfc_mills 1 Rlt_0_1). assert (P := sqrtPI_pos).
  replace (1 * gauss 1 / (2 * sqrt PI)) with (1/2 * (gauss 1 / (1 * sqrt PI))) by (field; lra). lra.
Qed.
Lemma cold_above : 1 < sm SmearingCold (-1 - sqrt (1/2)).
Proof.
  unfold sm. replace (-1 - sqrt (1/2) + sqrt (1/2)) with (-(1)) by ring. rewrite erfc_neg, gauss_even. assert (M := erfc_mills 1 Rlt_0_1).
  rewrite sqrt2PI. assert (P := sqrtPI_pos). assert (P2 := sqrt2_pos). assert (S2 := sqrt2_sq). assert (G := gauss_pos 1).
  assert (H : 1/2 * (gauss 1 / (1 * sqrt PI)) < gauss 1 / (sqrt 2 * sqrt PI)); [|lra].
  set (c := gauss 1 / sqrt PI). assert (0 < c) by (apply Rdiv_lt_0_compat; auto).
  replace (gauss 1 / (1 * sqrt PI)) with c by (unfold c; field; lra). replace (gauss 1 / (sqrt 2 * sqrt PI)) with (c / sqrt 2) by (unfold c; field; lra).
  apply Rmult_lt_reg_r with (sqrt 2); auto. unfold Rdiv at 2. rewrite (Rmult_assoc c), Rinv_l by lra. nra.
Qed.
(** ** the derivative is bounded *)
Lemma half_le : sqrt PI >= 1.
Proof. rewrite <- sqrt_1. apply Rle_ge. apply sqrt_le_1_alt. assert (Q2 := PI2_1). lra. Qed.
Lemma sm'_bound ty x : Rabs (sm' ty x) <= 2.
Proof.
  assert (P := sqrtPI_pos). assert (P1 := half_le).
  assert (D : forall a, Rabs a <= 2 -> Rabs (a / sqrt PI) <= 2).
  { intros a Ha. unfold Rdiv. rewrite Rabs_mult, (Rabs_pos_eq (/ sqrt PI)) by (left; apply Rinv_0_lt_compat; auto).
    apply Rmult_le_reg_r with (sqrt PI); auto. rewrite Rmult_assoc, Rinv_l by lra. nra. }
  assert (XG : forall x, Rabs x * gauss x <= 1/2).
  { intros y. assert (S : y*y = Rabs y * Rabs y) by (rewrite <- Rabs_mult; symmetry; apply Rabs_pos_eq; nra).
    unfold gauss. rewrite exp_Ropp. assert (E := exp_ge_1p (y*y)). assert (Pe := exp_pos (y*y)). 
    apply Rmult_le_reg_r with (exp (y*y)); auto. rewrite Rmult_assoc, Rinv_l by lra. assert (K := Rle_0_sqr (Rabs y - 1)). unfold Rsqr in K. set (e := exp (y*y)) in *. clearbody e. set (a := Rabs y) in *. clearbody a. nra. }
  assert (XXG : forall x, x*x * gauss x <= 1).
  { intros y. unfold gauss. rewrite exp_Ropp. assert (E := exp_ge_1p (y*y)). assert (Pe := exp_pos (y*y)). 
    apply Rmult_le_reg_r with (exp (y*y)); auto. rewrite Rmult_assoc, Rinv_l by lra. lra. }
  destruct ty; unfold sm'.
  - assert (Q := exp_pos (2*x)). set (u := exp (2*x)) in *. clearbody u. unfold Rdiv. rewrite Rabs_mult, Rabs_Ropp, (Rabs_pos_eq (2*u)) by lra.
    rewrite Rabs_pos_eq by (left; apply Rinv_0_lt_compat; nra). apply Rmult_le_reg_r with ((1+u)^2); [nra|]. rewrite Rmult_assoc, Rinv_l by nra. nra.
  - apply D. rewrite Rabs_Ropp. assert (G := gauss_pos x). assert (G1 := gauss_le1 x). rewrite Rabs_pos_eq; lra.
  - apply D. assert (G := gauss_pos x). assert (G1 := gauss_le1 x). specialize (XXG x). assert (0 <= x*x*gauss x) by nra. apply Rabs_le. nra.
  - rewrite sqrthalf. set (y := x + sqrt 2 / 2). apply D. assert (G := gauss_pos y). assert (G1 := gauss_le1 y). specialize (XG y).
    assert (P2 := sqrt2_pos). assert (S2 := sqrt2_sq). assert (P3 : sqrt 2 <= 3/2) by nra.
    replace (2 + x * sqrt 2) with (1 + y * sqrt 2) by (unfold y; replace ((x + sqrt 2/2) * sqrt 2) with (x * sqrt 2 + (sqrt 2 * sqrt 2)/2) by field; rewrite S2; field).
    clearbody y. rewrite Rabs_mult, Rabs_Ropp, (Rabs_pos_eq (gauss y)) by lra.
    assert (A : Rabs (1 + y * sqrt 2) <= 1 + Rabs y * sqrt 2).
    { eapply Rle_trans; [apply Rabs_triang|]. rewrite Rabs_R1, Rabs_mult, (Rabs_pos_eq (sqrt 2)) by lra. lra. }
    assert (0 <= Rabs y) by apply Rabs_pos.
    assert (gauss y * Rabs (1 + y * sqrt 2) <= gauss y * (1 + Rabs y * sqrt 2)) by (apply Rmult_le_compat_l; lra). nra.
Qed.
Lemma smear_lipschitz ty width a b eps : 0 < width -> Rabs (smear ty width a eps - smear ty width b eps) <= / width * Rabs (a - b).
Proof.
  intros H. rewrite !smear_sm. destruct (MVT_gen (sm ty) (xof width b eps) (xof width a eps) (sm' ty)) as (c&_&E).
  - intros z _. apply is_derive_sm.
  - intros z _. apply continuity_pt_filterlim. apply (ex_derive_continuous (V:=R_NormedModule) (sm ty) z). eexists; apply is_derive_sm.
  - rewrite E, Rabs_mult. replace (xof width a eps - xof width b eps) with (/ (2*width) * (b - a)) by (unfold xof; field; lra).
    rewrite Rabs_mult, (Rabs_pos_eq (/ (2*width))) by (left; apply Rinv_0_lt_compat; lra). rewrite (Rabs_minus_sym b a).
    assert (B := sm'_bound ty c). assert (0 <= Rabs (a-b)) by apply Rabs_pos. assert (I : 0 < / (2*width)) by (apply Rinv_0_lt_compat; lra).
    replace (/ width) with (2 * / (2*width)) by (field; lra). rewrite !Rmult_assoc. apply Rmult_le_compat_r; [|auto]. apply Rmult_le_pos; lra.
Qed.
