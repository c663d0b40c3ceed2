(** Hard sphere functional: the bonding correction and the branch points. *)
From Coq Require Import ZArith Reals List Bool Lia Lra Psatz.
From Coquelicot Require Import Coquelicot.
From Verif Require Import Base Vec3_Model Vec3_Facts Spline_Proofs NLPCM_Proofs Cavity_Proofs2 Deriv_Model FMT_Model FMT_Spec FMT_Proofs.
Import ListNotations.
Open Scope R_scope.

Definition gC (Rhm n2 n3 z : R) : R := 1 / (1 - n3) * (1 + z * (1 / (1 - n3)) * (Rhm * n2 + 1 / (1 - n3) * (2/9) * (Rhm * n2) ^ 2)).
Lemma gC_pos Rhm n2 n3 z : 0 < Rhm -> 0 <= n2 -> 0 <= n3 < 1 -> 0 <= z -> 0 < gC Rhm n2 n3 z.
Proof.
  intros HR H2 H3 Hz. unfold gC. assert (P : 0 < 1 / (1 - n3)) by (apply Rdiv_lt_0_compat; lra). set (p := 1 / (1 - n3)) in *. clearbody p.
  assert (0 <= Rhm * n2) by nra. assert (0 <= (Rhm * n2) ^ 2) by nra. set (q := Rhm * n2) in *. clearbody q. clear HR H2.
  assert (0 <= q + p * (2/9) * q ^ 2) by nra. assert (0 <= z * p) by nra. apply Rmult_lt_0_compat; nra.
Qed.
Lemma zeta_nonneg n2 s : 0 <= zetaOf n2 s.
Proof.
  unfold zetaOf. destruct (Rle_dec n2 0); [lra|]. destruct (Rlt_dec (n2 * n2) s); [lra|].
  assert (0 < n2 * n2) by nra. cut (s / (n2 * n2) <= 1); [lra|]. apply Rle_div_l; [lra|]. lra.
Qed.
Definition bzeta (n d : bden) (t : R) : R := zetaOf (b2 (bmove n d t)) (rlen2 (b2v (bmove n d t))).
Lemma quad_derive u v : is_derive (fun t : R => rlen2 (rvadd u (rvscale t v))) 0 (2 * rdot u v).
Proof. destruct u, v. unfold rlen2. v3_unfold. auto_derive; auto. ring. Qed.
Lemma quad0 u v : rlen2 (rvadd u (rvscale 0 v)) = rlen2 u.
Proof. destruct u, v. unfold rlen2. v3_unfold. ring. Qed.
Lemma zeta_derive n d : 0 < b2 n -> rlen2 (b2v n) <> b2 n * b2 n ->
  let z := zetaOf (b2 n) (rlen2 (b2v n)) in
  is_derive (bzeta n d) 0 ((if Req_EM_T z 0 then 0 else 2 * rlen2 (b2v n) / (b2 n * b2 n * b2 n)) * b2 d
     + rdot (if Req_EM_T z 0 then V 0 0 0 else rvscale (-2 / (b2 n * b2 n)) (b2v n)) (b2v d)).
Proof.
  intros P2 NE z.
  assert (LN : is_derive (fun t : R => b2 n + t * b2 d) 0 (b2 d)) by (auto_derive; auto; ring).
  assert (L2 : locally 0 (fun t : R => 0 < b2 n + t * b2 d < b2 n + 1)). { apply (loc_between _ 0 (b2 d)); [exact LN|lra]. }
  assert (LQ : is_derive (fun t : R => (b2 n + t * b2 d) * (b2 n + t * b2 d) - rlen2 (rvadd (b2v n) (rvscale t (b2v d)))) 0 (2 * b2 n * b2 d - 2 * rdot (b2v n) (b2v d))).
  { evar_last. apply (is_derive_minus (V := R_NormedModule)); [|apply quad_derive]. instantiate (1 := 2 * b2 n * b2 d). auto_derive; auto; ring. reflexivity. }
  unfold bzeta, bmove. cbn [b0 b2 b3 b2v].
  destruct (Rlt_dec (rlen2 (b2v n)) (b2 n * b2 n)) as [L|L].
  - assert (Z0 : z <> 0).
    { unfold z, zetaOf. destruct (Rle_dec (b2 n) 0); [lra|]. destruct (Rlt_dec (b2 n * b2 n) (rlen2 (b2v n))); [lra|].
      intros E. apply NE. assert (0 < b2 n * b2 n) by nra. assert (E' : rlen2 (b2v n) / (b2 n * b2 n) = 1) by lra.
      apply (f_equal (fun a => a * (b2 n * b2 n))) in E'. rewrite Rmult_1_l in E'. rewrite <- E' at 1. field. lra. }
    destruct (Req_EM_T z 0); [contradiction|].
    assert (LP : locally 0 (fun t : R => 0 < (b2 n + t * b2 d) * (b2 n + t * b2 d) - rlen2 (rvadd (b2v n) (rvscale t (b2v d))) < (b2 n * b2 n - rlen2 (b2v n)) + 1)).
    { apply (loc_between _ 0 (2 * b2 n * b2 d - 2 * rdot (b2v n) (b2v d))); [exact LQ|]. rewrite quad0. lra. }
    apply (is_derive_ext_loc (fun t : R => 1 - rlen2 (rvadd (b2v n) (rvscale t (b2v d))) / ((b2 n + t * b2 d) * (b2 n + t * b2 d)))).
    { generalize (filter_and _ _ L2 LP). apply filter_imp. intros t (A & B). unfold zetaOf. destruct (Rle_dec _ 0); [lra|]. destruct (Rlt_dec _ _); [lra|reflexivity]. }
    pose proof (quad_derive (b2v n) (b2v d)) as QD. pose proof (quad0 (b2v n) (b2v d)) as Q0.
    set (q := fun t : R => rlen2 (rvadd (b2v n) (rvscale t (b2v d)))) in *. change (q 0 = rlen2 (b2v n)) in Q0.
    apply (is_derive_ext (fun t : R => 1 - q t / ((b2 n + t * b2 d) * (b2 n + t * b2 d)))); [reflexivity|].
    clearbody q. evar_last. { auto_derive; [|reflexivity]. split; [eexists; exact QD|]. split; [|auto]. nra. }
    match goal with |- context[Derive ?u 0] => replace (Derive u 0) with (2 * rdot (b2v n) (b2v d)) by (symmetry; apply is_derive_unique; exact QD) end. rewrite Q0. replace (rdot (rvscale (-2 / (b2 n * b2 n)) (b2v n)) (b2v d)) with (-2 / (b2 n * b2 n) * rdot (b2v n) (b2v d)) by (destruct (b2v n), (b2v d); v3_unfold; ring).
    replace (b2 n + 0 * b2 d) with (b2 n) by ring. generalize (rlen2 (b2v n)) (rdot (b2v n) (b2v d)). intros. req. field. lra.
  - assert (Z0 : z = 0).
    { unfold z, zetaOf. destruct (Rle_dec (b2 n) 0); [lra|]. destruct (Rlt_dec (b2 n * b2 n) (rlen2 (b2v n))); [reflexivity|]. exfalso. apply NE. lra. }
    destruct (Req_EM_T z 0); [|contradiction].
    assert (LP : locally 0 (fun t : R => (b2 n * b2 n - rlen2 (b2v n)) - 1 < (b2 n + t * b2 d) * (b2 n + t * b2 d) - rlen2 (rvadd (b2v n) (rvscale t (b2v d))) < 0)).
    { apply (loc_between _ 0 (2 * b2 n * b2 d - 2 * rdot (b2v n) (b2v d))); [exact LQ|]. rewrite quad0. lra. }
    apply (is_derive_ext_loc (fun t : R => 0)).
    { revert LP. apply filter_imp. intros t B. unfold zetaOf. destruct (Rle_dec _ 0); [reflexivity|]. destruct (Rlt_dec _ _); [reflexivity|lra]. }
    evar_last; [apply (is_derive_const (V := R_NormedModule) 0 0)|]. unfold zero; cbn. replace (rdot (V 0 0 0) (b2v d)) with 0 by (destruct (b2v d); v3_unfold; ring). req. ring.
Qed.
Definition binside (n : bden) := 0 <= b0 n /\ 0 <= b2 n /\ 0 <= b3 n < 1.
Lemma bond_inside Rhm scale n : binside n -> fst (phiBond_calc Rhm scale n) = - scale * b0 n * ln (gC Rhm (b2 n) (b3 n) (zetaOf (b2 n) (rlen2 (b2v n)))).
Proof.
  intros (A & B & C). unfold phiBond_calc. destruct (Rlt_dec (b0 n) 0); [lra|]. destruct (Rlt_dec (b2 n) 0); [lra|]. destruct (Rlt_dec (b3 n) 0); [lra|].
  cbn [fst]. unfold gC. reflexivity.
Qed.
Lemma bond_derive Rhm scale n d : 0 < Rhm -> 0 < b0 n -> 0 < b2 n -> 0 < b3 n < 1 -> rlen2 (b2v n) <> b2 n * b2 n ->
  is_derive (fun t : R => fst (phiBond_calc Rhm scale (bmove n d t))) 0 (bpair (snd (phiBond_calc Rhm scale n)) d).
Proof.
  intros HR P0 P2 P3 NE. pose proof (zeta_derive n d P2 NE) as ZD. cbv zeta in ZD.
  assert (LN : forall a b, is_derive (fun t : R => a + t * b) 0 b) by (intros a b; auto_derive; auto; ring).
  assert (L : forall a b, 0 < a -> locally 0 (fun t : R => 0 < a + t * b < a + 1)).
  { intros a b Ha. apply (loc_between _ 0 b); [apply LN|]. lra. }
  assert (L3 : locally 0 (fun t : R => 0 < b3 n + t * b3 d < 1)). { apply (loc_between _ 0 (b3 d)); [apply LN|lra]. }
  apply (is_derive_ext_loc (fun t : R => - scale * (b0 n + t * b0 d) * ln (gC Rhm (b2 n + t * b2 d) (b3 n + t * b3 d) (bzeta n d t)))).
  { generalize (filter_and _ _ (L _ (b0 d) P0) (filter_and _ _ (L _ (b2 d) P2) L3)). apply filter_imp. intros t (A & B & C).
    rewrite bond_inside; [reflexivity|]. unfold binside, bmove; cbn; lra. }
  assert (Z0 : bzeta n d 0 = zetaOf (b2 n) (rlen2 (b2v n))).
  { unfold bzeta, bmove; cbn [b2 b2v]. rewrite quad0. f_equal. ring. }
  pose proof (gC_pos Rhm (b2 n) (b3 n) (zetaOf (b2 n) (rlen2 (b2v n))) HR (Rlt_le _ _ P2) (conj (Rlt_le _ _ (proj1 P3)) (proj2 P3)) (zeta_nonneg _ _)) as GP.
  unfold phiBond_calc. destruct (Rlt_dec (b0 n) 0); [lra|]. destruct (Rlt_dec (b2 n) 0); [lra|]. destruct (Rlt_dec (b3 n) 0); [lra|]. cbn [snd].
  fold (gC Rhm (b2 n) (b3 n) (zetaOf (b2 n) (rlen2 (b2v n)))).
  set (zp2 := if Req_EM_T _ 0 then 0 else _) in *. set (zpv := if Req_EM_T _ 0 then V 0 0 0 else _) in *. clearbody zp2 zpv.
  set (z := zetaOf (b2 n) (rlen2 (b2v n))) in *. clearbody z.
  set (bz := bzeta n d) in *. clearbody bz.
  assert (GD : is_derive (fun t : R => gC Rhm (b2 n + t * b2 d) (b3 n + t * b3 d) (bz t)) 0
    (z * (1 / (1 - b3 n)) ^ 2 * (Rhm + 1 / (1 - b3 n) * (4/9) * Rhm ^ 2 * b2 n) * b2 d
     + (1 / (1 - b3 n)) ^ 2 * (1 + z * (1 / (1 - b3 n)) * (2 * Rhm * b2 n + 1 / (1 - b3 n) * (6/9) * (Rhm * b2 n) ^ 2)) * b3 d
     + (1 / (1 - b3 n)) ^ 2 * (Rhm * b2 n + 1 / (1 - b3 n) * (2/9) * (Rhm * b2 n) ^ 2) * (zp2 * b2 d + rdot zpv (b2v d)))).
  { unfold gC. evar_last. { auto_derive; [|reflexivity]. replace (b3 n + 0 * b3 d) with (b3 n) by ring. repeat split; try lra. eexists; exact ZD. }
    match goal with |- context[Derive ?u 0] => replace (Derive u 0) with (zp2 * b2 d + rdot zpv (b2v d)) by (symmetry; apply is_derive_unique; exact ZD) end. rewrite Z0. replace (b3 n + 0 * b3 d) with (b3 n) by ring. replace (b2 n + 0 * b2 d) with (b2 n) by ring.
    generalize (zp2 * b2 d + rdot zpv (b2v d)). intros zz. req. field. lra. }
  evar_last.
  { apply (is_derive_mult (K := R_AbsRing)); [| |apply Rmult_comm]. { apply is_derive_scal. apply LN. }
    apply (is_derive_comp ln); [|exact GD]. apply is_derive_ln. rewrite Z0. replace (b3 n + 0 * b3 d) with (b3 n) by ring. replace (b2 n + 0 * b2 d) with (b2 n) by ring. exact GP. }
  unfold plus, mult, scal; cbn. unfold mult; cbn. rewrite Z0. replace (b3 n + 0 * b3 d) with (b3 n) by ring. replace (b2 n + 0 * b2 d) with (b2 n) by ring.
  unfold bpair. cbn [b0 b2 b3 b2v]. generalize (ln (gC Rhm (b2 n) (b3 n) z)). intros lg. set (g := gC Rhm (b2 n) (b3 n) z) in *. clearbody g.
  match goal with |- context[rdot (rvscale ?a zpv) (b2v d)] => replace (rdot (rvscale a zpv) (b2v d)) with (a * rdot zpv (b2v d)) by (destruct zpv, (b2v d); v3_unfold; ring) end.
  generalize (rdot zpv (b2v d)). intros rv. req. field. split; lra.
Qed.

(** ** branch points *)
Lemma left_agree (f g : R -> R) (l : R) : is_derive f 0 l -> continuous g 0 -> (exists e, 0 < e /\ forall t, - e < t < 0 -> f t = g t) -> f 0 = g 0.
Proof.
  intros Df Cg (e & He & E). apply Rminus_diag_uniq.
  assert (Cf : continuous f 0) by (apply (ex_derive_continuous (V := R_NormedModule)); eexists; exact Df).
  assert (Ch : continuous (fun t : R => f t - g t) 0) by (apply (continuous_minus (V := R_NormedModule)); assumption).
  destruct (Req_dec (f 0 - g 0) 0) as [Z|Z]; [exact Z|exfalso].
  assert (PA : 0 < Rabs (f 0 - g 0)) by (apply Rabs_pos_lt; exact Z).
  specialize (Ch (ball (f 0 - g 0) (mkposreal _ PA)) (locally_ball _ _)). destruct Ch as [dl Hd].
  assert (Pd := cond_pos dl). set (t := - Rmin (e/2) (dl/2)).
  assert (Ht : - e < t < 0 /\ Rabs t < dl). { unfold t, Rmin. destruct (Rle_dec (e/2) (dl/2)); (split; [lra|]); rewrite Rabs_Ropp, Rabs_pos_eq; lra. }
  assert (Bt : ball 0 dl t). { change (Rabs (t - 0) < dl). rewrite Rminus_0_r. apply Ht. }
  specialize (Hd t Bt). rewrite (E t (proj1 Ht)) in Hd.
  change (Rabs ((g t - g t) - (f 0 - g 0)) < Rabs (f 0 - g 0)) in Hd. replace (g t - g t - (f 0 - g 0)) with (- (f 0 - g 0)) in Hd by ring. rewrite Rabs_Ropp in Hd. lra.
Qed.
(** the truncated series underestimates f2, by more than x^5/45 *)
Lemma f2_gap x : 0 < x < 1 -> x ^ 5 / 45 < (1 + (1/3) * (2 - x + 2 * (1 - x) * ln (1 - x) / x)) - (1 + x * x * ((1/9) + x * (1/18 + x * (1/30)))).
Proof.
  intros Hx.
  assert (H1 : forall y, 0 <= y < 1 -> 0 <= - ln (1 - y) - (y + y^2/2 + y^3/3 + y^4/4 + y^5/5)).
  { intros y Hy. replace 0 with (- ln (1 - 0) - (0 + 0^2/2 + 0^3/3 + 0^4/4 + 0^5/5)) at 1 by (replace (1-0) with 1 by ring; rewrite ln_1; field).
    destruct (Req_dec y 0) as [->|Ny]; [lra|]. left.
    apply (mono_strict (fun y : R => - ln (1 - y) - (y + y^2/2 + y^3/3 + y^4/4 + y^5/5)) (fun y => y^5 / (1 - y))); [lra| |].
    - intros z Hz. auto_derive; [lra|]. field. lra.
    - intros z Hz. apply Rdiv_lt_0_compat; [apply pow_lt; lra|lra]. }
  assert (H2 : 0 < (1 - x) * ln (1 - x) - (- x + x^2/2 + x^3/6 + x^4/12 + x^5/20 + x^6/30)).
  { replace 0 with ((1 - 0) * ln (1 - 0) - (- 0 + 0^2/2 + 0^3/6 + 0^4/12 + 0^5/20 + 0^6/30)) at 1 by (replace (1-0) with 1 by ring; rewrite ln_1; field).
    apply (mono_strict (fun x : R => (1 - x) * ln (1 - x) - (- x + x^2/2 + x^3/6 + x^4/12 + x^5/20 + x^6/30)) (fun y => - ln (1 - y) - (y + y^2/2 + y^3/3 + y^4/4 + y^5/5))); [lra| |].
    - intros z Hz. auto_derive; [lra|]. change (1 + - z) with (1 - z). generalize (ln (1 - z)). intros. req. field. lra.
    - intros z Hz.
      replace 0 with (- ln (1 - 0) - (0 + 0^2/2 + 0^3/3 + 0^4/4 + 0^5/5)) at 1 by (replace (1-0) with 1 by ring; rewrite ln_1; field).
      apply (mono_strict (fun y : R => - ln (1 - y) - (y + y^2/2 + y^3/3 + y^4/4 + y^5/5)) (fun y => y^5 / (1 - y))); [lra| |].
      + intros y Hy. auto_derive; [lra|]. field. lra.
      + intros y Hy. apply Rdiv_lt_0_compat; [apply pow_lt; lra|lra]. }
  set (L := (1 - x) * ln (1 - x)) in *. replace (2 * (1 - x) * ln (1 - x) / x) with (2 * (L / x)) by (unfold L; field; lra). clearbody L.
  assert (Q : -1 + x/2 + x^2/6 + x^3/12 + x^4/20 + x^5/30 < L / x).
  { apply Rlt_div_r; [lra|]. nra. }
  nra.
Qed.
Definition phiOf (n : wden) : R := match phiFMT_calc n with Some (p, _) => p | None => 0 end.
Definition gradOf (n : wden) : wden := match phiFMT_calc n with Some (_, g) => g | None => wd0 end.
Lemma fmt_branch : exists n d, 0 < w0 n /\ 0 < w1 n /\ 0 < w2 n /\ 0 < w3 n < 1 /\ (exists r, phiFMT_calc n = Some r) /\
  forall l, ~ is_derive (fun t : R => phiOf (wmove n d t)) 0 l.
Proof.
  set (n := WD 1 1 1 0.002 (V 0 0 0) (V 0 0 0) rt0). set (d := WD 0 0 0 1 (V 0 0 0) (V 0 0 0) rt0).
  exists n, d. cbn [n w0 w1 w2 w3]. repeat (split; [lra|]).
  split; [destruct (phi_inside n) as [g Hg]; [unfold inside, n; cbn; lra|]; eexists; exact Hg|]. intros l Dl.
  assert (K2 : forall t, comb2 (wmove n d t) = 1) by (intros t; unfold comb2, wmove, n, d; cbn; v3_unfold; ring).
  assert (K3 : forall t, comb3 (wmove n d t) = 1) by (intros t; unfold comb3, wmove, n, d, rt0, mul_vTmv, trace_cubed; cbn; v3_unfold; cbn; ring).
  assert (PH : forall t, - 0.001 < t < 0.001 -> phiOf (wmove n d t) = phiE (1 + t * 0) (0.002 + t * 1) 1 1).
  { intros t Ht. unfold phiOf. destruct (phi_inside (wmove n d t)) as [g ->]; [unfold inside, wmove, n, d; cbn; lra|]. rewrite K2, K3. reflexivity. }
  set (s2 := fun x : R => 1 + x * x * ((1/9) + x * (1/18 + x * (1/30)))).
  set (s3 := fun x : R => 1 + x * (-4/9 + x * (1/18 + x * (1/45 + x * (1/90))))).
  set (psi := fun t : R => 1 * ln (1 / (1 - (0.002 + t * 1))) + 1 / (1 - (0.002 + t * 1)) * (s2 (0.002 + t * 1) * 1 + 1 / (1 - (0.002 + t * 1)) * ((1 / (24 * PI)) * s3 (0.002 + t * 1) * 1))).
  pose proof PI_RGT_0.
  assert (E := left_agree _ psi l Dl). cbv beta in E. assert (E0 : phiOf (wmove n d 0) = psi 0).
  { apply E.
    - apply (ex_derive_continuous (V := R_NormedModule)). unfold psi, s2, s3. auto_derive. repeat split; try lra. apply Rdiv_lt_0_compat; lra.
    - exists 0.001. split; [lra|]. intros t Ht. rewrite PH by lra. unfold phiE, psi, s2, s3, WB_f2, WB_f3.
      destruct (Rlt_dec (0.002 + t * 1) 0.002); [|lra]. destruct (Rlt_dec (0.002 + t * 1) 0.005); [|lra]. cbn [fst].
      replace (1 + t * 0) with 1 by ring. reflexivity. }
  rewrite PH in E0 by lra. revert E0. unfold phiE, psi. replace (0.002 + 0 * 1) with 0.002 by ring. replace (1 + 0 * 0) with 1 by ring.
  unfold WB_f2, WB_f3. destruct (Rlt_dec 0.002 0.002); [lra|]. destruct (Rlt_dec 0.002 0.005); [|lra]. cbn [fst]. fold (s3 0.002).
  pose proof (f2_gap 0.002 ltac:(lra)) as G. fold (s2 0.002) in G. assert (0 < 0.002 ^ 5 / 45) by lra.
  set (a := 1 + 1/3 * _) in *. assert (Hp : 0 < 1 / (1 - 0.002)) by (apply Rdiv_lt_0_compat; lra). set (p := 1 / (1 - 0.002)) in *.
  intros E0. set (q := 1 / (24 * PI) * s3 0.002 * 1) in *. assert (a = s2 0.002); [|lra].
  clearbody q p a. assert (p * a = p * s2 0.002) by lra. apply (Rmult_eq_reg_l p); lra.
Qed.
(** kink of zeta at |n2v| = n2: the one-sided derivatives differ *)
Lemma bond_kink : exists Rhm scale n d, 0 < Rhm /\ 0 < scale /\ 0 < b0 n /\ 0 < b2 n /\ 0 < b3 n < 1 /\
  ~ is_derive (fun t : R => fst (phiBond_calc Rhm scale (bmove n d t))) 0 (bpair (snd (phiBond_calc Rhm scale n)) d).
Proof.
  set (n := BD 1 1 0.5 (V 1 0 0)). set (d := BD 0 0 0 (V (-1) 0 0)).
  exists 1, 1, n, d. cbn [n b0 b2 b3]. repeat (split; [lra|]). intros D.
  assert (Z : zetaOf 1 (rlen2 (V 1 0 0)) = 0). { unfold zetaOf. destruct (Rle_dec 1 0); [reflexivity|]. unfold rlen2. v3_unfold. destruct (Rlt_dec _ _); [reflexivity|]. field. }
  assert (P0 : bpair (snd (phiBond_calc 1 1 n)) d = 0).
  { unfold phiBond_calc, n. cbn [b0 b2 b3 b2v]. destruct (Rlt_dec 1 0); [lra|]. destruct (Rlt_dec 0.5 0); [lra|]. cbn [snd]. rewrite Z. destruct (Req_EM_T 0 0); [|lra].
    unfold bpair, d. cbn [b0 b2 b3 b2v]. v3_unfold. ring. }
  rewrite P0 in D.
  (* value along the ray: - ln (2 (1 + zeta c)), zeta = 1 - (1-t)^2 for 0 <= t <= 1 *)
  assert (V : forall t, 0 <= t < 1 -> fst (phiBond_calc 1 1 (bmove n d t)) = - ln (2 * (1 + (1 - (1 - t) * (1 - t)) * 2 * (1 + 4/9)))).
  { intros t Ht. rewrite bond_inside by (unfold binside, bmove, n, d; cbn; lra). unfold bmove, n, d. cbn [b0 b2 b3 b2v]. unfold rlen2. v3_unfold.
    unfold zetaOf. destruct (Rle_dec _ 0); [lra|]. destruct (Rlt_dec _ _) as [X|X]; [exfalso; nra|]. unfold gC.
    match goal with |- _ * ln ?u = - ln ?v => replace u with v; [lra|] end. replace (1 - (0.5 + t * 0)) with (/ 2) by lra. field; lra. }
  (* derivative from the right of f + g, where g = ln(...) extends smoothly, agrees *)
  assert (D2 : is_derive (fun t : R => - ln (2 * (1 + (1 - (1 - t) * (1 - t)) * 2 * (1 + 4/9)))) 0 (- (2 * 2 * (1 + 4/9)))).
  { auto_derive; [lra|]. field. }
  assert (DD : is_derive (fun t : R => fst (phiBond_calc 1 1 (bmove n d t)) - (- ln (2 * (1 + (1 - (1 - t) * (1 - t)) * 2 * (1 + 4/9))))) 0 (0 - (- (2 * 2 * (1 + 4/9))))).
  { apply (is_derive_minus (V := R_NormedModule)); assumption. }
  set (h := fun t : R => _) in DD. assert (H0 : forall t, 0 <= t < 1 -> h t = 0). { intros t Ht. unfold h. rewrite (V t Ht). ring. }
  apply is_derive_Reals in DD. destruct (DD 1 ltac:(lra)) as [dl Hd]. pose proof (cond_pos dl) as Pd.
  set (e := Rmin (dl/2) (1/2)). assert (He : 0 < e < 1 /\ e < dl). { unfold e, Rmin. destruct (Rle_dec (dl/2) (1/2)); lra. }
  specialize (Hd e ltac:(lra)). rewrite Rabs_pos_eq in Hd by lra. specialize (Hd ltac:(lra)).
  rewrite (H0 (0 + e)), (H0 0) in Hd by lra. replace ((0 - 0) / e - (0 - - (2 * 2 * (1 + 4 / 9)))) with (- (4 * (1 + 4/9))) in Hd by (field; lra).
  rewrite Rabs_Ropp, Rabs_pos_eq in Hd by lra. lra.
Qed.
(** packing fraction outside of [0,1) *)
Lemma fmt_guard n : (0 <= w0 n -> 0 <= w1 n -> 0 <= w2 n -> 1 <= w3 n -> phiFMT_calc n = None) /\
  ((w0 n < 0 \/ w1 n < 0 \/ w2 n < 0 \/ w3 n < 0) -> phiFMT_calc n = Some (0, wd0)).
Proof.
  unfold phiFMT_calc. split.
  - intros A B C D. destruct (Rlt_dec (w0 n) 0); [lra|]. destruct (Rlt_dec (w1 n) 0); [lra|]. destruct (Rlt_dec (w2 n) 0); [lra|]. destruct (Rlt_dec (w3 n) 0); [lra|].
    destruct (Rle_dec 1 (w3 n)); [reflexivity|lra].
  - intros H. destruct (Rlt_dec (w0 n) 0); [reflexivity|]. destruct (Rlt_dec (w1 n) 0); [reflexivity|]. destruct (Rlt_dec (w2 n) 0); [reflexivity|]. destruct (Rlt_dec (w3 n) 0); [reflexivity|]. lra.
Qed.
