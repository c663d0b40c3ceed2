(** Cavity shape functions: proofs for CANDLE. *)
From Coq Require Import ZArith Reals List Bool Lia Lra Psatz.
From Coquelicot Require Import Coquelicot.
From Verif Require Import Base Vec3_Model Vec3_Facts Gauss Smear_Proofs Spline_Proofs Lattice_Model Cavity_Model Cavity_Proofs.
Import ListNotations.
Open Scope R_scope.

Definition tanh2 (x : R) := (exp (2 * x * x) - 1) * (1 / (1 + exp (2 * x * x))).
Lemma tanh2_derive x : is_derive tanh2 x (8 * x * exp (2 * x * x) * (1 / (1 + exp (2 * x * x))) * (1 / (1 + exp (2 * x * x)))).
Proof. unfold tanh2. pose proof (exp_pos (2 * x * x)). auto_derive; [lra|]. field. lra. Qed.
Lemma tanh2_0 : tanh2 0 = 0. Proof. unfold tanh2. replace (2*0*0) with 0 by ring. rewrite exp_0. lra. Qed.
Lemma asymm_derive x : x <> 4 -> is_derive asymm x (asymm_x x).
Proof.
  intros N. unfold asymm_x. destruct (Rlt_dec 4 x) as [H|H].
  { apply (is_derive_ext_loc (fun _ : R => 1)); [|apply @is_derive_const].
    apply (filter_imp (fun y => 4 < y < x + 1)); [|apply near; lra].
    intros y Hy. unfold asymm. destruct (Rlt_dec 4 y); [reflexivity|lra]. }
  destruct (Rlt_dec 0 x) as [P|P].
  { apply (is_derive_ext_loc tanh2); [|apply tanh2_derive].
    apply (filter_imp (fun y => 0 < y < 4)); [|apply near; lra].
    intros y Hy. unfold asymm. destruct (Rlt_dec 4 y); [lra|]. destruct (Rlt_dec 0 y); [reflexivity|lra]. }
  destruct (Req_dec x 0) as [->|NZ].
  { apply (glue_derive asymm (fun _ => 0) tanh2 0 0 1); [lra| | | | |].
    - intros y Hy. unfold asymm. destruct (Rlt_dec 4 y); [lra|]. destruct (Rlt_dec 0 y); [lra|reflexivity].
    - intros y Hy. unfold asymm. destruct (Rlt_dec 4 y); [lra|]. destruct (Rlt_dec 0 y); [reflexivity|].
      replace y with 0 by lra. symmetry. apply tanh2_0.
    - symmetry. apply tanh2_0.
    - apply @is_derive_const.
    - evar_last; [apply tanh2_derive|]. cbn. ring. }
  apply (is_derive_ext_loc (fun _ : R => 0)); [|apply @is_derive_const].
  apply (filter_imp (fun y => x - 1 < y < 0)); [|apply near; lra].
  intros y Hy. unfold asymm. destruct (Rlt_dec 4 y); [lra|]. destruct (Rlt_dec 0 y); [lra|reflexivity].
Qed.
Lemma asymm_range x : 0 <= asymm x <= 1.
Proof.
  unfold asymm. destruct (Rlt_dec 4 x); [lra|]. destruct (Rlt_dec 0 x); [|lra].
  assert (1 <= exp (2 * x * x)). { rewrite <- exp_0. left. apply exp_increasing. nra. }
  set (e := exp (2 * x * x)) in *. unfold Rdiv. rewrite Rmult_1_l. split.
  - apply Rmult_le_pos; [lra|]. left. apply Rinv_0_lt_compat. lra.
  - apply (Rmult_le_reg_r (1 + e)); [lra|]. rewrite Rmult_assoc, Rinv_l by lra. lra.
Qed.
Lemma asymm_small x : asymm x <= 2 * x * x.
Proof.
  unfold asymm. destruct (Rlt_dec 4 x); [nra|]. destruct (Rlt_dec 0 x); [|nra].
  pose proof (exp_ge_1p (- (2 * x * x))) as H. rewrite exp_Ropp in H.
  assert (P : 0 < exp (2 * x * x)) by apply exp_pos. set (e := exp (2 * x * x)) in *. unfold Rdiv. rewrite Rmult_1_l.
  assert (A : (e - 1) * / (1 + e) <= 1 - / e).
  { apply (Rmult_le_reg_r (e * (1 + e))); [nra|]. replace ((e - 1) * / (1 + e) * (e * (1 + e))) with ((e - 1) * e) by (field; lra).
    replace ((1 - / e) * (e * (1 + e))) with ((e - 1) * (1 + e)) by (field; lra).
    assert (1 <= e). { unfold e. rewrite <- exp_0. left. apply exp_increasing. nra. } nra. }
  lra.
Qed.
Lemma copysign_abs a p : 0 <= a -> Rabs (copysign a p) = a.
Proof. intros H. unfold copysign. destruct (Rlt_dec p 0); [rewrite Rabs_Ropp|]; apply Rabs_pos_eq; lra. Qed.

(** squeeze: quadratically small functions have derivative zero *)
Lemma small_derive (f : R -> R) K del : 0 < del -> 0 <= K -> (forall t, Rabs t < del -> Rabs (f t) <= K * (t * t)) -> is_derive f 0 0.
Proof.
  intros Hd HK H. apply is_derive_Reals. intros eps He.
  assert (Hm : 0 < Rmin del (eps / (K + 1))). { apply Rmin_glb_lt; [lra|]. apply Rdiv_lt_0_compat; lra. }
  exists (mkposreal _ Hm). cbn. intros h Hh Hlt.
  assert (A1 := Rmin_l del (eps / (K + 1))). assert (A2 := Rmin_r del (eps / (K + 1))).
  assert (F0 : f 0 = 0).
  { pose proof (H 0). rewrite Rabs_R0 in H0. specialize (H0 Hd). replace (K * (0 * 0)) with 0 in H0 by ring.
    pose proof (Rabs_pos (f 0)). destruct (Req_dec (f 0) 0); auto. apply Rabs_pos_lt in H2. lra. }
  rewrite Rplus_0_l, F0, !Rminus_0_r. unfold Rdiv. rewrite Rabs_mult, Rabs_inv.
  specialize (H h). assert (P : 0 < Rabs h) by (apply Rabs_pos_lt; auto).
  assert (Hk : Rabs (f h) <= K * (Rabs h * Rabs h)).
  { rewrite <- Rabs_mult. rewrite (Rabs_pos_eq (h * h)) by nra. apply H. lra. }
  apply (Rmult_lt_reg_r (Rabs h)); [lra|]. rewrite Rmult_assoc, Rinv_l by lra. rewrite Rmult_1_r.
  assert (Rabs h * (K + 1) < eps).
  { apply (Rmult_lt_reg_r (/ (K + 1))); [apply Rinv_0_lt_compat; lra|]. rewrite Rmult_assoc, Rinv_r by lra. unfold Rdiv in A2. lra. }
  nra.
Qed.

Lemma loc_between (f : R -> R) (x d a b : R) : is_derive f x d -> a < f x < b -> locally x (fun t : R => a < f t < b).
Proof.
  intros D H. assert (C : continuous f x) by (apply (ex_derive_continuous (V := R_NormedModule)); exists d; exact D).
  apply (C (fun y => a < y < b)). apply near. exact H.
Qed.
(** the electric field along the density gradient *)
Lemma dot_derive (c : R) (m dm x dx : vec R) : 0 < c ->
  let N v := 1 / sqrt (rlen2 v + c) in
  let mt t := rvadd m (rvscale t dm) in let xt t := rvadd x (rvscale t dx) in
  let h := rvscale (N m) m in
  is_derive (fun t : R => rdot (rvscale (N (mt t)) (mt t)) (rvopp (xt t))) 0
    (- (rdot dx h + N m * rdot (rvsub x (rvscale (rdot x h) h)) dm)).
Proof.
  intros Hc N mt xt h. subst mt xt h.
  assert (D : 0 < rlen2 m + c). { assert (0 <= rlen2 m) by (destruct m; v3_unfold; nra). lra. }
  assert (P : 0 < sqrt (rlen2 m + c)) by (apply sqrt_lt_R0; lra).
  subst N. cbv beta.
  set (S := sqrt (rlen2 m + c)) in *.
  destruct m as [m0 m1 m2], dm as [a0 a1 a2], x as [x0 x1 x2], dx as [b0 b1 b2]. v3_unfold.
  auto_derive.
  all: repeat match goal with |- context[?a + ?b * 0] => replace (a + b * 0) with a by ring end.
  - repeat split; try exact D; apply Rgt_not_eq; exact P.
  - change (sqrt (m0 * m0 + m1 * m1 + m2 * m2 + c)) with S.
    assert (Sn : S <> 0) by lra. clearbody S. field. exact Sn.
Qed.

Definition asyP (p w : R) : R := copysign 3 p * asymm (- Rabs p * w).
Lemma asyP_derive (w : R -> R) (w' p dp : R) : is_derive w 0 w' -> - Rabs p * w 0 <> 4 ->
  is_derive (fun t : R => asyP (p + t * dp) (w t)) 0 (copysign 3 p * asymm_x (- Rabs p * w 0) * (- Rabs p * w' - copysign 1 p * dp * w 0)).
Proof.
  intros Hw N4.
  assert (LP : is_derive (fun t : R => p + t * dp) 0 dp) by (auto_derive; auto; ring).
  destruct (Req_dec p 0) as [->|NP].
  - replace (copysign 3 0 * asymm_x (- Rabs 0 * w 0) * (- Rabs 0 * w' - copysign 1 0 * dp * w 0)) with 0.
    2:{ rewrite Rabs_R0. replace (- 0 * w 0) with 0 by ring. unfold asymm_x. destruct (Rlt_dec 4 0); [lra|]. destruct (Rlt_dec 0 0); [lra|]. ring. }
    assert (LB : locally 0 (fun t => Rabs (w t) < Rabs (w 0) + 1)).
    { apply (filter_imp (fun t => w 0 - 1 < w t < w 0 + 1)); [|apply (loc_between w 0 w'); [exact Hw|lra]].
      intros t Ht. unfold Rabs. destruct (Rcase_abs (w t)), (Rcase_abs (w 0)); lra. }
    destruct LB as [del Hd].
    apply (small_derive _ (6 * (dp * dp) * ((Rabs (w 0) + 1) * (Rabs (w 0) + 1))) del); [apply cond_pos| |].
    + pose proof (Rle_0_sqr dp). unfold Rsqr in *. pose proof (Rle_0_sqr (Rabs (w 0) + 1)). unfold Rsqr in *. nra.
    + intros t Ht. unfold asyP. rewrite Rabs_mult, copysign_abs by lra.
      pose proof (asymm_range (- Rabs (0 + t * dp) * w t)) as R1. pose proof (asymm_small (- Rabs (0 + t * dp) * w t)) as R2.
      rewrite (Rabs_pos_eq (asymm _)) by lra.
      replace (2 * (- Rabs (0 + t * dp) * w t) * (- Rabs (0 + t * dp) * w t)) with (2 * ((Rabs (0 + t * dp) * Rabs (0 + t * dp)) * (Rabs (w t) * Rabs (w t)))) in R2.
      2:{ rewrite <- (Rabs_mult (w t)), (Rabs_pos_eq (w t * w t)) by nra. ring. }
      rewrite <- Rabs_mult in R2. replace ((0 + t * dp) * (0 + t * dp)) with ((t*t) * (dp * dp)) in R2 by ring.
      rewrite (Rabs_pos_eq (t * t * (dp * dp))) in R2 by (apply Rmult_le_pos; apply Rle_0_sqr).
      assert (W : Rabs (w t) < Rabs (w 0) + 1). { apply Hd. unfold ball. cbn. unfold AbsRing_ball, abs, minus, plus, opp. cbn. rewrite Ropp_0, Rplus_0_r. exact Ht. }
      pose proof (Rabs_pos (w t)).
      assert (Rabs (w t) * Rabs (w t) <= (Rabs (w 0) + 1) * (Rabs (w 0) + 1)) by (apply Rmult_le_compat; lra).
      assert (0 <= t * t * (dp * dp)) by (apply Rmult_le_pos; apply Rle_0_sqr).
      assert (t * t * (dp * dp) * (Rabs (w t) * Rabs (w t)) <= t * t * (dp * dp) * ((Rabs (w 0) + 1) * (Rabs (w 0) + 1))) by (apply Rmult_le_compat_l; auto).
      lra.
  - set (s := copysign 1 p).
    assert (S1 : s = 1 \/ s = -1) by (unfold s, copysign; destruct (Rlt_dec p 0); [right|left]; lra).
    assert (SA : Rabs p = s * p). { unfold s, copysign. destruct (Rlt_dec p 0); [rewrite Rabs_left by lra|rewrite Rabs_right by lra]; ring. }
    assert (SC : copysign 3 p = 3 * s) by (unfold s, copysign; destruct (Rlt_dec p 0); ring).
    assert (LOC : locally 0 (fun t => copysign 3 (p + t * dp) = 3 * s /\ Rabs (p + t * dp) = s * (p + t * dp))).
    { destruct (Rlt_dec p 0) as [Q|Q].
      - apply (filter_imp (fun t => p - 1 < p + t * dp < 0)); [|apply (loc_between (fun t => p + t * dp) 0 dp); [exact LP|lra]]. intros t Ht.
        unfold s, copysign. destruct (Rlt_dec p 0); [|lra]. destruct (Rlt_dec (p + t * dp) 0); [|lra]. rewrite Rabs_left by lra. split; ring.
      - apply (filter_imp (fun t => 0 < p + t * dp < p + 1)); [|apply (loc_between (fun t => p + t * dp) 0 dp); [exact LP|lra]]. intros t Ht.
        unfold s, copysign. destruct (Rlt_dec p 0); [lra|]. destruct (Rlt_dec (p + t * dp) 0); [lra|]. rewrite Rabs_right by lra. split; ring. }
    apply (is_derive_ext_loc (fun t : R => 3 * s * asymm (- (s * (p + t * dp)) * w t))).
    { apply (filter_imp (fun t => copysign 3 (p + t * dp) = 3 * s /\ Rabs (p + t * dp) = s * (p + t * dp))); [|exact LOC].
      intros t [E1 E2]. unfold asyP. rewrite E1, E2. reflexivity. }
    assert (X : is_derive (fun t : R => - (s * (p + t * dp)) * w t) 0 (- Rabs p * w' - s * dp * w 0)).
    { evar_last. apply (is_derive_mult (K := R_AbsRing) (fun t : R => - (s * (p + t * dp))) w 0 (- (s * dp)) w'); [|exact Hw|apply Rmult_comm].
      { auto_derive; auto; ring. }
      unfold plus, mult. cbn. rewrite SA. ring. }
    assert (N4' : - (s * (p + 0 * dp)) * w 0 <> 4).
    { rewrite SA in N4. replace (s * (p + 0 * dp)) with (s * p) by ring. exact N4. }
    evar_last.
    + apply is_derive_scal. apply (is_derive_comp (V := R_NormedModule) asymm _ _ _ _ (asymm_derive _ N4') X).
    + unfold scal, mult. cbn. unfold mult. cbn. rewrite SC, SA. replace (s * (p + 0 * dp)) with (s * p) by ring.
      replace (copysign 1 p) with s by reflexivity. ring.
Qed.

Lemma candle_range nc k n Dn Dphi p : 0 < candle nc k n Dn Dphi p <= 1.
Proof. unfold candle. destruct (Rlt_dec n (/ 10 ^ 8)); [lra|]. match goal with |- context[erfc ?a] => pose proof (erfc_bounds a) end. lra. Qed.
Lemma candle_decr nc k a b Dn Dphi p : 0 < nc -> 0 < k -> a <= b -> candle nc k b Dn Dphi p <= candle nc k a Dn Dphi p.
Proof.
  intros Hn Hk H. pose proof (candle_range nc k b Dn Dphi p) as RB. unfold candle in *.
  destruct (Rlt_dec a (/ 10 ^ 8)); [apply RB|]. destruct (Rlt_dec b (/ 10 ^ 8)); [lra|].
  assert (P : 0 < / 10 ^ 8) by (apply Rinv_0_lt_compat, pow_lt; lra).
  destruct (Req_dec a b) as [->|N]; [lra|].
  assert (erfc (k * cd_comb nc b Dn Dphi p) < erfc (k * cd_comb nc a Dn Dphi p)); [|lra].
  apply erfc_decr. apply Rmult_lt_compat_l; [lra|]. unfold cd_comb. apply Rplus_lt_compat_r.
  apply ln_increasing; [apply Rdiv_lt_0_compat; lra|]. apply Rmult_lt_compat_r; [apply Rinv_0_lt_compat; lra|lra].
Qed.

Lemma candle_derive nc k n dn Dn dDn Dphi dDphi p dp A : 0 < nc -> / 10 ^ 8 < n -> cd_x nc Dn Dphi p <> 4 ->
  is_derive (fun t : R => A * candle nc k (n + t * dn) (rvadd Dn (rvscale t dDn)) (rvadd Dphi (rvscale t dDphi)) (p + t * dp)) 0
    (let '(An, ADn, ADphi, Ap) := candle_grad nc k n Dn Dphi p A in An * dn + rdot ADn dDn + rdot ADphi dDphi + Ap * dp).
Proof.
  intros Hnc Hn Hx. assert (P8 : 0 < / 10 ^ 8) by (apply Rinv_0_lt_compat, pow_lt; lra).
  assert (Hc : 0 < / 10 ^ 4 * nc * nc). { apply Rmult_lt_0_compat; [|lra]. apply Rmult_lt_0_compat; [|lra]. apply Rinv_0_lt_compat, pow_lt; lra. }
  pose proof (dot_derive (/ 10 ^ 4 * nc * nc) Dn dDn Dphi dDphi Hc) as HW. cbv zeta in HW.
  set (w := fun t : R => cd_eDotE nc (rvadd Dn (rvscale t dDn)) (rvadd Dphi (rvscale t dDphi))).
  assert (LZ : forall v d, rvadd v (rvscale 0 d) = v) by (intros v d; destruct v, d; v3_unfold; f_equal; ring).
  assert (W0 : w 0 = cd_eDotE nc Dn Dphi) by (unfold w; rewrite !LZ; reflexivity).
  set (w' := - (rdot dDphi (cd_e nc Dn) + cd_normFac nc Dn * rdot (rvsub Dphi (rvscale (rdot Dphi (cd_e nc Dn)) (cd_e nc Dn))) dDn)).
  assert (HW' : is_derive w 0 w') by exact HW.
  assert (HA := asyP_derive w w' p dp HW').
  rewrite W0 in HA. specialize (HA Hx).
  assert (LN : is_derive (fun t : R => ln ((n + t * dn) / nc)) 0 (dn / n)).
  { auto_derive; replace (n + 0 * dn) with n by ring; [apply Rdiv_lt_0_compat; lra|]. field. lra. }
  assert (HC : is_derive (fun t : R => k * cd_comb nc (n + t * dn) (rvadd Dn (rvscale t dDn)) (rvadd Dphi (rvscale t dDphi)) (p + t * dp)) 0
     (k * (dn / n - copysign 3 p * asymm_x (- Rabs p * cd_eDotE nc Dn Dphi) * (- Rabs p * w' - copysign 1 p * dp * cd_eDotE nc Dn Dphi)))).
  { apply is_derive_scal. apply (is_derive_minus (V := R_NormedModule)); [exact LN|exact HA]. }
  assert (HE := is_derive_erfc_comp _ _ _ HC). cbv beta in HE.
  unfold candle_grad. destruct (Rlt_dec n (/ 10 ^ 8)); [lra|].
  cbv beta iota zeta.
  apply (is_derive_ext_loc (fun t : R => (A * 0.5) * erfc (k * cd_comb nc (n + t * dn) (rvadd Dn (rvscale t dDn)) (rvadd Dphi (rvscale t dDphi)) (p + t * dp)))).
  { apply (filter_imp (fun t => / 10 ^ 8 < n + t * dn < n + 1)).
    2:{ apply (loc_between (fun t => n + t * dn) 0 dn); [auto_derive; auto; ring|lra]. }
    intros t Ht.
    unfold candle. destruct (Rlt_dec (n + t * dn) (/ 10 ^ 8)); [lra|]. apply Rmult_assoc. }
  evar_last. apply is_derive_scal. exact HE.
  rewrite !LZ. replace (n + 0 * dn) with n by ring. replace (p + 0 * dp) with p by ring.
  unfold gauss. set (comb := cd_comb nc n Dn Dphi p).
  replace (exp (- (k * comb * (k * comb)))) with (exp (- comb * comb * k * k)) by (f_equal; ring).
  unfold cd_x. set (e := exp (- comb * comb * k * k)).
  unfold w'.
  replace (cd_eDotE nc Dn Dphi) with (- rdot Dphi (cd_e nc Dn)).
  2:{ unfold cd_eDotE. generalize (cd_e nc Dn). intros v. destruct v, Dphi. v3_unfold. ring. }
  set (g := asymm_x _). generalize (cd_normFac nc Dn). intros f. generalize (cd_e nc Dn). intros v.
  generalize (copysign 3 p). intros c3. generalize (copysign 1 p). intros c1'. generalize (Rabs p). intros ap.
  pose proof sqrtPI_pos as SP. revert SP. generalize (sqrt PI). intros sp SP.
  clear -SP Hn P8. rewrite half_is.
  destruct v, Dphi, dDn, dDphi. v3_unfold. field. lra.
Qed.
