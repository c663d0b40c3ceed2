(** Cavity shape functions: proofs for the soft-sphere model. *)
From Coq Require Import ZArith Reals List Bool Lia Lra Psatz.
From Coquelicot Require Import Coquelicot.
From Verif Require Import Base Vec3_Model Vec3_Facts Gauss Smear_Proofs Spline_Proofs Lattice_Model RealUtil Cavity_Model Cavity_Proofs Cavity_Proofs2.
Import ListNotations.
Open Scope R_scope.
Ltac req := match goal with |- ?a = ?b => change (@eq R a b) end.

Definition prodL {A} (f : A -> R) (l : list A) : R := fold_right (fun a acc => f a * acc) 1 l.
Lemma fold_prod {A} (f : A -> R) l s : fold_left (fun s a => s * f a) l s = s * prodL f l.
Proof. revert s. induction l as [|a l IH]; intros s; cbn [fold_left prodL fold_right]; [ring|]. rewrite IH. unfold prodL. ring. Qed.
Section SS.
  Variables (RTR : mat R) (sigmaInv : R) (reps : list (vec Z)) (y : vec R).
  Hypothesis Hs : 0 < sigmaInv.
  Let F (a : vec R * R) := prodL (repFactor RTR sigmaInv (snd a) (fst a) y) reps.
  Lemma soft_prod atoms : softSphere RTR sigmaInv reps atoms y = prodL F atoms.
  Proof.
    unfold softSphere. assert (H : forall s, fold_left (fun s a => fold_left (fun s rep => s * repFactor RTR sigmaInv (snd a) (fst a) y rep) reps s) atoms s = s * prodL F atoms).
    { induction atoms as [|a l IH]; intros s; cbn [fold_left]; [unfold prodL; cbn; ring|].
      rewrite IH, fold_prod. change (prodL F (a :: l)) with (F a * prodL F l).
      change (prodL (repFactor RTR sigmaInv (snd a) (fst a) y) reps) with (F a).
      generalize (prodL F l) (F a). intros u v. clear. req. ring. }
    rewrite H. ring.
  Qed.
  Lemma factor_range r x rep : 0 < repFactor RTR sigmaInv r x y rep < 1.
  Proof. unfold repFactor. match goal with |- context[erfc ?a] => pose proof (erfc_bounds a) end. lra. Qed.
  Lemma prod_range {A} (f : A -> R) l : (forall a, 0 < f a <= 1) -> 0 < prodL f l <= 1.
  Proof. intros H. unfold prodL. induction l as [|a l IH]; cbn [fold_right]; [lra|]. specialize (H a). split; [apply Rmult_lt_0_compat; lra|]. nra. Qed.
  Lemma soft_range atoms : 0 < softSphere RTR sigmaInv reps atoms y <= 1.
  Proof.
    rewrite soft_prod. apply prod_range. intros a. apply prod_range. intros rep. pose proof (factor_range (snd a) (fst a) rep). lra.
  Qed.
  Lemma prod_le {A} (f g : A -> R) l : (forall a, 0 <= f a <= g a) -> 0 <= prodL f l <= prodL g l.
  Proof.
    intros H. unfold prodL. induction l as [|a l IH]; cbn [fold_right]; [lra|]. specialize (H a).
    split; [apply Rmult_le_pos; lra|]. apply Rmult_le_compat; lra.
  Qed.
  (** larger spheres exclude more *)
  Lemma soft_decr atoms atoms' : Forall2 (fun a b => fst a = fst b /\ snd a <= snd b) atoms atoms' ->
    softSphere RTR sigmaInv reps atoms' y <= softSphere RTR sigmaInv reps atoms y.
  Proof.
    intros H. rewrite !soft_prod.
    assert (P : forall l, 0 < prodL F l). { intros l. apply prod_range. intros a. apply prod_range. intros rep. pose proof (factor_range (snd a) (fst a) rep). lra. }
    induction H as [|a b l l' [E L] _ IH]; [lra|]. unfold prodL in *. cbn [fold_right].
    apply Rmult_le_compat.
    - left. apply (prod_range (repFactor RTR sigmaInv (snd b) (fst b) y)). intros rep. pose proof (factor_range (snd b) (fst b) rep). lra.
    - left. apply P.
    - unfold F. rewrite E. apply (prod_le (repFactor RTR sigmaInv (snd b) (fst b) y) (repFactor RTR sigmaInv (snd a) (fst b) y)).
      intros rep. split; [left; apply factor_range|]. unfold repFactor.
      destruct (Req_dec (snd a) (snd b)) as [->|N]; [lra|].
      apply Rmult_le_compat_l; [lra|]. left. apply erfc_decr. apply Rmult_lt_compat_l; lra.
    - exact IH.
  Qed.

  (** derivative of a product *)
  Lemma prod_derive {A} (f : R -> A -> R) (f' : A -> R) l : (forall a, In a l -> f 0 a <> 0) -> (forall a, In a l -> is_derive (fun t : R => f t a) 0 (f' a)) ->
    is_derive (fun t : R => prodL (f t) l) 0 (prodL (f 0) l * fold_right (fun a acc => f' a / f 0 a + acc) 0 l).
  Proof.
    intros NZ D. induction l as [|a l IH]; unfold prodL in *; cbn [fold_right].
    - evar_last; [apply @is_derive_const|]. unfold zero. cbn. ring.
    - evar_last. apply (is_derive_mult (K := R_AbsRing) (fun t => f t a) (fun t => fold_right (fun b acc => f t b * acc) 1 l)).
      + apply D. left; auto.
      + apply IH; intros b Hb; [apply NZ|apply D]; right; auto.
      + apply Rmult_comm.
      + unfold plus, mult. cbn. field. apply NZ. left. auto.
  Qed.

  (** the wrapped displacement moves rigidly away from the cell boundary *)
  Definition interior (t : R) := 0.5 + t <> IZR (rfloor (0.5 + t)).
  Lemma wrap_loc t d : interior t -> locally 0 (fun h : R => wrap1 (t + h * d) = wrap1 t + h * d).
  Proof.
    intros I. pose proof (rfloor_bounds (0.5 + t)) as B.
    apply (filter_imp (fun h => IZR (rfloor (0.5 + t)) < 0.5 + (t + h * d) < IZR (rfloor (0.5 + t)) + 1)).
    - intros h Hh. unfold wrap1. rewrite (rfloor_unique (0.5 + (t + h * d)) (rfloor (0.5 + t))) by lra. ring.
    - apply (loc_between (fun h => 0.5 + (t + h * d)) 0 d).
      + evar_last. apply (is_derive_plus (V := R_NormedModule)); [apply @is_derive_const|]. instantiate (1 := d). auto_derive; auto; ring.
        unfold plus, zero. cbn. ring.
      + unfold interior in I. replace (0 * d) with 0 by ring. lra.
  Qed.
  Definition sym (m : mat R) := m01 m = m10 m /\ m02 m = m20 m /\ m12 m = m21 m.
  Lemma metric_derive v d : sym RTR -> 0 < metric_len2 RTR v ->
    is_derive (fun h : R => sqrt (metric_len2 RTR (rvadd v (rvscale h d)))) 0 (rdot (rmv RTR v) d / sqrt (metric_len2 RTR v)).
  Proof.
    intros (S1 & S2 & S3) P. destruct RTR as [a b c e f g h i j]. cbn in S1, S2, S3. subst e h i. destruct v as [x0 x1 x2], d as [d0 d1 d2].
    unfold metric_len2 in *. v3_unfold.
    assert (Q : 0 < sqrt (x0 * x0 * a + x1 * x1 * f + x2 * x2 * j + 2 * (x0 * x1 * b + x0 * x2 * c + x1 * x2 * g))) by (apply sqrt_lt_R0; exact P).
    auto_derive.
    all: repeat match goal with |- context[?a + ?b * 0] => replace (a + b * 0) with a by ring end.
    - exact P.
    - field. lra.
  Qed.

  Lemma factor_derive x d r e rep : sym RTR ->
    interior (c0 x - c0 y) /\ interior (c1 x - c1 y) /\ interior (c2 x - c2 y) -> 0 < repDist RTR x y rep ->
    is_derive (fun h : R => repFactor RTR sigmaInv (r + h * e) (rvadd x (rvscale h d)) y rep) 0
      ((sigmaInv / sqrt PI) * gauss (sigmaInv * (r - repDist RTR x y rep)) * (rdot (rmv RTR (repDisp x y rep)) d / repDist RTR x y rep - e)).
  Proof.
    intros SY (I0 & I1 & I2) DP.
    assert (ML : 0 < metric_len2 RTR (repDisp x y rep)).
    { unfold repDist in DP. destruct (Rlt_dec 0 (metric_len2 RTR (repDisp x y rep))); auto. rewrite sqrt_neg_0 in DP by lra. lra. }
    assert (L : locally 0 (fun h : R => repDisp (rvadd x (rvscale h d)) y rep = rvadd (repDisp x y rep) (rvscale h d))).
    { pose proof (wrap_loc _ (c0 d) I0) as L0. pose proof (wrap_loc _ (c1 d) I1) as L1. pose proof (wrap_loc _ (c2 d) I2) as L2.
      generalize (filter_and _ _ L0 (filter_and _ _ L1 L2)). apply filter_imp. intros h (E0 & E1 & E2).
      unfold repDisp, wrapDisp. destruct x as [x0 x1 x2], d as [d0 d1 d2], y as [y0 y1 y2], rep as [r0 r1 r2]. v3_unfold.
      replace (x0 + d0 * h - y0) with (x0 - y0 + h * d0) by ring. replace (x1 + d1 * h - y1) with (x1 - y1 + h * d1) by ring.
      replace (x2 + d2 * h - y2) with (x2 - y2 + h * d2) by ring. rewrite E0, E1, E2. f_equal; ring. }
    pose proof (metric_derive (repDisp x y rep) d SY ML) as MD.
    apply (is_derive_ext_loc (fun h : R => 0.5 * erfc (sigmaInv * (r + h * e - sqrt (metric_len2 RTR (rvadd (repDisp x y rep) (rvscale h d))))))).
    { apply (filter_imp (fun h : R => repDisp (rvadd x (rvscale h d)) y rep = rvadd (repDisp x y rep) (rvscale h d))); [|exact L].
      intros h E. unfold repFactor, repDist. rewrite E. reflexivity. }
    assert (A : is_derive (fun h : R => sigmaInv * (r + h * e - sqrt (metric_len2 RTR (rvadd (repDisp x y rep) (rvscale h d))))) 0
       (sigmaInv * (e - rdot (rmv RTR (repDisp x y rep)) d / sqrt (metric_len2 RTR (repDisp x y rep))))).
    { apply is_derive_scal. apply (is_derive_minus (V := R_NormedModule)); [auto_derive; auto; ring|exact MD]. }
    evar_last. apply is_derive_scal. exact (is_derive_erfc_comp _ _ _ A).
    assert (Z0' : rvadd (repDisp x y rep) (rvscale 0 d) = repDisp x y rep) by (destruct (repDisp x y rep), d; v3_unfold; f_equal; ring).
    cbv beta. rewrite Z0'.
    unfold repDist. rewrite half_is. pose proof sqrtPI_pos. replace (r + 0 * e) with r by ring.
    generalize (gauss (sigmaInv * (r - sqrt (metric_len2 RTR (repDisp x y rep))))). intros G.
    generalize (rdot (rmv RTR (repDisp x y rep)) d / sqrt (metric_len2 RTR (repDisp x y rep))). intros K. req. field. lra.
  Qed.

  Lemma grad_sum x r s E d e : / 10 ^ 14 < s -> (forall rep, In rep reps -> / 10 ^ 14 <= repDist RTR x y rep) ->
    let g := softSphere_grad RTR sigmaInv reps x r y s E in
    rdot (fst g) d + snd g * e =
    E * s * fold_right (fun rep acc => ((sigmaInv / sqrt PI) * gauss (sigmaInv * (r - repDist RTR x y rep)) * (rdot (rmv RTR (repDisp x y rep)) d / repDist RTR x y rep - e)) / repFactor RTR sigmaInv r x y rep + acc) 0 reps.
  Proof.
    intros HS HD. unfold softSphere_grad. destruct (Rlt_dec (/ 10 ^ 14) s); [|lra].
    match goal with |- context[fold_left ?f reps (V 0 0 0, 0)] => set (step := f) end.
    assert (P14 : 0 < / 10 ^ 14) by (apply Rinv_0_lt_compat, pow_lt; lra).
    assert (H : forall l acc, (forall rep, In rep l -> / 10 ^ 14 <= repDist RTR x y rep) ->
      rdot (fst (fold_left step l acc)) d + snd (fold_left step l acc) * e = rdot (fst acc) d + snd acc * e +
      E * s * fold_right (fun rep acc => ((sigmaInv / sqrt PI) * gauss (sigmaInv * (r - repDist RTR x y rep)) * (rdot (rmv RTR (repDisp x y rep)) d / repDist RTR x y rep - e)) / repFactor RTR sigmaInv r x y rep + acc) 0 l).
    { induction l as [|rep l IH]; intros acc HL; cbn [fold_left fold_right]; [ring|].
      rewrite IH by (intros q Hq; apply HL; right; auto).
      assert (ST : rdot (fst (step acc rep)) d + snd (step acc rep) * e = rdot (fst acc) d + snd acc * e +
        E * s * (((sigmaInv / sqrt PI) * gauss (sigmaInv * (r - repDist RTR x y rep)) * (rdot (rmv RTR (repDisp x y rep)) d / repDist RTR x y rep - e)) / repFactor RTR sigmaInv r x y rep)).
      { unfold step. cbv zeta. fold (repDist RTR x y rep). specialize (HL rep (or_introl eq_refl)).
        destruct (Rlt_dec (repDist RTR x y rep) (/ 10 ^ 14)); [lra|]. cbn [fst snd].
        fold (repFactor RTR sigmaInv r x y rep). pose proof (factor_range r x rep) as FR.
        replace (exp (- (sigmaInv * (r - repDist RTR x y rep)) * (sigmaInv * (r - repDist RTR x y rep)))) with (gauss (sigmaInv * (r - repDist RTR x y rep))) by (unfold gauss; f_equal; ring).
        generalize (gauss (sigmaInv * (r - repDist RTR x y rep))). intros G.
        revert FR. generalize (repFactor RTR sigmaInv r x y rep). intros f FR.
        assert (DP : 0 < repDist RTR x y rep) by lra. revert DP. generalize (repDist RTR x y rep). intros dr DP.
        pose proof sqrtPI_pos as SP. revert SP. generalize (sqrt PI). intros sp SP.
        generalize (rmv RTR (repDisp x y rep)). intros u. destruct acc as [a b]. cbn [fst snd]. destruct a as [a0 a1 a2], u as [u0 u1 u2], d as [d0 d1 d2]. v3_unfold. field. lra. }
      rewrite ST. ring. }
    rewrite (H reps (V 0 0 0, 0) HD). cbn [fst snd]. replace (rdot (V 0 0 0) d) with 0 by (destruct d; v3_unfold; ring). ring.
  Qed.

  Lemma soft_derive pre x r post d e E : sym RTR ->
    interior (c0 x - c0 y) /\ interior (c1 x - c1 y) /\ interior (c2 x - c2 y) ->
    (forall rep, In rep reps -> / 10 ^ 14 <= repDist RTR x y rep) ->
    let s := softSphere RTR sigmaInv reps (pre ++ (x, r) :: post) y in
    / 10 ^ 14 < s ->
    let g := softSphere_grad RTR sigmaInv reps x r y s E in
    is_derive (fun h : R => E * softSphere RTR sigmaInv reps (pre ++ (rvadd x (rvscale h d), r + h * e) :: post) y) 0 (rdot (fst g) d + snd g * e).
  Proof.
    intros SY I HD s HS g. unfold g. rewrite grad_sum by auto.
    assert (P14 : 0 < / 10 ^ 14) by (apply Rinv_0_lt_compat, pow_lt; lra).
    assert (PA : forall l1 l2, prodL F (l1 ++ l2) = prodL F l1 * prodL F l2).
    { induction l1 as [|a l1 IH]; intros l2; unfold prodL in *; cbn [app fold_right]; [ring|]. rewrite IH. ring. }
    assert (PC : forall a l, prodL F (a :: l) = F a * prodL F l) by reflexivity.
    assert (ES : s = prodL F pre * prodL F post * F (x, r)) by (unfold s; rewrite soft_prod, PA, PC; ring).
    apply (is_derive_ext (fun h : R => E * (prodL F pre * prodL F post) * prodL (fun rep => repFactor RTR sigmaInv (r + h * e) (rvadd x (rvscale h d)) y rep) reps)).
    { intros h. rewrite soft_prod, PA, PC. unfold F at 4. cbn [fst snd].
      match goal with |- ?a = ?b => change (@eq R a b) end.
      change (prodL (fun rep => repFactor RTR sigmaInv (r + h * e) (rvadd x (rvscale h d)) y rep) reps) with (prodL (repFactor RTR sigmaInv (r + h * e) (rvadd x (rvscale h d)) y) reps). ring. }
    evar_last. apply is_derive_scal.
    apply (prod_derive (fun h rep => repFactor RTR sigmaInv (r + h * e) (rvadd x (rvscale h d)) y rep)
       (fun rep => (sigmaInv / sqrt PI) * gauss (sigmaInv * (r - repDist RTR x y rep)) * (rdot (rmv RTR (repDisp x y rep)) d / repDist RTR x y rep - e))).
    - intros rep _. match goal with |- ?a <> 0 => assert (0 < a) by apply factor_range end. lra.
    - intros rep Hr. apply factor_derive; auto. specialize (HD rep Hr). lra.
    - assert (E0 : forall rep, repFactor RTR sigmaInv (r + 0 * e) (rvadd x (rvscale 0 d)) y rep = repFactor RTR sigmaInv r x y rep).
      { intros rep. replace (r + 0 * e) with r by ring. replace (rvadd x (rvscale 0 d)) with x by (destruct x, d; v3_unfold; f_equal; ring). reflexivity. }
      cbv beta. assert (X0 : rvadd x (rvscale 0 d) = x) by (destruct x, d; v3_unfold; f_equal; ring). rewrite X0.
      replace (r + 0 * e) with r by ring. req.
      rewrite ES. change (prodL (fun rep => repFactor RTR sigmaInv r x y rep) reps) with (F (x, r)).
      match goal with |- context[fold_right ?f ?a reps] => generalize (fold_right f a reps) end.
      generalize (prodL F pre) (prodL F post) (F (x, r)). intros u v w z. clear. ring.
  Qed.
End SS.

(** a sphere centred on the grid point: the radius derivative is dropped *)
Lemma soft_radius_dropped : exists RTR sigmaInv reps x r y, 0 < sigmaInv /\ 0 < r /\ sym RTR /\
  / 10 ^ 14 < softSphere RTR sigmaInv reps [(x, r)] y /\
  ~ is_derive (fun r : R => softSphere RTR sigmaInv reps [(x, r)] y) r (snd (softSphere_grad RTR sigmaInv reps x r y (softSphere RTR sigmaInv reps [(x, r)] y) 1)).
Proof.
  exists rid, 1, [V 0 0 0]%Z, (V 0 0 0), (/ 2), (V 0 0 0).
  split; [lra|]. split; [lra|]. split; [unfold sym, rid, rdiag, gdiag; cbn; auto|].
  assert (W0 : wrap1 (0 - 0) = 0). { unfold wrap1. rewrite (rfloor_unique (0.5 + (0 - 0)) 0) by (cbn; lra). cbn. lra. }
  assert (D0 : repDist rid (V 0 0 0) (V 0 0 0) (V 0 0 0)%Z = 0).
  { unfold repDist, repDisp, wrapDisp. cbn [c0 c1 c2]. rewrite W0. unfold metric_len2. v3_unfold. cbn.
    match goal with |- sqrt ?e = 0 => replace e with 0 by ring end. apply sqrt_0. }
  assert (V : forall r, softSphere rid 1 [V 0 0 0]%Z [(V 0 0 0, r)] (V 0 0 0) = 0.5 * erfc r).
  { intros r. unfold softSphere. cbn [fold_left fst snd]. unfold repFactor. rewrite D0. rewrite Rmult_1_l. f_equal. f_equal. ring. }
  assert (P14 : 0 < / 10 ^ 14) by (apply Rinv_0_lt_compat, pow_lt; lra).
  assert (PP : / 10 ^ 14 < 1/100). { replace (1/100) with (/ 100) by lra. apply Rinv_lt_contravar. apply Rmult_lt_0_compat; [lra|apply pow_lt; lra]. lra. }
  split.
  - rewrite V.
    assert (erf (/ 2) < 9/10).
    { assert (B : gint (/2) <= / 2).
      { unfold gint. assert (H : RInt gauss 0 (/2) <= RInt (fun _ => 1) 0 (/2)).
        { apply RInt_le; [lra|apply ex_RInt_gauss|apply ex_RInt_const|]. intros z _. apply gauss_le1. }
        rewrite RInt_const in H. unfold scal in H. cbn in H. unfold mult in H. cbn in H.
        apply Rle_trans with (1 := H). right. req. field. }
      assert (17/10 < sqrt PI). { rewrite <- (sqrt_square (17/10)) by lra. apply sqrt_lt_1_alt. split; [nra|]. pose proof PI_ineq 1. 
        pose proof PI2_3_2. lra. }
      unfold erf. assert (2 / sqrt PI < 2 / (17/10)). { apply Rmult_lt_compat_l; [lra|]. apply Rinv_lt_contravar; [nra|lra]. }
      assert (0 < 2 / sqrt PI) by (apply Rdiv_lt_0_compat; lra). nra. }
    unfold erfc. lra.
  - intros D. pose proof (is_derive_unique _ _ _ D) as U. clear D.
    assert (D2 : is_derive (fun r : R => softSphere rid 1 [Vec3_Model.V 0 0 0]%Z [(Vec3_Model.V 0 0 0, r)] (Vec3_Model.V 0 0 0)) (/2) (0.5 * - (2 / sqrt PI * gauss (/2)))).
    { apply (is_derive_ext (fun r : R => 0.5 * erfc r)); [intros t; symmetry; apply V|]. apply is_derive_scal. apply is_derive_erfc. }
    apply is_derive_unique in D2. rewrite D2 in U. clear D2.
    unfold softSphere_grad in U.
    assert (G0 : forall s, snd (if Rlt_dec (/ 10 ^ 14) s then fold_left (fun (acc : vec R * R) rep =>
      let dx := repDisp (Vec3_Model.V 0 0 0) (Vec3_Model.V 0 0 0) rep in let dr := sqrt (metric_len2 rid dx) in
      if Rlt_dec dr (/ 10 ^ 14) then acc
      else let drComb := 1 * (/ 2 - dr) in let sContrib := 0.5 * erfc drComb in let sContrib_dr := (1 / sqrt PI) * exp (- drComb * drComb) in
        let E_dr := (1 * s / sContrib) * sContrib_dr in (rvadd (fst acc) (rvscale (E_dr / dr) (rmv rid dx)), snd acc - E_dr)) [Vec3_Model.V 0 0 0]%Z (Vec3_Model.V 0 0 0, 0)
      else (Vec3_Model.V 0 0 0, 0)) = 0).
    { intros s. destruct (Rlt_dec (/ 10 ^ 14) s); [|reflexivity]. cbn [fold_left]. cbv zeta.
      change (sqrt (metric_len2 rid (repDisp (Vec3_Model.V 0 0 0) (Vec3_Model.V 0 0 0) (Vec3_Model.V 0 0 0)%Z))) with (repDist rid (Vec3_Model.V 0 0 0) (Vec3_Model.V 0 0 0) (Vec3_Model.V 0 0 0)%Z).
      rewrite D0. destruct (Rlt_dec 0 (/ 10 ^ 14)); [reflexivity|lra]. }
    rewrite G0 in U. pose proof (gauss_pos (/2)). pose proof sqrtPI_pos.
    assert (0 < 2 / sqrt PI) by (apply Rdiv_lt_0_compat; lra). nra.
Qed.

(** the CANDLE asymmetry is cut off at x = 4, where it jumps from tanh(16) to 1 *)
Lemma candle_jump : exists nc k n Dn Dphi p A, 0 < nc /\ 0 < k /\ 1 / 10 < n /\
  ~ is_derive (fun t : R => A * candle nc k n Dn Dphi (p + t)) 0 (snd (candle_grad nc k n Dn Dphi p A)).
Proof.
  set (q := sqrt (1 - / 10 ^ 4)).
  assert (P4 : 0 < / 10 ^ 4) by (apply Rinv_0_lt_compat, pow_lt; lra).
  assert (Q4 : / 10 ^ 4 < 1 / 2). { replace (1/2) with (/ 2) by lra. apply Rinv_lt_contravar; [apply Rmult_lt_0_compat; [lra|apply pow_lt; lra]|lra]. }
  assert (QP : 0 < q) by (apply sqrt_lt_R0; lra).
  assert (QQ : q * q = 1 - / 10 ^ 4) by (apply sqrt_sqrt; lra).
  exists 1, 1, 1, (V q 0 0), (V (/ q) 0 0), 4, 1. split; [lra|]. split; [lra|]. split; [lra|]. intros D.
  assert (NF : cd_normFac 1 (V q 0 0) = 1).
  { unfold cd_normFac. v3_unfold. replace (q * q + 0 * 0 + 0 * 0 + / 10 ^ 4 * 1 * 1) with 1 by lra. rewrite sqrt_1. lra. }
  assert (ED : cd_eDotE 1 (V q 0 0) (V (/ q) 0 0) = -1).
  { unfold cd_eDotE, cd_e. rewrite NF. v3_unfold. field. lra. }
  assert (X : forall p, cd_x 1 (V q 0 0) (V (/ q) 0 0) p = Rabs p) by (intros p; unfold cd_x; rewrite ED; ring).
  assert (VV : forall p, 0 < p -> candle 1 1 1 (V q 0 0) (V (/ q) 0 0) p = 0.5 * erfc (- (3 * asymm p))).
  { intros p Hp. unfold candle, cd_comb. rewrite X. destruct (Rlt_dec 1 (/ 10 ^ 8)) as [L|L].
    - exfalso. assert (/ 10 ^ 8 < / 1) as L1; [apply Rinv_lt_contravar; lra|]. rewrite Rinv_1 in L1. lra.
    - rewrite Rabs_pos_eq by lra. unfold copysign. destruct (Rlt_dec p 0); [lra|]. replace (1/1) with 1 by lra. rewrite ln_1. f_equal. f_equal. ring. }
  assert (C : continuous (fun t : R => 1 * candle 1 1 1 (V q 0 0) (V (/ q) 0 0) (4 + t)) 0).
  { apply @ex_derive_continuous. eexists. exact D. }
  assert (A4 : asymm 4 < 1).
  { unfold asymm. destruct (Rlt_dec 4 4); [lra|]. destruct (Rlt_dec 0 4); [|lra]. cbv zeta. pose proof (exp_pos (2 * 4 * 4)).
    replace ((exp (2 * 4 * 4) - 1) * (1 / (1 + exp (2 * 4 * 4)))) with (1 - 2 / (1 + exp (2 * 4 * 4))) by (field; lra).
    assert (0 < 2 / (1 + exp (2 * 4 * 4))) by (apply Rdiv_lt_0_compat; lra). lra. }
  set (del := 0.5 * erfc (- (3 * 1)) - 0.5 * erfc (- (3 * asymm 4))).
  assert (DP : 0 < del). { unfold del. assert (erfc (- (3 * asymm 4)) < erfc (- (3 * 1))); [apply erfc_decr; lra|lra]. }
  destruct (C (fun v => Rabs (v - 1 * candle 1 1 1 (V q 0 0) (V (/ q) 0 0) (4 + 0)) < del)) as [d Hd].
  { exists (mkposreal _ DP). intros v Hv. exact Hv. }
  assert (HH := Hd (pos d / 2)). cbv beta in HH. pose proof (cond_pos d) as DD.
  assert (B : ball 0 d (pos d / 2)). { unfold ball. cbn. unfold AbsRing_ball, abs, minus, plus, opp. cbn. rewrite Rabs_pos_eq; lra. }
  specialize (HH B). rewrite !VV in HH by lra. replace (4 + 0) with 4 in HH by lra.
  replace (asymm (4 + d / 2)) with 1 in HH by (unfold asymm; destruct (Rlt_dec 4 (4 + d / 2)); [reflexivity|lra]).
  unfold del in HH. rewrite Rabs_pos_eq in HH; unfold del in DP; lra.
Qed.

Lemma shape_gradient nc sigma n : 0 < nc -> 0 < sigma -> 0 < n ->
  exists s', is_derive (shape_calc nc sigma) n s' /\ forall g a, shape_grad_calc nc sigma n g a = a + g * s'.
Proof.
  intros H1 H2 H3. exists (shape_grad_calc nc sigma n 1 0).
  exact (conj (shape_derive nc sigma n H1 H2 H3) (fun g a => shape_grad_acc nc sigma n g a)).
Qed.
