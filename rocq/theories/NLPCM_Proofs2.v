(** Nonlinear PCM: lookup application and the dielectric response. *)
From Coq Require Import ZArith Reals List Bool Lia Lra Psatz.
From Coquelicot Require Import Coquelicot.
From Verif Require Import Base Vec3_Model Vec3_Facts Gauss Spline_Proofs Cavity_Proofs2 NLPCM_Model NLPCM_Proofs.
Import ListNotations.
Open Scope R_scope.
Local Lemma half_is : 0.5 = / 2. Proof. lra. Qed.

(** ** the mapping of the potential *)
Lemma mapped_range V : 0 < Vmapped1 V < 2.
Proof.
  unfold Vmapped1. assert (P : 0 < 1 + 4 * V * V) by nra. pose proof (sqrt_lt_R0 _ P) as S. set (s := sqrt (1 + 4 * V * V)) in *.
  assert (SS : s * s = 1 + 4 * V * V) by (apply sqrt_sqrt; lra).
  assert (-1 < 2 * V / (1 + s) < 1); [|lra].
  split; apply (Rmult_lt_reg_r (1 + s)); try lra; replace (2 * V / (1 + s) * (1 + s)) with (2 * V) by (field; lra); nra.
Qed.
Lemma mapped_inverse V : V_of_mapped (Vmapped1 V - 1) = V.
Proof.
  pose proof (mapped_range V) as RG. unfold Vmapped1, V_of_mapped in *. assert (P : 0 < 1 + 4 * V * V) by nra. pose proof (sqrt_lt_R0 _ P) as S. set (s := sqrt (1 + 4 * V * V)) in *.
  assert (SS : s * s = 1 + 4 * V * V) by (apply sqrt_sqrt; lra).
  replace (1 + 2 * V / (1 + s) - 1) with (2 * V / (1 + s)) by ring.
  replace (1 - 2 * V / (1 + s) * (2 * V / (1 + s))) with (2 / (1 + s)).
  - field. lra.
  - apply (Rmult_eq_reg_r ((1 + s) * (1 + s))); [|nra]. field_simplify; [|lra|lra]. nra.
Qed.
Lemma unmapped_inverse Vm : -1 < Vm < 1 -> Vmapped1 (V_of_mapped Vm) = Vm + 1.
Proof.
  intros H. unfold Vmapped1, V_of_mapped. assert (P : 0 < 1 - Vm * Vm) by nra.
  replace (1 + 4 * (Vm / (1 - Vm * Vm)) * (Vm / (1 - Vm * Vm))) with (((1 + Vm * Vm) / (1 - Vm * Vm)) * ((1 + Vm * Vm) / (1 - Vm * Vm))) by (field; lra).
  rewrite sqrt_square by (left; apply Rdiv_lt_0_compat; nra). field. split; nra.
Qed.

(** ** screening_apply *)
Lemma mapped_derive ZbyT phi : is_derive (fun phi : R => Vmapped1 (ZbyT * phi)) phi
  (let V := ZbyT * phi in let s := sqrt (1 + 4 * V * V) in 2 * ZbyT / (s * (1 + s))).
Proof.
  cbv zeta. unfold Vmapped1. set (V := ZbyT * phi). assert (P : 0 < 1 + 4 * V * V) by nra. pose proof (sqrt_lt_R0 _ P) as S.
  assert (SS : sqrt (1 + 4 * V * V) * sqrt (1 + 4 * V * V) = 1 + 4 * V * V) by (apply sqrt_sqrt; lra).
  unfold V in *.
  auto_derive; [repeat split; try lra|].
  set (s := sqrt (1 + 4 * (ZbyT * phi) * (ZbyT * phi))) in *.
  match goal with |- ?l = _ => assert (EL : l = 2 * ZbyT * (s * s + s - 4 * (ZbyT * phi) * (ZbyT * phi)) / (s * (1 + s) * (1 + s))) by (field; lra); rewrite EL end.
  rewrite SS. field. lra.
Qed.
Lemma screening_derive NT ZbyT g g' s phi A Ap As : (forall y, 0 < y < 2 -> is_derive g y (g' y) /\ g y <> 0) ->
  let app phi := screening_apply NT ZbyT g g' s phi A Ap As in
  is_derive (fun phi : R => fst (fst (app phi))) phi (snd (fst (app phi)) - Ap) /\
  is_derive (fun s : R => fst (fst (screening_apply NT ZbyT g g' s phi A Ap As))) s (snd (app phi) - As).
Proof.
  intros Hg app. unfold app, screening_apply. cbn [fst snd]. split.
  - set (y := Vmapped1 (ZbyT * phi)). destruct (Hg y (mapped_range _)) as [D NZ].
    pose proof (mapped_derive ZbyT phi) as MD. cbv zeta in MD.
    assert (GD : is_derive (fun phi : R => g (Vmapped1 (ZbyT * phi))) phi ((2 * ZbyT / (sqrt (1 + 4 * (ZbyT * phi) * (ZbyT * phi)) * (1 + sqrt (1 + 4 * (ZbyT * phi) * (ZbyT * phi))))) * g' y)).
    { apply (is_derive_comp (V := R_NormedModule) g (fun phi => Vmapped1 (ZbyT * phi))); [exact D|exact MD]. }
    assert (ID : is_derive (fun phi : R => / g (Vmapped1 (ZbyT * phi))) phi (- ((2 * ZbyT / (sqrt (1 + 4 * (ZbyT * phi) * (ZbyT * phi)) * (1 + sqrt (1 + 4 * (ZbyT * phi) * (ZbyT * phi))))) * g' y) / g y ^ 2)).
    { apply (is_derive_inv (fun phi : R => g (Vmapped1 (ZbyT * phi)))); [exact GD|exact NZ]. }
    fold (Vmapped1 (ZbyT * phi)). fold y.
    apply (is_derive_ext (fun phi : R => A + s * ((1 * / g (Vmapped1 (ZbyT * phi)) - 1) * NT))); [reflexivity|].
    evar_last. apply (is_derive_plus (V := R_NormedModule)); [apply @is_derive_const|]. apply is_derive_scal.
    apply (is_derive_scal_l (V := R_NormedModule)). apply (is_derive_minus (V := R_NormedModule)); [|apply @is_derive_const]. apply is_derive_scal. exact ID.
    unfold scal, minus, plus, opp, zero; cbn. unfold mult; cbn. req.
    set (q := sqrt (1 + 4 * (ZbyT * phi) * (ZbyT * phi))). assert (0 < q) by (apply sqrt_lt_R0; nra). field. repeat split; lra.
  - auto_derive; auto. fold (Vmapped1 (ZbyT * phi)). req. ring.
Qed.
(** the table reproduces the energy at every sample point *)
Lemma screening_sample NT ZbyT g g' s phi A Ap As E : 0 <= E -> g (Vmapped1 (ZbyT * phi)) = 1 / (1 + E) ->
  fst (fst (screening_apply NT ZbyT g g' s phi A Ap As)) = A + s * (NT * E).
Proof. intros HE Hg. unfold screening_apply. cbn [fst]. fold (Vmapped1 (ZbyT * phi)). rewrite Hg. field. lra. Qed.

(** ** dielectric_apply *)
Lemma dielectric_s pByT g g' s v : is_derive (fun s : R => fst (fst (dielectric_apply pByT g g' s v))) s (snd (dielectric_apply pByT g g' s v)).
Proof. unfold dielectric_apply. cbn [fst snd]. auto_derive; auto. req. ring. Qed.
Lemma len2_derive v d : is_derive (fun t : R => rlen2 (rvadd v (rvscale t d))) 0 (2 * rdot v d).
Proof. destruct v, d. unfold rlen2. v3_unfold. auto_derive; auto. ring. Qed.
Lemma dielectric_derive pByT g g' s v d : 0 < pByT -> (forall y, 0 < y < 1 -> is_derive g y (g' y)) ->
  (exists B e, 0 < e /\ forall y, 0 <= y < e -> Rabs (g y) <= B) ->
  is_derive (fun t : R => fst (fst (dielectric_apply pByT g g' s (rvadd v (rvscale t d))))) 0 (rdot (snd (fst (dielectric_apply pByT g g' s v))) d).
Proof.
  intros Hp Hg (B & e & He & HB).
  assert (LZ : rvadd v (rvscale 0 d) = v) by (destruct v, d; v3_unfold; f_equal; ring).
  assert (LN : forall w : vec R, 0 <= rlen2 w) by (intros [a b c]; unfold rlen2; v3_unfold; nra).
  unfold dielectric_apply. cbn [fst snd].
  destruct (Req_dec (rlen2 v) 0) as [Z|NZ].
  - (* zero field *)
    assert (V0 : v = V 0 0 0). { destruct v as [a b c]. unfold rlen2 in Z. v3_unfold. f_equal; nra. }
    assert (R0 : rdot (rvscale (s * ((g' (pByT * rlen v * (1 / (1 + pByT * rlen v))) * (pByT * rlen v * (1 / (1 + pByT * rlen v))) * (1 / (1 + pByT * rlen v)) + 2 * g (pByT * rlen v * (1 / (1 + pByT * rlen v)))) * (pByT * pByT))) v) d = 0).
    { rewrite V0. destruct d. v3_unfold. ring. }
    rewrite R0. subst v.
    assert (EL : forall t, rlen (rvadd (V 0 0 0) (rvscale t d)) = Rabs t * rlen d).
    { intros t. unfold rlen. rewrite <- sqrt_Rsqr_abs, <- sqrt_mult; [|apply Rle_0_sqr|apply LN]. f_equal. destruct d. unfold rlen2, Rsqr. v3_unfold. ring. }
    assert (LD : 0 <= rlen d) by apply sqrt_pos.
    apply (small_derive _ (Rabs s * B * (pByT * pByT * (rlen d * rlen d))) (e / (pByT * (rlen d + 1)))).
    + apply Rdiv_lt_0_compat; nra.
    + assert (0 <= B) by (apply Rle_trans with (2 := HB 0 ltac:(lra)); apply Rabs_pos). pose proof (Rabs_pos s). apply Rmult_le_pos; nra.
    + intros t Ht. rewrite EL. set (x := pByT * (Rabs t * rlen d)). pose proof (Rabs_pos t) as Pt.
      assert (X0 : 0 <= x) by (unfold x; apply Rmult_le_pos; nra).
      assert (XE : x < e).
      { unfold x. apply Rle_lt_trans with (Rabs t * (pByT * (rlen d + 1))); [nra|].
        apply (Rmult_lt_compat_r (pByT * (rlen d + 1))) in Ht; [|nra]. replace (e / (pByT * (rlen d + 1)) * (pByT * (rlen d + 1))) with e in Ht by (field; nra). exact Ht. }
      assert (Y : 0 <= x * (1 / (1 + x)) < e).
      { assert (0 < 1 / (1 + x)) by (apply Rdiv_lt_0_compat; lra). assert (1 / (1 + x) <= 1). { apply (Rmult_le_reg_r (1 + x)); [lra|]. replace (1 / (1 + x) * (1 + x)) with 1 by (field; lra). lra. } split; nra. }
      specialize (HB _ Y). rewrite !Rabs_mult. rewrite (Rabs_pos_eq x) by lra.
      assert (EX : x * x = pByT * pByT * (rlen d * rlen d) * (t * t)). { unfold x. replace (t * t) with (Rabs t * Rabs t) by (rewrite <- Rabs_mult; apply Rabs_pos_eq; nra). ring. }
      rewrite EX. pose proof (Rabs_pos s).
      replace (Rabs s * B * (pByT * pByT * (rlen d * rlen d)) * (t * t)) with (Rabs s * (B * (pByT * pByT * (rlen d * rlen d) * (t * t)))) by ring.
      apply Rmult_le_compat_l; [lra|]. apply Rmult_le_compat_r; [rewrite <- EX; nra|exact HB].
  - assert (LP : 0 < rlen2 v) by (specialize (LN v); lra).
    assert (EP : 0 < rlen v) by (apply sqrt_lt_R0; auto).
    assert (ED : is_derive (fun t : R => rlen (rvadd v (rvscale t d))) 0 (rdot v d / rlen v)).
    { unfold rlen. evar_last. apply (is_derive_comp sqrt (fun t : R => rlen2 (rvadd v (rvscale t d)))).
      - rewrite LZ. apply is_derive_Reals. apply derivable_pt_lim_sqrt. exact LP.
      - apply len2_derive.
      - unfold scal; cbn. unfold mult; cbn. unfold rlen in *. field. lra. }
    set (x := pByT * rlen v). assert (XP : 0 < x) by (unfold x; nra).
    assert (M : forall z : R, 0 < z -> is_derive (fun z : R => pByT * z * (1 / (1 + pByT * z))) z (pByT / ((1 + pByT * z) * (1 + pByT * z)))).
    { intros z Hz. assert (0 < 1 + pByT * z) by nra. auto_derive; [lra|]. field. lra. }
    assert (YB : 0 < x * (1 / (1 + x)) < 1).
    { assert (0 < 1 / (1 + x)) by (apply Rdiv_lt_0_compat; lra). split; [nra|]. apply (Rmult_lt_reg_r (1 + x)); [lra|]. replace (x * (1 / (1 + x)) * (1 + x)) with x by (field; lra). lra. }
    assert (GD : is_derive (fun z : R => s * (g (pByT * z * (1 / (1 + pByT * z))) * (pByT * z * (pByT * z)))) (rlen v)
       (s * ((pByT / ((1 + x) * (1 + x)) * g' (x * (1 / (1 + x)))) * (x * x) + g (x * (1 / (1 + x))) * (2 * pByT * x)))).
    { apply is_derive_scal. evar_last. apply (is_derive_mult (K := R_AbsRing)).
      - apply (is_derive_comp (V := R_NormedModule) g (fun z : R => pByT * z * (1 / (1 + pByT * z)))).
        + apply (Hg (x * (1 / (1 + x)))). exact YB.
        + apply M. exact EP.
      - instantiate (1 := 2 * pByT * x). unfold x. auto_derive; auto. ring.
      - apply Rmult_comm.
      - unfold scal, plus, mult; cbn. unfold mult; cbn. fold x. req. ring. }
    evar_last.
    + apply (is_derive_comp (fun z : R => s * (g (pByT * z * (1 / (1 + pByT * z))) * (pByT * z * (pByT * z)))) (fun t : R => rlen (rvadd v (rvscale t d)))); [|exact ED].
      rewrite LZ. exact GD.
    + unfold scal; cbn. unfold mult; cbn.
      assert (DS : forall c, rdot (rvscale c v) d = c * rdot v d) by (intros c; destruct v, d; v3_unfold; ring). rewrite DS.
      fold x. unfold x. req. field. split; [nra|lra].
Qed.

(** ** hyperbolic inequalities *)
Lemma incr0 (f f' : R -> R) : (forall x, is_derive f x (f' x)) -> (forall x, 0 <= x -> 0 <= f' x) -> 0 <= f 0 -> forall x, 0 <= x -> 0 <= f x.
Proof. intros D P F x Hx. apply Rle_trans with (f 0); [exact F|]. apply (mono_weak f f'); [exact Hx|intros y _; apply D|intros y Hy; apply P; lra]. Qed.
Lemma cosh_ge1 x : 1 <= cosh x.
Proof. unfold cosh. rewrite exp_Ropp. pose proof (exp_pos x) as E. set (e := exp x) in *. assert (e * / e = 1) by (apply Rinv_r; lra). assert (0 < / e) by (apply Rinv_0_lt_compat; lra). assert (0 <= (e - / e) * (e - / e)) by apply Rle_0_sqr. assert (4 <= (e + / e) * (e + / e)) by nra. assert (2 <= e + / e); [|lra]. apply Rnot_lt_le. intros L. nra. Qed.
Lemma dsinh x : is_derive sinh x (cosh x). Proof. unfold sinh, cosh. auto_derive; auto. field. Qed.
Lemma dcosh x : is_derive cosh x (sinh x). Proof. unfold sinh, cosh. auto_derive; auto. field. Qed.
Lemma sinh_ge x : 0 <= x -> x <= sinh x.
Proof.
  intros Hx. assert (0 <= sinh x - x); [|lra]. apply (incr0 (fun x => sinh x - x) (fun x => cosh x - 1)); auto.
  - intros y. apply (is_derive_minus (V := R_NormedModule)); [apply dsinh|apply @is_derive_id].
  - intros y _. pose proof (cosh_ge1 y). lra.
  - rewrite sinh_0. lra.
Qed.
Lemma sinh_nonneg x : 0 <= x -> 0 <= sinh x. Proof. intros. pose proof (sinh_ge x). lra. Qed.
Ltac hyp := unfold sinh, cosh; auto_derive; auto; field.
Lemma xcosh_ge x : 0 <= x -> sinh x <= x * cosh x.
Proof.
  intros Hx. assert (0 <= x * cosh x - sinh x); [|lra]. apply (incr0 (fun x => x * cosh x - sinh x) (fun x => x * sinh x)); auto.
  - intros y. hyp.
  - intros y Hy. pose proof (sinh_nonneg y Hy). nra.
  - rewrite sinh_0. lra.
Qed.
Lemma lang_le x : 0 <= x -> 3 * (x * cosh x - sinh x) <= x * x * sinh x.
Proof.
  intros Hx. assert (0 <= x * x * sinh x - 3 * x * cosh x + 3 * sinh x); [|lra].
  apply (incr0 (fun x => x * x * sinh x - 3 * x * cosh x + 3 * sinh x) (fun x => x * (x * cosh x - sinh x))); auto.
  - intros y. hyp.
  - intros y Hy. pose proof (xcosh_ge y Hy). nra.
  - rewrite sinh_0. lra.
Qed.
Lemma lang_slope t : 0 <= t -> 0 <= t * t * cosh t - 12 * cosh t + 5 * (t * t) + 12.
Proof.
  assert (C0 : cosh 0 = 1) by apply cosh_0. assert (S0 : sinh 0 = 0) by apply sinh_0.
  assert (H3 : forall t, 0 <= t -> 0 <= 6 * t * cosh t + (t * t - 6) * sinh t).
  { apply (incr0 _ (fun t => 8 * t * sinh t + t * t * cosh t)); [intros y; hyp| |rewrite S0; lra].
    intros y Hy. pose proof (sinh_nonneg y Hy). pose proof (cosh_ge1 y). assert (0 <= y * y) by nra. nra. }
  assert (H2 : forall t, 0 <= t -> 0 <= (t * t - 10) * cosh t + 4 * t * sinh t + 10).
  { apply (incr0 _ (fun t => 6 * t * cosh t + (t * t - 6) * sinh t)); [intros y; hyp|exact H3|rewrite C0, S0; lra]. }
  assert (H1 : forall t, 0 <= t -> 0 <= 2 * t * cosh t + (t * t - 12) * sinh t + 10 * t).
  { apply (incr0 _ (fun t => (t * t - 10) * cosh t + 4 * t * sinh t + 10)); [intros y; hyp|exact H2|rewrite C0, S0; lra]. }
  apply (incr0 (fun t => t * t * cosh t - 12 * cosh t + 5 * (t * t) + 12) (fun t => 2 * t * cosh t + (t * t - 12) * sinh t + 10 * t)); [intros y; hyp|exact H1|rewrite C0; lra].
Qed.
Lemma cosh_double e : cosh (2 * e) = 1 + 2 * (sinh e * sinh e).
Proof.
  unfold cosh, sinh. replace (2 * e) with (e + e) by ring. replace (- (e + e)) with (- e + - e) by ring. rewrite !exp_plus, !exp_Ropp. pose proof (exp_pos e). field. lra.
Qed.
(** 0 <= 1/e^2 - 1/sinh^2 e <= 1/3 *)
Lemma lang_deriv e : 0 < e -> 0 <= 1 / (e * e) - 1 / (sinh e * sinh e) <= 1 / 3.
Proof.
  intros He. pose proof (sinh_ge e ltac:(lra)) as S. set (s := sinh e) in *.
  pose proof (lang_slope (2 * e) ltac:(lra)) as L. rewrite cosh_double in L. fold s in L.
  assert (P : 0 < e * e) by nra. assert (Q : 0 < s * s) by nra. assert (PQ : e * e <= s * s) by nra. split.
  - assert (1 / (s * s) <= 1 / (e * e)); [|lra]. unfold Rdiv. rewrite !Rmult_1_l. apply Rinv_le_contravar; lra.
  - apply (Rmult_le_reg_r ((e * e) * (s * s))); [nra|].
    replace ((1 / (e * e) - 1 / (s * s)) * (e * e * (s * s))) with (s * s - e * e) by (field; lra). nra.
Qed.

(** ** Dielectric *)
Section Diel.
  Variables (linear : bool) (alpha X NT : R).
  Hypothesis Ha : 0 <= alpha < 3.
  Notation frac e := (fst (calcFunctions linear e)).
  Notation xe := (x_from_eps linear alpha).
  Lemma frac_bounds e : 0 < e -> 0 <= frac e <= 1/3.
  Proof.
    intros He. unfold calcFunctions. destruct linear; [cbn [fst]; lra|].
    destruct (Rlt_dec e (1/10)) as [L|L]; cbn [fst].
    - assert (0 <= e * e <= 1/100) by nra. set (q := e * e) in *.
      assert (A : 0 <= 2/945 + q * (-1/4725) <= 2/945) by lra. set (a := 2/945 + q * (-1/4725)) in *.
      assert (B : -1/45 <= -1/45 + q * a <= 0) by (split; nra). set (b := -1/45 + q * a) in *. split; nra.
    - pose proof (xcosh_ge e ltac:(lra)). pose proof (lang_le e ltac:(lra)). pose proof (sinh_ge e ltac:(lra)). pose proof (cosh_ge1 e).
      assert (P : 0 < e * e * sinh e) by nra.
      replace ((e / tanh e - 1) / (e * e)) with ((e * cosh e - sinh e) / (e * e * sinh e)) by (unfold tanh; field; repeat split; lra).
      split.
      + apply Rmult_le_pos; [lra|left; apply Rinv_0_lt_compat; lra].
      + apply (Rmult_le_reg_r (e * e * sinh e)); [lra|]. replace ((e * cosh e - sinh e) / (e * e * sinh e) * (e * e * sinh e)) with (e * cosh e - sinh e) by (field; split; lra). lra.
  Qed.
  Lemma xe_bounds e : 0 < e -> e * (1 - alpha / 3) <= xe e <= e.
  Proof.
    intros He. pose proof (frac_bounds e He). unfold x_from_eps. set (f := frac e) in *.
    assert (0 <= alpha * f <= alpha / 3) by (split; nra). split; nra.
  Qed.
  Lemma pow_grow K : exists k, K <= 1.05 ^ k.
  Proof.
    destruct (Pow_x_infinity 1.05 ltac:(rewrite Rabs_pos_eq; lra) K) as [N HN]. exists N. specialize (HN N (le_n _)). rewrite Rabs_pos_eq in HN by (apply pow_le; lra). lra.
  Qed.
  Lemma eps_correct x : 0 < x -> exists N eps lo hi, (forall n, (N <= n)%nat -> eps_from_x linear alpha n x = Some eps) /\
    0 < lo /\ lo <= eps <= hi /\ xe lo <= x <= xe hi /\ hi - lo <= (1.05 * x / (1 - alpha / 3)) * / 10 ^ 13.
  Proof.
    intros Hx. destruct (while_term (fun e => ltb x (xe e)) (fun e => e * 0.95) 0 x) as (N1 & lo & HN1).
    { cbn. apply ltb_f. apply xe_bounds. exact Hx. }
    assert (L0 : lo = x).
    { specialize (HN1 (S N1) ltac:(lia)). cbn in HN1. destruct (ltb x (xe x)) eqn:E; [|injection HN1; auto]. apply ltb_t in E. pose proof (xe_bounds x Hx). lra. }
    subst lo. destruct (pow_grow (/ (1 - alpha / 3))) as [k Hk].
    assert (IT : forall k, Nat.iter k (fun e => e * 1.05) x = x * 1.05 ^ k).
    { intros j. induction j as [|j IH]; [cbn; ring|]. change (Nat.iter (S j) (fun e => e * 1.05) x) with (Nat.iter j (fun e => e * 1.05) x * 1.05). rewrite IH. cbn [pow]. ring. }
    destruct (while_term (fun e => ltb (xe e) x) (fun e => e * 1.05) k x) as (N2 & hi & HN2).
    { rewrite IT. apply ltb_f. assert (P : 0 < 1.05 ^ k) by (apply pow_lt; lra). pose proof (xe_bounds (x * 1.05 ^ k) ltac:(nra)) as [B _].
      apply Rle_trans with (2 := B). assert (1 <= 1.05 ^ k * (1 - alpha / 3)); [|nra].
      apply (Rmult_le_compat_r (1 - alpha / 3)) in Hk; [|lra]. rewrite Rinv_l in Hk by lra. lra. }
    assert (L3 : x <= hi /\ hi <= 1.05 * x / (1 - alpha / 3)).
    { assert (ST : forall a, (x <= a /\ a <= 1.05 * x / (1 - alpha / 3)) -> ltb (xe a) x = true -> x <= a * 1.05 /\ a * 1.05 <= 1.05 * x / (1 - alpha / 3)).
      { intros a [P _] L. apply ltb_t in L. pose proof (xe_bounds a ltac:(lra)) as [B _]. split; [lra|].
        apply (Rmult_le_reg_r (1 - alpha / 3)); [lra|]. replace (1.05 * x / (1 - alpha / 3) * (1 - alpha / 3)) with (1.05 * x) by (field; lra). nra. }
      assert (S0 : x <= x /\ x <= 1.05 * x / (1 - alpha / 3)).
      { split; [lra|]. apply (Rmult_le_reg_r (1 - alpha / 3)); [lra|]. replace (1.05 * x / (1 - alpha / 3) * (1 - alpha / 3)) with (1.05 * x) by (field; lra). nra. }
      exact (while_inv (fun e => x <= e /\ e <= 1.05 * x / (1 - alpha / 3)) N2 _ _ _ _ ST S0 (HN2 N2 (le_n _))). }
    assert (L4 : x <= xe hi). { pose proof (while_done _ _ _ _ _ (HN2 N2 (le_n _))) as D. apply ltb_f in D. exact D. }
    assert (T13 : 0 < / 10 ^ 13) by (apply Rinv_0_lt_compat, pow_lt; lra).
    pose proof (xe_bounds x Hx) as BX.
    destruct (bisect_correct xe x (0.5 * (hi + x) * / 10 ^ 13) x hi) as (N3 & lo' & hi' & m & HN3 & B1 & B2 & B3 & B4 & B5 & B6); [nra|lra|lra|].
    exists (Nat.max N1 (Nat.max N2 N3)), m, lo', hi'. split.
    { intros n Hn. unfold eps_from_x. destruct (Req_EM_T x 0); [lra|]. rewrite HN1, HN2 by lia. cbv zeta. rewrite HN3 by lia. reflexivity. }
    assert (W : hi' - lo' <= 1.05 * x / (1 - alpha / 3) * / 10 ^ 13) by (apply Rle_trans with (1 := B6); apply Rmult_le_compat_r; lra).
    repeat split; try lra; exact W.
  Qed.
  (** the branches of calcFunctions, and the polarization eps*frac as derivative of logsinch *)
  Lemma cf_exact e : linear = false -> 1/10 < e < 20 ->
    locally e (fun e => calcFunctions linear e = ((e / tanh e - 1) / (e * e), ln (sinh e / e))).
  Proof.
    intros HL He. apply (filter_imp (fun y => 1/10 < y < 20)); [|apply near; exact He]. intros y Hy. unfold calcFunctions. rewrite HL.
    destruct (Rlt_dec y (1/10)); [lra|]. destruct (Rlt_dec y 20); [reflexivity|lra].
  Qed.
  Definition good e := linear = true \/ 1/10 < e < 20.
  Lemma pol_derive e : 0 < e -> good e -> exists p', is_derive (fun e : R => e * frac e) e p' /\ p' <= 1/3 /\ 0 <= p' /\
    is_derive (fun e : R => snd (calcFunctions linear e)) e (e * frac e).
  Proof.
    intros He [HL|HL].
    - exists (1/3). unfold calcFunctions. rewrite HL. cbn [fst snd]. refine (conj _ (conj _ (conj _ _))); try lra; auto_derive; auto; lra.
    - destruct (bool_dec linear true) as [E|E].
      { exists (1/3). unfold calcFunctions. rewrite E. cbn [fst snd]. refine (conj _ (conj _ (conj _ _))); try lra; auto_derive; auto; lra. }
      apply not_true_is_false in E. pose proof (cf_exact e E HL) as LC.
      pose proof (sinh_ge e ltac:(lra)) as SG. pose proof (cosh_ge1 e) as CG. pose proof (lang_deriv e He) as LD.
      assert (CS : cosh e * cosh e = 1 + sinh e * sinh e).
      { unfold cosh, sinh. rewrite exp_Ropp. pose proof (exp_pos e). field. lra. }
      exists (1 / (e * e) - 1 / (sinh e * sinh e)). split; [|split; [lra|split; [lra|]]].
      + apply (is_derive_ext_loc (fun e : R => cosh e / sinh e - 1 / e)).
        { generalize (filter_and _ _ LC (near 0 (e + 1) e ltac:(lra))). apply filter_imp. intros y [Hy Py]. rewrite Hy. cbn [fst].
          pose proof (sinh_ge y ltac:(lra)). pose proof (cosh_ge1 y). unfold tanh. req. field. repeat split; lra. }
        evar_last. apply (is_derive_minus (V := R_NormedModule)).
        * apply (is_derive_div cosh sinh); [apply dcosh|apply dsinh|lra].
        * instantiate (1 := - (1 / (e * e))). auto_derive; [lra|]. field. lra.
        * unfold minus, plus, opp; cbn. rewrite CS. field. lra.
      + assert (F0 : calcFunctions linear e = ((e / tanh e - 1) / (e * e), ln (sinh e / e))) by (apply locally_singleton in LC; exact LC).
        rewrite F0. cbn [fst].
        apply (is_derive_ext_loc (fun e : R => ln (sinh e / e))).
        { generalize LC. apply filter_imp. intros y Hy. rewrite Hy. reflexivity. }
        evar_last. apply (is_derive_comp ln (fun e : R => sinh e / e)).
        * apply is_derive_ln. apply Rdiv_lt_0_compat; lra.
        * apply (is_derive_div sinh (fun e : R => e)); [apply dsinh|apply @is_derive_id|lra].
        * unfold scal; cbn. unfold mult, one; cbn. unfold tanh. req. field. repeat split; lra.
  Qed.
  (** the free energy as a function of the field x, parametrised by eps: dA/dx = NT*(polarization + X x) *)
  Lemma diel_derive e : 0 < e -> good e -> exists x', 0 < x' /\ is_derive xe e x' /\
    is_derive (fun e : R => dielEnergy linear alpha X NT e (xe e)) e (NT * (e * frac e + X * xe e) * x').
  Proof.
    intros He HG. destruct (pol_derive e He HG) as (p' & D1 & B1 & B2 & D2).
    exists (1 - alpha * p'). split; [nra|].
    assert (DX : is_derive xe e (1 - alpha * p')).
    { apply (is_derive_ext (fun e : R => e - alpha * (e * frac e))); [intros t; unfold x_from_eps; req; ring|].
      apply (is_derive_minus (V := R_NormedModule)); [apply @is_derive_id|apply is_derive_scal; exact D1]. }
    split; [exact DX|].
    apply (is_derive_ext (fun e : R => NT * (snd (calcFunctions linear e) - 0.5 * alpha * ((e * frac e) * (e * frac e)) + 0.5 * X * (xe e * xe e)))).
    { intros t. unfold dielEnergy. destruct (calcFunctions linear t) as [f l] eqn:E. cbn [fst snd]. req. ring. }
    evar_last. apply is_derive_scal. apply (is_derive_plus (V := R_NormedModule)).
    - apply (is_derive_minus (V := R_NormedModule)); [exact D2|]. apply is_derive_scal. apply (is_derive_mult (K := R_AbsRing)); [exact D1|exact D1|apply Rmult_comm].
    - apply is_derive_scal. apply (is_derive_mult (K := R_AbsRing)); [exact DX|exact DX|apply Rmult_comm].
    - unfold minus, plus, opp, mult; cbn. rewrite half_is.
      generalize (xe e) (frac e). intros u v. req. field.
  Qed.
  (** the linear dielectric energy is exactly quadratic with the tabulated x -> 0 value *)
  Lemma diel_linear e : linear = true -> 0 < e -> dielEnergy linear alpha X NT e (xe e) / (xe e * xe e) = 0.5 * NT * (1 / (3 - alpha) + X).
  Proof.
    intros HL He. unfold dielEnergy, x_from_eps, calcFunctions. rewrite HL. cbn [fst snd]. rewrite half_is. field. repeat split; lra.
  Qed.
  (** the x -> 0 sample is the limit of the others *)
  Lemma diel_limit : linear = false -> filterlim (fun e : R => dielEnergy linear alpha X NT e (xe e) / (xe e * xe e)) (at_right 0) (locally (0.5 * NT * (1 / (3 - alpha) + X))).
  Proof.
    intros HL.
    set (fr := fun e : R => 1/3 + e * e * (-1/45 + e * e * (2/945 + e * e * (-1/4725)))).
    set (lg := fun e : R => 1/6 + e * e * (-1/180 + e * e * (1/2835))).
    set (G := fun e : R => NT * ((lg e - / 2 * alpha * (fr e * fr e)) / ((1 - alpha * fr e) * (1 - alpha * fr e)) + / 2 * X)).
    apply (filterlim_ext_loc G).
    { exists (mkposreal (1/10) ltac:(lra)). intros y Hy Py. unfold ball in Hy. cbn in Hy. unfold AbsRing_ball, abs, minus, plus, opp in Hy. cbn in Hy. apply Rabs_def2 in Hy.
      pose proof (frac_bounds y Py) as FB.
      unfold G, dielEnergy, x_from_eps, calcFunctions in *. rewrite HL in *. destruct (Rlt_dec y (1/10)); [|lra]. cbn [fst snd] in *.
      fold (fr y) in *. fold (lg y). rewrite half_is. assert (0 < 1 - alpha * fr y) by nra.
      req. field. split; lra. }
    assert (C : continuous G 0).
    { apply (ex_derive_continuous (V := R_NormedModule)). unfold G, fr, lg. auto_derive.
      replace (1 / 3 + 0 * 0 * (-1 / 45 + 0 * 0 * (2 / 945 + 0 * 0 * (-1 / 4725)))) with (1/3) by ring.
      assert (0 < 1 - alpha * (1/3)) by lra. apply Rgt_not_eq. nra. }
    assert (G0 : G 0 = 0.5 * NT * (1 / (3 - alpha) + X)). { unfold G, fr, lg. rewrite half_is. field. lra. }
    rewrite <- G0. intros P HP. destruct (C P HP) as [d Hd]. exists d. intros y Hy _. apply Hd. exact Hy.
  Qed.
End Diel.

(** outside (1/10, 20) the tabulated logsinch is not quite an antiderivative of eps*frac *)
Lemma series_mismatch e : 0 < e < 1/10 -> is_derive (fun e : R => snd (calcFunctions false e)) e (e * fst (calcFunctions false e) + e ^ 7 / 4725).
Proof.
  intros He. unfold calcFunctions. destruct (Rlt_dec e (1/10)); [|lra]. cbn [fst].
  apply (is_derive_ext_loc (fun e : R => e * e * (1/6 + e * e * (-1/180 + e * e * (1/2835))))).
  { apply (filter_imp (fun y => 0 < y < 1/10)); [|apply near; lra]. intros y Hy. destruct (Rlt_dec y (1/10)); [reflexivity|lra]. }
  auto_derive; auto. field.
Qed.
Lemma large_mismatch e : 20 < e -> is_derive (fun e : R => snd (calcFunctions false e)) e (e * fst (calcFunctions false e) - 2 / (exp (2 * e) - 1)).
Proof.
  intros He. unfold calcFunctions. destruct (Rlt_dec e (1/10)); [lra|]. cbn [fst].
  apply (is_derive_ext_loc (fun e : R => e - ln (2 * e))).
  { apply (filter_imp (fun y => 20 < y < e + 1)); [|apply near; lra]. intros y Hy. destruct (Rlt_dec y (1/10)); [lra|]. destruct (Rlt_dec y 20); [lra|reflexivity]. }
  assert (1 < exp e). { rewrite <- exp_0. apply exp_increasing. lra. }
  assert (E2 : exp (2 * e) = exp e * exp e) by (rewrite <- exp_plus; f_equal; ring). rewrite E2.
  auto_derive; [lra|]. unfold tanh, sinh, cosh. rewrite exp_Ropp. field. repeat split; nra.
Qed.
(** linear response with correlation factor alpha >= 3 (epsBulk < epsInf): the bracketing loop never ends *)
Lemma diel_diverges alpha x n : 3 <= alpha -> 0 < x -> eps_from_x true alpha n x = None.
Proof.
  intros Ha Hx. unfold eps_from_x. destruct (Req_EM_T x 0); [lra|].
  assert (XN : forall e, 0 < e -> x_from_eps true alpha e <= 0) by (intros e He; unfold x_from_eps; cbn [calcFunctions fst]; nra).
  destruct (whileF n (fun e => ltb x (x_from_eps true alpha e)) (fun e => e * 0.95) x) as [lo|] eqn:E1; [|reflexivity].
  assert (LP : 0 < lo) by (refine (while_inv (fun e => 0 < e) n _ _ _ _ _ Hx E1); intros a Pa _; lra).
  assert (W : forall k e, 0 < e -> whileF k (fun e => ltb (x_from_eps true alpha e) x) (fun e => e * 1.05) e = None).
  { induction k as [|k IH]; intros e He; cbn [whileF]; [reflexivity|].
    assert (T : ltb (x_from_eps true alpha e) x = true) by (apply ltb_t; specialize (XN e He); lra). rewrite T. apply IH. lra. }
  rewrite W by exact LP. reflexivity.
Qed.

Lemma dielectric_sample pByT g g' s v E : 0 < pByT -> v <> V 0 0 0 ->
  let x := pByT * rlen v in g (x / (1 + x)) = E / (x * x) -> fst (fst (dielectric_apply pByT g g' s v)) = s * E.
Proof.
  intros Hp NZ x Hg.
  assert (LP : 0 < rlen v).
  { apply sqrt_lt_R0. destruct v as [a b c]. unfold rlen2. v3_unfold. assert (a <> 0 \/ b <> 0 \/ c <> 0).
    { destruct (Req_dec a 0); auto. destruct (Req_dec b 0); auto. destruct (Req_dec c 0); auto. exfalso. apply NZ. subst. reflexivity. }
    assert (0 <= a * a /\ 0 <= b * b /\ 0 <= c * c) by nra. destruct H as [H|[H|H]]; assert (0 < Rsqr a \/ 0 < Rsqr b \/ 0 < Rsqr c) as Q by (auto using Rsqr_pos_lt); unfold Rsqr in Q; lra. }
  unfold dielectric_apply. cbn [fst]. fold x. assert (0 < x) by (unfold x; nra).
  replace (x * (1 / (1 + x))) with (x / (1 + x)) by (field; lra). rewrite Hg. field. lra.
Qed.
Lemma diel_mapped x : 0 <= x -> let m := x / (1 + x) in 0 <= m < 1 /\ m / (1 - m) = x.
Proof.
  intros Hx m. unfold m. split.
  - split; [apply Rmult_le_pos; [lra|left; apply Rinv_0_lt_compat; lra]|].
    apply (Rmult_lt_reg_r (1 + x)); [lra|]. replace (x / (1 + x) * (1 + x)) with x by (field; lra). lra.
  - field. lra.
Qed.
Lemma series_refuted : exists e, 0 < e < 1/10 /\ ~ is_derive (fun e : R => snd (calcFunctions false e)) e (e * fst (calcFunctions false e)).
Proof.
  exists (1/20). split; [lra|]. intros D. apply is_derive_unique in D.
  assert (S := series_mismatch (1/20) ltac:(lra)). apply is_derive_unique in S. rewrite D in S. lra.
Qed.
Lemma bisection_refuted : exists linear alpha x, 0 <= alpha /\ 0 < x /\ forall n, eps_from_x linear alpha n x = None.
Proof. exists true, 3, 1. split; [lra|]. split; [lra|]. intros n. apply diel_diverges; lra. Qed.
