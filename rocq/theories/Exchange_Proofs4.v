(** The auxiliary function. *)
From Coq Require Import ZArith Reals List Lia Lra Psatz.
From Coquelicot Require Import Coquelicot.
From Verif Require Import Base Gauss RealUtil Vec3_Model Vec3_Facts Lattice_Model Basis_Model Coulomb_Model Coulomb_Spec Coulomb_Proofs Coulomb_Proofs3 KPoints_Proofs4 Exchange_Model Exchange_Spec Exchange_Proofs.
Import ListNotations.
Local Open Scope R_scope.
Set Bullet Behavior "Strict Subproofs".

Lemma PI2_pos : 0 < PI * PI. Proof. assert (H := PI_RGT_0). nra. Qed.
Lemma sin_2PI_Z x n : sin (2 * PI * (x + IZR n)) = sin (2 * PI * x).
Proof.
  replace (2 * PI * (x + IZR n)) with (2 * (PI * (x + IZR n))) by ring. replace (2 * PI * x) with (2 * (PI * x)) by ring. rewrite !sin_2a.
  replace (PI * (x + IZR n)) with (PI * x + PI * IZR n) by ring. rewrite sin_plus, cos_plus, sin_PI_IZR.
  assert (C := sin2_cos2 (PI * IZR n)). unfold Rsqr in C. rewrite sin_PI_IZR in C. set (c := cos (PI * IZR n)) in *.
  set (s := sin (PI * x)). set (d := cos (PI * x)). replace (2 * (s * c + d * 0) * (d * c - s * 0)) with (2 * s * d * (c * c)) by ring. replace (c * c) with 1 by lra. ring.
Qed.
Lemma effGsq_periodic g n A : integer3 n -> effGsq (rvadd g n) A = effGsq g A.
Proof.
  intros (x & y & z & ->). destruct g as [a b c]. unfold effGsq. v3u. cbn [c0 c1 c2]. rewrite !sin_pi_int_sq, !sin_2PI_Z. reflexivity.
Qed.
Definition sc (x : R) : R := sin (PI * x) * cos (PI * x).
Lemma effGsq_split g A : m01 A = m10 A -> m12 A = m21 A -> m20 A = m02 A ->
  PI * PI * effGsq g A = metric2 A (V (sc (c0 g)) (sc (c1 g)) (sc (c2 g)))
    + (sin (PI * c0 g) ^ 4 * m00 A + sin (PI * c1 g) ^ 4 * m11 A + sin (PI * c2 g) ^ 4 * m22 A).
Proof.
  intros E1 E2 E3. assert (P := PI2_pos). unfold effGsq. cbv zeta.
  assert (S2 : forall x, sin (2 * PI * x) = 2 * sin (PI * x) * cos (PI * x)) by (intros x; rewrite Rmult_assoc; apply sin_2a). rewrite !S2.
  assert (S4 : forall x, sin (PI * x) * sin (PI * x) = sc x * sc x + sin (PI * x) ^ 4).
  { intros x. unfold sc. assert (C := sin2_cos2 (PI * x)). unfold Rsqr in C. set (s := sin (PI * x)) in *. set (c := cos (PI * x)) in *.
    replace (s * c * (s * c) + s ^ 4) with (s * s * (s * s + c * c)) by ring. rewrite C. ring. }
  rewrite !S4. fold (sc (c0 g)). destruct A as [a00 a01 a02 a10 a11 a12 a20 a21 a22]. cbn in E1, E2, E3. subst. unfold metric2. v3u. cbn [m00 m01 m02 m10 m11 m12 m20 m21 m22 c0 c1 c2].
  unfold sc. field. apply PI_neq0.
Qed.
Lemma gGGT_sym Rl : let A := gGGT Rl in m01 A = m10 A /\ m12 A = m21 A /\ m20 A = m02 A.
Proof. cbv zeta. unfold gGGT. generalize (gG Rl). intros G. destruct G. v3u. cbn. repeat split; ring. Qed.
Lemma metric_pos Rl k : 0 <= metric2 (gGGT Rl) k.
Proof. rewrite metric_len. generalize (rvm k (gG Rl)). intros [x y z]. v3u. cbn. nra. Qed.
Lemma gGGT_diag Rl : rdet Rl <> 0 -> 0 < m00 (gGGT Rl) /\ 0 < m11 (gGGT Rl) /\ 0 < m22 (gGGT Rl).
Proof.
  intros D. assert (K : forall v, v <> V 0 0 0 -> 0 < metric2 (gGGT Rl) v).
  { intros v N. destruct (Req_EM_T (metric2 (gGGT Rl) v) 0) as [E|E]; [exfalso; apply N|assert (P := metric_pos Rl v); lra].
    rewrite metric_len in E. assert (Z : rvm v (gG Rl) = V 0 0 0).
    { revert E. generalize (rvm v (gG Rl)). intros [x y z]. v3u. cbn. intros E. f_equal; nra. }
    assert (W : rvm (rvm v (gG Rl)) Rl = V 0 0 0) by (rewrite Z; destruct Rl; v3u; cbn; f_equal; ring).
    rewrite <- rvm_mm in W. rewrite gG_R in W by exact D. rewrite rvm_scale, rvm_id in W. assert (P := PI_RGT_0). revert W. destruct v as [x y z]. v3u. cbn. intros W. injection W as W1 W2 W3. f_equal; nra. }
  assert (H0 := K (V 1 0 0)). assert (H1 := K (V 0 1 0)). assert (H2 := K (V 0 0 1)).
  revert H0 H1 H2. unfold metric2. generalize (gGGT Rl). intros A. destruct A. v3u. cbn. intros H0 H1 H2.
  repeat split; [match type of H0 with _ -> 0 < ?x => assert (Q : 0 < x) by (apply H0; intros E; injection E; lra) end
                |match type of H1 with _ -> 0 < ?x => assert (Q : 0 < x) by (apply H1; intros E; injection E; lra) end
                |match type of H2 with _ -> 0 < ?x => assert (Q : 0 < x) by (apply H2; intros E; injection E; lra) end]; lra.
Qed.
Lemma sin_zero_int x : sin (PI * x) = 0 -> exists n : Z, x = IZR n.
Proof. intros E. destruct (sin_eq_0_0 _ E) as [n H]. exists n. assert (P := PI_RGT_0). nra. Qed.
Lemma pow4_nn x : 0 <= x ^ 4. Proof. replace (x ^ 4) with ((x * x) * (x * x)) by ring. apply Rle_0_sqr. Qed.
Lemma effGsq_nonneg Rl g : rdet Rl <> 0 -> 0 <= effGsq g (gGGT Rl).
Proof.
  intros D. destruct (gGGT_sym Rl) as (A & B & C). assert (E := effGsq_split g (gGGT Rl) A B C). destruct (gGGT_diag Rl D) as (P0 & P1 & P2).
  assert (M := metric_pos Rl (V (sc (c0 g)) (sc (c1 g)) (sc (c2 g)))). assert (P := PI2_pos).
  assert (Q : 0 <= PI * PI * effGsq g (gGGT Rl)).
  { rewrite E. assert (Q0 := pow4_nn (sin (PI * c0 g))). assert (Q1 := pow4_nn (sin (PI * c1 g))). assert (Q2 := pow4_nn (sin (PI * c2 g))).
    assert (0 <= sin (PI * c0 g) ^ 4 * m00 (gGGT Rl)) by (apply Rmult_le_pos; lra). assert (0 <= sin (PI * c1 g) ^ 4 * m11 (gGGT Rl)) by (apply Rmult_le_pos; lra). assert (0 <= sin (PI * c2 g) ^ 4 * m22 (gGGT Rl)) by (apply Rmult_le_pos; lra). lra. }
  apply (Rmult_le_reg_l (PI * PI)); [exact P|]. lra.
Qed.
Lemma effGsq_zero Rl g : rdet Rl <> 0 -> effGsq g (gGGT Rl) = 0 <-> integer3 g.
Proof.
  intros D. split.
  - intros Z. destruct (gGGT_sym Rl) as (A & B & C). assert (E := effGsq_split g (gGGT Rl) A B C). destruct (gGGT_diag Rl D) as (P0 & P1 & P2).
    assert (M := metric_pos Rl (V (sc (c0 g)) (sc (c1 g)) (sc (c2 g)))). rewrite Z, Rmult_0_r in E.
    assert (Q0 := pow4_nn (sin (PI * c0 g))). assert (Q1 := pow4_nn (sin (PI * c1 g))). assert (Q2 := pow4_nn (sin (PI * c2 g))).
    assert (R0 : 0 <= sin (PI * c0 g) ^ 4 * m00 (gGGT Rl)) by (apply Rmult_le_pos; lra). assert (R1 : 0 <= sin (PI * c1 g) ^ 4 * m11 (gGGT Rl)) by (apply Rmult_le_pos; lra). assert (R2 : 0 <= sin (PI * c2 g) ^ 4 * m22 (gGGT Rl)) by (apply Rmult_le_pos; lra).
    assert (F : forall s a, 0 < a -> s ^ 4 * a = 0 -> s = 0).
    { intros s a Pa H. apply Rmult_integral in H. destruct H as [H|H]; [|lra]. replace (s ^ 4) with ((s * s) * (s * s)) in H by ring. assert (s * s = 0) by nra. nra. }
    destruct (sin_zero_int (c0 g)) as [x X]; [apply (F _ (m00 (gGGT Rl))); lra|]. destruct (sin_zero_int (c1 g)) as [y Y]; [apply (F _ (m11 (gGGT Rl))); lra|]. destruct (sin_zero_int (c2 g)) as [z Zz]; [apply (F _ (m22 (gGGT Rl))); lra|].
    exists x, y, z. destruct g; cbn in *; subst; reflexivity.
  - intros I. replace g with (rvadd (V 0 0 0) g) by (destruct g; v3u; cbn; f_equal; ring). rewrite effGsq_periodic by exact I. unfold effGsq. cbn [c0 c1 c2]. rewrite !Rmult_0_r, sin_0. ring.
Qed.

(** near zero *)
Lemma sin_quot a : is_lim (fun t => sin (a * t) / t) 0 a.
Proof.
  assert (D : is_derive (fun t => sin (a * t)) 0 a) by (auto_derive; [exact Logic.I|rewrite Rmult_0_r, cos_0; ring]).
  apply is_derive_Reals in D. apply is_lim_spec. intros eps. destruct (D eps (cond_pos eps)) as [d H].
  exists d. intros t B N. cbn in B. specialize (H t). assert (B' : Rabs t < d).
  { change (Rabs (t + - 0) < d) in B. rewrite Ropp_0, Rplus_0_r in B. exact B. }
  specialize (H N B'). rewrite Rplus_0_l, Rmult_0_r, sin_0, Rminus_0_r in H. exact H.
Qed.
Lemma is_lim_mult_R f g (a b : R) : is_lim f 0 a -> is_lim g 0 b -> is_lim (fun t => f t * g t) 0 (a * b).
Proof. intros Hf Hg. apply (is_lim_mult f g 0 a b); auto. exact Logic.I. Qed.
Lemma is_lim_plus_R f g (a b : R) : is_lim f 0 a -> is_lim g 0 b -> is_lim (fun t => f t + g t) 0 (a + b).
Proof. intros Hf Hg. apply (is_lim_plus f g 0 a b); auto. reflexivity. Qed.
Lemma is_lim_scal_R f (k a : R) : is_lim f 0 a -> is_lim (fun t => k * f t) 0 (k * a).
Proof. intros Hf. apply (is_lim_scal_l f k 0 a Hf). Qed.
Lemma effGsq_limit g A : m01 A = m10 A -> m12 A = m21 A -> m20 A = m02 A -> is_lim (fun t => effGsq (rvscale t g) A / (t * t)) 0 (metric2 A g).
Proof.
  intros E1 E2 E3. assert (P := PI2_pos). destruct g as [x y z]. set (s := fun x t => sin (PI * x * t) / t). set (d := fun x t => sin (2 * PI * x * t) / t).
  assert (L : is_lim (fun t => 1 / (PI * PI) * (s x t * s x t * m00 A + s y t * s y t * m11 A + s z t * s z t * m22 A + 1/2 * (d x t * d y t * m01 A + d y t * d z t * m12 A + d z t * d x t * m20 A))) 0
    (1 / (PI * PI) * ((PI * x) * (PI * x) * m00 A + (PI * y) * (PI * y) * m11 A + (PI * z) * (PI * z) * m22 A + 1/2 * ((2 * PI * x) * (2 * PI * y) * m01 A + (2 * PI * y) * (2 * PI * z) * m12 A + (2 * PI * z) * (2 * PI * x) * m20 A)))).
  { assert (Ls : forall x, is_lim (s x) 0 (PI * x)) by (intros u; apply sin_quot). assert (Ld : forall x, is_lim (d x) 0 (2 * PI * x)) by (intros u; apply sin_quot).
    assert (Lc : forall k : R, is_lim (fun _ => k) 0 k) by (intros k; apply is_lim_const).
    assert (Lm : forall u v (k : R), is_lim (fun t => s u t * s v t * k) 0 (PI * u * (PI * v) * k)) by (intros u v k; apply is_lim_mult_R; [apply is_lim_mult_R; apply Ls|apply Lc]).
    assert (Ln : forall u v (k : R), is_lim (fun t => d u t * d v t * k) 0 (2 * PI * u * (2 * PI * v) * k)) by (intros u v k; apply is_lim_mult_R; [apply is_lim_mult_R; apply Ld|apply Lc]).
    apply is_lim_scal_R. apply is_lim_plus_R; [apply is_lim_plus_R; [apply is_lim_plus_R|]|apply is_lim_scal_R; apply is_lim_plus_R; [apply is_lim_plus_R|]]; first [apply Lm|apply Ln]. }
  assert (Eq : metric2 A (V x y z) = 1 / (PI * PI) * ((PI * x) * (PI * x) * m00 A + (PI * y) * (PI * y) * m11 A + (PI * z) * (PI * z) * m22 A + 1/2 * ((2 * PI * x) * (2 * PI * y) * m01 A + (2 * PI * y) * (2 * PI * z) * m12 A + (2 * PI * z) * (2 * PI * x) * m20 A))).
  { unfold metric2. destruct A as [a00 a01 a02 a10 a11 a12 a20 a21 a22]. cbn in E1, E2, E3. subst. v3u. cbn. field. apply PI_neq0. }
  rewrite Eq. refine (is_lim_ext_loc _ _ _ _ _ L).
  exists (mkposreal 1 Rlt_0_1). intros t _ N. unfold effGsq, s, d. cbv zeta.
  assert (Ec : c0 (rvscale t (V x y z)) = x * t /\ c1 (rvscale t (V x y z)) = y * t /\ c2 (rvscale t (V x y z)) = z * t) by (v3u; cbn; repeat split; ring).
  destruct Ec as (-> & -> & ->). rewrite <- !Rmult_assoc. rewrite (Rmult_assoc 2 PI x), (Rmult_assoc 2 PI y), (Rmult_assoc 2 PI z).
  field. split; [apply PI_neq0|exact N].
Qed.

(** exponential bounds *)
Lemma from_derive (f f' : R -> R) : (forall x, is_derive f x (f' x)) -> (forall x, 0 <= x -> 0 <= f' x) -> f 0 = 0 -> forall x, 0 <= x -> 0 <= f x.
Proof.
  intros D P Z x X. destruct (Req_EM_T x 0) as [->|N]; [lra|].
  destruct (MVT_gen f 0 x f') as (c & [C1 C2] & E).
  - intros y _. apply D.
  - intros y _. apply continuity_pt_filterlim. apply (ex_derive_continuous (K := R_AbsRing) (V := R_NormedModule)). eexists; apply D.
  - rewrite Rmin_left in C1 by lra. specialize (P c C1). rewrite Z in E. assert (0 <= f' c * (x - 0)) by (apply Rmult_le_pos; lra). lra.
Qed.
Lemma exp_up1 u : 0 <= u -> exp (- u) <= 1. Proof. intros U. rewrite <- exp_0. destruct (Req_EM_T u 0) as [->|N]; [rewrite Ropp_0; lra|]. left. apply exp_increasing. lra. Qed.
Lemma exp_lo2 u : 1 - u <= exp (- u).
Proof. destruct (Req_EM_T u 0) as [->|N]; [rewrite Ropp_0, exp_0; lra|]. assert (H := exp_ineq1 (- u)). lra. Qed.
Lemma exp_up3 u : 0 <= u -> exp (- u) <= 1 - u + u * u / 2.
Proof.
  intros U. assert (H := from_derive (fun u => 1 - u + u * u / 2 - exp (- u)) (fun u => - 1 + u + exp (- u))). cbv beta in H.
  assert (Q : 0 <= 1 - u + u * u / 2 - exp (- u)); [|lra]. apply H; auto.
  - intros x. auto_derive; [exact Logic.I|field].
  - intros x _. assert (E := exp_lo2 x). lra.
  - rewrite Ropp_0, exp_0. lra.
Qed.
Lemma exp_lo4 u : 0 <= u -> 1 - u + u * u / 2 - u * u * u / 6 <= exp (- u).
Proof.
  intros U. assert (H := from_derive (fun u => exp (- u) - (1 - u + u * u / 2 - u * u * u / 6)) (fun u => 1 - u + u * u / 2 - exp (- u))). cbv beta in H.
  assert (Q : 0 <= exp (- u) - (1 - u + u * u / 2 - u * u * u / 6)); [|lra]. apply H; auto.
  - intros x. auto_derive; [exact Logic.I|field].
  - intros x X. assert (E := exp_up3 x X). lra.
  - rewrite Ropp_0, exp_0. lra.
Qed.
Lemma gint_up x : 0 <= x -> gint x <= x - x ^ 3 / 3 + x ^ 5 / 10.
Proof.
  intros X. assert (H := from_derive (fun x => x - x ^ 3 / 3 + x ^ 5 / 10 - gint x) (fun x => 1 - x * x + (x * x) * (x * x) / 2 - gauss x)). cbv beta in H.
  assert (Q : 0 <= x - x ^ 3 / 3 + x ^ 5 / 10 - gint x); [|lra]. apply H; auto.
  - intros y. apply (is_derive_minus (V := R_NormedModule) (fun x => x - x ^ 3 / 3 + x ^ 5 / 10) gint); [|apply is_derive_gint]. auto_derive; [exact Logic.I|cbn; field].
  - intros y Y. unfold gauss. assert (E := exp_up3 (y * y)). assert (0 <= y * y) by nra. specialize (E H0). lra.
  - rewrite gint_0. lra.
Qed.
Lemma gint_lo x : 0 <= x -> x - x ^ 3 / 3 + x ^ 5 / 10 - x ^ 7 / 42 <= gint x.
Proof.
  intros X. assert (H := from_derive (fun x => gint x - (x - x ^ 3 / 3 + x ^ 5 / 10 - x ^ 7 / 42)) (fun x => gauss x - (1 - x * x + (x * x) * (x * x) / 2 - (x * x) * (x * x) * (x * x) / 6))). cbv beta in H.
  assert (Q : 0 <= gint x - (x - x ^ 3 / 3 + x ^ 5 / 10 - x ^ 7 / 42)); [|lra]. apply H; auto.
  - intros y. apply (is_derive_minus (V := R_NormedModule) gint (fun x => x - x ^ 3 / 3 + x ^ 5 / 10 - x ^ 7 / 42)); [apply is_derive_gint|]. auto_derive; [exact Logic.I|cbn; field].
  - intros y Y. unfold gauss. assert (E := exp_lo4 (y * y)). assert (0 <= y * y) by nra. specialize (E H0). lra.
  - rewrite gint_0. lra.
Qed.
Lemma sqrtPI_gt : 1 < sqrt PI.
Proof. rewrite <- sqrt_1 at 1. apply sqrt_lt_1; assert (H := PI2_3_2); lra. Qed.
Lemma series_pos x : 0 < x -> let s := (1 / sqrt PI) * (2 + x * x * (- (2/3) + (1/5) * (x * x))) in 0 <= s - erf x / x <= (2 / sqrt PI) * (x ^ 6 / 42).
Proof.
  intros X s. assert (U := gint_up x (Rlt_le _ _ X)). assert (Lo := gint_lo x (Rlt_le _ _ X)). assert (Q := sqrtPI_gt).
  assert (E : s - erf x / x = (2 / sqrt PI) * ((x - x ^ 3 / 3 + x ^ 5 / 10 - gint x) / x)) by (unfold s, erf; field; lra). rewrite E.
  assert (K : 0 < 2 / sqrt PI) by (apply Rdiv_lt_0_compat; lra). split.
  - apply Rmult_le_pos; [lra|]. apply Rmult_le_pos; [lra|left; apply Rinv_0_lt_compat; exact X].
  - apply Rmult_le_compat_l; [lra|]. apply (Rmult_le_reg_r x); [exact X|]. replace ((x - x ^ 3 / 3 + x ^ 5 / 10 - gint x) / x * x) with (x - x ^ 3 / 3 + x ^ 5 / 10 - gint x) by (field; lra).
    replace (x ^ 6 / 42 * x) with (x ^ 7 / 42) by field. lra.
Qed.
Lemma erf_by_x_close x : x <> 0 -> Rabs (erf_by_x x - erf x / x) <= / 10 ^ 19.
Proof.
  intros N. unfold erf_by_x. cbv zeta. destruct (Rlt_dec (x * x) (1 / 1000000)) as [L|L]; [|replace (erf x / x - erf x / x) with 0 by ring; rewrite Rabs_R0; left; apply Rinv_0_lt_compat; apply pow_lt; lra].
  assert (Q := sqrtPI_gt).
  assert (W : forall y, 0 < y -> y * y < 1 / 1000000 -> Rabs (1 / sqrt PI * (2 + y * y * (- (2 / 3) + 1 / 5 * (y * y))) - erf y / y) <= / 10 ^ 19).
  { intros y Y Ly. destruct (series_pos y Y) as [A B]. rewrite Rabs_right by lra. eapply Rle_trans; [exact B|].
    assert (K : 2 / sqrt PI <= 2) by (apply (Rmult_le_reg_r (sqrt PI)); [lra|]; replace (2 / sqrt PI * sqrt PI) with 2 by (field; lra); lra).
    assert (Y6 : y ^ 6 <= 1 / 1000000 * (1 / 1000000) * (1 / 1000000)).
    { replace (y ^ 6) with ((y * y) * (y * y) * (y * y)) by ring. assert (0 <= y * y) by nra. apply Rmult_le_compat; try lra; [apply Rmult_le_pos; lra|apply Rmult_le_compat; lra]. }
    assert (Y0 : 0 <= y ^ 6) by (apply pow_le; lra).
    apply Rle_trans with (2 * (y ^ 6 / 42)); [apply Rmult_le_compat_r; lra|]. lra. }
  destruct (Rlt_or_le 0 x) as [P|P]; [apply W; auto|].
  assert (P' : 0 < - x) by lra. assert (H := W (- x) P'). assert (E : (- x) * (- x) = x * x) by ring. rewrite E in H. specialize (H L).
  rewrite erf_odd in H. replace (- erf x / - x) with (erf x / x) in H by (field; lra). exact H.
Qed.
Lemma erf_by_x_derive x : 1 / 1000000 < x * x -> is_derive erf_by_x x (x * erf_by_xPrime_by_x x).
Proof.
  intros L. assert (N : x <> 0) by (intros ->; lra). unfold erf_by_xPrime_by_x. cbv zeta. destruct (Rlt_dec (x * x) (1 / 1000000)) as [A|_]; [lra|].
  apply (is_derive_ext_loc (fun y => erf y / y)).
  { assert (C : continuous (fun y => y * y) x) by (apply (ex_derive_continuous (K := R_AbsRing) (V := R_NormedModule)); auto_derive; exact Logic.I).
    assert (O : locally (x * x) (fun v => 1 / 1000000 < v)) by (apply open_gt; exact L).
    assert (W : locally x (fun y => 1 / 1000000 < y * y)) by exact (C _ O). revert W. apply filter_imp. intros y H. unfold erf_by_x. cbv zeta. destruct (Rlt_dec (y * y) (1 / 1000000)) as [B|_]; [lra|reflexivity]. }
  evar_last; [apply (is_derive_div erf (fun y => y) x); [apply is_derive_erf|apply (is_derive_id (K := R_AbsRing))|exact N]|].
  cbv beta. unfold gauss. unfold one; cbn. assert (Q := sqrtPI_gt). field. split; lra.
Qed.
(** the series parts are derivatives of each other *)
Lemma erf_series_derive x : x * x < 1 / 1000000 -> is_derive erf_by_x x (x * erf_by_xPrime_by_x x).
Proof.
  intros L.
  unfold erf_by_xPrime_by_x. cbv zeta. destruct (Rlt_dec (x * x) (1 / 1000000)) as [_|A]; [|lra].
  apply (is_derive_ext_loc (fun y => (1 / sqrt PI) * (2 + y * y * (- (2/3) + (1/5) * (y * y))))).
  { assert (C : continuous (fun y => y * y) x) by (apply (ex_derive_continuous (K := R_AbsRing) (V := R_NormedModule)); auto_derive; exact Logic.I).
    assert (O : locally (x * x) (fun v => v < 1 / 1000000)) by (apply open_lt; exact L).
    assert (W : locally x (fun y => y * y < 1 / 1000000)) by exact (C _ O). revert W. apply filter_imp. intros y H. unfold erf_by_x. cbv zeta. destruct (Rlt_dec (y * y) (1 / 1000000)) as [_|B]; [reflexivity|lra]. }
  auto_derive; [exact Logic.I|]. assert (Q := sqrtPI_gt). field. lra.
Qed.
