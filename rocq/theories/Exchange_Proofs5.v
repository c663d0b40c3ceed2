(** Singular functions, mesh sum, strain basis. *)
From Coq Require Import ZArith Reals List Lia Lra Psatz.
From Coquelicot Require Import Coquelicot.
From Verif Require Import Base Gauss RealUtil Vec3_Model Vec3_Facts Lattice_Model Basis_Model Coulomb_Model Coulomb_Spec Coulomb_Proofs Coulomb_Proofs3 Exchange_Model Exchange_Spec Exchange_Proofs Exchange_Proofs4.
Import ListNotations.
Local Open Scope R_scope.
Set Bullet Behavior "Strict Subproofs".

Lemma fSingular3D_periodic g n A w : integer3 n -> fSingular3D (rvadd g n) A w = fSingular3D g A w.
Proof. intros H. unfold fSingular3D. rewrite effGsq_periodic by exact H. reflexivity. Qed.
Lemma fSingular2D_periodic g n A w : integer3 n -> fSingular2D (rvadd g n) A w = fSingular2D g A w.
Proof. intros H. unfold fSingular2D. rewrite effGsq_periodic by exact H. reflexivity. Qed.
(** screened values *)
Lemma screened_val (x w : R) : 0 < w -> 0 < x -> let f := (1 - exp (- (1/4) * x / w)) * (4 * PI) / x in PI / w - PI * x / (8 * w * w) <= f <= PI / w.
Proof.
  intros W X f. assert (P := PI_RGT_0). set (u := 1/4 * x / w). assert (U : 0 <= u) by (unfold u; apply Rmult_le_pos; [lra|left; apply Rinv_0_lt_compat; exact W]).
  assert (E1 := exp_lo2 u). assert (E2 := exp_up3 u U). assert (Eu : - (1/4) * x / w = - u) by (unfold u; field; lra).
  assert (Fe : f = (1 - exp (- u)) * (4 * PI / x)) by (unfold f; rewrite Eu; generalize (exp (- u)); intros e; field; lra). rewrite Fe.
  assert (K : 0 < 4 * PI / x) by (apply Rdiv_lt_0_compat; lra). split.
  - replace (PI / w - PI * x / (8 * w * w)) with ((u - u * u / 2) * (4 * PI / x)) by (unfold u; field; lra). apply Rmult_le_compat_r; lra.
  - replace (PI / w) with (u * (4 * PI / x)) by (unfold u; field; lra). apply Rmult_le_compat_r; lra.
Qed.
Lemma fSingular3D_screened Rl g w : rdet Rl <> 0 -> 0 < w ->
  PI / w - PI * effGsq g (gGGT Rl) / (8 * w * w) <= fSingular3D g (gGGT Rl) w <= PI / w /\ (integer3 g -> fSingular3D g (gGGT Rl) w = PI / w) /\ 0 < fSingular3D g (gGGT Rl) w.
Proof.
  intros D W. assert (N := effGsq_nonneg Rl g D). assert (P := PI_RGT_0). unfold fSingular3D. cbv zeta. destruct (Req_EM_T w 0) as [E|_]; [lra|].
  assert (PW : 0 < PI / w) by (apply Rdiv_lt_0_compat; lra).
  destruct (Req_EM_T (effGsq g (gGGT Rl)) 0) as [E|E].
  - rewrite E. repeat split; try lra.
  - assert (S := screened_val (effGsq g (gGGT Rl)) w W). cbv zeta in S. split; [apply S; lra|split].
    + intros I. exfalso. apply E. apply effGsq_zero; auto.
    + apply Rdiv_lt_0_compat; [|lra]. apply Rmult_lt_0_compat; [|lra]. assert (exp (- (1/4) * effGsq g (gGGT Rl) / w) < 1); [|lra]. apply Rlt_le_trans with (exp 0); [apply exp_increasing|rewrite exp_0; lra].
      assert (0 < effGsq g (gGGT Rl) / w) by (apply Rdiv_lt_0_compat; lra). replace (- (1/4) * effGsq g (gGGT Rl) / w) with (- (1/4) * (effGsq g (gGGT Rl) / w)) by (field; lra). lra.
Qed.
Lemma fSingular3D_unscreened Rl g : rdet Rl <> 0 -> ~ integer3 g -> fSingular3D g (gGGT Rl) 0 * effGsq g (gGGT Rl) = 4 * PI /\ 0 < fSingular3D g (gGGT Rl) 0.
Proof.
  intros D I. assert (N := effGsq_nonneg Rl g D). assert (P := PI_RGT_0). unfold fSingular3D. cbv zeta. destruct (Req_EM_T 0 0) as [_|E]; [|lra].
  destruct (Req_EM_T (effGsq g (gGGT Rl)) 0) as [E|E]; [exfalso; apply I; apply (effGsq_zero Rl); auto|]. split; [field; exact E|]. apply Rdiv_lt_0_compat; lra.
Qed.
(** near the origin the unscreened function is 4 pi / G^2 *)
Lemma fSingular3D_limit Rl g : rdet Rl <> 0 -> g <> V 0 0 0 -> is_lim (fun t => (t * t) * fSingular3D (rvscale t g) (gGGT Rl) 0) 0 (4 * PI / metric2 (gGGT Rl) g).
Proof.
  intros D N. destruct (gGGT_sym Rl) as (A & B & C). assert (L := effGsq_limit g (gGGT Rl) A B C).
  assert (M : metric2 (gGGT Rl) g <> 0).
  { intros E. apply N. rewrite metric_len in E. assert (Z : rvm g (gG Rl) = V 0 0 0).
    { revert E. generalize (rvm g (gG Rl)). intros [x y z]. v3u. cbn. intros E. f_equal; nra. }
    assert (W : rvm (rvm g (gG Rl)) Rl = V 0 0 0) by (rewrite Z; destruct Rl; v3u; cbn; f_equal; ring).
    rewrite <- rvm_mm in W. rewrite gG_R in W by exact D. rewrite rvm_scale, rvm_id in W. assert (P := PI_RGT_0). revert W. destruct g as [x y z]. v3u. cbn. intros W. injection W as W1 W2 W3. f_equal; nra. }
  assert (L2 : is_lim (fun t => / (effGsq (rvscale t g) (gGGT Rl) / (t * t))) 0 (/ metric2 (gGGT Rl) g)).
  { apply (is_lim_inv _ 0 (metric2 (gGGT Rl) g) L). intros E. injection E. exact M. }
  assert (L3 := is_lim_scal_R _ (4 * PI) _ L2).
  refine (is_lim_ext_loc _ _ _ _ _ L3).
  assert (Q : Rbar_locally' 0 (fun t => effGsq (rvscale t g) (gGGT Rl) / (t * t) <> 0)).
  { apply is_lim_spec in L. assert (Pm : 0 < Rabs (metric2 (gGGT Rl) g)) by (apply Rabs_pos_lt; exact M). generalize (L (mkposreal _ Pm)). apply filter_imp. intros t H E. rewrite E in H. cbn in H. rewrite Rminus_0_l, Rabs_Ropp in H. lra. }
  destruct Q as [d Q]. exists d. intros t Bt Nt. specialize (Q t Bt Nt).
  unfold fSingular3D. cbv zeta. destruct (Req_EM_T 0 0) as [_|E]; [|lra]. destruct (Req_EM_T (effGsq (rvscale t g) (gGGT Rl)) 0) as [E|E]; [exfalso; apply Q; rewrite E; unfold Rdiv; ring|].
  field. split; auto.
Qed.
(** at the origin *)
Lemma erf_by_x_0 : erf_by_x 0 = 2 / sqrt PI.
Proof. unfold erf_by_x. cbv zeta. destruct (Rlt_dec (0 * 0) (1/1000000)) as [_|A]; [|lra]. assert (Q := sqrtPI_gt). field. lra. Qed.
Lemma fSingular2D_zero Rl g w : rdet Rl <> 0 -> 0 < w -> integer3 g -> fSingular2D g (gGGT Rl) w = 2 * sqrt PI / sqrt w.
Proof.
  intros D W I. unfold fSingular2D. cbv zeta. destruct (Req_EM_T w 0) as [E|_]; [lra|]. rewrite (proj2 (effGsq_zero Rl g D) I), sqrt_0, Rmult_0_r, erf_by_x_0.
  assert (Q := sqrtPI_gt). assert (0 < sqrt w) by (apply sqrt_lt_R0; exact W). assert (S : PI = sqrt PI * sqrt PI) by (symmetry; apply sqrt_sqrt; assert (H1 := PI_RGT_0); lra).
  rewrite S at 1. field. split; lra.
Qed.
Lemma fSingular2D_screened Rl g w : rdet Rl <> 0 -> 0 < w -> ~ integer3 g -> let G := sqrt (effGsq g (gGGT Rl)) in
  Rabs (fSingular2D g (gGGT Rl) w - 2 * PI / G * erf (G / (2 * sqrt w))) <= PI / sqrt w * / 10 ^ 19.
Proof.
  intros D W I G. assert (N := effGsq_nonneg Rl g D). assert (Ne : effGsq g (gGGT Rl) <> 0) by (intros E; apply I; apply (effGsq_zero Rl); auto).
  assert (GP : 0 < G) by (unfold G; apply sqrt_lt_R0; lra). assert (SW : 0 < sqrt w) by (apply sqrt_lt_R0; exact W). assert (P := PI_RGT_0).
  unfold fSingular2D. cbv zeta. fold G. destruct (Req_EM_T w 0) as [E|_]; [lra|]. set (h := 1/2 / sqrt w). assert (HP : 0 < h) by (unfold h; apply Rdiv_lt_0_compat; lra).
  assert (X : h * G <> 0) by (apply Rgt_not_eq; apply Rmult_lt_0_compat; assumption). assert (C := erf_by_x_close (h * G) X).
  replace (G / (2 * sqrt w)) with (h * G) by (unfold h; field; lra).
  replace (2 * PI * h * erf_by_x (h * G) - 2 * PI / G * erf (h * G)) with (2 * PI * h * (erf_by_x (h * G) - erf (h * G) / (h * G))) by (field; lra).
  rewrite Rabs_mult. rewrite (Rabs_right (2 * PI * h)) by (apply Rle_ge; apply Rmult_le_pos; lra).
  replace (PI / sqrt w) with (2 * PI * h) by (unfold h; field; lra). apply Rmult_le_compat_l; [apply Rmult_le_pos; lra|exact C].
Qed.

(** the sum over the mesh with the corrected value at the origin is the integral *)
Lemma mesh_sum (f : vec R -> R) (I : R) k0 ks : f (rvsub k0 k0) + integralMinusSum f I (k0 :: ks) + fold_right (fun k s => f (rvsub k k0) + s) 0 ks = INR (length (k0 :: ks)) * I.
Proof.
  unfold integralMinusSum. cbn [fold_left].
  assert (F : forall l s, fold_left (fun s k => s + f (rvsub k k0)) l s = s + fold_right (fun k s => f (rvsub k k0) + s) 0 l).
  { induction l; intros s; cbn [fold_left fold_right]; [ring|]. rewrite IHl. ring. }
  rewrite F. ring.
Qed.
Lemma mesh_const (f : vec R -> R) (c I : R) l : integralMinusSum (fun k => f k + c) (I + c) l = integralMinusSum f I l.
Proof.
  unfold integralMinusSum. set (k0 := match l with k :: _ => k | [] => V 0 0 0 end).
  assert (F : forall m s, fold_left (fun s k => s + (f (rvsub k k0) + c)) m s = fold_left (fun s k => s + f (rvsub k k0)) m s + INR (length m) * c).
  { induction m; intros s; cbn [fold_left length]; [cbn; ring|]. rewrite IHm, S_INR. assert (G : forall m s d, fold_left (fun s k => s + f (rvsub k k0)) m (s + d) = fold_left (fun s k => s + f (rvsub k k0)) m s + d).
    { clear. induction m; intros s d; cbn [fold_left]; [reflexivity|]. rewrite <- IHm. f_equal. ring. }
    replace (s + (f (rvsub a k0) + c)) with (s + f (rvsub a k0) + c) by ring. rewrite G. ring. }
  rewrite F. ring.
Qed.

(** the six strains *)
Lemma strain_basis S : m01 S = m10 S -> m02 S = m20 S -> m12 S = m21 S ->
  fold_left (fun s d => rmadd s (rmscale (ddot S d) d)) strainBasis rzero = S.
Proof.
  intros E1 E2 E3. assert (Q : sqrt (1/2) * sqrt (1/2) = 1/2) by (apply sqrt_sqrt; lra). set (q := sqrt (1/2)) in *.
  destruct S as [a00 a01 a02 a10 a11 a12 a20 a21 a22]. cbn in E1, E2, E3. subst. unfold strainBasis. fold q. cbn [fold_left]. unfold ddot, rzero. v3u. cbn.
  assert (H : forall x, (x * q + x * q) * q = x) by (intros x; replace ((x * q + x * q) * q) with (2 * x * (q * q)) by ring; rewrite Q; field).
  f_equal; try ring.
  all: match goal with |- _ = ?x => transitivity ((x * q + x * q) * q); [ring|apply H] end.
Qed.
Lemma finite_difference h F Rl S : h <> 0 -> m01 S = m10 S -> m02 S = m20 S -> m12 S = m21 S ->
  (forall d, In d strainBasis -> F (rmm (rmadd rid (rmscale h d)) Rl) - F (rmm (rmsub rid (rmscale h d)) Rl) = 2 * h * ddot S d) ->
  finiteDifference h F Rl = S.
Proof.
  intros H E1 E2 E3 HF. rewrite <- (strain_basis S E1 E2 E3) at 1. unfold finiteDifference.
  assert (G : forall l s, incl l strainBasis ->
    fold_left (fun s d => rmadd s (rmscale ((1/2) / h * (F (rmm (rmadd rid (rmscale h d)) Rl) - F (rmm (rmsub rid (rmscale h d)) Rl))) d)) l s = fold_left (fun s d => rmadd s (rmscale (ddot S d) d)) l s).
  { induction l as [|d l IH]; intros s In1; cbn [fold_left]; [reflexivity|]. rewrite HF by (apply In1; left; reflexivity). rewrite IH by (intros x X; apply In1; right; exact X).
    f_equal. f_equal. f_equal. field. exact H. }
  apply G. intros x X; exact X.
Qed.
