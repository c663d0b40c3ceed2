From Coq Require Import ZArith Reals List Bool Arith Lra Lia FunctionalExtensionality.
From Verif Require Import Base Vec3_Model Vec3_Facts Ions_Model ExCompute_Spec ExCompute_Proofs Phonon_Model Phonon_Spec Phonon_Proofs Phonon_Proofs2 Phonon_Proofs3 Phonon_Proofs4 Phonon_Proofs5.
Import ListNotations.
Import Vec3_Model.
Open Scope R_scope.

(** ** The slope at the zone centre *)
Definition slopeVec (nA : nat) (cells : list (vec Z)) (F : fmatrix) (a b : nat) : vec R := V (gammaSlope nA cells F 0 a b) (gammaSlope nA cells F 1 a b) (gammaSlope nA cells F 2 a b).
Lemma err_slope : forall cells Rl x nA F a b, noNetForceOn nA cells F -> (a < 3)%nat -> (b < 3)%nat -> gammaErr cells Rl x nA F a b = rmv Rl (slopeVec nA cells F a b).
Proof.
  intros cells Rl x nA F a b [N1 N2] Ha Hb. apply dot_ext. intros u. rewrite dot_err.
  set (p := rvm u Rl).
  assert (forall v, rdot u (rmv Rl v) = rdot p v) as Ep by (intros; unfold p; apply rdot_mv_vm).
  rewrite Ep.
  transitivity (sumR cells (fun c => sumR (seq 0 nA) (fun i => sumR (seq 0 nA) (fun j => rdot p (vIZR c) * F c (3 * i + a)%nat (3 * j + b)%nat)))
    + sumR cells (fun c => sumR (seq 0 nA) (fun i => sumR (seq 0 nA) (fun j => rdot p (x j) * F c (3 * i + a)%nat (3 * j + b)%nat)))
    - sumR cells (fun c => sumR (seq 0 nA) (fun i => sumR (seq 0 nA) (fun j => rdot p (x i) * F c (3 * i + a)%nat (3 * j + b)%nat)))).
  - rewrite <- sum_plus, <- sum_minus. apply sumR_ext. intros c _. rewrite <- sum_plus, <- sum_minus. apply sumR_ext. intros i _. rewrite <- sum_plus, <- sum_minus. apply sumR_ext. intros j _.
    unfold drAtoms. rewrite Ep, dot_sub_r, dot_add_r. ring.
  - assert (sumR cells (fun c => sumR (seq 0 nA) (fun i => sumR (seq 0 nA) (fun j => rdot p (x j) * F c (3 * i + a)%nat (3 * j + b)%nat))) = 0) as ->.
    { rewrite (sumR_ext _ _ _ (fun c => sumR (seq 0 nA) (fun j => rdot p (x j) * sumR (seq 0 nA) (fun i => F c (3 * i + a)%nat (3 * j + b)%nat)))).
      2: intros c _; rewrite sum_swap; apply sumR_ext; intros j _; apply sum_scal_r.
      rewrite sum_swap. rewrite (sumR_ext _ _ _ (fun _ => 0)); [rewrite sum_const; ring|]. intros j Hj. apply in_seq in Hj. rewrite sum_scal_r, N2 by lia. ring. }
    assert (sumR cells (fun c => sumR (seq 0 nA) (fun i => sumR (seq 0 nA) (fun j => rdot p (x i) * F c (3 * i + a)%nat (3 * j + b)%nat))) = 0) as ->.
    { rewrite (sumR_ext _ _ _ (fun c => sumR (seq 0 nA) (fun i => rdot p (x i) * sumR (seq 0 nA) (fun j => F c (3 * i + a)%nat (3 * j + b)%nat)))).
      2: intros c _; apply sumR_ext; intros j _; apply sum_scal_r.
      rewrite sum_swap. rewrite (sumR_ext _ _ _ (fun _ => 0)); [rewrite sum_const; ring|]. intros i Hi. apply in_seq in Hi. rewrite sum_scal_r, N1 by lia. ring. }
    rewrite Rplus_0_r, Rminus_0_r. unfold slopeVec, gammaSlope. destruct p as [p0 p1 p2]. unfold rdot at 2, gdot. cbn [c0 c1 c2]. rewrite <- !sum_scal_r, <- !sum_plus. apply sumR_ext. intros c _.
    rewrite (sumR_ext _ _ _ (fun i => rdot (V p0 p1 p2) (vIZR c) * sumR (seq 0 nA) (fun j => F c (3 * i + a)%nat (3 * j + b)%nat))) by (intros; apply sum_scal_r). rewrite sum_scal_r.
    destruct c as [q0 q1 q2]. unfold rdot, gdot, vIZR, vmap. cbn [c0 c1 c2 vget]. ring.
Qed.
Definition planarCells (tr : nat -> bool) (cells : list (vec Z)) : Prop := forall c k, In c cells -> (k < 3)%nat -> tr k = true -> vget c k = 0%Z.
(** Truncated lattice vectors and Cartesian axes of the same number go together: the others have no component along these axes. *)
Definition aligned (Rl : mat R) (tr : nat -> bool) : Prop := forall k l, (k < 3)%nat -> (l < 3)%nat -> tr k = true -> tr l = false -> mget Rl k l = 0.
Lemma slope_planar : forall tr nA cells F k a b, planarCells tr cells -> (k < 3)%nat -> tr k = true -> gammaSlope nA cells F k a b = 0.
Proof. intros tr nA cells F k a b H Hk Ht. unfold gammaSlope. rewrite (sumR_ext _ _ _ (fun _ => 0)); [rewrite sumR_const; ring|]. intros c Hc. rewrite (H c k Hc Hk Ht). ring. Qed.
Lemma rmv_inj0 : forall A v, rdet A <> 0 -> rmv A v = V 0 0 0 -> v = V 0 0 0.
Proof. intros A v D E. rewrite <- (rmv_id v), <- (rinv_l A D), rmv_mm, E. destruct (rinv A). cbv -[Rplus Rmult IZR]. f_equal; ring. Qed.
Lemma row_rmv : forall (A : mat R) a b c k, (k < 3)%nat -> vget (rmv A (V a b c)) k = mget A k 0 * a + mget A k 1 * b + mget A k 2 * c.
Proof. intros [] a b c k Hk. destruct k as [|[|[|k]]]; [..|lia]; reflexivity. Qed.
Lemma weights_total : forall nA s cells w i j, goodCells nA s (wrapCell s) cells w -> (i < nA)%nat -> (j < nA)%nat -> sumR cells (fun c => w c i j) = INR (prodSup s).
Proof.
  intros nA s cells w i j G Hi Hj. pose proof (gc_unit _ _ _ _ _ G i j (fun _ => 1) Hi Hj) as E. rewrite sumR_const, allCells_length in E. rewrite <- (Rmult_1_r (INR _)), <- E. apply sumR_ext. intros. ring.
Qed.
Lemma fix_none_g : forall cells w Rl x nA nSup tr F F', gammaPrimeFix cells w Rl x nA nSup tr F = Some F' ->
  exists g, F' = fixedF cells w Rl x nA nSup g F /\ rdet (alphaInv cells w Rl x nA nSup tr) <> 0 /\ forall a b, g a b = rvopp (rmv (rinv (alphaInv cells w Rl x nA nSup tr)) (gammaErr cells Rl x nA F a b)).
Proof.
  intros cells w Rl x nA nSup tr F F' H. unfold gammaPrimeFix in H. destruct (corrTensor cells w Rl x nA nSup tr F) as [g|] eqn:E; [|discriminate]. injection H as <-.
  unfold corrTensor in E. destruct (Req_EM_T (rdet (alphaInv cells w Rl x nA nSup tr)) 0) as [|D]; [discriminate|]. injection E as <-. eexists. split; [reflexivity|]. split; [exact D|reflexivity].
Qed.
Section Main.
  Variables (nA : nat) (s : sup3) (cells : list (vec Z)) (w : fmatrix) (Rl : mat R) (x : nat -> vec R) (tr : nat -> bool).
  Hypothesis HnA : (0 < nA)%nat.
  Hypothesis Hs : posSup s.
  Hypothesis G : goodCells nA s (wrapCell s) cells w.
  Let HP : (0 < prodSup s)%nat. Proof. destruct s as [[a b] c]. destruct Hs as (?&?&?). cbn [prodSup]. nia. Qed.
  Lemma fix_nonet F F' : gammaPrimeFix cells w Rl x nA (prodSup s) tr F = Some F' -> noNetForceOn nA cells F -> noNetForceOn nA cells F'.
  Proof. intros H. destruct (fix_none_g _ _ _ _ _ _ _ _ _ H) as (g & -> & _ & _). apply fixed_nonet; [exact HnA|exact HP|]. intros; apply (weights_total nA s cells w); assumption. Qed.
  Lemma fix_symmetric F F' : gammaPrimeFix cells w Rl x nA (prodSup s) tr F = Some F' -> symmetricOn nA cells F -> symmetricOn nA cells F'.
  Proof.
    intros H HF. destruct (fix_none_g _ _ _ _ _ _ _ _ _ H) as (g & -> & _ & Eg). pose proof (gc_nodup _ _ _ _ _ G) as Nd. pose proof (gc_opp _ _ _ _ _ G) as Op. pose proof (gc_sym _ _ _ _ _ G) as Sy.
    apply fixed_symmetric; try assumption; [intros; apply (weights_total nA s cells w); assumption|]. intros a b Ha Hb. rewrite !Eg, (err_anti cells w Rl x nA (prodSup s) HnA HP (fun i j Hi Hj => weights_total nA s cells w i j G Hi Hj) Nd Op Sy F a b HF Ha Hb), rmv_opp. reflexivity.
  Qed.
  Lemma fix_slope F F' l a b : rdet Rl <> 0 -> planarCells tr cells -> aligned Rl tr -> noNetForceOn nA cells F -> gammaPrimeFix cells w Rl x nA (prodSup s) tr F = Some F' ->
    (l < 3)%nat -> (a < 3)%nat -> (b < 3)%nat -> gammaSlope nA cells F' l a b = 0.
  Proof.
    intros D Pl Al HF H Hl Ha Hb.
    assert (rmv Rl (slopeVec nA cells F' a b) = V 0 0 0) as E.
    { assert (forall k, (k < 3)%nat -> vget (rmv Rl (slopeVec nA cells F' a b)) k = 0) as K.
      - intros k Hk. destruct (tr k) eqn:Et.
        + assert (forall l, (l < 3)%nat -> mget Rl k l * gammaSlope nA cells F' l a b = 0) as Z0.
          { intros l' Hl'. destruct (tr l') eqn:El; [rewrite (slope_planar tr) by assumption; ring|rewrite (Al k l' Hk Hl' Et El); ring]. }
          pose proof (Z0 0%nat ltac:(lia)) as A0. pose proof (Z0 1%nat ltac:(lia)) as A1. pose proof (Z0 2%nat ltac:(lia)) as A2.
          unfold slopeVec. rewrite row_rmv, A0, A1, A2 by exact Hk. ring.
        + rewrite <- (err_slope cells Rl x nA F') by (try assumption; apply (fix_nonet F); assumption). apply (fix_err cells w Rl x nA (prodSup s) tr F); assumption.
      - destruct (rmv Rl (slopeVec nA cells F' a b)) as [v0 v1 v2]. pose proof (K 0%nat ltac:(lia)). pose proof (K 1%nat ltac:(lia)). pose proof (K 2%nat ltac:(lia)). cbn [vget c0 c1 c2] in *. subst. reflexivity. }
    apply rmv_inj0 in E; [|exact D]. unfold slopeVec in E. injection E as E0 E1 E2. destruct l as [|[|[|l]]]; [..|lia]; assumption.
  Qed.
  (** nothing to correct *)
  Lemma fix_unchanged F F' c m1 m2 : noNetForceOn nA cells F -> (forall l a b, (l < 3)%nat -> (a < 3)%nat -> (b < 3)%nat -> gammaSlope nA cells F l a b = 0) ->
    gammaPrimeFix cells w Rl x nA (prodSup s) tr F = Some F' -> F' c m1 m2 = F c m1 m2.
  Proof.
    intros HF H0 H. destruct (fix_none_g _ _ _ _ _ _ _ _ _ H) as (g & -> & _ & Eg).
    assert (forall a b, (a < 3)%nat -> (b < 3)%nat -> g a b = V 0 0 0) as G0.
    { intros a b Ha Hb. rewrite Eg, (err_slope cells Rl x nA F a b HF Ha Hb). unfold slopeVec. rewrite !H0 by lia. destruct Rl, (rinv _). cbv -[Rplus Rmult IZR Ropp]. f_equal; ring. }
    assert (forall c m1 m2, dFmat w Rl x g c m1 m2 = 0) as D0.
    { intros c' a b. unfold dFmat. rewrite G0 by (apply Nat.mod_upper_bound; lia). destruct (drAtoms Rl x c' (a/3) (b/3)). cbv [rdot gdot Vec3_Model.c0 Vec3_Model.c1 Vec3_Model.c2]. ring. }
    unfold fixedF. rewrite D0, dF0_shift. assert (forall i j, dFsum cells w Rl x g i j = 0) as S0 by (intros; unfold dFsum; rewrite rsumOn_sumR, (sumR_ext _ _ _ (fun _ => 0)) by (intros; apply D0); rewrite sumR_const; ring).
    assert (shiftT nA (dFsum cells w Rl x g) m1 m2 = 0) as ->; [|ring].
    unfold shiftT, avA, avR, avL. assert (forall f : nat -> R, (forall i, f i = 0) -> sumR (seq 0 nA) f = 0) as Z0 by (intros f Hf; rewrite (sumR_ext _ _ _ (fun _ => 0)) by (intros; apply Hf); rewrite sum_const; ring).
    rewrite !Z0 by (intros; try apply S0; rewrite Z0 by (intros; apply S0); ring). ring.
  Qed.

  (** *** When the correction exists *)
  Lemma quad_form u : rdot u (rmv (rmadd (secondMoment cells w Rl x nA) (transMoment cells w Rl x nA (prodSup s))) u) =
    sumR (seq 0 nA) (fun i => sumR (seq 0 nA) (fun j => sumR cells (fun c => w c i j * (rdot u (drAtoms Rl x c i j) + rdot u (transShift cells w Rl x nA (prodSup s) i j)) ^ 2))).
  Proof.
    assert (INR nA <> 0) as HnA0 by (apply not_0_INR; lia). assert (INR (prodSup s) <> 0) as HP0 by (apply not_0_INR; lia).
    set (U := transShift cells w Rl x nA (prodSup s)). set (v := fun i j => rdot u (firstMoment cells w Rl x i j)). set (W := fun i j => INR (prodSup s) * rdot u (U i j)).
    assert (rdot u (rmv (secondMoment cells w Rl x nA) u) = sumR (seq 0 nA) (fun i => sumR (seq 0 nA) (fun j => sumR cells (fun c => w c i j * rdot u (drAtoms Rl x c i j) ^ 2)))) as E1.
    { unfold secondMoment. rewrite bilin_macc. rewrite (sumR_ext _ _ _ (fun c => sumR (seq 0 nA) (fun i => sumR (seq 0 nA) (fun j => w c i j * rdot u (drAtoms Rl x c i j) ^ 2)))).
      - rewrite sum_swap. apply sumR_ext. intros i _. apply sum_swap.
      - intros c _. rewrite bilin_macc. unfold atomPairs. rewrite sumR_prod. apply sumR_ext. intros i _. apply sumR_ext. intros j _. cbn [fst snd]. rewrite bilin_scale, bilin_outer, (rdot_sym _ u). ring. }
    assert (rdot u (rmv (transMoment cells w Rl x nA (prodSup s)) u) = sumR (seq 0 nA) (fun i => sumR (seq 0 nA) (fun j => v i j * rdot u (U i j)))) as E2.
    { unfold transMoment. rewrite bilin_macc. unfold atomPairs. rewrite sumR_prod. apply sumR_ext. intros i _. apply sumR_ext. intros j _. cbn [fst snd]. rewrite bilin_outer, (rdot_sym _ u). reflexivity. }
    set (Rw := fun i => 1 / INR nA * sumR (seq 0 nA) (fun j => v i j)). set (Cm := fun j => 1 / INR nA * sumR (seq 0 nA) (fun i => v i j)). set (Am := 1 / INR nA * (1 / INR nA * sumR (seq 0 nA) (fun i => sumR (seq 0 nA) (fun j => v i j)))).
    assert (forall i j, W i j = Am - Rw i - Cm j) as EW.
    { intros i j. unfold W, U, transShift. rewrite dot_scale_r, !dot_sub_r. unfold allMean, rowMean, colMean, nAtomsInv. rewrite !dot_vacc.
      rewrite (sumR_ext _ _ (fun i => rdot u (vacc (seq 0 nA) (fun j => rvscale (1 / INR nA) (rvscale (1 / INR nA) (firstMoment cells w Rl x i j))))) (fun i => sumR (seq 0 nA) (fun j => 1 / INR nA * (1 / INR nA * v i j)))) by (intros; rewrite dot_vacc; apply sumR_ext; intros; rewrite !dot_scale_r; reflexivity).
      rewrite (sumR_ext _ _ (fun x0 => rdot u (rvscale (1 / INR nA) (firstMoment cells w Rl x i x0))) (fun j => 1 / INR nA * v i j)) by (intros; rewrite dot_scale_r; reflexivity).
      rewrite (sumR_ext _ _ (fun x0 => rdot u (rvscale (1 / INR nA) (firstMoment cells w Rl x x0 j))) (fun i => 1 / INR nA * v i j)) by (intros; rewrite dot_scale_r; reflexivity).
      unfold Am, Rw, Cm. rewrite <- !sum_scal_r. rewrite (sumR_ext _ _ (fun i0 => 1 / INR nA * (1 / INR nA * sumR (seq 0 nA) (fun j0 => v i0 j0))) (fun i0 => sumR (seq 0 nA) (fun j0 => 1 / INR nA * (1 / INR nA * v i0 j0)))) by (intros; rewrite !sum_scal_r; reflexivity). field; auto. }
    assert (forall i, sumR (seq 0 nA) (fun j => v i j + W i j) = 0) as HR.
    { intros i. rewrite (sumR_ext _ _ _ (fun j => v i j + (Am - Rw i) - Cm j)) by (intros; rewrite EW; ring). rewrite sum_minus, sum_plus, sum_const. unfold Cm. rewrite sum_scal_r. unfold Am, Rw. rewrite (sum_swap _ _ (seq 0 nA) (seq 0 nA) (fun j i => v i j)). change (sumR (seq 0 nA) (v i)) with (sumR (seq 0 nA) (fun j => v i j)). field. assumption. }
    assert (forall j, sumR (seq 0 nA) (fun i => v i j + W i j) = 0) as HC.
    { intros j. rewrite (sumR_ext _ _ _ (fun i => v i j + (Am - Cm j) - Rw i)) by (intros; rewrite EW; ring). rewrite sum_minus, sum_plus, sum_const. unfold Rw. rewrite sum_scal_r. unfold Am, Cm. field. assumption. }
    assert (sumR (seq 0 nA) (fun i => sumR (seq 0 nA) (fun j => W i j * (v i j + W i j))) = 0) as H0.
    { transitivity (sumR (seq 0 nA) (fun i => (Am - Rw i) * sumR (seq 0 nA) (fun j => v i j + W i j)) - sumR (seq 0 nA) (fun j => Cm j * sumR (seq 0 nA) (fun i => v i j + W i j))).
      - rewrite (sumR_ext _ _ (fun j => Cm j * sumR (seq 0 nA) (fun i => v i j + W i j)) (fun j => sumR (seq 0 nA) (fun i => Cm j * (v i j + W i j)))) by (intros; rewrite sum_scal_r; reflexivity).
        rewrite (sum_swap _ _ (seq 0 nA) (seq 0 nA) (fun j i => Cm j * (v i j + W i j))). rewrite <- sum_minus. apply sumR_ext. intros i _. rewrite <- sum_scal_r, <- sum_minus. apply sumR_ext. intros j _. rewrite EW. ring.
      - rewrite (sumR_ext _ _ (fun i => (Am - Rw i) * sumR (seq 0 nA) (fun j => v i j + W i j)) (fun _ => 0)) by (intros; rewrite HR; ring). rewrite (sumR_ext _ _ (fun j => Cm j * sumR (seq 0 nA) (fun i => v i j + W i j)) (fun _ => 0)) by (intros; rewrite HC; ring). rewrite sum_const. ring. }
    rewrite bilin_add, E1, E2.
    rewrite (sumR_ext _ _ (fun i => sumR (seq 0 nA) (fun j => sumR cells (fun c => w c i j * (rdot u (drAtoms Rl x c i j) + rdot u (U i j)) ^ 2)))
       (fun i => (sumR (seq 0 nA) (fun j => sumR cells (fun c => w c i j * rdot u (drAtoms Rl x c i j) ^ 2)) + sumR (seq 0 nA) (fun j => v i j * rdot u (U i j))) + 1 / INR (prodSup s) * sumR (seq 0 nA) (fun j => W i j * (v i j + W i j)))).
    - rewrite !sum_plus, sum_scal_r, H0. ring.
    - intros i Hi. apply in_seq in Hi. rewrite <- sum_scal_r, <- !sum_plus. apply sumR_ext. intros j Hj. apply in_seq in Hj.
      rewrite (sumR_ext _ cells (fun c => w c i j * (rdot u (drAtoms Rl x c i j) + rdot u (U i j)) ^ 2) (fun c => w c i j * rdot u (drAtoms Rl x c i j) ^ 2 + (2 * rdot u (U i j)) * (w c i j * rdot u (drAtoms Rl x c i j)) + rdot u (U i j) ^ 2 * w c i j)) by (intros; ring).
      rewrite !sum_plus, !sum_scal_r, (weights_total nA s cells w i j G) by lia.
      assert (sumR cells (fun c => w c i j * rdot u (drAtoms Rl x c i j)) = v i j) as -> by (unfold v, firstMoment; rewrite dot_vacc; apply sumR_ext; intros; rewrite dot_scale_r; reflexivity).
      unfold W. field. assumption.
  Qed.
  Lemma det0_kernel : forall A : mat R, rdet A = 0 -> exists u, u <> V 0 0 0 /\ rmv A u = V 0 0 0.
  Proof.
    intros [a b c d e f g h k] D.
    assert (forall u, rmv (M a b c d e f g h k) u = V 0 0 0 <-> (a * c0 u + b * c1 u + c * c2 u = 0 /\ d * c0 u + e * c1 u + f * c2 u = 0 /\ g * c0 u + h * c1 u + k * c2 u = 0)) as K.
    { intros [p q r]. cbv -[Rplus Rmult IZR iff]. split; [intros E; injection E as E0 E1 E2; auto|intros (-> & -> & ->); reflexivity]. }
    assert (a * (e * k - f * h) + b * (f * g - d * k) + c * (d * h - e * g) = 0) as D' by (rewrite <- D; cbv -[Rplus Rmult Rminus Ropp IZR]; ring).
    (* columns of the adjugate, then rank one, then zero *)
    assert (forall u0 u1 u2 : R, (u0 <> 0 \/ u1 <> 0 \/ u2 <> 0) -> V u0 u1 u2 <> V 0 0 0) as NZ by (intros u0 u1 u2 H E; injection E as -> -> ->; tauto).
    destruct (Req_dec (e * k - f * h) 0) as [X0|X0]; [|exists (V (e * k - f * h) (f * g - d * k) (d * h - e * g)); split; [apply NZ; auto|apply K; cbn [c0 c1 c2]; repeat split; [exact D'|ring|ring]]].
    destruct (Req_dec (f * g - d * k) 0) as [X1|X1]; [|exists (V (e * k - f * h) (f * g - d * k) (d * h - e * g)); split; [apply NZ; auto|apply K; cbn [c0 c1 c2]; repeat split; [exact D'|ring|ring]]].
    destruct (Req_dec (d * h - e * g) 0) as [X2|X2]; [|exists (V (e * k - f * h) (f * g - d * k) (d * h - e * g)); split; [apply NZ; auto|apply K; cbn [c0 c1 c2]; repeat split; [exact D'|ring|ring]]].
    (* rows 1 and 2 are parallel: find a vector orthogonal to row 0 and to both *)
    assert (exists p q r, (forall y z t, p * y + q * z + r * t = 0 -> d * y + e * z + f * t = 0 /\ g * y + h * z + k * t = 0)) as (p & q & r & HP').
    { destruct (Req_dec d 0) as [Hd|Hd]; [destruct (Req_dec e 0) as [He|He]; [destruct (Req_dec f 0) as [Hf|Hf]|]|].
      - exists g, h, k. intros y z t E. subst. split; [ring|exact E].
      - exists d, e, f. intros y z t E. split; [exact E|]. subst. assert (t = 0) by (apply (Rmult_eq_reg_l f); [lra|exact Hf]). subst. assert (h = 0) by (apply (Rmult_eq_reg_l f); [lra|exact Hf]). assert (g = 0) by (apply (Rmult_eq_reg_l f); [lra|exact Hf]). subst. ring.
      - exists d, e, f. intros y z t E. split; [exact E|]. subst. apply (Rmult_eq_reg_l e); [|exact He]. transitivity (h * (0 * y + e * z + f * t) + (e * g) * y + (e * k - f * h) * t); [ring|]. rewrite E, X0. assert (e * g = 0) as -> by lra. ring.
      - exists d, e, f. intros y z t E. split; [exact E|]. apply (Rmult_eq_reg_l d); [|exact Hd]. transitivity (g * (d * y + e * z + f * t) + (d * h - e * g) * z - (f * g - d * k) * t); [ring|]. rewrite E, X1, X2. ring. }
    destruct (Req_dec (b * r - c * q) 0) as [Y0|Y0]; [|exists (V (b * r - c * q) (c * p - a * r) (a * q - b * p)); split; [apply NZ; auto|apply K; cbn [c0 c1 c2]; split; [ring|apply HP'; ring]]].
    destruct (Req_dec (c * p - a * r) 0) as [Y1|Y1]; [|exists (V (b * r - c * q) (c * p - a * r) (a * q - b * p)); split; [apply NZ; auto|apply K; cbn [c0 c1 c2]; split; [ring|apply HP'; ring]]].
    destruct (Req_dec (a * q - b * p) 0) as [Y2|Y2]; [|exists (V (b * r - c * q) (c * p - a * r) (a * q - b * p)); split; [apply NZ; auto|apply K; cbn [c0 c1 c2]; split; [ring|apply HP'; ring]]].
    (* row 0 parallel to (p,q,r): one equation remains *)
    assert (exists p' q' r', (forall y z t, p' * y + q' * z + r' * t = 0 -> a * y + b * z + c * t = 0 /\ p * y + q * z + r * t = 0)) as (p' & q' & r' & HQ).
    { destruct (Req_dec p 0) as [Hd|Hd]; [destruct (Req_dec q 0) as [He|He]; [destruct (Req_dec r 0) as [Hf|Hf]|]|].
      - exists a, b, c. intros y z t E. subst. split; [exact E|ring].
      - exists p, q, r. intros y z t E. split; [|exact E]. subst. assert (t = 0) by (apply (Rmult_eq_reg_l r); [lra|exact Hf]). subst. assert (a = 0) by (apply (Rmult_eq_reg_l r); [lra|exact Hf]). assert (b = 0) by (apply (Rmult_eq_reg_l r); [lra|exact Hf]). subst. ring.
      - exists p, q, r. intros y z t E. split; [|exact E]. subst. apply (Rmult_eq_reg_l q); [|exact He]. transitivity (b * (0 * y + q * z + r * t) + (a * q) * y - (b * r - c * q) * t); [ring|]. rewrite E, Y0. assert (a * q = 0) as -> by lra. ring.
      - exists p, q, r. intros y z t E. split; [|exact E]. apply (Rmult_eq_reg_l p); [|exact Hd]. transitivity (a * (p * y + q * z + r * t) - (a * q - b * p) * z + (c * p - a * r) * t); [ring|]. rewrite E, Y1, Y2. ring. }
    destruct (Req_dec q' 0) as [Hq|Hq].
    - exists (V 0 1 0). split; [apply NZ; right; left; lra|]. apply K. cbn [c0 c1 c2]. destruct (HQ 0 1 0) as [A1 A2]; [rewrite Hq; ring|]. split; [exact A1|apply HP', A2].
    - exists (V q' (- p') 0). split; [apply NZ; auto|]. apply K. cbn [c0 c1 c2]. destruct (HQ q' (- p') 0) as [A1 A2]; [ring|]. split; [exact A1|apply HP', A2].
  Qed.
  Lemma fix_defined F i j cA cB cC cD : (forall k, tr k = false) -> rdet Rl <> 0 -> (forall c i j, In c cells -> (i < nA)%nat -> (j < nA)%nat -> 0 <= w c i j) ->
    (i < nA)%nat -> (j < nA)%nat -> (forall c, In c [cA; cB; cC; cD] -> In c cells /\ 0 < w c i j) ->
    rdet (set_rows (rvsub (vIZR cB) (vIZR cA)) (rvsub (vIZR cC) (vIZR cA)) (rvsub (vIZR cD) (vIZR cA))) <> 0 ->
    exists F', gammaPrimeFix cells w Rl x nA (prodSup s) tr F = Some F'.
  Proof.
    intros Ht D Hw Hi Hj Hc Hd. unfold gammaPrimeFix, corrTensor. destruct (Req_EM_T (rdet (alphaInv cells w Rl x nA (prodSup s) tr)) 0) as [E|E]; [exfalso|eexists; reflexivity].
    unfold alphaInv in E. cbn [seq fold_left] in E. rewrite !Ht in E. destruct (det0_kernel _ E) as (u & Hu & Ku). apply Hu.
    pose proof (quad_form u) as Q. rewrite Ku in Q. assert (rdot u (V 0 0 0) = 0) as Z0 by (destruct u; cbv -[Rplus Rmult IZR]; ring). rewrite Z0 in Q.
    set (t := fun i j c => w c i j * (rdot u (drAtoms Rl x c i j) + rdot u (transShift cells w Rl x nA (prodSup s) i j)) ^ 2) in *.
    assert (forall A (l : list A) f y, (forall z, In z l -> 0 <= f z) -> sumR l f = 0 -> In y l -> f y = 0) as Pos.
    { clear. intros A l f y. induction l as [|z l IH]; intros Hp Hz Hin; [contradiction|]. rewrite sumR_cons in Hz.
      assert (forall l, (forall z, In z l -> 0 <= f z) -> 0 <= sumR l f) as NN by (clear; induction l as [|z l IH]; intros H; [cbn; lra|]; rewrite sumR_cons; pose proof (H z (or_introl eq_refl)); pose proof (IH (fun q Hq => H q (or_intror Hq))); lra).
      pose proof (Hp z (or_introl eq_refl)). pose proof (NN l (fun q Hq => Hp q (or_intror Hq))). destruct Hin as [->|Hin]; [lra|]. apply IH; [intros; apply Hp; right; assumption|lra|assumption]. }
    assert (forall (l : list nat) f, (forall z, In z l -> 0 <= f z) -> 0 <= sumR l f) as NN by (clear; induction l as [|z l IH]; intros f H; [cbn; lra|]; rewrite sumR_cons; pose proof (H z (or_introl eq_refl)); pose proof (IH f (fun q Hq => H q (or_intror Hq))); lra).
    assert (forall (l : list (vec Z)) f, (forall z, In z l -> 0 <= f z) -> 0 <= sumR l f) as NNc by (clear; induction l as [|z l IH]; intros f H; [cbn; lra|]; rewrite sumR_cons; pose proof (H z (or_introl eq_refl)); pose proof (IH f (fun q Hq => H q (or_intror Hq))); lra).
    assert (forall i j c, (i < nA)%nat -> (j < nA)%nat -> In c cells -> 0 <= t i j c) as T0 by (intros; unfold t; apply Rmult_le_pos; [apply Hw; assumption|apply pow2_ge_0]).
    assert (forall i j, (i < nA)%nat -> (j < nA)%nat -> 0 <= sumR cells (fun c => t i j c)) as T1 by (intros; apply NNc; intros; apply T0; assumption).
    assert (forall i, (i < nA)%nat -> 0 <= sumR (seq 0 nA) (fun j => sumR cells (fun c => t i j c))) as T2 by (intros; apply NN; intros q Hq; apply in_seq in Hq; apply T1; lia).
    symmetry in Q. apply (Pos _ _ _ i) in Q; [|intros q Hq; apply in_seq in Hq; apply T2; lia|apply in_seq; lia].
    apply (Pos _ _ _ j) in Q; [|intros q Hq; apply in_seq in Hq; apply T1; lia|apply in_seq; lia].
    assert (forall c, In c cells -> 0 < w c i j -> rdot u (drAtoms Rl x c i j) = - rdot u (transShift cells w Rl x nA (prodSup s) i j)) as Const.
    { intros c Hcc Hwc. assert (t i j c = 0) as Tc by (apply (Pos _ cells (fun c => t i j c) c); [intros; apply T0; assumption|exact Q|exact Hcc]). unfold t in Tc. apply Rmult_integral in Tc. destruct Tc as [Tc|Tc]; [lra|].
      assert (rdot u (drAtoms Rl x c i j) + rdot u (transShift cells w Rl x nA (prodSup s) i j) = 0) by nra. lra. }
    set (p := rvm u Rl).
    assert (forall c, In c [cA; cB; cC; cD] -> rdot p (rvsub (vIZR c) (vIZR cA)) = 0) as Dz.
    { intros c Hcc. destruct (Hc c Hcc) as [I1 W1]. destruct (Hc cA (or_introl eq_refl)) as [I0 W0]. pose proof (Const c I1 W1) as E1. pose proof (Const cA I0 W0) as E0. unfold drAtoms in E0, E1.
      assert (forall v, rdot u (rmv Rl v) = rdot p v) as Ep by (intros; unfold p; apply rdot_mv_vm). rewrite Ep, dot_sub_r, dot_add_r in E0, E1. rewrite dot_sub_r. lra. }
    assert (p = V 0 0 0) as P0.
    { apply (rmv_inj0 _ p Hd). pose proof (Dz cB ltac:(cbn; auto)) as B1. pose proof (Dz cC ltac:(cbn; auto)) as B2. pose proof (Dz cD ltac:(cbn; auto)) as B3.
      rewrite rdot_sym in B1, B2, B3. unfold rmv, gmv, set_rows, row0, row1, row2. cbn [m00 m01 m02 m10 m11 m12 m20 m21 m22]. 
      destruct (rvsub (vIZR cB) (vIZR cA)), (rvsub (vIZR cC) (vIZR cA)), (rvsub (vIZR cD) (vIZR cA)). cbn [Vec3_Model.c0 Vec3_Model.c1 Vec3_Model.c2]. unfold rdot in B1, B2, B3. rewrite B1, B2, B3. reflexivity. }
    apply dot_ext. intros v. rewrite (rdot_sym v (V 0 0 0)). assert (rdot (V 0 0 0) v = 0) as -> by (destruct v; cbv -[Rplus Rmult IZR]; ring).
    rewrite rdot_sym. rewrite <- (rmv_id v), <- (rinv_r Rl D), rmv_mm, rdot_mv_vm. fold p. rewrite P0. destruct (rmv (rinv Rl) v). cbv -[Rplus Rmult IZR]. ring.
  Qed.
End Main.
