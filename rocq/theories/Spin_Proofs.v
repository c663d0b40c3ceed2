(** Spin densities: proofs. *)
From Coq Require Import ZArith Reals List Bool Lia Lra Psatz.
From Coquelicot Require Import Coquelicot.
From Verif Require Import Base Vec3_Model Vec3_Facts Spin_Model Spin_Spec.
Import ListNotations.
Open Scope R_scope.

Lemma half_is : 0.5 = / 2. Proof. lra. Qed.

Lemma same_refl l : same_fields l l.
Proof. induction l; constructor; auto. Qed.
Ltac fields := repeat (constructor; [intros i; cbn; lra|]); try constructor.

Lemma roundtrip n m : fromSpinDensity n = Some m -> exists n', toSpinDensity m = Some n' /\ same_fields n' n.
Proof.
  destruct n as [|a [|b [|c [|d [|e l]]]]]; intros H; try discriminate; injection H as <-; cbn [toSpinDensity];
    eexists; (split; [reflexivity|]); fields.
Qed.
Lemma roundtrip' m n : toSpinDensity m = Some n -> exists m', fromSpinDensity n = Some m' /\ same_fields m' m.
Proof.
  destruct m as [|a [|b [|c [|d [|e l]]]]]; intros H; try discriminate; injection H as <-; cbn [fromSpinDensity];
    eexists; (split; [reflexivity|]); fields.
Qed.
Lemma defined n : (List.length n = 1 \/ List.length n = 2 \/ List.length n = 4)%nat -> exists m, fromSpinDensity n = Some m /\ List.length m = List.length n.
Proof. destruct n as [|a [|b [|c [|d [|e l]]]]]; cbn [List.length]; intros H; try lia; eexists; (split; [reflexivity|reflexivity]). Qed.
Lemma defined' n : (List.length n = 1 \/ List.length n = 2 \/ List.length n = 4)%nat -> exists m, toSpinDensity n = Some m /\ List.length m = List.length n.
Proof. destruct n as [|a [|b [|c [|d [|e l]]]]]; cbn [List.length]; intros H; try lia; eexists; (split; [reflexivity|reflexivity]). Qed.

Lemma mag_pauli n0 n1 n2 n3 m : fromSpinDensity [n0;n1;n2;n3] = Some m -> forall p,
  exists d z x y, m = [d;z;x;y] /\ spin_matrix (Q (n0 p) (n1 p) (n2 p) (n3 p)) = m2comb (d p / 2) (x p / 2) (y p / 2) (z p / 2).
Proof.
  intros H p. injection H as <-. do 4 eexists. split; [reflexivity|].
  unfold spin_matrix, m2comb, RtoC, Ci, Cplus, Cminus, Cmult, Copp. cbn. f_equal; apply injective_projections; cbn; field.
Qed.
Lemma load_pauli x : let '(x0, v) := loadSpinVector x in spin_matrix x = m2comb (x0 / 2) (c0 v / 2) (c1 v / 2) (c2 v / 2).
Proof.
  unfold spin_matrix, m2comb, RtoC, Ci, Cplus, Cminus, Cmult, Copp. cbn. f_equal; apply injective_projections; cbn; field.
Qed.

Lemma accum_adj E0 EV E x : let '(x0, v) := loadSpinVector x in
  qdot (accumSpinVectorGrad E0 EV E) x = qdot E x + (E0 * x0 + rdot EV v).
Proof. unfold qdot, accumSpinVectorGrad, rdot, gdot. cbn. ring. Qed.

Lemma len2_nonneg v : 0 <= rlen2 v.
Proof. destruct v; v3_unfold. nra. Qed.
Lemma cut_pos : 0 < nCutoff.
Proof. unfold nCutoff. apply Rinv_0_lt_compat. apply pow_lt. lra. Qed.
Lemma den_pos v : 0 < rlen2 v + nCutoff.
Proof. pose proof (len2_nonneg v). pose proof cut_pos. lra. Qed.
Lemma sden_pos v : 0 < sqrt (rlen2 v + nCutoff).
Proof. apply sqrt_lt_R0, den_pos. Qed.

Lemma trace_ok n x : fst (spinDiagonalize_calc n x) + snd (spinDiagonalize_calc n x) = q0 x + q1 x.
Proof. unfold spinDiagonalize_calc. cbn [fst snd loadSpinVector]. lra. Qed.

Lemma diag_projector n x : let u := rvscale (mNormFac (snd (loadSpinVector n))) (snd (loadSpinVector n)) in
  RtoC (fst (spinDiagonalize_calc n x)) = m2tr (m2mul (projector u) (spin_matrix x)) /\
  RtoC (snd (spinDiagonalize_calc n x)) = m2tr (m2mul (projector (rvopp u)) (spin_matrix x)).
Proof.
  intros u. unfold spinDiagonalize_calc. fold u. generalize u. clear. intros [a b c].
  unfold m2tr, m2mul, projector, m2comb, spin_matrix, RtoC, Ci, Cplus, Cminus, Cmult, Copp.
  unfold rdot, rvopp, gvopp, gdot, vmap, loadSpinVector. cbn. rewrite half_is. split; apply injective_projections; cbn; field.
Qed.

(** the direction has length at most one, and is parallel to the magnetization *)
Lemma mhat_sq v : rlen2 (rvscale (mNormFac v) v) = rlen2 v / (rlen2 v + nCutoff).
Proof.
  pose proof (sden_pos v) as P. pose proof (den_pos v) as D. unfold mNormFac.
  set (S := sqrt (rlen2 v + nCutoff)) in *.
  assert (E : S * S = rlen2 v + nCutoff) by (apply sqrt_sqrt; lra).
  rewrite <- E. destruct v as [a b c]. v3_unfold. field. lra.
Qed.
Lemma mhat_le v : rlen2 (rvscale (mNormFac v) v) < 1.
Proof.
  rewrite mhat_sq. pose proof (den_pos v). pose proof cut_pos. apply (Rmult_lt_reg_r (rlen2 v + nCutoff)); [lra|].
  unfold Rdiv. rewrite Rmult_assoc, Rinv_l by lra. lra.
Qed.

Lemma self_dot v : rdot v (rvscale (mNormFac v) v) = rlen2 v / sqrt (rlen2 v + nCutoff).
Proof. unfold mNormFac. generalize (sqrt (rlen2 v + nCutoff)). intros S. destruct v as [a b c]. v3_unfold. unfold Rdiv. ring. Qed.

Lemma self_bounds v : 0 <= rlen v - rdot v (rvscale (mNormFac v) v) <= / 10 ^ 8.
Proof.
  rewrite self_dot. pose proof (sden_pos v) as P. pose proof (den_pos v) as D. pose proof cut_pos as CP. pose proof (len2_nonneg v) as L0.
  assert (E : sqrt (rlen2 v + nCutoff) * sqrt (rlen2 v + nCutoff) = rlen2 v + nCutoff) by (apply sqrt_sqrt; lra).
  assert (Lm : rlen v * rlen v = rlen2 v) by (apply sqrt_sqrt; lra).
  assert (Lp : 0 <= rlen v) by apply sqrt_pos.
  assert (K : 0 < / 10 ^ 8) by (apply Rinv_0_lt_compat, pow_lt; lra).
  assert (K2 : / 10 ^ 8 * / 10 ^ 8 = nCutoff). { unfold nCutoff. rewrite <- Rinv_mult. f_equal. ring. }
  set (S := sqrt (rlen2 v + nCutoff)) in *. set (k := / 10 ^ 8) in *. set (r := rlen v) in *.
  assert (rlen2 v / S * S = rlen2 v) by (field; lra).
  set (y := rlen2 v / S) in *.
  assert (r <= S) by nra. assert (k <= S) by nra.
  split.
  - assert (y <= r); [|lra]. apply (Rmult_le_reg_r S); [lra|]. nra.
  - assert (r <= y + k); [|lra]. apply (Rmult_le_reg_r S); [lra|]. nra.
Qed.

Lemma eigen_exact n : let '(n0, v) := loadSpinVector n in
  eigenvalue (spin_matrix n) ((n0 + rlen v) / 2) /\ eigenvalue (spin_matrix n) ((n0 - rlen v) / 2).
Proof.
  destruct (loadSpinVector n) as [n0 v] eqn:E. unfold loadSpinVector in E. injection E as <- E.
  pose proof (len2_nonneg v) as L0.
  assert (Lm : rlen v * rlen v = rlen2 v) by (apply sqrt_sqrt; lra).
  assert (L2 : rlen2 v = 4 * (q2 n * q2 n) + 4 * (q3 n * q3 n) + (q0 n - q1 n) * (q0 n - q1 n)) by (rewrite <- E; v3_unfold; ring).
  rewrite L2 in Lm. generalize dependent (rlen v). intros r Lm. clear -Lm.
  unfold eigenvalue, m2det, spin_matrix, RtoC, Cplus, Cminus, Cmult, Copp. cbn. split; apply injective_projections; cbn; nra.
Qed.

Lemma diag_near_eigen n : let '(n0, v) := loadSpinVector n in
  let '(a, b) := spinDiagonalize_calc n n in
  0 <= (n0 + rlen v) / 2 - a <= / 10 ^ 8 /\ 0 <= b - (n0 - rlen v) / 2 <= / 10 ^ 8.
Proof.
  unfold spinDiagonalize_calc. destruct (loadSpinVector n) as [n0 v]. cbn [fst snd].
  pose proof (self_bounds v) as B. pose proof (Rinv_0_lt_compat (10^8)). lra.
Qed.

Lemma psd_mag n : psd n -> let '(n0, v) := loadSpinVector n in rlen v <= n0.
Proof.
  intros (A & B & D). unfold loadSpinVector. rewrite <- (sqrt_square (q0 n + q1 n)) by lra. unfold rlen. apply sqrt_le_1_alt.
  v3_unfold. nra.
Qed.
Lemma diag_nonneg n : psd n -> let '(a, b) := spinDiagonalize_calc n n in 0 <= a <= q0 n + q1 n /\ 0 <= b <= q0 n + q1 n.
Proof.
  intros P. pose proof (psd_mag n P) as H. pose proof (diag_near_eigen n) as D. pose proof (trace_ok n n) as TR.
  assert (SD : 0 <= rdot (snd (loadSpinVector n)) (rvscale (mNormFac (snd (loadSpinVector n))) (snd (loadSpinVector n)))).
  { rewrite self_dot. apply Rmult_le_pos; [apply len2_nonneg|]. left. apply Rinv_0_lt_compat, sden_pos. }
  pose proof P as (A & B & _).
  assert (F : fst (spinDiagonalize_calc n n) = 0.5 * (fst (loadSpinVector n) + rdot (snd (loadSpinVector n)) (rvscale (mNormFac (snd (loadSpinVector n))) (snd (loadSpinVector n))))) by reflexivity.
  assert (L : fst (loadSpinVector n) = q0 n + q1 n) by reflexivity.
  destruct (loadSpinVector n) as [n0 v]. destruct (spinDiagonalize_calc n n) as [a b]. cbn [fst snd] in *. lra.
Qed.

(** ** Exact derivatives *)
Lemma dot_derive (m dm x dx : vec R) :
  let mt t := rvadd m (rvscale t dm) in let xt t := rvadd x (rvscale t dx) in
  let h := rvscale (mNormFac m) m in
  is_derive (fun t : R => rdot (xt t) (rvscale (mNormFac (mt t)) (mt t))) 0
    (rdot dx h + mNormFac m * rdot (rvsub x (rvscale (rdot x h) h)) dm).
Proof.
  intros mt xt h. subst mt xt h. pose proof (den_pos m) as D. pose proof (sden_pos m) as P.
  unfold mNormFac.
  set (S := sqrt (rlen2 m + nCutoff)) in *.
  assert (ES : S * S = rlen2 m + nCutoff) by (apply sqrt_sqrt; lra).
  set (c := nCutoff) in *. clearbody c.
  destruct m as [m0 m1 m2], dm as [a0 a1 a2], x as [x0 x1 x2], dx as [b0 b1 b2]. v3_unfold.
  auto_derive.
  all: repeat match goal with |- context[?a + ?b * 0] => replace (a + b * 0) with a by ring end.
  - repeat split; try exact D; apply Rgt_not_eq; exact P.
  - change (sqrt (m0 * m0 + m1 * m1 + m2 * m2 + c)) with S.
    assert (Sn : S <> 0) by lra. clearbody S. field. exact Sn.
Qed.

Lemma load_line a d t : loadSpinVector (qline a d t) =
  (fst (loadSpinVector a) + t * fst (loadSpinVector d), rvadd (snd (loadSpinVector a)) (rvscale t (snd (loadSpinVector d)))).
Proof. unfold loadSpinVector, qline. v3_unfold. cbn. f_equal; [ring|f_equal; ring]. Qed.

Lemma lin_derive (k a b : R) : is_derive (fun t : R => k * (a + t * b)) 0 (k * b).
Proof. auto_derive; auto; ring. Qed.

Lemma diag_derive n dn x dx (E : R * R) :
  is_derive (fun t : R => let d := spinDiagonalize_calc (qline n dn t) (qline x dx t) in fst E * fst d + snd E * snd d) 0
    (qdot (fst (spinDiagonalizeGrad_calc n x E (Q 0 0 0 0) (Q 0 0 0 0))) dn
     + qdot (snd (spinDiagonalizeGrad_calc n x E (Q 0 0 0 0) (Q 0 0 0 0))) dx).
Proof.
  pose proof (dot_derive (snd (loadSpinVector n)) (snd (loadSpinVector dn)) (snd (loadSpinVector x)) (snd (loadSpinVector dx))) as H.
  cbn beta zeta in H.
  destruct E as [e f].
  evar_last.
  - apply (is_derive_ext (fun t : R => 0.5 * (e + f) * (fst (loadSpinVector x) + t * fst (loadSpinVector dx))
      + 0.5 * (e - f) * rdot (rvadd (snd (loadSpinVector x)) (rvscale t (snd (loadSpinVector dx))))
          (rvscale (mNormFac (rvadd (snd (loadSpinVector n)) (rvscale t (snd (loadSpinVector dn))))) (rvadd (snd (loadSpinVector n)) (rvscale t (snd (loadSpinVector dn))))))).
    { intros t. unfold spinDiagonalize_calc. rewrite !load_line. cbn [fst snd].
      set (z := rdot _ _). clearbody z. lra. }
    apply (is_derive_plus (V := R_NormedModule)).
    + apply (lin_derive (0.5 * (e + f)) (fst (loadSpinVector x)) (fst (loadSpinVector dx))).
    + apply (is_derive_scal _ 0 (0.5 * (e - f))). exact H.
  - unfold plus. cbn [AbelianGroup.plus R_NormedModule]. unfold spinDiagonalizeGrad_calc. cbn [fst snd].
    pose proof (accum_adj 0 (E_mVec_of n x (e, f)) (Q 0 0 0 0) dn) as A1.
    pose proof (accum_adj (0.5 * (e + f)) (E_xVec_of n (e, f)) (Q 0 0 0 0) dx) as A2.
    destruct (loadSpinVector dn) as [d0 dv]. destruct (loadSpinVector dx) as [x0 xv]. cbn [fst snd] in *.
    rewrite A1, A2. unfold E_mVec_of, E_xVec_of. cbn [fst snd].
    unfold qdot. cbn [q0 q1 q2 q3].
    generalize (mNormFac (snd (loadSpinVector n))). generalize (snd (loadSpinVector n)). generalize (snd (loadSpinVector x)).
    intros X Mv k. destruct X, Mv, dv, xv. rewrite half_is. v3_unfold. cbn. ring.
Qed.

Lemma grad_accumulates n x E a b : 
  spinDiagonalizeGrad_calc n x E a b =
  (qadd a (fst (spinDiagonalizeGrad_calc n x E (Q 0 0 0 0) (Q 0 0 0 0))), qadd b (snd (spinDiagonalizeGrad_calc n x E (Q 0 0 0 0) (Q 0 0 0 0)))).
Proof. unfold spinDiagonalizeGrad_calc, accumSpinVectorGrad, qadd. cbn [fst snd q0 q1 q2 q3]. f_equal; f_equal; ring. Qed.

Lemma same_derive n dn (E : R * R) :
  is_derive (fun t : R => let d := spinDiagonalize_calc (qline n dn t) (qline n dn t) in fst E * fst d + snd E * snd d) 0
    (qdot (spinDiagonalizeGrad_same n E (Q 0 0 0 0)) dn).
Proof.
  evar_last. apply diag_derive.
  unfold spinDiagonalizeGrad_same, spinDiagonalizeGrad_calc, accumSpinVectorGrad, qdot. cbn [fst snd q0 q1 q2 q3]. ring.
Qed.
