From Coq Require Import Reals List Bool Arith Lra Lia FunctionalExtensionality.
From Coq Require Fin.
From Coquelicot Require Import Coquelicot.
From Verif Require Import CMat MatFun_Model MatFun_Spec MatFun_Proofs MatFun_Proofs2 ElecGrad_Proofs ExCompute_Model ExCompute_Spec ExCompute_Proofs ExCompute_Proofs2.
Import ListNotations.
Open Scope C_scope.

(** ** Semi-definite forms *)
Lemma bracket_add_l : forall n k (a b : cvec n) (A : mat n k) c, bracket (fun i => a i + b i) A c = bracket a A c + bracket b A c.
Proof. intros. unfold bracket. rewrite <- fsum_add. apply fsum_ext. intros i. rewrite Cconj_add. ring. Qed.
Lemma bracket_add_r : forall n k (a : cvec n) (A : mat n k) b c, bracket a A (fun i => b i + c i) = bracket a A b + bracket a A c.
Proof. intros. unfold bracket. rewrite <- fsum_add. apply fsum_ext. intros i. rewrite <- Cmult_plus_distr_l, <- fsum_add. f_equal. apply fsum_ext. intros. ring. Qed.
Lemma bracket_scal_l : forall n k z (a : cvec n) (A : mat n k) c, bracket (fun i => z * a i) A c = Cconj z * bracket a A c.
Proof. intros. unfold bracket. rewrite <- fsum_scal. apply fsum_ext. intros i. rewrite Cconj_mul. ring. Qed.
Lemma bracket_scal_r : forall n k z (a : cvec n) (A : mat n k) c, bracket a A (fun i => z * c i) = z * bracket a A c.
Proof. intros. unfold bracket. rewrite <- fsum_scal. apply fsum_ext. intros i. transitivity (Cconj (a i) * (z * fsum (fun j => A i j * c j))); [|ring]. f_equal. rewrite <- fsum_scal. apply fsum_ext. intros. ring. Qed.
Lemma bracket_herm : forall n (A : mat n n) a b, hermitian A -> bracket a A b = Cconj (bracket b A a).
Proof.
  intros n A a b H. rewrite !bracket_mvec. transitivity (cvdot (mvec A a) b).
  { rewrite cvdot_adj. rewrite H. reflexivity. }
  unfold cvdot. rewrite fsum_conj. apply fsum_ext. intros i. rewrite Cconj_mul, Cconj_conj. ring.
Qed.
Lemma bracket_scal_m : forall n k z (a : cvec n) (A : mat n k) b, bracket a (mscal z A) b = z * bracket a A b.
Proof. intros. unfold bracket, mscal. rewrite <- fsum_scal. apply fsum_ext. intros i. transitivity (Cconj (a i) * (z * fsum (fun j => A i j * b j))); [|ring]. f_equal. rewrite <- fsum_scal. apply fsum_ext. intros. ring. Qed.
Lemma bracket_sum : forall T n k (l : list T) (a : cvec n) (A : T -> mat n k) b, bracket a (sumM l A) b = sumC l (fun x => bracket a (A x) b).
Proof.
  intros. unfold bracket, sumM. rewrite <- sumC_fsum. apply fsum_ext. intros i. rewrite sumC_scal. f_equal. rewrite <- sumC_fsum. apply fsum_ext. intros j.
  rewrite Cmult_comm, <- sumC_scal. apply sumC_ext. intros. ring.
Qed.
Lemma bracket_real : forall n (A : mat n n) a, hermitian A -> bracket a A a = RtoC (Re (bracket a A a)).
Proof. intros n A a H. pose proof (bracket_herm n A a a H) as E. apply injective_projections; [reflexivity|]. apply (f_equal snd) in E. cbn in E |- *. unfold Re. lra. Qed.
Lemma self_dot_zero : forall n (v : cvec n), Re (cvdot v v) = 0%R -> forall i, v i = 0.
Proof.
  intros n v H. unfold cvdot in H. rewrite (fsum_ext _ _ (fun i => RtoC (Re (v i) * Re (v i) + Im (v i) * Im (v i)))) in H by (intros; apply Cconj_sq).
  destruct (fsum_nonneg n (fun i => (Re (v i) * Re (v i) + Im (v i) * Im (v i))%R)) as [r [E [Hr H0]]]. { intros. nra. }
  rewrite E in H. cbn in H. intros i. apply sq_zero. apply (H0 H).
Qed.
Lemma self_dot_pos : forall n (v : cvec n), (0 <= Re (cvdot v v))%R.
Proof.
  intros n v. unfold cvdot. rewrite (fsum_ext _ _ (fun i => RtoC (Re (v i) * Re (v i) + Im (v i) * Im (v i)))) by (intros; apply Cconj_sq).
  destruct (fsum_nonneg n (fun i => (Re (v i) * Re (v i) + Im (v i) * Im (v i))%R)) as [r [E [Hr H0]]]. { intros. nra. }
  rewrite E. exact Hr.
Qed.
(** a semi-definite form vanishes only on the kernel *)
Lemma psd_kernel : forall n (K : mat n n) v, posSemi K -> Re (bracket v K v) = 0%R -> mvec K v = cvzero.
Proof.
  intros n K v [Hh Hp] H0. set (w := mvec K v).
  assert (forall t : R, (0 <= - 2 * t * Re (cvdot w w) + t * t * Re (bracket w K w))%R) as Ht.
  { intros t. specialize (Hp (fun i => v i + RtoC (- t) * w i)). rewrite quad_bracket in Hp.
    rewrite bracket_add_l, !bracket_add_r, bracket_scal_l, !bracket_scal_r, bracket_scal_l in Hp.
    assert (bracket w K v = cvdot w w) as E1 by reflexivity.
    rewrite (bracket_herm _ _ v w Hh), E1 in Hp. rewrite Cconj_R in Hp.
    rewrite !Re_add in Hp. rewrite !Re_scal, H0 in Hp. rewrite Re_conj in Hp. lra. }
  set (s := Re (cvdot w w)) in *. set (k := Re (bracket w K w)) in *.
  assert (0 <= s)%R as Hs by apply self_dot_pos.
  assert (0 <= k)%R as Hk by (unfold k; rewrite <- quad_bracket; apply Hp).
  assert (s = 0)%R as E.
  { destruct (Req_dec s 0) as [|Hn]; [assumption|]. exfalso. destruct (Req_dec k 0) as [Ek|Ek].
    - specialize (Ht 1%R). rewrite Ek in Ht. lra.
    - specialize (Ht (s / k)%R). replace (-2 * (s / k) * s + s / k * (s / k) * k)%R with (- (s * s) / k)%R in Ht by (field; assumption).
      assert (0 < s * s / k)%R by (apply Rmult_lt_0_compat; [nra|apply Rinv_0_lt_compat; lra]). unfold Rdiv in *. lra. }
  apply functional_extensionality. intros i. apply (self_dot_zero _ w E).
Qed.
Lemma psd_cong : forall n k (K : mat n n) (B : mat n k), posSemi K -> posSemi (mmul (madj B) (mmul K B)).
Proof.
  intros n k K B [Hh Hp]. split.
  - unfold hermitian in *. rewrite !madj_mul, madj_adj, Hh, mmul_assoc. reflexivity.
  - intros v. rewrite quad_cong. apply Hp.
Qed.
Lemma psd_scal : forall n (K : mat n n) r, (0 <= r)%R -> posSemi K -> posSemi (mscal (RtoC r) K).
Proof.
  intros n K r Hr [Hh Hp]. split.
  - unfold hermitian in *. rewrite madj_scal, Hh, Cconj_R. reflexivity.
  - intros v. rewrite quad_bracket, bracket_scal_m, Re_scal, <- quad_bracket. apply Rmult_le_pos; [exact Hr|apply Hp].
Qed.
Lemma psd_sum : forall T n (l : list T) (K : T -> mat n n), (forall x, In x l -> posSemi (K x)) -> posSemi (sumM l K).
Proof.
  intros T n l K H. split.
  - unfold hermitian. apply mat_ext. intros i j. unfold madj, sumM. induction l as [|x l IH]; [apply Cconj_0|]. rewrite !sumC_cons, Cconj_add, IH by (intros; apply H; right; assumption). f_equal.
    destruct (H x (or_introl eq_refl)) as [Hh _]. exact (f_equal (fun Z => Z i j) Hh).
  - intros v. rewrite quad_bracket, bracket_sum, Re_sumC. induction l as [|x l IH]; [cbn; lra|]. rewrite sumR_cons.
    assert (0 <= Re (bracket v (K x) v))%R. { rewrite <- quad_bracket. apply H. left; reflexivity. }
    specialize (IH (fun y Hy => H y (or_intror Hy))). lra.
Qed.

(** the operator applied by computePair is Hermitian and semi-definite; the energy is half the expectation value *)
Lemma opX_psd : forall ns N m (I : Fin.t ns -> mat N m) J wq nk Fk kpairs, (0 < wq)%R -> (forall b, (b < nk)%nat -> (0 <= Fk b)%R) ->
  (forall kp, In kp kpairs -> (0 <= kp_weight ns N kp)%R /\ posSemi (kp_K ns N kp)) -> posSemi (opX ns N m I J wq nk Fk kpairs).
Proof.
  intros ns N m I J wq nk Fk kpairs Hq HF HK. apply psd_sum. intros b Hb. apply psd_sum. intros kp Hkp. apply in_seq in Hb. destruct (HK kp Hkp) as [Hw HKK].
  apply psd_scal. { apply Rmult_le_pos; [apply Rmult_le_pos; [exact Hw|apply HF; lia]|left; apply Rinv_0_lt_compat; exact Hq]. }
  apply psd_cong. exact HKK.
Qed.
Lemma eB_half : forall ns N m (I : Fin.t ns -> mat N m) J aXX wq nk Fk ek Fq eq kpairs Cq bq, wq <> 0%R ->
  eB ns N m I J aXX false nk Fk ek Fq eq kpairs Cq bq = (1/2 * wq * Fq bq * Re (bracket (Cq bq) (mscal (RtoC (- aXX)) (opX ns N m I J wq nk Fk kpairs)) (Cq bq)))%R.
Proof.
  intros. unfold eB, opX. rewrite bracket_scal_m, Re_scal, bracket_sum, Re_sumC. rewrite <- !sumR_scal. apply sumR_ext. intros bk _.
  rewrite bracket_sum, Re_sumC. rewrite <- !sumR_scal. apply sumR_ext. intros kp _. rewrite bracket_scal_m, Re_scal. unfold eT, weightOf. field. assumption.
Qed.

(** ** Compressed operator *)
Section ACE.
  Context {m n : nat} (K : mat m m) (Cq : mat m n) (V : mat n n) (d : Fin.t n -> R).
  Let W := mmul K Cq.
  Hypothesis HK : posSemi K.
  Hypothesis He : eigensystem (aceOverlap Cq W) V d.
  Lemma M_psd : posSemi (aceOverlap Cq W).
  Proof. unfold aceOverlap, W. apply psd_cong. exact HK. Qed.
  Let S := matFunc V (fun i => RtoC (powOut (-1/2) (d i))).
  Let P := matFunc V (fun i => RtoC (if Rle_dec (d i) 0 then 0%R else 1%R)).
  Lemma d_pos : forall i, (0 <= d i)%R.
  Proof. apply (posSemi_eigs _ _ _ _ M_psd He). Qed.
  Lemma W_P : mmul W P = W.
  Proof.
    assert (mmul W (matFunc V (fun i => RtoC (if Rle_dec (d i) 0 then 1%R else 0%R))) = mzero) as Z.
    { set (Q := matFunc V _). unfold W. rewrite <- mmul_assoc.
      assert (forall k, mvec K (fun i => mmul Cq (mmul V (mdiag (fun i => RtoC (if Rle_dec (d i) 0 then 1%R else 0%R)))) i k) = cvzero) as Hcol.
      { intros k. apply psd_kernel; [exact HK|].
        set (B := mmul Cq (mmul V _)).
        assert (bracket (fun i => B i k) K (fun i => B i k) = mmul (madj B) (mmul K B) k k) as -> by reflexivity.
        assert (mmul (madj B) (mmul K B) = mdiag (fun i => RtoC ((if Rle_dec (d i) 0 then 1%R else 0%R) * d i * (if Rle_dec (d i) 0 then 1%R else 0%R)))) as ->.
        { unfold B. rewrite !madj_mul. set (D := mdiag (fun i : Fin.t n => RtoC (if Rle_dec (d i) 0 then 1%R else 0%R))).
          transitivity (mmul (madj D) (mmul (mmul (madj V) (mmul (aceOverlap Cq W) V)) D)).
          { unfold aceOverlap, W. rewrite !mmul_assoc. reflexivity. }
          assert (mmul (aceOverlap Cq W) V = mmul V (mdiag (fun i => RtoC (d i)))) as ->.
          { apply mat_ext. intros i j. destruct He as [_ He2]. rewrite He2, mdiag_r. ring. }
          rewrite (mmul_assoc _ _ _ _ (madj V) V). destruct He as [[HV _] _]. rewrite HV, mone_l. unfold D. rewrite madj_diag, !mdiag_mul.
          f_equal. apply functional_extensionality. intros i. rewrite Cconj_R, <- !RtoC_mult. f_equal. ring. }
        unfold mdiag. destruct (Fin.eq_dec k k) as [_|Hn]; [|congruence]. cbn. pose proof (d_pos k). destruct (Rle_dec (d k) 0); [|ring]. replace (d k) with 0%R by lra. ring. }
      unfold Q, matFunc. set (D := mdiag _) in *. rewrite !mmul_assoc, <- (mmul_assoc _ _ _ _ (mmul K Cq)), <- (mmul_assoc _ _ _ _ K).
      assert (mmul K (mmul Cq (mmul V D)) = mzero) as ->; [|apply mmul_0_l].
      apply mat_ext. intros i k. specialize (Hcol k). apply (f_equal (fun v => v i)) in Hcol. exact Hcol. }
    assert (madd P (matFunc V (fun i => RtoC (if Rle_dec (d i) 0 then 1%R else 0%R))) = mone) as E1.
    { destruct He as [HV _]. rewrite <- (matFunc_one _ V HV). unfold P, matFunc. rewrite <- mmul_add_l, <- mmul_add_r. do 2 f_equal. apply mat_ext. intros i j. unfold madd, mdiag.
      destruct (Fin.eq_dec i j); [|ring]. rewrite <- RtoC_plus. f_equal. destruct (Rle_dec (d i) 0); ring. }
    rewrite <- (mone_r _ _ W) at 2. rewrite <- E1, mmul_add_r, Z, madd_0_r. reflexivity.
  Qed.
  Lemma SS_M : mmul (mmul S S) (aceOverlap Cq W) = P.
  Proof.
    destruct He as [HV _]. rewrite (eig_formR _ _ _ _ He). unfold S, P. rewrite !matFunc_mul by exact HV. apply matFunc_ext. intros i. rewrite <- !RtoC_mult. f_equal.
    rewrite <- (powOut_half (d i) (d_pos i)). ring.
  Qed.
  Lemma S_herm : madj S = S.
  Proof. apply matFunc_herm. Qed.
  Lemma M_herm : mmul (madj W) Cq = aceOverlap Cq W.
  Proof. destruct M_psd as [H _]. unfold hermitian in H. rewrite <- H. unfold aceOverlap. rewrite madj_mul, madj_adj. reflexivity. Qed.
  Lemma prepare_some : acePrepare W V d = Some (mmul W S, anyOf (fun i => powSing (-1/2) (d i))).
  Proof. unfold acePrepare, invsqrt. rewrite powMat_some by auto. reflexivity. Qed.
  Let A := mmul (mmul W S) (madj (mmul W S)).
  Lemma A_form : A = mmul (mmul W (mmul S S)) (madj W).
  Proof. unfold A. rewrite madj_mul, S_herm, !mmul_assoc. reflexivity. Qed.
  Lemma A_exact : mmul A Cq = W.
  Proof. rewrite A_form, <- mmul_assoc, M_herm, <- mmul_assoc, SS_M. apply W_P. Qed.
  Lemma PSS : mmul (mmul (mmul S S) (aceOverlap Cq W)) (mmul S S) = mmul S S.
  Proof.
    rewrite SS_M. destruct He as [HV _]. unfold S, P. rewrite !matFunc_mul by exact HV. apply matFunc_ext. intros i. rewrite <- !RtoC_mult. f_equal.
    unfold powOut. destruct (Rlt_dec (-1/2) 0); [|lra]. destruct (Rle_dec (d i) 0); ring.
  Qed.
  Lemma A_herm : madj A = A.
  Proof. unfold A. rewrite madj_mul, madj_adj. reflexivity. Qed.
  Definition aceQ : mat m m := mmul (mmul Cq (mmul S S)) (madj W).
  Lemma K_Q : mmul K aceQ = A.
  Proof. rewrite A_form. unfold aceQ, W. rewrite !mmul_assoc. reflexivity. Qed.
  Lemma K_herm : madj K = K. Proof. apply HK. Qed.
  Lemma Q_K_Q : mmul (madj aceQ) (mmul K aceQ) = A.
  Proof.
    rewrite K_Q, A_form. unfold aceQ. rewrite !madj_mul, madj_adj, S_herm.
    transitivity (mmul (mmul W (mmul (mmul (mmul S S) (aceOverlap Cq W)) (mmul S S))) (madj W)).
    { unfold aceOverlap. rewrite !mmul_assoc. reflexivity. }
    rewrite PSS. reflexivity.
  Qed.
  Lemma A_le : formLe A K.
  Proof.
    intros v. destruct HK as [Hh Hp]. specialize (Hp (fun i => v i + RtoC (- (1)) * mvec aceQ v i)). rewrite quad_bracket in Hp.
    rewrite bracket_add_l, !bracket_add_r, bracket_scal_l, !bracket_scal_r, bracket_scal_l in Hp.
    assert (bracket (mvec aceQ v) K (mvec aceQ v) = bracket v A v) as E1.
    { rewrite bracket_mvec, cvdot_adj, !mvec_mul, <- bracket_mvec. rewrite <- Q_K_Q. rewrite !mmul_assoc. reflexivity. }
    assert (bracket v K (mvec aceQ v) = bracket v A v) as E2.
    { rewrite bracket_mvec, mvec_mul, K_Q. reflexivity. }
    rewrite (bracket_herm _ _ (mvec aceQ v) v Hh), E2, E1, Cconj_R in Hp.
    rewrite !Re_add in Hp. rewrite !Re_scal, Re_conj in Hp. lra.
  Qed.
  Lemma A_psd : posSemi A.
  Proof.
    split; [apply A_herm|]. intros v. rewrite quad_bracket. unfold A. rewrite bracket_mvec, <- mvec_mul, <- (madj_adj _ _ (mmul W S)) at 1. rewrite <- cvdot_adj. apply self_dot_pos.
  Qed.
  Lemma A_Q : mmul A aceQ = A.
  Proof. unfold aceQ. rewrite !mmul_assoc, A_exact, A_form, !mmul_assoc. reflexivity. Qed.
End ACE.
