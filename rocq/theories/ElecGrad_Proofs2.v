(** Directional derivatives of the energy along the steps of the minimizer. *)
From Coq Require Import Reals Lra Lia FunctionalExtensionality.
From Coq Require Fin.
From Coquelicot Require Import Coquelicot.
From Verif Require Import CMat Smear_Model Smear_Proofs FillGrad_Proofs MatFun_Model MatFun_Spec MatFun_Proofs MatFun_Proofs2 MatFun_Proofs3 MatFun_Proofs4 ElecGrad_Model ElecGrad_Spec ElecGrad_Proofs.
Open Scope C_scope.

Lemma constrain_ok : forall m n (O : mat m m) (Cq dir : mat m n), orthonormal O Cq ->
  mmul (madj Cq) (mmul O (constrainC O Cq dir)) = mzero /\ constrainC O Cq (constrainC O Cq dir) = constrainC O Cq dir /\
  (forall X, constrainC O Cq (madd dir (mmul Cq X)) = constrainC O Cq dir).
Proof.
  intros m n O Cq dir H1.
  assert (forall e, mmul (madj Cq) (mmul O (constrainC O Cq e)) = mzero) as H0.
  { intros e. unfold constrainC. rewrite !mmul_sub_r. rewrite (mmul_assoc _ _ _ _ O), (mmul_assoc _ _ _ _ (madj Cq) (mmul O Cq)). unfold orthonormal in H1. rewrite H1, mone_l. apply msub_adj_self. }
  assert (forall e : mat m n, msub e mzero = e) as S0 by (intros; apply mat_ext; intros; unfold msub, mzero; ring).
  split; [apply H0|]. split.
  - unfold constrainC at 1. rewrite H0, mmul_0_r. apply S0.
  - intros X. unfold constrainC. rewrite !mmul_add_r. rewrite (mmul_assoc _ _ _ _ O Cq X), (mmul_assoc _ _ _ _ (madj Cq) (mmul O Cq) X). unfold orthonormal in H1. rewrite H1, mone_l. apply mat_ext. intros i j. unfold msub, madd. ring.
Qed.
(** ** the state at the start of a line search *)
Definition dirC {m n} (s : mstate m n) (d : mat m n) : mat m n := if sExists s then mmul d (sRotC s) else d.
Definition dirH {m n} (s : mstate m n) (B : mat n n) : mat n n := if sExists s then mmul (mmul (madj (sRot s)) B) (sRot s) else B.
Lemma dirC_perp : forall m n (O : mat m m) (s : mstate m n) d, mmul (madj (sC s)) (mmul O d) = mzero -> mmul (madj (sC s)) (mmul O (dirC s d)) = mzero.
Proof. intros m n O s d H. unfold dirC. destruct (sExists s); [|exact H]. rewrite (mmul_assoc _ _ _ _ O), mmul_assoc, H, mmul_0_l. reflexivity. Qed.
Lemma ready_dotC : forall m n (s : mstate m n) g d, ready s -> dotC (rotatedGradC s g) d = dotC g (dirC s d).
Proof.
  intros m n s g d Hr. unfold rotatedGradC, dirC. destruct (sExists s) eqn:E; [|reflexivity]. destruct Hr as [Hr|(HU & H1 & H2)]; [congruence|]. unfold dotC. f_equal. f_equal.
  rewrite H2, H1, madj_mul, madj_adj, <- mmul_assoc, mtr_comm, mmul_assoc. reflexivity.
Qed.
Lemma ready_dotH : forall m n (s : mstate m n) g B, ready s -> dotH (rotatedGradH s g) B = dotH g (dirH s B).
Proof.
  intros m n s g B Hr. unfold rotatedGradH, dirH. destruct (sExists s) eqn:E; [|reflexivity]. unfold dotH. f_equal.
  rewrite !madj_mul, madj_adj, <- !mmul_assoc, mtr_comm, <- !mmul_assoc. reflexivity.
Qed.
Lemma movedC_dir : forall m n (s : mstate m n) a d, movedC s a d = madd (sC s) (mscal (RtoC a) (dirC s d)).
Proof. reflexivity. Qed.
Lemma movedH_dir : forall m n (s : mstate m n) a B, movedH s a B = madd (mdiag (fun b => RtoC (sEigs s b))) (mscal (RtoC a) (dirH s B)).
Proof. reflexivity. Qed.

(** ** scalar fillings *)
Lemma scalar_energy : forall m n (O : mat m m) (Cq HC d : mat m n) f w K, madj O = O -> orthonormal O Cq -> hermitian (hsub Cq HC) ->
  madd (madd (madj K) K) (madd (mmul (madj d) (mmul O Cq)) (mmul (madj Cq) (mmul O d))) = mzero ->
  energyDerivative w Cq HC (madd d (mmul Cq K)) (fun _ => f) (fun _ => 0%R) = dotC (gradC O Cq HC (fun _ => f) w) d.
Proof.
  intros m n O Cq HC d f w K HO H1 HH HK. rewrite energy_tr.
  assert (mdiag (fun _ : Fin.t n => RtoC f) = mscal (RtoC f) mone) as ED by (apply mat_ext; intros i j; unfold mscal, mone, mdiag; destruct (Fin.eq_dec i j); ring).
  assert (mdiag (fun _ : Fin.t n => RtoC 0) = mzero) as EZ by (apply mat_ext; intros i j; unfold mzero, mdiag; destruct (Fin.eq_dec i j); reflexivity).
  rewrite EZ, mmul_0_r, mtr_0, ED, mmul_scal_l, mone_l, mtr_scal, Re_scal.
  unfold dotC, gradC. rewrite madj_mul, madj_sub, !madj_mul, HO, HH.
  assert (mdiag (fun _ : Fin.t n => RtoC (f * w)) = mscal (RtoC (f * w)) mone) as -> by (apply mat_ext; intros i j; unfold mscal, mone, mdiag; destruct (Fin.eq_dec i j); ring).
  rewrite madj_scal, madj_one, Cconj_R, !mmul_scal_l, mone_l, mtr_scal, Re_scal.
  rewrite mmul_add_r, mtr_add, Re_add.
  assert (mmul (madj HC) (mmul Cq K) = mmul (hsub Cq HC) K) as ->. { rewrite mmul_assoc. f_equal. rewrite <- HH. unfold hsub. rewrite madj_mul, madj_adj. reflexivity. }
  rewrite mmul_sub_l, mtr_sub. rewrite <- !(mmul_assoc _ _ _ _ (hsub Cq HC)), <- (mmul_assoc _ _ _ _ (madj Cq) O d).
  set (Hs := hsub Cq HC) in *. set (X := mmul (madj Cq) (mmul O d)) in *.
  assert (mmul (madj d) (mmul O Cq) = madj X) as EX. { unfold X. rewrite !madj_mul, madj_adj, HO, mmul_assoc. reflexivity. }
  rewrite EX in HK.
  assert (forall Y, Re (mtr (mmul Hs (madj Y))) = Re (mtr (mmul Hs Y))) as Hsym.
  { intros Y. rewrite <- (Re_conj (mtr (mmul Hs Y))), <- mtr_adj, madj_mul, HH, mtr_comm. reflexivity. }
  assert (Re (mtr (mmul Hs K)) = - Re (mtr (mmul Hs X)))%R as EK.
  { apply (f_equal (fun M => Re (mtr (mmul Hs M)))) in HK. rewrite mmul_0_r, mtr_0, !mmul_add_r, !mtr_add, !Re_add, !Hsym in HK. change (Re 0) with 0%R in HK. lra. }
  rewrite EK. unfold Cminus. rewrite Re_add. replace (Re (- mtr (mmul Hs X))) with (- Re (mtr (mmul Hs X)))%R by reflexivity. change (Re 0) with 0%R. ring.
Qed.
Lemma line_derive : forall m n (Cq d : mat m n), mderive (fun a => madd Cq (mscal (RtoC a) d)) 0 d.
Proof.
  intros m n Cq d i j. unfold madd, mscal. split.
  - apply (is_derive_ext (fun s => Re (Cq i j) + s * Re (d i j))%R); [intros; cbn; unfold Re; ring|]. auto_derive; auto. ring.
  - apply (is_derive_ext (fun s => Im (Cq i j) + s * Im (d i j))%R); [intros; cbn; unfold Im; ring|]. auto_derive; auto. ring.
Qed.
Lemma line_0 : forall m n (Cq d : mat m n), madd Cq (mscal (RtoC 0) d) = Cq.
Proof. intros. apply mat_ext; intros; unfold madd, mscal; ring. Qed.
Lemma scalar_gradient : forall m n (O : mat m m) (s : mstate m n) d HC f w G (Linv : R -> mat n n) dL, madj O = O -> orthonormal O (sC s) -> hermitian (hsub (sC s) HC) -> ready s ->
  energyFunctional G w (sC s) HC (fun _ => f) ->
  (forall a, choleskyTri (mmul (madj (movedC s a d)) (mmul O (movedC s a d))) (Linv a)) -> mderive Linv 0 dL ->
  is_derive (fun a => G (sC (stepScalar s a d (Linv a))) (fun _ => f)) 0 (dotC (rotatedGradC s (gradC O (sC s) HC (fun _ => f) w)) d).
Proof.
  intros m n O s d HC f w G Linv dL HO H1 HH Hr HG HL Hd. rewrite ready_dotC by exact Hr. set (d' := dirC s d).
  set (P := fun a => movedC s a d). assert (P 0%R = sC s) as P0 by (unfold P; rewrite movedC_dir; apply line_0).
  assert (mderive P 0 d') as HP by (apply line_derive).
  assert (Linv 0%R = mone) as L0. { apply chol_one. specialize (HL 0%R). change (movedC s 0 d) with (P 0%R) in HL. rewrite P0, H1 in HL. exact HL. }
  assert (mderive (fun a => mmul (P a) (orthoMatrix (Linv a))) 0 (madd d' (mmul (sC s) (madj dL)))) as HC'.
  { replace (madd d' (mmul (sC s) (madj dL))) with (madd (mmul d' (orthoMatrix (Linv 0%R))) (mmul (P 0%R) (madj dL))).
    - apply mderive_mul; [exact HP|]. apply mderive_adj. exact Hd.
    - unfold orthoMatrix. rewrite L0, P0, madj_one, mone_r. reflexivity. }
  rewrite <- (scalar_energy m n O (sC s) HC d' f w (madj dL) HO H1 HH).
  - apply (HG (fun a => mmul (P a) (orthoMatrix (Linv a))) (fun _ _ => f)); [|reflexivity|exact HC'|intros; exact (is_derive_const (K:=R_AbsRing) (V:=R_NormedModule) f 0)].
    unfold orthoMatrix. rewrite P0, L0, madj_one, mone_r. reflexivity.
  - apply (mderive_unique n n (fun _ => mone) 0); [|apply mderive_const].
    apply (mderive_ext n n (fun a => mmul (mmul (Linv a) (mmul (madj (P a)) (mmul O (P a)))) (madj (Linv a)))).
    + intros a. destruct (HL a) as (L & E & I1 & I2 & _). change (movedC s a d) with (P a) in E. rewrite E, mmul_assoc, I1, mone_l, <- madj_mul, I1. apply madj_one.
    + rewrite madj_adj.
      replace (madd (madd dL (madj dL)) (madd (mmul (madj d') (mmul O (sC s))) (mmul (madj (sC s)) (mmul O d')))) with
        (madd (mmul (madd (mmul dL (mmul (madj (P 0%R)) (mmul O (P 0%R)))) (mmul (Linv 0%R) (madd (mmul (madj d') (mmul O (P 0%R))) (mmul (madj (P 0%R)) (madd (mmul mzero (P 0%R)) (mmul O d')))))) (madj (Linv 0%R))) (mmul (mmul (Linv 0%R) (mmul (madj (P 0%R)) (mmul O (P 0%R)))) (madj dL))).
      * apply (mderive_mul n n n (fun a => mmul (Linv a) (mmul (madj (P a)) (mmul O (P a)))) (fun a => madj (Linv a))); [|apply mderive_adj; exact Hd]. apply mderive_mul; [exact Hd|].
        apply mderive_mul; [apply mderive_adj; exact HP|]. apply (mderive_mul m m n (fun _ => O) P); [apply mderive_const|exact HP].
      * unfold orthonormal in H1. rewrite L0, P0, H1, mmul_0_l, madd_0_l, madj_one, !mone_r, !mone_l. apply mat_ext. intros i j. unfold madd. ring.
Qed.
(** ** the derivative of cis(alpha B) *)
Lemma cis_path : forall n (B W : mat n n) d (V : R -> mat n n) , eigensystem B W d -> (forall a, exists W' d', eigensystem (mscal (RtoC a) B) W' d' /\ V a = cisMat W' d') ->
  (forall a, unitary (V a)) /\ V 0%R = mone /\ mderive V 0 (mscal Ci B).
Proof.
  intros n B W d V HB HV.
  assert (forall a, V a = matFunc W (fun i => ccis (a * d i))) as EV.
  { intros a. destruct (HV a) as (W' & d' & HE & ->). apply (cis_independent n (mscal (RtoC a) B) W' W d' (fun i => (a * d i)%R) HE). destruct HB as [HU HE']. split; [exact HU|]. intros i k. rewrite mmul_scal_l. unfold mscal. rewrite HE', RtoC_mult. ring. }
  split; [|split].
  - intros a. rewrite EV. apply (cis_unitary n W (fun i => (a * d i)%R)). apply HB.
  - rewrite EV. transitivity (matFunc W (fun _ => 1)); [|apply matFunc_one; apply HB]. apply matFunc_ext. intros i. rewrite Rmult_0_l. apply ccis_0.
  - apply (mderive_ext n n (fun a => matFunc W (fun i => ccis (a * d i)))); [intros; symmetry; apply EV|].
    assert (mscal Ci B = inBasis W (mdiag (fun i => Ci * RtoC (d i)))) as ->.
    { rewrite (eig_formR n B W d HB). rewrite <- matFunc_inBasis. unfold matFunc. apply mat_ext. intros i j.
      replace (mdiag (fun i => Ci * RtoC (d i))) with (mscal Ci (mdiag (fun i => RtoC (d i)))) by (apply mat_ext; intros a b; unfold mscal, mdiag; destruct (Fin.eq_dec a b); ring).
      rewrite mmul_scal_r, mmul_scal_l. reflexivity. }
    unfold inBasis. unfold matFunc.
    replace (mmul (mmul W (mdiag (fun i => Ci * RtoC (d i)))) (madj W)) with (madd (mmul (madd (mmul mzero (mdiag (fun i => ccis (0 * d i)))) (mmul W (mdiag (fun i => Ci * RtoC (d i))))) (madj W)) (mmul (mmul W (mdiag (fun i => ccis (0 * d i)))) mzero)).
    + apply (mderive_mul n n n (fun a => mmul W (mdiag (fun i => ccis (a * d i)))) (fun _ => madj W)); [|apply mderive_const]. apply (mderive_mul n n n (fun _ => W) (fun a => mdiag (fun i => ccis (a * d i)))); [apply mderive_const|]. apply mderive_diag. intros i.
      pose proof (cder_cis (fun a => (a * d i)%R) 0 (d i)) as H. cbv beta in H. rewrite Rmult_0_l, ccis_0, Cmult_1_r in H. apply H. auto_derive; auto. ring.
    + rewrite mmul_0_l, mmul_0_r, madd_0_l, madd_0_r. reflexivity.
Qed.
Lemma rotation_gradient : forall m n (O : mat m m) (s : mstate m n) d B HC F w G (Linv V : R -> mat n n) dL W dB e inv, madj O = O -> orthonormal O (sC s) -> hermitian (hsub (sC s) HC) -> ready s ->
  mmul (madj (sC s)) (mmul O d) = mzero -> hermitian B -> eigensystem B W dB ->
  energyFunctional G w (sC s) HC F ->
  (forall a, choleskyTri (mmul (madj (movedC s a d)) (mmul O (movedC s a d))) (Linv a)) -> mderive Linv 0 dL ->
  (forall a, exists W' d', eigensystem (mscal (RtoC a) B) W' d' /\ V a = cisMat W' d') ->
  is_derive (fun a => G (sC (stepRot s a d (Linv a) (V a) e (inv a))) F) 0
    (dotC (rotatedGradC s (gradC O (sC s) HC F w)) d + w * dotH (gradRotation F (hsub (sC s) HC)) B)%R.
Proof.
  intros m n O s d B HC F w G Linv V dL W dB e inv HO H1 HH Hr Hp HB HE HG HL Hd HV. rewrite ready_dotC by exact Hr. set (d' := dirC s d).
  destruct (cis_path n B W dB V HE HV) as (VU & V0 & VD).
  destruct (step_derive m n O (sC s) d' Linv V dL (mscal Ci B) HO H1 (dirC_perp m n O s d Hp) HL Hd V0 VD) as [S0 SD].
  rewrite <- (gradRotation_contract n F (hsub (sC s) HC) B HH HB).
  rewrite <- (energy_split m n O (sC s) HC d' F (fun _ => 0%R) w (mscal Ci B) HO H1 HH (dirC_perp m n O s d Hp) (antiherm_unitary n V _ VU V0 VD)).
  apply (HG (stepPath (sC s) d' Linv V) (fun _ => F)); [exact S0|reflexivity|exact SD|]. intros b. exact (is_derive_const (K:=R_AbsRing) (V:=R_NormedModule) (F b) 0).
Qed.
