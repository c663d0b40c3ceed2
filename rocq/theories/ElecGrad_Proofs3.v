(** Auxiliary Hamiltonian, composition of steps and trial points. *)
From Coq Require Import Reals Lra Lia FunctionalExtensionality List.
From Coq Require Fin.
From Coquelicot Require Import Coquelicot.
From Verif Require Import CMat Smear_Model Smear_Proofs FillGrad_Proofs MatFun_Model MatFun_Spec MatFun_Proofs MatFun_Proofs2 MatFun_Proofs3 MatFun_Proofs4 ElecGrad_Model ElecGrad_Spec ElecGrad_Proofs ElecGrad_Proofs2.
Open Scope C_scope.

Lemma Re_opp : forall a, Re (- a) = (- Re a)%R. Proof. reflexivity. Qed.
(** ** real sums over bands *)
Lemma rsumF_ext : forall n (x y : Fin.t n -> R), (forall b, x b = y b) -> rsumF x = rsumF y.
Proof. intros. unfold rsumF. f_equal. apply fsum_ext. intros. rewrite H. reflexivity. Qed.
Lemma Re_fsum : forall n (f : Fin.t n -> C), Re (fsum f) = rsumF (fun b => Re (f b)).
Proof.
  intros n. unfold rsumF. induction n; intros f; [reflexivity|]. cbn [fsum]. rewrite !Re_add. f_equal. apply (IHn (fun i => f (Fin.FS i))).
Qed.
Lemma rsumF_derive : forall n (f : R -> Fin.t n -> R) d, (forall b, is_derive (fun a => f a b) 0 (d b)) -> is_derive (fun a => rsumF (f a)) 0 (rsumF d).
Proof. intros n f d H. apply (cder_fsum n (fun b a => RtoC (f a b)) 0 (fun b => RtoC (d b))). intros b. apply cder_R. apply H. Qed.
Lemma rsumF_scal : forall n c (x : Fin.t n -> R), rsumF (fun b => (c * x b)%R) = (c * rsumF x)%R.
Proof. intros. unfold rsumF. rewrite <- Re_scal, <- fsum_scal. f_equal. apply fsum_ext. intros. apply RtoC_mult. Qed.
Lemma rsumF_sub : forall n (x y : Fin.t n -> R), rsumF (fun b => (x b - y b)%R) = (rsumF x - rsumF y)%R.
Proof. intros. unfold rsumF. transitivity (Re (fsum (fun b => RtoC (x b)) - fsum (fun b => RtoC (y b)))); [|reflexivity]. rewrite <- fsum_sub. f_equal. apply fsum_ext. intros. apply RtoC_minus. Qed.
Lemma rsumF_add : forall n (x y : Fin.t n -> R), rsumF (fun b => (x b + y b)%R) = (rsumF x + rsumF y)%R.
Proof. intros. unfold rsumF. rewrite <- Re_add, <- fsum_add. f_equal. apply fsum_ext. intros. apply RtoC_plus. Qed.
Lemma gradFactor_shift : forall ty w mu e f, smearGradFactor ty w mu e f = smearGradFactor ty w 0 (e - mu) (f - mu).
Proof.
  intros. unfold smearGradFactor. cbv zeta. replace (e - mu - (f - mu))%R with (e - f)%R by ring. rewrite <- smearPrime_shift, <- !smear_shift. reflexivity.
Qed.
Lemma mtr_diag_l : forall n (f : Fin.t n -> R) (X : mat n n), Re (mtr (mmul (mdiag (fun b => RtoC (f b))) X)) = rsumF (fun b => (f b * Re (X b b))%R).
Proof. intros. rewrite mdiag_l. unfold mtr. rewrite Re_fsum. apply rsumF_ext. intros. apply Re_scal. Qed.

Section Haux.
Context {m n : nat}.
Variables (O : mat m m) (s : mstate m n) (d HC : mat m n) (B : mat n n) (w width : R) (ty : SmearingType) (G : mat m n -> (Fin.t n -> R) -> R).
Variables (Linv rot : R -> mat n n) (eigs : R -> Fin.t n -> R) (mu : R -> R) (inv : R -> mat n n) (dL dV : mat n n) (deps : Fin.t n -> R) (dmu c : R).
Hypothesis HO : madj O = O.
Hypothesis H1 : orthonormal O (sC s).
Hypothesis HH : hermitian (hsub (sC s) HC).
Hypothesis Hr : ready s.
Hypothesis Hp : mmul (madj (sC s)) (mmul O d) = mzero.
Hypothesis HB : hermitian B.
Hypothesis Hw : (0 < width)%R.
Let F0 := fun b => smear ty width (mu 0) (sEigs s b).
Hypothesis HG : energyFunctional G w (sC s) HC F0.
Hypothesis HL : forall a, choleskyTri (mmul (madj (movedC s a d)) (mmul O (movedC s a d))) (Linv a).
Hypothesis HdL : mderive Linv 0 dL.
Hypothesis HE : forall a, eigensystem (movedH s a B) (rot a) (eigs a).
Hypothesis R0 : rot 0%R = mone.
Hypothesis HdV : mderive rot 0 dV.
Hypothesis Hde : forall b, is_derive (fun a => eigs a b) 0 (deps b).
Hypothesis Hdmu : is_derive mu 0 dmu.
Hypothesis Hgap : forall i j, sEigs s i = sEigs s j \/ (1 / 1000000 <= Rabs (sEigs s i - sEigs s j))%R.
Hypothesis Hcut : ty = SmearingFermi -> forall b, (tiny < F0 b /\ tiny < 1 - F0 b)%R.
Let freeEnergy := freeEnergyAt s d w width ty G Linv rot eigs mu inv.
Let electrons := electronsAt s d w width ty Linv rot eigs mu inv.
Let f' := fun b => smearPrime ty width (mu 0) (sEigs s b).
Let dF := fun b => ((deps b - dmu) * f' b)%R.
Let Hs := hsub (sC s) HC.

Lemma eigs_0 : forall b, eigs 0%R b = sEigs s b.
Proof.
  intros b. destruct (HE 0%R) as [_ E]. specialize (E b b). rewrite R0, mone_r, movedH_dir, line_0 in E. unfold mone, mdiag in E. destruct (Fin.eq_dec b b); [|contradiction]. rewrite Cmult_1_r in E. apply RtoC_inj in E. auto.
Qed.
Lemma fill_der : forall b, is_derive (fun a => smear ty width (mu a) (eigs a b)) 0 (dF b).
Proof.
  intros b. apply (is_derive_ext (fun a => smear ty width 0 (eigs a b - mu a))); [intros; symmetry; apply smear_shift|]. unfold dF, f'. rewrite smearPrime_shift.
  rewrite <- eigs_0. apply (is_derive_comp (smear ty width 0) (fun a => eigs a b - mu a)%R); [apply derivative; exact Hw|]. apply (is_derive_minus (fun a => eigs a b) mu); [apply Hde|exact Hdmu].
Qed.
Lemma ent_der : is_derive (fun a => rsumF (fun b => width * smearEntropy ty width (mu a) (eigs a b)))%R 0 (rsumF (fun b => (sEigs s b - mu 0) * dF b))%R.
Proof.
  apply (rsumF_derive n (fun a b => width * smearEntropy ty width (mu a) (eigs a b))%R (fun b => (sEigs s b - mu 0) * dF b)%R). intros b.
  apply (is_derive_ext (fun a => width * smearEntropy ty width 0 (eigs a b - mu a))%R); [intros; rewrite (entropy_shift ty width (mu t)); reflexivity|].
  replace ((sEigs s b - mu 0) * dF b)%R with ((deps b - dmu) * ((eigs 0%R b - mu 0%R - 0) * smearPrime ty width 0 (eigs 0%R b - mu 0%R)))%R by (unfold dF, f'; rewrite <- smearPrime_shift, eigs_0; ring).
  apply (is_derive_comp (fun e => width * smearEntropy ty width 0 e)%R (fun a => eigs a b - mu a)%R).
  - apply entropy_derivative; [exact Hw|]. intros Ht. rewrite <- smear_shift, eigs_0. apply (Hcut Ht b).
  - apply (is_derive_minus (fun a => eigs a b) mu); [apply Hde|exact Hdmu].
Qed.
(** the derivative of the density matrix in the occupied space *)
Let dFm := Kform dV (fun b => RtoC (F0 b)) (fun b => RtoC (dF b)).
Lemma smear_contract : forall X : mat n n, mtr (mmul (smearGradMat ty width (mu 0) (sEigs s) X) (msub (dirH s B) (mscal (RtoC dmu) mone))) = mtr (mmul X dFm).
Proof.
  intros X.
  assert (forall a, unitary (rot a)) as RU by (intros; apply HE).
  assert (mderive (fun a => matFunc (rot a) (fun i => RtoC (eigs a i - mu a))) 0 (msub (dirH s B) (mscal (RtoC dmu) mone))) as DH.
  { apply (mderive_ext n n (fun a => msub (movedH s a B) (mscal (RtoC (mu a)) mone))).
    - intros a. rewrite (eig_formR n _ _ _ (HE a)). transitivity (msub (matFunc (rot a) (fun i => RtoC (eigs a i))) (matFunc (rot a) (fun _ => RtoC (mu a)))).
      + f_equal. unfold matFunc. replace (mdiag (fun _ => RtoC (mu a))) with (mscal (RtoC (mu a)) (mone : mat n n)) by (apply mat_ext; intros i j; unfold mscal, mone, mdiag; destruct (Fin.eq_dec i j); ring).
        rewrite mmul_scal_r, mone_r, mmul_scal_l. destruct (RU a) as [_ ->]. reflexivity.
      + rewrite matFunc_sub. apply matFunc_ext. intros. symmetry. apply RtoC_minus.
    - intros i j.
      destruct (line_derive n n (mdiag (fun b => RtoC (sEigs s b))) (dirH s B) i j) as [A1 A2].
      assert (forall r, is_derive (fun a => mu a * r)%R 0 (dmu * r)%R) as Am. { intros r. apply (is_derive_ext (fun a => r * mu a)%R); [intros; apply Rmult_comm|]. rewrite Rmult_comm. apply (is_derive_scal mu). exact Hdmu. }
      split.
      + replace (Re (msub (dirH s B) (mscal (RtoC dmu) mone) i j)) with (Re (dirH s B i j) - dmu * Re (mone i j : C))%R by (unfold msub, mscal; cbn; unfold Re; ring).
        apply (is_derive_ext (fun a => Re (movedH s a B i j) - mu a * Re (mone i j : C))%R); [intros t; unfold msub, mscal; cbn; unfold Re; match goal with |- ?a = ?b => change (@eq R a b) end; ring|].
        apply (is_derive_minus (fun a => Re (movedH s a B i j)) (fun a => mu a * Re (mone i j : C))%R); [exact A1|apply Am].
      + replace (Im (msub (dirH s B) (mscal (RtoC dmu) mone) i j)) with (Im (dirH s B i j) - dmu * Im (mone i j : C))%R by (unfold msub, mscal; cbn; unfold Im; ring).
        apply (is_derive_ext (fun a => Im (movedH s a B i j) - mu a * Im (mone i j : C))%R); [intros t; unfold msub, mscal; cbn; unfold Im; match goal with |- ?a = ?b => change (@eq R a b) end; ring|].
        apply (is_derive_minus (fun a => Im (movedH s a B i j)) (fun a => mu a * Im (mone i j : C))%R); [exact A2|apply Am]. }
  assert (mderive (fun a => matFunc (rot a) (fun i => RtoC (smear ty width 0 (eigs a i - mu a)))) 0 dFm) as DF.
  { apply (mderive_ext n n (fun a => matFunc (rot a) (fun i => RtoC (smear ty width (mu a) (eigs a i))))); [intros; apply matFunc_ext; intros; rewrite smear_shift; reflexivity|].
    pose proof (matFunc_derive n rot 0 dV RU HdV (fun a i => RtoC (smear ty width (mu a) (eigs a i))) (fun i => RtoC (dF i)) (fun i => cder_R _ _ _ (fill_der i))) as HD.
    rewrite R0 in HD. unfold inBasis in HD. rewrite madj_one, !mone_l, mone_r in HD. unfold dFm, F0. replace (fun b => RtoC (smear ty width (mu 0%R) (sEigs s b))) with (fun i => RtoC (smear ty width (mu 0%R) (eigs 0%R i))) by (apply functional_extensionality; intros; rewrite eigs_0; reflexivity). exact HD. }
  rewrite <- (smear_grad_ok n ty width 0 rot 0 dV (fun a i => (eigs a i - mu a)%R) (fun i => (deps i - dmu)%R) Hw RU R0 HdV) with (dH := msub (dirH s B) (mscal (RtoC dmu) mone)) (dF := dFm).
  - f_equal. f_equal. unfold smearGradMat. apply mat_ext. intros i j. rewrite gradFactor_shift, !eigs_0. reflexivity.
  - intros i. apply (is_derive_minus (fun a => eigs a i) mu); [apply Hde|exact Hdmu].
  - intros i j. rewrite !eigs_0. replace (sEigs s i - mu 0 - (sEigs s j - mu 0))%R with (sEigs s i - sEigs s j)%R by ring. destruct (Hgap i j) as [E|E]; [left; rewrite E; reflexivity|right; exact E].
  - exact DH.
  - exact DF.
Qed.
Lemma smearGrad_trace : forall X : mat n n, Re (mtr (smearGradMat ty width (mu 0) (sEigs s) X)) = rsumF (fun b => (f' b * Re (X b b))%R).
Proof.
  intros X. unfold mtr. rewrite Re_fsum. apply rsumF_ext. intros b. unfold smearGradMat. rewrite Re_scal. f_equal. unfold smearGradFactor. cbv zeta. rewrite Rminus_eq_0, Rabs_R0. destruct (Rlt_dec 0 (1/1000000)); [reflexivity|lra].
Qed.
Lemma dFm_diag : forall b, dFm b b = RtoC (dF b).
Proof. intros b. unfold dFm, Kform, mdiag. destruct (Fin.eq_dec b b); [ring|contradiction]. Qed.
Lemma HBd : hermitian (dirH s B).
Proof. unfold dirH. destruct (sExists s); [|exact HB]. unfold hermitian. rewrite !madj_mul, madj_adj, HB, mmul_assoc. reflexivity. Qed.

Lemma Haux_gradient :
  is_derive electrons 0 (w * rsumF dF)%R /\
  is_derive freeEnergy 0 (dotC (rotatedGradC s (gradC O (sC s) HC F0 w)) d
    + dotH (rotatedGradH s (gradHauxMat ty width (mu 0) c w (sEigs s) Hs)) B
    + (mu 0 + c) * (w * rsumF dF) + dmu * (w * (c * rsumF f' - rsumF (fun b => f' b * (Re (Hs b b) - sEigs s b)))))%R.
Proof.
  split. { unfold electrons, electronsAt. cbn [sEigs stepRot]. apply (is_derive_scal (fun a => rsumF (fun b => smear ty width (mu a) (eigs a b)))). apply (rsumF_derive n (fun a b => smear ty width (mu a) (eigs a b)) dF). exact fill_der. }
  rewrite ready_dotC by exact Hr. rewrite ready_dotH by exact Hr. set (d' := dirC s d).
  assert (forall a, unitary (rot a)) as RU by (intros; apply HE).
  pose proof (antiherm_unitary n rot dV RU R0 HdV) as HK.
  destruct (step_derive m n O (sC s) d' Linv rot dL dV HO H1 (dirC_perp m n O s d Hp) HL HdL R0 HdV) as [S0 SD].
  assert (is_derive (fun a => G (stepPath (sC s) d' Linv rot a) (fun b => smear ty width (mu a) (eigs a b))) 0 (dotC (gradC O (sC s) HC F0 w) d' + w * Re (mtr (mmul Hs dFm)))%R) as DG.
  { pose proof (energy_split m n O (sC s) HC d' F0 dF w dV HO H1 HH (dirC_perp m n O s d Hp) HK) as ES. fold Hs in ES. fold dFm in ES. rewrite <- ES.
    apply (HG (stepPath (sC s) d' Linv rot) (fun a b => smear ty width (mu a) (eigs a b))); [exact S0| |exact SD|exact fill_der]. apply functional_extensionality. intros b. rewrite eigs_0. reflexivity. }
  unfold freeEnergy, freeEnergyAt. cbn [sEigs stepRot sC].
  assert ((dotC (gradC O (sC s) HC F0 w) d' + dotH (gradHauxMat ty width (mu 0) c w (sEigs s) Hs) (dirH s B) + (mu 0 + c) * (w * rsumF dF) + dmu * (w * (c * rsumF f' - rsumF (fun b => f' b * (Re (Hs b b) - sEigs s b)))))%R =
    (dotC (gradC O (sC s) HC F0 w) d' + w * Re (mtr (mmul Hs dFm)) - w * rsumF (fun b => ((sEigs s b - mu 0) * dF b)%R))%R) as ->.
  { set (gradF0 := msub Hs (mdiag (fun b => RtoC (sEigs s b)))). set (gradF := msub gradF0 (mscal (RtoC c) mone)).
    assert (dotH (gradHauxMat ty width (mu 0) c w (sEigs s) Hs) (dirH s B) = w * Re (mtr (mmul (smearGradMat ty width (mu 0) (sEigs s) gradF) (dirH s B))))%R as E1.
    { unfold dotH, gradHauxMat. cbv zeta. fold gradF0. fold gradF. rewrite madj_scal, Cconj_R, mmul_scal_l, mtr_scal, Re_scal. f_equal.
      destruct (sym_ok n (smearGradMat ty width (mu 0) (sEigs s) gradF)) as (S1 & _ & S3). rewrite S1, (S3 _ HBd). reflexivity. }
    pose proof (smear_contract gradF) as E2. rewrite mmul_sub_r, mtr_sub, mmul_scal_r, mone_r, mtr_scal in E2. apply (f_equal Re) in E2. unfold Cminus in E2. rewrite Re_add in E2.
    rewrite Re_opp, Re_scal, smearGrad_trace in E2.
    assert (Re (mtr (mmul gradF dFm)) = Re (mtr (mmul Hs dFm)) - rsumF (fun b => sEigs s b * dF b) - c * rsumF dF)%R as E3.
    { unfold gradF, gradF0. rewrite !mmul_sub_l, !mtr_sub, mmul_scal_l, mone_l, mtr_scal. unfold Cminus. rewrite !Re_add.
      rewrite !Re_opp, mtr_diag_l, Re_scal. 
      assert (Re (mtr dFm) = rsumF dF) as -> by (unfold mtr; rewrite Re_fsum; apply rsumF_ext; intros; rewrite dFm_diag; reflexivity).
      rewrite (rsumF_ext n (fun b => sEigs s b * Re (dFm b b))%R (fun b => sEigs s b * dF b)%R) by (intros; rewrite dFm_diag; reflexivity). ring. }
    assert (rsumF (fun b => f' b * Re (gradF b b)) = rsumF (fun b => f' b * (Re (Hs b b) - sEigs s b)) - c * rsumF f')%R as E4.
    { rewrite <- rsumF_scal, <- rsumF_sub. apply rsumF_ext. intros b. unfold gradF, gradF0, msub, mscal, mone, mdiag. destruct (Fin.eq_dec b b); [|contradiction]. cbn. unfold Re. ring. }
    assert (rsumF (fun b => (sEigs s b - mu 0) * dF b) = rsumF (fun b => sEigs s b * dF b) - mu 0 * rsumF dF)%R as E5 by (rewrite <- rsumF_scal, <- rsumF_sub; apply rsumF_ext; intros; ring).
    rewrite E1, E5. rewrite E4, E3 in E2.
    assert (Re (mtr (mmul (smearGradMat ty width (mu 0) (sEigs s) gradF) (dirH s B))) = Re (mtr (mmul Hs dFm)) - rsumF (fun b => sEigs s b * dF b) - c * rsumF dF + dmu * (rsumF (fun b => f' b * (Re (Hs b b) - sEigs s b)) - c * rsumF f'))%R as -> by lra. ring. }
  apply (is_derive_minus (fun a => G (mmul (movedC s a d) (mmul (orthoMatrix (Linv a)) (rot a))) (fun b => smear ty width (mu a) (eigs a b))) (fun a => w * rsumF (fun b => width * smearEntropy ty width (mu a) (eigs a b)))%R); [exact DG|].
  apply (is_derive_scal (fun a => rsumF (fun b => width * smearEntropy ty width (mu a) (eigs a b))%R)). exact ent_der.
Qed.
End Haux.
