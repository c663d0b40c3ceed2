(** Gradients of the electronic energy along the steps of the minimizer. *)
From Coq Require Import Reals Lra Lia FunctionalExtensionality.
From Coq Require Fin.
From Coquelicot Require Import Coquelicot.
From Verif Require Import CMat Smear_Model Smear_Proofs MatFun_Model MatFun_Spec MatFun_Proofs MatFun_Proofs2 MatFun_Proofs3 MatFun_Proofs4 ElecGrad_Model ElecGrad_Spec.
Open Scope C_scope.

Lemma msub_adj_self : forall n m (A : mat n m), msub A A = mzero.
Proof. intros. apply mat_ext. intros. unfold msub, mzero. ring. Qed.
Lemma madd_0_l : forall n m (A : mat n m), madd mzero A = A.
Proof. intros. apply mat_ext. intros. unfold madd, mzero. ring. Qed.
Lemma madd_0_r : forall n m (A : mat n m), madd A mzero = A.
Proof. intros. apply mat_ext. intros. unfold madd, mzero. ring. Qed.
Lemma mtr_0 : forall n, mtr (mzero : mat n n) = 0.
Proof. intros. apply fsum_0. Qed.
Lemma Re_add : forall a b, Re (a + b) = (Re a + Re b)%R. Proof. reflexivity. Qed.
Lemma Re_scal : forall (r : R) a, Re (RtoC r * a) = (r * Re a)%R. Proof. intros r [a b]. cbn. ring. Qed.
Lemma Re_conj : forall a, Re (Cconj a) = Re a. Proof. reflexivity. Qed.
Lemma RtoC_m1 : RtoC (-1) = - (1). Proof. apply injective_projections; cbn; ring. Qed.
(** energyDerivative as a trace *)
Lemma energy_tr : forall m n w (Cq HC dC : mat m n) F dF, energyDerivative w Cq HC dC F dF =
  (w * (2 * Re (mtr (mmul (mdiag (fun b => RtoC (F b))) (mmul (madj HC) dC))) + Re (mtr (mmul (hsub Cq HC) (mdiag (fun b => RtoC (dF b)))))))%R.
Proof. intros. unfold energyDerivative. rewrite mdiag_l, mdiag_r. reflexivity. Qed.
(** the wavefunction gradient does not see changes within the occupied space *)
Lemma gradC_span : forall m n (O : mat m m) (Cq HC : mat m n) F w X, madj O = O -> orthonormal O Cq -> hermitian (hsub Cq HC) -> dotC (gradC O Cq HC F w) (mmul Cq X) = 0%R.
Proof.
  intros m n O Cq HC F w X HO H1 HH. unfold dotC, gradC. rewrite madj_mul, madj_sub, !madj_mul, HO, HH.
  assert (mmul (msub (madj HC) (mmul (hsub Cq HC) (mmul (madj Cq) O))) (mmul Cq X) = mzero) as E.
  { rewrite mmul_assoc, mmul_sub_l. unfold orthonormal in H1. rewrite mmul_assoc in H1. rewrite <- (mmul_assoc _ _ _ _ (hsub Cq HC)), H1, mone_r.
    assert (mmul (madj HC) Cq = hsub Cq HC) as ->. { rewrite <- HH. unfold hsub. rewrite madj_mul, madj_adj. reflexivity. }
    rewrite msub_adj_self. apply mmul_0_l. }
  rewrite <- mmul_assoc, E, mmul_0_r, mtr_0. cbn. ring.
Qed.
Lemma gradC_perp : forall m n (O : mat m m) (Cq HC d : mat m n) F w, madj O = O -> hermitian (hsub Cq HC) -> mmul (madj Cq) (mmul O d) = mzero ->
  dotC (gradC O Cq HC F w) d = (w * (2 * Re (mtr (mmul (mdiag (fun b => RtoC (F b))) (mmul (madj HC) d)))))%R.
Proof.
  intros m n O Cq HC d F w HO HH Hp. unfold dotC, gradC. rewrite madj_mul, madj_sub, !madj_mul, HO, HH.
  rewrite <- mmul_assoc, mmul_sub_l. rewrite <- !(mmul_assoc _ _ _ _ (hsub Cq HC)). rewrite <- (mmul_assoc _ _ _ _ (madj Cq)). rewrite Hp, mmul_0_r.
  replace (msub (mmul (madj HC) d) mzero) with (mmul (madj HC) d) by (apply mat_ext; intros; unfold msub, mzero; ring).
  rewrite madj_diag. replace (mdiag (fun i => Cconj (RtoC (F i * w)))) with (mscal (RtoC w) (mdiag (fun b => RtoC (F b)))).
  - rewrite mmul_scal_l, mtr_scal, Re_scal. ring.
  - apply mat_ext. intros i j. unfold mscal, mdiag. destruct (Fin.eq_dec i j); [rewrite Cconj_R, RtoC_mult; ring|ring].
Qed.
(** rotations within the occupied space *)
Lemma rotation_part : forall n (F : Fin.t n -> R) (Hs K : mat n n), hermitian Hs -> madd (madj K) K = mzero ->
  (2 * Re (mtr (mmul (mdiag (fun b => RtoC (F b))) (mmul Hs K))) = Re (mtr (mmul Hs (fun i j => (K i j * (RtoC (F j) - RtoC (F i)))%C))))%R.
Proof.
  intros n F Hs K HH HK. set (D := mdiag (fun b => RtoC (F b))).
  assert (madj K = mscal (RtoC (-1)) K) as EK. { apply mat_ext. intros i j. pose proof (f_equal (fun M => M i j) HK) as E. unfold madd, mzero in E. cbv beta in E. unfold mscal. replace (madj K i j) with (madj K i j + K i j - K i j) by ring. rewrite E. rewrite RtoC_m1. ring. }
  assert (madj D = D) as ED. { unfold D. rewrite madj_diag. f_equal. apply functional_extensionality. intros. apply Cconj_R. }
  assert ((fun i j => K i j * (RtoC (F j) - RtoC (F i))) = msub (mmul K D) (mmul D K)) as ->.
  { unfold D. rewrite mdiag_r, mdiag_l. apply mat_ext. intros. unfold msub. ring. }
  rewrite mmul_sub_r, mtr_sub. 
  assert (Cconj (mtr (mmul D (mmul Hs K))) = - mtr (mmul Hs (mmul D K))) as EC.
  { rewrite <- mtr_adj, !madj_mul, ED, HH, EK, mmul_scal_l, mmul_scal_l, mtr_scal. rewrite <- mmul_assoc, mtr_comm, <- mmul_assoc. rewrite RtoC_m1. ring. }
  assert (mtr (mmul Hs (mmul K D)) = mtr (mmul D (mmul Hs K))) as E2 by (rewrite mmul_assoc, mtr_comm; reflexivity).
  rewrite E2. apply (f_equal Re) in EC. rewrite Re_conj in EC. destruct (mtr (mmul D (mmul Hs K))) as [a b]. destruct (mtr (mmul Hs (mmul D K))) as [c e]. cbn in *. lra.
Qed.
(** ** Orthonormalization along a line *)
Lemma pos_inj : forall n (i j : Fin.t n), pos i = pos j -> i = j.
Proof. intros n i j H. apply Fin.to_nat_inj. exact H. Qed.
Lemma chol_one : forall n (Linv : mat n n), choleskyTri mone Linv -> Linv = mone.
Proof.
  intros n W (L & E & H1 & H2 & [LL LD] & [WL WD]).
  assert (W = madj L) as EW. { rewrite <- (mone_r _ _ W), E, mmul_assoc, H1, mone_l. reflexivity. }
  assert (forall i j, i <> j -> W i j = 0) as Off.
  { intros i j Hn. destruct (Nat.lt_trichotomy (pos i) (pos j)) as [H|[H|H]]; [apply WL; exact H|apply pos_inj in H; contradiction|]. rewrite EW. unfold madj. rewrite LL by exact H. apply Cconj_0. }
  assert (forall i, W i i = 1) as Di.
  { intros i. pose proof (f_equal (fun M => M i i) H1) as Ei. unfold mmul in Ei. rewrite (fsum_ext _ _ (fun l => if Fin.eq_dec i l then W i l * L l i else 0)) in Ei.
    - rewrite fsum_delta in Ei. unfold mone, mdiag in Ei. destruct (Fin.eq_dec i i); [|contradiction].
      assert (L i i = W i i) as EL. { rewrite EW. unfold madj. destruct (LD i) as [Hi _]. destruct (L i i) as [a b]. unfold Im in Hi. cbn in Hi. subst b. apply injective_projections; cbn; ring. }
      rewrite EL in Ei. destruct (WD i) as [Hi Hr]. destruct (W i i) as [a b]. unfold Re, Im in *. cbn in *. subst b. apply (f_equal fst) in Ei. cbn in Ei. apply injective_projections; cbn; [|reflexivity]. nra.
    - intros l. destruct (Fin.eq_dec i l); [reflexivity|]. rewrite Off by assumption. ring. }
  apply mat_ext. intros i j. unfold mone, mdiag. destruct (Fin.eq_dec i j) as [->|Hn]; [apply Di|apply Off; exact Hn].
Qed.
Lemma ortho_flat : forall m n (O : mat m m) (Cq d : mat m n) (Linv : R -> mat n n) dL, madj O = O -> orthonormal O Cq -> mmul (madj Cq) (mmul O d) = mzero ->
  (forall a, choleskyTri (mmul (madj (madd Cq (mscal (RtoC a) d))) (mmul O (madd Cq (mscal (RtoC a) d)))) (Linv a)) -> mderive Linv 0 dL ->
  Linv 0%R = mone /\ dL = mzero.
Proof.
  intros m n O Cq d Linv dL HO H1 Hp HL Hd.
  set (P := fun a => madd Cq (mscal (RtoC a) d)).
  assert (P 0%R = Cq) as P0 by (apply mat_ext; intros; unfold P, madd, mscal; ring).
  assert (mderive P 0 d) as HP.
  { intros i j. unfold P, madd, mscal. split.
    - apply (is_derive_ext (fun s => Re (Cq i j) + s * Re (d i j))%R); [intros; cbn; unfold Re; ring|]. auto_derive; auto. ring.
    - apply (is_derive_ext (fun s => Im (Cq i j) + s * Im (d i j))%R); [intros; cbn; unfold Im; ring|]. auto_derive; auto. ring. }
  assert (Linv 0%R = mone) as L0. { apply chol_one. specialize (HL 0%R). fold (P 0%R) in HL. rewrite P0, H1 in HL. exact HL. }
  split; [exact L0|].
  assert (mmul (madj d) (mmul O Cq) = mzero) as Hp'. { apply (f_equal madj) in Hp. rewrite !madj_mul, madj_adj, HO, madj_zero in Hp. rewrite mmul_assoc. exact Hp. }
  assert (mderive (fun a => mmul (madj (P a)) (mmul O (P a))) 0 mzero) as HM.
  { replace (mzero : mat n n) with (madd (mmul (madj d) (mmul O (P 0%R))) (mmul (madj (P 0%R)) (madd (mmul mzero (P 0%R)) (mmul O d)))).
    - apply mderive_mul; [apply mderive_adj; exact HP|]. apply (mderive_mul m m n (fun _ => O) P); [apply mderive_const|exact HP].
    - rewrite P0, mmul_0_l, madd_0_l, Hp, Hp', madd_0_l. reflexivity. }
  assert (forall a, mmul (mmul (Linv a) (mmul (madj (P a)) (mmul O (P a)))) (madj (Linv a)) = mone) as HI.
  { intros a. destruct (HL a) as (L & E & I1 & I2 & _). fold (P a) in E. rewrite E, mmul_assoc, I1, mone_l, <- madj_mul, I1. apply madj_one. }
  assert (madd dL (madj dL) = mzero) as HK.
  { apply (mderive_unique n n (fun _ => mone) 0); [|apply mderive_const]. apply (mderive_ext n n (fun a => mmul (mmul (Linv a) (mmul (madj (P a)) (mmul O (P a)))) (madj (Linv a)))); [exact HI|].
    replace (madd dL (madj dL)) with (madd (mmul (madd (mmul dL (mmul (madj (P 0%R)) (mmul O (P 0%R)))) (mmul (Linv 0%R) mzero)) (madj (Linv 0%R))) (mmul (mmul (Linv 0%R) (mmul (madj (P 0%R)) (mmul O (P 0%R)))) (madj dL))).
    - apply (mderive_mul n n n (fun a => mmul (Linv a) (mmul (madj (P a)) (mmul O (P a)))) (fun a => madj (Linv a))); [|apply mderive_adj; exact Hd]. apply mderive_mul; [exact Hd|exact HM].
    - rewrite L0, P0, H1, mmul_0_r, madj_one, !mone_r, !mone_l, madd_0_r. reflexivity. }
  assert (forall i j, (pos i < pos j)%nat -> dL i j = 0) as Low.
  { intros i j Hij. apply (cder_unique (fun _ => 0) 0); [|apply cder_const]. apply (cder_ext (fun a => Linv a i j)); [|apply Hd]. intros a. destruct (HL a) as (L & _ & _ & _ & _ & [WL _]). apply WL. exact Hij. }
  assert (forall i, Im (dL i i) = 0%R) as Rl.
  { intros i. destruct (Hd i i) as [_ HIm]. apply (is_derive_ext _ (fun _ => 0%R)) in HIm.
    - apply is_derive_unique in HIm. rewrite Derive_const in HIm. auto.
    - intros a. destruct (HL a) as (L & _ & _ & _ & _ & [_ WD]). apply WD. }
  apply mat_ext. intros i j. pose proof (f_equal (fun M => M i j) HK) as E. unfold madd, madj, mzero in E. cbv beta in E. unfold mzero.
  destruct (Nat.lt_trichotomy (pos i) (pos j)) as [H|[H|H]].
  - apply Low. exact H.
  - apply pos_inj in H. subst j. specialize (Rl i). destruct (dL i i) as [a b]. unfold Im in Rl. cbn in *. subst b. apply (f_equal fst) in E. cbn in E. apply injective_projections; cbn; lra.
  - rewrite (Low j i H) in E. rewrite Cconj_0, Cplus_0_r in E. exact E.
Qed.
(** the wavefunctions of a step of length a along d with rotation V *)
Definition stepPath {m n} (Cq d : mat m n) (Linv V : R -> mat n n) (a : R) : mat m n := mmul (madd Cq (mscal (RtoC a) d)) (mmul (orthoMatrix (Linv a)) (V a)).
Lemma step_derive : forall m n (O : mat m m) (Cq d : mat m n) (Linv V : R -> mat n n) dL dV, madj O = O -> orthonormal O Cq -> mmul (madj Cq) (mmul O d) = mzero ->
  (forall a, choleskyTri (mmul (madj (madd Cq (mscal (RtoC a) d))) (mmul O (madd Cq (mscal (RtoC a) d)))) (Linv a)) -> mderive Linv 0 dL ->
  V 0%R = mone -> mderive V 0 dV ->
  stepPath Cq d Linv V 0 = Cq /\ mderive (stepPath Cq d Linv V) 0 (madd d (mmul Cq dV)).
Proof.
  intros m n O Cq d Linv V dL dV HO H1 Hp HL Hd HV0 HV. destruct (ortho_flat m n O Cq d Linv dL HO H1 Hp HL Hd) as [L0 dL0]. subst dL.
  assert (madd Cq (mscal (RtoC 0) d) = Cq) as P0 by (apply mat_ext; intros; unfold madd, mscal; ring).
  split.
  - unfold stepPath, orthoMatrix. rewrite P0, L0, madj_one, HV0, !mone_r. reflexivity.
  - replace (madd d (mmul Cq dV)) with (madd (mmul d (mmul (orthoMatrix (Linv 0%R)) (V 0%R))) (mmul (madd Cq (mscal (RtoC 0) d)) (madd (mmul (madj mzero) (V 0%R)) (mmul (orthoMatrix (Linv 0%R)) dV)))).
    + apply (mderive_mul m n n (fun a => madd Cq (mscal (RtoC a) d)) (fun a => mmul (orthoMatrix (Linv a)) (V a))).
      * intros i j. unfold madd, mscal. split.
        -- apply (is_derive_ext (fun s => Re (Cq i j) + s * Re (d i j))%R); [intros; cbn; unfold Re; ring|]. auto_derive; auto. ring.
        -- apply (is_derive_ext (fun s => Im (Cq i j) + s * Im (d i j))%R); [intros; cbn; unfold Im; ring|]. auto_derive; auto. ring.
      * apply (mderive_mul n n n (fun a => orthoMatrix (Linv a)) V); [|exact HV]. apply mderive_adj. exact Hd.
    + unfold orthoMatrix. rewrite L0, HV0, P0, madj_one, madj_zero, mmul_0_l, madd_0_l, !mone_l, mone_r. reflexivity.
Qed.
(** ** Constant fillings with rotations *)
Lemma antiherm_unitary : forall n (V : R -> mat n n) dV, (forall a, unitary (V a)) -> V 0%R = mone -> mderive V 0 dV -> madd (madj dV) dV = mzero.
Proof.
  intros n V dV HU H0 HV. apply (mderive_unique n n (fun _ => mone) 0); [|apply mderive_const]. apply (mderive_ext n n (fun s => mmul (madj (V s)) (V s))); [intros s; apply HU|].
  replace (madd (madj dV) dV) with (madd (mmul (madj dV) (V 0%R)) (mmul (madj (V 0%R)) dV)) by (rewrite H0, madj_one, mone_l, mone_r; reflexivity). apply mderive_mul; [apply mderive_adj|]; exact HV.
Qed.
Lemma energy_split : forall m n (O : mat m m) (Cq HC d : mat m n) F dF w K, madj O = O -> orthonormal O Cq -> hermitian (hsub Cq HC) ->
  mmul (madj Cq) (mmul O d) = mzero -> madd (madj K) K = mzero ->
  energyDerivative w Cq HC (madd d (mmul Cq K)) F dF = (dotC (gradC O Cq HC F w) d + w * Re (mtr (mmul (hsub Cq HC) (Kform K (fun b => RtoC (F b)) (fun b => RtoC (dF b))))))%R.
Proof.
  intros m n O Cq HC d F dF w K HO H1 HH Hp HK. rewrite energy_tr. rewrite (gradC_perp m n O Cq HC d F w HO HH Hp).
  rewrite mmul_add_r, mmul_add_r, mtr_add, Re_add.
  assert (mmul (madj HC) (mmul Cq K) = mmul (hsub Cq HC) K) as ->. { rewrite mmul_assoc. f_equal. rewrite <- HH. unfold hsub. rewrite madj_mul, madj_adj. reflexivity. }
  pose proof (rotation_part n F (hsub Cq HC) K HH HK) as ER.
  assert (Kform K (fun b => RtoC (F b)) (fun b => RtoC (dF b)) = madd (fun i j => K i j * (RtoC (F j) - RtoC (F i))) (mdiag (fun b => RtoC (dF b)))) as -> by reflexivity.
  rewrite mmul_add_r, mtr_add, Re_add. rewrite <- ER. ring.
Qed.
Lemma gradRotation_contract : forall n (F : Fin.t n -> R) (Hs B : mat n n), hermitian Hs -> hermitian B ->
  Re (mtr (mmul Hs (Kform (mscal Ci B) (fun b => RtoC (F b)) (fun _ => 0)))) = dotH (gradRotation F Hs) B.
Proof.
  intros n F Hs B HH HB. unfold dotH, gradRotation. cbv zeta. destruct (sym_ok n (mscal Ci (msub (mmul (mdiag (fun b => RtoC (F b))) Hs) (mmul Hs (mdiag (fun b => RtoC (F b))))))) as (S1 & _ & S3).
  rewrite S1, (S3 B HB). cbn [Re fst]. unfold Re at 2. cbn [fst RtoC].
  set (D := mdiag (fun b => RtoC (F b))).
  assert (Kform (mscal Ci B) (fun b => RtoC (F b)) (fun _ => 0) = mscal Ci (msub (mmul B D) (mmul D B))) as ->.
  { unfold D. rewrite mdiag_r, mdiag_l. apply mat_ext. intros i j. unfold Kform, mscal, msub, mdiag. destruct (Fin.eq_dec i j); ring. }
  rewrite mmul_scal_r, mmul_scal_l, !mtr_scal. f_equal. rewrite mmul_sub_r, mmul_sub_l, !mtr_sub. f_equal. f_equal; [|f_equal].
  - rewrite mmul_assoc, mtr_comm, mmul_assoc. reflexivity.
  - rewrite mmul_assoc. reflexivity.
Qed.
