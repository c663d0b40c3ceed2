(** Composition of steps, trial points and concrete systems. *)
From Coq Require Import Reals Lra Lia FunctionalExtensionality List.
From Coq Require Fin.
From Coquelicot Require Import Coquelicot.
From Verif Require Import CMat Smear_Model Smear_Proofs FillGrad_Proofs MatFun_Model MatFun_Spec MatFun_Proofs MatFun_Proofs2 MatFun_Proofs3 MatFun_Proofs4 ElecGrad_Model ElecGrad_Spec ElecGrad_Proofs ElecGrad_Proofs2 ElecGrad_Proofs3.
Open Scope C_scope.

Lemma wf_init : forall m n (Cq : mat m n) e, wf (initState Cq e).
Proof. intros. unfold wf, initState. cbn. repeat match goal with |- _ /\ _ => split end; auto using unitary_one, mone_l. Qed.
Lemma wf_report : forall m n (s : mstate m n), wf s -> wf (reportState s) /\ ready (reportState s) /\ sC (reportState s) = sC s /\ sEigs (reportState s) = sEigs s /\ sRot (reportState s) = sRot s.
Proof.
  intros m n s (HU & H1 & H2 & H3). unfold reportState, ready, wf. destruct (sExists s) eqn:E; cbn.
  - destruct HU as [U1 U2]. repeat match goal with |- _ /\ _ => split end; auto; try (split; assumption); try discriminate. right. repeat split; auto.
  - rewrite E. destruct (H3 eq_refl) as [A A']. repeat match goal with |- _ /\ _ => split end; auto; tauto.
Qed.
Lemma step_wf : forall m n (s : mstate m n) a d B Linv rot eigs inv, wf s -> eigensystem (movedH s a B) rot eigs ->
  mmul inv (mmul (orthoMatrix Linv) rot) = mone -> mmul (mmul (orthoMatrix Linv) rot) inv = mone -> wf (stepRot s a d Linv rot eigs inv).
Proof.
  intros m n s a d B Linv rot eigs inv (HU & H1 & H2 & H3) [RU _] I1 I2. unfold wf, stepRot. cbv zeta. cbn [sRot sRotC sRotCinv sExists].
  set (rc := mmul (orthoMatrix Linv) rot) in *.
  split; [apply unitary_mul; assumption|]. split; [|split; [|discriminate]].
  - rewrite mmul_assoc, <- (mmul_assoc _ _ _ _ (sRotC s) rc inv), I2, mone_r. exact H1.
  - rewrite mmul_assoc, <- (mmul_assoc _ _ _ _ inv (sRotCinv s)), H2, mone_r. exact I1.
Qed.
Lemma reach_wf : forall m n (O : mat m m) d B (s s' : mstate m n) a, wf s -> reaches O d B s a s' -> wf s'.
Proof. intros m n O d B s s' a Hs H. induction H; [exact Hs|]. eapply step_wf; eauto. Qed.
(** the wavefunctions before rotation move along a straight line *)
Lemma reach_C : forall m n (O : mat m m) d B (s s' : mstate m n) a, wf s -> reaches O d B s a s' ->
  sC s' = mmul (madd (mmul (sC s) (sRotCinv s)) (mscal (RtoC a) d)) (sRotC s').
Proof.
  intros m n O d B s s' a Hs H. induction H as [|a s' al Linv rot eigs inv H IH HL HE I1 I2].
  - destruct Hs as (_ & _ & H2 & _). rewrite line_0, <- mmul_assoc, H2, mone_r. reflexivity.
  - unfold stepRot. cbv zeta. cbn [sC sRotC]. rewrite (mmul_assoc _ _ _ _ _ (sRotC s') (mmul (orthoMatrix Linv) rot)). apply (f_equal (fun X => mmul X (mmul (orthoMatrix Linv) rot))).
    assert ((if sExists s' then mmul d (sRotC s') else d) = mmul d (sRotC s')) as Ed. { destruct (sExists s') eqn:E; [reflexivity|]. destruct (reach_wf m n O d B s s' a Hs H) as (_ & _ & _ & H3). destruct (H3 E) as [_ ->]. rewrite mone_r. reflexivity. }
    unfold movedC. rewrite Ed. rewrite IH at 1. rewrite <- mmul_scal_l, <- mmul_add_l. apply (f_equal (fun X => mmul X (sRotC s'))). apply mat_ext. intros i j. unfold madd, mscal. rewrite RtoC_plus. ring.
Qed.
Lemma reach_H : forall m n (O : mat m m) d B (s s' : mstate m n) a, wf s -> reaches O d B s a s' ->
  matFunc (sRot s') (fun b => RtoC (sEigs s' b)) = madd (matFunc (sRot s) (fun b => RtoC (sEigs s b))) (mscal (RtoC a) B).
Proof.
  intros m n O d B s s' a Hs H. induction H as [|a s' al Linv rot eigs inv H IH HL HE I1 I2].
  - symmetry. apply line_0.
  - unfold stepRot. cbv zeta. cbn [sRot sEigs].
    pose proof (eig_formR n _ _ _ HE) as E. pose proof (reach_wf m n O d B s s' a Hs H) as (HU & _ & _ & H3).
    assert ((if sExists s' then mmul (mmul (madj (sRot s')) B) (sRot s') else B) = mmul (mmul (madj (sRot s')) B) (sRot s')) as Ed. { destruct (sExists s') eqn:Ee; [reflexivity|]. destruct (H3 eq_refl) as [-> _]. rewrite madj_one, mone_l, mone_r. reflexivity. }
    unfold movedH in E. rewrite Ed in E.
    assert (matFunc (mmul (sRot s') rot) (fun b => RtoC (eigs b)) = mmul (mmul (sRot s') (matFunc rot (fun b => RtoC (eigs b)))) (madj (sRot s'))) as ->. { unfold matFunc. rewrite madj_mul, !mmul_assoc. reflexivity. }
    rewrite <- E, mmul_add_r, mmul_add_l. fold (matFunc (sRot s') (fun b => RtoC (sEigs s' b))). rewrite IH.
    assert (mmul (mmul (sRot s') (mscal (RtoC al) (mmul (mmul (madj (sRot s')) B) (sRot s')))) (madj (sRot s')) = mscal (RtoC al) B) as ->.
    { rewrite mmul_scal_r, mmul_scal_l. f_equal. destruct HU as [_ U2]. rewrite !mmul_assoc, U2, mone_l, <- mmul_assoc, U2, mone_r. reflexivity. }
    apply mat_ext. intros i j. unfold madd, mscal. rewrite RtoC_plus. ring.
Qed.
Lemma reach_orth : forall m n (O : mat m m) d B (s s' : mstate m n) a, orthonormal O (sC s) -> reaches O d B s a s' -> orthonormal O (sC s').
Proof.
  intros m n O d B s s' a Hs H. destruct H as [|a s' al Linv rot eigs inv H HL HE I1 I2]; [exact Hs|].
  unfold stepRot. cbv zeta. cbn [sC]. destruct HL as (L & E & A1 & A2 & _). destruct HE as [[U1 _] _]. set (P := movedC s' al d) in *. unfold orthonormal, orthoMatrix.
  rewrite !madj_mul, madj_adj. rewrite (mmul_assoc _ _ _ _ O P). rewrite <- !mmul_assoc. rewrite (mmul_assoc _ _ _ _ O P), (mmul_assoc _ _ _ _ (madj P)), E.
  rewrite (mmul_assoc _ _ _ _ Linv), (mmul_assoc _ _ _ _ Linv L), A1, mone_l. rewrite (mmul_assoc _ _ _ _ (madj L)), <- madj_mul, A1, madj_one, mone_l. exact U1.
Qed.
(** steps of the same total length span the same space with the same auxiliary Hamiltonian *)
Lemma reach_same : forall m n (O : mat m m) d B (s s1 s2 : mstate m n) a, wf s -> orthonormal O (sC s) -> reaches O d B s a s1 -> reaches O d B s a s2 ->
  mmul (sC s1) (madj (sC s1)) = mmul (sC s2) (madj (sC s2)) /\
  matFunc (sRot s1) (fun b => RtoC (sEigs s1 b)) = matFunc (sRot s2) (fun b => RtoC (sEigs s2 b)).
Proof.
  intros m n O d B s s1 s2 a Hs Ho R1 R2. split; [|rewrite (reach_H m n O d B s s1 a Hs R1), (reach_H m n O d B s s2 a Hs R2); reflexivity].
  pose proof (reach_C m n O d B s s1 a Hs R1) as E1. pose proof (reach_C m n O d B s s2 a Hs R2) as E2. set (P := madd _ _) in *.
  pose proof (reach_orth m n O d B s s1 a Ho R1) as O1. pose proof (reach_orth m n O d B s s2 a Ho R2) as O2.
  destruct (reach_wf m n O d B s s1 a Hs R1) as (_ & A1 & A2 & _). destruct (reach_wf m n O d B s s2 a Hs R2) as (_ & B1 & B2 & _).
  set (Q := mmul (sRotCinv s1) (sRotC s2)).
  assert (sC s2 = mmul (sC s1) Q) as EQ. { unfold Q. rewrite mmul_assoc. rewrite E1 at 1. rewrite <- (mmul_assoc _ _ _ _ P), A1, mone_r. exact E2. }
  assert (mmul (madj Q) Q = mone) as Q1. { unfold orthonormal in O1, O2. rewrite EQ in O2 at 1 2. rewrite madj_mul, (mmul_assoc _ _ _ _ O), <- mmul_assoc, (mmul_assoc _ _ _ _ (madj (sC s1))), O1, mone_l in O2. exact O2. }
  set (Qi := mmul (sRotCinv s2) (sRotC s1)).
  assert (mmul Q Qi = mone) as Q2. { unfold Q, Qi. rewrite <- mmul_assoc, (mmul_assoc _ _ _ _ (sRotC s2)), B1, mone_l. exact A2. }
  assert (madj Q = Qi) as Q3. { rewrite <- (mone_r _ _ (madj Q)), <- Q2, mmul_assoc, Q1, mone_l. reflexivity. }
  rewrite EQ, madj_mul, Q3, <- mmul_assoc, (mmul_assoc _ _ _ _ Q), Q2, mone_l. reflexivity.
Qed.
(** energy of a fixed Hamiltonian *)
Lemma bandEnergy_ok : forall m n w (H : mat m m) (Cq : mat m n) F, hermitian H -> energyFunctional (bandEnergy w H) w Cq (mmul H Cq) F.
Proof.
  intros m n w H Cq F HH P f dC dF P0 f0 HP Hf. unfold bandEnergy, energyDerivative. apply (is_derive_scal (fun a => rsumF (fun b => f a b * Re (mmul (madj (P a)) (mmul H (P a)) b b)))%R).
  assert (forall b, is_derive (fun a => f a b * Re (mmul (madj (P a)) (mmul H (P a)) b b))%R 0 (dF b * Re (mmul (madj Cq) (mmul H Cq) b b) + F b * (2 * Re (mmul (madj (mmul H Cq)) dC b b)))%R) as Hb.
  { intros b. assert (mderive (fun a => mmul (madj (P a)) (mmul H (P a))) 0 (madd (mmul (madj dC) (mmul H (P 0%R))) (mmul (madj (P 0%R)) (madd (mmul mzero (P 0%R)) (mmul H dC))))) as HM.
    { apply mderive_mul; [apply mderive_adj; exact HP|]. apply (mderive_mul m m n (fun _ => H) P); [apply mderive_const|exact HP]. }
    rewrite P0, mmul_0_l, madd_0_l in HM. destruct (HM b b) as [HR _].
    pose proof (dmulR _ _ _ _ _ (Hf b) HR) as Hd. cbv beta in Hd. rewrite f0, P0 in Hd. unfold madd in Hd. rewrite Re_add in Hd.
    assert (Re (mmul (madj dC) (mmul H Cq) b b) = Re (mmul (madj (mmul H Cq)) dC b b)) as E1. { rewrite <- (Re_conj (mmul (madj (mmul H Cq)) dC b b)). change (Cconj (mmul (madj (mmul H Cq)) dC b b)) with (madj (mmul (madj (mmul H Cq)) dC) b b). rewrite madj_mul, madj_adj. reflexivity. }
    assert (mmul (madj Cq) (mmul H dC) = mmul (madj (mmul H Cq)) dC) as E2 by (rewrite madj_mul, HH, mmul_assoc; reflexivity).
    rewrite E1, E2 in Hd. replace (F b * (2 * Re (mmul (madj (mmul H Cq)) dC b b)))%R with (F b * (Re (mmul (madj (mmul H Cq)) dC b b) + Re (mmul (madj (mmul H Cq)) dC b b)))%R by ring. exact Hd. }
  pose proof (rsumF_derive n _ _ Hb) as Hs. 
  match goal with |- is_derive _ _ ?x => match type of Hs with is_derive _ _ ?y => replace x with y; [exact Hs|] end end.
  rewrite rsumF_add, Rplus_comm. f_equal.
  - rewrite Re_fsum, <- rsumF_scal. apply rsumF_ext. intros b. rewrite Re_scal. unfold mmul at 1, madj. ring.
  - rewrite Re_fsum. apply rsumF_ext. intros b. rewrite Cmult_comm, Re_scal. reflexivity.
Qed.
