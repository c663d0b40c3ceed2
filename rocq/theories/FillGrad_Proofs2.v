(** Witnesses for the constrained-magnetization gradient and the fixed-potential energies. *)
From Coq Require Import Reals Lra Lia Arith.
From Coquelicot Require Import Coquelicot.
From Verif Require Import Smear_Model Smear_Proofs FillGrad_Model FillGrad_Spec FillGrad_Proofs.
Open Scope R_scope.

Definition twoSpin : setup := SU 2 1 (fun q => match q with O => 1 | _ => -1 end) (fun _ => 1) SmearingGauss 1.
Definition movingPath : path := PA (fun q _ t => match q with O => t | _ => 2 - t end) (fun _ => 0) (fun t => t).
Definition movingDeps (q b : nat) : R := match q with O => 1 | _ => -1 end.
Definition movingH (q b : nat) : R := match q with O => 1 | _ => 2 end.

Lemma moving_smooth : smooth twoSpin movingPath 0 movingDeps 0 1.
Proof.
  split; cbn.
  - intros q b Hq _. destruct q as [|[|q]]; [| |lia]; cbn; auto_derive; auto; ring.
  - exact (is_derive_const (K:=R_AbsRing) (V:=R_NormedModule) 0 0).
  - exact (is_derive_id (K:=R_AbsRing) 0).
Qed.
Lemma moving_fill : forall t q b, (q < 2)%nat -> fillAt twoSpin movingPath t q b = fillAt twoSpin movingPath 0 q b.
Proof.
  intros t q b Hq. unfold fillAt, filling, muEffq, epsAt, smear. cbv zeta. cbn [spin smType smWidth p_eps p_mu p_Bz twoSpin movingPath].
  destruct q as [|[|q]]; [| |lia]; do 2 f_equal; field.
Qed.
Lemma moving_energy : energyOf twoSpin movingH movingPath 0 (fun _ => 0).
Proof.
  intros dF H. assert (forall q b, (q < 2)%nat -> (b < 1)%nat -> dF q b = 0) as Z.
  { intros q b Hq Hb. specialize (H q b Hq Hb). apply (is_derive_ext _ (fun _ => fillAt twoSpin movingPath 0 q b)) in H; [|intros; apply moving_fill; assumption]. apply is_derive_unique in H. rewrite Derive_const in H. auto. }
  cbn. rewrite (Z 0%nat 0%nat), (Z 1%nat 0%nat) by lia.
  match goal with |- is_derive _ _ ?x => replace x with 0 by ring end. exact (is_derive_const (K:=R_AbsRing) (V:=R_NormedModule) 0 0).
Qed.
Lemma moving_M : forall t, MAt twoSpin movingPath t = MAt twoSpin movingPath 0.
Proof.
  intros t. unfold MAt, Mtot. cbn [nStates nBands twoSpin rs]. change (filling twoSpin (p_mu movingPath t) (p_Bz movingPath t) (epsAt movingPath t)) with (fillAt twoSpin movingPath t).
  change (filling twoSpin (p_mu movingPath 0) (p_Bz movingPath 0) (epsAt movingPath 0)) with (fillAt twoSpin movingPath 0).
  rewrite (moving_fill t 0 0), (moving_fill t 1 0) by lia. reflexivity.
Qed.
Lemma moving_N : forall t, NAt twoSpin movingPath t = NAt twoSpin movingPath 0.
Proof.
  intros t. unfold NAt, Ntot. cbn [nStates nBands twoSpin rs]. change (filling twoSpin (p_mu movingPath t) (p_Bz movingPath t) (epsAt movingPath t)) with (fillAt twoSpin movingPath t).
  change (filling twoSpin (p_mu movingPath 0) (p_Bz movingPath 0) (epsAt movingPath 0)) with (fillAt twoSpin movingPath 0).
  rewrite (moving_fill t 0 0), (moving_fill t 1 0) by lia. reflexivity.
Qed.
Lemma moving_TS : forall t, TSAt twoSpin movingPath t = TSAt twoSpin movingPath 0.
Proof.
  intros t. unfold TSAt, entropyTS, muEffq, epsAt, smearEntropy. cbv zeta. cbn [nStates nBands twoSpin rs spin smType smWidth p_eps p_mu p_Bz movingPath weight].
  replace (t - (0 + t * 1)) with (0 - (0 + 0 * 1)) by ring. replace (2 - t - (0 + t * -1)) with (2 - 0 - (0 + 0 * -1)) by ring. reflexivity.
Qed.
Definition fu := fprime twoSpin 0 0 (epsAt movingPath 0) 0 0.
Definition fd := fprime twoSpin 0 0 (epsAt movingPath 0) 1 0.
Lemma fu_val : fu = - 1 / (2 * sqrt PI).
Proof.
  unfold fu, fprime, muEffq, epsAt, smearPrime. cbv zeta. cbn [spin smType smWidth p_eps twoSpin movingPath]. replace ((0 - (0 + 0 * 1)) / (2 * 1)) with 0 by field. rewrite Rmult_0_l, Ropp_0, exp_0. rewrite Rmult_1_r. reflexivity.
Qed.
Lemma fd_val : fd = - exp (-1) / (2 * sqrt PI).
Proof.
  unfold fd, fprime, muEffq, epsAt, smearPrime. cbv zeta. cbn [spin smType smWidth p_eps twoSpin movingPath]. replace ((2 - 0 - (0 + 0 * -1)) / (2 * 1)) with 1 by field. replace (-(1*1)) with (-1) by ring. rewrite Rmult_1_r. reflexivity.
Qed.
Lemma sp : 0 < sqrt PI. Proof. apply sqrt_lt_R0, PI_RGT_0. Qed.
Lemma e1 : 0 < exp (-1) < 1. Proof. split; [apply exp_pos|]. apply Rlt_le_trans with (exp 0); [apply exp_increasing; lra|rewrite exp_0; lra]. Qed.
Lemma fu_neg : fu < 0. Proof. rewrite fu_val. pose proof sp. pose proof (Rinv_0_lt_compat (2 * sqrt PI) ltac:(lra)). unfold Rdiv. lra. Qed.
Lemma fd_fu : fd = exp (-1) * fu. Proof. rewrite fu_val, fd_val. field. pose proof sp. lra. Qed.
Lemma fdiff : fu - fd <> 0. Proof. rewrite fd_fu. pose proof e1. pose proof fu_neg. nra. Qed.
Lemma fsum : fu + fd <> 0. Proof. rewrite fd_fu. pose proof e1. pose proof fu_neg. nra. Qed.
Lemma spinIndex_up : spinIndex 1 = 0%nat. Proof. unfold spinIndex. destruct (Rlt_dec 1 0); [lra|reflexivity]. Qed.
Lemma spinIndex_dn : spinIndex (-1) = 1%nat. Proof. unfold spinIndex. destruct (Rlt_dec (-1) 0); [reflexivity|lra]. Qed.
Lemma den0 : dmuDen twoSpin 0 0 (epsAt movingPath 0) 0 = fu.
Proof. unfold dmuDen. cbn [nStates nBands twoSpin rs spin weight]. rewrite spinIndex_up, spinIndex_dn. cbn [Nat.eqb]. change (fprime _ 0 0 _ 0%nat 0%nat) with fu. ring. Qed.
Lemma den1 : dmuDen twoSpin 0 0 (epsAt movingPath 0) 1 = fd.
Proof. unfold dmuDen. cbn [nStates nBands twoSpin rs spin weight]. rewrite spinIndex_up, spinIndex_dn. cbn [Nat.eqb]. change (fprime _ 0 0 _ 1%nat 0%nat) with fd. ring. Qed.
Lemma num0 : dmuNum twoSpin 0 0 (epsAt movingPath 0) movingH 0 = fu.
Proof. unfold dmuNum. cbn [nStates nBands twoSpin rs spin weight]. rewrite spinIndex_up, spinIndex_dn. cbn [Nat.eqb]. change (fprime _ 0 0 _ 0%nat 0%nat) with fu. unfold epsAt. cbn. ring. Qed.
Lemma num1 : dmuNum twoSpin 0 0 (epsAt movingPath 0) movingH 1 = 0.
Proof. unfold dmuNum. cbn [nStates nBands twoSpin rs spin weight]. rewrite spinIndex_up, spinIndex_dn. cbn [Nat.eqb]. change (fprime _ 0 0 _ 1%nat 0%nat) with fd. unfold epsAt. cbn. ring. Qed.
Lemma factor_diag : forall ty w mu e, smearGradFactor ty w mu e e = smearPrime ty w mu e.
Proof. intros. unfold smearGradFactor. cbv zeta. rewrite Rminus_eq_0, Rabs_R0. destruct (Rlt_dec 0 (1/1000000)); [reflexivity|lra]. Qed.
Lemma moving_grad : contraction twoSpin (gradHaux twoSpin true (Some 0) None 0 0 (epsAt movingPath 0) movingH) movingDeps = -2 * fu * fd / (fu - fd).
Proof.
  unfold contraction, gradHaux, contributions. cbv zeta. cbn [fst snd]. rewrite num0, num1, den0, den1. cbn [nStates nBands twoSpin rs spin weight]. rewrite !factor_diag.
  change (smearPrime _ _ (muEffq _ 0 0 0%nat) _) with fu. change (smearPrime _ _ (muEffq _ 0 0 1%nat) _) with fd. unfold muEffq, epsAt, movingH, movingDeps. cbn [spin twoSpin p_eps movingPath]. field. exact fdiff.
Qed.
Lemma moving_not : ~ is_derive (fun t => 0 - TSAt twoSpin movingPath t - 0 * NAt twoSpin movingPath t) 0 (contraction twoSpin (gradHaux twoSpin true (Some 0) None (p_mu movingPath 0) (p_Bz movingPath 0) (epsAt movingPath 0) movingH) movingDeps).
Proof.
  cbn [p_mu p_Bz movingPath]. rewrite moving_grad. intros H. apply (is_derive_ext _ (fun _ => 0 - TSAt twoSpin movingPath 0 - 0 * NAt twoSpin movingPath 0)) in H; [|intros; rewrite moving_TS, moving_N; reflexivity].
  apply is_derive_unique in H. rewrite Derive_const in H. pose proof fu_neg. pose proof fdiff. assert (fd < 0) by (rewrite fd_fu; pose proof e1; nra).
  symmetry in H. unfold Rdiv in H. apply Rmult_integral in H. destruct H as [H|H]; [nra|]. apply (Rinv_neq_0_compat _ H1). exact H.
Qed.

(** one spin-up state with both mu and Bz given *)
Definition oneUp : setup := SU 1 1 (fun _ => 1) (fun _ => 1) SmearingGauss 1.
Lemma one_TS : forall B, entropyTS oneUp 0 B (fun _ _ => 0) = exp (- (B * B / 4)) / sqrt PI.
Proof.
  intros. unfold entropyTS, muEffq, smearEntropy. cbv zeta. cbn [nStates nBands oneUp rs spin smType smWidth weight].
  replace (- ((0 - (0 + B * 1)) / (2 * 1) * ((0 - (0 + B * 1)) / (2 * 1)))) with (- (B * B / 4)) by field. field. pose proof sp. lra.
Qed.
Lemma one_wrong : reportedTS oneUp (Some 0) (0, 2) (fun _ _ => 0) <> entropyTS oneUp 0 2 (fun _ _ => 0).
Proof.
  unfold reportedTS. cbv zeta. cbn [energyMultipliers fst snd]. rewrite !one_TS. replace (- (0 * 0 / 4)) with 0 by field. replace (- (2 * 2 / 4)) with (-1) by field. rewrite exp_0. intros H.
  pose proof e1. pose proof sp. apply (Rmult_eq_compat_r (sqrt PI)) in H. unfold Rdiv in H. rewrite !Rmult_assoc, Rinv_l in H by lra. lra.
Qed.
Lemma one_M : Mtot oneUp 0 2 (fun _ _ => 0) <> 0.
Proof.
  unfold Mtot, filling, muEffq, smear. cbv zeta. cbn [nStates nBands oneUp rs spin smType smWidth weight].
  intros H. pose proof (Gauss.erfc_bounds ((0 - (0 + 2 * 1)) / (2 * 1))). lra.
Qed.
Lemma one_wrongM : reportedMinusMzBz oneUp (Some 0) (Some 2) (0, 2) (fun _ _ => 0) <> - (2 * Mtot oneUp 0 2 (fun _ _ => 0)).
Proof. unfold reportedMinusMzBz. cbv zeta. cbn [energyMultipliers fst snd]. rewrite Rmult_0_r, Ropp_0. pose proof one_M. lra. Qed.
Lemma reported_ok : forall u mu BzT found eps, (mu = None \/ (exists m, mu = Some m /\ found = (m, 0))) ->
  reportedTS u mu found eps = entropyTS u (fst found) (snd found) eps /\
  (BzT = Some (snd found) -> reportedMinusMzBz u mu BzT found eps = - (snd found * Mtot u (fst found) (snd found) eps)).
Proof.
  intros u mu BzT found eps H.
  assert (energyMultipliers mu found = found) as E. { destruct H as [-> | (m & -> & ->)]; reflexivity. }
  split; [unfold reportedTS; rewrite E; reflexivity|]. intros ->. unfold reportedMinusMzBz. rewrite E. cbv zeta. rewrite Rmult_comm. f_equal. f_equal. unfold Mtot. apply rs_ext. intros q Hq. rewrite <- rs_scal. apply rs_ext. intros; ring.
Qed.
(** an energy linear in the fillings *)
Lemma linear_energy : forall u h p t0, energyOf u h p t0 (fun t => rs (nStates u) (fun q => rs (nBands u) (fun b => weight u q * (h q b * fillAt u p t q b)))).
Proof.
  intros u h p t0 dF H. apply rs_derive. intros q Hq. apply (rs_derive (nBands u) (fun b t => weight u q * (h q b * fillAt u p t q b))). intros b Hb.
  apply (is_derive_scal (fun t => h q b * fillAt u p t q b)). apply (is_derive_scal (fun t => fillAt u p t q b)). apply H; assumption.
Qed.
(** all eigenvalues and mu move together *)
Definition risingPath : path := PA (fun q _ t => match q with O => t | _ => 2 + t end) (fun t => t) (fun _ => 0).
Lemma rising_smooth : smooth twoSpin risingPath 0 (fun _ _ => 1) 1 0.
Proof.
  split; cbn.
  - intros q b Hq _. destruct q as [|[|q]]; [| |lia]; cbn; auto_derive; auto; ring.
  - exact (is_derive_id (K:=R_AbsRing) 0).
  - exact (is_derive_const (K:=R_AbsRing) (V:=R_NormedModule) 0 0).
Qed.
Lemma rising_N : forall t, NAt twoSpin risingPath t = NAt twoSpin risingPath 0.
Proof.
  intros t. unfold NAt, Ntot, filling, muEffq, epsAt, smear. cbv zeta. cbn [nStates nBands twoSpin rs spin smType smWidth p_eps p_mu p_Bz risingPath weight].
  replace (t - (t + 0 * 1)) with (0 - (0 + 0 * 1)) by ring. replace (2 + t - (t + 0 * -1)) with (2 + 0 - (0 + 0 * -1)) by ring. reflexivity.
Qed.
Lemma rising_den : dmuDen twoSpin (p_mu risingPath 0) (p_Bz risingPath 0) (epsAt risingPath 0) 0 + dmuDen twoSpin (p_mu risingPath 0) (p_Bz risingPath 0) (epsAt risingPath 0) 1 <> 0.
Proof.
  assert (forall s, dmuDen twoSpin (p_mu risingPath 0) (p_Bz risingPath 0) (epsAt risingPath 0) s = dmuDen twoSpin 0 0 (epsAt movingPath 0) s) as E.
  { intros s. unfold dmuDen, fprime, muEffq, epsAt, smearPrime. cbv zeta. cbn [nStates nBands twoSpin rs spin smType smWidth p_eps p_mu p_Bz risingPath movingPath weight].
    replace (2 + 0 - (0 + 0 * -1)) with (2 - 0 - (0 + 0 * -1)) by ring. reflexivity. }
  rewrite !E, den0, den1. exact fsum.
Qed.
(** eigenvalues move at fixed mu and Bz *)
Definition drivenPath : path := PA (fun q _ t => match q with O => t | _ => 2 + 3 * t end) (fun _ => 1) (fun _ => 2).
Lemma driven_smooth : smooth twoSpin drivenPath 0 (fun q _ => match q with O => 1 | _ => 3 end) 0 0.
Proof.
  split; cbn.
  - intros q b Hq _. destruct q as [|[|q]]; [| |lia]; cbn; auto_derive; auto; ring.
  - exact (is_derive_const (K:=R_AbsRing) (V:=R_NormedModule) 1 0).
  - exact (is_derive_const (K:=R_AbsRing) (V:=R_NormedModule) 2 0).
Qed.
Lemma two_spins : forall q, (q < nStates twoSpin)%nat -> spin twoSpin q = 1 \/ spin twoSpin q = -1.
Proof. intros [|[|q]] H; cbn; auto. Qed.
Lemma moving_ent : entropySmooth twoSpin movingPath 0.
Proof. intros H; discriminate H. Qed.
