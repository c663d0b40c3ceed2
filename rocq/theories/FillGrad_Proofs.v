(** Derivatives of the free energy along a path of auxiliary eigenvalues. *)
From Coq Require Import Reals Lra Lia Arith.
From Coquelicot Require Import Coquelicot.
From Verif Require Import Smear_Model Smear_Proofs FillGrad_Model FillGrad_Spec.
Open Scope R_scope.

Lemma rs_ext : forall n f g, (forall i, (i < n)%nat -> f i = g i) -> rs n f = rs n g.
Proof. induction n; intros f g H; cbn; [reflexivity|]. rewrite (IHn f g), (H n); [reflexivity|lia|intros; apply H; lia]. Qed.
Lemma rs_add : forall n f g, rs n (fun i => f i + g i) = rs n f + rs n g.
Proof. induction n; intros; cbn; [ring|]. rewrite IHn; ring. Qed.
Lemma rs_scal : forall n c f, rs n (fun i => c * f i) = c * rs n f.
Proof. induction n; intros; cbn; [ring|]. rewrite IHn; ring. Qed.
Lemma rs_0 : forall n, rs n (fun _ => 0) = 0.
Proof. induction n; cbn; [reflexivity|]. rewrite IHn; ring. Qed.
Lemma rs_derive : forall n (f : nat -> R -> R) (d : nat -> R) t, (forall i, (i < n)%nat -> is_derive (f i) t (d i)) -> is_derive (fun s => rs n (fun i => f i s)) t (rs n d).
Proof.
  induction n; intros f d t H; cbn; [exact (is_derive_const (K:=R_AbsRing) (V:=R_NormedModule) 0 t)|]. apply (is_derive_plus (fun s => rs n (fun i => f i s)) (f n)); [apply IHn; intros; apply H; lia|apply H; lia].
Qed.
Lemma smear_shift : forall ty w mu e, smear ty w mu e = smear ty w 0 (e - mu).
Proof. intros. unfold smear. cbv zeta. rewrite Rminus_0_r. reflexivity. Qed.
Lemma smearPrime_shift : forall ty w mu e, smearPrime ty w mu e = smearPrime ty w 0 (e - mu).
Proof. intros. unfold smearPrime. cbv zeta. rewrite Rminus_0_r. reflexivity. Qed.
Lemma entropy_shift : forall ty w mu e, smearEntropy ty w mu e = smearEntropy ty w 0 (e - mu).
Proof. intros. unfold smearEntropy. cbv zeta. rewrite Rminus_0_r. reflexivity. Qed.

Section Path.
Variables (u : setup) (p : path) (t0 : R) (deps : nat -> nat -> R) (dmu dBz : R).
Hypothesis Hw : 0 < smWidth u.
Hypothesis Hs : smooth u p t0 deps dmu dBz.
Let f' := fprime u (p_mu p t0) (p_Bz p t0) (epsAt p t0).
Let eps := epsAt p t0.
Definition D (q b : nat) : R := deps q b - (dmu + dBz * spin u q).
Definition S (phi : nat -> nat -> R) : R := rs (nStates u) (fun q => weight u q * rs (nBands u) (fun b => f' q b * phi q b)).
Lemma arg_derive : forall q b, (q < nStates u)%nat -> (b < nBands u)%nat -> is_derive (fun t => p_eps p q b t - muEffq u (p_mu p t) (p_Bz p t) q) t0 (D q b).
Proof.
  intros q b Hq Hb. unfold muEffq, D. destruct Hs as [He Hm HB]. apply (is_derive_minus (p_eps p q b) (fun t => p_mu p t + p_Bz p t * spin u q)); [apply He; assumption|].
  apply (is_derive_plus (p_mu p) (fun t => p_Bz p t * spin u q)); [exact Hm|].
  apply (is_derive_ext (fun t => spin u q * p_Bz p t)); [intros; apply Rmult_comm|]. rewrite Rmult_comm. apply (is_derive_scal (p_Bz p)). exact HB.
Qed.
Lemma fill_derive : forall q b, (q < nStates u)%nat -> (b < nBands u)%nat -> is_derive (fun t => fillAt u p t q b) t0 (f' q b * D q b).
Proof.
  intros q b Hq Hb. unfold fillAt, filling. apply (is_derive_ext (fun t => smear (smType u) (smWidth u) 0 (p_eps p q b t - muEffq u (p_mu p t) (p_Bz p t) q))).
  - intros t. symmetry. apply smear_shift.
  - unfold f', fprime. rewrite smearPrime_shift, Rmult_comm. apply (is_derive_comp (smear (smType u) (smWidth u) 0)); [apply derivative; exact Hw|apply arg_derive; assumption].
Qed.
Lemma TS_derive : entropySmooth u p t0 -> is_derive (TSAt u p) t0 (S (fun q b => (eps q b - muEffq u (p_mu p t0) (p_Bz p t0) q) * D q b)).
Proof.
  intros Hent. unfold TSAt, entropyTS, S. apply rs_derive. intros q Hq.
  apply (is_derive_ext (fun t => scal (weight u q) (rs (nBands u) (fun b => smWidth u * smearEntropy (smType u) (smWidth u) 0 (p_eps p q b t - muEffq u (p_mu p t) (p_Bz p t) q))))).
  - intros t. rewrite rs_scal. change (weight u q * (smWidth u * rs (nBands u) (fun b => smearEntropy (smType u) (smWidth u) 0 (p_eps p q b t - muEffq u (p_mu p t) (p_Bz p t) q))) =
      smWidth u * weight u q * rs (nBands u) (fun b => smearEntropy (smType u) (smWidth u) (muEffq u (p_mu p t) (p_Bz p t) q) (epsAt p t q b))).
    rewrite (rs_ext (nBands u) (fun b => smearEntropy (smType u) (smWidth u) (muEffq u (p_mu p t) (p_Bz p t) q) (epsAt p t q b)) (fun b => smearEntropy (smType u) (smWidth u) 0 (p_eps p q b t - muEffq u (p_mu p t) (p_Bz p t) q))) by (intros; apply entropy_shift).
    ring.
  - apply is_derive_scal. apply (rs_derive (nBands u) (fun b t => smWidth u * smearEntropy (smType u) (smWidth u) 0 (p_eps p q b t - muEffq u (p_mu p t) (p_Bz p t) q))). intros b Hb.
    set (x := eps q b - muEffq u (p_mu p t0) (p_Bz p t0) q).
    replace (f' q b * (x * D q b)) with (scal (D q b) ((x - 0) * smearPrime (smType u) (smWidth u) 0 x)).
    + apply (is_derive_comp (fun e => smWidth u * smearEntropy (smType u) (smWidth u) 0 e) (fun t => p_eps p q b t - muEffq u (p_mu p t) (p_Bz p t) q)); [|apply arg_derive; assumption].
      change (p_eps p q b t0 - muEffq u (p_mu p t0) (p_Bz p t0) q) with x. apply entropy_derivative; [exact Hw|]. intros Ht. unfold x. rewrite <- smear_shift. apply (Hent Ht q b).
    + unfold f', fprime. fold eps. rewrite (smearPrime_shift _ _ (muEffq u (p_mu p t0) (p_Bz p t0) q)). fold x. change (D q b * ((x - 0) * smearPrime (smType u) (smWidth u) 0 x) = smearPrime (smType u) (smWidth u) 0 x * (x * D q b)). ring.
Qed.
Lemma S_ext : forall a b, (forall q i, (q < nStates u)%nat -> (i < nBands u)%nat -> a q i = b q i) -> S a = S b.
Proof. intros a b H. unfold S. apply rs_ext. intros q Hq. f_equal. apply rs_ext. intros i Hi. rewrite H by assumption. reflexivity. Qed.
Lemma S_add : forall a b, S (fun q i => a q i + b q i) = S a + S b.
Proof.
  intros. unfold S. rewrite <- rs_add. apply rs_ext. intros q Hq. rewrite <- Rmult_plus_distr_l, <- rs_add. f_equal. apply rs_ext. intros; ring.
Qed.
Lemma S_scal : forall c a, S (fun q i => c * a q i) = c * S a.
Proof.
  intros. unfold S. rewrite <- rs_scal. apply rs_ext. intros q Hq. rewrite (rs_ext _ _ (fun b => c * (f' q b * a q b))) by (intros; ring). rewrite rs_scal. ring.
Qed.
Lemma N_derive : is_derive (NAt u p) t0 (S D).
Proof.
  unfold NAt, Ntot, S. apply rs_derive. intros q Hq. rewrite <- rs_scal. apply rs_derive. intros b Hb. apply (is_derive_scal (fun t => fillAt u p t q b)). apply fill_derive; assumption.
Qed.
Lemma M_derive : is_derive (MAt u p) t0 (S (fun q b => spin u q * D q b)).
Proof.
  unfold MAt, Mtot, S. apply rs_derive. intros q Hq. rewrite <- rs_scal. apply rs_derive. intros b Hb.
  replace (weight u q * (f' q b * (spin u q * D q b))) with (spin u q * (weight u q * (f' q b * D q b))) by ring.
  apply (is_derive_scal (fun t => weight u q * fillAt u p t q b)). apply (is_derive_scal (fun t => fillAt u p t q b)). apply fill_derive; assumption.
Qed.
Variables (h : nat -> nat -> R) (E : R -> R).
Hypothesis HE : energyOf u h p t0 E.
Hypothesis Hent : entropySmooth u p t0.
Let g q b := h q b - eps q b.
Lemma E_derive : is_derive E t0 (S (fun q b => h q b * D q b)).
Proof.
  replace (S (fun q b => h q b * D q b)) with (rs (nStates u) (fun q => rs (nBands u) (fun b => weight u q * (h q b * (f' q b * D q b))))).
  - apply HE. intros; apply fill_derive; assumption.
  - unfold S. apply rs_ext. intros q Hq. rewrite <- rs_scal. apply rs_ext. intros; ring.
Qed.
(** derivative of E - TS *)
Lemma A_derive : is_derive (fun t => E t - TSAt u p t) t0 (S (fun q b => g q b * D q b) + p_mu p t0 * S D + p_Bz p t0 * S (fun q b => spin u q * D q b)).
Proof.
  replace (S (fun q b => g q b * D q b) + p_mu p t0 * S D + p_Bz p t0 * S (fun q b => spin u q * D q b))
    with (S (fun q b => h q b * D q b) - S (fun q b => (eps q b - muEffq u (p_mu p t0) (p_Bz p t0) q) * D q b)).
  - apply (is_derive_minus E (TSAt u p)); [apply E_derive|apply TS_derive, Hent].
  - rewrite <- !S_scal, <- !S_add. unfold Rminus. rewrite <- (Rmult_1_l (S (fun q b => (eps q b + - muEffq u (p_mu p t0) (p_Bz p t0) q) * D q b))), Ropp_mult_distr_l, <- S_scal, <- S_add.
    apply S_ext. intros q i _ _. unfold g, muEffq. ring.
Qed.
(** the two spin channels *)
Definition ch (s : nat) (q : nat) : R := if Nat.eqb (spinIndex (spin u q)) s then 1 else 0.
Lemma ch_sum : forall q, ch 0 q + ch 1 q = 1.
Proof. intros. unfold ch, spinIndex. destruct (Rlt_dec _ _); cbn; ring. Qed.
Lemma Num_S : forall s, dmuNum u (p_mu p t0) (p_Bz p t0) eps h s = S (fun q b => ch s q * g q b).
Proof.
  intros. unfold dmuNum, S. apply rs_ext. intros q Hq. unfold ch. destruct (Nat.eqb _ _).
  - f_equal. apply rs_ext. intros b Hb. unfold g, f'. fold eps. ring.
  - rewrite (rs_ext (nBands u) _ (fun _ => 0)) by (intros; ring). rewrite rs_0. ring.
Qed.
Lemma Den_S : forall s, dmuDen u (p_mu p t0) (p_Bz p t0) eps s = S (fun q b => ch s q).
Proof.
  intros. unfold dmuDen, S. apply rs_ext. intros q Hq. unfold ch. destruct (Nat.eqb _ _).
  - f_equal. apply rs_ext. intros b Hb. unfold f'. fold eps. ring.
  - rewrite (rs_ext (nBands u) _ (fun _ => 0)) by (intros; ring). rewrite rs_0. ring.
Qed.
Lemma grad_S : forall spinZ muT BzT, contraction u (gradHaux u spinZ muT BzT (p_mu p t0) (p_Bz p t0) eps h) deps =
  S (fun q b => (g q b - muEffq u (fst (contributions u spinZ muT BzT (p_mu p t0) (p_Bz p t0) eps h)) (snd (contributions u spinZ muT BzT (p_mu p t0) (p_Bz p t0) eps h)) q) * deps q b).
Proof.
  intros. unfold contraction, S. apply rs_ext. intros q Hq. rewrite <- rs_scal. apply rs_ext. intros b Hb. unfold gradHaux. cbv zeta.
  assert (smearGradFactor (smType u) (smWidth u) (muEffq u (p_mu p t0) (p_Bz p t0) q) (eps q b) (eps q b) = f' q b) as ->.
  { unfold smearGradFactor. cbv zeta. rewrite Rminus_eq_0, Rabs_R0. destruct (Rlt_dec 0 (1/1000000)); [reflexivity|lra]. }
  unfold g. ring.
Qed.
Lemma S_ch : forall a, S (fun q b => ch 0 q * a q b) + S (fun q b => ch 1 q * a q b) = S a.
Proof. intros. rewrite <- S_add. apply S_ext. intros q i _ _. rewrite <- Rmult_plus_distr_r, ch_sum. ring. Qed.

(** fixed N at given Bz: F = E - TS - Bz M *)
Lemma fixed_N : forall B spinZ, (forall t, p_Bz p t = B) -> (forall t, NAt u p t = NAt u p t0) ->
  dmuDen u (p_mu p t0) (p_Bz p t0) eps 0 + dmuDen u (p_mu p t0) (p_Bz p t0) eps 1 <> 0 ->
  is_derive (fun t => E t - TSAt u p t - B * MAt u p t) t0 (contraction u (gradHaux u spinZ None (Some B) (p_mu p t0) (p_Bz p t0) eps h) deps).
Proof.
  intros B spinZ HB HN Hden. rewrite grad_S. unfold contributions. cbv zeta. cbn [fst snd]. rewrite !Num_S. rewrite !Den_S in *. rewrite S_ch.
  assert (S (fun q b => ch 0 q) + S (fun q b => ch 1 q) = S (fun _ _ => 1)) as ES by (rewrite <- S_add; apply S_ext; intros; apply ch_sum). rewrite ES in *.
  assert (dBz = 0) as Z. { pose proof (s_Bz _ _ _ _ _ _ Hs) as H. apply (is_derive_ext _ (fun _ => B)) in H; [|exact HB]. apply is_derive_unique in H. rewrite Derive_const in H. auto. }
  assert (S D = 0) as ZN. { pose proof N_derive as H. apply (is_derive_ext _ (fun _ => NAt u p t0)) in H; [|exact HN]. apply is_derive_unique in H. rewrite Derive_const in H. auto. }
  assert (S deps = dmu * S (fun _ _ => 1)) as ED. { rewrite <- S_scal. rewrite <- (Rplus_0_l (S (fun q i => dmu * 1))), <- ZN, <- S_add. apply S_ext. intros q i _ _. unfold D. rewrite Z. ring. }
  set (c := S (fun q b => g q b) / S (fun _ _ => 1)).
  replace (S (fun q b => (g q b - muEffq u c 0 q) * deps q b))
    with ((S (fun q b => g q b * D q b) + p_mu p t0 * S D + p_Bz p t0 * S (fun q b => spin u q * D q b)) - B * S (fun q b => spin u q * D q b)).
  - apply (is_derive_minus (fun t => E t - TSAt u p t)); [apply A_derive|]. apply (is_derive_scal (MAt u p)). apply M_derive.
  - rewrite ZN, HB.
    replace (S (fun q b => g q b * D q b)) with (S (fun q b => g q b * deps q b) + (- dmu) * S (fun q b => g q b)) by (rewrite <- S_scal, <- S_add; apply S_ext; intros; unfold D; rewrite Z; ring).
    replace (S (fun q b => (g q b - muEffq u c 0 q) * deps q b)) with (S (fun q b => g q b * deps q b) + (- c) * S deps) by (rewrite <- S_scal, <- S_add; apply S_ext; intros; unfold muEffq; ring).
    rewrite ED. unfold c. field. exact Hden.
Qed.
(** fixed mu and Bz: G = E - TS - mu N - Bz M *)
Lemma fixed_mu : forall m B spinZ, (forall t, p_mu p t = m) -> (forall t, p_Bz p t = B) ->
  is_derive (fun t => E t - TSAt u p t - m * NAt u p t - B * MAt u p t) t0 (contraction u (gradHaux u spinZ (Some m) (Some B) (p_mu p t0) (p_Bz p t0) eps h) deps).
Proof.
  intros m B spinZ Hm HB. rewrite grad_S. unfold contributions. cbv zeta. cbn [fst snd].
  assert (dBz = 0) as Z. { pose proof (s_Bz _ _ _ _ _ _ Hs) as H. apply (is_derive_ext _ (fun _ => B)) in H; [|exact HB]. apply is_derive_unique in H. rewrite Derive_const in H. auto. }
  assert (dmu = 0) as Z'. { pose proof (s_mu _ _ _ _ _ _ Hs) as H. apply (is_derive_ext _ (fun _ => m)) in H; [|exact Hm]. apply is_derive_unique in H. rewrite Derive_const in H. auto. }
  replace (S (fun q b => (g q b - muEffq u 0 0 q) * deps q b))
    with ((S (fun q b => g q b * D q b) + p_mu p t0 * S D + p_Bz p t0 * S (fun q b => spin u q * D q b)) - m * S D - B * S (fun q b => spin u q * D q b)).
  - apply (is_derive_minus (fun t => E t - TSAt u p t - m * NAt u p t)); [|apply (is_derive_scal (MAt u p)); apply M_derive].
    apply (is_derive_minus (fun t => E t - TSAt u p t)); [apply A_derive|]. apply (is_derive_scal (NAt u p)). apply N_derive.
  - rewrite Hm, HB. transitivity (S (fun q b => g q b * D q b)); [ring|]. apply S_ext. intros q i _ _. unfold D, muEffq. rewrite Z, Z'. ring.
Qed.
Hypothesis Hspin : forall q, (q < nStates u)%nat -> spin u q = 1 \/ spin u q = -1.
Lemma spin_ch : forall q, (q < nStates u)%nat -> spin u q = ch 0 q - ch 1 q.
Proof. intros q Hq. unfold ch, spinIndex. destruct (Hspin q Hq) as [-> | ->]; destruct (Rlt_dec _ 0); cbn; lra. Qed.
Lemma ch_idem : forall s q, ch s q * ch s q = ch s q.
Proof. intros. unfold ch. destruct (Nat.eqb _ _); ring. Qed.
Lemma ch_cross : forall q, ch 0 q * ch 1 q = 0.
Proof. intros. unfold ch. destruct (spinIndex _) as [|[|]]; cbn; ring. Qed.
(** both constrained: F = E - TS *)
Lemma fixed_NM : (forall t, NAt u p t = NAt u p t0) -> (forall t, MAt u p t = MAt u p t0) ->
  dmuDen u (p_mu p t0) (p_Bz p t0) eps 0 <> 0 -> dmuDen u (p_mu p t0) (p_Bz p t0) eps 1 <> 0 ->
  is_derive (fun t => E t - TSAt u p t) t0 (contraction u (gradHaux u true None None (p_mu p t0) (p_Bz p t0) eps h) deps).
Proof.
  intros HN HM Hd0 Hd1. rewrite grad_S. unfold contributions. cbv zeta. cbn [fst snd]. rewrite !Num_S. rewrite !Den_S in *.
  assert (S D = 0) as ZN. { pose proof N_derive as H. apply (is_derive_ext _ (fun _ => NAt u p t0)) in H; [|exact HN]. apply is_derive_unique in H. rewrite Derive_const in H. auto. }
  assert (S (fun q b => spin u q * D q b) = 0) as ZM. { pose proof M_derive as H. apply (is_derive_ext _ (fun _ => MAt u p t0)) in H; [|exact HM]. apply is_derive_unique in H. rewrite Derive_const in H. auto. }
  set (d0 := S (fun q b => ch 0 q)) in *. set (d1 := S (fun q b => ch 1 q)) in *.
  assert (S (fun q b => spin u q * D q b) = S (fun q b => ch 0 q * D q b) - S (fun q b => ch 1 q * D q b)) as EM.
  { unfold Rminus. rewrite <- (Rmult_1_l (S (fun q b => ch 1 q * D q b))), Ropp_mult_distr_l, <- S_scal, <- S_add. apply S_ext. intros q i Hq _. rewrite (spin_ch q Hq). ring. }
  assert (S (fun q b => ch 0 q * D q b) = S (fun q b => ch 0 q * deps q b) - (dmu + dBz) * d0) as E0.
  { unfold Rminus. rewrite Ropp_mult_distr_l. unfold d0. rewrite <- S_scal, <- S_add. apply S_ext. intros q i Hq _. unfold D. rewrite (spin_ch q Hq). generalize (ch_idem 0 q) (ch_cross q). intros A1 A2.
    replace (ch 0 q * (deps q i - (dmu + dBz * (ch 0 q - ch 1 q)))) with (ch 0 q * deps q i - dmu * ch 0 q - dBz * (ch 0 q * ch 0 q) + dBz * (ch 0 q * ch 1 q)) by ring. rewrite A1, A2. ring. }
  assert (S (fun q b => ch 1 q * D q b) = S (fun q b => ch 1 q * deps q b) - (dmu - dBz) * d1) as E1.
  { unfold Rminus at 1. rewrite Ropp_mult_distr_l. unfold d1. rewrite <- S_scal, <- S_add. apply S_ext. intros q i Hq _. unfold D. rewrite (spin_ch q Hq). generalize (ch_idem 1 q) (ch_cross q). intros A1 A2.
    replace (ch 1 q * (deps q i - (dmu + dBz * (ch 0 q - ch 1 q)))) with (ch 1 q * deps q i - dmu * ch 1 q + dBz * (ch 1 q * ch 1 q) - dBz * (ch 0 q * ch 1 q)) by ring. rewrite A1, A2. ring. }
  assert (S D = S (fun q b => ch 0 q * D q b) + S (fun q b => ch 1 q * D q b)) as EN by (symmetry; apply S_ch).
  set (n0 := S (fun q b => ch 0 q * g q b)). set (n1 := S (fun q b => ch 1 q * g q b)).
  set (cm := 1 / 2 * (n0 / d0 + n1 / d1)). set (cB := 1 / 2 * (n0 / d0 - n1 / d1)).
  replace (S (fun q b => (g q b - muEffq u cm cB q) * deps q b)) with (S (fun q b => g q b * D q b) + p_mu p t0 * S D + p_Bz p t0 * S (fun q b => spin u q * D q b)); [apply A_derive|].
  rewrite ZN, ZM. rewrite EM in ZM. rewrite EN in ZN.
  assert (S (fun q b => g q b * D q b) = S (fun q b => g q b * deps q b) - dmu * (n0 + n1) - dBz * (n0 - n1)) as EG.
  { unfold Rminus. rewrite !Ropp_mult_distr_l. unfold n0, n1. rewrite <- (Rmult_1_l (S (fun q b => ch 1 q * g q b))), Ropp_mult_distr_l, <- !S_scal, <- !S_add, <- !S_scal, <- !S_add. apply S_ext. intros q i Hq _. unfold D. rewrite (spin_ch q Hq).
    pose proof (ch_sum q) as A. replace (ch 0 q * g q i + 1 * (ch 1 q * g q i)) with ((ch 0 q + ch 1 q) * g q i) by ring. rewrite A. ring. }
  assert (S (fun q b => (g q b - muEffq u cm cB q) * deps q b) = S (fun q b => g q b * deps q b) - (cm + cB) * S (fun q b => ch 0 q * deps q b) - (cm - cB) * S (fun q b => ch 1 q * deps q b)) as ER.
  { transitivity (S (fun q b => g q b * deps q b) + - (cm + cB) * S (fun q b => ch 0 q * deps q b) + - (cm - cB) * S (fun q b => ch 1 q * deps q b)); [|ring]. rewrite <- !S_scal, <- !S_add. apply S_ext. intros q i Hq _. unfold muEffq. rewrite (spin_ch q Hq). pose proof (ch_sum q) as A. replace (ch 1 q) with (1 - ch 0 q) by lra. ring. }
  rewrite ER, EG. replace (S (fun q b => ch 0 q * deps q b)) with ((dmu + dBz) * d0) by lra. replace (S (fun q b => ch 1 q * deps q b)) with ((dmu - dBz) * d1) by lra.
  unfold cm, cB. field. split; assumption.
Qed.
(** fixed mu and M: the derivative of G = E - TS - mu N *)
Lemma fixed_mu_M : forall m, (forall t, p_mu p t = m) -> (forall t, MAt u p t = MAt u p t0) ->
  dmuDen u (p_mu p t0) (p_Bz p t0) eps 0 + dmuDen u (p_mu p t0) (p_Bz p t0) eps 1 <> 0 ->
  is_derive (fun t => E t - TSAt u p t - m * NAt u p t) t0
    (rs (nStates u) (fun q => rs (nBands u) (fun b => weight u q * f' q b * (h q b - eps q b - spin u q *
      ((dmuNum u (p_mu p t0) (p_Bz p t0) eps h 0 - dmuNum u (p_mu p t0) (p_Bz p t0) eps h 1) / (dmuDen u (p_mu p t0) (p_Bz p t0) eps 0 + dmuDen u (p_mu p t0) (p_Bz p t0) eps 1))) * deps q b))).
Proof.
  intros m Hm HM Hd. rewrite !Num_S. rewrite !Den_S in *.
  assert (S (fun q b => spin u q * D q b) = 0) as ZM. { pose proof M_derive as H. apply (is_derive_ext _ (fun _ => MAt u p t0)) in H; [|exact HM]. apply is_derive_unique in H. rewrite Derive_const in H. auto. }
  assert (dmu = 0) as Z'. { pose proof (s_mu _ _ _ _ _ _ Hs) as H. apply (is_derive_ext _ (fun _ => m)) in H; [|exact Hm]. apply is_derive_unique in H. rewrite Derive_const in H. auto. }
  assert (S (fun q b => ch 0 q) + S (fun q b => ch 1 q) = S (fun _ _ => 1)) as ES by (rewrite <- S_add; apply S_ext; intros; apply ch_sum). rewrite ES in *.
  assert (S (fun q b => ch 0 q * g q b) - S (fun q b => ch 1 q * g q b) = S (fun q b => spin u q * g q b)) as EG.
  { unfold Rminus. rewrite <- (Rmult_1_l (S (fun q b => ch 1 q * g q b))), Ropp_mult_distr_l, <- S_scal, <- S_add. apply S_ext. intros q i Hq _. rewrite (spin_ch q Hq). ring. }
  rewrite EG. set (c := S (fun q b => spin u q * g q b) / S (fun _ _ => 1)).
  match goal with |- is_derive _ _ ?d => replace d with (S (fun q b => (g q b - c * spin u q) * deps q b)) end.
  2: { unfold S. apply rs_ext. intros q Hq. rewrite <- rs_scal. apply rs_ext. intros b Hb. unfold g. ring. }
  replace (S (fun q b => (g q b - c * spin u q) * deps q b)) with ((S (fun q b => g q b * D q b) + p_mu p t0 * S D + p_Bz p t0 * S (fun q b => spin u q * D q b)) - m * S D).
  - apply (is_derive_minus (fun t => E t - TSAt u p t)); [apply A_derive|]. apply (is_derive_scal (NAt u p)). apply N_derive.
  - rewrite ZM, Hm.
    assert (S (fun q b => spin u q * deps q b) = dBz * S (fun _ _ => 1)) as ED.
    { rewrite <- S_scal. rewrite <- (Rplus_0_l (S (fun q i => dBz * 1))), <- ZM, <- S_add. apply S_ext. intros q i Hq _. unfold D. rewrite Z'. destruct (Hspin q Hq) as [-> | ->]; ring. }
    replace (S (fun q b => g q b * D q b)) with (S (fun q b => g q b * deps q b) + (- dBz) * S (fun q b => spin u q * g q b)) by (rewrite <- S_scal, <- S_add; apply S_ext; intros; unfold D; rewrite Z'; ring).
    replace (S (fun q b => (g q b - c * spin u q) * deps q b)) with (S (fun q b => g q b * deps q b) + (- c) * S (fun q b => spin u q * deps q b)) by (rewrite <- S_scal, <- S_add; apply S_ext; intros; ring).
    rewrite ED. unfold c. field. exact Hd.
Qed.
End Path.
