(** Theorems for the gradient with respect to the auxiliary Hamiltonian (C91). *)
From Coq Require Import Reals Lra.
From Coquelicot Require Import Coquelicot.
From Verif Require Import Smear_Model FillGrad_Model FillGrad_Spec FillGrad_Proofs FillGrad_Proofs2.
Open Scope R_scope.

(** Fixed N at a given field: the gradient is the derivative of E - TS - Bz M along every path of the eigenvalues that keeps N. *)
Theorem C91_fixed_N_gradient : forall u p t0 deps dmu dBz, 0 < smWidth u -> smooth u p t0 deps dmu dBz ->
  forall h E, energyOf u h p t0 E -> entropySmooth u p t0 -> forall B spinZ,
  (forall t, p_Bz p t = B) -> (forall t, NAt u p t = NAt u p t0) ->
  dmuDen u (p_mu p t0) (p_Bz p t0) (epsAt p t0) 0 + dmuDen u (p_mu p t0) (p_Bz p t0) (epsAt p t0) 1 <> 0 ->
  is_derive (fun t => E t - TSAt u p t - B * MAt u p t) t0 (contraction u (gradHaux u spinZ None (Some B) (p_mu p t0) (p_Bz p t0) (epsAt p t0) h) deps).
Proof. exact fixed_N. Qed.
Print Assumptions C91_fixed_N_gradient.
Example C91_fixed_N_example : is_derive (fun t => rs 2 (fun q => rs 1 (fun b => 1 * (movingH q b * fillAt twoSpin risingPath t q b))) - TSAt twoSpin risingPath t - 0 * MAt twoSpin risingPath t) 0
  (contraction twoSpin (gradHaux twoSpin true None (Some 0) 0 0 (epsAt risingPath 0) movingH) (fun _ _ => 1)).
Proof.
  apply (C91_fixed_N_gradient twoSpin risingPath 0 _ 1 0 ltac:(cbn; lra) rising_smooth movingH _ (linear_energy twoSpin movingH risingPath 0)).
  - intros H; discriminate H.
  - reflexivity.
  - exact rising_N.
  - exact rising_den.
Qed.

(** Fixed N and M *)
Theorem C91_fixed_N_and_M_gradient : forall u p t0 deps dmu dBz, 0 < smWidth u -> smooth u p t0 deps dmu dBz ->
  forall h E, energyOf u h p t0 E -> entropySmooth u p t0 ->
  (forall q, (q < nStates u)%nat -> spin u q = 1 \/ spin u q = -1) ->
  (forall t, NAt u p t = NAt u p t0) -> (forall t, MAt u p t = MAt u p t0) ->
  dmuDen u (p_mu p t0) (p_Bz p t0) (epsAt p t0) 0 <> 0 -> dmuDen u (p_mu p t0) (p_Bz p t0) (epsAt p t0) 1 <> 0 ->
  is_derive (fun t => E t - TSAt u p t) t0 (contraction u (gradHaux u true None None (p_mu p t0) (p_Bz p t0) (epsAt p t0) h) deps).
Proof. exact fixed_NM. Qed.
Print Assumptions C91_fixed_N_and_M_gradient.
Example C91_fixed_N_and_M_example : is_derive (fun t => 0 - TSAt twoSpin movingPath t) 0 (contraction twoSpin (gradHaux twoSpin true None None 0 0 (epsAt movingPath 0) movingH) movingDeps).
Proof.
  apply (C91_fixed_N_and_M_gradient twoSpin movingPath 0 _ 0 1 ltac:(cbn; lra) moving_smooth movingH _ moving_energy).
  - intros H; discriminate H.
  - exact two_spins.
  - exact moving_N.
  - exact moving_M.
  - cbn [p_mu p_Bz movingPath]. rewrite den0. pose proof fu_neg. lra.
  - cbn [p_mu p_Bz movingPath]. rewrite den1, fd_fu. pose proof fu_neg. pose proof e1. nra.
Qed.

(** Fixed mu and field *)
Theorem C91_fixed_mu_gradient : forall u p t0 deps dmu dBz, 0 < smWidth u -> smooth u p t0 deps dmu dBz ->
  forall h E, energyOf u h p t0 E -> entropySmooth u p t0 -> forall m B spinZ,
  (forall t, p_mu p t = m) -> (forall t, p_Bz p t = B) ->
  is_derive (fun t => E t - TSAt u p t - m * NAt u p t - B * MAt u p t) t0 (contraction u (gradHaux u spinZ (Some m) (Some B) (p_mu p t0) (p_Bz p t0) (epsAt p t0) h) deps).
Proof. exact fixed_mu. Qed.
Print Assumptions C91_fixed_mu_gradient.
Example C91_fixed_mu_example : is_derive (fun t => rs 2 (fun q => rs 1 (fun b => 1 * (movingH q b * fillAt twoSpin drivenPath t q b))) - TSAt twoSpin drivenPath t - 1 * NAt twoSpin drivenPath t - 2 * MAt twoSpin drivenPath t) 0
  (contraction twoSpin (gradHaux twoSpin true (Some 1) (Some 2) 1 2 (epsAt drivenPath 0) movingH) (fun q _ => match q with O => 1 | _ => 3 end)).
Proof.
  apply (C91_fixed_mu_gradient twoSpin drivenPath 0 _ 0 0 ltac:(cbn; lra) driven_smooth movingH _ (linear_energy twoSpin movingH drivenPath 0)); try reflexivity. intros H; discriminate H.
Qed.

(** Fixed mu and M: what the derivative is (the denominator is the sum of both channels) *)
Theorem C91_fixed_mu_and_M_derivative : forall u p t0 deps dmu dBz, 0 < smWidth u -> smooth u p t0 deps dmu dBz ->
  forall h E, energyOf u h p t0 E -> entropySmooth u p t0 ->
  (forall q, (q < nStates u)%nat -> spin u q = 1 \/ spin u q = -1) -> forall m,
  (forall t, p_mu p t = m) -> (forall t, MAt u p t = MAt u p t0) ->
  dmuDen u (p_mu p t0) (p_Bz p t0) (epsAt p t0) 0 + dmuDen u (p_mu p t0) (p_Bz p t0) (epsAt p t0) 1 <> 0 ->
  is_derive (fun t => E t - TSAt u p t - m * NAt u p t) t0
    (rs (nStates u) (fun q => rs (nBands u) (fun b => weight u q * fprime u (p_mu p t0) (p_Bz p t0) (epsAt p t0) q b * (h q b - epsAt p t0 q b - spin u q *
      ((dmuNum u (p_mu p t0) (p_Bz p t0) (epsAt p t0) h 0 - dmuNum u (p_mu p t0) (p_Bz p t0) (epsAt p t0) h 1) /
       (dmuDen u (p_mu p t0) (p_Bz p t0) (epsAt p t0) 0 + dmuDen u (p_mu p t0) (p_Bz p t0) (epsAt p t0) 1))) * deps q b))).
Proof. exact fixed_mu_M. Qed.
Print Assumptions C91_fixed_mu_and_M_derivative.

(** Fixed mu and M: the code divides by the difference of the channels, and the result is not the derivative. *)
Theorem C91_fixed_mu_and_M_gradient_refuted : exists u p t0 deps dmu dBz h E m,
  0 < smWidth u /\ smooth u p t0 deps dmu dBz /\ energyOf u h p t0 E /\ entropySmooth u p t0 /\
  (forall q, (q < nStates u)%nat -> spin u q = 1 \/ spin u q = -1) /\
  (forall t, p_mu p t = m) /\ (forall t, MAt u p t = MAt u p t0) /\
  dmuDen u (p_mu p t0) (p_Bz p t0) (epsAt p t0) 0 + dmuDen u (p_mu p t0) (p_Bz p t0) (epsAt p t0) 1 <> 0 /\
  dmuDen u (p_mu p t0) (p_Bz p t0) (epsAt p t0) 0 - dmuDen u (p_mu p t0) (p_Bz p t0) (epsAt p t0) 1 <> 0 /\
  ~ is_derive (fun t => E t - TSAt u p t - m * NAt u p t) t0 (contraction u (gradHaux u true (Some m) None (p_mu p t0) (p_Bz p t0) (epsAt p t0) h) deps).
Proof.
  exists twoSpin, movingPath, 0, movingDeps, 0, 1, movingH, (fun _ => 0), 0.
  cbn [p_mu p_Bz movingPath]. rewrite den0, den1.
  exact (conj Rlt_0_1 (conj moving_smooth (conj moving_energy (conj moving_ent (conj two_spins (conj (fun _ => eq_refl) (conj moving_M (conj fsum (conj fdiff moving_not))))))))).
Qed.
Print Assumptions C91_fixed_mu_and_M_gradient_refuted.

(** The reported entropy and field energy belong to the fillings when mu is found, or given without a field. *)
Theorem C91_energies_of_fillings : forall u mu BzT found eps, (mu = None \/ (exists m, mu = Some m /\ found = (m, 0))) ->
  reportedTS u mu found eps = entropyTS u (fst found) (snd found) eps /\
  (BzT = Some (snd found) -> reportedMinusMzBz u mu BzT found eps = - (snd found * Mtot u (fst found) (snd found) eps)).
Proof. exact reported_ok. Qed.
Print Assumptions C91_energies_of_fillings.
Example C91_energies_example : reportedTS oneUp None (0, 2) (fun _ _ => 0) = exp (- (2 * 2 / 4)) / sqrt PI.
Proof. rewrite <- one_TS. apply (C91_energies_of_fillings oneUp None None (0, 2)). left; reflexivity. Qed.

(** With mu and a field both given they do not. *)
Theorem C91_fixed_mu_and_field_energies_refuted : exists u m B eps, 0 < smWidth u /\
  reportedTS u (Some m) (m, B) eps <> entropyTS u m B eps /\ reportedMinusMzBz u (Some m) (Some B) (m, B) eps <> - (B * Mtot u m B eps).
Proof. exists oneUp, 0, 2, (fun _ _ => 0). exact (conj Rlt_0_1 (conj one_wrong one_wrongM)). Qed.
Print Assumptions C91_fixed_mu_and_field_energies_refuted.
