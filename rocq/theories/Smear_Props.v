(** C30, C31: smearing functions and the chemical potential search. *)
From Coq Require Import Reals List ZArith Lra Lia.
From Coquelicot Require Import Coquelicot.
From Verif Require Import Gauss Smear_Model Smear_Spec Smear_Proofs Smear_Proofs2 Smear_Proofs3.
Import ListNotations.
Open Scope R_scope.

(** C30. smearPrime is the derivative of smear with respect to the energy, for all four smearing types. *)
Theorem C30_reported_derivative : forall ty width mu eps, 0 < width ->
  is_derive (smear ty width mu) eps (smearPrime ty width mu eps).
Proof. exact derivative. Qed.
Print Assumptions C30_reported_derivative.

(** The entropy is consistent: width times its energy derivative is (energy - mu) times the derivative of the occupation,
    so the free energy is stationary with respect to the eigenvalues. For Fermi smearing this holds wherever neither
    occupation nor its complement is below the cutoff 1e-300 under which the code drops the entropy term. *)
Theorem C30_entropy_consistent : forall ty width mu eps, 0 < width ->
  (ty = SmearingFermi -> tiny < smear ty width mu eps /\ tiny < 1 - smear ty width mu eps) ->
  is_derive (fun e => width * smearEntropy ty width mu e) eps ((eps - mu) * smearPrime ty width mu eps).
Proof. exact entropy_derivative. Qed.
Print Assumptions C30_entropy_consistent.

(** Fermi and Gauss occupations are strictly between 0 and 1 and strictly decreasing. *)
Theorem C30_range_and_monotone : forall ty width mu, ty = SmearingFermi \/ ty = SmearingGauss -> 0 < width ->
  (forall e, 0 < smear ty width mu e < 1) /\ (forall e e', e < e' -> smear ty width mu e' < smear ty width mu e).
Proof. exact range_decr. Qed.
Print Assumptions C30_range_and_monotone.

(** Fermi, Gauss and Methfessel-Paxton occupations are symmetric about the chemical potential. *)
Theorem C30_symmetric : forall ty width mu d, ty <> SmearingCold -> 0 < width ->
  smear ty width mu (mu - d) + smear ty width mu (mu + d) = 1.
Proof. exact symmetric. Qed.
Print Assumptions C30_symmetric.

(** Deep levels are full and high levels empty, for all types. *)
Theorem C30_limits : forall ty width mu d, 0 < width -> 0 < d ->
  exists X, forall e, (mu + X <= e -> Rabs (smear ty width mu e) < d) /\ (e <= mu - X -> Rabs (smear ty width mu e - 1) < d).
Proof. exact limits. Qed.
Print Assumptions C30_limits.

(** Cold smearing never gives a negative occupation. *)
Theorem C30_cold_positive : forall width mu e, 0 < smear SmearingCold width mu e.
Proof. exact cold_pos. Qed.
Print Assumptions C30_cold_positive.

(** As stated for every type the range, monotonicity and symmetry are false: Methfessel-Paxton occupations leave [0,1]
    on both sides and are not monotone; cold smearing exceeds 1, is not monotone and is not symmetric. *)
Theorem C30_mp1_range_refuted : exists e e', smear SmearingMP1 1 0 e < 0 /\ 1 < smear SmearingMP1 1 0 e'.
Proof. exact (ex_intro _ 2 (ex_intro _ (-2) mp1_out)). Qed.
Print Assumptions C30_mp1_range_refuted.
Theorem C30_mp1_monotone_refuted : exists e, 2 < e /\ smear SmearingMP1 1 0 2 < smear SmearingMP1 1 0 e.
Proof. exact mp1_rises. Qed.
Print Assumptions C30_mp1_monotone_refuted.
Theorem C30_cold_range_refuted : exists e, 1 < smear SmearingCold 1 0 e.
Proof. exact cold_out. Qed.
Print Assumptions C30_cold_range_refuted.
Theorem C30_cold_monotone_refuted : exists e e', e < e' /\ smear SmearingCold 1 0 e < smear SmearingCold 1 0 e'.
Proof. exact cold_rises. Qed.
Print Assumptions C30_cold_monotone_refuted.
Theorem C30_cold_symmetric_refuted : exists d, smear SmearingCold 1 0 (0 - d) + smear SmearingCold 1 0 (0 + d) > 1.
Proof. exact cold_asym. Qed.
Print Assumptions C30_cold_symmetric_refuted.

(** The factor that turns a Hamiltonian change into an occupation change is the derivative of the occupation at an energy
    between the two levels. *)
Theorem C30_gradient_factor : forall ty width mu epsI epsJ, 0 < width ->
  exists c, Rmin epsI epsJ <= c <= Rmax epsI epsJ /\ smearGradFactor ty width mu epsI epsJ = smearPrime ty width mu c.
Proof. exact gradFactor. Qed.
Print Assumptions C30_gradient_factor.

Example C30_ex_half : forall ty, ty <> SmearingCold -> smear ty 1 0 0 = 1/2.
Proof. intros ty H. assert (S := C30_symmetric ty 1 0 0 H ltac:(lra)). rewrite Rminus_0_r, Rplus_0_l in S. lra. Qed.
Example C30_ex_tiny : tiny < smear SmearingFermi 1 0 0 /\ tiny < 1 - smear SmearingFermi 1 0 0.
Proof.
  rewrite (C30_ex_half SmearingFermi) by discriminate. assert (tiny < 1/2); [|lra]. unfold tiny.
  replace (1/2) with (/2) by field. apply Rinv_lt_contravar; [apply Rmult_lt_0_compat; [lra|apply pow_lt; lra]|].
  apply Rlt_le_trans with (10^1); [lra|]. apply Rle_pow; [lra|lia].
Qed.

(** C31. With the field given (or none), the search terminates for every target up to the capacity of the bands, and
    brackets the solution; the result does not depend on the fuel of the model. *)
Theorem C31_terminates_and_brackets : forall ty width states B Minitial n, 0 < width -> List.Forall (fun q => 0 <= ks_weight q) states ->
  0 <= n <= capacity (map (fun q => (ks_weight q, length (ks_eps q))) states) ->
  exists fuel mu, (forall fuel', (fuel <= fuel')%nat -> findMu ty width states (Some B) Minitial fuel' n = Some mu) /\
    bracketed (fun m => Nof ty width states m B) width n (-1/10) 0 mu.
Proof. exact findMu_ok. Qed.
Print Assumptions C31_terminates_and_brackets.

(** Same without spin polarization when the field is left unset (the default). *)
Theorem C31_unpolarized : forall ty width states n, 0 < width -> List.Forall (fun q => 0 <= ks_weight q) states -> List.Forall (fun q => ks_spin q = 0) states ->
  0 <= n <= capacity (map (fun q => (ks_weight q, length (ks_eps q))) states) ->
  exists fuel mu, (forall fuel', (fuel <= fuel')%nat -> findMu ty width states None 0 fuel' n = Some mu) /\
    bracketed (fun m => Nof ty width states m 0) width n (-1/10) 0 mu.
Proof. exact findMu_unpolarized. Qed.
Print Assumptions C31_unpolarized.

(** The electron number at a bracketed result differs from the target by less than the value tolerance plus the variation
    over half an interval of the stated size, at the largest possible slope (capacity / width). *)
Theorem C31_electron_number : forall ty width states B n mu, 0 < width -> List.Forall (fun q => 0 <= ks_weight q) states ->
  bracketed (fun m => Nof ty width states m B) width n (-1/10) 0 mu ->
  exists lo1 hi1, (lo1 = -1/10 \/ lo1 < -1/10 /\ n + valueTol n <= Nof ty width states ((lo1 + 0) / 2) B) /\
    (hi1 = 0 \/ 0 < hi1 /\ Nof ty width states ((lo1 + hi1) / 2) B <= n - valueTol n) /\ lo1 <= mu <= hi1 /\
    Rabs (Nof ty width states mu B - n) < valueTol n +
       capacity (map (fun q => (ks_weight q, length (ks_eps q))) states) / width * (Rmax (1/10^10 * width) (1/10^14 * Rmax (Rabs lo1) (Rabs hi1)) / 2).
Proof. exact findMu_value. Qed.
Print Assumptions C31_electron_number.

(** Fixed magnetization: at every chemical potential the inner search for the field terminates and the magnetization
    agrees with the target to the analogous accuracy. *)
Theorem C31_field_search : forall ty width states Minitial mu, 0 < width -> List.Forall (fun q => 0 <= ks_weight q) states ->
  List.Forall (fun q => ks_spin q = 1 \/ ks_spin q = -1 \/ ks_spin q = 0) states ->
  - capacity (map (fun q => (ks_weight q, length (ks_eps q))) (filter (fun q => if Req_EM_T (ks_spin q) (-1) then true else false) states)) <= Minitial
    <= capacity (map (fun q => (ks_weight q, length (ks_eps q))) (filter (fun q => if Req_EM_T (ks_spin q) 1 then true else false) states)) ->
  exists fuel B, (forall fuel', (fuel <= fuel')%nat -> nElectronsCalc ty width states None Minitial fuel' mu = Some (Nof ty width states mu B, B)) /\
    bracketed (Mof ty width states mu) width Minitial (-1/10) (1/10) B /\
    exists lo1 hi1, lo1 <= B <= hi1 /\
      Rabs (Mof ty width states mu B - Minitial) < valueTol Minitial +
       capacity (map (fun q => (ks_weight q, length (ks_eps q))) states) / width * (Rmax (1/10^10 * width) (1/10^14 * Rmax (Rabs lo1) (Rabs hi1)) / 2).
Proof. exact fixedM. Qed.
Print Assumptions C31_field_search.

(** Fixed magnetization in a spin-polarized calculation: a result of the outer search brackets the electron number, each end
    with a field that brackets the magnetization. (Termination of the outer search in this mode is not covered.) *)
Theorem C31_fixed_magnetization_partial : forall ty width states Minitial n fuel mu, findMu ty width states None Minitial fuel n = Some mu ->
  exists lo hi lo1 hi1 Blo Bhi,
    lo1 <= lo /\ lo <= hi /\ hi <= hi1 /\ mu = (lo + hi)/2 /\
    hi - lo < Rmax (1/10^10 * width) (1/10^14 * Rmax (Rabs lo1) (Rabs hi1)) /\
    bracketed (Mof ty width states lo) width Minitial (-1/10) (1/10) Blo /\
    bracketed (Mof ty width states hi) width Minitial (-1/10) (1/10) Bhi /\
    Nof ty width states lo Blo < n + valueTol n /\ n - valueTol n < Nof ty width states hi Bhi.
Proof. exact fixedM_res. Qed.
Print Assumptions C31_fixed_magnetization_partial.

(** If the bands cannot hold the electrons the loop never ends (no fuel suffices). *)
Theorem C31_overfull_never_ends : forall ty width states B Minitial n fuel, ty = SmearingFermi \/ ty = SmearingGauss -> List.Forall (fun q => 0 <= ks_weight q) states ->
  capacity (map (fun q => (ks_weight q, length (ks_eps q))) states) + valueTol n <= n -> findMu ty width states (Some B) Minitial fuel n = None.
Proof. exact overfull'. Qed.
Print Assumptions C31_overfull_never_ends.

(** two k-points with two bands each, three electrons *)
Definition ex_states := [KS 0 1 [-1; 1]; KS 0 1 [-2; 2]].
Example C31_ex : exists fuel mu, (forall fuel', (fuel <= fuel')%nat -> findMu SmearingCold (1/100) ex_states (Some 0) 0 fuel' 3 = Some mu) /\
    bracketed (fun m => Nof SmearingCold (1/100) ex_states m 0) (1/100) 3 (-1/10) 0 mu.
Proof. apply C31_terminates_and_brackets; [lra|repeat constructor; cbn; lra|]. unfold capacity, ex_states. cbn. lra. Qed.
Example C31_ex_unpolarized : exists fuel mu, (forall fuel', (fuel <= fuel')%nat -> findMu SmearingFermi (1/100) ex_states None 0 fuel' 3 = Some mu) /\
    bracketed (fun m => Nof SmearingFermi (1/100) ex_states m 0) (1/100) 3 (-1/10) 0 mu.
Proof. apply C31_unpolarized; [lra|repeat constructor; cbn; lra|repeat constructor; cbn; lra|]. unfold capacity, ex_states. cbn. lra. Qed.
Definition ex_spin := [KS 1 1 [-1; 1]; KS (-1) 1 [-2; 2]].
Example C31_ex_field : exists fuel B, (forall fuel', (fuel <= fuel')%nat -> nElectronsCalc SmearingFermi (1/100) ex_spin None 1 fuel' 0 = Some (Nof SmearingFermi (1/100) ex_spin 0 B, B)) /\
    bracketed (Mof SmearingFermi (1/100) ex_spin 0) (1/100) 1 (-1/10) (1/10) B.
Proof.
  destruct (C31_field_search SmearingFermi (1/100) ex_spin 1 0) as (f&B&H1&H2&_).
  - lra. - repeat constructor; cbn; lra. - apply Forall_forall; intros q [<-|[<-|[]]]; cbn; auto.
  - unfold ex_spin, capacity. cbn [filter ks_spin]. do 4 (destruct (Req_EM_T _ _); try lra). cbn. lra.
  - exists f, B. auto.
Qed.
Example C31_ex_overfull : forall fuel, findMu SmearingGauss (1/100) ex_states (Some 0) 0 fuel 5 = None.
Proof.
  intros fuel. apply C31_overfull_never_ends; [auto|repeat constructor; cbn; lra|]. unfold capacity, ex_states, valueTol. cbn [map Rsum fst snd ks_weight ks_eps length INR].
  rewrite Rabs_pos_eq by lra. rewrite Rmax_left; lra.
Qed.
