(** C39-C41: quintic splines. *)
From Coq Require Import ZArith Reals List Bool Lia Lra Permutation.
From Coquelicot Require Import Coquelicot.
From Verif Require Import Base Lattice_Model KPoints_Model RealUtil Spline_Model Spline_Spec Spline_Proofs Spline_Proofs2 Spline_Proofs3 Spline_Proofs4.
Import ListNotations.
Open Scope R_scope.

(** ** C39 *)
(** The derivative routine returns the derivative of the value routine, at the sample points too. *)
Theorem C39_derivative : forall coeff x, 0 < x < IZR (Z.of_nat (List.length coeff) - 5) -> exists v d,
  value coeff x = Some v /\ deriv coeff x = Some d /\ is_derive (total (value coeff)) x d.
Proof. exact spline_deriv. Qed.
Print Assumptions C39_derivative.
(** Value and the first four derivatives exist and are continuous over the whole range. *)
Theorem C39_smooth : forall coeff, smooth_on 4 (total (value coeff)) 0 (IZR (Z.of_nat (List.length coeff) - 5)).
Proof. exact spline_smooth. Qed.
Print Assumptions C39_smooth.
(** The guarded evaluation of radial functions never reads outside its table. *)
Theorem C39_radial_in_bounds : forall coeff dGinv G, (5 <= Z.of_nat (List.length coeff))%Z -> 0 <= dGinv -> 0 <= G ->
  exists v d, radialValue coeff dGinv G = Some v /\ radialDeriv coeff dGinv G = Some d.
Proof. exact radial_ok. Qed.
Print Assumptions C39_radial_in_bounds.
(** The guard of the screened exchange kernels compares with the number of samples, which lets through arguments whose evaluation reads past the end of the table. *)
Theorem C39_screened_in_bounds_refuted : exists coeff n t, (Z.of_nat (List.length coeff) = n + 4)%Z /\ 0 <= t < IZR n /\ screenedValue coeff n t = None.
Proof. exact screened_bad. Qed.
Print Assumptions C39_screened_in_bounds_refuted.

(** the spline of a single unit coefficient at a half-integer point *)
Example ex39 : 0 < 1/2 < IZR (Z.of_nat (List.length [0;0;66;0;0;0;0]) - 5) /\
  value [0;0;66;0;0;0;0] (1/2) = Some (841/16) /\ deriv [0;0;66;0;0;0;0] (1/2) = Some (-385/8).
Proof.
  assert (H : 0 < 1/2 < IZR (Z.of_nat (List.length [0;0;66;0;0;0;0]) - 5)) by (split; [lra|apply Rlt_trans with 1; [lra|apply IZR_lt; reflexivity]]).
  split; [exact H|]. rewrite value_F, deriv_F by (split; [apply Rlt_le|]; apply H). unfold F, piece. rewrite (rtrunc_unique (1/2) 0) by (try lia; lra).
  unfold six, cf. lazy -[Rplus Rmult Rminus Ropp Rdiv Rinv IZR]. split; f_equal; field.
Qed.

(** ** C40 *)
(** Every sample point but the last is met exactly; the end is met in the limit, where the third and fourth derivatives vanish. *)
Theorem C40_interpolates : forall samples odd, (3 <= Z.of_nat (List.length samples))%Z ->
  (odd = true -> nth 0 samples 0 = 0) -> exists coeff, getCoeff samples odd = Some coeff /\
  (forall i, (i + 1 < List.length samples)%nat -> value coeff (INR i) = Some (nth i samples 0)) /\
  tends_left (total (value coeff)) (INR (List.length samples - 1)) (nth (List.length samples - 1) samples 0).
Proof. exact interpolates. Qed.
Print Assumptions C40_interpolates.
(** Without the condition on the first sample, the odd extension replaces that sample by zero and keeps the others. *)
Theorem C40_odd_first_sample : forall samples, (3 <= Z.of_nat (List.length samples))%Z -> exists coeff, getCoeff samples true = Some coeff /\
  value coeff 0 = Some 0 /\ (forall i, (1 <= i)%nat -> (i + 1 < List.length samples)%nat -> value coeff (INR i) = Some (nth i samples 0)).
Proof. exact odd_interpolates. Qed.
Print Assumptions C40_odd_first_sample.
(** Boundary conditions: even and odd extension at the first sample, natural at the last. *)
Theorem C40_boundary : forall samples odd, (3 <= Z.of_nat (List.length samples))%Z -> exists coeff, getCoeff samples odd = Some coeff /\
  (forall k, (k <= 4)%nat -> Nat.even k = odd -> tends_right (Derive_n (total (value coeff)) k) 0 0) /\
  tends_left (Derive_n (total (value coeff)) 3) (INR (List.length samples - 1)) 0 /\ tends_left (Derive_n (total (value coeff)) 4) (INR (List.length samples - 1)) 0.
Proof. exact boundary. Qed.
Print Assumptions C40_boundary.
(** The last sample point itself cannot be evaluated: it reads one coefficient past the end of the array, for every list of samples. *)
Theorem C40_last_sample_refuted : exists samples coeff, (5 <= List.length samples)%nat /\ getCoeff samples false = Some coeff /\
  value coeff (INR (List.length samples - 1)) <> Some (nth (List.length samples - 1) samples 0).
Proof. exact last_sample_bad. Qed.
Print Assumptions C40_last_sample_refuted.
(** Fewer than three samples index outside the arrays of the solver. *)
Theorem C40_few_samples_refuted : exists samples, samples <> [] /\ getCoeff samples false = None.
Proof. exact few_samples. Qed.
Print Assumptions C40_few_samples_refuted.

Example ex40 : exists coeff, getCoeff [1; 2; 0; -1; 5] false = Some coeff /\ value coeff 3 = Some (-1).
Proof.
  destruct (C40_interpolates [1; 2; 0; -1; 5] false) as (c & H1 & H2 & _); [change (3 <= 5)%Z; lia|discriminate|].
  exists c. split; [exact H1|]. replace 3 with (INR 3) by (cbn; ring). apply (H2 3%nat). cbn. lia.
Qed.

(** ** C41 *)
Theorem C41_adjoint : forall E_value E coeff x, List.length E = List.length coeff -> 0 <= x < IZR (Z.of_nat (List.length coeff) - 5) ->
  exists E', valueGrad E_value E x = Some E' /\ List.length E' = List.length E /\
  forall n, (n < List.length coeff)%nat -> exists d, is_partial (fun c => total (value c) x) coeff n d /\ nth n E' 0 = nth n E 0 + E_value * d.
Proof. exact valueGrad_ok. Qed.
Print Assumptions C41_adjoint.
(** On the GPU the contributions of a block are summed first: any order of threads between two barriers gives the sum over all threads. *)
Theorem C41_block_reduction : forall ord, (forall k, Permutation (ord k) (seq 0 k)) -> forall n sh, (1 <= n)%nat ->
  exists sh', blockSum ord n sh = Some sh' /\ sh' 0%nat = rsumn n sh.
Proof. exact blockSum_ok. Qed.
Print Assumptions C41_block_reduction.

Example ex41 : exists E', valueGrad 2 [0;0;0;0;0;0] 0 = Some E' /\ nth 2 E' 0 = 2 * 1 /\ nth 1 E' 0 = 2 * (26/66).
Proof.
  unfold valueGrad, valueGradWeights. replace (rtrunc 0) with 0%Z by (symmetry; apply rtrunc_unique; [lia|lra]).
  lazy -[Rplus Rmult Rminus Ropp Rdiv Rinv IZR]. eexists. split; [reflexivity|]. split; field.
Qed.
Example ex41_block : (forall k, Permutation (rev (seq 0 k)) (seq 0 k)) /\ rsumn 5 (fun i => INR i) = 10.
Proof. split; [intros; apply Permutation_sym, Permutation_rev|cbn; ring]. Qed.
