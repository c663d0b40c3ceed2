(** C45: spin densities and magnetization; C67: gradient propagation of exchange-correlation functionals. *)
From Coq Require Import ZArith Reals List Lia Lra.
From Coquelicot Require Import Coquelicot.
From Verif Require Import Base Vec3_Model Spin_Model Spin_Spec Spin_Proofs Spin_Proofs2.
Import ListNotations.
Open Scope R_scope.

(** Converting to (total, magnetization) and back is the identity, in both directions and for 1, 2 and 4 components. *)
Theorem C45_round_trip : forall n m, fromSpinDensity n = Some m -> exists n', toSpinDensity m = Some n' /\ same_fields n' n.
Proof. exact roundtrip. Qed.
Print Assumptions C45_round_trip.
Theorem C45_round_trip_back : forall m n, toSpinDensity m = Some n -> exists m', fromSpinDensity n = Some m' /\ same_fields m' m.
Proof. exact roundtrip'. Qed.
Print Assumptions C45_round_trip_back.
Theorem C45_defined : forall n, (List.length n = 1 \/ List.length n = 2 \/ List.length n = 4)%nat ->
  (exists m, fromSpinDensity n = Some m /\ List.length m = List.length n) /\ (exists m, toSpinDensity n = Some m /\ List.length m = List.length n).
Proof. exact (fun n H => conj (defined n H) (defined' n H)). Qed.
Print Assumptions C45_defined.
Example C45_round_trip_ex : exists m, fromSpinDensity [(fun _ => 1); (fun _ => 2); (fun _ => 3); IZR] = Some m.
Proof. eexists. reflexivity. Qed.

(** The components mean what they say: the spin-density matrix is (total + magnetization . sigma)/2. *)
Theorem C45_magnetization_pauli : forall n0 n1 n2 n3 m, fromSpinDensity [n0;n1;n2;n3] = Some m -> forall p,
  exists d z x y, m = [d;z;x;y] /\ spin_matrix (Q (n0 p) (n1 p) (n2 p) (n3 p)) = m2comb (d p / 2) (x p / 2) (y p / 2) (z p / 2).
Proof. exact mag_pauli. Qed.
Print Assumptions C45_magnetization_pauli.
Theorem C45_load_pauli : forall x, let '(x0, v) := loadSpinVector x in spin_matrix x = m2comb (x0 / 2) (c0 v / 2) (c1 v / 2) (c2 v / 2).
Proof. exact load_pauli. Qed.
Print Assumptions C45_load_pauli.
(** Accumulating a gradient is adding the adjoint of the load. *)
Theorem C45_accumulate_adjoint : forall E0 EV E x, let '(x0, v) := loadSpinVector x in
  qdot (accumSpinVectorGrad E0 EV E) x = qdot E x + (E0 * x0 + rdot EV v).
Proof. exact accum_adj. Qed.
Print Assumptions C45_accumulate_adjoint.

(** Spin-diagonal components are traces with the (regularised) projectors along the magnetization; the trace is preserved. *)
Theorem C45_diagonal_projector : forall n x, let u := rvscale (mNormFac (snd (loadSpinVector n))) (snd (loadSpinVector n)) in
  RtoC (fst (spinDiagonalize_calc n x)) = m2tr (m2mul (projector u) (spin_matrix x)) /\
  RtoC (snd (spinDiagonalize_calc n x)) = m2tr (m2mul (projector (rvopp u)) (spin_matrix x)).
Proof. exact diag_projector. Qed.
Print Assumptions C45_diagonal_projector.
Theorem C45_direction_length : forall v, rlen2 (rvscale (mNormFac v) v) = rlen2 v / (rlen2 v + nCutoff) /\ rlen2 (rvscale (mNormFac v) v) < 1.
Proof. exact (fun v => conj (mhat_sq v) (mhat_le v)). Qed.
Print Assumptions C45_direction_length.
Theorem C45_trace : forall n x, fst (spinDiagonalize_calc n x) + snd (spinDiagonalize_calc n x) = q0 x + q1 x.
Proof. exact trace_ok. Qed.
Print Assumptions C45_trace.

(** The diagonal densities are the eigenvalues of the spin-density matrix up to the regularisation 1e-8, and
    non-negative, bounded by the total density, when the matrix is positive semidefinite. *)
Theorem C45_eigenvalues : forall n, let '(n0, v) := loadSpinVector n in
  eigenvalue (spin_matrix n) ((n0 + rlen v) / 2) /\ eigenvalue (spin_matrix n) ((n0 - rlen v) / 2).
Proof. exact eigen_exact. Qed.
Print Assumptions C45_eigenvalues.
Theorem C45_diagonal_near_eigenvalues : forall n, let '(n0, v) := loadSpinVector n in
  let '(a, b) := spinDiagonalize_calc n n in
  0 <= (n0 + rlen v) / 2 - a <= / 10 ^ 8 /\ 0 <= b - (n0 - rlen v) / 2 <= / 10 ^ 8.
Proof. exact diag_near_eigen. Qed.
Print Assumptions C45_diagonal_near_eigenvalues.
Theorem C45_diagonal_nonnegative : forall n, psd n -> let '(a, b) := spinDiagonalize_calc n n in 0 <= a <= q0 n + q1 n /\ 0 <= b <= q0 n + q1 n.
Proof. exact diag_nonneg. Qed.
Print Assumptions C45_diagonal_nonnegative.
Example C45_psd_ex : psd (Q 1 (1/2) (1/4) (-1/4)).
Proof. unfold psd. cbn. lra. Qed.

(** Gradients propagated through the diagonalization are exact derivatives with respect to both n and x ... *)
Theorem C45_diagonal_gradient : forall n dn x dx (E : R * R),
  is_derive (fun t : R => let d := spinDiagonalize_calc (qline n dn t) (qline x dx t) in fst E * fst d + snd E * snd d) 0
    (qdot (fst (spinDiagonalizeGrad_calc n x E (Q 0 0 0 0) (Q 0 0 0 0))) dn
     + qdot (snd (spinDiagonalizeGrad_calc n x E (Q 0 0 0 0) (Q 0 0 0 0))) dx).
Proof. exact diag_derive. Qed.
Print Assumptions C45_diagonal_gradient.
(** ... are added to what the output arrays already hold ... *)
Theorem C45_gradient_accumulates : forall n x E a b,
  spinDiagonalizeGrad_calc n x E a b =
  (qadd a (fst (spinDiagonalizeGrad_calc n x E (Q 0 0 0 0) (Q 0 0 0 0))), qadd b (snd (spinDiagonalizeGrad_calc n x E (Q 0 0 0 0) (Q 0 0 0 0)))).
Proof. exact grad_accumulates. Qed.
Print Assumptions C45_gradient_accumulates.
(** ... and for x = n with one output array the total derivative results. *)
Theorem C45_density_gradient : forall n dn (E : R * R),
  is_derive (fun t : R => let d := spinDiagonalize_calc (qline n dn t) (qline n dn t) in fst E * fst d + snd E * snd d) 0
    (qdot (spinDiagonalizeGrad_same n E (Q 0 0 0 0)) dn).
Proof. exact same_derive. Qed.
Print Assumptions C45_density_gradient.

(** C67. The gradient contractions do not depend on how the directions are divided over processes. *)
Theorem C67_sigma : forall T nc n nProcs s1 s2 p, (0 < nProcs)%Z -> sigma T nc n nProcs s1 s2 p = contraction (DnDiag T nc n) s1 s2 p.
Proof. exact sigma_all. Qed.
Print Assumptions C67_sigma.
(** Unpolarized and collinear: every process ends up with the exact derivative. *)
Theorem C67_unpolarized_gradient : forall T Td N, linear_op T -> minus_adjoint N T Td -> forall n dn Es E_n nProcs iProc, (0 < nProcs)%Z -> (forall s p, E_n s p = 0) ->
  is_derive (fun t : R => weighted1 N Es (DnDiag T false (nline n dn t))) 0
    (spin_dot 1 N (propagateSigma T Td false 1 n Es E_n nProcs iProc) dn).
Proof. exact unpol_gradient. Qed.
Print Assumptions C67_unpolarized_gradient.
Theorem C67_collinear_gradient : forall T Td N, linear_op T -> minus_adjoint N T Td -> forall n dn Es E_n nProcs iProc, (0 < nProcs)%Z -> (forall s p, E_n s p = 0) ->
  is_derive (fun t : R => weighted2 N Es (DnDiag T false (nline n dn t))) 0
    (spin_dot 2 N (propagateSigma T Td false 2 n Es E_n nProcs iProc) dn).
Proof. exact coll_gradient. Qed.
Print Assumptions C67_collinear_gradient.
(** Noncollinear, one process: exact. *)
Theorem C67_noncollinear_gradient_one_process : forall T Td N, linear_op T -> minus_adjoint N T Td -> forall n dn Es E_n, (forall s p, E_n s p = 0) ->
  is_derive (fun t : R => weighted2 N Es (DnDiag T true (nline n dn t))) 0
    (spin_dot 4 N (propagateSigma T Td true 2 n Es E_n 1 0) dn).
Proof. exact nc_gradient. Qed.
Print Assumptions C67_noncollinear_gradient_one_process.
Example C67_operators_ex : linear_op wT /\ minus_adjoint 2 wT wT.
Proof. exact (conj wT_lin wT_adj). Qed.
(** Noncollinear, several processes: the increments of line 889 stay on the process that made them, so two processes
    hold different potentials for the same positive semidefinite spin-density. *)
Theorem C67_noncollinear_processes_agree_refuted : exists T Td N n Es, linear_op T /\ minus_adjoint N T Td /\ (forall p, psd (quadAt n p)) /\
  exists s p, (0 <= p < Z.of_nat N)%Z /\
    propagateSigma T Td true 2 n Es (fun _ _ => 0) 2 0 s p <> propagateSigma T Td true 2 n Es (fun _ _ => 0) 2 1 s p.
Proof.
  exact (ex_intro _ wT (ex_intro _ wT (ex_intro _ 2%nat (ex_intro _ wn (ex_intro _ wEs (conj wT_lin (conj wT_adj (conj wn_psd
    (ex_intro _ 2%Z (ex_intro _ 0%Z (conj (conj (Z.le_refl 0) (eq_refl : (0 < 2)%Z)) nc_differs))))))))))).
Qed.
Print Assumptions C67_noncollinear_processes_agree_refuted.
(** What is missing on a process: the increments of the directions of all other processes. *)
Theorem C67_noncollinear_deficit : forall T Td n Es E_n nProcs iProc s p, (0 < nProcs)%Z ->
  propagateSigma T Td true 2 n Es E_n 1 0 s p - propagateSigma T Td true 2 n Es E_n nProcs iProc s p =
  incE T Td n Es 0%Z s p + incE T Td n Es 1%Z s p + incE T Td n Es 2%Z s p - sumOver (dirs nProcs iProc) (fun i => incE T Td n Es i s p).
Proof. exact nc_deficit. Qed.
Print Assumptions C67_noncollinear_deficit.
