(** Property theorem C104: the minimal residual method of the perturbation solver. *)
From Coq Require Import Reals ZArith List.
From Verif Require Import XR_Model VecOps LinSolve_Model LinSolve_Spec LinSolve_Proofs2 LinSolve_Proofs3 Minres_Model Minres_Spec Minres_Proofs2 Minres_Proofs3.
Import ListNotations.
Open Scope R_scope.

(** The recurrence for the residual norm gives the norm of the residual. *)
Theorem C104_residual : forall V (v : VectorOps V) (A K Ks : V -> V) kill, vector_laws v -> semidefinite v -> symmetric v A -> symmetric v Ks ->
  forall p b x y rho, In (y, rho) (mo_trace (MINRES v A K Ks kill p b x)) -> 0 <= rho /\ rho * rho = sq v (scaledRes v A Ks b y).
Proof. exact @residuals. Qed.
Print Assumptions C104_residual.

(** It never increases ... *)
Theorem C104_monotone : forall V (v : VectorOps V) (A K Ks : V -> V) kill, vector_laws v -> semidefinite v -> symmetric v A -> symmetric v Ks ->
  forall p b x i j e f, let tr := mo_trace (MINRES v A K Ks kill p b x) in nth_error tr i = Some e -> nth_error tr j = Some f -> (i <= j)%nat ->
  sq v (scaledRes v A Ks b (fst f)) <= sq v (scaledRes v A Ks b (fst e)).
Proof. exact @monotone. Qed.
Print Assumptions C104_monotone.

(** ... and is the least possible within the Krylov space, ... *)
Theorem C104_minimal : forall V (v : VectorOps V) (A K Ks : V -> V) kill, vector_laws v -> semidefinite v -> symmetric v A -> symmetric v Ks ->
  forall p b x n y rho, nth_error (mo_trace (MINRES v A K Ks kill p b x)) n = Some (y, rho) ->
  forall a, sq v (scaledRes v A Ks b y) <= sq v (scaledRes v A Ks b (krylov v (fun z => Ks (A (Ks z))) x (scaledRes v A Ks b x) a n)).
Proof. exact @minimal. Qed.
Print Assumptions C104_minimal.

(** ... which the state never leaves. *)
Theorem C104_krylov : forall V (v : VectorOps V) (A K Ks : V -> V) kill, vector_laws v -> semidefinite v -> symmetric v A -> symmetric v Ks ->
  forall p b x n y rho, nth_error (mo_trace (MINRES v A K Ks kill p b x)) n = Some (y, rho) ->
  forall z, (forall i, (i < n)%nat -> v_dot v z (power (fun z => Ks (A (Ks z))) i (scaledRes v A Ks b x)) = 0) -> v_dot v z y = v_dot v z x.
Proof. exact @member. Qed.
Print Assumptions C104_krylov.

(** Convergence means that the solution left behind has a small residual. *)
Theorem C104_converged : forall V (v : VectorOps V) (A K Ks : V -> V) kill, vector_laws v -> semidefinite v -> symmetric v A -> symmetric v Ks ->
  forall p b x, let out := MINRES v A K Ks kill p b x in mo_conv out = true -> v_dot v b (K b) <> 0 ->
  exists y, mo_state out = Some (Ks y) /\ sqrt (sq v (Ks (residual0 v A b (Ks y)))) < mp_tol p * sqrt (Rabs (v_dot v b (K b))).
Proof. exact @converged. Qed.
Print Assumptions C104_converged.

(** Whatever ended the run, a state that was not lost comes from the iteration and is no worse than the start. *)
Theorem C104_state : forall V (v : VectorOps V) (A K Ks : V -> V) kill, vector_laws v -> semidefinite v -> symmetric v A -> symmetric v Ks ->
  forall p b x s, let out := MINRES v A K Ks kill p b x in mo_state out = Some s ->
  exists y, s = Ks y /\ sq v (scaledRes v A Ks b y) <= sq v (scaledRes v A Ks b x) /\ exists rho, In (y, rho) (mo_trace out).
Proof. exact @left_state. Qed.
Print Assumptions C104_state.

Theorem C104_iterations : forall V (v : VectorOps V) (A K Ks : V -> V) kill, vector_laws v -> semidefinite v -> symmetric v A -> symmetric v Ks ->
  forall p b x, (mo_iter (MINRES v A K Ks kill p b x) <= Z.to_nat (mp_nIter p))%nat.
Proof. exact @count. Qed.
Print Assumptions C104_iterations.

(** Indefinite operators are fine: an uninterrupted run converges within as many iterations as there are dimensions. *)
Theorem C104_finite_termination : forall V (v : VectorOps V) (A K Ks : V -> V) kill, vector_laws v -> semidefinite v -> symmetric v A -> symmetric v Ks ->
  forall b x p n, (forall i, kill i = false) -> nondegenerate v (fun z => Ks (A (Ks z))) -> dimension_le v n -> 0 < mp_tol p -> mp_diff p <= 0 -> v_dot v b (K b) <> 0 ->
  sq v (scaledRes v A Ks b x) <> 0 -> (Z.of_nat n <= mp_nIter p)%Z -> mo_conv (MINRES v A K Ks kill p b x) = true.
Proof. exact @minres_conv. Qed.
Print Assumptions C104_finite_termination.

(** Stagnation in the first step, solution in the second. *)
Example C104_example : vector_laws ops2 /\ semidefinite ops2 /\ symmetric ops2 (mat2 0 1 1 0) /\ symmetric ops2 id2 /\
  nondegenerate ops2 (fun z => id2 (mat2 0 1 1 0 (id2 z))) /\ dimension_le ops2 2 /\
  MINRES ops2 (mat2 0 1 1 0) id2 id2 (fun _ => false) (MP 5 (1/10) 0) (-1, 0) (0, 0) =
  MO true 1 (Some (0, 1)) [((0, 0), 1); ((0, 0), 1); ((0, 1), 0)].
Proof. exact (conj ops2_laws (conj semi2 (conj (mat2_sym 0 1 0) (conj id2_sym (conj swap_nd (conj dim2 run2)))))). Qed.

(** A start without residual is lost: its norm divides the first vector. *)
Theorem C104_solved_start : forall V (v : VectorOps V) (A K Ks : V -> V) kill, vector_laws v -> semidefinite v -> symmetric v A -> symmetric v Ks ->
  forall p b x, sq v (scaledRes v A Ks b x) = 0 -> (0 < mp_nIter p)%Z -> kill 0%nat = false ->
  let out := MINRES v A K Ks kill p b x in mo_conv out = false /\ mo_state out = None.
Proof. exact @solved. Qed.
Print Assumptions C104_solved_start.
Theorem C104_solved_start_refuted : exists b x : vec2, b <> (0, 0) /\ residual0 ops2 (mat2 0 1 1 0) b x = (0, 0) /\
  forall n, (0 < n)%Z -> mo_state (MINRES ops2 (mat2 0 1 1 0) id2 id2 (fun _ => false) (MP n (1/10) 0) b x) = None.
Proof. exact start_refuted. Qed.
Print Assumptions C104_solved_start_refuted.

(** The solution of a system, given as the start, has a residual: the start is scaled once more. *)
Theorem C104_restart_refuted : exists (A K Ks : vec2 -> vec2) (b x : vec2), symmetric ops2 A /\ symmetric ops2 Ks /\ (forall z, Ks (Ks z) = K z) /\
  residual0 ops2 A b x = (0, 0) /\
  forall n, exists rho l, mo_trace (MINRES ops2 A K Ks (fun _ => false) (MP n (1/10) 0) b x) = (x, rho) :: l /\ rho * rho = 4.
Proof. exact restart_refuted. Qed.
Print Assumptions C104_restart_refuted.
