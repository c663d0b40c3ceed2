(** Property theorems C12 (linear conjugate gradient) and C13 (what a failed linear response solve leaves behind). *)
From Coq Require Import Reals ZArith List.
From Verif Require Import XR_Model VecOps LinSolve_Model LinSolve_Spec LinSolve_Proofs LinSolve_Proofs2 LinSolve_Proofs3.
Import ListNotations.
Open Scope R_scope.

(** LinearSolvable::solve: all residuals are those of the recorded states, the iteration count is bounded, and convergence
    means that the state left behind has a preconditioned residual norm below the threshold. *)
Theorem C12_solve : forall V (v : VectorOps V) (A K : V -> V) kill, vector_laws v -> linear v A ->
  forall nIter nDim thr rhs x, let out := solve v A K kill nIter nDim thr rhs x in let res := residual v A rhs in
  true_residuals v K res out /\ (so_iter out <= Z.to_nat nIter)%nat /\
  (so_conv out = true -> exists y, so_state out = Some y /\ sqrt (Rabs (v_dot v (res y) (K (res y))) / nDim) < thr).
Proof. exact @solve_spec. Qed.
Print Assumptions C12_solve.

(** The same for LinearSolvableIndefinite::CG, which measures the residual relative to that of the right hand side. *)
Theorem C12_indefinite : forall V (v : VectorOps V) (A K : V -> V) kill, vector_laws v -> linear v A ->
  forall p b x, let out := CG v A K kill p b x in let res := residual0 v A b in
  true_residuals v K res out /\ (so_iter out <= Z.to_nat (sp_nIter p))%nat /\
  (so_conv out = true -> exists y, so_state out = Some y /\
    xltb (xsqrt (xdiv (Fin (Rabs (rz_of v K res y))) (Fin (Rabs (v_dot v b (K b)))))) (Fin (sp_tol p)) = true).
Proof. exact @CG_spec. Qed.
Print Assumptions C12_indefinite.

Example C12_example : linear ops2 (mat2 1 0 0 3) /\ vector_laws ops2 /\
  solve ops2 (mat2 1 0 0 3) id2 (fun _ => false) 5 2 (1/10) (1,1) (0,0) =
  mkOut true 1 (Some (1,1/3)) [mkIt (0,0) (1,1) 2; mkIt (1/2,1/2) (1/2,-1/2) (1/2); mkIt (1,1/3) (0,0) 0].
Proof. exact (conj (mat2_linear 1 0 0 3) (conj ops2_laws run_solve)). Qed.

(** For symmetric operators the method is conjugate gradients proper: all residuals are orthogonal with respect to the
    preconditioner ... *)
Theorem C12_orthogonal_residuals : forall V (v : VectorOps V) (A K : V -> V) kill, vector_laws v -> symmetric v A -> symmetric v K ->
  forall nIter nDim thr rhs x, 0 < thr -> forall l1 i l2 j l3, so_trace (solve v A K kill nIter nDim thr rhs x) = l1 ++ i :: l2 ++ j :: l3 ->
  v_dot v (it_r i) (K (it_r j)) = 0.
Proof. exact @solve_orth. Qed.
Print Assumptions C12_orthogonal_residuals.

(** ... and, if the operator is positive definite, an uninterrupted solve converges within as many iterations as the
    space has dimensions. *)
Theorem C12_finite_termination : forall V (v : VectorOps V) (A K : V -> V) kill, vector_laws v -> symmetric v A -> symmetric v K -> definite v A ->
  forall nIter nDim thr rhs x n, 0 < thr -> dimension_le v n -> (forall i, kill i = false) -> (Z.of_nat n <= nIter)%Z ->
  so_conv (solve v A K kill nIter nDim thr rhs x) = true.
Proof. exact @solve_conv. Qed.
Print Assumptions C12_finite_termination.

Example C12_example2 : symmetric ops2 (mat2 1 0 0 3) /\ symmetric ops2 (mat2 2 1 1 1) /\ definite ops2 (mat2 1 0 0 3) /\ dimension_le ops2 2.
Proof. exact (conj (mat2_sym 1 0 3) (conj (mat2_sym 2 1 1) (conj (mat2_def 1 3 Rlt_0_1 (IZR_lt 0 3 eq_refl)) dim2))). Qed.

(** If the lowest residual occurs before the last iteration, and is lower than the first two, then the state having it is
    left behind. *)
Theorem C13_best_iterate : forall V (v : VectorOps V) (A K : V -> V) kill, vector_laws v -> linear v A ->
  forall p b, (forall r, 0 <= v_dot v r (K r)) -> v_dot v b (K b) <> 0 ->
  forall x, let out := CG v A K kill p b x in let xs := map (it_x (V:=V)) (so_trace out) in let rz := rz_of v K (residual0 v A b) in
  so_conv out = false ->
  forall best, In best xs -> rz best < rz x -> rz best < rz (nth 1 xs x) -> rz best < rz (last xs x) ->
  exists y, so_state out = Some y /\ In y xs /\ forall y', In y' xs -> rz y <= rz y'.
Proof. exact @CG_best. Qed.
Print Assumptions C13_best_iterate.

(** Three iterations with squared residuals 2, 2, 1, 8: the state with 1 is left. *)
Example C13_example :
  CG ops2 A1 id2 (fun _ => false) (SP 3 (1/10) false false) (1,1) (0,0) =
  mkOut false 3 (Some (2/3,-1/3)) [mkIt (0,0) (-1,-1) 2; mkIt (2/3,2/3) (1,-1) 2; mkIt (2/3,-1/3) (1,0) 1; mkIt (-1/3,2/3) (-2,-2) 8].
Proof. exact run3. Qed.

(** The property is false as stated: the initial state is not restored when it was the best (symmetric operator). *)
Theorem C13_initial_refuted : exists (A : vec2 -> vec2) p b x, linear ops2 A /\ (forall y z, v_dot ops2 (A y) z = v_dot ops2 y (A z)) /\
  let out := CG ops2 A id2 (fun _ => false) p b x in
  so_conv out = false /\ exists y i0, so_state out = Some y /\ In i0 (so_trace out) /\ it_x i0 = x /\
  rz_of ops2 id2 (residual0 ops2 A b) y = 722 /\ it_rz i0 = 2.
Proof. exact initial_refuted. Qed.
Print Assumptions C13_initial_refuted.

(** ... and a worse state is restored over the last one when that was the best. *)
Theorem C13_last_refuted : exists (A : vec2 -> vec2) p b x, linear ops2 A /\
  let out := CG ops2 A id2 (fun _ => false) p b x in
  so_conv out = false /\ exists y il, so_state out = Some y /\ In il (so_trace out) /\
  rz_of ops2 id2 (residual0 ops2 A b) y = 1 /\ it_rz il = 136/169.
Proof. exact last_refuted. Qed.
Print Assumptions C13_last_refuted.
