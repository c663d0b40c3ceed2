(** Model of the linear conjugate gradient solvers: LinearSolvable::solve of jdftx/core/Minimize.h and
    LinearSolvableIndefinite::CG of jdftx/perturb/LinearSolver.h.  Vectors are handled through [VectorOps]; a state that
    has become infinite or undefined through a division by zero is None (all later comparisons are then false).
    Besides their results the loops return the list of iterates with residual and preconditioned square norm. *)
From Coq Require Import Reals ZArith List Bool Arith.
From Verif Require Import XR_Model VecOps.
Import ListNotations.
Open Scope R_scope.

Section CG.
Context {V : Type} (v : VectorOps V) (A K : V -> V) (kill : nat -> bool).

Definition axpy (a : R) (x y : V) : V := v_add v y (v_scal v a x).

(** State, residual and r.z after an iteration *)
Record Iterate := mkIt { it_x : V; it_r : V; it_rz : R }.
(** Whether convergence was reported, the returned iteration count, the state left behind and the iterates *)
Record SolveOut := mkOut { so_conv : bool; so_iter : nat; so_state : option V; so_trace : list Iterate }.

(** Number of the iteration at which the loop ends by itself or by the kill signal *)
Fixpoint runOut (k iter : nat) : nat :=
  match k with O => iter | S k => if kill iter then iter else runOut k (S iter) end.

(** jdftx/core/Minimize.h 327, 349: sqrt(fabs(rdotz)/nDim) *)
Definition rzNorm (nDim rdotz : R) : R := sqrt (Rabs rdotz / nDim).

(** jdftx/core/Minimize.h 333-354: main loop; k = nIterations - iter *)
Fixpoint solveLoop (k iter : nat) (nDim thr : R) (x r z d : V) (rdotz rdotzPrev : R) (tr : list Iterate) : SolveOut :=
  match k with
  | O => mkOut false iter (Some x) tr
  | S k =>
      if kill iter then mkOut false iter (Some x) tr else
      let d := if Reqb rdotzPrev 0 then z else axpy 1 z (v_scal v (rdotz / rdotzPrev) d) in          (* 335-339 *)
      let w := A d in
      let wd := v_dot v w d in
      if Reqb wd 0 then mkOut false (runOut (S k) iter) None tr else                                (* 342: division by zero *)
      let alpha := rdotz / wd in
      let x := axpy alpha d x in
      let r := axpy (- alpha) w r in
      let z := K r in
      let rz := v_dot v r z in
      let tr := tr ++ [mkIt x r rz] in
      if Rltb (rzNorm nDim rz) thr then mkOut true iter (Some x) tr                                 (* 353 *)
      else solveLoop k (S iter) nDim thr x r z d rz rdotz tr
  end.

(** jdftx/core/Minimize.h 320-357: LinearSolvable::solve for hessian A and preconditioner K *)
Definition solve (nIterations : Z) (nDim thr : R) (rhs x : V) : SolveOut :=
  let r := axpy (-1) (A x) rhs in
  let z := K r in
  let rz := v_dot v r z in
  let tr := [mkIt x r rz] in
  if Rltb (rzNorm nDim rz) thr then mkOut true 0 (Some x) tr
  else solveLoop (Z.to_nat nIterations) 0 nDim thr x r z r rz 0 tr.

(** jdftx/perturb/LinearSolver.h 29-48: SolverParams *)
Record SolverParams := SP { sp_nIter : Z; sp_tol : R; sp_bypass : bool; sp_recompute : bool }.

(** jdftx/perturb/LinearSolver.h 118, 149: relErr *)
Definition relErr (rdotz rKr : R) : xr := xsqrt (xdiv (Fin (Rabs rdotz)) (Fin (Rabs rKr))).
(** jdftx/perturb/LinearSolver.h 102, 139: r = -(A.state + b) *)
Definition negRes (b x : V) : V := v_scal v (-1) (axpy 1 b (A x)).

(** jdftx/perturb/LinearSolver.h 174-177: which state is left behind *)
Definition finish (iter : nat) (x : option V) (optstate : option V) (optiter : Z) (tr : list Iterate) : SolveOut :=
  mkOut false iter (if Z.ltb 0 optiter then optstate else x) tr.

(** jdftx/perturb/LinearSolver.h 125-172: main loop; k = nIterations - iter *)
Fixpoint cgLoop (p : SolverParams) (k iter : nat) (b : V) (rKr : R) (x r z d : V) (rdotz rdotzPrev : R) (errPrev : xr)
    (optstate : option V) (optres : R) (optiter : Z) (consec : nat) (tr : list Iterate) : SolveOut :=
  match k with
  | O => finish iter (Some x) optstate optiter tr
  | S k =>
      if kill iter then finish iter (Some x) optstate optiter tr else
      let d := if Reqb rdotzPrev 0 then z else axpy 1 z (v_scal v (rdotz / rdotzPrev) d) in          (* 127-131 *)
      let w := A d in
      let wd := v_dot v w d in
      if Reqb wd 0 then finish (runOut (S k) iter) None optstate optiter tr else                    (* 134 *)
      let alpha := rdotz / wd in
      let x1 := axpy alpha d x in
      let r1 := axpy (- alpha) w r in
      let r2 := if Nat.ltb 1 iter && Nat.eqb (iter mod 10) 0 && sp_recompute p then negRes b x1 else r1 in  (* 138-141 *)
      let z2 := K r2 in
      let rz := v_dot v r2 z2 in
      let tr := tr ++ [mkIt x1 r2 rz] in
      let err := relErr rz rKr in
      if xltb err (Fin (sp_tol p)) then mkOut true iter (Some x1) tr else                            (* 155 *)
      let '(optstate, optres, optiter, consec) :=                                                   (* 157-168 *)
        if xltb errPrev err then
          let '(os, ores, oi) :=
            if Nat.eqb consec 0 && Rltb rdotz optres
            then (Some (axpy (- alpha) d x1), rdotz, (Z.of_nat iter - 1)%Z)
            else (optstate, optres, optiter) in
          (os, ores, oi, S consec)
        else (optstate, optres, optiter, O) in
      if Nat.leb 3 consec && negb (sp_bypass p) then finish iter (Some x1) optstate optiter tr      (* 170 *)
      else cgLoop p k (S iter) b rKr x1 r2 z2 d rz rdotz err optstate optres optiter consec tr
  end.

(** jdftx/perturb/LinearSolver.h 98-179: LinearSolvableIndefinite::CG, for A x + b = 0 *)
Definition CG (p : SolverParams) (b x : V) : SolveOut :=
  let r := negRes b x in
  let z := K r in
  let rz := v_dot v r z in
  let rKr := v_dot v b (K b) in
  let tr := [mkIt x r rz] in
  let err := relErr rz rKr in
  if xltb err (Fin (sp_tol p)) then mkOut true 0 (Some x) tr
  else cgLoop p (Z.to_nat (sp_nIter p)) 0 b rKr x r z z rz 0 err None rz 0 0 tr.
End CG.
Arguments Iterate : clear implicits. Arguments SolveOut : clear implicits.
