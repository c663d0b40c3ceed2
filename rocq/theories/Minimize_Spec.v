(** What line minimizers and minimizers owe their callers. *)
From Coq Require Import Reals ZArith List Bool.
From Verif Require Import XR_Model VecOps Converge_Model Minimize_Model.
Import ListNotations.
Open Scope R_scope.

(** Steps along one direction add up, and a step of zero does nothing. *)
Definition additive_steps {St V} (o : Objective St V) : Prop :=
  (forall st d a b, ob_step o (ob_step o st d (Fin a)) d (Fin b) = ob_step o st d (Fin (a + b))) /\
  (forall st d, ob_step o st d (Fin 0) = st).

(** The interface requirement on a line minimizer started at [st] in direction [d]. *)
Definition reports_progress {St V} (o : Objective St V) (st : St) (d : V) (r : LR St V) : Prop :=
  exists a, lr_alpha r = Fin a /\ lr_st r = ob_step o st d (Fin a).

(** The adjustment factors are finite. *)
Definition finite_params (p : MinParams) : Prop :=
  isfin (mp_reduce p) = true /\ isfin (mp_increase p) = true.

(** The energy and gradients handed back are those of the state. *)
Definition consistent {St V} (o : Objective St V) (r : LR St V) : Prop :=
  lr_E r = ob_E o (lr_st r) /\ lr_g r = ob_g o (lr_st r) /\ lr_Kg r = ob_Kg o (lr_st r).

(** Absolute value of the reported norm of the gradient at a state. *)
Definition grad_norm {St V} (o : Objective St V) (p : MinParams) (st : St) : xr :=
  if mp_maxThr p then xabs (ob_max o (ob_Kg o st)) else xsqrt (xdiv (xabs (ob_dot o (ob_g o st) (ob_Kg o st))) (Fin (mp_nDim p))).
(** The stopping criteria: gradient below its threshold, energy test (see C08) passed; all or any of them. *)
Definition criteria_met {St V} (o : Objective St V) (p : MinParams) (Es : list xr) (st : St) : Prop :=
  let small := xltb (grad_norm o p st) (mp_knormThr p) = true in
  let flat := snd (Converge_Model.ediffCheck (Converge_Model.ediffRun (Converge_Model.mkEdiffCheck (mp_nEdiff p) (mp_ediffThr p)) Es) (ob_E o st)) = true in
  if mp_convergeAll p then small /\ flat else small \/ flat.
(** A line minimization started along the preconditioned gradient alone failed, and was undone. *)
Definition failed_gradient_step {St V} (o : Objective St V) (p : MinParams) (st' : St) : Prop :=
  exists st0 d0 aT al beta, xnz beta = false /\ let d1 := ob_constrain o st0 (ob_axpy o (Fin (-1)) (ob_Kg o st0) (ob_scale o beta d0)) in
    let r := linmin o p st0 d1 aT al (ob_E o st0) (ob_g o st0) (ob_Kg o st0) in lr_ok r = false /\ st' = ob_step o (lr_st r) d1 (xopp (lr_alpha r)).
(** Mixing factors of the previous direction in nonlinear conjugate gradients, for gradients g, gP, preconditioned Kg and
    previous direction d. *)
Definition cg_beta {V} (v : VecOps.VectorOps V) (s : DirUpdate) (g Kg gP KgP d : V) : R :=
  let dot := VecOps.v_dot v in let y := VecOps.v_add v g (VecOps.v_scal v (-1) gP) in
  Rmax 0 (match s with FletcherReeves => dot g Kg / dot gP KgP | PolakRibiere => dot y Kg / dot gP KgP | HestenesStiefel => dot y Kg / dot y d | _ => 0 end).
