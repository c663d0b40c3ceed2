(** Quadratic energies, and the settings for which the minimizer should behave as linear conjugate gradients. *)
From Coq Require Import Reals ZArith List Bool.
From Verif Require Import XR_Model VecOps Minimize_Model LBFGS_Spec.
Open Scope R_scope.

(** E(x) = x.Ax/2 - b.x + c with gradient A x - b, preconditioned by K; unconstrained steps in a vector space. *)
Record quadratic_energy {V} (o : Objective V V) (v : VectorOps V) (A K : V -> V) (b : V) (c : R) : Prop := QE {
  qe_ops : uses_ops o v;
  qe_step : forall x d a, ob_step o x d (Fin a) = v_add v x (v_scal v a d);
  qe_E : forall x, ob_E o x = Fin (v_dot v x (A x) / 2 - v_dot v b x + c);
  qe_g : forall x, ob_g o x = v_add v (A x) (v_scal v (-1) b);
  qe_Kg : forall x, ob_Kg o x = K (ob_g o x);
  qe_report : forall i x, ob_report o i x = None;
  qe_constrain : forall x d, ob_constrain o x d = d;
  qe_safe : forall x d, ob_safe o x d = PInf }.

(** Step size settings: the test step may be enlarged, and reduce * increase <= 1 (defaults 0.1 and 3). *)
Definition step_settings (p : MinParams) : Prop := exists t0 tm red inc,
  mp_alphaTstart p = Fin t0 /\ mp_alphaTmin p = Fin tm /\ mp_reduce p = Fin red /\ mp_increase p = Fin inc /\
  0 < tm /\ tm <= t0 /\ 1 <= inc /\ red * inc <= 1 /\ (0 < mp_nAdjust p)%Z.
(** A conjugate gradient scheme with quadratic line minimizer. *)
Definition cg_scheme (p : MinParams) : Prop :=
  (mp_dir p = PolakRibiere \/ mp_dir p = FletcherReeves \/ mp_dir p = HestenesStiefel) /\ (mp_linmin p = Quad \/ mp_linmin p = DirUpdateRecommended).
(** Stopping by the norm of the gradient only (an energy threshold of zero is never met by decreasing energies). *)
Definition norm_threshold (p : MinParams) (thr : R) : Prop :=
  mp_knormThr p = Fin thr /\ 0 < thr /\ 0 < mp_nDim p /\ mp_maxThr p = false /\ mp_convergeAll p = false /\ mp_ediffThr p = Fin 0 /\ (0 < mp_nEdiff p)%nat.
