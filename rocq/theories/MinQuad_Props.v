(** Property theorems C74: the nonlinear conjugate gradient minimizer on quadratic energies. *)
From Coq Require Import Reals ZArith List Bool.
From Verif Require Import XR_Model VecOps Minimize_Model Minimize_Spec Minimize_Proofs2 LBFGS_Spec LinSolve_Model LinSolve_Spec LinSolve_Proofs2 MinQuad_Spec MinQuad_Proofs MinQuad_Proofs2.
Import ListNotations.
Open Scope R_scope.

(** With any of the three mixing formulas the minimizer visits the same states as the linear conjugate gradient solver for
    A x = b, and stops at the same one after as many steps. *)
Theorem C74_linear_cg : forall V (o : Objective V V) p v A K b c thr, vector_laws v -> linear v A -> linear v K ->
  symmetric v A -> symmetric v K -> definite v A -> definite v K ->
  quadratic_energy o v A K b c -> step_settings p -> cg_scheme p -> norm_threshold p thr -> forall x,
  let out := solve v A K (fun _ => false) (mp_nIter p) (mp_nDim p) thr b x in
  exists y, so_state out = Some y /\ minimize o p (fun _ => false) x = LDone (ob_E o y) y (length (so_trace out) - 1).
Proof. exact min_solve. Qed.
Print Assumptions C74_linear_cg.

(** Hence it converges in at most as many line minimizations as there are dimensions. *)
Theorem C74_terminates : forall V (o : Objective V V) p v A K b c thr n, vector_laws v -> linear v A -> linear v K ->
  symmetric v A -> symmetric v K -> definite v A -> definite v K ->
  quadratic_energy o v A K b c -> step_settings p -> cg_scheme p -> norm_threshold p thr -> dimension_le v n -> (Z.of_nat n <= mp_nIter p)%Z -> forall x,
  exists y m, minimize o p (fun _ => false) x = LDone (ob_E o y) y m /\ (m <= n)%nat /\
    sqrt (Rabs (v_dot v (ob_g o y) (ob_Kg o y)) / mp_nDim p) < thr.
Proof. exact min_terminates. Qed.
Print Assumptions C74_terminates.

(** The quadratic line minimizer finds the exact minimum along any descent direction of positive curvature, whatever the
    test step. *)
Theorem C74_line_minimum : forall V (o : Objective V V) p v A K b c, vector_laws v -> linear v A -> symmetric v A -> quadratic_energy o v A K b c ->
  forall tm red inc, mp_alphaTmin p = Fin tm -> mp_reduce p = Fin red -> mp_increase p = Fin inc -> 0 < tm -> 1 <= inc -> red * inc <= 1 ->
  forall x d aT al, (0 < mp_nAdjust p)%Z -> let gd := v_dot v (v_add v (A x) (v_scal v (-1) b)) d in gd < 0 -> 0 < v_dot v (A d) d -> tm <= aT ->
  let a := - gd / v_dot v (A d) d in let y := v_add v x (v_scal v a d) in
  linminQuad o p x d (Fin aT) al (ob_E o x) (ob_g o x) (ob_Kg o x) = mkLR true (Fin a) (ob_E o y) (ob_g o y) (ob_Kg o y) y.
Proof. exact @quad_exact. Qed.
Print Assumptions C74_line_minimum.

(** E = x.diag(1,3)x/2 - (1,1).x from the origin: (1,1/3) after two line minimizations. *)
Example C74_example : forall dir, dir = PolakRibiere \/ dir = FletcherReeves \/ dir = HestenesStiefel ->
  let o := objQ (mat2 1 0 0 3) id2 (1,1) 0 in
  quadratic_energy o ops2 (mat2 1 0 0 3) id2 (1,1) 0 /\ (step_settings (parQ dir) /\ cg_scheme (parQ dir) /\ norm_threshold (parQ dir) (1/10)) /\
  minimize o (parQ dir) (fun _ => false) (0,0) = LDone (Fin (-(2/3))) (1,1/3) 2.
Proof. exact (fun dir H => conj (objQ_quad _ _ (1,1) 0) (conj (parQ_ok dir H) (minQ dir H))). Qed.

(** Minimize_linmin.h 101 compares alphaT/alpha where its message says alpha/alphaT: together with the preceding test this
    never holds when reduce * increase <= 1 (defaults 0.1 and 3), so as long as energies are finite a test step, however
    much too long, is never reduced. *)
Theorem C74_test_step_never_reduced : forall St V (o : Objective St V) p t red inc, mp_reduce p = Fin red -> mp_increase p = Fin inc ->
  1 <= inc -> red * inc <= 1 -> 0 < t -> (forall st, isfin (ob_E o st) = true) ->
  forall k d E gd al st a aP st', (0 < k)%nat -> quadTest o p k d E gd (Fin t) al (Fin 0) st = TestEnd a aP st' -> exists t', aP = Fin t' /\ t <= t'.
Proof. exact @no_reduce. Qed.
Print Assumptions C74_test_step_never_reduced.

(** The predicted step is 1/200 of the test step, well below the reduction factor 1/10; the test step is kept. *)
Example C74_long_test_step : let o := obj1 (fun x => Fin (100 * x * x)) (fun x => 200 * x) 1 in
  quadTest o (defaults PolakRibiere Quad 100) 3 (-200) (Fin 100) (Fin (-40000)) (Fin 1) (Fin 0) (Fin 0) 1 = TestEnd (Fin (1/200)) (Fin 1) (-199).
Proof. exact long_test. Qed.
