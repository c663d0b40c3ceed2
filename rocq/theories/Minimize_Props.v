(** Property theorems C09 (line minimizers report their progress), C10 (iteration bounds and returned energy) and
    C11 (L-BFGS history). *)
From Coq Require Import Reals ZArith List Bool.
From Verif Require Import XR_Model VecOps Converge_Model Minimize_Model Minimize_Spec Minimize_Proofs Minimize_Proofs2 Minimize_Proofs3 LBFGS_Spec LBFGS_Proofs.
Import ListNotations.
Open Scope R_scope.

(** The constant-step and cubic line minimizers always leave the state at start + alpha * direction, whatever the
    energies and gradients met on the way (including infinite and undefined ones). *)
Theorem C09_relax : forall St V (o : Objective St V) st d aT, isfin aT = true ->
  reports_progress o st d (linminRelax o st d aT).
Proof. exact @relax_contract. Qed.
Print Assumptions C09_relax.

Theorem C09_cubic : forall St V (o : Objective St V) p, additive_steps o -> finite_params p ->
  forall st d aT al E g Kg, isfin aT = true -> reports_progress o st d (linminCubicWolfe o p st d aT al E g Kg).
Proof. exact @cubic_contract. Qed.
Print Assumptions C09_cubic.

(** Hence a step of -alpha restores the starting point. *)
Theorem C09_undo : forall St V (o : Objective St V), additive_steps o ->
  forall st d r, reports_progress o st d r -> ob_step o (lr_st r) d (xopp (lr_alpha r)) = st.
Proof. exact @undo. Qed.
Print Assumptions C09_undo.

(** The quadratic line minimizer does so if it succeeds with alpha >= 0 or fails without having computed a new energy.
    After exhausting its attempts it reports alpha multiplied once too often by the reduction factor. *)
Theorem C09_quad : forall St V (o : Objective St V) p, additive_steps o -> finite_params p ->
  forall st d aT al E g Kg, (0 < mp_nAdjust p)%Z -> xltb (Fin 0) (mp_alphaTmin p) = true ->
  isfin aT = true -> isfin al = true -> isfin E = true -> isfin (ob_dot o g d) = true ->
  let r := linminQuad o p st d aT al E g Kg in
  (lr_ok r = true -> xltb (lr_alpha r) (Fin 0) = false -> reports_progress o st d r) /\
  (lr_ok r = true -> xltb (lr_alpha r) (Fin 0) = true -> exists a, lr_st r = ob_step o st d (Fin a)) /\
  (lr_ok r = false -> lr_E r = E -> reports_progress o st d r) /\
  (lr_ok r = false -> lr_E r <> E ->
     exists a f, mp_reduce p = Fin f /\ lr_st r = ob_step o st d (Fin a) /\ lr_alpha r = Fin (a * f)).
Proof. exact @quad_contract. Qed.
Print Assumptions C09_quad.

Theorem C09_quad_undo_refuted : exists (o : Objective R R) (p : MinParams) (st d : R),
  additive_steps o /\ finite_params p /\ (0 < mp_nAdjust p)%Z /\ isfin (ob_E o st) = true /\
  let r := linminQuad o p st d (Fin 1) (Fin 1) (ob_E o st) (ob_g o st) (ob_Kg o st) in
  lr_ok r = false /\ ob_step o (lr_st r) d (xopp (lr_alpha r)) <> st.
Proof. exact quad_undo_refuted. Qed.
Print Assumptions C09_quad_undo_refuted.

Theorem C09_quad_sign_refuted : exists (o : Objective R R) (p : MinParams) (st d : R),
  additive_steps o /\ finite_params p /\ (0 < mp_nAdjust p)%Z /\ isfin (ob_E o st) = true /\
  let r := linminQuad o p st d (Fin 1) (Fin 1) (ob_E o st) (ob_g o st) (ob_Kg o st) in
  lr_ok r = true /\ lr_alpha r = Fin (-(1/2)) /\ lr_st r = ob_step o st d (Fin 1) /\ lr_st r <> ob_step o st d (lr_alpha r).
Proof. exact quad_sign_refuted. Qed.
Print Assumptions C09_quad_sign_refuted.

(** As a consequence minimize(), started at a minimum, can end elsewhere with a higher energy. *)
Theorem C09_minimize_restores_refuted : exists (o : Objective R R) (p : MinParams) (st : R) E' st' n,
  additive_steps o /\ finite_params p /\ minimize o p (fun _ => false) st = LDone E' st' n /\ st' <> st /\ xltb (ob_E o st) E' = true.
Proof. exact quad_minimize_refuted. Qed.
Print Assumptions C09_minimize_restores_refuted.

(** The finite-difference test leaves the state where it found it. *)
Theorem C09_fdTest_restores : forall St V (o : Objective St V), additive_steps o -> forall st dx, fdTest o st dx = Some st.
Proof. exact @fdTest_restores. Qed.
Print Assumptions C09_fdTest_restores.

Example C09_example_parabola : let o := obj1 (fun x => Fin (x*x)) (fun x => 2*x) 1 in
  additive_steps o /\ finite_params (defaults PolakRibiere CubicWolfe 100) /\
  let r := linminCubicWolfe o (defaults PolakRibiere CubicWolfe 100) 1 (-1) (Fin 1) (Fin 1) (ob_E o 1) 2 2 in
  lr_ok r = true /\ lr_alpha r = Fin 1 /\ lr_st r = 0.
Proof. exact (conj (obj1_additive _ _ _) (conj (defaults_finite _ _ _) parabola_example)). Qed.

(** Every minimization does at most nIterations line minimizations and returns the energy of the state it leaves. *)
Theorem C10_minimize : forall St V (o : Objective St V) p kill st E st' n,
  minimize o p kill st = LDone E st' n -> E = ob_E o st' /\ (n <= Z.to_nat (mp_nIter p))%nat.
Proof. exact @minimize_spec. Qed.
Print Assumptions C10_minimize.

Example C10_example_moves : exists (o : Objective R R) (p : MinParams) (st : R) E' st' n,
  additive_steps o /\ finite_params p /\ minimize o p (fun _ => false) st = LDone E' st' n /\ st' <> st /\ xltb (ob_E o st) E' = true.
Proof. exact quad_minimize_refuted. Qed.

(** A conjugate gradient or steepest descent minimization ends only by the kill signal, when the requested stopping criteria
    are met (all of them or any, as requested), on a non-finite gradient or energy, after nIterations, or when a step along
    the preconditioned gradient failed. *)
Theorem C10_stop : forall St V (o : Objective St V) p kill st E st' n, mp_dir p <> LBFGS -> minimize o p kill st = LDone E st' n ->
  let N := Z.to_nat (mp_nIter p) in exists iter Es, (iter <= N)%nat /\
   (kill iter = true \/ criteria_met o p Es st' /\ length Es = iter \/ isfin (ob_dot o (ob_g o st') (ob_Kg o st')) = false \/
    isfin (ob_E o st') = false \/ iter = N \/ failed_gradient_step o p st').
Proof. exact @minimizeCG_stop. Qed.
Print Assumptions C10_stop.

(** The mixing factor is that of the chosen scheme, clamped at zero; zero when the direction is reset. *)
Theorem C10_beta : forall St V (o : Objective St V) p v g Kg gP KgP d, uses_ops o v -> vector_laws v ->
  mp_dir p <> LBFGS -> mp_dir p <> SteepestDescent -> v_dot v gP KgP <> 0 -> v_dot v (v_add v g (v_scal v (-1) gP)) d <> 0 ->
  newBeta o p false g Kg gP d (ob_dot o g Kg) (ob_dot o gP KgP) = Fin (cg_beta v (mp_dir p) g Kg gP KgP d) /\
  newBeta o p true g Kg gP d (ob_dot o g Kg) (ob_dot o gP KgP) = Fin 0.
Proof. exact @beta_spec. Qed.
Print Assumptions C10_beta.

Example C10_beta_example : let o := obj1 (fun x => Fin (x*x)) (fun x => 2*x) 1 in uses_ops o ops1 /\ v_dot ops1 1 1 <> 0 /\
  v_dot ops1 (v_add ops1 3 (v_scal ops1 (-1) 1)) (-2) <> 0.
Proof. exact (conj (obj1_ops _ _ _) beta_ex). Qed.

(** With a history size n >= 1, every search direction is computed from exactly the n newest pairs accepted since the
    last clearing of the history, and no container is used when empty. *)
Theorem C11_history : forall St V (o : Objective St V) p kill n st, mp_history p = Z.of_nat n -> (0 < n)%nat ->
  good_trace o n (snd (lBFGS o p kill st)) /\ fst (lBFGS o p kill st) <> LUndefined.
Proof. exact @lBFGS_history. Qed.
Print Assumptions C11_history.

(** The direction is minus the BFGS operator built from these pairs, applied to the preconditioned gradient. *)
Theorem C11_direction : forall St V (o : Objective St V) v, uses_ops o v -> vector_laws v -> forall gamma ts x,
  lbfgsDir o (map entryOf ts) (Fin gamma) x = Some (v_scal v (-1) (bfgs v (scaleOf gamma) (rev ts) x)).
Proof. exact @lbfgsDir_bfgs. Qed.
Print Assumptions C11_direction.

(** The initial scaling of each direction is y.s/y.Ky of the step before, with y the change of the gradient over it; there
    is none before the first step and after a failed one. *)
Theorem C11_scaling : forall St V (o : Objective St V) p kill st l e l', snd (lBFGS o p kill st) = l ++ e :: l' ->
  match rev l with
  | [] => en_gamma e = Fin 0
  | e0 :: _ => match en_change e0 with
    | Appended h => exists st st', en_Kg e0 = ob_Kg o st /\ h_Ky h = ob_axpy o (Fin 1) (ob_Kg o st') (ob_scale o (Fin (-1)) (ob_Kg o st)) /\
        let y := ob_axpy o (Fin 1) (ob_g o st') (ob_scale o (Fin (-1)) (ob_g o st)) in
        en_gamma e = xdiv (ob_dot o y (h_s h)) (ob_dot o y (h_Ky h))
    | _ => en_gamma e = Fin 0
    end
  end.
Proof. exact @lBFGS_gamma. Qed.
Print Assumptions C11_scaling.

(** The pairs are displacement and change of preconditioned gradient (for the cubic and constant-step line minimizers). *)
Theorem C11_pairs : forall St V (o : Objective St V) p kill,
  mp_linmin p = CubicWolfe \/ mp_linmin p = Relax \/ (mp_linmin p = DirUpdateRecommended /\ mp_dir p = LBFGS) ->
  additive_steps o -> finite_params p -> isfin (mp_alphaTstart p) = true -> (forall st d, ob_safe o st d <> MInf) ->
  forall st e x, In e (snd (lBFGS o p kill st)) -> en_change e = Appended x -> pair_of o x.
Proof. exact @lBFGS_pairs. Qed.
Print Assumptions C11_pairs.

(** Without preconditioner the direction satisfies the secant equation for the newest pair. *)
Theorem C11_secant_unpreconditioned : forall St V (o : Objective St V) v h older gamma,
  uses_ops o v -> vector_laws v -> (forall st, ob_Kg o st = ob_g o st) -> pair_of o h -> v_dot v (h_Ky h) (h_s h) <> 0 ->
  lbfgsDir o (map entryOf older ++ [h]) (Fin gamma) (h_Ky h) = Some (v_scal v (-1) (h_s h)).
Proof. exact @secant_plain. Qed.
Print Assumptions C11_secant_unpreconditioned.

(** With a preconditioner it does not. *)
Theorem C11_secant_refuted : exists (o : Objective R R) (h : Hist R) gamma,
  uses_ops o ops1 /\ additive_steps o /\ pair_of o h /\ (forall st, ob_Kg o st = 2 * ob_g o st) /\
  (exists y, ob_dot o y (h_s h) = Fin 1 /\ gamma = xdiv (ob_dot o y (h_s h)) (ob_dot o y (h_Ky h))) /\
  lbfgsDir o [h] gamma (h_Ky h) = Some (-3) /\ h_s h = 1.
Proof. exact secant_refuted. Qed.
Print Assumptions C11_secant_refuted.

Example C11_example_parabola : let o := obj1 (fun x => Fin (x*x)) (fun x => 2*x) (1/2) in
  let p := defaults LBFGS DirUpdateRecommended 1 in
  exists e, snd (lBFGS o p (fun _ => false) 1) = [e] /\ en_hist e = [] /\ en_dir e = -1 /\
    en_change e = Appended (mkHist (-1) (-1) (Fin (1/2))).
Proof. exact lbfgs_example. Qed.
