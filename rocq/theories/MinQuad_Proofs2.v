(** Termination on quadratic energies, and examples. *)
From Coq Require Import Reals ZArith List Bool Arith Lia Lra.
From Verif Require Import XR_Model XR_Facts VecOps Converge_Model Minimize_Model Minimize_Spec Minimize_Proofs Minimize_Proofs2 LBFGS_Spec LinSolve_Model LinSolve_Spec LinSolve_Proofs LinSolve_Proofs2 LinSolve_Proofs3 MinQuad_Spec MinQuad_Proofs.
Import ListNotations.
Open Scope R_scope.

Theorem min_terminates V (o : Objective V V) p v A K b c thr n : vector_laws v -> linear v A -> linear v K -> symmetric v A -> symmetric v K -> definite v A -> definite v K ->
  quadratic_energy o v A K b c -> step_settings p -> cg_scheme p -> norm_threshold p thr -> dimension_le v n -> (Z.of_nat n <= mp_nIter p)%Z -> forall x,
  exists y m, minimize o p (fun _ => false) x = LDone (ob_E o y) y m /\ (m <= n)%nat /\ sqrt (Rabs (v_dot v (ob_g o y) (ob_Kg o y)) / mp_nDim p) < thr.
Proof.
  intros laws linA linK symA symK defA defK Q Ss Sch Nt D L x. destruct (min_solve V o p v A K b c thr laws linA linK symA symK defA defK Q Ss Sch Nt x) as (y & Y1 & Y2).
  assert (Pt : 0 < thr) by apply Nt. exists y, (length (so_trace (solve v A K (fun _ => false) (mp_nIter p) (mp_nDim p) thr b x)) - 1)%nat. split; [exact Y2|]. split.
  { assert (H := solve_len v A K (fun _ => false) laws symA symK (mp_nIter p) (mp_nDim p) thr b x n Pt D). lia. }
  assert (C := solve_conv v A K (fun _ => false) laws symA symK defA (mp_nIter p) (mp_nDim p) thr b x n Pt D (fun _ => eq_refl) L).
  destruct (solve_spec v A K (fun _ => false) laws linA (mp_nIter p) (mp_nDim p) thr b x) as (_ & _ & H). destruct (H C) as (y' & E1 & E2). rewrite Y1 in E1. injection E1 as <-.
  rewrite (oG o v A K b c laws Q), (oK o v A K b c laws linK Q). rewrite neg_neg by auto. exact E2.
Qed.

(** A quadratic energy in the plane *)
Definition objQ (A K : vec2 -> vec2) (b : vec2) (c : R) : Objective vec2 vec2 :=
  let g x := v_add ops2 (A x) (v_scal ops2 (-1) b) in
  Obj (fun x d a => v_add ops2 x (v_scal ops2 (toR a) d)) (fun x => Fin (v_dot ops2 x (A x) / 2 - v_dot ops2 b x + c)) g (fun x => K (g x)) (fun _ _ => None) (fun _ d => d) (fun _ _ => PInf)
    (fun x y => Fin (v_dot ops2 x y)) (fun a x => v_scal ops2 (toR a) x) (fun a x y => v_add ops2 y (v_scal ops2 (toR a) x)) (fun _ => NaN).
Lemma objQ_quad A K b c : quadratic_energy (objQ A K b c) ops2 A K b c.
Proof. split; try reflexivity. repeat split. Qed.
Definition parQ (dir : DirUpdate) : MinParams :=
  MP dir Quad 5 2 15 (Fin (1/10)) false (Fin 0) 2 false (Fin 1) (Fin (1/10000000000)) true (Fin (1/10)) (Fin 3) 3 (Fin (1/10000)) (Fin (9/10)) false.
Lemma parQ_ok dir : dir = PolakRibiere \/ dir = FletcherReeves \/ dir = HestenesStiefel -> step_settings (parQ dir) /\ cg_scheme (parQ dir) /\ norm_threshold (parQ dir) (1/10).
Proof.
  intros H. split. { exists 1, (1/10000000000), (1/10), 3. cbn. repeat split; try lra. } split; [split; [exact H|left; reflexivity]|]. repeat split; cbn; try lra. lia.
Qed.
Lemma id2_mat x : mat2 1 0 0 1 x = id2 x. Proof. destruct x. unfold mat2, id2. cbn. f_equal; ring. Qed.
Lemma minQ dir : dir = PolakRibiere \/ dir = FletcherReeves \/ dir = HestenesStiefel ->
  minimize (objQ (mat2 1 0 0 3) id2 (1,1) 0) (parQ dir) (fun _ => false) (0,0) = LDone (Fin (-(2/3))) (1,1/3) 2.
Proof.
  intros H. destruct (parQ_ok dir H) as (S1 & S2 & S3).
  assert (LK : linear ops2 id2) by (split; reflexivity). assert (SK : symmetric ops2 id2) by (intros x y; reflexivity).
  assert (DK : definite ops2 id2). { intros x Hx. assert (G := mat2_def 1 1 ltac:(lra) ltac:(lra) x Hx). rewrite id2_mat in G. exact G. }
  destruct (min_solve vec2 _ (parQ dir) ops2 _ _ _ _ (1/10) ops2_laws (mat2_linear 1 0 0 3) LK (mat2_sym 1 0 3) SK (mat2_def 1 3 ltac:(lra) ltac:(lra)) DK (objQ_quad _ _ (1,1) 0) S1 S2 S3 (0,0)) as (y & Y1 & Y2).
  change (mp_nIter (parQ dir)) with 5%Z in *. change (mp_nDim (parQ dir)) with 2 in *. rewrite run_solve in Y1, Y2. injection Y1 as <-. rewrite Y2. cbn [so_trace length]. f_equal. cbn. f_equal. lra.
Qed.
(** A test step two hundred times too long is kept. *)
Lemma long_test : let o := obj1 (fun x => Fin (100 * x * x)) (fun x => 200 * x) 1 in
  quadTest o (defaults PolakRibiere Quad 100) 3 (-200) (Fin 100) (Fin (-40000)) (Fin 1) (Fin 0) (Fin 0) 1 = TestEnd (Fin (1/200)) (Fin 1) (-199).
Proof.
  cbv zeta. generalize 2%nat. intros k. cbn [quadTest]. set (st1 := ob_step _ 1 (-200) _). assert (E1 : st1 = -199) by (unfold st1; cbn; lra). rewrite E1. clear st1 E1.
  replace (xltb (Fin 1) _) with false by (symmetry; cbn; apply Rltb_false; lra). cbn [obj1 ob_E isfin negb]. replace (xdiv (xmul _ _) _) with (Fin (1/200)). 2:{ cbn. destruct (Req_EM_T _ 0); [lra|]. f_equal. field. }
  replace (xltb (Fin (1/200)) (Fin 0)) with false by (symmetry; cbn; apply Rltb_false; lra). cbn [xdiv]. destruct (Req_EM_T 1 0); [lra|]. destruct (Req_EM_T (1/200) 0); [lra|].
  replace (xltb _ (Fin (1 / 200 / 1))) with false by (symmetry; cbn; apply Rltb_false; lra). replace (xltb (Fin (1 / (1 / 200))) _) with false by (symmetry; cbn; apply Rltb_false; lra). reflexivity.
Qed.
