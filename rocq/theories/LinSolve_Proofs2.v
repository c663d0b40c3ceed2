(** Concrete runs of the linear solvers: examples and counterexamples for C12 and C13. *)
From Coq Require Import Reals ZArith List Bool Arith Lia Lra.
From Verif Require Import XR_Model XR_Facts VecOps LinSolve_Model LinSolve_Spec LinSolve_Proofs.
Import ListNotations.
Open Scope R_scope.

Definition vec2 : Type := (R * R)%type.
Definition ops2 : VectorOps vec2 :=
  VO (fun x y => (fst x + fst y, snd x + snd y)) (fun a x => (a * fst x, a * snd x)) (0, 0) (fun x y => fst x * fst y + snd x * snd y).
Lemma ops2_laws : vector_laws ops2.
Proof. constructor; cbn; intros; repeat match goal with x : vec2 |- _ => destruct x end; cbn; try (f_equal; ring); ring. Qed.
Definition mat2 (a b c d : R) (x : vec2) : vec2 := (a * fst x + b * snd x, c * fst x + d * snd x).
Lemma mat2_linear a b c d : linear ops2 (mat2 a b c d).
Proof. split; intros; repeat match goal with x : vec2 |- _ => destruct x end; unfold mat2; cbn; f_equal; ring. Qed.
Definition id2 (x : vec2) : vec2 := x.
Lemma id2_pos r : 0 <= v_dot ops2 r (id2 r).
Proof. destruct r as (a,b). unfold id2. cbn. nra. Qed.

Lemma relErr_ltb a c q : 0 <= a -> 0 <= c -> q <> 0 -> xltb (relErr a q) (relErr c q) = Rltb a c.
Proof.
  intros Ha Hc Hq.
  assert (P : 0 < Rabs q) by (apply Rabs_pos_lt; auto).
  unfold relErr. cbn [xdiv]. destruct (Req_EM_T (Rabs q) 0); [lra|]. rewrite (Rabs_right a), (Rabs_right c) by lra. cbn [xsqrt].
  assert (Qa : 0 <= a / Rabs q) by (apply Rmult_le_pos; [lra|left; apply Rinv_0_lt_compat; auto]).
  assert (Qc : 0 <= c / Rabs q) by (apply Rmult_le_pos; [lra|left; apply Rinv_0_lt_compat; auto]).
  destruct (Rlt_dec (a / Rabs q) 0); [lra|]. destruct (Rlt_dec (c / Rabs q) 0); [lra|].
  destruct (Rltb a c) eqn:E.
  - apply xltb_fin. apply Rltb_true in E. apply sqrt_lt_1; auto. apply Rmult_lt_compat_r; [apply Rinv_0_lt_compat|]; auto.
  - apply Rltb_false in E. cbn [xltb]. apply Rltb_false. apply sqrt_le_1; auto. apply Rmult_le_compat_r; [left; apply Rinv_0_lt_compat|]; auto.
Qed.
Lemma relErr_big a q t : 0 <= a -> 0 < q -> 0 <= t -> t * t * q <= a -> xltb (relErr a q) (Fin t) = false.
Proof.
  intros Ha Hq Ht H. unfold relErr. cbn [xdiv]. rewrite !Rabs_right by lra. destruct (Req_EM_T q 0); [lra|]. cbn [xsqrt].
  assert (B : t * t <= a / q). { apply Rmult_le_reg_r with q; auto. replace (a / q * q) with a by (field; lra). lra. }
  destruct (Rlt_dec (a / q) 0); [auto|]. cbn [xltb]. apply Rltb_false. rewrite <- (sqrt_square t) by auto. apply sqrt_le_1; nra.
Qed.

Section Step.
Variables (A : vec2 -> vec2) (kill : nat -> bool) (p : SolverParams).
Hypothesis nokill : forall i, kill i = false.
Lemma cg_step k iter b q x r d rdz rdzP os ore oi cs tr d1 w al x1 r1 rz1 :
  ((rdzP = 0 /\ d1 = r) \/ (rdzP <> 0 /\ d1 = axpy ops2 1 r (v_scal ops2 (rdz / rdzP) d))) ->
  w = A d1 -> v_dot ops2 w d1 <> 0 -> al = rdz / v_dot ops2 w d1 -> x1 = axpy ops2 al d1 x -> r1 = axpy ops2 (- al) w r ->
  rz1 = v_dot ops2 r1 r1 -> (0 <= rdz) -> 0 < q -> 0 <= sp_tol p -> sp_tol p * sp_tol p * q <= rz1 -> sp_recompute p = false ->
  cgLoop ops2 A id2 kill p (S k) iter b q x r r d rdz rdzP (relErr rdz q) os ore oi cs tr =
  let tr := tr ++ [mkIt x1 r1 rz1] in
  let '(os, ore, oi, cs) :=
    if Rltb rdz rz1 then let '(os, ore, oi) := if Nat.eqb cs 0 && Rltb rdz ore then (Some x, rdz, (Z.of_nat iter - 1)%Z) else (os, ore, oi) in (os, ore, oi, S cs)
    else (os, ore, oi, O) in
  if Nat.leb 3 cs && negb (sp_bypass p) then finish iter (Some x1) os oi tr
  else cgLoop ops2 A id2 kill p k (S iter) b q x1 r1 r1 d1 rz1 rdz (relErr rz1 q) os ore oi cs tr.
Proof.
  intros Hd Hw Hwd Hal Hx Hr Hrz H0 Hq Ht Hbig Hrec. cbn [cgLoop]. rewrite nokill, Hrec, andb_false_r.
  assert (D : (if Reqb rdzP 0 then r else axpy ops2 1 r (v_scal ops2 (rdz / rdzP) d)) = d1).
  { destruct Hd as [(E&->)|(E&->)]; [apply Reqb_true in E|apply Reqb_false in E]; rewrite E; auto. }
  rewrite D. rewrite <- Hw. apply Reqb_false in Hwd. rewrite Hwd. rewrite <- Hal. rewrite <- Hx, <- Hr. change (id2 r1) with r1.
  rewrite <- Hrz.
  assert (P1 : 0 <= rz1) by (rewrite Hrz; apply id2_pos).
  rewrite relErr_big by auto. rewrite relErr_ltb by (auto; lra).
  assert (U : axpy ops2 (- al) d1 x1 = x) by (rewrite Hx; apply (undo_axpy _ ops2_laws)). rewrite U. cbv zeta. destruct (Rltb rdz rz1), (Nat.eqb cs 0 && Rltb rdz ore); reflexivity.
Qed.
End Step.

(** The run of CG on A = ((-3,0),(-1,1)), b = (1,1) from the origin: squared residuals 2, 2, 1, 8, 136/169. *)
Definition A1 := mat2 (-3) 0 (-1) 1.
Definition pr (n : Z) := SP n (1/10) false false.
Definition tr1 : list (Iterate vec2) := [mkIt (0,0) (-1,-1) 2; mkIt (2/3,2/3) (1,-1) 2; mkIt (2/3,-1/3) (1,0) 1; mkIt (-1/3,2/3) (-2,-2) 8].
Ltac pair_eq := repeat match goal with |- (_, _) = (_, _) => f_equal end; try lra; try field.
Ltac evR := repeat match goal with
  | |- context[Rltb ?a ?b] => first [rewrite (proj2 (Rltb_true a b)) by lra | rewrite (proj2 (Rltb_false a b)) by lra] end.
Lemma run_start n tl k : Z.to_nat n = k ->
  CG ops2 A1 id2 (fun _ => false) (pr n) (1,1) (0,0) = tl ->
  cgLoop ops2 A1 id2 (fun _ => false) (pr n) k 0 (1,1) 2 (0,0) (-1,-1) (-1,-1) (-1,-1) 2 0 (relErr 2 2) None 2 0 0 [mkIt (0,0) (-1,-1) 2] = tl.
Proof.
  intros Hk <-. unfold CG.
  assert (E : negRes ops2 A1 (1,1) (0,0) = (-1,-1)) by (unfold negRes, axpy, A1, mat2; cbn; f_equal; lra).
  rewrite E. change (id2 (-1,-1)) with (-1,-1). change (id2 (1,1)) with (1,1).
  assert (E1 : v_dot ops2 (-1,-1) (-1,-1) = 2) by (cbn; lra). assert (E2 : v_dot ops2 (1,1) (1,1) = 2) by (cbn; lra). rewrite E1, E2.
  rewrite relErr_big by (cbn; lra). change (sp_nIter (pr n)) with n. rewrite Hk. reflexivity.
Qed.
Ltac stepwith D W AL X R1 RZ :=
  erewrite (cg_step A1 (fun _ => false) _ (fun _ => eq_refl) _ _ _ _ _ _ _ _ _ _ _ _ _ _ D W AL X R1 RZ);
  [ | first [left; split; [lra|reflexivity] | right; split; [lra| unfold axpy; cbn; pair_eq]]
  | unfold A1, mat2; cbn; pair_eq | cbn; lra | cbn; lra | unfold axpy; cbn; pair_eq | unfold axpy; cbn; pair_eq | cbn; lra | lra | lra | cbn; lra | cbn; lra | reflexivity ];
  evR; cbn [andb Nat.eqb Nat.leb negb sp_bypass pr app Z.of_nat].
Lemma run3 : CG ops2 A1 id2 (fun _ => false) (pr 3) (1,1) (0,0) = mkOut false 3 (Some (2/3,-1/3)) tr1.
Proof.
  symmetry. symmetry. erewrite <- (run_start 3 _ 3 eq_refl eq_refl).
  stepwith (-1,-1) (3,0) (-2/3) (2/3,2/3) (1,-1) 2.
  stepwith (0,-2) (0,-2) (1/2) (2/3,-1/3) (1,0) 1.
  stepwith (1,-1) (-3,-2) (-1) (-1/3,2/3) (-2,-2) 8.
  reflexivity.
Qed.
Lemma run4 : CG ops2 A1 id2 (fun _ => false) (pr 4) (1,1) (0,0) =
  mkOut false 4 (Some (2/3,-1/3)) (tr1 ++ [mkIt (23/39,-34/39) (10/13,6/13) (136/169)]).
Proof.
  symmetry. symmetry. erewrite <- (run_start 4 _ 4 eq_refl eq_refl).
  stepwith (-1,-1) (3,0) (-2/3) (2/3,2/3) (1,-1) 2.
  stepwith (0,-2) (0,-2) (1/2) (2/3,-1/3) (1,0) 1.
  stepwith (1,-1) (-3,-2) (-1) (-1/3,2/3) (-2,-2) 8.
  stepwith (6,-10) (-18,-16) (2/13) (23/39,-34/39) (10/13,6/13) (136/169).
  reflexivity.
Qed.

(** A symmetric operator for which the first step increases the residual from 2 to 722: the initial state is not restored. *)
Definition A2 := mat2 1 0 0 (-9/10).
Lemma run1 : CG ops2 A2 id2 (fun _ => false) (pr 1) (-1,-1) (0,0) = mkOut false 1 (Some (20,20)) [mkIt (0,0) (1,1) 2; mkIt (20,20) (-19,19) 722].
Proof.
  unfold CG.
  assert (E : negRes ops2 A2 (-1,-1) (0,0) = (1,1)) by (unfold negRes, axpy, A2, mat2; cbn; f_equal; lra).
  rewrite E. change (id2 (-1,-1)) with (-1,-1). change (id2 (1,1)) with (1,1).
  assert (E1 : v_dot ops2 (-1,-1) (-1,-1) = 2) by (cbn; lra). assert (E2 : v_dot ops2 (1,1) (1,1) = 2) by (cbn; lra). rewrite E1, E2.
  rewrite relErr_big by (cbn; lra). change (Z.to_nat (sp_nIter (pr 1))) with 1%nat.
  erewrite (cg_step A2 (fun _ => false) _ (fun _ => eq_refl) _ _ _ _ _ _ _ _ _ _ _ _ _ _ (1,1) (1,-9/10) 20 (20,20) (-19,19) 722);
    [ | left; split; [lra|reflexivity] | unfold A2, mat2; cbn; pair_eq | cbn; lra | cbn; lra | unfold axpy; cbn; pair_eq | unfold axpy; cbn; pair_eq | cbn; lra | lra | lra | cbn; lra | cbn; lra | reflexivity ].
  evR. reflexivity.
Qed.

Lemma A1_lin : linear ops2 A1. Proof. apply mat2_linear. Qed.
Lemma A2_lin : linear ops2 A2. Proof. apply mat2_linear. Qed.

(** Convergent run of LinearSolvable::solve on diag(1,3) *)
Lemma rzNorm_big n a t : 0 < n -> 0 <= a -> 0 <= t -> t * t * n <= a -> Rltb (rzNorm n a) t = false.
Proof.
  intros Hn Ha Ht H. apply Rltb_false. unfold rzNorm. rewrite Rabs_right by lra. rewrite <- (sqrt_square t) by auto. apply sqrt_le_1; try nra.
  - apply Rmult_le_pos; [lra|]. left. apply Rinv_0_lt_compat. auto.
  - apply Rmult_le_reg_r with n; auto. replace (a / n * n) with a by (field; lra). auto.
Qed.
Lemma solve_step A nDim thr k iter x r d rdz rdzP tr d1 w al x1 r1 rz1 :
  ((rdzP = 0 /\ d1 = r) \/ (rdzP <> 0 /\ d1 = axpy ops2 1 r (v_scal ops2 (rdz / rdzP) d))) ->
  w = A d1 -> v_dot ops2 w d1 <> 0 -> al = rdz / v_dot ops2 w d1 -> x1 = axpy ops2 al d1 x -> r1 = axpy ops2 (- al) w r ->
  rz1 = v_dot ops2 r1 r1 ->
  solveLoop ops2 A id2 (fun _ => false) (S k) iter nDim thr x r r d rdz rdzP tr =
  let tr := tr ++ [mkIt x1 r1 rz1] in
  if Rltb (rzNorm nDim rz1) thr then mkOut true iter (Some x1) tr
  else solveLoop ops2 A id2 (fun _ => false) k (S iter) nDim thr x1 r1 r1 d1 rz1 rdz tr.
Proof.
  intros Hd Hw Hwd Hal Hx Hr Hrz. cbn [solveLoop].
  assert (D : (if Reqb rdzP 0 then r else axpy ops2 1 r (v_scal ops2 (rdz / rdzP) d)) = d1).
  { destruct Hd as [(E&->)|(E&->)]; [apply Reqb_true in E|apply Reqb_false in E]; rewrite E; auto. }
  rewrite D. rewrite <- Hw. apply Reqb_false in Hwd. rewrite Hwd. rewrite <- Hal. rewrite <- Hx, <- Hr. change (id2 r1) with r1.
  rewrite <- Hrz. reflexivity.
Qed.
Lemma run_solve : solve ops2 (mat2 1 0 0 3) id2 (fun _ => false) 5 2 (1/10) (1,1) (0,0) =
  mkOut true 1 (Some (1,1/3)) [mkIt (0,0) (1,1) 2; mkIt (1/2,1/2) (1/2,-1/2) (1/2); mkIt (1,1/3) (0,0) 0].
Proof.
  unfold solve. 
  assert (E : axpy ops2 (-1) (mat2 1 0 0 3 (0,0)) (1,1) = (1,1)) by (unfold axpy, mat2; cbn; f_equal; lra).
  rewrite E. change (id2 (1,1)) with (1,1). assert (E1 : v_dot ops2 (1,1) (1,1) = 2) by (cbn; lra). rewrite E1.
  rewrite rzNorm_big by lra. change (Z.to_nat 5) with 5%nat.
  erewrite (solve_step _ _ _ _ _ _ _ _ _ _ _ (1,1) (1,3) (1/2) (1/2,1/2) (1/2,-1/2) (1/2));
    [ | left; split; [lra|reflexivity] | unfold mat2; cbn; pair_eq | cbn; lra | cbn; lra | unfold axpy; cbn; pair_eq | unfold axpy; cbn; pair_eq | cbn; lra ].
  cbv zeta. rewrite rzNorm_big by lra.
  erewrite (solve_step _ _ _ _ _ _ _ _ _ _ _ (3/4,-1/4) (3/4,-3/4) (2/3) (1,1/3) (0,0) 0);
    [ | right; split; [lra| unfold axpy; cbn; pair_eq] | unfold mat2; cbn; pair_eq | cbn; lra | cbn; lra | unfold axpy; cbn; pair_eq | unfold axpy; cbn; pair_eq | cbn; lra ].
  assert (N : rzNorm 2 0 = 0). { unfold rzNorm. rewrite Rabs_R0. unfold Rdiv. rewrite Rmult_0_l. apply sqrt_0. }
  cbv zeta. rewrite N, (proj2 (Rltb_true 0 (1/10))) by lra. reflexivity.
Qed.
Lemma initial_refuted : exists (A : vec2 -> vec2) p b x, linear ops2 A /\ (forall y z, v_dot ops2 (A y) z = v_dot ops2 y (A z)) /\
  let out := CG ops2 A id2 (fun _ => false) p b x in
  so_conv out = false /\ exists y i0, so_state out = Some y /\ In i0 (so_trace out) /\ it_x i0 = x /\
  rz_of ops2 id2 (residual0 ops2 A b) y = 722 /\ it_rz i0 = 2.
Proof.
  exists A2, (pr 1), (-1,-1), (0,0). split; [apply A2_lin|]. split.
  - intros (a,b) (c,d). unfold A2, mat2. cbn. ring.
  - cbv zeta. rewrite run1. split; [reflexivity|]. exists (20,20), (mkIt (0,0) (1,1) 2). split; [reflexivity|].
    split; [left; reflexivity|]. split; [reflexivity|]. split; [|reflexivity]. unfold rz_of, residual0, A2, mat2, id2. cbn. lra.
Qed.
Lemma last_refuted : exists (A : vec2 -> vec2) p b x, linear ops2 A /\
  let out := CG ops2 A id2 (fun _ => false) p b x in
  so_conv out = false /\ exists y il, so_state out = Some y /\ In il (so_trace out) /\
  rz_of ops2 id2 (residual0 ops2 A b) y = 1 /\ it_rz il = 136/169.
Proof.
  exists A1, (pr 4), (1,1), (0,0). split; [apply A1_lin|].
  cbv zeta. rewrite run4. split; [reflexivity|]. exists (2/3,-1/3), (mkIt (23/39,-34/39) (10/13,6/13) (136/169)). split; [reflexivity|].
  split; [apply in_or_app; right; left; reflexivity|]. split; [|reflexivity]. unfold rz_of, residual0, A1, mat2, id2. cbn. lra.
Qed.
