From Coq Require Import Reals ZArith List Bool Arith Lra Lia.
From Verif Require Import XR_Model XR_Facts VecOps LinSolve_Model LinSolve_Spec LinSolve_Proofs2 LinSolve_Proofs3 Minres_Model Minres_Spec Minres_Proofs Minres_Proofs2.
Import ListNotations.
Open Scope R_scope.

Section P.
Context {V : Type} (v : VectorOps V) (A K Ks : V -> V) (kill : nat -> bool) (VL : vector_laws v) (PD : semidefinite v)
  (SA : symmetric v A) (SK : symmetric v Ks).
Lemma residuals p b x y rho : In (y, rho) (mo_trace (MINRES v A K Ks kill p b x)) -> 0 <= rho /\ rho * rho = sq v (scaledRes v A Ks b y).
Proof using VL PD SA SK.
  intros H. apply In_nth_error in H. destruct H as (n & H). destruct (minres_good v A K Ks kill VL PD SA SK b x p) as [[G _] _]. specialize (G _ _ H).
  split; [apply G|]. apply (entry_norm v A Ks VL SA SK b x n (y, rho) G).
Qed.
Lemma monotone p b x i j e f : let tr := mo_trace (MINRES v A K Ks kill p b x) in nth_error tr i = Some e -> nth_error tr j = Some f -> (i <= j)%nat ->
  sq v (scaledRes v A Ks b (fst f)) <= sq v (scaledRes v A Ks b (fst e)).
Proof using VL PD SA SK.
  intros tr Hi Hj L. destruct (minres_good v A K Ks kill VL PD SA SK b x p) as [[G M] _]. pose proof (M i j e f Hi Hj L) as Le.
  rewrite <- (entry_norm v A Ks VL SA SK b x i e (G _ _ Hi)), <- (entry_norm v A Ks VL SA SK b x j f (G _ _ Hj)).
  destruct (G _ _ Hj) as [P _]. apply Rmult_le_compat; auto.
Qed.
Lemma minimal p b x n y rho : nth_error (mo_trace (MINRES v A K Ks kill p b x)) n = Some (y, rho) ->
  forall a, sq v (scaledRes v A Ks b y) <= sq v (scaledRes v A Ks b (krylov v (fun z => Ks (A (Ks z))) x (scaledRes v A Ks b x) a n)).
Proof using VL PD SA SK.
  intros H a. destruct (minres_good v A K Ks kill VL PD SA SK b x p) as [[G _] _]. specialize (G _ _ H).
  pose proof (entry_norm v A Ks VL SA SK b x n (y, rho) G) as E. cbn [fst snd] in E. rewrite <- E. apply (entry_min v A Ks VL PD SA SK b x n (y, rho) a G).
Qed.
Lemma member p b x n y rho : nth_error (mo_trace (MINRES v A K Ks kill p b x)) n = Some (y, rho) ->
  forall z, (forall i, (i < n)%nat -> v_dot v z (power (fun z => Ks (A (Ks z))) i (scaledRes v A Ks b x)) = 0) -> v_dot v z y = v_dot v z x.
Proof using VL PD SA SK.
  intros H z Hz. destruct (minres_good v A K Ks kill VL PD SA SK b x p) as [[G _] _]. destruct (G _ _ H) as (_ & Y & _). apply Y.
  intros i Hi. rewrite <- (power_res v A Ks VL SA SK). apply Hz. exact Hi.
Qed.
Lemma converged p b x : let out := MINRES v A K Ks kill p b x in mo_conv out = true -> v_dot v b (K b) <> 0 ->
  exists y, mo_state out = Some (Ks y) /\ sqrt (sq v (Ks (residual0 v A b (Ks y)))) < mp_tol p * sqrt (Rabs (v_dot v b (K b))).
Proof using VL PD SA SK.
  intros out C N. destruct (minres_good v A K Ks kill VL PD SA SK b x p) as ([G _] & (tr & e & E & _ & T) & _). fold out in G, E, T. destruct (T C) as [S1 S2].
  exists (fst e). split; [exact S1|]. rewrite (err_fin _ _ N) in S2. apply xltb_fin in S2.
  assert (O : entryOK v A Ks b x (length tr) e). { apply G. rewrite E, nth_error_app2, Nat.sub_diag by lia. reflexivity. }
  change (Ks (residual0 v A b (Ks (fst e)))) with (scaledRes v A Ks b (fst e)). rewrite <- (entry_norm v A Ks VL SA SK b x _ e O), sqrt_square by apply O.
  pose proof (sqrt_lt_R0 _ (Rabs_pos_lt _ N)) as P. apply (Rmult_lt_compat_r _ _ _ P) in S2. unfold Rdiv in S2. rewrite Rmult_assoc, Rinv_l, Rmult_1_r in S2 by lra. exact S2.
Qed.
Lemma left_state p b x s : let out := MINRES v A K Ks kill p b x in mo_state out = Some s ->
  exists y, s = Ks y /\ sq v (scaledRes v A Ks b y) <= sq v (scaledRes v A Ks b x) /\ exists rho, In (y, rho) (mo_trace out).
Proof using VL PD SA SK.
  intros out C. destruct (minres_good v A K Ks kill VL PD SA SK b x p) as ([G M] & (tr & e & E & T & _) & _ & F). fold out in G, M, E, T, F.
  exists (fst e). split; [apply T; exact C|]. assert (H : nth_error (mo_trace out) (length tr) = Some e) by (rewrite E, nth_error_app2, Nat.sub_diag by lia; reflexivity).
  split; [|exists (snd e); rewrite <- surjective_pairing; apply (nth_error_In _ _ H)].
  pose proof (monotone p b x 0 (length tr) (x, _) e F H ltac:(lia)) as Q. exact Q.
Qed.
Lemma count p b x : (mo_iter (MINRES v A K Ks kill p b x) <= Z.to_nat (mp_nIter p))%nat.
Proof using VL PD SA SK. apply (minres_good v A K Ks kill VL PD SA SK b x p). Qed.
Lemma solved p b x : sq v (scaledRes v A Ks b x) = 0 -> (0 < mp_nIter p)%Z -> kill 0%nat = false ->
  let out := MINRES v A K Ks kill p b x in mo_conv out = false /\ mo_state out = None.
Proof using VL PD SA SK.
  intros Z N Ki out. unfold out, MINRES. clear out.
  assert (E : v_dot v (startRes v A Ks b x) (startRes v A Ks b x) = 0).
  { rewrite (startRes_res v A Ks VL SK), <- (scaledRes_res v A Ks VL SK). apply (null v VL PD). exact Z. }
  rewrite E, sqrt_0. assert (Q : Reqb 0 0 = true) by (apply Reqb_true; reflexivity). rewrite Q.
  destruct (Z.to_nat (mp_nIter p)) as [|k] eqn:En; [lia|]. cbn [minLoop m_v]. rewrite Ki. split; reflexivity.
Qed.
End P.

(** examples *)
Lemma semi2 : semidefinite ops2.
Proof. intros (a, c). unfold sq. cbn. nra. Qed.
Lemma id2_sym : symmetric ops2 id2.
Proof. intros x y. reflexivity. Qed.
Lemma swap_nd : nondegenerate ops2 (fun z => id2 (mat2 0 1 1 0 (id2 z))).
Proof.
  intros (a, c) H (e, f). pose proof (H (1, 0)) as H1. pose proof (H (0, 1)) as H2. unfold id2 in *. cbn in *.
  assert (a = 0) by lra. assert (c = 0) by lra. subst. ring.
Qed.
Lemma step_val (A Ks : vec2 -> vec2) st vk vh al be at' l0 vn : 
  vh = axpy ops2 (- al) vk (axpy ops2 (- m_beta st) (m_vold st) (scaled A Ks vk)) -> al = v_dot ops2 vk (axpy ops2 (- m_beta st) (m_vold st) (scaled A Ks vk)) ->
  be = sqrt (v_dot ops2 vh vh) -> at' = - m_s st * m_bt st - m_c st * al -> l0 = sqrt (at' * at' + be * be) -> l0 <> 0 ->
  vn = (if Reqb be 0 then None else Some (v_scal ops2 (1 / be) vh)) ->
  minStep ops2 A Ks st vk = 
  let w := v_scal ops2 (1 / l0) (axpy ops2 (- (m_s st * al - m_c st * m_bt st)) (m_w st) (m_wtt st)) in
  Some (MS (axpy ops2 (m_rho st * (at' / l0)) w (m_y st)) vn vk w
    (match vn with Some x => axpy ops2 (- (m_s st * be)) (m_w st) x | None => m_wtt st end) be (m_c st * be) (at' / l0) (be / l0) (be / l0 * m_rho st)).
Proof.
  intros E1 E2 E3 E4 E5 N E6. unfold minStep. cbv zeta. rewrite <- E2, <- E1, <- E3, <- E4, <- E5, <- E6. apply Reqb_false in N. rewrite N. reflexivity.
Qed.
Lemma sqrt_1' a : a = 1 -> 1 = sqrt a. Proof. intros ->. symmetry. apply sqrt_1. Qed.
Lemma sqrt_0' a : a = 0 -> 0 = sqrt a. Proof. intros ->. symmetry. apply sqrt_0. Qed.
Ltac vv := unfold axpy, scaled, id2, mat2; cbn; repeat (match goal with |- (_, _) = (_, _) => f_equal end); try lra; try field; try lra.
Lemma run2 : MINRES ops2 (mat2 0 1 1 0) id2 id2 (fun _ => false) (MP 5 (1/10) 0) (-1, 0) (0, 0) =
  MO true 1 (Some (0, 1)) [((0, 0), 1); ((0, 0), 1); ((0, 1), 0)].
Proof.
  unfold MINRES. assert (E : startRes ops2 (mat2 0 1 1 0) id2 (-1, 0) (0, 0) = (1, 0)) by (unfold startRes; vv). rewrite E.
  assert (E1 : sqrt (v_dot ops2 (1, 0) (1, 0)) = 1) by (symmetry; apply sqrt_1'; vv). rewrite E1.
  assert (E2 : Reqb 1 0 = false) by (apply Reqb_false; lra). rewrite E2.
  assert (E3 : v_scal ops2 (1 / 1) (1, 0) = (1, 0)) by vv. rewrite E3. assert (E4 : v_dot ops2 (-1, 0) (id2 (-1, 0)) = 1) by vv. rewrite E4.
  change (Z.to_nat (mp_nIter (MP 5 (1/10) 0))) with 5%nat. cbn [minLoop m_v].
  rewrite (step_val (mat2 0 1 1 0) id2 _ (1,0) (0, 1) 0 1 0 1 (Some (0, 1))); cbn [m_y m_v m_vold m_w m_wtt m_beta m_bt m_c m_s m_rho];
    [ | vv | vv | apply sqrt_1'; vv | lra | apply sqrt_1'; lra | lra | rewrite E2; apply (f_equal Some); vv ].
  assert (F : mRelErr 1 1 = Fin 1). { rewrite err_fin by lra. rewrite Rabs_R1, sqrt_1. f_equal. field. }
  assert (F0 : mRelErr 0 1 = Fin 0). { rewrite err_fin by lra. rewrite Rabs_R1, sqrt_1. f_equal. field. }
  cbv zeta. cbn [m_y m_v m_vold m_w m_wtt m_beta m_bt m_c m_s m_rho mp_tol mp_diff].
  replace (1 / 1 * 1) with 1 by field. rewrite F. assert (X1 : xltb (Fin 1) (Fin (1/10)) = false) by (apply Bool.not_true_is_false; intros X; apply xltb_fin in X; lra). rewrite X1.
  assert (X2 : xltb (xdiv (xsub (Fin 1) (Fin 1)) (Fin 1)) (Fin 0) = false).
  { cbn [xsub xopp xadd]. unfold xdiv. destruct (Req_EM_T 1 0); [lra|]. apply Bool.not_true_is_false. intros X. apply xltb_fin in X. unfold Rdiv in X. lra. }
  rewrite X2. cbn [Nat.leb minLoop m_v app].
  rewrite (step_val (mat2 0 1 1 0) id2 _ (0,1) (0, 0) 0 0 1 1 None); cbn [m_y m_v m_vold m_w m_wtt m_beta m_bt m_c m_s m_rho];
    [ | vv | vv | apply sqrt_0'; vv | lra | apply sqrt_1'; lra | lra | assert (E5 : Reqb 0 0 = true) by (apply Reqb_true; reflexivity); rewrite E5; reflexivity ].
  cbv zeta. cbn [m_y m_v m_vold m_w m_wtt m_beta m_bt m_c m_s m_rho mp_tol mp_diff app].
  replace (0 / 1 * 1) with 0 by field. rewrite F0. assert (X3 : xltb (Fin 0) (Fin (1/10)) = true) by (apply xltb_fin; lra). rewrite X3.
  assert (Y1 : axpy ops2 (1 * (0 / 1)) (v_scal ops2 (1 / 1) (axpy ops2 (- (0 * 0 - -1 * 0)) (0, 0) (1, 0))) (0, 0) = (0, 0)) by vv. rewrite Y1.
  assert (Y2 : axpy ops2 (1 * (1 / 1)) (v_scal ops2 (1 / 1) (axpy ops2 (- (1 / 1 * 0 - 0 / 1 * (-1 * 1))) (v_scal ops2 (1 / 1) (axpy ops2 (- (0 * 0 - -1 * 0)) (0, 0) (1, 0))) (axpy ops2 (- (0 * 1)) (0, 0) (0, 1)))) (0, 0) = (0, 1)) by vv. rewrite Y2.
  unfold id2. reflexivity.
Qed.
Lemma start_refuted : exists b x : vec2, b <> (0, 0) /\ residual0 ops2 (mat2 0 1 1 0) b x = (0, 0) /\
  forall n, (0 < n)%Z -> mo_state (MINRES ops2 (mat2 0 1 1 0) id2 id2 (fun _ => false) (MP n (1/10) 0) b x) = None.
Proof.
  exists (-1, 0), (0, 1). split; [intros H; injection H; lra|]. assert (E : residual0 ops2 (mat2 0 1 1 0) (-1, 0) (0, 1) = (0, 0)) by (unfold residual0; vv). split; [exact E|].
  intros n N. apply (solved ops2 (mat2 0 1 1 0) id2 id2 (fun _ => false) ops2_laws semi2 (mat2_sym 0 1 0) id2_sym (MP n (1/10) 0) (-1, 0) (0, 1)); auto.
  unfold scaledRes. unfold id2 at 2. rewrite E. unfold sq. vv.
Qed.
Lemma restart_refuted : exists (A K Ks : vec2 -> vec2) (b x : vec2), symmetric ops2 A /\ symmetric ops2 Ks /\ (forall z, Ks (Ks z) = K z) /\
  residual0 ops2 A b x = (0, 0) /\
  forall n, exists rho l, mo_trace (MINRES ops2 A K Ks (fun _ => false) (MP n (1/10) 0) b x) = (x, rho) :: l /\ rho * rho = 4.
Proof.
  exists (mat2 1 0 0 1), (mat2 4 0 0 4), (mat2 2 0 0 2), (-1, 0), (1, 0). split; [apply mat2_sym|]. split; [apply mat2_sym|].
  split; [intros (a, c); vv|]. split; [unfold residual0; vv|]. intros n.
  set (out := MINRES _ _ _ _ _ _ _ _).
  destruct (minres_good ops2 (mat2 1 0 0 1) (mat2 4 0 0 4) (mat2 2 0 0 2) (fun _ => false) ops2_laws semi2 (mat2_sym 1 0 1) (mat2_sym 2 0 2) (-1, 0) (1, 0) (MP n (1/10) 0)) as ([G _] & _ & _ & F).
  fold out in G, F. destruct (mo_trace out) as [|e l] eqn:E; [discriminate|]. cbn in F. injection F as ->.
  eexists. exists l. split; [reflexivity|]. rewrite sqrt_sqrt by (apply (semi2 (startRes ops2 (mat2 1 0 0 1) (mat2 2 0 0 2) (-1, 0) (1, 0)))). unfold startRes. vv.
Qed.
