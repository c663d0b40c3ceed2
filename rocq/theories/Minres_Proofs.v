From Coq Require Import Reals ZArith List Bool Arith Lra Lia.
From Verif Require Import XR_Model XR_Facts VecOps LinSolve_Model LinSolve_Spec Minres_Model Minres_Spec.
Import ListNotations.
Open Scope R_scope.

Section P.
Context {V : Type} (v : VectorOps V) (A K Ks : V -> V) (kill : nat -> bool) (VL : vector_laws v) (PD : semidefinite v)
  (SA : symmetric v A) (SK : symmetric v Ks).
Notation "<< x , y >>" := (v_dot v x y) (at level 0, x at level 99, y at level 99).
Notation B := (scaled A Ks).

Lemma dotc x y : <<x, y>> = <<y, x>>. Proof. apply vl_dot_comm, VL. Qed.
Lemma dot_axpy z a x y : <<z, axpy v a x y>> = <<z, y>> + a * <<z, x>>.
Proof. unfold axpy. rewrite (vl_dot_add _ VL), (vl_dot_scal _ VL). lra. Qed.
Lemma axpy_dot z a x y : <<axpy v a x y, z>> = <<y, z>> + a * <<x, z>>.
Proof. rewrite dotc, dot_axpy, (dotc z y), (dotc z x). reflexivity. Qed.
Lemma dot_scal z a x : <<z, v_scal v a x>> = a * <<z, x>>. Proof. apply vl_dot_scal, VL. Qed.
Lemma scal_dot z a x : <<v_scal v a x, z>> = a * <<x, z>>. Proof. rewrite dotc, dot_scal, dotc. reflexivity. Qed.
Lemma dot_zero z : <<z, v_zero v>> = 0. Proof. rewrite <- (vl_scal_zero _ VL z), dot_scal. ring. Qed.
Lemma zero_dot z : <<v_zero v, z>> = 0. Proof. rewrite dotc. apply dot_zero. Qed.
Lemma Bsym x y : <<x, B y>> = <<B x, y>>.
Proof. unfold scaled. rewrite <- SK, <- SA, <- SK. reflexivity. Qed.

(** Vectors of zero norm are orthogonal to everything. *)
Lemma null x : <<x, x>> = 0 -> forall z, <<z, x>> = 0.
Proof.
  intros H z. destruct (Req_dec <<z, x>> 0) as [|N]; auto. exfalso.
  set (t := - (<<z, z>> + 1) / (2 * <<z, x>>)). pose proof (PD (axpy v t x z)) as P. unfold sq in P.
  rewrite dot_axpy, !axpy_dot, (dotc x z), H in P. replace (_ + _) with (<<z, z>> + 2 * (t * <<z, x>>)) in P by ring.
  assert (E : t * <<z, x>> = - (<<z, z>> + 1) / 2) by (unfold t; field; auto). rewrite E in P. lra.
Qed.

Definition res b y z := - <<z, B y>> - <<Ks z, b>>.
Lemma startRes_res b x z : <<z, startRes v A Ks b x>> = res b x z.
Proof. unfold startRes, res, scaled. rewrite <- SK, dot_axpy, dot_scal, <- (SK z (A (Ks x))). ring. Qed.
Lemma scaledRes_res b x z : <<z, scaledRes v A Ks b x>> = res b x z.
Proof. unfold scaledRes, residual0, res, scaled. rewrite <- SK, dot_scal, (vl_dot_add _ VL), <- (SK z (A (Ks x))). ring. Qed.
Lemma res_axpy b a w y z : res b (axpy v a w y) z = res b y z - a * <<z, B w>>.
Proof. unfold res. rewrite !Bsym, dot_axpy. ring. Qed.

Context (b x : V).
Notation r0 := (startRes v A Ks b x).
Definition perp (n : nat) (z : V) : Prop := forall i, (i < n)%nat -> <<z, power B i r0>> = 0.
Lemma perp_le n m z : (m <= n)%nat -> perp n z -> perp m z.
Proof. intros H P i Hi. apply P. lia. Qed.
Lemma perp_B n z : perp (S n) z -> perp n (B z).
Proof. intros P i Hi. rewrite <- Bsym. change (B (power B i r0)) with (power B (S i) r0). apply P. lia. Qed.
Definition orth (z : V) (L : list V) : Prop := forall u, In u L -> <<z, u>> = 0.

Record inv (st : Mst V) (vk q qold : V) (L : list V) : Prop := INV {
  i_unit : <<vk, vk>> = 1;
  i_orth : orth vk L;
  i_unitL : forall u, In u L -> <<u, u>> = 1;
  i_kry : forall z, orth z (vk :: L) -> forall u, In u L -> <<z, B u>> = 0;
  i_three : forall u, In u L -> <<vk, B u>> = m_beta st * <<m_vold st, u>>;
  i_old : m_beta st = 0 \/ In (m_vold st) L;
  i_cs : m_c st * m_c st + m_s st * m_s st = 1;
  i_q : forall z, <<z, q>> = m_s st * <<z, qold>> - m_c st * <<z, vk>>;
  i_w : forall z, <<z, B (m_w st)>> = m_c st * <<z, qold>> + m_s st * <<z, vk>>;
  i_wtt : forall z, <<z, B (m_wtt st)>> = <<z, B vk>> - m_beta st * <<z, m_vold st>> - m_bt st * <<z, qold>>;
  i_res : forall z, res b (m_y st) z = m_rho st * <<z, q>>;
  i_qq : <<q, q>> = 1;
  i_qorth : forall z, orth z (vk :: L) -> <<z, q>> = 0;
  i_rho : 0 < m_rho st;
  i_D1 : forall z, perp (length L) z -> orth z L;
  i_D1v : forall z, perp (S (length L)) z -> <<z, vk>> = 0;
  i_D2 : forall z, orth z L -> perp (length L) z;
  i_D2v : forall z, orth z (vk :: L) -> perp (S (length L)) z;
  i_y : forall z, perp (length L) z -> <<z, m_y st>> = <<z, x>>;
  i_ws : forall z, perp (length L) z -> m_s st * <<z, m_w st>> = 0 /\ m_bt st * <<z, m_w st>> = 0;
  i_wtp : forall z, perp (S (length L)) z -> <<z, m_wtt st>> = 0;
  i_vw : <<vk, m_wtt st>> = 1;
  i_E : forall u, In u L -> <<q, B u>> = 0;
  i_G : m_s st * <<qold, vk>> = 0;
  i_H : m_beta st * m_s st * <<qold, m_vold st>> = - m_s st * m_bt st }.

Lemma inv_init : <<r0, r0>> <> 0 ->
  let rho := sqrt <<r0, r0>> in let vv := v_scal v (1 / rho) r0 in
  inv (MS x (Some vv) x x vv 0 0 (-1) 0 rho) vv vv (v_scal v (-1) (B x)) [].
Proof.
  intros N rho vv. pose proof (PD r0) as P. unfold sq in P.
  assert (R0 : 0 < rho) by (apply sqrt_lt_R0; lra). assert (RR : rho * rho = <<r0, r0>>) by (apply sqrt_sqrt; auto).
  assert (U : <<vv, vv>> = 1). { unfold vv. rewrite dot_scal, scal_dot, <- RR. field. lra. }
  constructor; cbn [m_y m_v m_vold m_w m_wtt m_beta m_bt m_c m_s m_rho length]; try solve [intros ? []]; auto.
  - intros z Hz u [].
  - ring.
  - intros z. ring.
  - intros z. rewrite dot_scal. ring.
  - intros z. ring.
  - intros z. rewrite <- startRes_res. unfold vv. rewrite dot_scal. field. lra.
  - intros z Hz. apply Hz. left. reflexivity.
  - intros z Hz u [].
  - intros z Hz. unfold vv. rewrite dot_scal. rewrite (Hz 0%nat (Nat.lt_0_succ 0) : <<z, r0>> = 0). ring.
  - intros z Hz i Hi. lia.
  - intros z Hz i Hi. assert (i = 0)%nat by lia. subst i. cbn. specialize (Hz vv (or_introl eq_refl)). unfold vv in Hz. rewrite dot_scal in Hz.
    apply Rmult_integral in Hz. destruct Hz as [Hz|Hz]; auto. exfalso. assert (0 < 1 / rho) by (apply Rdiv_lt_0_compat; lra). lra.
  - intros z Hz. split; ring.
  - intros z Hz. unfold vv. rewrite dot_scal. rewrite (Hz 0%nat (Nat.lt_0_succ 0) : <<z, r0>> = 0). ring.
  - ring.
  - ring.
Qed.

(** The same quantities after one step, with the new Lanczos vector (arbitrary if there is none). *)
Lemma step_some st vk q qold L st' : inv st vk q qold L -> minStep v A Ks st vk = Some st' ->
  (forall v', m_v st' = Some v' -> exists q', inv st' v' q' q (vk :: L)) /\
  (m_v st' = None -> m_rho st' = 0 /\ forall z, res b (m_y st') z = 0) /\
  (forall z, perp (S (length L)) z -> <<z, m_y st'>> = <<z, x>>) /\ 0 <= m_rho st' <= m_rho st.
Proof.
  intros I. unfold minStep. set (vh1 := axpy v (- m_beta st) (m_vold st) (B vk)). set (al := <<vk, vh1>>). set (vh := axpy v (- al) vk vh1).
  set (be := sqrt <<vh, vh>>). set (at' := - m_s st * m_bt st - m_c st * al). set (l0 := sqrt (at' * at' + be * be)).
  destruct (Reqb l0 0) eqn:El; [discriminate|]. apply Reqb_false in El. intros E. injection E as <-.
  assert (Pv : 0 <= <<vh, vh>>) by apply PD. assert (Be0 : 0 <= be) by apply sqrt_pos. assert (Be2 : be * be = <<vh, vh>>) by (apply sqrt_sqrt; auto).
  assert (L2 : l0 * l0 = at' * at' + be * be) by (apply sqrt_sqrt; nra). assert (L0 : 0 < l0) by (pose proof (sqrt_pos (at' * at' + be * be)); unfold l0 in *; lra).
  set (c' := at' / l0). set (s' := be / l0).
  assert (CS : c' * c' + s' * s' = 1). { unfold c', s'. replace (_ + _) with ((at' * at' + be * be) / (l0 * l0)) by (field; lra). rewrite <- L2. field. lra. }
  assert (AC : at' = c' * l0) by (unfold c'; field; lra). assert (BS : be = s' * l0) by (unfold s'; field; lra).
  assert (S0 : 0 <= s') by (unfold s'; apply Rmult_le_pos; auto; apply Rlt_le, Rinv_0_lt_compat; auto). assert (S1 : s' <= 1) by nra.
  destruct I as [iu io iuL ik i3 iold ics iq iw iwtt ires iqq iqo irho D1 D1v D2 D2v iy iws iwtp ivw iE iG iH].
  set (c := m_c st) in *. set (s := m_s st) in *. set (bt := m_bt st) in *. set (b0 := m_beta st) in *. set (rho := m_rho st) in *.
  set (vold := m_vold st) in *. set (w := m_w st) in *. set (wtt := m_wtt st) in *.
  set (l1 := s * al - c * bt).
  set (w' := v_scal v (1 / l0) (axpy v (- l1) w wtt)).
  assert (VH : forall z, <<z, vh>> = <<z, B vk>> - b0 * <<z, vold>> - al * <<z, vk>>). { intros z. unfold vh, vh1. rewrite !dot_axpy. ring. }
  (* the new direction *)
  assert (W : forall z, perp (S (length L)) z -> <<z, w'>> = 0).
  { intros z Hz. unfold w'. rewrite dot_scal, dot_axpy. rewrite iwtp by auto. destruct (iws z (perp_le _ _ _ (Nat.le_succ_diag_r _) Hz)) as [H1 H2].
    unfold l1. replace (1 / l0 * (0 + - (s * al - c * bt) * <<z, w>>)) with (1 / l0 * (- al * (s * <<z, w>>) + c * (bt * <<z, w>>))) by ring. rewrite H1, H2. ring. }
  assert (YP : forall z, perp (S (length L)) z -> <<z, axpy v (rho * c') w' (m_y st)>> = <<z, x>>).
  { intros z Hz. rewrite dot_axpy, W by auto. rewrite iy by (apply (perp_le _ _ _ (Nat.le_succ_diag_r _) Hz)). ring. }
  assert (BW0 : forall z, <<z, B w'>> = 1 / l0 * (at' * <<z, q>> + <<z, vh>>)).
  { intros z. unfold w'. rewrite Bsym, dot_scal, dot_axpy, <- !Bsym, iw, iwtt, VH, iq. unfold l1, at'. f_equal.
    assert (C2 : c * c = 1 - s * s) by lra.
    replace (<<z, B vk>> - b0 * <<z, vold>> - bt * <<z, qold>> + - (s * al - c * bt) * (c * <<z, qold>> + s * <<z, vk>>))
      with (<<z, B vk>> - b0 * <<z, vold>> - bt * <<z, qold>> - s * s * al * <<z, vk>> + s * bt * c * <<z, vk>> - s * al * c * <<z, qold>> + (c * c) * bt * <<z, qold>>) by ring.
    rewrite C2. replace ((- s * bt - c * al) * (s * <<z, qold>> - c * <<z, vk>>)) with (- s * s * bt * <<z, qold>> + s * bt * c * <<z, vk>> - c * al * s * <<z, qold>> + (c * c) * al * <<z, vk>>) by ring.
    rewrite C2. ring. }
  assert (VHk : <<vk, vh>> = 0). { rewrite VH. unfold al, vh1. rewrite dot_axpy, iu. fold b0 vold. ring. }
  assert (VHL : forall u, In u L -> <<u, vh>> = 0).
  { intros u Hu. rewrite VH, Bsym, (dotc (B u)), i3 by auto. rewrite (dotc u vold), (dotc u vk), io by auto. ring. }
  assert (VHO : orth vh (vk :: L)). { intros u [<-|Hu]; rewrite dotc; auto. }
  assert (OLD : forall z, orth z L -> b0 * <<z, vold>> = 0). { intros z Hz. destruct iold as [->|Hi]; [ring|]. rewrite Hz by auto. ring. }
  assert (QV : <<q, vk>> = - c). { rewrite dotc, iq, (dotc vk qold), iu, iG. ring. }
  assert (QVH : <<q, vh>> = 0) by (rewrite dotc; apply iqo; auto).
  assert (QB : <<q, B vk>> = at').
  { assert (F : <<q, B vk>> = b0 * <<q, vold>> + al * <<q, vk>>). { pose proof (VH q) as F. rewrite QVH in F. lra. }
    rewrite F, QV. assert (G : b0 * <<q, vold>> = - s * bt).
    { rewrite dotc, iq, (dotc vold qold), Rmult_minus_distr_l. replace (b0 * (s * <<qold, vold>>)) with (b0 * s * <<qold, vold>>) by ring. rewrite iH.
      replace (b0 * (c * <<vold, vk>>)) with (c * (b0 * <<vk, vold>>)) by (rewrite (dotc vk); ring). rewrite (OLD vk io). ring. }
    rewrite G. unfold at'. ring. }
  cbn [m_y m_v m_vold m_w m_wtt m_beta m_bt m_c m_s m_rho].
  refine (conj _ (conj _ (conj YP _))).
  - intros v' Ev. destruct (Reqb be 0) eqn:Eb; [discriminate|]. apply Reqb_false in Eb. injection Ev as <-. set (v' := v_scal v (1 / be) vh).
    assert (Bp : 0 < be) by lra.
    assert (VV : forall z, <<z, v'>> = <<z, vh>> / be) by (intros z; unfold v'; rewrite dot_scal; field; lra).
    assert (VB : forall z, be * <<z, v'>> = <<z, vh>>) by (intros z; rewrite VV; field; lra).
    assert (U' : <<v', v'>> = 1). { rewrite VV, dotc, VV, <- Be2. field. lra. }
    assert (O' : orth v' (vk :: L)). { intros u Hu. rewrite dotc, VV, dotc, VHO by auto. field. lra. }
    assert (BV : forall z, <<z, B vk>> = be * <<z, v'>> + al * <<z, vk>> + b0 * <<z, vold>>). { intros z. rewrite VB, VH. ring. }
    assert (O1 : orth v' L) by (intros u Hu; apply O'; right; auto).
    assert (BW : forall z, <<z, B w'>> = c' * <<z, q>> + s' * <<z, v'>>). { intros z. rewrite BW0, <- VB. unfold c', s'. field. lra. }
    set (q' := axpy v s' q (v_scal v (- c') v')).
    assert (Q' : forall z, <<z, q'>> = s' * <<z, q>> - c' * <<z, v'>>). { intros z. unfold q'. rewrite dot_axpy, dot_scal. ring. }
    assert (QV' : <<q, v'>> = 0). { rewrite VV, QVH. field. lra. }
    assert (T3 : forall u, In u (vk :: L) -> <<v', B u>> = be * <<vk, u>>).
    { intros u [<-|Hu].
      - rewrite BV, U', iu, (O' vk (or_introl eq_refl)), (OLD v' O1). ring.
      - rewrite (ik v' O' u Hu), (io u Hu). ring. }
    assert (K' : forall z, orth z (v' :: vk :: L) -> forall u, In u (vk :: L) -> <<z, B u>> = 0).
    { intros z Hz. assert (Z1 : orth z (vk :: L)) by (intros u Hu; apply Hz; right; auto). intros u [<-|Hu].
      - rewrite BV, (Hz v' (or_introl eq_refl)), (Z1 vk (or_introl eq_refl)), OLD; [ring|]. intros u Hu. apply Z1. right. auto.
      - apply ik; auto. }
    assert (PL : forall z, perp (S (length L)) z -> orth z (vk :: L)).
    { intros z Hz u [<-|Hu]; [apply D1v; auto|]. apply D1; auto. apply (perp_le _ _ _ (Nat.le_succ_diag_r _) Hz). }
    assert (D1' : forall z, perp (S (S (length L))) z -> <<z, v'>> = 0).
    { intros z Hz. pose proof (PL z (perp_le _ _ _ (Nat.le_succ_diag_r _) Hz)) as Z1.
      rewrite VV, VH, Bsym, (D1v _ (perp_B _ _ Hz)), (Z1 vk (or_introl eq_refl)), OLD; [field; lra|]. intros u Hu. apply Z1. right. auto. }
    exists q'. constructor; cbn [m_y m_v m_vold m_w m_wtt m_beta m_bt m_c m_s m_rho length].
    + exact U'.
    + exact O'.
    + intros u [<-|Hu]; auto.
    + exact K'.
    + exact T3.
    + right. left. reflexivity.
    + exact CS.
    + exact Q'.
    + exact BW.
    + intros z. fold s w c. rewrite Bsym, dot_axpy, <- !Bsym, iw, iq. assert (C2 : c * c = 1 - s * s) by lra.
      replace (<<z, B v'>> - be * <<z, vk>> - c * be * (s * <<z, qold>> - c * <<z, vk>>)) with (<<z, B v'>> - be * <<z, vk>> - c * be * s * <<z, qold>> + (c * c) * be * <<z, vk>>) by ring.
      rewrite C2. ring.
    + intros z. rewrite res_axpy, ires, BW, Q'. fold rho. assert (C2 : c' * c' = 1 - s' * s') by lra.
      replace (rho * c' * (c' * <<z, q>> + s' * <<z, v'>>)) with (rho * (c' * c') * <<z, q>> + rho * c' * s' * <<z, v'>>) by ring. rewrite C2. ring.
    + rewrite Q', (dotc q'), Q', (dotc q' v'), Q', iqq, (dotc v' q), QV', U'. transitivity (c' * c' + s' * s'); [ring|exact CS].
    + intros z Hz. rewrite Q', (Hz v' (or_introl eq_refl)), iqo; [ring|]. intros u Hu. apply Hz. right. auto.
    + assert (0 < s') by (unfold s'; apply Rdiv_lt_0_compat; auto). apply Rmult_lt_0_compat; auto.
    + exact PL.
    + exact D1'.
    + exact D2v.
    + intros z Hz i Hi. assert (Z1 : orth z (vk :: L)) by (intros u Hu; apply Hz; right; auto).
      destruct (Nat.eq_dec i 0) as [->|Ni]; [apply (D2v z Z1); lia|]. destruct i as [|i]; [lia|].
      change (power B (S i) r0) with (B (power B i r0)). rewrite Bsym. refine (D2v (B z) _ i _); [|lia].
      intros u Hu. rewrite <- Bsym. apply K'; auto.
    + exact YP.
    + intros z Hz. fold rho c. rewrite (W z Hz). split; ring.
    + intros z Hz. rewrite dot_axpy, (D1' z Hz). fold s. destruct (iws z (perp_le _ _ _ (Nat.le_trans _ _ _ (Nat.le_succ_diag_r _) (Nat.le_succ_diag_r _)) Hz)) as [H1 _].
      replace (0 + - (s * be) * <<z, w>>) with (- be * (s * <<z, w>>)) by ring. fold w. rewrite H1. ring.
    + rewrite dot_axpy, U'. fold s w. destruct (iws v' (D2 v' O1)) as [H1 _]. replace (1 + - (s * be) * <<v', w>>) with (1 - be * (s * <<v', w>>)) by ring. rewrite H1. ring.
    + intros u Hu. rewrite dotc, Q', (dotc (B u) q), (dotc (B u) v'), (T3 u Hu). destruct Hu as [<-|Hu].
      * rewrite QB, iu, AC, BS. ring.
      * rewrite (iE u Hu), (io u Hu). ring.
    + rewrite QV'. ring.
    + fold c. rewrite QV. ring.
  - intros Ev. destruct (Reqb be 0) eqn:Eb; [|discriminate]. apply Reqb_true in Eb.
    assert (Z : forall z, <<z, vh>> = 0) by (apply null; rewrite <- Be2, Eb; ring).
    assert (Sz : s' = 0) by (unfold s'; rewrite Eb; field; lra). split.
    + rewrite Sz. ring.
    + intros z. rewrite res_axpy, ires, BW0, Z. fold rho. assert (C1 : c' * c' = 1) by (rewrite Sz in CS; lra).
      replace (rho * <<z, q>> - rho * c' * (1 / l0 * (at' * <<z, q>> + 0))) with (rho * <<z, q>> - rho * (c' * (at' / l0)) * <<z, q>>) by (field; lra).
      change (at' / l0) with c'. rewrite C1. ring.
  - split; [apply Rmult_le_pos; lra|]. change (s' * rho <= rho). nra.
Qed.

(** The first Lanczos vector for which no step is possible. *)
Lemma step_none st vk q qold L : nondegenerate v B -> inv st vk q qold L -> minStep v A Ks st vk <> None.
Proof.
  intros ND I. unfold minStep. set (vh1 := axpy v (- m_beta st) (m_vold st) (B vk)). set (al := <<vk, vh1>>). set (vh := axpy v (- al) vk vh1).
  set (be := sqrt <<vh, vh>>). set (at' := - m_s st * m_bt st - m_c st * al). set (l0 := sqrt (at' * at' + be * be)).
  destruct (Reqb l0 0) eqn:El; [|discriminate]. apply Reqb_true in El. intros _.
  assert (Pv : 0 <= <<vh, vh>>) by apply PD. assert (Be2 : be * be = <<vh, vh>>) by (apply sqrt_sqrt; auto).
  assert (L2 : l0 * l0 = at' * at' + be * be) by (apply sqrt_sqrt; nra). rewrite El in L2. assert (A0 : at' = 0) by nra. assert (B0 : be = 0) by nra.
  assert (Z : forall z, <<z, vh>> = 0) by (apply null; rewrite <- Be2, B0; ring).
  destruct I as [iu io iuL ik i3 iold ics iq iw iwtt ires iqq iqo irho D1 D1v D2 D2v iy iws iwtp ivw iE iG iH].
  set (c := m_c st) in *. set (s := m_s st) in *. set (bt := m_bt st) in *. set (b0 := m_beta st) in *.
  set (vold := m_vold st) in *. set (w := m_w st) in *. set (wtt := m_wtt st) in *.
  set (l1 := s * al - c * bt).
  assert (VH : forall z, <<z, vh>> = <<z, B vk>> - b0 * <<z, vold>> - al * <<z, vk>>). { intros z. unfold vh, vh1. rewrite !dot_axpy. ring. }
  assert (BW : forall z, <<z, B (axpy v (- l1) w wtt)>> = 0).
  { intros z. replace 0 with (at' * <<z, q>> + <<z, vh>>) by (rewrite A0, Z; ring).
    rewrite Bsym, dot_axpy, <- !Bsym, iw, iwtt, VH, iq. unfold l1, at'. assert (C2 : c * c = 1 - s * s) by lra.
    replace (<<z, B vk>> - b0 * <<z, vold>> - bt * <<z, qold>> + - (s * al - c * bt) * (c * <<z, qold>> + s * <<z, vk>>))
      with (<<z, B vk>> - b0 * <<z, vold>> - bt * <<z, qold>> - s * s * al * <<z, vk>> + s * bt * c * <<z, vk>> - s * al * c * <<z, qold>> + (c * c) * bt * <<z, qold>>) by ring.
    rewrite C2. replace ((- s * bt - c * al) * (s * <<z, qold>> - c * <<z, vk>>)) with (- s * s * bt * <<z, qold>> + s * bt * c * <<z, vk>> - c * al * s * <<z, qold>> + (c * c) * al * <<z, vk>>) by ring.
    rewrite C2. ring. }
  pose proof (ND _ BW vk) as F. rewrite dot_axpy, ivw in F. destruct (iws vk (D2 vk io)) as [H1 H2]. unfold l1 in F.
  replace (1 + - (s * al - c * bt) * <<vk, w>>) with (1 - al * (s * <<vk, w>>) + c * (bt * <<vk, w>>)) in F by ring. rewrite H1, H2 in F. lra.
Qed.
End P.
