From Coq Require Import Reals ZArith List Bool Arith Lra Lia.
From Verif Require Import XR_Model XR_Facts VecOps LinSolve_Model LinSolve_Spec LinSolve_Proofs3 Minres_Model Minres_Spec Minres_Proofs.
Import ListNotations.
Open Scope R_scope.

Section P.
Context {V : Type} (v : VectorOps V) (A K Ks : V -> V) (kill : nat -> bool) (VL : vector_laws v) (PD : semidefinite v)
  (SA : symmetric v A) (SK : symmetric v Ks).
Notation "<< x , y >>" := (v_dot v x y) (at level 0, x at level 99, y at level 99).
Notation B := (scaled A Ks).
Context (b x : V).
Notation r0 := (startRes v A Ks b x).
Notation perp := (perp v A Ks b x).
Notation res := (res v A Ks b).

Definition entryOK (k : nat) (e : V * R) : Prop :=
  0 <= snd e /\ (forall z, perp k z -> <<z, fst e>> = <<z, x>>) /\
  exists q, (forall z, res (fst e) z = snd e * <<z, q>>) /\ snd e * snd e * <<q, q>> = snd e * snd e /\ perp k (B q).
Definition good (tr : list (V * R)) : Prop :=
  (forall k e, nth_error tr k = Some e -> entryOK k e) /\
  (forall i j e f, nth_error tr i = Some e -> nth_error tr j = Some f -> (i <= j)%nat -> snd f <= snd e).
Definition linv (st : Mst V) (n : nat) : Prop :=
  match m_v st with
  | Some vk => exists q qold L, inv v A Ks b x st vk q qold L /\ length L = n
  | None => m_rho st = 0 /\ (forall z, res (m_y st) z = 0) /\ (forall z, perp n z -> <<z, m_y st>> = <<z, x>>) end.

Lemma linv_entry st n : linv st n -> entryOK n (m_y st, m_rho st).
Proof using VL PD SA SK.
  unfold linv, entryOK. destruct (m_v st) as [vk|]; cbn [fst snd].
  - intros (q & qold & L & I & <-). split; [apply Rlt_le, (i_rho _ _ _ _ _ _ _ _ _ _ I)|]. split; [apply (i_y _ _ _ _ _ _ _ _ _ _ I)|].
    exists q. split; [apply (i_res _ _ _ _ _ _ _ _ _ _ I)|]. split; [rewrite (i_qq _ _ _ _ _ _ _ _ _ _ I); ring|].
    apply (i_D2 _ _ _ _ _ _ _ _ _ _ I). intros u Hu. rewrite <- (Bsym v A Ks SA SK). apply (i_E _ _ _ _ _ _ _ _ _ _ I u Hu).
  - intros (R0 & Z & Y). rewrite R0. split; [lra|]. split; [exact Y|]. exists (v_zero v). split; [intros z; rewrite Z; ring|]. split; [ring|].
    intros i _. rewrite <- (Bsym v A Ks SA SK). apply (zero_dot v VL).
Qed.
Lemma good_snoc tr e f : good (tr ++ [e]) -> entryOK (S (length tr)) f -> snd f <= snd e -> good ((tr ++ [e]) ++ [f]).
Proof using Type.
  intros [G1 G2] F Le. assert (Len : length (tr ++ [e]) = S (length tr)) by (rewrite app_length; cbn; lia).
  assert (LE : nth_error (tr ++ [e]) (length tr) = Some e) by (rewrite nth_error_app2, Nat.sub_diag by lia; reflexivity).
  assert (C : forall k g, nth_error ((tr ++ [e]) ++ [f]) k = Some g -> (nth_error (tr ++ [e]) k = Some g /\ (k <= length tr)%nat) \/ (k = S (length tr) /\ g = f)).
  { intros k g H. destruct (lt_dec k (S (length tr))) as [Lk|Lk].
    - left. rewrite nth_error_app1 in H by lia. split; [auto|lia].
    - right. rewrite nth_error_app2 in H by lia. rewrite Len in H. destruct (k - S (length tr))%nat as [|j] eqn:Ej; cbn in H; [injection H as <-; split; [lia|auto]|]. destruct j; discriminate. }
  split.
  - intros k g H. destruct (C k g H) as [[H1 _]|[-> ->]]; auto.
  - intros i j g h Hi Hj Lij. destruct (C i g Hi) as [[Hi1 Li]|[-> ->]], (C j h Hj) as [[Hj1 Lj]|[-> ->]]; try lia; try lra.
    + apply (G2 i j); auto.
    + apply (Rle_trans _ _ _ Le). apply (G2 i (length tr) g e); auto.
Qed.

Lemma linv_step st n vk st' : linv st n -> m_v st = Some vk -> minStep v A Ks st vk = Some st' -> linv st' (S n) /\ m_rho st' <= m_rho st.
Proof using VL PD SA SK.
  unfold linv. intros I E S1. rewrite E in I. destruct I as (q & qold & L & I & <-).
  destruct (step_some v A Ks VL PD SA SK b x st vk q qold L st' I S1) as (P1 & P2 & P3 & P4). split; [|apply P4].
  destruct (m_v st') as [v'|].
  - destruct (P1 v' eq_refl) as (q' & I'). exists q', q, (vk :: L). auto.
  - destruct (P2 eq_refl) as [H1 H2]. auto.
Qed.
Lemma linv_init : let rho := sqrt <<r0, r0>> in let vv := v_scal v (1 / rho) r0 in
  linv (MS x (if Reqb rho 0 then None else Some vv) x x vv 0 0 (-1) 0 rho) 0.
Proof using VL PD SA SK.
  intros rho vv. pose proof (PD r0) as P. unfold sq in P. unfold linv. cbn [m_v]. destruct (Reqb rho 0) eqn:E.
  - apply Reqb_true in E. cbn [m_rho m_y]. split; [exact E|]. split; [|auto]. intros z. rewrite <- (startRes_res v A Ks VL SK). apply (null v VL PD).
    unfold rho in E. apply sqrt_eq_0 in E; auto.
  - apply Reqb_false in E. exists vv, (v_scal v (-1) (B x)), []. split; [|reflexivity].
    pose proof (inv_init v A Ks VL PD SK b x) as I. cbv zeta in I. fold rho in I. fold vv in I.
    assert (N : <<r0, r0>> <> 0) by (intros N; apply E; unfold rho; rewrite N; apply sqrt_0). specialize (I N).
    destruct I. constructor; assumption.
Qed.

Lemma runOut_le k : forall iter, (iter <= runOut kill k iter <= iter + k)%nat.
Proof using Type. induction k as [|k IH]; intros iter; cbn [runOut]; [lia|]. destruct (kill iter); [lia|]. specialize (IH (S iter)). lia. Qed.

Definition tail_ok (p : MParams) (rKr : R) (out : Mout V) : Prop := exists tr1 e, mo_trace out = tr1 ++ [e] /\
  (forall s, mo_state out = Some s -> s = Ks (fst e)) /\
  (mo_conv out = true -> mo_state out = Some (Ks (fst e)) /\ xltb (mRelErr (snd e) rKr) (Fin (mp_tol p)) = true).
Lemma loop_good p rKr k : forall iter st errPrev consec tr0 n, linv st n -> length tr0 = n -> good (tr0 ++ [(m_y st, m_rho st)]) ->
  let out := minLoop v A Ks kill p k iter rKr st errPrev consec (tr0 ++ [(m_y st, m_rho st)]) in
  good (mo_trace out) /\ tail_ok p rKr out /\ (iter <= mo_iter out <= iter + k)%nat /\
  (exists l, mo_trace out = (tr0 ++ [(m_y st, m_rho st)]) ++ l).
Proof using VL PD SA SK.
  induction k as [|k IH]; intros iter st errPrev consec tr0 n I Ln G out; unfold out; clear out; cbn [minLoop].
  { cbn [mo_trace mo_iter]. split; [exact G|]. split; [|split; [lia|exists []; symmetry; apply app_nil_r]].
    exists tr0, (m_y st, m_rho st). cbn. split; [reflexivity|]. split; [intros s [= <-]; reflexivity|discriminate]. }
  destruct (kill iter) eqn:Ki.
  { cbn [mo_trace mo_iter]. split; [exact G|]. split; [|split; [lia|exists []; symmetry; apply app_nil_r]].
    exists tr0, (m_y st, m_rho st). cbn. split; [reflexivity|]. split; [intros s [= <-]; reflexivity|discriminate]. }
  assert (NO : forall out, out = MO false (runOut kill (S k) iter) None (tr0 ++ [(m_y st, m_rho st)]) -> good (mo_trace out) /\ tail_ok p rKr out /\ (iter <= mo_iter out <= iter + S k)%nat /\
    (exists l, mo_trace out = (tr0 ++ [(m_y st, m_rho st)]) ++ l)).
  { intros out ->. cbn [mo_trace mo_iter]. split; [exact G|]. split; [|split; [apply runOut_le|exists []; symmetry; apply app_nil_r]].
    exists tr0, (m_y st, m_rho st). cbn [mo_trace mo_state mo_conv]. split; [reflexivity|]. split; discriminate. }
  destruct (m_v st) as [vk|] eqn:Ev; [|apply NO; reflexivity].
  destruct (minStep v A Ks st vk) as [st'|] eqn:Es; [|apply NO; reflexivity]. clear NO. cbv zeta.
  destruct (linv_step st n vk st' I Ev Es) as [I' Le]. pose proof (linv_entry st' (S n) I') as EO. rewrite <- Ln in EO.
  pose proof (good_snoc tr0 (m_y st, m_rho st) (m_y st', m_rho st') G EO Le) as G'. set (tr := tr0 ++ [(m_y st, m_rho st)]) in *.
  destruct (xltb (mRelErr (m_rho st') rKr) (Fin (mp_tol p))) eqn:C.
  { cbn [mo_trace mo_iter]. split; [exact G'|]. split; [|split; [lia|eexists; reflexivity]].
    exists tr, (m_y st', m_rho st'). cbn. split; [reflexivity|]. split; [intros s [= <-]; reflexivity|auto]. }
  set (cons' := if xltb _ _ then S consec else 0%nat). destruct (Nat.leb 2 cons').
  { cbn [mo_trace mo_iter]. split; [exact G'|]. split; [|split; [lia|eexists; reflexivity]].
    exists tr, (m_y st', m_rho st'). cbn. split; [reflexivity|]. split; [intros s [= <-]; reflexivity|discriminate]. }
  destruct (IH (S iter) st' (mRelErr (m_rho st') rKr) cons' tr (S n) I') as (H1 & H2 & H3 & l & H4).
  { unfold tr. rewrite app_length. cbn. lia. } { exact G'. }
  split; [exact H1|]. split; [exact H2|]. split; [lia|]. exists ((m_y st', m_rho st') :: l). rewrite H4, <- app_assoc. reflexivity.
Qed.

Theorem minres_good p : let out := MINRES v A K Ks kill p b x in
  good (mo_trace out) /\ tail_ok p <<b, K b>> out /\ (mo_iter out <= Z.to_nat (mp_nIter p))%nat /\ nth_error (mo_trace out) 0 = Some (x, sqrt <<r0, r0>>).
Proof using VL PD SA SK.
  cbv zeta. unfold MINRES. set (rho := sqrt <<r0, r0>>). set (vv := v_scal v (1 / rho) r0). set (st := MS x _ x x vv 0 0 (-1) 0 rho).
  pose proof linv_init as I. cbv zeta in I. fold rho in I. fold vv in I. fold st in I.
  destruct (loop_good p <<b, K b>> (Z.to_nat (mp_nIter p)) 0 st (mRelErr rho <<b, K b>>) 0 [] 0 I eq_refl) as (H1 & H2 & H3 & l & H4).
  { split.
    - intros k e H. destruct k as [|k]; [|destruct k; discriminate]. injection H as <-. apply (linv_entry st 0 I).
    - intros i j e f Hi Hj _. destruct i as [|i]; [|destruct i; discriminate]. destruct j as [|j]; [|destruct j; discriminate]. injection Hi as <-. injection Hj as <-. lra. }
  cbn [app] in *. change [(m_y st, m_rho st)] with [(x, rho)] in *. split; [exact H1|]. split; [exact H2|]. split; [lia|]. rewrite H4. reflexivity.
Qed.

(** consequences *)
Lemma entry_norm k e : entryOK k e -> snd e * snd e = sq v (scaledRes v A Ks b (fst e)).
Proof using VL SA SK.
  intros (_ & _ & q & H1 & H2 & _). unfold sq. rewrite (scaledRes_res v A Ks VL SK), H1, (dotc v VL), (scaledRes_res v A Ks VL SK), H1. rewrite <- H2. ring.
Qed.
Lemma power_res i : forall z, <<z, power B i (scaledRes v A Ks b x)>> = <<z, power B i r0>>.
Proof using VL SA SK.
  induction i as [|i IH]; intros z.
  - cbn. rewrite (scaledRes_res v A Ks VL SK), (startRes_res v A Ks VL SK). reflexivity.
  - change (<<z, B (power B i (scaledRes v A Ks b x))>> = <<z, B (power B i r0)>>). rewrite !(Bsym v A Ks SA SK). apply IH.
Qed.
Lemma dot_vsum f n z : (forall i, (i < n)%nat -> <<z, f i>> = 0) -> <<z, vsum v f n>> = 0.
Proof using VL.
  induction n as [|n IH]; intros H; cbn [vsum]; [apply (dot_zero v VL)|]. rewrite (vl_dot_add _ VL), IH, (H n) by (intros; try apply H; lia). ring.
Qed.
Lemma entry_min k e a : entryOK k e -> snd e * snd e <= sq v (scaledRes v A Ks b (krylov v B x (scaledRes v A Ks b x) a k)).
Proof using VL PD SA SK.
  intros (_ & Y & q & H1 & H2 & H3). set (Z := krylov _ _ _ _ _ _). set (r := scaledRes v A Ks b Z). pose proof (PD (axpy v (- snd e) q r)) as P. unfold sq in *.
  assert (Q : <<q, r>> = snd e * <<q, q>>).
  { unfold r. rewrite (scaledRes_res v A Ks VL SK), <- H1. unfold Minres_Proofs.res. f_equal. f_equal. rewrite !(Bsym v A Ks SA SK), (Y _ H3). unfold Z, krylov.
    rewrite (vl_dot_add _ VL), dot_vsum; [ring|]. intros i Hi. rewrite (dot_scal v VL), power_res, H3 by auto. ring. }
  rewrite (dot_axpy v VL), !(axpy_dot v VL), (dotc v VL r q), Q in P. fold r. nra.
Qed.

(** finite termination *)
Lemma iters_ok n (L : list V) : dimension_le v n -> ForallOrdPairs (fun a c => <<a, c>> = 0) L -> (forall u, In u L -> <<u, u>> = 1) -> (length L <= n)%nat.
Proof using VL.
  intros D O U. rewrite <- (map_length (fun u => mkIt u u 0) L). apply (independent v (fun u => u) (fun _ => false) VL (fun _ _ => eq_refl) n (map (fun u => mkIt u u 0) L) D).
  - induction L as [|u L IH]; cbn [map]; [constructor|]. inversion O as [|? ? F O']; subst. constructor; [|apply IH; auto; intros; apply U; right; auto].
    apply Forall_map. eapply Forall_impl; [|exact F]. intros w Hw. cbn. rewrite (dotc v VL). exact Hw.
  - intros i Hi. apply in_map_iff in Hi. destruct Hi as (u & <- & Hu). cbn. rewrite (U u Hu). lra.
Qed.
Lemma err_fin rho rKr : rKr <> 0 -> mRelErr rho rKr = Fin (rho / sqrt (Rabs rKr)).
Proof using Type. intros H. unfold mRelErr, xdiv. pose proof (sqrt_lt_R0 _ (Rabs_pos_lt _ H)). destruct (Req_EM_T _ 0); [lra|reflexivity]. Qed.
Lemma loop_conv p rKr n k : (forall i, kill i = false) -> nondegenerate v B -> dimension_le v n -> 0 < mp_tol p -> mp_diff p <= 0 -> rKr <> 0 ->
  forall iter st vk q qold L consec tr, m_v st = Some vk -> inv v A Ks b x st vk q qold L -> ForallOrdPairs (fun a c => <<a, c>> = 0) (vk :: L) -> (n <= k + length L)%nat ->
  mo_conv (minLoop v A Ks kill p k iter rKr st (mRelErr (m_rho st) rKr) consec tr) = true.
Proof using VL PD SA SK.
  intros NK ND D T Df Nr. induction k as [|k IH]; intros iter st vk q qold L consec tr Ev I O Lk.
  { exfalso. assert (length (vk :: L) <= n)%nat; [|cbn in *; lia]. apply (iters_ok n _ D O). intros u [<-|Hu]; [apply (i_unit _ _ _ _ _ _ _ _ _ _ I)|apply (i_unitL _ _ _ _ _ _ _ _ _ _ I u Hu)]. }
  cbn [minLoop]. rewrite NK, Ev. destruct (minStep v A Ks st vk) as [st'|] eqn:Es; [|exfalso; exact (step_none v A Ks VL PD SA SK b x st vk q qold L ND I Es)].
  destruct (step_some v A Ks VL PD SA SK b x st vk q qold L st' I Es) as (P1 & P2 & P3 & P4). cbv zeta.
  pose proof (sqrt_lt_R0 _ (Rabs_pos_lt _ Nr)) as Sp.
  destruct (xltb (mRelErr (m_rho st') rKr) (Fin (mp_tol p))) eqn:C; [reflexivity|].
  rewrite err_fin in C by auto. set (sr := sqrt (Rabs rKr)) in *.
  assert (NC : ~ m_rho st' / sr < mp_tol p) by (intros H; apply xltb_fin in H; congruence).
  assert (Rp : 0 < m_rho st' / sr) by lra.
  destruct (m_v st') as [v'|] eqn:Ev'.
  2:{ exfalso. destruct (P2 eq_refl) as [R0 _]. rewrite R0 in Rp. unfold Rdiv in Rp. lra. }
  destruct (P1 v' eq_refl) as (q' & I').
  assert (X : xltb (xdiv (xsub (mRelErr (m_rho st) rKr) (mRelErr (m_rho st') rKr)) (mRelErr (m_rho st') rKr)) (Fin (mp_diff p)) = false).
  { rewrite !err_fin by auto. fold sr. cbn [xsub xopp xadd]. unfold xdiv. destruct (Req_EM_T _ 0) as [Z|Z]; [lra|].
    assert (N : ~ (m_rho st / sr + - (m_rho st' / sr)) / (m_rho st' / sr) < mp_diff p).
    { apply Rle_not_lt. apply (Rle_trans _ 0); [lra|]. apply Rmult_le_pos; [|apply Rlt_le, Rinv_0_lt_compat; auto].
      assert (m_rho st' / sr <= m_rho st / sr) by (apply Rmult_le_compat_r; [apply Rlt_le, Rinv_0_lt_compat; auto|apply P4]). lra. }
    apply Bool.not_true_is_false. intros Y. apply N. apply xltb_fin. exact Y. }
  rewrite X. cbn [Nat.leb]. apply (IH (S iter) st' v' q' q (vk :: L)); auto.
  - constructor; [|exact O]. apply Forall_forall. apply (i_orth _ _ _ _ _ _ _ _ _ _ I').
  - cbn [length]. lia.
Qed.
Theorem minres_conv p n : (forall i, kill i = false) -> nondegenerate v B -> dimension_le v n -> 0 < mp_tol p -> mp_diff p <= 0 -> <<b, K b>> <> 0 ->
  sq v (scaledRes v A Ks b x) <> 0 -> (Z.of_nat n <= mp_nIter p)%Z -> mo_conv (MINRES v A K Ks kill p b x) = true.
Proof using VL PD SA SK.
  intros NK ND D T Df Nr N0 Ln. unfold MINRES. set (rho := sqrt <<r0, r0>>). set (vv := v_scal v (1 / rho) r0).
  assert (E : <<r0, r0>> = sq v (scaledRes v A Ks b x)).
  { unfold sq. rewrite (startRes_res v A Ks VL SK), (scaledRes_res v A Ks VL SK), <- !(scaledRes_res v A Ks VL SK), (dotc v VL), (startRes_res v A Ks VL SK), <- (scaledRes_res v A Ks VL SK). reflexivity. }
  assert (N : <<r0, r0>> <> 0) by (rewrite E; exact N0). assert (Rn : Reqb rho 0 = false). { apply Reqb_false. unfold rho. intros H. apply sqrt_eq_0 in H; [auto|apply PD]. }
  rewrite Rn. pose proof (inv_init v A Ks VL PD SK b x N) as I. cbv zeta in I. fold rho in I. fold vv in I.
  apply (loop_conv p <<b, K b>> n (Z.to_nat (mp_nIter p)) NK ND D T Df Nr 0 (MS x (Some vv) x x vv 0 0 (-1) 0 rho) vv vv (v_scal v (-1) (B x)) [] 0 [(x, rho)] eq_refl I).
  - constructor; constructor.
  - cbn [length]. lia.
Qed.
End P.
