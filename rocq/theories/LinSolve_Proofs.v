(** Proofs about the linear solvers (C12, C13). *)
From Coq Require Import Reals ZArith List Bool Arith Lia Lra.
From Verif Require Import XR_Model XR_Facts VecOps LinSolve_Model LinSolve_Spec.
Import ListNotations.
Open Scope R_scope.

Section S.
Context {V : Type} (v : VectorOps V) (A K : V -> V) (kill : nat -> bool).
Hypothesis laws : vector_laws v.
Hypothesis lin : linear v A.

Lemma sz x : v_scal v 0 x = v_zero v. Proof. apply (vl_scal_zero v laws). Qed.
Lemma addA x y z : v_add v x (v_add v y z) = v_add v (v_add v x y) z. Proof. apply (vl_add_assoc v laws). Qed.
Lemma addC x y : v_add v x y = v_add v y x. Proof. apply (vl_add_comm v laws). Qed.

(** rhs - A (x + a d) = (rhs - A x) - a A d *)
Lemma res_step rhs x a d : residual v A rhs (axpy v a d x) = axpy v (- a) (A d) (residual v A rhs x).
Proof.
  destruct lin as (La&Ls). unfold residual, axpy. rewrite La, Ls, (vl_scal_add v laws), <- (vl_scal_mult v laws).
  replace (-1 * a) with (- a) by ring. apply addA.
Qed.
Lemma res0_step b x a d : residual0 v A b (axpy v a d x) = axpy v (- a) (A d) (residual0 v A b x).
Proof.
  destruct lin as (La&Ls). unfold residual0, axpy. rewrite La, Ls, !(vl_scal_add v laws), <- (vl_scal_mult v laws).
  replace (-1 * a) with (- a) by ring.
  rewrite <- !addA. f_equal. apply addC.
Qed.
Lemma negRes_res0 b x : negRes v A b x = residual0 v A b x.
Proof. unfold negRes, residual0, axpy. rewrite (vl_scal_one v laws). reflexivity. Qed.
Lemma undo_axpy a d x : axpy v (- a) d (axpy v a d x) = x.
Proof.
  unfold axpy. rewrite <- addA, <- (vl_scal_plus v laws). replace (a + - a) with 0 by ring. rewrite sz. apply (vl_add_zero v laws).
Qed.

Lemma runOut_le k : forall iter, (runOut kill k iter <= iter + k)%nat.
Proof. induction k as [|k IH]; intros iter; cbn; [lia|]. destruct (kill iter); [lia|]. specialize (IH (S iter)). lia. Qed.

(** *** LinearSolvable::solve *)
Definition Good (res : V -> V) (it : Iterate V) : Prop := it_r it = res (it_x it) /\ it_rz it = v_dot v (res (it_x it)) (K (res (it_x it))).
Lemma good_app res tr it : (forall i, In i tr -> Good res i) -> Good res it -> forall i, In i (tr ++ [it]) -> Good res i.
Proof. intros H G i Hi. apply in_app_or in Hi. destruct Hi as [Hi|[<-|[]]]; auto. Qed.

Lemma solveLoop_spec nDim thr rhs k : forall iter x r z d rz rzP tr, let res := residual v A rhs in
  r = res x -> z = K r -> rz = v_dot v r z -> (forall i, In i tr -> Good res i) ->
  let out := solveLoop v A K kill k iter nDim thr x r z d rz rzP tr in
  true_residuals v K res out /\ (so_iter out <= iter + k)%nat /\
  (so_conv out = true -> exists y, so_state out = Some y /\ rzNorm nDim (rz_of v K res y) < thr).
Proof.
  induction k as [|k IH]; intros iter x r z d rz rzP tr res Hr Hz Hrz G; cbn [solveLoop].
  - cbn. split; [exact G|]. split; [lia|discriminate].
  - destruct (kill iter). { cbn. split; [exact G|]. split; [lia|discriminate]. }
    set (d1 := if Reqb rzP 0 then _ else _). destruct (Reqb (v_dot v (A d1) d1) 0).
    { cbn [so_trace so_iter so_conv so_state]. split; [exact G|]. split; [|discriminate]. pose proof (runOut_le (S k) iter). lia. }
    set (al := rz / _). set (x1 := axpy v al d1 x). set (r1 := axpy v (- al) (A d1) r).
    assert (R1 : r1 = res x1) by (unfold r1, x1; rewrite Hr; symmetry; apply res_step).
    assert (G1 : forall i, In i (tr ++ [mkIt x1 r1 (v_dot v r1 (K r1))]) -> Good res i).
    { apply good_app; auto. split; cbn; rewrite <- R1; auto. }
    destruct (Rltb (rzNorm nDim (v_dot v r1 (K r1))) thr) eqn:C.
    + cbn. split; [exact G1|]. split; [lia|]. intros _. exists x1. split; auto. unfold rz_of. rewrite <- R1. apply Rltb_true. auto.
    + destruct (IH (S iter) x1 r1 (K r1) d1 (v_dot v r1 (K r1)) rz (tr ++ [mkIt x1 r1 (v_dot v r1 (K r1))]) R1 eq_refl eq_refl G1) as (H1&H2&H3).
      split; [exact H1|]. split; [lia|exact H3].
Qed.

Theorem solve_spec nIter nDim thr rhs x : let out := solve v A K kill nIter nDim thr rhs x in let res := residual v A rhs in
  true_residuals v K res out /\ (so_iter out <= Z.to_nat nIter)%nat /\
  (so_conv out = true -> exists y, so_state out = Some y /\ rzNorm nDim (rz_of v K res y) < thr).
Proof.
  intros out res. unfold out, solve. clear out.
  change (axpy v (-1) (A x) rhs) with (res x). 
  assert (G : forall i, In i [mkIt x (res x) (v_dot v (res x) (K (res x)))] -> Good res i).
  { intros i [<-|[]]. split; reflexivity. }
  destruct (Rltb _ thr) eqn:C.
  - cbn. split; [exact G|]. split; [lia|]. intros _. exists x. split; auto. apply Rltb_true. exact C.
  - apply solveLoop_spec; auto.
Qed.

(** *** LinearSolvableIndefinite::CG *)
Section I.
Variables (p : SolverParams) (b : V).
Let res := residual0 v A b.
Let rKr := v_dot v b (K b).
Let rz x := rz_of v K res x.

Lemma finish_trace iter x os oi tr : so_trace (V:=V) (finish iter x os oi tr) = tr. Proof. reflexivity. Qed.

Lemma cgLoop_spec k : forall iter x r z d rdz rdzP eP os ore oi cs tr,
  r = res x -> z = K r -> rdz = v_dot v r z -> (forall i, In i tr -> Good res i) ->
  let out := cgLoop v A K kill p k iter b rKr x r z d rdz rdzP eP os ore oi cs tr in
  true_residuals v K res out /\ (so_iter out <= iter + k)%nat /\
  (so_conv out = true -> exists y, so_state out = Some y /\ xltb (relErr (rz y) rKr) (Fin (sp_tol p)) = true).
Proof.
  induction k as [|k IH]; intros iter x r z d rdz rdzP eP os ore oi cs tr Hr Hz Hrz G; cbn [cgLoop].
  - cbn. split; [exact G|]. split; [lia|discriminate].
  - destruct (kill iter). { cbn. split; [exact G|]. split; [lia|discriminate]. }
    set (d1 := if Reqb rdzP 0 then _ else _). destruct (Reqb (v_dot v (A d1) d1) 0).
    { cbn [finish so_trace so_iter so_conv so_state]. split; [exact G|]. split; [|discriminate]. pose proof (runOut_le (S k) iter). lia. }
    set (al := rdz / _). set (x1 := axpy v al d1 x). set (r2 := if _ && _ && _ then _ else _).
    assert (R1 : r2 = res x1).
    { unfold r2. destruct (_ && _ && _); [apply negRes_res0|]. unfold x1. rewrite Hr. symmetry. apply res0_step. }
    assert (G1 : forall i, In i (tr ++ [mkIt x1 r2 (v_dot v r2 (K r2))]) -> Good res i).
    { apply good_app; auto. split; cbn; rewrite <- R1; auto. }
    destruct (xltb (relErr (v_dot v r2 (K r2)) rKr) (Fin (sp_tol p))) eqn:C.
    + cbn. split; [exact G1|]. split; [lia|]. intros _. exists x1. split; auto. unfold rz, rz_of. rewrite <- R1. auto.
    + destruct (if xltb eP _ then _ else _) as (((os'&ore')&oi')&cs').
      destruct (Nat.leb 3 cs' && negb (sp_bypass p)). { cbn. split; [exact G1|]. split; [lia|discriminate]. }
      match goal with |- context[cgLoop _ _ _ _ _ k ?a ?b0 ?c ?d0 ?e ?f ?g ?h ?i ?j ?l ?m ?n ?o0 ?q] =>
        destruct (IH a d0 e f g h i j l m n o0 q R1 eq_refl eq_refl G1) as (H1&H2&H3) end.
      split; [exact H1|]. split; [lia|exact H3].
Qed.
Theorem CG_spec x : let out := CG v A K kill p b x in
  true_residuals v K res out /\ (so_iter out <= Z.to_nat (sp_nIter p))%nat /\
  (so_conv out = true -> exists y, so_state out = Some y /\ xltb (relErr (rz y) rKr) (Fin (sp_tol p)) = true).
Proof.
  unfold CG. rewrite negRes_res0. fold (res x).
  assert (G : forall i, In i [mkIt x (res x) (v_dot v (res x) (K (res x)))] -> Good res i).
  { intros i [<-|[]]. split; reflexivity. }
  destruct (xltb _ _) eqn:C.
  - cbn. split; [exact G|]. split; [lia|]. intros _. exists x. split; auto.
  - apply cgLoop_spec; auto.
Qed.

(** *** The best iterate *)
Hypothesis Kpos : forall r, 0 <= v_dot v r (K r).
Hypothesis bK : rKr <> 0.

Lemma relErr_lt a c : 0 <= a -> 0 <= c -> (xltb (relErr a rKr) (relErr c rKr) = true <-> a < c).
Proof.
  intros Ha Hc. unfold relErr. cbn [xdiv].
  assert (P : 0 < Rabs rKr) by (apply Rabs_pos_lt; auto).
  destruct (Req_EM_T (Rabs rKr) 0); [lra|]. cbn [xsqrt]. rewrite (Rabs_right a), (Rabs_right c) by lra.
  assert (Qa : 0 <= a / Rabs rKr) by (apply Rmult_le_pos; [lra|left; apply Rinv_0_lt_compat; auto]).
  assert (Qc : 0 <= c / Rabs rKr) by (apply Rmult_le_pos; [lra|left; apply Rinv_0_lt_compat; auto]).
  destruct (Rlt_dec (a / Rabs rKr) 0); [lra|]. destruct (Rlt_dec (c / Rabs rKr) 0); [lra|]. rewrite xltb_fin. split; intros H.
  - apply sqrt_lt_0_alt in H. apply (Rmult_lt_compat_r (Rabs rKr)) in H; auto. unfold Rdiv in H. rewrite !Rmult_assoc, Rinv_l, !Rmult_1_r in H by lra. auto.
  - apply sqrt_lt_1; auto. apply Rmult_lt_compat_r; [apply Rinv_0_lt_compat|]; auto.
Qed.

(** Invariant: [xs] are the iterates so far, the last being the current one. *)
Definition Opt (xs : list V) (x : V) (os : option V) (ore : R) (oi : Z) (cs : nat) : Prop :=
  let first := hd x xs in
  (forall y, In y xs -> ore <= rz y \/ (rz x <= rz y /\ cs = O)) /\
  ((oi = 0%Z /\ (ore = rz first \/ ore = rz (nth 1 xs x))) \/
   ((0 < oi)%Z /\ exists y, In y xs /\ os = Some y /\ rz y = ore)).

Lemma cgLoop_best k : forall iter x r z d rdz rdzP eP os ore oi cs tr,
  r = res x -> z = K r -> rdz = v_dot v r z -> eP = relErr rdz rKr ->
  length tr = S iter -> (exists pre i, tr = pre ++ [i] /\ it_x i = x) ->
  Opt (map (it_x (V:=V)) tr) x os ore oi cs -> 
  let out := cgLoop v A K kill p k iter b rKr x r z d rdz rdzP eP os ore oi cs tr in
  let xs := map (it_x (V:=V)) (so_trace out) in
  so_conv out = false ->
  exists x' os' ore' oi' cs', (exists pre, xs = pre ++ [x']) /\ Opt xs x' os' ore' oi' cs' /\
    ((0 < oi')%Z -> so_state out = os').
Proof.
  induction k as [|k IH]; intros iter x r z d rdz rdzP eP os ore oi cs tr Hr Hz Hrz HeP Hlen Hlast HO; cbn [cgLoop].
  - cbn [finish so_trace so_conv so_state]. intros _. exists x, os, ore, oi, cs. split; [|split; auto].
    + destruct Hlast as (pre&i&->&<-). exists (map (it_x (V:=V)) pre). rewrite map_app. reflexivity.
    + intros Hp. apply Z.ltb_lt in Hp. rewrite Hp. reflexivity.
  - destruct (kill iter).
    { cbn [finish so_trace so_conv so_state]. intros _. exists x, os, ore, oi, cs. split; [|split; auto].
      + destruct Hlast as (pre&i&->&<-). exists (map (it_x (V:=V)) pre). rewrite map_app. reflexivity.
      + intros Hp. apply Z.ltb_lt in Hp. rewrite Hp. reflexivity. }
    set (d1 := if Reqb rdzP 0 then _ else _). destruct (Reqb (v_dot v (A d1) d1) 0).
    { cbn [finish so_trace so_conv so_state]. intros _. exists x, os, ore, oi, cs. split; [|split; auto].
      + destruct Hlast as (pre&i&->&<-). exists (map (it_x (V:=V)) pre). rewrite map_app. reflexivity.
      + intros Hp. apply Z.ltb_lt in Hp. rewrite Hp. reflexivity. }
    set (al := rdz / _). set (x1 := axpy v al d1 x). set (r2 := if _ && _ && _ then _ else _).
    assert (R1 : r2 = res x1).
    { unfold r2. destruct (_ && _ && _); [apply negRes_res0|]. unfold x1. rewrite Hr. symmetry. apply res0_step. }
    set (tr1 := tr ++ [mkIt x1 r2 (v_dot v r2 (K r2))]).
    assert (E1 : v_dot v r2 (K r2) = rz x1) by (unfold rz, rz_of; rewrite R1; auto).
    assert (E0 : rdz = rz x) by (unfold rz, rz_of; rewrite Hrz, Hz, Hr; auto).
    destruct (xltb (relErr (v_dot v r2 (K r2)) rKr) (Fin (sp_tol p))) eqn:C; [cbn; discriminate|].
    assert (Hx : In x (map (it_x (V:=V)) tr)). { destruct Hlast as (pre&i&->&<-). apply in_map. apply in_or_app. right. left. auto. }
    assert (U : axpy v (- al) d1 x1 = x) by apply undo_axpy.
    assert (CMP : xltb eP (relErr (v_dot v r2 (K r2)) rKr) = true <-> rz x < rz x1).
    { rewrite HeP, E0, E1. apply relErr_lt; apply Kpos. }
    assert (Xs1 : map (it_x (V:=V)) tr1 = map (it_x (V:=V)) tr ++ [x1]) by (unfold tr1; rewrite map_app; reflexivity).
    assert (Hd1 : hd x1 (map (it_x (V:=V)) tr1) = hd x (map (it_x (V:=V)) tr)).
    { rewrite Xs1. destruct tr; [cbn in Hlen; discriminate|reflexivity]. }
    assert (Nth1 : iter <> 0%nat -> nth 1 (map (it_x (V:=V)) tr1) x1 = nth 1 (map (it_x (V:=V)) tr) x).
    { intros Hi. rewrite Xs1. rewrite app_nth1 by (rewrite map_length, Hlen; lia). apply nth_indep. rewrite map_length, Hlen. lia. }
    assert (Nth0 : iter = 0%nat -> nth 1 (map (it_x (V:=V)) tr) x = x).
    { intros Hi. apply nth_overflow. rewrite map_length, Hlen. lia. }
    destruct HO as (HO1&HO2).
    match goal with |- context[if xltb eP ?e then ?T else ?F] => set (q0 := if xltb eP e then T else F) end.
    assert (QQ : exists os' ore' oi' cs', q0 = (os', ore', oi', cs') /\ Opt (map (it_x (V:=V)) tr1) x1 os' ore' oi' cs').
    { unfold q0. destruct (xltb eP _) eqn:UP.
      - assert (LTx : rz x < rz x1) by (apply CMP; auto). clear CMP. destruct (Nat.eqb cs 0 && Rltb rdz ore) eqn:REC.
        + apply andb_true_iff in REC. destruct REC as (C0&LT). apply Nat.eqb_eq in C0. apply Rltb_true in LT. rewrite E0 in LT.
          exists (Some (axpy v (- al) d1 x1)), rdz, (Z.of_nat iter - 1)%Z, (S cs). split; [reflexivity|]. rewrite U, E0. split.
          * intros y Hy. left. rewrite Xs1 in Hy. apply in_app_or in Hy. destruct Hy as [Hy|[<-|[]]]; [|lra].
            destruct (HO1 y Hy) as [H|(H&_)]; lra.
          * (* which iterate *)
            destruct (Nat.eq_dec iter 0) as [i0|i0].
            { (* impossible: rz x < ore, but ore is rz of the first = x *)
              exfalso. destruct tr as [|t0 [|]]; cbn in Hlen; try lia. cbn in Hx. destruct Hx as [Hx|[]].
              destruct HO2 as [(_&[H|H])|(_&y&Hy&_&H)].
              - cbn in H. rewrite Hx in H. lra.
              - cbn in H. lra.
              - cbn in Hy. destruct Hy as [Hy|[]]. subst y. rewrite Hx in H. lra. }
            destruct (Nat.eq_dec iter 1) as [i1|i1].
            { left. split; [subst iter; reflexivity|]. right. rewrite Nth1 by lia. f_equal.
              destruct Hlast as (pre&i&->&<-). rewrite map_app. rewrite app_length in Hlen. cbn in Hlen.
              destruct pre as [|a [|]]; cbn in Hlen; try lia. reflexivity. }
            { right. split; [lia|]. exists x. split; [rewrite Xs1; apply in_or_app; auto|]. auto. }
        + exists os, ore, oi, (S cs). split; [reflexivity|].
          assert (LE : ore <= rz x).
          { destruct (HO1 x Hx) as [H|(_&H)]; auto. subst cs. cbn in REC. apply Rltb_false in REC. lra. }
          split.
          * intros y Hy. left. rewrite Xs1 in Hy. apply in_app_or in Hy. destruct Hy as [Hy|[<-|[]]]; [|lra].
            destruct (HO1 y Hy) as [H|(H&_)]; lra.
          * rewrite Hd1. destruct HO2 as [(H0&H)|(H0&y&Hy&H1&H2)].
            -- left. split; auto. destruct H as [H|H]; auto. destruct (Nat.eq_dec iter 0) as [i0|i0].
               ++ left. rewrite H, (Nth0 i0). destruct tr as [|t0 [|]]; cbn in Hlen; try lia. cbn in *. destruct Hx as [<-|[]]. auto.
               ++ right. rewrite (Nth1 i0). auto.
            -- right. split; auto. exists y. split; [rewrite Xs1; apply in_or_app; auto|auto].
      - assert (DN : rz x1 <= rz x). { destruct (Rle_lt_dec (rz x1) (rz x)); auto. apply CMP in r0. discriminate. }
        exists os, ore, oi, O. split; [reflexivity|]. split.
        + intros y Hy. rewrite Xs1 in Hy. apply in_app_or in Hy. destruct Hy as [Hy|[<-|[]]]; [|right; split; [lra|auto]].
          destruct (HO1 y Hy) as [H|(H&_)]; [auto|right; split; [lra|auto]].
        + rewrite Hd1. destruct HO2 as [(H0&H)|(H0&y&Hy&H1&H2)].
          * left. split; auto. destruct H as [H|H]; auto. destruct (Nat.eq_dec iter 0) as [i0|i0].
            -- left. rewrite H, (Nth0 i0). destruct tr as [|t0 [|]]; cbn in Hlen; try lia. cbn in *. destruct Hx as [<-|[]]. auto.
            -- right. rewrite (Nth1 i0). auto.
          * right. split; auto. exists y. split; [rewrite Xs1; apply in_or_app; auto|auto]. }
    destruct QQ as (os'&ore'&oi'&cs'&EQ&HO'). rewrite EQ.
    assert (L1 : exists pre i, tr1 = pre ++ [i] /\ it_x i = x1) by (exists tr, (mkIt x1 r2 (v_dot v r2 (K r2))); auto).
    destruct (Nat.leb 3 cs' && negb (sp_bypass p)).
    + cbn [finish so_trace so_conv so_state]. intros _. fold tr1. exists x1, os', ore', oi', cs'. split; [|split; auto].
      * exists (map (it_x (V:=V)) tr). auto.
      * intros Hp. apply Z.ltb_lt in Hp. rewrite Hp. reflexivity.
    + cbv zeta. fold tr1. apply IH; auto. unfold tr1. rewrite app_length, Hlen. cbn. lia.
Qed.

Lemma cgLoop_extends k : forall iter x r z d rdz rdzP eP os ore oi cs tr,
  exists t, so_trace (cgLoop v A K kill p k iter b rKr x r z d rdz rdzP eP os ore oi cs tr) = tr ++ t.
Proof.
  induction k as [|k IH]; intros iter x r z d rdz rdzP eP os ore oi cs tr; cbn [cgLoop]; [exists []; cbn; rewrite app_nil_r; auto|].
  destruct (kill iter); [exists []; cbn; rewrite app_nil_r; auto|].
  set (d1 := if Reqb rdzP 0 then _ else _). destruct (Reqb (v_dot v (A d1) d1) 0); [exists []; cbn; rewrite app_nil_r; auto|].
  match goal with |- context[if xltb ?a (Fin (sp_tol p)) then _ else _] => destruct (xltb a (Fin (sp_tol p))) end; [eexists; reflexivity|].
  match goal with |- context[if xltb eP ?e then ?T else ?F] => destruct (if xltb eP e then T else F) as (((?&?)&?)&cs') end.
  destruct (Nat.leb 3 cs' && negb (sp_bypass p)); [eexists; reflexivity|].
  match goal with |- exists t, so_trace (cgLoop _ _ _ _ _ k ?a ?b0 ?c ?d0 ?e ?f ?g ?h ?i ?j ?l ?m ?n ?o0 ?q) = _ =>
        destruct (IH a d0 e f g h i j l m n o0 q) as (t&Ht) end; rewrite Ht, <- app_assoc; eexists; reflexivity.
Qed.

(** If the lowest residual is attained strictly after the first iteration and before the last one, the state with the
    lowest residual is left behind. *)
Theorem CG_best x : let out := CG v A K kill p b x in let xs := map (it_x (V:=V)) (so_trace out) in
  so_conv out = false ->
  forall best, In best xs -> rz best < rz x -> rz best < rz (nth 1 xs x) -> rz best < rz (last xs x) ->
  exists y, so_state out = Some y /\ In y xs /\ forall y', In y' xs -> rz y <= rz y'.
Proof.
  unfold CG. rewrite negRes_res0. fold (res x). fold rKr.
  destruct (xltb _ _) eqn:C; [cbn; discriminate|].
  match goal with |- so_conv ?o = false -> _ => set (o0 := o) end. set (xs := map (it_x (V:=V)) (so_trace o0)).
  intros NC best Hb B0 B1 BL.
  pose proof (cgLoop_best (Z.to_nat (sp_nIter p)) 0 x (res x) (K (res x)) (K (res x)) (v_dot v (res x) (K (res x))) 0
    (relErr (v_dot v (res x) (K (res x))) rKr) None (v_dot v (res x) (K (res x))) 0 0 [mkIt x (res x) (v_dot v (res x) (K (res x)))]
    eq_refl eq_refl eq_refl eq_refl eq_refl) as L.
  cbv zeta in L. change (cgLoop v A K kill p _ _ _ _ _ _ _ _ _ _ _ _ _ _ _ _) with o0 in L.
  destruct L as (x'&os&ore&oi&cs&(pre&Hp)&(O1&O2)&HS); auto.
  { exists [], (mkIt x (res x) (v_dot v (res x) (K (res x)))). auto. }
  { split.
    - intros y [<-|[]]. cbn. left. unfold rz, rz_of. lra.
    - left. split; auto. }
  fold xs in Hp, O1, O2. 
  assert (Lx : last xs x = x') by (rewrite Hp, last_last; reflexivity). rewrite Lx in BL.
  assert (OB : forall y', In y' xs -> rz best <= rz y' -> ore <= rz y') by (intros y' Hy' Hle; destruct (O1 best Hb) as [H|(H&_)]; lra).
  assert (ORE : ore <= rz best) by (destruct (O1 best Hb) as [H|(H&_)]; lra).
  destruct O2 as [(_&H)|(Hi&y&Hy&H1&H2)].
  - exfalso. assert (HX : exists t, xs = x :: t).
    { destruct (cgLoop_extends (Z.to_nat (sp_nIter p)) 0 x (res x) (K (res x)) (K (res x)) (v_dot v (res x) (K (res x))) 0
        (relErr (v_dot v (res x) (K (res x))) rKr) None (v_dot v (res x) (K (res x))) 0 0 [mkIt x (res x) (v_dot v (res x) (K (res x)))]) as (t&Ht).
      exists (map (it_x (V:=V)) t). unfold xs, o0. rewrite Ht. reflexivity. }
    destruct HX as (t&Hxs).
    assert (N1 : rz (nth 1 xs x') = rz (nth 1 xs x) \/ rz (nth 1 xs x') = rz x').
    { destruct t as [|x1 t]; [right|left]; rewrite Hxs; reflexivity. }
    destruct H as [H|H]; [rewrite Hxs in H; cbn in H; lra|]. destruct N1; lra.
  - exists y. rewrite (HS Hi), H1. split; auto. split; auto. intros y' Hy'. rewrite H2. destruct (O1 y' Hy') as [G|(G&_)]; lra.
Qed.
End I.
End S.
