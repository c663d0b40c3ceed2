(** Proofs about line minimizers (C09) and iteration bounds (C10). *)
From Coq Require Import Reals ZArith List Bool Arith Lia Lra.
From Verif Require Import XR_Model XR_Facts Converge_Model Minimize_Model Minimize_Spec.
Import ListNotations.
Open Scope R_scope.

Section L.
Context {St V : Type} (o : Objective St V) (p : MinParams).
Hypothesis add : additive_steps o.
Hypothesis fin : finite_params p.

Lemma undo st d r : reports_progress o st d r -> ob_step o (lr_st r) d (xopp (lr_alpha r)) = st.
Proof.
  intros (a&Ha&Hs). rewrite Ha, Hs. destruct add as (A&Z). cbn. rewrite A. replace (a + - a) with 0 by ring. apply Z.
Qed.
Lemma step_to st d a b : ob_step o (ob_step o st d (Fin a)) d (xsub (Fin b) (Fin a)) = ob_step o st d (Fin b).
Proof. destruct add as (A&_). cbn. rewrite A. f_equal. f_equal. ring. Qed.
Lemma step_from0 st d b : ob_step o st d (xsub (Fin b) (Fin 0)) = ob_step o st d (Fin b).
Proof. cbn. f_equal. f_equal. ring. Qed.

Lemma relax_contract st d aT : isfin aT = true -> reports_progress o st d (linminRelax o st d aT).
Proof. intros H. apply isfin_ex in H. destruct H as (a&->). exists a. cbn. auto. Qed.

Lemma fin_red : exists r, mp_reduce p = Fin r. Proof. apply isfin_ex. apply fin. Qed.
Lemma fin_inc : exists r, mp_increase p = Fin r. Proof. apply isfin_ex. apply fin. Qed.


Lemma quadTest_spec k : forall d E gdotd aT alpha aPrev st0, xltb (Fin 0) (mp_alphaTmin p) = true ->
  (exists x, aT = Fin x) -> (exists x, alpha = Fin x) -> (exists x, E = Fin x) -> (exists x, gdotd = Fin x /\ x < 0) ->
  forall a, aPrev = Fin a ->
  match quadTest o p k d E gdotd aT alpha aPrev (ob_step o st0 d (Fin a)) with
  | TestQuit al st' => exists a', al = Fin a' /\ st' = ob_step o st0 d (Fin a')
  | TestWrongCurvature al st' => xltb al (Fin 0) = true /\ exists a', st' = ob_step o st0 d (Fin a') /\ xltb (Fin a') (mp_alphaTmin p) = false
  | TestEnd al aP st' => isfin al = true /\ exists a', aP = Fin a' /\ st' = ob_step o st0 d (Fin a')
  end.
Proof.
  induction k as [|k IH]; intros d E gdotd aT alpha aPrev st0 Hmin HaT Hal HE Hg a ->; cbn [quadTest].
  - destruct Hal as (x&->). split; [reflexivity|]. exists a. auto.
  - destruct HaT as (t&->). destruct HE as (e&->). destruct Hg as (gd&->&Hgd). destruct fin_red as (rr&Hr). destruct fin_inc as (ri&Hi).
    destruct (xltb (Fin t) (mp_alphaTmin p)) eqn:Ht. { exists a. auto. }
    rewrite step_to. 
    destruct (ob_E o (ob_step o st0 d (Fin t))) as [eT| | |] eqn:HET; cbn [isfin negb];
      try (apply IH; [auto|rewrite Hr; cbn; eauto|auto|eauto|eauto|auto]).
    set (al := xdiv _ _). destruct (xltb al (Fin 0)) eqn:Hneg. { split; auto. exists t. auto. }
    assert (FA : exists x, al = Fin x).
    { unfold al in *. cbn in *. destruct (Req_EM_T _ 0) as [e0|_]; [|eauto].
      exfalso. assert (0 < t).
      { destruct (mp_alphaTmin p); cbn in *; try discriminate. apply Rltb_true in Hmin. apply Rltb_false in Ht. lra. }
      assert (1/2 * (t*t) * gd < 0). { assert (0 < t*t) by nra. nra. }
      unfold xinf in Hneg. destruct (Rlt_dec 0 _); [lra|]. destruct (Rlt_dec _ 0); [discriminate|lra]. }
    destruct (xltb (mp_increase p) (xdiv al (Fin t))). { apply IH; [auto|rewrite Hi; cbn; eauto|auto|eauto|eauto|auto]. }
    destruct (xltb (xdiv (Fin t) al) (mp_reduce p)). { apply IH; [auto|rewrite Hr; cbn; eauto|auto|eauto|eauto|auto]. }
    destruct FA as (x&->). split; [reflexivity|]. exists t. auto.
Qed.

Lemma quadStep_spec k : forall d Eorig E g Kg al aP st0 a b,
  al = Fin a -> aP = Fin b ->
  let r := quadStep o p k d Eorig E g Kg al aP (ob_step o st0 d (Fin b)) in
  (0 < k)%nat ->
  exists c, lr_st r = ob_step o st0 d (Fin c) /\ consistent o r /\
    (lr_ok r = true -> lr_alpha r = Fin c) /\
    (lr_ok r = false -> exists f, mp_reduce p = Fin f /\ lr_alpha r = Fin (c * f) /\ (isfin (lr_E r) = false \/ xltb Eorig (lr_E r) = true)).
Proof.
  induction k as [|k IH]; intros d Eorig E g Kg al aP st0 a b -> ->; [lia|]. intros r _. unfold r. clear r. cbn [quadStep].
  rewrite step_to. destruct fin_red as (rr&Hr).
  set (st1 := ob_step o st0 d (Fin a)).
  assert (NXT : forall g' Kg', (isfin (ob_E o st1) = false \/ xltb Eorig (ob_E o st1) = true) -> g' = ob_g o st1 -> Kg' = ob_Kg o st1 ->
    let r := quadStep o p k d Eorig (ob_E o st1) g' Kg' (xmul (Fin a) (mp_reduce p)) (Fin a) st1 in
    exists c : R, lr_st r = ob_step o st0 d (Fin c) /\ consistent o r /\ (lr_ok r = true -> lr_alpha r = Fin c) /\
     (lr_ok r = false -> exists f, mp_reduce p = Fin f /\ lr_alpha r = Fin (c * f) /\ (isfin (lr_E r) = false \/ xltb Eorig (lr_E r) = true))).
  { intros g' Kg' HB Hg HK. rewrite Hr. cbn [xmul]. destruct k as [|k'].
    - cbn [quadStep]. exists a. cbn. split; [reflexivity|]. split; [unfold consistent; cbn; auto|]. split.
      + intros H. exfalso. destruct HB as [HB|HB]; rewrite HB in H; cbn in H; [discriminate|]. rewrite orb_true_r in H. discriminate.
      + intros _. exists rr. auto.
    - destruct (IH d Eorig (ob_E o st1) g' Kg' (Fin (a*rr)) (Fin a) st0 (a*rr) a eq_refl eq_refl) as (c&H1&H2&H3&H4); [lia|].
      exists c. rewrite Hr in H4. split; [auto|]. split; [auto|]. split; auto. }
  destruct (isfin (ob_E o st1)) eqn:F; cbn [negb]; [|apply NXT; auto].
  destruct (xltb Eorig (ob_E o st1)) eqn:Up; [apply NXT; auto|].
  exists a. cbn. split; [reflexivity|]. split; [unfold consistent; cbn; auto|]. split; [reflexivity|discriminate].
Qed.

(** What linminQuad guarantees. *)
Lemma quad_contract st d aT al E g Kg : (0 < mp_nAdjust p)%Z -> xltb (Fin 0) (mp_alphaTmin p) = true ->
  isfin aT = true -> isfin al = true -> isfin E = true -> isfin (ob_dot o g d) = true ->
  let r := linminQuad o p st d aT al E g Kg in
  (lr_ok r = true -> xltb (lr_alpha r) (Fin 0) = false -> reports_progress o st d r) /\
  (lr_ok r = true -> xltb (lr_alpha r) (Fin 0) = true -> exists a, lr_st r = ob_step o st d (Fin a)) /\
  (lr_ok r = false -> lr_E r = E -> reports_progress o st d r) /\
  (lr_ok r = false -> lr_E r <> E ->
     exists a f, mp_reduce p = Fin f /\ lr_st r = ob_step o st d (Fin a) /\ lr_alpha r = Fin (a * f)).
Proof.
  intros Hn Hmin HaT Hal HE Hg r. apply isfin_ex in HaT, Hal, HE, Hg. unfold r, linminQuad. clear r.
  destruct Hg as (gd&Hgd). rewrite Hgd. destruct add as (A&Z0).
  destruct (xleb (Fin 0) (Fin gd)) eqn:Hd.
  { cbn. split; [discriminate|]. split; [discriminate|]. split; [|congruence]. intros _ _. exists 0. cbn. rewrite Z0. auto. }
  cbn in Hd. apply Rleb_false in Hd.
  pose proof (quadTest_spec (Z.to_nat (mp_nAdjust p)) d E (Fin gd) aT al (Fin 0) st Hmin HaT Hal HE (ex_intro _ gd (conj eq_refl Hd)) 0 eq_refl) as T.
  rewrite Z0 in T. destruct (quadTest _ _ _ _ _ _ _ _ _ _) as [a st'|a st'|a aP st'].
  - destruct T as (a'&->&->). cbn. split; [discriminate|]. split; [discriminate|]. split; [|congruence]. intros _ _. exists a'. auto.
  - destruct T as (T1&a'&->&_). cbn. rewrite T1. split; [discriminate|]. split; [|split; discriminate]. eauto.
  - destruct T as (T1&a'&->&->). apply isfin_ex in T1. destruct T1 as (x&->). destruct HE as (e&->). cbn [isfin negb].
    pose proof (quadStep_spec (Z.to_nat (mp_nAdjust p)) d (Fin e) (Fin e) g Kg (Fin x) (Fin a') st x a' eq_refl eq_refl) as Q.
    cbv zeta in Q. set (r := quadStep _ _ _ _ _ _ _ _ _ _ _) in *. destruct Q as (c&Q1&Q2&Q3&Q4); [lia|].
    split; [intros H _; exists c; auto|]. split; [intros _ _; exists c; auto|]. split.
    + intros H HE. destruct (Q4 H) as (f&_&_&[G|G]); rewrite HE in G; [discriminate|]. apply xltb_fin in G. lra.
    + intros H _. destruct (Q4 H) as (f&G1&G2&_). exists c, f. auto.
Qed.

Lemma cubicNext_fin a b e e' gp gd : isfin (cubicNext p (Fin a) (Fin b) e e' gp gd) = true.
Proof.
  unfold cubicNext. destruct fin_inc as (ri&Hi). rewrite Hi.
  set (t := if isfin _ then _ else _).
  assert (T : exists x, t = Fin x).
  { unfold t. match goal with |- context[if isfin ?z then _ else _] => destruct (isfin z) eqn:Hz; [apply isfin_ex in Hz; destruct Hz as (z'&->)|clear Hz] end.
    - apply isfin_ex. apply xmax_fin2; [apply xmin_fin2; reflexivity|reflexivity].
    - match goal with |- context[if xleb ?z ?w then _ else _] => destruct (xleb z w) end; cbn; eauto. }
  destruct T as (x&->). cbn. reflexivity.
Qed.

Lemma cubicLoop_spec k : forall d E0 gd0 al aP aS Ep gp st0 a b c, al = Fin a -> aP = Fin b -> aS = Fin c ->
  let r := cubicLoop o p k d E0 gd0 al aP aS Ep gp (ob_step o st0 d (Fin c)) in
  reports_progress o st0 d r /\ consistent o r.
Proof.
  induction k as [|k IH]; intros d E0 gd0 al aP aS Ep gp st0 a b c -> -> ->; cbn [cubicLoop]; rewrite step_to.
  - cbn. split; [exists a; auto|unfold consistent; cbn; auto].
  - destruct fin_red as (rr&Hr). set (st1 := ob_step o st0 d (Fin a)).
    destruct (isfin (ob_E o st1)) eqn:F; cbn [negb].
    + destruct (_ && _).
      * cbn. split; [exists a; auto|unfold consistent; cbn; auto].
      * pose proof (cubicNext_fin b a Ep (ob_E o st1) gp (ob_dot o (ob_g o st1) d)) as C. apply isfin_ex in C. destruct C as (x&Hx). rewrite Hx.
        destruct (xltb (ob_E o st1) Ep); unfold st1; eapply IH; eauto.
    + rewrite Hr. cbn [xsub xadd xmul xopp]. unfold st1. eapply IH; eauto.
Qed.

Lemma cubic_contract st d aT al E g Kg : isfin aT = true ->
  reports_progress o st d (linminCubicWolfe o p st d aT al E g Kg).
Proof.
  intros H. apply isfin_ex in H. destruct H as (a&->). unfold linminCubicWolfe. destruct add as (A&Z0).
  destruct (xleb _ _). { exists 0. cbn. rewrite Z0. auto. }
  pose proof (cubicLoop_spec (Z.to_nat (mp_nAdjust p + 1)) d E (ob_dot o g d) (Fin a) (Fin 0) (Fin 0) E (ob_dot o g d) st a 0 0 eq_refl eq_refl eq_refl) as C.
  rewrite Z0 in C. apply C.
Qed.

(** The finite-difference test puts the state back. *)
Lemma fdSteps_restores fuel : forall dx delta prev st0 st', fdSteps o fuel dx delta prev (ob_step o st0 dx (Fin prev)) = Some st' -> st' = st0.
Proof.
  destruct add as (A&Z0). induction fuel as [|fuel IH]; intros dx delta prev st0 st'; cbn [fdSteps]; destruct (Rleb delta 10); try discriminate.
  - intros H. injection H as <-. rewrite A. replace (prev + - prev) with 0 by ring. apply Z0.
  - rewrite A. replace (prev + (delta - prev)) with delta by ring. apply IH.
  - intros H. injection H as <-. rewrite A. replace (prev + - prev) with 0 by ring. apply Z0.
Qed.
Lemma fdTest_restores st dx : fdTest o st dx = Some st.
Proof.
  assert (T : forall x, fdTest o st dx = Some x -> x = st).
  { unfold fdTest. destruct add as (A&Z0). intros x. rewrite <- (Z0 st dx) at 1. apply fdSteps_restores. }
  assert (E : exists x, fdTest o st dx = Some x).
  { unfold fdTest. do 11 (cbn [fdSteps]; unfold Rleb at 1; destruct (Rle_dec _ 10); [|eexists; reflexivity]).
    cbn [fdSteps]; unfold Rleb at 1; destruct (Rle_dec _ 10); [exfalso; lra|eexists; reflexivity]. }
  destruct E as (x&E). rewrite E. f_equal. auto.
Qed.
End L.

(** Energies handed back by the line minimizers belong to the state. *)
Section C.
Context {St V : Type} (o : Objective St V) (p : MinParams).

Lemma quadStep_consistent k : forall d Eo E g Kg al aP st, (0 < k)%nat -> consistent o (quadStep o p k d Eo E g Kg al aP st).
Proof.
  induction k as [|k IH]; intros; [lia|]. cbn [quadStep]. destruct (negb _).
  - destruct k; [cbn; unfold consistent; auto|apply IH; lia].
  - destruct (xltb _ _).
    + destruct k; [cbn; unfold consistent; auto|apply IH; lia].
    + cbn; unfold consistent; auto.
Qed.
Lemma cubicLoop_consistent k : forall d E0 gd0 al aP aS Ep gp st, consistent o (cubicLoop o p k d E0 gd0 al aP aS Ep gp st).
Proof.
  induction k as [|k IH]; intros; cbn [cubicLoop]; [cbn; unfold consistent; auto|]. destruct (negb _); [apply IH|].
  destruct (_ && _); [cbn; unfold consistent; auto|]. destruct (xltb _ _); apply IH.
Qed.
Lemma linmin_consistent st d aT al : let r := linmin o p st d aT al (ob_E o st) (ob_g o st) (ob_Kg o st) in
  lr_ok r = true -> consistent o r.
Proof.
  assert (RX : let r := linminRelax o st d aT in lr_ok r = true -> consistent o r) by (cbn; unfold consistent; auto).
  assert (CW : let r := linminCubicWolfe o p st d aT al (ob_E o st) (ob_g o st) (ob_Kg o st) in lr_ok r = true -> consistent o r).
  { unfold linminCubicWolfe. destruct (xleb _ _); [discriminate|]. intros _. apply cubicLoop_consistent. }
  assert (QD : let r := linminQuad o p st d aT al (ob_E o st) (ob_g o st) (ob_Kg o st) in lr_ok r = true -> consistent o r).
  { unfold linminQuad. destruct (xleb _ _); [discriminate|]. destruct (Z.to_nat (mp_nAdjust p)) as [|k] eqn:K.
    - cbn [quadTest]. destruct (negb _); [discriminate|]. cbn. unfold consistent; auto.
    - destruct (quadTest _ _ _ _ _ _ _ _ _ _); [discriminate|cbn; unfold consistent; auto|].
      destruct (negb _); [discriminate|]. intros _. apply quadStep_consistent. lia. }
  unfold linmin. destruct (mp_linmin p), (mp_dir p); auto.
Qed.

Context (kill : nat -> bool).
Lemma minLoop_spec k : forall iter chk E g Kg gPrev d force aT al gKP st n, E = ob_E o st -> g = ob_g o st -> Kg = ob_Kg o st ->
  match minLoop o p kill k iter chk E g Kg gPrev d force aT al gKP st n with
  | MinDone E' st' n' => E' = ob_E o st' /\ (n' <= n + k)%nat
  | MinDie _ => True
  end.
Proof.
  induction k as [|k IH]; intros iter chk E g Kg gPrev d force aT al gKP st n -> -> ->; cbn [minLoop]; (destruct (kill iter); [split; [auto|lia]|]).
  - destruct (ob_report o iter st) as [st1|]; cbv iota beta; destruct (ediffCheck chk _); destruct (converged _ _ _); [split; [auto|lia]| |split; [auto|lia]|];
    (destruct (negb _); [split; [auto|lia]|]); (destruct (negb _); split; [auto|lia|auto|lia]).
  - set (q := match ob_report o iter st with Some _ => _ | None => _ end).
    assert (Q : exists st1 f, q = (st1, ob_E o st1, ob_g o st1, ob_Kg o st1, f)) by (unfold q; destruct (ob_report o iter st); eauto).
    destruct Q as (st1&f&->). destruct (ediffCheck chk _) as (chk'&eC). destruct (converged _ _ _); [split; [auto|lia]|].
    destruct (negb _); [split; [auto|lia]|]. destruct (negb _); [split; [auto|lia]|].
    set (d1 := ob_constrain _ _ _). set (aT1 := xmin _ _).
    pose proof (linmin_consistent st1 d1 aT1 al) as LC. cbv zeta in LC.
    set (r := linmin _ _ _ _ _ _ _ _ _) in *. destruct (lr_ok r).
    + destruct (LC eq_refl) as (L1&L2&L3). match goal with |- context[minLoop ?a ?b ?c ?d0 ?e ?f0 ?g0 ?h ?i ?j ?k0 ?l ?m ?n0 ?o0 ?p0 ?q0] =>
        pose proof (IH e f0 g0 h i j k0 l m n0 o0 p0 q0 L1 L2 L3) as I; destruct (minLoop a b c d0 e f0 g0 h i j k0 l m n0 o0 p0 q0); auto end.
      destruct I. split; auto. lia.
    + destruct (mp_abort p); auto. set (st2 := ob_step _ _ _ _). destruct (xnz _).
      * match goal with |- context[minLoop ?a ?b ?c ?d0 ?e ?f0 ?g0 ?h ?i ?j ?k0 ?l ?m ?n0 ?o0 ?p0 ?q0] =>
        pose proof (IH e f0 g0 h i j k0 l m n0 o0 p0 q0 eq_refl eq_refl eq_refl) as I; destruct (minLoop a b c d0 e f0 g0 h i j k0 l m n0 o0 p0 q0); auto end.
        destruct I. split; auto. lia.
      * split; [auto|lia].
Qed.

Lemma lbfgsLoop_spec k : forall iter chk E g Kg h gam al st n tr, E = ob_E o st -> g = ob_g o st -> Kg = ob_Kg o st ->
  match fst (lbfgsLoop o p kill k iter chk E g Kg h gam al st n tr) with
  | LDone E' st' n' => E' = ob_E o st' /\ (n' <= n + k)%nat
  | _ => True
  end.
Proof.
  induction k as [|k IH]; intros iter chk E g Kg h gam al st n tr -> -> ->; cbn [lbfgsLoop]; (destruct (kill iter); [split; [auto|lia]|]).
  - destruct (ob_report o iter st) as [st1|]; cbv iota beta; destruct (ediffCheck chk _); destruct (converged _ _ _); try (split; [auto|lia]);
    (destruct (negb _); [split; [auto|lia]|]); (destruct (negb _); split; [auto|cbn; lia|auto|cbn; lia]).
  - set (q := match ob_report o iter st with Some _ => _ | None => _ end).
    assert (Q : exists st1 h1 f, q = (st1, ob_E o st1, ob_g o st1, ob_Kg o st1, h1, f)) by (unfold q; destruct (ob_report o iter st); eauto).
    destruct Q as (st1&h1&f&->). destruct (ediffCheck chk _) as (chk'&eC). destruct (converged _ _ _); [split; [auto|lia]|].
    destruct (negb _); [split; [auto|lia]|]. destruct (negb _); [split; [auto|lia]|].
    destruct (lbfgsDir _ _ _ _) as [d0|]; [|cbn; auto]. destruct (makeRoom _ _) as [h2|]; [|cbn; auto].
    set (d1 := ob_constrain _ _ _). set (aT1 := xmin _ _).
    pose proof (linmin_consistent st1 d1 aT1 al) as LC. cbv zeta in LC.
    set (r := linmin _ _ _ _ _ _ _ _ _) in *. destruct (lr_ok r).
    + destruct (LC eq_refl) as (L1&L2&L3).
      match goal with |- context[lbfgsLoop _ _ _ k ?e ?f0 ?g0 ?h3 ?i ?j ?k0 ?l ?m ?n0 ?o0] =>
        pose proof (IH e f0 g0 h3 i j k0 l m n0 o0 L1 L2 L3) as I; destruct (fst (lbfgsLoop o p kill k e f0 g0 h3 i j k0 l m n0 o0)); auto end.
      destruct I. split; auto. lia.
    + destruct (mp_abort p); [cbn; auto|]. set (st2 := ob_step _ _ _ _). destruct (negb _).
      * match goal with |- context[lbfgsLoop _ _ _ k ?e ?f0 ?g0 ?h3 ?i ?j ?k0 ?l ?m ?n0 ?o0] =>
        pose proof (IH e f0 g0 h3 i j k0 l m n0 o0 eq_refl eq_refl eq_refl) as I; destruct (fst (lbfgsLoop o p kill k e f0 g0 h3 i j k0 l m n0 o0)); auto end.
        destruct I. split; auto. lia.
      * cbn. split; [auto|lia].
Qed.

Lemma minimize_spec st E st' n : minimize o p kill st = LDone E st' n -> E = ob_E o st' /\ (n <= Z.to_nat (mp_nIter p))%nat.
Proof.
  unfold minimize, minimizeCG, lBFGS.
  set (chk := mkEdiffCheck _ _).
  destruct (mp_dir p).
  4: { intros H. match type of H with fst (lbfgsLoop _ _ _ ?k ?e ?f0 ?g0 ?h3 ?i ?j ?k0 ?l ?m ?n0 ?o0) = _ =>
    pose proof (lbfgsLoop_spec k e f0 g0 h3 i j k0 l m n0 o0 eq_refl eq_refl eq_refl) as I end. rewrite H in I. auto. }
  all: match goal with |- context[minLoop ?a ?b ?c ?d0 ?e ?f0 ?g0 ?h ?i ?j ?k0 ?l ?m ?n0 ?o0 ?p0 ?q0] =>
        pose proof (minLoop_spec d0 e f0 g0 h i j k0 l m n0 o0 p0 q0 eq_refl eq_refl eq_refl) as I; destruct (minLoop a b c d0 e f0 g0 h i j k0 l m n0 o0 p0 q0) end;
    intros H; inversion H; subst; auto.
Qed.
End C.
