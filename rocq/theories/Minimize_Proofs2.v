(** Counterexamples to the line-minimizer contract. *)
From Coq Require Import Reals ZArith List Bool Arith Lia Lra.
From Verif Require Import XR_Model XR_Facts Converge_Model Minimize_Model Minimize_Spec Minimize_Proofs.
Import ListNotations.
Open Scope R_scope.

Definition toR (x : xr) : R := match x with Fin r => r | _ => 0 end.
(** A one-dimensional objective with energy f, gradient f' and preconditioner K. *)
Definition obj1 (f : R -> xr) (f' : R -> R) (K : R) : Objective R R :=
  Obj (fun x d a => x + toR a * d) f f' (fun x => K * f' x) (fun _ _ => None) (fun _ d => d) (fun _ _ => Fin 1000000)
      (fun a b => Fin (a * b)) (fun a v => toR a * v) (fun a x y => y + toR a * x) (fun v => Fin (Rabs v)).
Lemma obj1_additive f f' K : additive_steps (obj1 f f' K).
Proof. split; cbn; intros; ring. Qed.
(** The default parameters (jdftx/core/MinimizeParams.h 78-87) *)
Definition defaults (dir : DirUpdate) (lm : LinminMethod) (nIter : Z) : MinParams :=
  MP dir lm nIter 1 15 (Fin 0) false (Fin 0) 2 false (Fin 1) (Fin (1/10000000000)) true (Fin (1/10)) (Fin 3) 3
     (Fin (1/10000)) (Fin (9/10)) false.
Lemma defaults_finite a b n : finite_params (defaults a b n).
Proof. split; reflexivity. Qed.

(** Energy 0 at the origin and 1 elsewhere, with a gradient that promises a decrease. *)
Definition spike (x : R) : xr := if Req_EM_T x 0 then Fin 0 else Fin 1.

Ltac dec := repeat (match goal with
  | |- context[Rlt_dec ?a ?b] => destruct (Rlt_dec a b); [try (exfalso; lra)|try (exfalso; lra)]
  | |- context[Rle_dec ?a ?b] => destruct (Rle_dec a b); [try (exfalso; lra)|try (exfalso; lra)]
  | |- context[Req_EM_T ?a ?b] => destruct (Req_EM_T a b); [try (exfalso; lra)|try (exfalso; lra)]
  end; cbn).

Lemma spike_at x y : x = y -> y <> 0 -> spike x = Fin 1.
Proof. intros -> H. unfold spike. destruct (Req_EM_T y 0); congruence. Qed.

Lemma quad_spike : let o := obj1 spike (fun _ => 1) 1 in let r := linminQuad o (defaults PolakRibiere Quad 100) 0 (-1) (Fin 1) (Fin 1) (ob_E o 0) 1 1 in
  lr_ok r = false /\ lr_alpha r = Fin (1/4000) /\ lr_st r = -(1/400).
Proof.
  intros o r. enough (HR : r = mkLR false (Fin (1/4000)) (Fin 1) 1 (1*1) (-(1/400))) by (rewrite HR; auto).
  unfold r, linminQuad. cbn [ob_dot o obj1 xleb]. unfold Rleb. destruct (Rle_dec 0 _); [exfalso; lra|].
  change (Z.to_nat (mp_nAdjust (defaults PolakRibiere Quad 100))) with 3%nat.
  assert (E0 : ob_E o 0 = Fin 0) by (cbn; unfold spike; destruct (Req_EM_T 0 0); congruence). rewrite E0.
  cbn [quadTest]. cbn [mp_alphaTmin defaults xltb]. unfold Rltb at 1. destruct (Rlt_dec 1 _); [exfalso; lra|].
  assert (S1 : ob_step o 0 (-1) (xsub (Fin 1) (Fin 0)) = -1) by (cbn; ring). rewrite S1.
  assert (E1 : ob_E o (-1) = Fin 1) by (apply (spike_at _ _ eq_refl); lra). rewrite E1. cbn [isfin negb].
  match goal with |- context[xdiv ?a ?b] => assert (A : xdiv a b = Fin (1/4)) end.
  { cbn. destruct (Req_EM_T _ 0); [exfalso; lra|]. f_equal. field. }
  rewrite A. cbn [xltb]. unfold Rltb at 1. destruct (Rlt_dec (1/4) 0); [exfalso; lra|].
  assert (A1 : xdiv (Fin (1/4)) (Fin 1) = Fin (1/4)) by (cbn; destruct (Req_EM_T 1 0); [exfalso; lra|]; f_equal; field).
  assert (A2 : xdiv (Fin 1) (Fin (1/4)) = Fin 4) by (cbn; destruct (Req_EM_T (1/4) 0); [exfalso; lra|]; f_equal; field).
  rewrite A1, A2. cbn [mp_increase mp_reduce defaults xltb]. unfold Rltb. destruct (Rlt_dec 3 (1/4)); [exfalso; lra|]. destruct (Rlt_dec 4 (1/10)); [exfalso; lra|].
  cbn [isfin negb quadStep].
  assert (T1 : ob_step o (-1) (-1) (xsub (Fin (1/4)) (Fin 1)) = -(1/4)) by (cbn; field). rewrite T1.
  assert (E2 : ob_E o (-(1/4)) = Fin 1) by (apply (spike_at _ _ eq_refl); lra). rewrite E2. cbn [isfin negb xltb]. unfold Rltb at 1. destruct (Rlt_dec 0 1); [|exfalso; lra].
  cbn [mp_reduce defaults]. replace (xmul (Fin (1/4)) (Fin (1/10))) with (Fin (1/40)) by (cbn; f_equal; field).
  assert (T2 : ob_step o (-(1/4)) (-1) (xsub (Fin (1/40)) (Fin (1/4))) = -(1/40)) by (cbn; field). rewrite T2.
  assert (E3 : ob_E o (-(1/40)) = Fin 1) by (apply (spike_at _ _ eq_refl); lra). rewrite E3. cbn [isfin negb xltb]. unfold Rltb at 1. destruct (Rlt_dec 0 1); [|exfalso; lra].
  replace (xmul (Fin (1/40)) (Fin (1/10))) with (Fin (1/400)) by (cbn; f_equal; field).
  assert (T3 : ob_step o (-(1/40)) (-1) (xsub (Fin (1/400)) (Fin (1/40))) = -(1/400)) by (cbn; field). rewrite T3.
  assert (E4 : ob_E o (-(1/400)) = Fin 1) by (apply (spike_at _ _ eq_refl); lra). rewrite E4. cbn [isfin negb xltb]. unfold Rltb at 1. destruct (Rlt_dec 0 1); [|exfalso; lra].
  replace (xmul (Fin (1/400)) (Fin (1/10))) with (Fin (1/4000)) by (cbn; f_equal; field).
  cbn [lr_ok lr_alpha lr_st isfin negb orb xltb]. unfold Rltb. destruct (Rlt_dec 0 1); [|exfalso; lra]. reflexivity.
Qed.

(** After a failed quadratic line minimization, undoing the reported step does not restore the state. *)
Lemma quad_undo_refuted : exists (o : Objective R R) (p : MinParams) (st d : R),
  additive_steps o /\ finite_params p /\ (0 < mp_nAdjust p)%Z /\ isfin (ob_E o st) = true /\
  let r := linminQuad o p st d (Fin 1) (Fin 1) (ob_E o st) (ob_g o st) (ob_Kg o st) in
  lr_ok r = false /\ ob_step o (lr_st r) d (xopp (lr_alpha r)) <> st.
Proof.
  exists (obj1 spike (fun _ => 1) 1), (defaults PolakRibiere Quad 100), 0, (-1).
  split; [apply obj1_additive|]. split; [apply defaults_finite|]. split; [reflexivity|]. split; [cbn; unfold spike; destruct (Req_EM_T 0 0); reflexivity|].
  replace (ob_Kg (obj1 spike (fun _ => 1) 1) 0) with 1 by (cbn; ring). change (ob_g (obj1 spike (fun _ => 1) 1) 0) with 1.
  destruct quad_spike as (H1&H2&H3). intros r. change (linminQuad _ _ _ _ _ _ _ _ _) with r in H1, H2, H3. split; auto.
  rewrite H2, H3. cbn. lra.
Qed.

(** A successful quadratic line minimization may report a step of the wrong sign. *)
Lemma quad_sign_refuted : exists (o : Objective R R) (p : MinParams) (st d : R),
  additive_steps o /\ finite_params p /\ (0 < mp_nAdjust p)%Z /\ isfin (ob_E o st) = true /\
  let r := linminQuad o p st d (Fin 1) (Fin 1) (ob_E o st) (ob_g o st) (ob_Kg o st) in
  lr_ok r = true /\ lr_alpha r = Fin (-(1/2)) /\ lr_st r = ob_step o st d (Fin 1) /\ lr_st r <> ob_step o st d (lr_alpha r).
Proof.
  exists (obj1 (fun x => Fin (- x - x*x)) (fun x => -1 - 2*x) 1), (defaults PolakRibiere Quad 100), 0, 1.
  split; [apply obj1_additive|]. split; [apply defaults_finite|]. split; [reflexivity|]. split; [reflexivity|].
  intros r. assert (R : lr_ok r = true /\ lr_alpha r = Fin (-(1/2)) /\ lr_st r = 1).
  { enough (HR : r = mkLR true (Fin (-(1/2))) (Fin (-2)) (-1-2*1) (1*(-1-2*1)) 1) by (rewrite HR; auto). unfold r, linminQuad. cbn [ob_dot obj1 xleb ob_g]. unfold Rleb. destruct (Rle_dec 0 _); [exfalso; lra|].
    change (Z.to_nat (mp_nAdjust (defaults PolakRibiere Quad 100))) with 3%nat.
    cbn [quadTest]. cbn [mp_alphaTmin defaults xltb]. unfold Rltb at 1. destruct (Rlt_dec 1 _); [exfalso; lra|].
    set (o := obj1 _ _ _).
    assert (S1 : ob_step o 0 1 (xsub (Fin 1) (Fin 0)) = 1) by (cbn; ring). rewrite S1.
    assert (E1 : ob_E o 1 = Fin (-2)) by (cbn; f_equal; ring). rewrite E1. cbn [isfin negb].
    match goal with |- context[xdiv ?a ?b] => assert (A : xdiv a b = Fin (-(1/2))) end.
    { cbn. destruct (Req_EM_T _ 0); [exfalso; lra|]. f_equal. field. }
    rewrite A. cbn [xltb]. unfold Rltb at 1. destruct (Rlt_dec (-(1/2)) 0); [|exfalso; lra]. rewrite E1. reflexivity. }
  destruct R as (R1&R2&R3). split; auto. split; auto. rewrite R2, R3. cbn. split; lra.
Qed.

(** minimize() starting at the minimum ends elsewhere, with a higher energy. *)
Lemma quad_minimize_refuted : exists (o : Objective R R) (p : MinParams) (st : R) E' st' n,
  additive_steps o /\ finite_params p /\ minimize o p (fun _ => false) st = LDone E' st' n /\ st' <> st /\ xltb (ob_E o st) E' = true.
Proof.
  set (o := obj1 spike (fun _ => 1) 1). set (p := defaults PolakRibiere Quad 100).
  exists o, p, 0, (Fin 1), (-(9/4000)), 1%nat.
  split; [apply obj1_additive|]. split; [apply defaults_finite|].
  assert (E0 : ob_E o 0 = Fin 0) by (cbn; unfold spike; destruct (Req_EM_T 0 0); congruence).
  split.
  - unfold minimize. change (mp_dir p) with PolakRibiere. cbv iota. unfold minimizeCG. change (Z.to_nat (mp_nIter p)) with (S 99). generalize 99%nat; intros kk.
    cbn [minLoop]. cbn [ob_report o obj1]. change (ob_dot o (ob_g o 0) (ob_Kg o 0)) with (Fin (1 * (1 * 1))).
    fold o.
    destruct (ediffCheck _ _) as (chk&eC) eqn:HC. 
    assert (eC = false) by (cbn in HC; congruence). subst eC. clear HC.
    assert (NC : converged p (knorm o p (Fin (1*(1*1))) (ob_Kg o 0)) false = false).
    { unfold converged. cbn [mp_knormThr p defaults mp_convergeAll].
      replace (xltb (xabs (knorm o p (Fin (1*(1*1))) (ob_Kg o 0))) (Fin 0)) with false; [reflexivity|]. symmetry.
      destruct (knorm _ _ _ _) as [z| | |]; cbn; auto. apply Rltb_false. apply Rabs_pos. }
    rewrite NC. change (negb (isfin (Fin (1*(1*1))))) with false. cbv iota. rewrite E0. change (negb (isfin (Fin 0))) with false. cbv iota.
    match goal with |- context[linmin o p 0 ?dd ?at1 ?al _ _ _] => set (aT := at1); set (d := dd) end.
    assert (HaT : aT = Fin 1). { unfold aT, xmin. cbn. unfold Rltb. destruct (Rlt_dec 1000000 1); [exfalso; lra|reflexivity]. }
    assert (Hd : d = -1). { unfold d. cbn. ring. }
    rewrite HaT, Hd. clear aT HaT d Hd.
    pose proof quad_spike as Q. fold o in Q. cbv zeta in Q. rewrite E0 in Q. fold p in Q.
    change (linmin o p 0 (-1) (Fin 1) (mp_alphaTstart p) (Fin 0) (ob_g o 0) (ob_Kg o 0)) with (linminQuad o p 0 (-1) (Fin 1) (Fin 1) (Fin 0) 1 (1*1)).
    replace (1*1) with 1 by ring. destruct Q as (Q1&Q2&Q3).
    set (r := linminQuad _ _ _ _ _ _ _ _ _) in *. rewrite Q1. change (mp_abort p) with false. cbv iota.
    change (xnz (newBeta o p true (ob_g o 0) (ob_Kg o 0) (ob_g o 0) (ob_constrain o 0 (ob_Kg o 0)) (Fin 1) (Fin 0))) with (negb (Reqb 0 0)).
    unfold newBeta. change (xnz (Fin 0)) with (negb (Reqb 0 0)). unfold Reqb. destruct (Req_EM_T 0 0); [|congruence]. cbn [negb]. cbv iota.
    rewrite Q2, Q3.
    assert (SS : ob_step o (- (1/400)) (-1) (xopp (Fin (1/4000))) = -(9/4000)) by (cbn; field). rewrite SS.
    assert (EE : ob_E o (-(9/4000)) = Fin 1) by (apply (spike_at _ _ eq_refl); lra). rewrite EE. reflexivity.
  - split; [lra|]. rewrite E0. cbn. apply Rltb_true. lra.
Qed.

(** The contract is met, with a non-zero step, by the cubic line search on a parabola. *)
Lemma parabola_example : let o := obj1 (fun x => Fin (x*x)) (fun x => 2*x) 1 in
  let r := linminCubicWolfe o (defaults PolakRibiere CubicWolfe 100) 1 (-1) (Fin 1) (Fin 1) (ob_E o 1) 2 2 in
  lr_ok r = true /\ lr_alpha r = Fin 1 /\ lr_st r = 0.
Proof.
  intros o r. enough (HR : r = mkLR true (Fin 1) (Fin (0*0)) (2*0) (1*(2*0)) 0) by (rewrite HR; auto). unfold r, linminCubicWolfe. cbn [ob_dot o obj1 xleb]. unfold Rleb. destruct (Rle_dec 0 _); [exfalso; lra|].
  change (Z.to_nat _) with (S 3). generalize 3%nat; intros kk. cbn [cubicLoop].
  assert (S1 : ob_step o 1 (-1) (xsub (Fin 1) (Fin 0)) = 0) by (cbn; ring). rewrite S1.
  assert (D1 : ob_dot o (ob_g o 0) (-1) = Fin 0) by (cbn; f_equal; ring). rewrite D1.
  cbn [ob_E o obj1 isfin negb]. cbn [mp_wolfeE mp_wolfeG defaults xmul xadd xleb].
  match goal with |- context[Rleb ?a ?b && Rleb ?c ?d] => replace (Rleb a b) with true by (symmetry; apply Rleb_true; lra);
    replace (Rleb c d) with true by (symmetry; apply Rleb_true; lra) end.
  reflexivity.
Qed.
