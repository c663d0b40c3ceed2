(** D2: forces and lattice derivative. *)
From Coq Require Import ZArith Reals List Bool Lia Lra Psatz.
From Coquelicot Require Import Coquelicot.
From Verif Require Import Base WorkDiv_Model Grid_Model Vec3_Model Vec3_Facts Lattice_Model RealUtil Coulomb_Model Coulomb_Proofs Coulomb_Proofs3 WS_Model Ions_Model CellMap_Spec CellMap_Proofs VdW_Model VdW_Spec VdW_Proofs.
Import ListNotations.
Local Open Scope R_scope.
Set Bullet Behavior "Strict Subproofs".

Lemma loc_lt r c : r < c -> locally r (fun s => s < c). Proof. intros H. apply (open_lt c). exact H. Qed.
Lemma loc_gt r c : c < r -> locally r (fun s => c < s). Proof. intros H. apply (open_gt c). exact H. Qed.
Lemma scaled_lt r R0 : 0 < R0 -> (r * (1 / R0) < rRegularize <-> r < rRegularize * R0).
Proof.
  intros P. assert (E : r = r * (1 / R0) * R0) by (field; lra). split; intros H.
  - rewrite E. apply Rmult_lt_compat_r; auto.
  - apply (Rmult_lt_reg_r R0); auto. rewrite <- E. exact H.
Qed.
Lemma vdwPair_derive r C6 R0 lj : 0 < r -> (lj = 0 -> 0 < R0 /\ r <> rRegularize * R0) -> (lj <> 0 -> r <> lj) ->
  is_derive (fun s => fst (vdwPair s C6 R0 lj)) r (snd (vdwPair r C6 R0 lj)).
Proof.
  intros P H0 H1. unfold vdwPair. destruct (Req_EM_T lj 0) as [Z|Z].
  - destruct (H0 Z) as [PR K]. assert (B := scaled_lt r R0 PR). destruct (Rlt_dec (r * (1 / R0)) rRegularize) as [L|L].
    + cbn [snd]. apply (is_derive_ext_loc (fun _ => eRegularize * C6 * (1 / R0) ^ 6)); [|apply (is_derive_const (V:=R_NormedModule))].
      generalize (loc_lt r (rRegularize * R0) (proj1 B L)). apply filter_imp. intros s Hs. cbv zeta. destruct (Rlt_dec (s * (1 / R0)) rRegularize) as [_|N]; [reflexivity|]. exfalso. apply N, scaled_lt; auto.
    + cbv zeta. cbn [snd]. assert (G : rRegularize * R0 < r) by (destruct (Rtotal_order r (rRegularize * R0)) as [T|[T|T]]; [exfalso; apply L, B, T|contradiction|exact T]).
      apply (is_derive_ext_loc (fun s => C6 * (1 / s) ^ 6 * (1 / (1 + exp (- (20) * (s * (1 / R0) - 1)))))).
      * generalize (loc_gt r (rRegularize * R0) G). apply filter_imp. intros s Hs. destruct (Rlt_dec (s * (1 / R0)) rRegularize) as [Y|_]; [|reflexivity]. apply scaled_lt in Y; auto. lra.
      * assert (X := exp_pos (- (20) * (r * (1 / R0) - 1))). auto_derive; fold (r * (1 / R0) - 1); [repeat split; try lra; try (apply Rgt_not_eq, Rlt_gt; lra)|].
        generalize dependent (exp (- (20) * (r * (1 / R0) - 1))). intros w Pw. field. repeat split; lra.
  - destruct (Rlt_dec lj r) as [L|L].
    + cbn [snd]. apply (is_derive_ext_loc (fun _ => 0)); [|apply (is_derive_const (V:=R_NormedModule))].
      generalize (loc_gt r lj L). apply filter_imp. intros s Hs. destruct (Rlt_dec lj s); [reflexivity|lra].
    + cbv zeta. cbn [snd]. assert (G : r < lj) by (assert (D := H1 Z); lra).
      apply (is_derive_ext_loc (fun s => (C6 * (1 / s) ^ 6) * (1 - 1/2 * R0 ^ 6 * (1 / s) ^ 6))).
      * generalize (loc_lt r lj G). apply filter_imp. intros s Hs. destruct (Rlt_dec lj s); [lra|reflexivity].
      * auto_derive; [repeat split; lra|]. field. lra.
Qed.

Section D2.
  Variables (n : nat) (par : nat -> d2par) (scaleFac lj : R) (eps : mat R) (d : nat -> vec R).
  Definition C6p c1 c2 := sqrt (p_C6 (par c1) * p_C6 (par c2)).
  Definition R0p c1 c2 := p_R0 (par c1) + p_R0 (par c2).
  Definition test0 (q : R) : bool := if Req_EM_T q 0 then false else true.
  Definition e2 (Rl : mat R) (pos : nat -> vec R) c1 c2 iR : R :=
    let q := metric2 (RTR Rl) (sep pos c1 c2 iR) in if test0 q then - (cellWeight iR * scaleFac * fst (vdwPair (sqrt q) (C6p c1 c2) (R0p c1 c2) lj)) else 0.
  Definition g2 (Rl : mat R) (pos : nat -> vec R) c1 c2 iR : R :=
    let q := metric2 (RTR Rl) (sep pos c1 c2 iR) in if test0 q then - (cellWeight iR * scaleFac * snd (vdwPair (sqrt q) (C6p c1 c2) (R0p c1 c2) lj)) / sqrt q * rate Rl (sep pos c1 c2 iR) (rvsub (d c1) (d c2)) eps else 0.
  Definition Phi (f : nat -> vec R) (s : mat R) : R := contraction s eps - workOf n f d.
  Definition sum3 (F : nat -> nat -> V3 -> R) (cells : list V3) : R := rsum (fun c1 => rsum (fun c2 => rsum (F c1 c2) cells) (seq 0 n)) (seq 0 n).

  Lemma d2cell_E Rl pos c1 c2 a iR : Etot (d2cell Rl pos scaleFac lj c1 c2 (C6p c1 c2) (R0p c1 c2) a iR) = Etot a + e2 Rl pos c1 c2 iR.
  Proof. unfold d2cell, e2, test0. cbv zeta. destruct (Req_EM_T _ 0); cbn [Etot]; lra. Qed.
  Lemma d2cell_Phi Rl pos c1 c2 a iR : (c1 < n)%nat -> (c2 < n)%nat ->
    Phi (forces (d2cell Rl pos scaleFac lj c1 c2 (C6p c1 c2) (R0p c1 c2) a iR)) (E_RRT (d2cell Rl pos scaleFac lj c1 c2 (C6p c1 c2) (R0p c1 c2) a iR))
    = Phi (forces a) (E_RRT a) + g2 Rl pos c1 c2 iR.
  Proof.
    intros L1 L2. unfold d2cell, g2, test0, Phi. cbv zeta. destruct (Req_EM_T _ 0); [lra|]. cbn [forces E_RRT].
    rewrite work_sub, work_add, contraction_sub, contraction_scale by auto. rewrite !rdot_scale_l.
    unfold rate. set (v := rmv (RTR Rl) (sep pos c1 c2 iR)). replace (rdot v (rvsub (d c1) (d c2))) with (rdot v (d c1) - rdot v (d c2)).
    - unfold Rdiv. ring.
    - rewrite !(rdot_comm v). symmetry. apply rdot_subv.
  Qed.
  Lemma d2local_E Rl pos cells : Etot (d2local Rl n par pos scaleFac lj cells) = sum3 (e2 Rl pos) cells.
  Proof.
    unfold d2local, sum3. rewrite (fold_sum _ Etot (fun c1 => rsum (fun c2 => rsum (e2 Rl pos c1 c2) cells) (seq 0 n))); [cbn [Etot]; lra|]. intros a c1 _.
    rewrite (fold_sum _ Etot (fun c2 => rsum (e2 Rl pos c1 c2) cells)); [reflexivity|]. intros b c2 _. unfold d2pair. apply (fold_sum _ Etot). intros s g _. apply d2cell_E.
  Qed.
  Lemma d2local_Phi Rl pos cells : Phi (forces (d2local Rl n par pos scaleFac lj cells)) (E_RRT (d2local Rl n par pos scaleFac lj cells)) = sum3 (g2 Rl pos) cells.
  Proof.
    unfold d2local, sum3. pose (PV := fun a : d2acc => Phi (forces a) (E_RRT a)).
    match goal with |- Phi (forces ?x) (E_RRT ?x) = _ => change (PV x = rsum (fun c1 => rsum (fun c2 => rsum (g2 Rl pos c1 c2) cells) (seq 0 n)) (seq 0 n)) end.
    rewrite (fold_sum _ PV (fun c1 => rsum (fun c2 => rsum (g2 Rl pos c1 c2) cells) (seq 0 n))).
    - unfold PV, Phi. cbn [forces E_RRT]. rewrite contraction_zero, work_zero. lra.
    - intros a c1 I1. apply in_seq in I1. rewrite (fold_sum _ PV (fun c2 => rsum (g2 Rl pos c1 c2) cells)); [reflexivity|]. intros b c2 I2. apply in_seq in I2.
      unfold d2pair. apply (fold_sum _ PV). intros s g _. apply d2cell_Phi; lia.
  Qed.
  Lemma energyD2_E Rl pos procs : Etot (energyAndGradD2 Rl n par pos scaleFac lj procs) = sum3 (e2 Rl pos) (concat procs).
  Proof.
    unfold energyAndGradD2. rewrite (fold_sum _ Etot (fun cells => sum3 (e2 Rl pos) cells)); [|intros s a _; cbn [d2reduce Etot]; rewrite d2local_E; reflexivity].
    cbn [Etot]. rewrite Rplus_0_l. unfold sum3. rewrite rsum_swap. apply rsum_ext. intros c1 _. rewrite rsum_swap. apply rsum_ext. intros c2 _. apply rsum_concat.
  Qed.
  Lemma work_plus (f g : nat -> vec R) : workOf n (fun c => rvadd (f c) (g c)) d = workOf n f d + workOf n g d.
  Proof. unfold workOf. rewrite <- rsum_add. apply rsum_ext. intros c _. apply rdot_addv. Qed.
  Lemma energyD2_Phi Rl pos procs :
    Phi (forces (energyAndGradD2 Rl n par pos scaleFac lj procs)) (E_RRT (energyAndGradD2 Rl n par pos scaleFac lj procs)) = sum3 (g2 Rl pos) (concat procs).
  Proof.
    unfold energyAndGradD2. pose (PV := fun a : d2acc => Phi (forces a) (E_RRT a)).
    match goal with |- Phi (forces ?x) (E_RRT ?x) = _ => change (PV x = sum3 (g2 Rl pos) (concat procs)) end.
    rewrite (fold_sum _ PV (fun cells => sum3 (g2 Rl pos) cells)).
    - unfold PV at 1, Phi. cbn [forces E_RRT]. rewrite contraction_zero, work_zero, Rminus_0_r, Rplus_0_l.
      unfold sum3. rewrite rsum_swap. apply rsum_ext. intros c1 _. rewrite rsum_swap. apply rsum_ext. intros c2 _. apply rsum_concat.
    - intros s a _. rewrite <- d2local_Phi. unfold PV, Phi. cbn [d2reduce forces E_RRT]. rewrite contraction_add, work_plus. ring.
  Qed.
End D2.

Lemma test0_loc q : 0 < q -> locally q (fun y => test0 y = test0 q).
Proof.
  intros P. generalize (loc_gt q 0 P). apply filter_imp. intros y Hy. unfold test0. destruct (Req_EM_T y 0), (Req_EM_T q 0); try reflexivity; lra.
Qed.
Lemma d2_gradient n par scaleFac lj (Rl eps : mat R) (pos d : nat -> vec R) (procs : list (list V3)) :
  separate Rl pos n (concat procs) ->
  (lj = 0 -> (forall c, (c < n)%nat -> 0 < p_R0 (par c)) /\
    forall c1 c2 g, (c1 < n)%nat -> (c2 < n)%nat -> In g (concat procs) -> distance Rl pos c1 c2 g <> 3000002494598603 / 10000000000000000 * (p_R0 (par c1) + p_R0 (par c2))) ->
  (lj <> 0 -> none_at Rl pos n (concat procs) lj) ->
  let r := energyAndGradD2 Rl n par pos scaleFac lj procs in
  is_derive (fun t => Etot (energyAndGradD2 (strained Rl eps t) n par (displaced pos d t) scaleFac lj procs)) 0 (contraction (E_RRT r) eps - workOf n (forces r) d).
Proof.
  intros Sep H0 H1. cbv zeta. fold (Phi n eps d (forces (energyAndGradD2 Rl n par pos scaleFac lj procs)) (E_RRT (energyAndGradD2 Rl n par pos scaleFac lj procs))).
  rewrite energyD2_Phi. apply (is_derive_ext (fun t => sum3 n (e2 par scaleFac lj (strained Rl eps t) (displaced pos d t)) (concat procs))); [intros t; symmetry; apply energyD2_E|].
  unfold sum3. apply (rsum_derive (seq 0 n) (fun c1 t => rsum (fun c2 => rsum (e2 par scaleFac lj (strained Rl eps t) (displaced pos d t) c1 c2) (concat procs)) (seq 0 n))). intros c1 I1.
  apply (rsum_derive (seq 0 n) (fun c2 t => rsum (e2 par scaleFac lj (strained Rl eps t) (displaced pos d t) c1 c2) (concat procs))). intros c2 I2.
  apply (rsum_derive (concat procs) (fun g t => e2 par scaleFac lj (strained Rl eps t) (displaced pos d t) c1 c2 g)). intros g I3.
  apply in_seq in I1. apply in_seq in I2. assert (L1 : (c1 < n)%nat) by lia. assert (L2 : (c2 < n)%nat) by lia.
  assert (T := term_derive (qt Rl eps pos d c1 c2 g) (rate Rl (sep pos c1 c2 g) (rvsub (d c1) (d c2)) eps) test0
    (fun r => - (cellWeight g * scaleFac * fst (vdwPair r (C6p par c1 c2) (R0p par c1 c2) lj)))
    (- (cellWeight g * scaleFac * snd (vdwPair (sqrt (qt Rl eps pos d c1 c2 g 0)) (C6p par c1 c2) (R0p par c1 c2) lj)))).
  unfold g2. rewrite qt_0 in T. apply T; clear T.
  - apply qt_derive.
  - apply metric2_RTR_pos.
  - intros E. apply distance_0 in E. destruct (Sep c1 c2 g L1 L2 I3 E) as [-> ->]. split; [unfold test0; destruct (Req_EM_T 0 0); [reflexivity|lra]|]. intros t. apply qt_self. reflexivity.
  - apply test0_loc.
  - intros P _. apply (is_derive_opp (V:=R_NormedModule)). apply (is_derive_scal (fun r => fst (vdwPair r (C6p par c1 c2) (R0p par c1 c2) lj))). rewrite <- distance_sep.
    apply vdwPair_derive.
    + rewrite distance_sep. apply sqrt_lt_R0. exact P.
    + intros Z. destruct (H0 Z) as [A B]. split; [unfold R0p; assert (A1 := A c1 L1); assert (A2 := A c2 L2); lra|]. apply B; auto.
    + intros Z. apply (H1 Z); auto.
Qed.

(** consequences for the forces and the lattice derivative *)
Lemma rate_rigid Rl x v : rate Rl x (rvsub v v) mzero = 0.
Proof. unfold rate. replace (rvsub v v) with (V 0 0 0) by (destruct v; v3u; f_equal; ring). generalize (rmv (RTR Rl) x) (Ions_Model.outer (rmv Rl x) (rmv Rl x)). intros w m. destruct w, m. unfold contraction, mzero. v3u. ring. Qed.
Lemma work_rigid n f v : workOf n f (fun _ => v) = rdot (V (rsum (fun c => c0 (f c)) (seq 0 n)) (rsum (fun c => c1 (f c)) (seq 0 n)) (rsum (fun c => c2 (f c)) (seq 0 n))) v.
Proof.
  unfold workOf. unfold rdot, gdot. cbn [c0 c1 c2].
  rewrite !(Rmult_comm (rsum _ _)), <- !rsum_scale, <- !rsum_add. apply rsum_ext. intros c _. ring.
Qed.
Lemma rate_rotation Rl x (w : vec R) : rate Rl x (rvsub vzero vzero) (M 0 (- c2 w) (c1 w) (c2 w) 0 (- c0 w) (- c1 w) (c0 w) 0) = 0.
Proof.
  unfold rate. replace (rdot (rmv (RTR Rl) x) (rvsub vzero vzero)) with 0.
  - generalize (rmv Rl x). intros r. destruct r, w. unfold contraction, Ions_Model.outer. cbn. ring.
  - generalize (rmv (RTR Rl) x). intros r. destruct r. unfold vzero. v3u. ring.
Qed.
Lemma contraction_antisym (s : mat R) : (forall w : vec R, contraction s (M 0 (- c2 w) (c1 w) (c2 w) 0 (- c0 w) (- c1 w) (c0 w) 0) = 0) -> m01 s = m10 s /\ m02 s = m20 s /\ m12 s = m21 s.
Proof.
  intros H. assert (A := H (V 1 0 0)). assert (B := H (V 0 1 0)). assert (C := H (V 0 0 1)). destruct s. unfold contraction in *. cbn in *. lra.
Qed.
Lemma sum3_zero n F cells : (forall c1 c2 g, F c1 c2 g = 0) -> sum3 n F cells = 0.
Proof.
  intros H. unfold sum3. rewrite <- (rsum_zero (seq 0 n)). apply rsum_ext. intros c1 _. rewrite <- (rsum_zero (seq 0 n)). apply rsum_ext. intros c2 _.
  rewrite <- (rsum_zero cells). apply rsum_ext. intros g _. apply H.
Qed.
Lemma d2_total_force n par scaleFac lj Rl pos procs :
  let f := forces (energyAndGradD2 Rl n par pos scaleFac lj procs) in
  rsum (fun c => c0 (f c)) (seq 0 n) = 0 /\ rsum (fun c => c1 (f c)) (seq 0 n) = 0 /\ rsum (fun c => c2 (f c)) (seq 0 n) = 0.
Proof.
  cbv zeta. assert (W : forall v, workOf n (forces (energyAndGradD2 Rl n par pos scaleFac lj procs)) (fun _ => v) = 0).
  { intros v. assert (P := energyD2_Phi n par scaleFac lj mzero (fun _ => v) Rl pos procs). rewrite sum3_zero in P.
    - unfold Phi in P. assert (Z : forall m, contraction m mzero = 0) by (intros m; destruct m; unfold contraction, mzero; cbn; ring). rewrite Z in P. lra.
    - intros c1 c2 g. unfold g2. rewrite rate_rigid. destruct (test0 _); ring. }
  assert (A := W (V 1 0 0)). assert (B := W (V 0 1 0)). assert (C := W (V 0 0 1)). rewrite work_rigid in A, B, C.
  unfold rdot, gdot in A, B, C. cbn [c0 c1 c2] in A, B, C. lra.
Qed.
Lemma d2_symmetric_stress n par scaleFac lj Rl pos procs :
  let s := E_RRT (energyAndGradD2 Rl n par pos scaleFac lj procs) in m01 s = m10 s /\ m02 s = m20 s /\ m12 s = m21 s.
Proof.
  cbv zeta. apply contraction_antisym. intros w.
  assert (P := energyD2_Phi n par scaleFac lj (M 0 (- c2 w) (c1 w) (c2 w) 0 (- c0 w) (- c1 w) (c0 w) 0) (fun _ => vzero) Rl pos procs). rewrite sum3_zero in P.
  - unfold Phi in P. assert (Z : forall f, workOf n f (fun _ => vzero) = 0) by (intros f; rewrite work_rigid; unfold vzero, rdot, gdot; cbn [c0 c1 c2]; ring). rewrite Z in P. lra.
  - intros c1 c2 g. unfold g2. rewrite rate_rotation. destruct (test0 _); ring.
Qed.
