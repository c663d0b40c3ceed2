(** Periodic Ewald sum: derivatives, conservation laws, Ewald's formula. *)
From Coq Require Import ZArith Reals List Bool Lia Lra Psatz.
From Coquelicot Require Import Coquelicot.
From Verif Require Import Base Gauss Grid_Model Vec3_Model Vec3_Facts Lattice_Model RealUtil Basis_Model Coulomb_Model Coulomb_Proofs Coulomb_Proofs3 WS_Model Ions_Model CellMap_Spec CellMap_Proofs
  VdW_Model VdW_Spec VdW_Proofs VdW_Proofs2 VdW_Proofs3 VdW_Proofs4 Ewald_Model Ewald_Spec Ewald_Proofs Ewald_Proofs2.
Import ListNotations.
Local Open Scope R_scope.
Set Bullet Behavior "Strict Subproofs".

Ltac v3h H := revert H; v3u; intros H.
(** ** Reduced positions *)
Lemma loc_all n (P : nat -> R -> Prop) : (forall c, (c < n)%nat -> locally 0 (P c)) -> locally 0 (fun t => forall c, (c < n)%nat -> P c t).
Proof.
  induction n as [|n IH]; intros H; [apply filter_forall; intros; lia|].
  assert (A := filter_and _ _ (IH (fun c L => H c (Nat.lt_trans _ _ _ L (Nat.lt_succ_diag_r n)))) (H n (Nat.lt_succ_diag_r n))).
  revert A. apply filter_imp. intros t [A B] c L. destruct (Nat.eq_dec c n) as [->|N]; [exact B|apply A; lia].
Qed.
Lemma centred1_loc x p dx dp : off_edge (x - p) -> locally 0 (fun t => centred1 (x + t * dx) (p + t * dp) = centred1 x p + t * dx).
Proof.
  intros O. set (k := rfloor (1/2 + x - p)). assert (B := rfloor_bounds (1/2 + x - p)). fold k in B.
  assert (S : IZR k < 1/2 + x - p) by (destruct (proj1 B) as [L|E]; [exact L|exfalso; apply (O k); lra]).
  assert (C : continuous (fun t => 1/2 + (x + t * dx) - (p + t * dp)) 0) by (apply (ex_derive_continuous (K:=R_AbsRing) (V:=R_NormedModule)); auto_derive; exact Logic.I).
  assert (L1 : locally 0 (fun t => IZR k < 1/2 + (x + t * dx) - (p + t * dp))) by (apply (C (fun y => IZR k < y)), loc_gt; lra).
  assert (L2 : locally 0 (fun t => 1/2 + (x + t * dx) - (p + t * dp) < IZR k + 1)) by (apply (C (fun y => y < IZR k + 1)), loc_lt; lra).
  assert (A := filter_and _ _ L1 L2). revert A. apply filter_imp. intros t [A1 A2]. unfold centred1. fold k.
  rewrite (rfloor_unique (1/2 + (x + t * dx) - (p + t * dp)) k) by lra. ring.
Qed.
Lemma centred_loc n pos d p0 dp : off_edges n pos (fun _ => p0) ->
  locally 0 (fun t => forall c, (c < n)%nat -> centred (rvadd p0 (rvscale t dp)) (displaced pos d t c) = displaced (fun c => centred p0 (pos c)) d t c).
Proof.
  intros O. apply loc_all. intros c L. destruct (O c L) as (A & B & C).
  assert (H := filter_and _ _ (centred1_loc _ _ (c0 (d c)) (c0 dp) A) (filter_and _ _ (centred1_loc _ _ (c1 (d c)) (c1 dp) B) (centred1_loc _ _ (c2 (d c)) (c2 dp) C))).
  revert H. apply filter_imp. intros t (H0 & H1 & H2). unfold centred, displaced. destruct (pos c) as [x0 x1 x2], (d c) as [y0 y1 y2], p0 as [p0 p1 p2], dp as [q0 q1 q2]. cbn [c0 c1 c2] in *. v3u. rewrite !(Rmult_comm _ t). f_equal; assumption.
Qed.
Lemma fold_ext {A S} (f g : S -> A -> S) l s : (forall a x, In x l -> f a x = g a x) -> fold_left f l s = fold_left g l s.
Proof. revert s. induction l as [|x l IH]; intros s H; cbn [fold_left]; [reflexivity|]. rewrite H by (left; auto). apply IH. intros; apply H; right; auto. Qed.
Lemma realSum_ext Rl sigma n Zc p p' N a : (forall c, (c < n)%nat -> p c = p' c) -> realSum Rl sigma n Zc p N a = realSum Rl sigma n Zc p' N a.
Proof.
  intros H. unfold realSum. apply fold_ext. intros b c2 I2. apply fold_ext. intros b' c1 I1. apply fold_ext. intros b'' g _. apply in_seq in I1. apply in_seq in I2.
  unfold realTerm, sep. rewrite !H by lia. reflexivity.
Qed.
Lemma recipTerm_ext Rl sigma n Zc p p' a g : (forall c, (c < n)%nat -> p c = p' c) -> recipTerm Rl sigma n Zc p a g = recipTerm Rl sigma n Zc p' a g.
Proof.
  intros H. unfold recipTerm. cbv zeta. assert (S : structureFactor n Zc p g = structureFactor n Zc p' g).
  { unfold structureFactor. apply fold_ext. intros s c I. apply in_seq in I. unfold phase. rewrite H by lia. reflexivity. }
  rewrite S. destruct (Req_EM_T _ 0); [reflexivity|]. f_equal. apply fold_ext. intros f c I. apply in_seq in I. unfold phase. rewrite H by lia. reflexivity.
Qed.
Lemma periodic_ext Rl sigma n Zc p p' NR NG f s : (forall c, (c < n)%nat -> p c = p' c) -> ewaldPeriodicAt Rl sigma n Zc p NR NG f s = ewaldPeriodicAt Rl sigma n Zc p' NR NG f s.
Proof.
  intros H. unfold ewaldPeriodicAt. cbv zeta. destruct (Req_EM_T _ 0); [reflexivity|]. rewrite (realSum_ext Rl sigma n Zc p p' NR _ H).
  rewrite (fold_ext (recipTerm Rl sigma n Zc p) (recipTerm Rl sigma n Zc p')); [reflexivity|]. intros a g _. apply recipTerm_ext. exact H.
Qed.

(** ** Energy and gradients as sums *)
Section Sums.
  Variables (n : nat) (Zc : nat -> R) (sigma : R).
  Lemma ZsqTot_sum : ZsqTot n Zc = rsum (fun c => Zc c * Zc c) (seq 0 n).
  Proof. unfold ZsqTot. rewrite (fold_sum _ (fun s => s) (fun c => Zc c * Zc c)); [lra|reflexivity]. Qed.
  Lemma Ztot_sum : Ztot n Zc = rsum Zc (seq 0 n).
  Proof. unfold Ztot. rewrite (fold_sum _ (fun s => s) Zc); [lra|reflexivity]. Qed.
  Lemma ZsqTot_zero : ZsqTot n Zc = 0 -> forall c, (c < n)%nat -> Zc c = 0.
  Proof.
    intros H c L. rewrite ZsqTot_sum in H. assert (G := rsum_ge (fun c => Zc c * Zc c) (seq 0 n) c ltac:(intros; nra) ltac:(apply in_seq; lia)). cbv beta in G. rewrite H in G. nra.
  Qed.
  Definition e0f (Rl : mat R) : R := 1/2 * (4 * PI) * (Ztot n Zc * Ztot n Zc) * (- (1/2) * (sigma * sigma)) / Rabs (rdet Rl).
  Definition selfE : R := 1/2 * ZsqTot n Zc * eta sigma * (2 / sqrt PI).
  Definition sumR (Rl : mat R) (pos : nat -> vec R) (N : V3) : R := sum2 n (fun c2 c1 => rsum (eR Zc sigma Rl pos c1 c2) (boxLoop N)).
  Definition sumK (Rl : mat R) (pos : nat -> vec R) (N : V3) : R := rsum (eK n Zc sigma Rl pos) (boxLoop N).
  Lemma sums_zero Rl pos NR NG : ZsqTot n Zc = 0 -> sumR Rl pos NR = 0 /\ sumK Rl pos NG = 0 /\ e0f Rl = 0 /\ selfE = 0.
  Proof.
    intros H. assert (Z := ZsqTot_zero H). repeat match goal with |- _ /\ _ => split end.
    - unfold sumR, sum2. transitivity (rsum (fun _ : nat => 0) (seq 0 n)); [|apply rsum_zero]. apply rsum_ext. intros a I. apply in_seq in I. transitivity (rsum (fun _ : nat => 0) (seq 0 n)); [|apply rsum_zero].
      apply rsum_ext. intros b J. apply in_seq in J. transitivity (rsum (fun _ : V3 => 0) (boxLoop NR)); [|apply rsum_zero]. apply rsum_ext. intros g _. unfold eR. cbv zeta. rewrite (Z a) by lia.
      destruct (test0 _); [unfold Rdiv; ring|reflexivity].
    - unfold sumK. transitivity (rsum (fun _ : V3 => 0) (boxLoop NG)); [|apply rsum_zero]. apply rsum_ext. intros g _. unfold eK. destruct (Req_EM_T _ 0); [reflexivity|]. unfold nS.
      replace (reS n Zc pos g) with 0; [replace (imS n Zc pos g) with 0; [ring|]|].
      + symmetry. unfold imS. transitivity (rsum (fun _ : nat => 0) (seq 0 n)); [|apply rsum_zero]. apply rsum_ext. intros c I. apply in_seq in I. rewrite Z by lia. ring.
      + symmetry. unfold reS. transitivity (rsum (fun _ : nat => 0) (seq 0 n)); [|apply rsum_zero]. apply rsum_ext. intros c I. apply in_seq in I. rewrite Z by lia. ring.
    - unfold e0f. replace (Ztot n Zc) with 0; [unfold Rdiv; ring|]. symmetry. rewrite Ztot_sum. transitivity (rsum (fun _ : nat => 0) (seq 0 n)); [|apply rsum_zero]. apply rsum_ext. intros c I. apply in_seq in I. apply Z. lia.
    - unfold selfE. rewrite H. ring.
  Qed.
  Lemma periodic_E Rl pos NR NG f s : energy (ewaldPeriodicAt Rl sigma n Zc pos NR NG f s) = e0f Rl - selfE + sumR Rl pos NR + sumK Rl pos NG.
  Proof.
    unfold ewaldPeriodicAt. cbv zeta. destruct (Req_EM_T _ 0) as [E|E].
    - destruct (sums_zero Rl pos NR NG E) as (-> & -> & -> & ->). cbn [energy]. ring.
    - cbn [energy]. rewrite (fold_sum _ energy (eK n Zc sigma Rl pos)) by (intros; apply recip_E). rewrite realSum_E. cbn [energy]. unfold e0f, selfE, sumR, sumK. ring.
  Qed.
  Section Dir.
    Variables (eps : mat R) (d : nat -> vec R).
    Definition gsum (Rl : mat R) (pos : nat -> vec R) (NR NG : V3) : R :=
      - e0f Rl * rtrace eps + sum2 n (fun c2 c1 => rsum (gR Zc sigma eps d Rl pos c1 c2) (boxLoop NR)) + rsum (gK n Zc sigma eps d Rl pos) (boxLoop NG).
    Lemma work_minus (f g : nat -> vec R) : workOf n (added f g) d = workOf n g d - workOf n f d.
    Proof.
      unfold workOf, added. replace (rsum (fun c => rdot (g c) (d c)) (seq 0 n) - rsum (fun c => rdot (f c) (d c)) (seq 0 n)) with (rsum (fun c => rdot (g c) (d c)) (seq 0 n) + (-1) * rsum (fun c => rdot (f c) (d c)) (seq 0 n)) by ring.
      rewrite <- rsum_scale, <- rsum_add. apply rsum_ext. intros c _. rewrite rdot_subv. ring.
    Qed.
    Lemma periodic_Phi Rl pos NR NG f s : let r := ewaldPeriodicAt Rl sigma n Zc pos NR NG f s in
      contraction (rmsub (latt r) s) eps - workOf n (added f (force r)) d = if Req_EM_T (ZsqTot n Zc) 0 then 0 else gsum Rl pos NR NG.
    Proof.
      cbv zeta. rewrite contraction_sub, work_minus. unfold ewaldPeriodicAt. cbv zeta. destruct (Req_EM_T _ 0) as [E|E]; cbn [latt force]; [ring|].
      rewrite contraction_add. match goal with |- contraction s eps + contraction (latt ?a) eps - _ - (workOf n (force ?a) d - _) = _ => transitivity (PhiA n eps d a + workOf n f d); [unfold PhiA, Phi; ring|] end.
      rewrite (fold_sum _ (PhiA n eps d) (gK n Zc sigma eps d Rl pos)) by (intros; apply recip_Phi). rewrite realSum_Phi. unfold PhiA at 1, Phi. cbn [force latt].
      rewrite contraction_scale, trace_contraction. unfold gsum, e0f. ring.
    Qed.
  End Dir.
End Sums.
Lemma home_centred x : home x (centred (V 0 0 0) x).
Proof.
  split.
  - exists (- rfloor (1/2 + c0 x - 0))%Z, (- rfloor (1/2 + c1 x - 0))%Z, (- rfloor (1/2 + c2 x - 0))%Z. rewrite !opp_IZR. destruct x as [a b c]. unfold centred, centred1. cbn [c0 c1 c2]. v3u. f_equal; ring.
  - unfold centred, centred1. cbn [c0 c1 c2]. assert (A := rfloor_bounds (1/2 + c0 x - 0)). assert (B := rfloor_bounds (1/2 + c1 x - 0)). assert (C := rfloor_bounds (1/2 + c2 x - 0)). lra.
Qed.
Lemma centred1_unique x y z : y - x = IZR z -> -1/2 <= y < 1/2 -> y = centred1 x 0.
Proof. intros E B. unfold centred1. rewrite (rfloor_unique (1/2 + x - 0) (- z)); rewrite opp_IZR; lra. Qed.
Lemma home_unique x y : home x y -> y = centred (V 0 0 0) x.
Proof.
  intros ((a & b & c & E) & H0 & H1 & H2). destruct x as [x0 x1 x2], y as [y0 y1 y2]. v3h E. injection E as E0 E1 E2. cbn [c0 c1 c2] in *. unfold centred. cbn [c0 c1 c2].
  f_equal; [apply (centred1_unique x0 y0 a)|apply (centred1_unique x1 y1 b)|apply (centred1_unique x2 y2 c)]; lra.
Qed.
Lemma rmv_inj A w : rdet A <> 0 -> rmv A w = V 0 0 0 -> w = V 0 0 0.
Proof.
  intros D E. rewrite <- (rmv_id w). rewrite <- (rinv_l A D), rmv_mm, E. generalize (rinv A). intros m. destruct m. v3u. f_equal; ring.
Qed.
Lemma distinct_separate Rl n pos pos' box : rdet Rl <> 0 -> distinct_atoms n pos -> equivalent n pos pos' -> separate Rl pos' n box.
Proof.
  intros D Di Eq c1 c2 g L1 L2 _ Ed. apply distance_0 in Ed. rewrite metric2_RTR in Ed. apply rlen2_0 in Ed. apply rmv_inj in Ed; [|exact D].
  unfold sep in Ed. assert (Ec : c1 = c2).
  { apply Di; auto. destruct (Eq c1 L1) as (x1 & y1 & z1 & E1), (Eq c2 L2) as (x2 & y2 & z2 & E2). destruct g as [[x y] z]. unfold cellVec in Ed. cbn [v0 v1 v2 fst snd] in Ed.
    exists (x2 - x1 - x)%Z, (y2 - y1 - y)%Z, (z2 - z1 - z)%Z. rewrite !minus_IZR. destruct (pos c1), (pos c2), (pos' c1), (pos' c2). v3h E1. v3h E2. v3h Ed. v3u.
    injection E1 as E1a E1b E1c. injection E2 as E2a E2b E2c. injection Ed as Ea Eb Ec'. f_equal; lra. }
  split; [exact Ec|]. subst. apply cellVec_0. rewrite <- Ed. generalize (cellVec g) (pos' c2). intros u v. destruct u, v. v3u. f_equal; ring.
Qed.
Lemma periodic_gradient Rl sigma NR NG n Zc pos f s eps d : 0 < sigma -> rdet Rl <> 0 -> distinct_atoms n pos -> off_edges n pos (fun _ => V 0 0 0) ->
  let r := ewaldPeriodic Rl sigma NR NG n Zc pos f s in
  is_derive (fun t => energy (ewaldPeriodic (strained Rl eps t) sigma NR NG n Zc (displaced pos d t) f s)) 0 (contraction (rmsub (latt r) s) eps - workOf n (added f (force r)) d).
Proof.
  intros Sp D Di Off. cbv zeta. unfold ewaldPeriodic. set (p := fun c => centred (V 0 0 0) (pos c)).
  assert (Sep : separate Rl p n (boxLoop NR)).
  { apply (distinct_separate Rl n pos p); auto. intros c _. apply (proj1 (home_centred (pos c))). }
  rewrite periodic_Phi.
  apply (is_derive_ext_loc (fun t => e0f n Zc sigma (strained Rl eps t) - selfE n Zc sigma + sumR n Zc sigma (strained Rl eps t) (displaced p d t) NR + sumK n Zc sigma (strained Rl eps t) (displaced p d t) NG)).
  - generalize (centred_loc n pos d (V 0 0 0) (V 0 0 0) Off). apply filter_imp. intros t Ht.
    rewrite (periodic_ext (strained Rl eps t) sigma n Zc _ (displaced p d t)); [symmetry; apply periodic_E|]. intros c L. unfold p. rewrite <- Ht by exact L. f_equal. v3u. f_equal; ring.
  - destruct (Req_EM_T _ 0) as [E|E].
    + apply (is_derive_ext (fun _ => 0)); [|apply dconst]. intros t. destruct (sums_zero n Zc sigma (strained Rl eps t) (displaced p d t) NR NG E) as (-> & -> & -> & ->).
      match goal with |- ?a = ?b => change (@eq R a b) end. ring.
    + unfold gsum. apply dplus; [apply dplus|].
      * apply (is_derive_ext (fun t => - selfE n Zc sigma + 1/2 * (4 * PI) * (Ztot n Zc * Ztot n Zc) * (- (1/2) * (sigma * sigma)) * (1 / Rabs (rdet (strained Rl eps t))))).
        { intros t. match goal with |- ?a = ?b => change (@eq R a b) end. unfold e0f, Rdiv. ring. }
        eapply dval; [apply dplus; [apply dconst|apply dscal, invvol_derive; exact D]|]. unfold e0f, Rdiv. ring.
      * apply real_derive; auto.
      * unfold sumK. apply (rsum_derive (boxLoop NG) (fun g t => eK n Zc sigma (strained Rl eps t) (displaced p d t) g)). intros g _. apply eK_derive. exact D.
Qed.
Lemma periodic_total_force Rl sigma NR NG n Zc pos f s :
  let F := added f (force (ewaldPeriodic Rl sigma NR NG n Zc pos f s)) in
  rsum (fun c => c0 (F c)) (seq 0 n) = 0 /\ rsum (fun c => c1 (F c)) (seq 0 n) = 0 /\ rsum (fun c => c2 (F c)) (seq 0 n) = 0.
Proof.
  cbv zeta. unfold ewaldPeriodic. set (p := fun c => centred (V 0 0 0) (pos c)). set (F := added f (force (ewaldPeriodicAt Rl sigma n Zc p NR NG f s))).
  assert (Zm : forall m, contraction m mzero = 0) by (intros m; destruct m; unfold contraction, mzero; cbn; ring).
  assert (W : forall v, workOf n F (fun _ => v) = 0).
  { intros v. assert (P := periodic_Phi n Zc sigma mzero (fun _ => v) Rl p NR NG f s). cbv zeta in P. fold F in P. rewrite Zm in P.
    cut (gsum n Zc sigma mzero (fun _ => v) Rl p NR NG = 0); [intros G; rewrite G in P; destruct (Req_EM_T _ 0); lra|clear P].
    unfold gsum. rewrite gR_sym. replace (rtrace mzero) with 0 by (unfold mzero; v3u; ring).
    replace (rsum (gK n Zc sigma mzero (fun _ => v) Rl p) (boxLoop NG)) with 0.
    - replace (sum2 n (fun c2 c1 => rsum (gS Zc sigma mzero (fun _ => v) Rl p c1 c2) (boxLoop NR))) with 0; [ring|]. symmetry.
      unfold sum2. transitivity (rsum (fun _ : nat => 0) (seq 0 n)); [|apply rsum_zero]. apply rsum_ext. intros a _. transitivity (rsum (fun _ : nat => 0) (seq 0 n)); [|apply rsum_zero].
      apply rsum_ext. intros b _. transitivity (rsum (fun _ : V3 => 0) (boxLoop NR)); [|apply rsum_zero]. apply rsum_ext. intros g _. unfold gS. cbv zeta. rewrite rate_rigid. destruct (test0 _); ring.
    - symmetry. transitivity (rsum (fun _ : V3 => 0) (boxLoop NG)); [|apply rsum_zero]. apply rsum_ext. intros g _. unfold gK. cbv zeta. destruct (Req_EM_T _ 0); [reflexivity|].
      rewrite SF_rigid, Zm. replace (rtrace mzero) with 0 by (unfold mzero; v3u; ring). ring. }
  assert (A := W (V 1 0 0)). assert (B := W (V 0 1 0)). assert (C := W (V 0 0 1)). rewrite work_rigid in A, B, C.
  unfold rdot, gdot in A, B, C. cbn [c0 c1 c2] in A, B, C. lra.
Qed.
Lemma outer_antisym u (w : vec R) : contraction (Ions_Model.outer u u) (M 0 (- c2 w) (c1 w) (c2 w) 0 (- c0 w) (- c1 w) (c0 w) 0) = 0.
Proof. destruct u, w. unfold contraction, Ions_Model.outer. cbn. ring. Qed.
Lemma periodic_symmetric Rl sigma NR NG n Zc pos f s :
  let S := rmsub (latt (ewaldPeriodic Rl sigma NR NG n Zc pos f s)) s in m01 S = m10 S /\ m02 S = m20 S /\ m12 S = m21 S.
Proof.
  cbv zeta. unfold ewaldPeriodic. set (p := fun c => centred (V 0 0 0) (pos c)). apply contraction_antisym. intros w. set (e := M 0 (- c2 w) (c1 w) (c2 w) 0 (- c0 w) (- c1 w) (c0 w) 0).
  assert (T : rtrace e = 0) by (unfold e; v3u; ring).
  assert (P := periodic_Phi n Zc sigma e (fun _ => vzero) Rl p NR NG f s). cbv zeta in P.
  assert (Z : forall f, workOf n f (fun _ => vzero) = 0) by (intros h; rewrite work_rigid; unfold vzero, rdot, gdot; cbn [c0 c1 c2]; ring). rewrite Z in P.
  cut (gsum n Zc sigma e (fun _ => vzero) Rl p NR NG = 0); [intros G; rewrite G in P; destruct (Req_EM_T _ 0); lra|clear P].
  unfold gsum. rewrite gR_sym, T.
  replace (rsum (gK n Zc sigma e (fun _ => vzero) Rl p) (boxLoop NG)) with 0.
  - replace (sum2 n (fun c2 c1 => rsum (gS Zc sigma e (fun _ => vzero) Rl p c1 c2) (boxLoop NR))) with 0; [ring|]. symmetry.
    unfold sum2. transitivity (rsum (fun _ : nat => 0) (seq 0 n)); [|apply rsum_zero]. apply rsum_ext. intros a _. transitivity (rsum (fun _ : nat => 0) (seq 0 n)); [|apply rsum_zero].
    apply rsum_ext. intros b _. transitivity (rsum (fun _ : V3 => 0) (boxLoop NR)); [|apply rsum_zero]. apply rsum_ext. intros g _. unfold gS. cbv zeta. unfold e. rewrite rate_rotation. destruct (test0 _); ring.
  - symmetry. transitivity (rsum (fun _ : V3 => 0) (boxLoop NG)); [|apply rsum_zero]. apply rsum_ext. intros g _. unfold gK. cbv zeta. destruct (Req_EM_T _ 0); [reflexivity|].
    rewrite SF_rigid, T. unfold e. rewrite outer_antisym. ring.
Qed.
Lemma periodic_images Rl sigma NR NG n Zc pos pos' f s : equivalent n pos pos' -> ewaldPeriodic Rl sigma NR NG n Zc pos' f s = ewaldPeriodic Rl sigma NR NG n Zc pos f s.
Proof.
  intros Eq. unfold ewaldPeriodic. apply periodic_ext. intros c L. apply home_unique. destruct (home_centred (pos' c)) as [I B]. split; [|exact B].
  destruct (Eq c L) as (x & y & z & E1), I as (x' & y' & z' & E2). exists (x + x')%Z, (y + y')%Z, (z + z')%Z. rewrite !plus_IZR. clear B. revert E2. generalize (centred (V 0 0 0) (pos' c)). intros q E2.
  destruct (pos c), (pos' c), q. v3h E1. v3h E2. v3u. injection E1 as A1 A2 A3. injection E2 as B1 B2 B3. f_equal; lra.
Qed.

(** ** Ewald's formula *)
Lemma box_unique N l : centred_box N l -> Permutation.Permutation l (boxLoop N).
Proof.
  intros [ND H]. apply Permutation.NoDup_Permutation; [exact ND|apply NoDup_boxLoop|]. intros [[x y] z]. rewrite H, in_boxLoop. destruct N as [[a b] c]. reflexivity.
Qed.
Lemma eta_form sigma : 0 < sigma -> forall r, eta sigma * r = r / (sqrt 2 * sigma).
Proof.
  intros P r. unfold eta. rewrite sqrt_div by lra. rewrite sqrt_1. assert (0 < sqrt 2) by (apply sqrt_lt_R0; lra). field. lra.
Qed.
Lemma recipVec_gG Rl g : recipVec Rl g = rvm (cellVec g) (gG Rl).
Proof. destruct g as [[x y] z]. unfold recipVec, cellVec, gG. cbn [v0 v1 v2 fst snd]. rewrite rvm_scale. reflexivity. Qed.
Lemma recip_phase Rl g x : rdet Rl <> 0 -> rdot (recipVec Rl g) (rmv Rl x) = 2 * PI * rdot (cellVec g) x.
Proof.
  intros D. rewrite recipVec_gG. replace (rdot (rvm (cellVec g) (gG Rl)) (rmv Rl x)) with (rdot (rvm (cellVec g) (rmm (gG Rl) Rl)) x).
  - rewrite gG_R by exact D. rewrite rvm_scale, rvm_id, rdot_scale_l. reflexivity.
  - rewrite rvm_mm. generalize (rvm (cellVec g) (gG Rl)). intros u. destruct u, Rl, x. v3u. ring.
Qed.
Lemma periodic_formula Rl sigma NR NG n Zc pos hp boxR boxG f s : 0 < sigma -> rdet Rl <> 0 -> (forall c, (c < n)%nat -> home (pos c) (hp c)) -> centred_box NR boxR -> centred_box NG boxG ->
  energy (ewaldPeriodic Rl sigma NR NG n Zc pos f s) = ewaldFormula Rl sigma n Zc hp boxR boxG.
Proof.
  intros Sp D H BR BG. unfold ewaldPeriodic. rewrite (periodic_ext Rl sigma n Zc _ hp) by (intros c L; symmetry; apply home_unique, H, L).
  rewrite periodic_E. assert (Vp : 0 < Rabs (rdet Rl)) by (apply Rabs_pos_lt; auto). assert (Q := sqrtPI_pos). assert (Qs := sqrtPI_sq).
  unfold ewaldFormula. assert (A : sumR n Zc sigma Rl hp NR = shortRange Rl sigma n Zc hp boxR).
  { unfold sumR, shortRange. rewrite sum2_swap. unfold sum2. rewrite <- rsum_scale. apply rsum_ext. intros c1 _. rewrite <- rsum_scale. apply rsum_ext. intros c2 _. rewrite (rsum_perm _ _ _ (box_unique NR boxR BR)), <- rsum_scale.
    apply rsum_ext. intros g _. unfold eR. cbv zeta. rewrite distance_sep. set (q := metric2 (RTR Rl) (sep hp c1 c2 g)). assert (P := metric2_RTR_pos Rl (sep hp c1 c2 g)). fold q in P. unfold test0.
    destruct (Req_EM_T q 0) as [E|E], (Req_EM_T (sqrt q) 0) as [E'|E'].
    - ring.
    - exfalso. apply E'. rewrite E. apply sqrt_0.
    - exfalso. apply E. apply sqrt_eq_0; auto.
    - rewrite eta_form by exact Sp. unfold Rdiv. ring. }
  assert (B : sumK n Zc sigma Rl hp NG = longRange Rl sigma n Zc hp boxG).
  { unfold sumK, longRange. rewrite (rsum_perm _ _ _ (box_unique NG boxG BG)), <- rsum_scale. apply rsum_ext. intros g _. unfold eK. cbv zeta.
    assert (L2 : metric2 (gGGT Rl) (cellVec g) = rlen2 (recipVec Rl g)) by (rewrite recipVec_gG; apply metric_len).
    assert (P := rlen2_pos (recipVec Rl g)). assert (S2 : rlen (recipVec Rl g) ^ 2 = rlen2 (recipVec Rl g)) by (unfold rlen; apply pow2_sqrt; exact P).
    assert (N : structure2 n Zc (fun c => rmv Rl (hp c)) (recipVec Rl g) = nS n Zc hp g).
    { unfold structure2, nS. assert (Er : rsum (fun c => Zc c * cos (rdot (recipVec Rl g) (rmv Rl (hp c)))) (seq 0 n) = reS n Zc hp g).
      { apply rsum_ext. intros c _. rewrite recip_phase by exact D. unfold th. rewrite <- cos_neg. f_equal. f_equal. ring. }
      assert (Ei : rsum (fun c => Zc c * sin (rdot (recipVec Rl g) (rmv Rl (hp c)))) (seq 0 n) = - imS n Zc hp g).
      { unfold imS. rewrite <- rsum_opp. apply rsum_ext. intros c _. rewrite recip_phase by exact D. unfold th. replace (- 2 * PI * rdot (cellVec g) (hp c)) with (- (2 * PI * rdot (cellVec g) (hp c))) by ring. rewrite sin_neg. ring. }
      cbv beta. rewrite Er, Ei. ring. }
    rewrite N, L2. destruct (Req_EM_T (rlen2 (recipVec Rl g)) 0) as [E|E], (Req_EM_T (rlen (recipVec Rl g)) 0) as [E'|E'].
    - ring.
    - exfalso. apply E'. unfold rlen. rewrite E. apply sqrt_0.
    - exfalso. apply E. rewrite <- S2, E'. ring.
    - unfold eGf. cbv zeta. rewrite L2, <- S2. replace (- (sigma * rlen (recipVec Rl g)) ^ 2 / 2) with (- (1 / 2) * (sigma * sigma) * rlen (recipVec Rl g) ^ 2) by field. field. split; lra. }
  rewrite A, B. replace (selfE n Zc sigma) with (selfTerm sigma n Zc).
  - unfold background, e0f. rewrite Ztot_sum. field. lra.
  - unfold selfTerm, selfE. rewrite ZsqTot_sum, (rsum_ext (fun c => Zc c ^ 2 / (sqrt (2 * PI) * sigma)) (fun c => (1 / (sqrt (2 * PI) * sigma)) * (Zc c * Zc c))).
    + rewrite rsum_scale. unfold eta. rewrite sqrt_div by lra. rewrite sqrt_1, sqrt_mult by (try lra; left; apply PI_RGT_0). assert (0 < sqrt 2) by (apply sqrt_lt_R0; lra). field. lra.
    + intros c _. rewrite sqrt_mult by (try lra; left; apply PI_RGT_0). assert (0 < sqrt 2) by (apply sqrt_lt_R0; lra). field. lra.
Qed.
