(** Isolated systems, electric fields and embedding. *)
From Coq Require Import ZArith Reals List Bool Lia Lra Psatz.
From Coquelicot Require Import Coquelicot.
From Verif Require Import Base Gauss Grid_Model Vec3_Model Vec3_Facts Lattice_Model RealUtil Basis_Model Coulomb_Model Coulomb_Proofs Coulomb_Proofs3 WS_Model Ions_Model CellMap_Spec CellMap_Proofs
  VdW_Model VdW_Spec VdW_Proofs VdW_Proofs2 VdW_Proofs3 VdW_Proofs4 Ewald_Model Ewald_Spec Ewald_Proofs Ewald_Proofs2 Ewald_Proofs3 Ewald_Proofs6 Ewald_Proofs7 Ewald_Proofs9.
Import ListNotations.
Local Open Scope R_scope.
Set Bullet Behavior "Strict Subproofs".

Section Iso.
  Variables (Rc margin : R) (n : nat) (Zc : nat -> R).
  Definition okI (Rl : mat R) (bd : vec R -> R) (pos : nat -> vec R) (c1 c2 : nat) : bool :=
    let x := rvsub (pos c1) (pos c2) in
    negb (if Req_EM_T Rc 0 then (if Rle_dec (bd x) margin then true else false) else (if Rle_dec (Rc - margin) (sqrt (metric2 (RTR Rl) x)) then true else false)).
  Definition nextI (Rl : mat R) (pos : nat -> vec R) (c1 : nat) (a : acc) (c2 : nat) : acc :=
    let x := rvsub (pos c1) (pos c2) in
    let rSq := metric2 (RTR Rl) x in
    let dE := (Zc c1 * Zc c2) / sqrt rSq in
    let m := dE / rSq in
    let dF := rvscale m (rmv (RTR Rl) x) in
    let rVec := rmv Rl x in
    Acc (energy a + dE) (addAt rvsub (addAt rvadd (force a) c1 dF) c2 dF) (rmsub (latt a) (rmscale m (Ions_Model.outer rVec rVec))).
  Lemma iso_next Rl bd pos c1 a c2 : isoPair Rl Rc margin bd Zc pos c1 (Some a) c2 = if okI Rl bd pos c1 c2 then Some (nextI Rl pos c1 a c2) else None.
  Proof. unfold isoPair, okI, nextI. cbv zeta. destruct (if Req_EM_T Rc 0 then _ else _); reflexivity. Qed.
  Definition allI (Rl : mat R) bd (pos : nat -> vec R) : bool := forallb (fun c1 => forallb (okI Rl bd pos c1) (seq 0 c1)) (seq 0 n).
  Definition runI (Rl : mat R) (pos : nat -> vec R) (a : acc) : acc := fold_left (fun a c1 => fold_left (nextI Rl pos c1) (seq 0 c1) a) (seq 0 n) a.
  Definition at0 (reduce : vec R -> vec R) (pos : nat -> vec R) : nat -> vec R := fun c => rvadd (pos 0%nat) (reduce (rvsub (pos c) (pos 0%nat))).
  Lemma iso_run Rl bd reduce pos f s : ewaldIsolated Rl Rc margin bd n Zc reduce pos f s = if allI Rl bd (at0 reduce pos) then Some (runI Rl (at0 reduce pos) (Acc 0 f s)) else None.
  Proof.
    unfold ewaldIsolated. cbv zeta. fold (at0 reduce pos). apply (fold_opt _ (fun c1 => forallb (okI Rl bd (at0 reduce pos) c1) (seq 0 c1)) (fun a c1 => fold_left (nextI Rl (at0 reduce pos) c1) (seq 0 c1) a)).
    - intros c1. generalize (seq 0 c1). induction l; cbn [fold_left]; [reflexivity|assumption].
    - intros a c1 _. apply (fold_opt (isoPair Rl Rc margin bd Zc (at0 reduce pos) c1) (okI Rl bd (at0 reduce pos) c1)); [reflexivity|]. intros a' c2 _. apply iso_next.
  Qed.
  Definition triS (F : nat -> nat -> R) : R := rsum (fun c1 => rsum (F c1) (seq 0 c1)) (seq 0 n).
  Lemma fold_triS {S} (step : nat -> S -> nat -> S) (val : S -> R) F s :
    (forall s c1 c2, (c1 < n)%nat -> (c2 < c1)%nat -> val (step c1 s c2) = val s + F c1 c2) ->
    val (fold_left (fun s c1 => fold_left (step c1) (seq 0 c1) s) (seq 0 n) s) = val s + triS F.
  Proof.
    intros H. apply (fold_sum (fun s c1 => fold_left (step c1) (seq 0 c1) s) val (fun c1 => rsum (F c1) (seq 0 c1))). intros s' c1 I1. apply in_seq in I1.
    apply (fold_sum (step c1) val (F c1)). intros s2 c2 I2. apply in_seq in I2. apply H; lia.
  Qed.
  Definition eI (Rl : mat R) (pos : nat -> vec R) (c1 c2 : nat) : R := Zc c1 * Zc c2 / sqrt (metric2 (RTR Rl) (rvsub (pos c1) (pos c2))).
  Lemma run_E Rl pos a : energy (runI Rl pos a) = energy a + triS (eI Rl pos).
  Proof. apply (fold_triS (nextI Rl pos) energy). intros. reflexivity. Qed.
  Variables (eps : mat R) (d : nat -> vec R).
  Definition gI (Rl : mat R) (pos : nat -> vec R) (c1 c2 : nat) : R :=
    let x := rvsub (pos c1) (pos c2) in - (eI Rl pos c1 c2 / metric2 (RTR Rl) x) * rate Rl x (rvsub (d c1) (d c2)) eps.
  Lemma run_Phi Rl pos a : PhiA n eps d (runI Rl pos a) = PhiA n eps d a + triS (gI Rl pos).
  Proof.
    apply (fold_triS (nextI Rl pos) (PhiA n eps d)). intros s c1 c2 L1 L2. unfold PhiA, Phi, nextI. cbv zeta. cbn [force latt]. rewrite work_sub, work_add, contraction_sub, contraction_scale by lia. unfold gI, rate. cbv zeta. fold (eI Rl pos c1 c2).
    rewrite !rdot_scale_l. set (v := rmv (RTR Rl) (rvsub (pos c1) (pos c2))). replace (rdot v (rvsub (d c1) (d c2))) with (rdot v (d c1) - rdot v (d c2)) by (rewrite !(rdot_comm v); symmetry; apply rdot_subv). ring.
  Qed.
  Lemma triS_full F : (forall a b, F a b = F b a) -> triS F = 1/2 * rsum (fun a => rsum (fun b => if Nat.eqb a b then 0 else F a b) (seq 0 n)) (seq 0 n).
  Proof.
    intros Sy. unfold triS. induction n as [|m IH]; [cbn [seq]; rewrite !rsum_nil'; ring|]. rewrite (rsum_snoc _ m), IH, (rsum_snoc (fun a => rsum (fun b => if Nat.eqb a b then 0 else F a b) (seq 0 (S m))) m).
    rewrite (rsum_ext (fun a => rsum (fun b => if Nat.eqb a b then 0 else F a b) (seq 0 (S m))) (fun a => rsum (fun b => if Nat.eqb a b then 0 else F a b) (seq 0 m) + F a m)).
    - rewrite rsum_add, (rsum_snoc _ m), Nat.eqb_refl. rewrite (rsum_ext (fun b => if Nat.eqb m b then 0 else F m b) (F m)).
      + rewrite (rsum_ext (fun a => F a m) (F m)) by (intros; apply Sy). lra.
      + intros b I. apply in_seq in I. destruct (Nat.eqb_spec m b); [lia|reflexivity].
    - intros a I. apply in_seq in I. rewrite (rsum_snoc _ m). destruct (Nat.eqb_spec a m); [lia|reflexivity].
  Qed.
  Lemma eI_sym Rl pos a b : eI Rl pos a b = eI Rl pos b a.
  Proof.
    unfold eI. rewrite (Rmult_comm (Zc b)). f_equal. f_equal. rewrite !metric2_RTR. destruct Rl, (pos a), (pos b). v3u. ring.
  Qed.
  Lemma iso_energy Rl bd reduce pos f s r : ewaldIsolated Rl Rc margin bd n Zc reduce pos f s = Some r -> energy r = coulombLaw Rl n Zc (at0 reduce pos).
  Proof.
    rewrite iso_run. destruct (allI _ _ _); [|discriminate]. intros H. injection H as <-. rewrite run_E. cbn [energy]. rewrite triS_full by apply eI_sym. unfold coulombLaw. rewrite Rplus_0_l. f_equal.
    apply rsum_ext. intros a _. apply rsum_ext. intros b _. unfold eI. rewrite metric2_RTR. reflexivity.
  Qed.
  Lemma iso_Phi Rl bd reduce pos f s r : ewaldIsolated Rl Rc margin bd n Zc reduce pos f s = Some r ->
    contraction (rmsub (latt r) s) eps - workOf n (added f (force r)) d = triS (gI Rl (at0 reduce pos)).
  Proof.
    rewrite iso_run. destruct (allI _ _ _); [|discriminate]. intros H. injection H as <-. rewrite contraction_sub, work_minus. assert (P := run_Phi Rl (at0 reduce pos) (Acc 0 f s)). unfold PhiA, Phi in P. cbn [force latt] in P. lra.
  Qed.
  Lemma eI_derive Rl pos c1 c2 : rdet Rl <> 0 -> pos c1 <> pos c2 -> is_derive (fun t => eI (strained Rl eps t) (displaced pos d t) c1 c2) 0 (gI Rl pos c1 c2).
  Proof.
    intros D N. set (g := (0, 0, 0)%Z : V3). assert (Sx : forall p, sep p c1 c2 g = rvsub (p c1) (p c2)).
    { intros p. unfold sep, cellVec, g. cbn [v0 v1 v2 fst snd]. destruct (p c1), (p c2). v3u. f_equal; ring. }
    assert (Q := qt_derive Rl eps pos d c1 c2 g). assert (Q0 := qt_0 Rl eps pos d c1 c2 g). rewrite Sx in Q, Q0.
    assert (P : 0 < metric2 (RTR Rl) (rvsub (pos c1) (pos c2))).
    { assert (P := metric2_RTR_pos Rl (rvsub (pos c1) (pos c2))). destruct P as [P|P]; [exact P|exfalso]. symmetry in P. rewrite metric2_RTR in P. apply rlen2_0 in P. apply rmv_inj in P; [|exact D]. apply N. clear -P. destruct (pos c1), (pos c2). v3h P. injection P as A B C. f_equal; lra. }
    apply (is_derive_ext (fun t => (Zc c1 * Zc c2) * (1 / sqrt (qt Rl eps pos d c1 c2 g t)))).
    { intros t. match goal with |- ?a = ?b => change (@eq R a b) end. unfold eI, qt. rewrite Sx. unfold Rdiv. ring. }
    assert (Ds : is_derive (fun t => sqrt (qt Rl eps pos d c1 c2 g t)) 0 (2 * rate Rl (rvsub (pos c1) (pos c2)) (rvsub (d c1) (d c2)) eps / (2 * sqrt (qt Rl eps pos d c1 c2 g 0)))).
    { apply is_derive_sqrt; [exact Q|]. rewrite Q0. exact P. }
    rewrite Q0 in Ds. assert (Sp := sqrt_lt_R0 _ P). eapply dval; [apply dscal, (dinv1 _ _ _ Ds)|]; [rewrite Q0; lra|]. rewrite Q0. unfold gI, eI. cbv zeta. assert (Sq := sqrt_sqrt _ (Rlt_le _ _ P)). set (w := metric2 (RTR Rl) (rvsub (pos c1) (pos c2))) in *. transitivity (- (Zc c1 * Zc c2 / sqrt w / (sqrt w * sqrt w)) * rate Rl (rvsub (pos c1) (pos c2)) (rvsub (d c1) (d c2)) eps); [field; lra|rewrite Sq; reflexivity].
  Qed.
End Iso.
Lemma iso_gradient Rl (reduce : R -> vec R -> vec R) (bd : R -> vec R -> R) Rc margin n Zc pos f s r eps d : rdet Rl <> 0 ->
  apart n (at0 (reduce 0) pos) ->
  locally 0 (fun t => forall c, (c < n)%nat -> at0 (reduce t) (displaced pos d t) c = displaced (at0 (reduce 0) pos) d t c) ->
  locally 0 (fun t => ewaldIsolated (strained Rl eps t) Rc margin (bd t) n Zc (reduce t) (displaced pos d t) f s <> None) ->
  ewaldIsolated Rl Rc margin (bd 0) n Zc (reduce 0) pos f s = Some r ->
  is_derive (fun t => match ewaldIsolated (strained Rl eps t) Rc margin (bd t) n Zc (reduce t) (displaced pos d t) f s with Some a => energy a | None => 0 end) 0
    (contraction (rmsub (latt r) s) eps - workOf n (added f (force r)) d).
Proof.
  intros D Ap L1 L2 Run. rewrite (iso_Phi Rc margin n Zc eps d _ _ _ _ _ _ _ Run). set (p := at0 (reduce 0) pos) in *.
  apply (is_derive_ext_loc (fun t => triS n (eI Zc (strained Rl eps t) (displaced p d t)))).
  - assert (F := filter_and _ _ L1 L2). revert F. apply filter_imp. intros t [Ht Hn]. clear Run. rewrite iso_run in *. destruct (allI _ _ _ _ _ _); [|exfalso; apply Hn; reflexivity]. rewrite run_E. cbn [energy]. rewrite Rplus_0_l.
    apply rsum_ext. intros c1 I1. apply rsum_ext. intros c2 I2. apply in_seq in I1. apply in_seq in I2. unfold eI. rewrite !Ht by lia. reflexivity.
  - unfold triS. apply (rsum_derive (seq 0 n) (fun c1 t => rsum (eI Zc (strained Rl eps t) (displaced p d t) c1) (seq 0 c1))). intros c1 I1.
    apply (rsum_derive (seq 0 c1) (fun c2 t => eI Zc (strained Rl eps t) (displaced p d t) c1 c2)). intros c2 I2. apply in_seq in I1. apply in_seq in I2. apply eI_derive; [exact D|]. intros E. apply Ap in E; lia.
Qed.
Lemma iso_zero Rl reduce bd Rc margin n Zc pos f s r eps d : ewaldIsolated Rl Rc margin bd n Zc reduce pos f s = Some r -> (forall x c1 c2, rate Rl x (rvsub (d c1) (d c2)) eps = 0) ->
  contraction (rmsub (latt r) s) eps - workOf n (added f (force r)) d = 0.
Proof.
  intros Run H. rewrite (iso_Phi Rc margin n Zc eps d _ _ _ _ _ _ _ Run). unfold triS. transitivity (rsum (fun _ : nat => 0) (seq 0 n)); [|apply rsum_zero]. apply rsum_ext. intros a _. transitivity (rsum (fun _ : nat => 0) (seq 0 a)); [|apply rsum_zero].
  apply rsum_ext. intros b _. unfold gI. cbv zeta. rewrite H. ring.
Qed.
Lemma iso_total_force Rl reduce bd Rc margin n Zc pos f s r : ewaldIsolated Rl Rc margin bd n Zc reduce pos f s = Some r ->
  let F := added f (force r) in
  rsum (fun c => c0 (F c)) (seq 0 n) = 0 /\ rsum (fun c => c1 (F c)) (seq 0 n) = 0 /\ rsum (fun c => c2 (F c)) (seq 0 n) = 0.
Proof.
  intros Run. cbv zeta. set (F := added f (force r)).
  assert (Zm : forall m, contraction m mzero = 0) by (intros m; destruct m; unfold contraction, mzero; cbn; ring).
  assert (W : forall v, workOf n F (fun _ => v) = 0).
  { intros v. assert (P := iso_zero Rl reduce bd Rc margin n Zc pos f s r mzero (fun _ => v) Run). fold F in P. rewrite Zm in P. cut (0 - workOf n F (fun _ => v) = 0); [lra|]. apply P. intros; apply rate_rigid. }
  assert (A := W (V 1 0 0)). assert (B := W (V 0 1 0)). assert (C := W (V 0 0 1)). rewrite work_rigid in A, B, C.
  unfold rdot, gdot in A, B, C. cbn [c0 c1 c2] in A, B, C. lra.
Qed.
Lemma iso_symmetric Rl reduce bd Rc margin n Zc pos f s r : ewaldIsolated Rl Rc margin bd n Zc reduce pos f s = Some r ->
  let S := rmsub (latt r) s in m01 S = m10 S /\ m02 S = m20 S /\ m12 S = m21 S.
Proof.
  intros Run. cbv zeta. apply contraction_antisym. intros w. set (e := M 0 (- c2 w) (c1 w) (c2 w) 0 (- c0 w) (- c1 w) (c0 w) 0).
  assert (P := iso_zero Rl reduce bd Rc margin n Zc pos f s r e (fun _ => vzero) Run).
  assert (Z : forall f, workOf n f (fun _ => vzero) = 0) by (intros h; rewrite work_rigid; unfold vzero, rdot, gdot; cbn [c0 c1 c2]; ring). rewrite Z in P.
  cut (contraction (rmsub (latt r) s) e - 0 = 0); [lra|]. apply P. intros; apply rate_rotation.
Qed.

(** ** Electric field *)
Lemma comp_lin' u v t k : comp (rvadd u (rvscale t v)) k = comp u k + t * comp v k.
Proof. destruct u, v. destruct k as [|[|k]]; unfold comp; v3u; ring. Qed.
Lemma comp_sub' u v k : comp (rvsub u v) k = comp u k - comp v k.
Proof. destruct u, v. destruct k as [|[|k]]; unfold comp; v3u; ring. Qed.
Lemma rdot_unit3 k v w : (k < 3)%nat -> rdot (unit3 k v) w = v * comp w k.
Proof. intros K. destruct w. destruct k as [|[|[|k]]]; [| | |lia]; unfold unit3, comp; cbn [Nat.eqb]; v3u; ring. Qed.
Section Field.
  Variables (rw : (nat -> R) * (nat -> R)) (xc : vec R) (n : nat) (Zc : nat -> R).
  Definition eF (pos : nat -> vec R) (c k : nat) : R := Zc c * fieldTerm rw (rvsub (pos c) xc) k.
  Lemma fieldAtom_E pos a c : fst (fieldAtom rw xc Zc pos a c) = fst a + rsum (eF pos c) [0; 1; 2]%nat.
  Proof. unfold fieldAtom. cbv zeta. apply (fold_sum _ fst (eF pos c)). intros s k _. reflexivity. Qed.
  Lemma field_E pos a : fst (fieldAtoms rw xc n Zc pos a) = fst a + rsum (fun c => rsum (eF pos c) [0; 1; 2]%nat) (seq 0 n).
  Proof. unfold fieldAtoms. apply (fold_sum _ fst). intros s c _. apply fieldAtom_E. Qed.
  Variable d : nat -> vec R.
  Definition gF (pos : nat -> vec R) (c k : nat) : R := Zc c * (fst rw k + snd rw k * cos (2 * PI * comp (rvsub (pos c) xc) k)) * comp (d c) k.
  Lemma fieldAtom_W pos a c : (c < n)%nat -> - workOf n (snd (fieldAtom rw xc Zc pos a c)) d = - workOf n (snd a) d + rsum (gF pos c) [0; 1; 2]%nat.
  Proof.
    intros L. unfold fieldAtom. cbv zeta. apply (fold_sum _ (fun a => - workOf n (snd a) d) (gF pos c)). intros s k I. cbn [snd]. rewrite work_sub by exact L.
    rewrite rdot_unit3 by (destruct I as [<-|[<-|[<-|[]]]]; lia). unfold gF. ring.
  Qed.
  Lemma field_W pos a : - workOf n (snd (fieldAtoms rw xc n Zc pos a)) d = - workOf n (snd a) d + rsum (fun c => rsum (gF pos c) [0; 1; 2]%nat) (seq 0 n).
  Proof. unfold fieldAtoms. apply (fold_sum _ (fun a => - workOf n (snd a) d)). intros s c I. apply in_seq in I. apply fieldAtom_W. lia. Qed.
  Lemma field_gradient pos e f : is_derive (fun t => fst (fieldAtoms rw xc n Zc (displaced pos d t) (e, f))) 0 (- workOf n (added f (snd (fieldAtoms rw xc n Zc pos (e, f)))) d).
  Proof.
    rewrite work_minus. assert (W := field_W pos (e, f)). cbn [snd] in W. replace (- (workOf n (snd (fieldAtoms rw xc n Zc pos (e, f))) d - workOf n f d)) with (rsum (fun c => rsum (gF pos c) [0; 1; 2]%nat) (seq 0 n)) by lra.
    apply (is_derive_ext (fun t => e + rsum (fun c => rsum (eF (displaced pos d t) c) [0; 1; 2]%nat) (seq 0 n))); [intros t; rewrite field_E; reflexivity|].
    eapply dval; [apply dplus; [apply dconst|]|].
    - apply (rsum_derive (seq 0 n) (fun c t => rsum (eF (displaced pos d t) c) [0; 1; 2]%nat) (fun c => rsum (gF pos c) [0; 1; 2]%nat)). intros c _. apply (rsum_derive [0; 1; 2]%nat (fun k t => eF (displaced pos d t) c k) (gF pos c)). intros k _.
      apply (is_derive_ext (fun t => Zc c * (fst rw k * (comp (pos c) k + t * comp (d c) k - comp xc k) + snd rw k * sin (2 * PI * (comp (pos c) k + t * comp (d c) k - comp xc k)) / (2 * PI)))).
      { intros t. unfold eF, fieldTerm, displaced. rewrite comp_sub', comp_lin'. reflexivity. }
      unfold gF. rewrite comp_sub'. set (u := comp (pos c) k). set (v := comp (d c) k). set (w := comp xc k). assert (P := PI_RGT_0).
      auto_derive; [exact Logic.I|]. replace (u + 0 * v - w) with (u - w) by ring. replace (u + 0 * v + - w) with (u - w) by ring. field. lra.
    - cbv beta. ring.
  Qed.
  (** energy as charge times potential *)
  Lemma field_potential reduce pos e f : (forall c, (c < n)%nat -> reduce (rvsub (pos c) xc) = rvsub (pos c) xc) ->
    fst (fieldAtoms rw xc n Zc pos (e, f)) = e - rsum (fun c => Zc c * fieldPotential rw reduce xc (pos c)) (seq 0 n).
  Proof.
    intros H. rewrite field_E. cbn [fst]. unfold Rminus. f_equal. rewrite <- rsum_opp. apply rsum_ext. intros c I. apply in_seq in I. unfold fieldPotential. rewrite H by lia. cbn [fold_left]. rewrite !rsum_cons', rsum_nil'. unfold eF. ring.
  Qed.
End Field.
Lemma field_uniform Rl E isTrunc x : (forall k, (k < 3)%nat -> isTrunc k = true) -> fieldPotential (splitEfield 0 isTrunc Rl E) (fun y => y) (V 0 0 0) x = - rdot E (rmv Rl x).
Proof.
  intros T. unfold fieldPotential. cbv zeta. cbn [fold_left]. unfold fieldTerm, splitEfield. cbn [fst snd]. rewrite !T by lia. unfold RT_E. rewrite Rmult_0_r.
  repeat match goal with |- context [Rlt_dec ?a 0] => destruct (Rlt_dec a 0) as [H|_]; [exfalso; assert (P := Rabs_pos (comp (rmv (mtrans Rl) E) 0 / colLen Rl 0)); assert (P1 := Rabs_pos (comp (rmv (mtrans Rl) E) 1 / colLen Rl 1)); assert (P2 := Rabs_pos (comp (rmv (mtrans Rl) E) 2 / colLen Rl 2)); lra|] end.
  rewrite !comp_sub'. destruct Rl, E, x. unfold comp, mtrans. v3u. cbn. unfold Rdiv. ring.
Qed.
Lemma field_threshold thr Rl E k : rdet Rl <> 0 -> (k < 3)%nat -> 0 < colLen Rl k -> Rabs (RT_E thr Rl E k - rdot (latticeVec Rl k) E) <= Rabs thr * rlen E * rlen (latticeVec Rl k).
Proof.
  intros D K C. assert (X : comp (rmv (mtrans Rl) E) k = rdot (latticeVec Rl k) E) by (rewrite <- lattice_col; destruct Rl, E; destruct k as [|[|[|k]]]; [| | |lia]; unfold comp, mrow, mtrans; v3u; reflexivity).
  unfold RT_E. cbv zeta. rewrite X. assert (L : colLen Rl k = rlen (latticeVec Rl k)) by (unfold colLen; rewrite lattice_col; reflexivity). rewrite L in *. set (v := rdot (latticeVec Rl k) E). set (l := rlen (latticeVec Rl k)) in *.
  assert (P := sqrt_pos (rlen2 E)). fold (rlen E) in P. assert (T := Rabs_pos thr). assert (T2 := Rle_abs thr). destruct (Rlt_dec _ _) as [H|H].
  - rewrite Rminus_0_l, Rabs_Ropp. unfold Rdiv in H. rewrite Rabs_mult, Rabs_inv, (Rabs_right l) in H by lra. apply (Rmult_lt_compat_r l) in H; [|exact C]. rewrite Rmult_assoc, Rinv_l in H by lra. apply Rle_trans with (thr * (rlen E * l)); [lra|]. rewrite (Rmult_assoc (Rabs thr)). apply Rmult_le_compat_r; [nra|exact T2].
  - rewrite Rminus_eq_0, Rabs_R0. apply Rmult_le_pos; [nra|lra].
Qed.
Lemma sin_period_Z x z : sin (x + 2 * IZR z * PI) = sin x.
Proof.
  destruct (Z_lt_le_dec z 0).
  - rewrite <- (sin_period (x + 2 * IZR z * PI) (Z.to_nat (- z))). f_equal. rewrite INR_IZR_INZ, Z2Nat.id by lia. rewrite opp_IZR. ring.
  - rewrite <- (sin_period x (Z.to_nat z)). f_equal. rewrite INR_IZR_INZ, Z2Nat.id by lia. ring.
Qed.
Lemma field_periodic thr isTrunc Rl E x y k z : isTrunc k = false -> comp y k = comp x k + IZR z -> fieldTerm (splitEfield thr isTrunc Rl E) y k = fieldTerm (splitEfield thr isTrunc Rl E) x k.
Proof.
  intros T H. unfold fieldTerm, splitEfield. cbn [fst snd]. rewrite T, H. rewrite !Rmult_0_l. do 3 f_equal.
  replace (2 * PI * (comp x k + IZR z)) with (2 * PI * comp x k + 2 * IZR z * PI) by ring. rewrite sin_period_Z. reflexivity.
Qed.

(** ** Embedding *)
Lemma diag3_dot s u v : rdot (diag3 s u) v = rdot u (diag3 s v).
Proof. destruct s, u, v. unfold diag3. v3u. ring. Qed.
Lemma diag3_inv s u : c0 s <> 0 -> c1 s <> 0 -> c2 s <> 0 -> diag3 s (diag3 (inv3 s) u) = u.
Proof. intros A B C. destruct s as [s0 s1 s2], u as [u0 u1 u2]. unfold diag3, inv3. cbn [c0 c1 c2] in *. f_equal; field; auto. Qed.
Lemma inv_diag3 s u : c0 s <> 0 -> c1 s <> 0 -> c2 s <> 0 -> diag3 (inv3 s) (diag3 s u) = u.
Proof. intros A B C. destruct s as [s0 s1 s2], u as [u0 u1 u2]. unfold diag3, inv3. cbn [c0 c1 c2] in *. f_equal; field; auto. Qed.
Lemma embed_work s n f g d : c0 s <> 0 -> c1 s <> 0 -> c2 s <> 0 ->
  workOf n (added f (fun c => diag3 s (g c))) d = workOf n (added (fun c => diag3 (inv3 s) (f c)) g) (fun c => diag3 s (d c)).
Proof.
  intros A B C. apply rsum_ext. intros c _. unfold added. rewrite <- diag3_dot. f_equal. rewrite <- (diag3_inv s (f c)) at 1 by assumption. generalize (diag3 (inv3 s) (f c)) (g c). intros u v. destruct s, u, v. unfold diag3. v3u. f_equal; ring.
Qed.
Lemma embed_gradient (s xc : vec R) (inRange : R -> vec R -> bool) (reduce : R -> vec R -> vec R) (inner : R -> (nat -> vec R) -> (nat -> vec R) -> option (acc * (nat -> vec R))) n pos f d X r pos' :
  c0 s <> 0 -> c1 s <> 0 -> c2 s <> 0 ->
  (forall t f' p p', (forall c, (c < n)%nat -> p c = p' c) -> inner t p f' = inner t p' f') ->
  locally 0 (fun t => forall c, (c < n)%nat -> reduce t (rvsub (displaced pos d t c) xc) = rvadd (reduce 0 (rvsub (pos c) xc)) (rvscale t (d c)) /\ inRange t (reduce t (rvsub (displaced pos d t c) xc)) = true) ->
  let en o := match o with Some (a, _) => energy a | None => 0 end in
  let p0 c := diag3 s (reduce 0 (rvsub (pos c) xc)) in
  (forall a q, inner 0 p0 (fun c => diag3 (inv3 s) (f c)) = Some (a, q) ->
    is_derive (fun t => en (inner t (displaced p0 (fun c => diag3 s (d c)) t) (fun c => diag3 (inv3 s) (f c)))) 0 (X - workOf n (added (fun c => diag3 (inv3 s) (f c)) (force a)) (fun c => diag3 s (d c)))) ->
  embedded s (inRange 0) (reduce 0) xc (inner 0) n pos f = Some (r, pos') ->
  is_derive (fun t => en (embedded s (inRange t) (reduce t) xc (inner t) n (displaced pos d t) f)) 0 (X - workOf n (added f (force r)) d).
Proof.
  cbv zeta. intros A B C Ext Loc Din Run. unfold embedded in Run. destruct (forallb _ _); [|discriminate].
  destruct (inner 0 (fun c => diag3 s (reduce 0 (rvsub (pos c) xc))) (fun c => diag3 (inv3 s) (f c))) as [[a q]|] eqn:Ein; [|discriminate]. injection Run as <- <-. cbn [force].
  specialize (Din a q eq_refl). rewrite embed_work by assumption. revert Din. apply is_derive_ext_loc. revert Loc. apply filter_imp. intros t Ht.
  unfold embedded. replace (forallb (fun c => inRange t (reduce t (rvsub (displaced pos d t c) xc))) (seq 0 n)) with true.
  - rewrite (Ext t _ (fun c => diag3 s (reduce t (rvsub (displaced pos d t c) xc))) (displaced (fun c => diag3 s (reduce 0 (rvsub (pos c) xc))) (fun c => diag3 s (d c)) t)).
    + destruct (inner t _ _) as [[a' q']|]; reflexivity.
    + intros c L. rewrite (proj1 (Ht c L)). unfold displaced. generalize (reduce 0 (rvsub (pos c) xc)) (d c). intros u v. destruct s, u, v. unfold diag3. v3u. f_equal; ring.
  - symmetry. apply forallb_forall. intros c I. apply in_seq in I. apply Ht. lia.
Qed.
Lemma embed_positions s inRange reduce xc inner n pos f r pos' x y z : c0 s * IZR x = 1 -> c1 s * IZR y = 1 -> c2 s * IZR z = 1 -> (forall p g a q, inner p g = Some (a, q) -> equivalent n p q) ->
  (forall x, integral3 (rvsub (reduce x) x)) -> embedded s inRange reduce xc inner n pos f = Some (r, pos') -> equivalent n pos pos'.
Proof.
  intros A B C Hin Hr Run c L. unfold embedded in Run. destruct (forallb _ _); [|discriminate]. destruct (inner _ _) as [[a q]|] eqn:Ein; [|discriminate]. injection Run as <- <-. destruct (Hin _ _ _ _ Ein c L) as (a1 & a2 & a3 & E1). cbv beta in E1.
  destruct (Hr (rvsub (pos c) xc)) as (b1 & b2 & b3 & E2). exists (b1 + x * a1)%Z, (b2 + y * a2)%Z, (b3 + z * a3)%Z. rewrite !plus_IZR, !mult_IZR. clear Ein. revert E1 E2. generalize (reduce (rvsub (pos c) xc)) (pos c) (q c). intros u v w E1 E2.
  destruct s as [s0 s1 s2], u as [u0 u1 u2], v as [v0' v1' v2'], w as [w0 w1 w2], xc as [x0 x1 x2]. unfold diag3, inv3 in *. v3h E1. v3h E2. v3u. cbn [c0 c1 c2] in *. injection E1 as P0 P1 P2. injection E2 as Q0 Q1 Q2.
  assert (I : forall s k, s * IZR k = 1 -> 1 / s = IZR k) by (intros s k H; assert (s <> 0) by (intros ->; lra); rewrite <- H; field; assumption).
  rewrite (I _ _ A), (I _ _ B), (I _ _ C). rewrite <- P0, <- P1, <- P2, <- Q0, <- Q1, <- Q2.
  assert (J : forall s k u w, s * k = 1 -> k * (w - s * u) = k * w - u) by (intros s k u w H; transitivity (k * w - (s * k) * u); [ring|rewrite H; ring]).
  rewrite !J by assumption. f_equal; ring.
Qed.
Lemma field_lattice_wrong : exists Rl E pos Zc eps f s, let run t := withField symmThreshold (fun _ => true) (strained Rl eps t) E (V 0 0 0) 1 Zc (displaced pos (fun _ => V 0 0 0) t)
    (match ewaldIsolated (strained Rl eps t) 1 0 (fun _ => 1) 1 Zc (fun x => x) (displaced pos (fun _ => V 0 0 0) t) f s with Some a => a | None => Acc 0 f s end) in
  exists v, is_derive (fun t => energy (run t)) 0 v /\ v <> contraction (rmsub (latt (run 0)) s) eps - workOf 1 (added f (force (run 0))) (fun _ => V 0 0 0).
Proof.
  exists rid, (V 1 0 0), (fun _ => V (1/4) 0 0), (fun _ => 1), (rdiag 1 0 0), (fun _ => V 0 0 0), (rdiag 0 0 0). cbv zeta. exists (1/4).
  assert (T : forall t, -1/2 < t < 1/2 -> forall k, (k < 3)%nat -> RT_E symmThreshold (strained rid (rdiag 1 0 0) t) (V 1 0 0) k = if Nat.eqb k 0 then 1 + t else 0).
  { intros t Ht k K. unfold RT_E. cbv zeta. assert (Le : rlen (V 1 0 0) = 1) by (unfold rlen; replace (rlen2 (V 1 0 0)) with 1 by (v3u; ring); apply sqrt_1). rewrite Le.
    assert (Cm : comp (rmv (mtrans (strained rid (rdiag 1 0 0) t)) (V 1 0 0)) k = if Nat.eqb k 0 then 1 + t else 0) by (unfold strained, comp, mtrans, col0, col1, col2, set_rows, rdiag, gdiag; destruct k as [|[|[|k]]]; [| | |lia]; v3u; cbn; ring).
    rewrite Cm. destruct k as [|[|[|k]]]; [| | |lia]; cbn [Nat.eqb]; unfold symmThreshold.
    - assert (Cl : colLen (strained rid (rdiag 1 0 0) t) 0 = 1 + t).
      { unfold colLen, rlen. replace (rlen2 (mrow (mtrans (strained rid (rdiag 1 0 0) t)) 0)) with ((1 + t) ^ 2); [apply sqrt_pow2; lra|]. unfold strained, mrow, mtrans, row0, col0, col1, col2, set_rows, rdiag, gdiag. v3u. cbn. ring. }
      rewrite Cl. replace ((1 + t) / (1 + t)) with 1 by (field; lra). rewrite Rabs_R1. destruct (Rlt_dec _ _); [lra|reflexivity].
    - destruct (Rlt_dec _ _); reflexivity.
    - destruct (Rlt_dec _ _); reflexivity. }
  assert (En : forall t, -1/2 < t < 1/2 -> forall a, withField symmThreshold (fun _ => true) (strained rid (rdiag 1 0 0) t) (V 1 0 0) (V 0 0 0) 1 (fun _ => 1) (displaced (fun _ => V (1/4) 0 0) (fun _ => V 0 0 0) t) a = 
     Acc (fst (fieldAtoms (splitEfield symmThreshold (fun _ => true) (strained rid (rdiag 1 0 0) t) (V 1 0 0)) (V 0 0 0) 1 (fun _ => 1) (displaced (fun _ => V (1/4) 0 0) (fun _ => V 0 0 0) t) (energy a, force a)))
         (snd (fieldAtoms (splitEfield symmThreshold (fun _ => true) (strained rid (rdiag 1 0 0) t) (V 1 0 0)) (V 0 0 0) 1 (fun _ => 1) (displaced (fun _ => V (1/4) 0 0) (fun _ => V 0 0 0) t) (energy a, force a))) (latt a)).
  { intros t Ht a. unfold withField. destruct (Req_EM_T _ 0) as [Hz|_]; [exfalso; revert Hz; v3u; lra|reflexivity]. }
  split.
  - apply (is_derive_ext_loc (fun t => (1 + t) / 4)); [|auto_derive; [exact Logic.I|field]].
    exists (mkposreal (1/2) ltac:(lra)). intros t Ht. unfold ball in Ht. cbn in Ht. unfold AbsRing_ball, abs, minus, plus, opp in Ht. cbn in Ht. apply Rabs_def2 in Ht. assert (Ht' : -1/2 < t < 1/2) by lra. clear Ht.
    rewrite En by exact Ht'. cbn [energy]. rewrite field_E. cbn [fst seq]. rewrite !rsum_cons', !rsum_nil'. unfold eF, fieldTerm, splitEfield. cbn [fst snd]. rewrite !T by (try exact Ht'; lia). cbn [Nat.eqb].
    unfold ewaldIsolated. cbn. unfold displaced, comp. v3u. match goal with |- ?a = ?b => change (@eq R a b) end. field. apply PI_neq0.
  - assert (W : forall f, workOf 1 f (fun _ => V 0 0 0) = 0) by (intros h; unfold workOf; cbn [seq]; rewrite rsum_cons', rsum_nil'; destruct (h 0%nat); v3u; ring). rewrite W.
    rewrite En by lra. cbn [latt]. unfold ewaldIsolated. cbn [seq fold_left latt]. unfold contraction, rmsub, rdiag, gdiag. v3u. cbn. lra.
Qed.
