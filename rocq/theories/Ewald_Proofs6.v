(** Slab Ewald sum: pairs of atoms. *)
From Coq Require Import ZArith Reals List Bool Lia Lra Psatz.
From Coquelicot Require Import Coquelicot.
From Verif Require Import Base Gauss Grid_Model Vec3_Model Vec3_Facts Lattice_Model RealUtil Basis_Model Coulomb_Model Coulomb_Proofs Coulomb_Proofs3 WS_Model Ions_Model CellMap_Spec CellMap_Proofs
  VdW_Model VdW_Spec VdW_Proofs VdW_Proofs2 VdW_Proofs3 VdW_Proofs4 Ewald_Model Ewald_Spec Ewald_Proofs Ewald_Proofs2 Ewald_Proofs3 Ewald_Proofs5.
Import ListNotations.
Local Open Scope R_scope.
Set Bullet Behavior "Strict Subproofs".

(** ** Folds that may stop *)
Lemma fold_opt {A S} (step : option S -> A -> option S) (ok : A -> bool) (next : S -> A -> S) l s :
  (forall a, step None a = None) -> (forall s a, In a l -> step (Some s) a = if ok a then Some (next s a) else None) ->
  fold_left step l (Some s) = if forallb ok l then Some (fold_left next l s) else None.
Proof.
  intros N H. assert (FN : forall l, fold_left step l None = None) by (induction l0; cbn [fold_left]; [reflexivity|rewrite N; assumption]).
  revert s H. induction l as [|a l IH]; intros s H; cbn [fold_left forallb]; [reflexivity|]. rewrite H by (left; auto). destruct (ok a); cbn [andb]; [|apply FN]. apply IH. intros; apply H; right; auto.
Qed.

Section Slab.
  Variables (sigma : R) (iDir : nat) (margin : R) (n : nat) (Zc : nat -> R).
  Hypothesis Sp : 0 < sigma.
  Hypothesis Dir : (iDir < 3)%nat.
  Notation col Rl := (mrow (mtrans Rl) iDir).
  Definition pre (Rl : mat R) (c1 c2 : nat) : R := volPrefac Rl iDir * Zc c1 * Zc c2 * (if Nat.eqb c1 c2 then 1 else 2).
  Definition r12 (pos : nat -> vec R) (c1 c2 : nat) : vec R := rvsub (pos c1) (pos c2).
  Definition z12 (Rl : mat R) (pos : nat -> vec R) (c1 c2 : nat) : R := slabL Rl iDir * comp (r12 pos c1 c2) iDir.
  Definition okp (Rl : mat R) (pos : nat -> vec R) (c1 c2 : nat) : bool := if Rle_dec (1/2 * slabL Rl iDir - margin) (Rabs (z12 Rl pos c1 c2)) then false else true.
  Definition zt (Rl : mat R) (pos : nat -> vec R) (c1 c2 : nat) (g : V3) := zTerms sigma (metric2 (gGGT Rl) (cellVec g)) (z12 Rl pos c1 c2).
  Definition arg (pos : nat -> vec R) (c1 c2 : nat) (g : V3) : R := 2 * PI * rdot (cellVec g) (r12 pos c1 c2).
  Definition eZ (Rl : mat R) (pos : nat -> vec R) (c1 c2 : nat) (g : V3) : R :=
    match zt Rl pos c1 c2 g with None => 0 | Some (f, f', m) => cos (arg pos c1 c2 g) * f end.
  Definition pairE (Rl : mat R) (pos : nat -> vec R) (N : V3) (c1 c2 : nat) : R := pre Rl c1 c2 * rsum (eZ Rl pos c1 c2) (boxLoop N).
  Definition next (Rl : mat R) (pos : nat -> vec R) (N : V3) (c1 : nat) (p : acc * R) (c2 : nat) : acc * R :=
    let '(a, zz) := p in
    let p := fold_left (slabTerm Rl sigma iDir (pre Rl c1 c2) (r12 pos c1 c2) (z12 Rl pos c1 c2)) (boxLoop N) (PA 0 (V 0 0 0) (latt a) zz) in
    (Acc (energy a + E12 p) (addAt rvadd (addAt rvsub (force a) c1 (E12_r12 p)) c2 (E12_r12 p)) (rmsub (p_latt p) (rmscale (E12 p) rid)), p_zz p + E12 p).
  Lemma slabPair_next Rl pos N c1 s c2 : slabPair Rl sigma iDir margin Zc pos N c1 (Some s) c2 = if okp Rl pos c1 c2 then Some (next Rl pos N c1 s c2) else None.
  Proof. destruct s as [a zz]. unfold slabPair, okp, next, z12, r12, pre. cbv zeta. destruct (Rle_dec _ _); reflexivity. Qed.
  Definition allok (Rl : mat R) (pos : nat -> vec R) : bool := forallb (fun c1 => forallb (okp Rl pos c1) (seq 0 (S c1))) (seq 0 n).
  Definition allnext (Rl : mat R) (pos : nat -> vec R) (N : V3) (s : acc * R) : acc * R :=
    fold_left (fun s c1 => fold_left (next Rl pos N c1) (seq 0 (S c1)) s) (seq 0 n) s.
  Lemma slabPairs Rl pos N s :
    fold_left (fun o c1 => fold_left (slabPair Rl sigma iDir margin Zc pos N c1) (seq 0 (S c1)) o) (seq 0 n) (Some s) = if allok Rl pos then Some (allnext Rl pos N s) else None.
  Proof.
    apply (fold_opt (fun o c1 => fold_left (slabPair Rl sigma iDir margin Zc pos N c1) (seq 0 (S c1)) o) (fun c1 => forallb (okp Rl pos c1) (seq 0 (S c1)))).
    - intros c1. generalize (seq 0 (S c1)). induction l; cbn [fold_left]; [reflexivity|assumption].
    - intros s' c1 _. apply (fold_opt (slabPair Rl sigma iDir margin Zc pos N c1) (okp Rl pos c1)); [reflexivity|]. intros s2 c2 _. apply slabPair_next.
  Qed.
  Definition tri (F : nat -> nat -> R) : R := rsum (fun c1 => rsum (F c1) (seq 0 (S c1))) (seq 0 n).
  Lemma fold_tri {S} (step : nat -> S -> nat -> S) (val : S -> R) F s :
    (forall s c1 c2, (c1 < n)%nat -> (c2 <= c1)%nat -> val (step c1 s c2) = val s + F c1 c2) ->
    val (fold_left (fun s c1 => fold_left (step c1) (seq 0 (Datatypes.S c1)) s) (seq 0 n) s) = val s + tri F.
  Proof.
    intros H. apply (fold_sum (fun s c1 => fold_left (step c1) (seq 0 (Datatypes.S c1)) s) val (fun c1 => rsum (F c1) (seq 0 (Datatypes.S c1)))). intros s' c1 I1. apply in_seq in I1.
    apply (fold_sum (step c1) val (F c1)). intros s2 c2 I2. apply in_seq in I2. apply H; lia.
  Qed.
  Lemma slabTerm_E Rl pos c1 c2 a g : E12 (slabTerm Rl sigma iDir (pre Rl c1 c2) (r12 pos c1 c2) (z12 Rl pos c1 c2) a g) = E12 a + pre Rl c1 c2 * eZ Rl pos c1 c2 g.
  Proof. unfold slabTerm, eZ, zt, arg. cbv zeta. destruct (zTerms _ _ _) as [[[f f'] m]|]; cbn [E12]; ring. Qed.
  Lemma pair_E Rl pos N c1 c2 l0 zz : E12 (fold_left (slabTerm Rl sigma iDir (pre Rl c1 c2) (r12 pos c1 c2) (z12 Rl pos c1 c2)) (boxLoop N) (PA 0 (V 0 0 0) l0 zz)) = pairE Rl pos N c1 c2.
  Proof.
    rewrite (fold_sum _ E12 (fun g => pre Rl c1 c2 * eZ Rl pos c1 c2 g)) by (intros; apply slabTerm_E). cbn [E12]. rewrite rsum_scale. unfold pairE. ring.
  Qed.
  Lemma next_E Rl pos N c1 s c2 : energy (fst (next Rl pos N c1 s c2)) = energy (fst s) + pairE Rl pos N c1 c2.
  Proof. destruct s as [a zz]. unfold next. cbn [fst energy]. rewrite pair_E. reflexivity. Qed.
  Lemma allnext_E Rl pos N s : energy (fst (allnext Rl pos N s)) = energy (fst s) + tri (pairE Rl pos N).
  Proof. unfold allnext. apply (fold_tri (next Rl pos N) (fun s => energy (fst s))). intros; apply next_E. Qed.

  Variables (eps : mat R) (d : nat -> vec R).
  (** zHat . eps . zHat *)
  Definition zz (Rl : mat R) : R := contraction (Ions_Model.outer (col Rl) (col Rl)) eps / rdot (col Rl) (col Rl).
  Definition Sg (Rl : mat R) (g : V3) : R := contraction (Ions_Model.outer (rvm (cellVec g) (gG Rl)) (rvm (cellVec g) (gG Rl))) eps.
  Definition gZ (Rl : mat R) (pos : nat -> vec R) (c1 c2 : nat) (g : V3) : R :=
    match zt Rl pos c1 c2 g with
    | None => 0
    | Some (f, f', m) => cos (arg pos c1 c2 g) * (f' * (z12 Rl pos c1 c2 * zz Rl + slabL Rl iDir * comp (rvsub (d c1) (d c2)) iDir) + m * Sg Rl g)
        - sin (arg pos c1 c2 g) * (2 * PI * rdot (cellVec g) (rvsub (d c1) (d c2))) * f
    end.
  Definition pairG (Rl : mat R) (pos : nat -> vec R) (N : V3) (c1 c2 : nat) : R :=
    pre Rl c1 c2 * rsum (gZ Rl pos c1 c2) (boxLoop N) + pairE Rl pos N c1 c2 * (zz Rl - rtrace eps).
  Definition PhiS (Rl : mat R) (s : acc * R) : R := Phi n eps d (force (fst s)) (latt (fst s)) + snd s * zz Rl.
  Lemma unit3_dot v w : rdot (unit3 iDir v) w = v * comp w iDir.
  Proof. destruct w. unfold unit3, comp. destruct iDir as [|[|[|k]]]; try lia; cbn [Nat.eqb]; v3u; ring. Qed.
  Lemma slabTerm_Phi Rl pos c1 c2 a g :
    let b := slabTerm Rl sigma iDir (pre Rl c1 c2) (r12 pos c1 c2) (z12 Rl pos c1 c2) a g in
    contraction (p_latt b) eps + p_zz b * zz Rl + rdot (E12_r12 b) (rvsub (d c1) (d c2))
    = contraction (p_latt a) eps + p_zz a * zz Rl + rdot (E12_r12 a) (rvsub (d c1) (d c2)) + pre Rl c1 c2 * gZ Rl pos c1 c2 g.
  Proof.
    cbv zeta. unfold slabTerm, gZ, zt. cbv zeta. destruct (zTerms _ _ _) as [[[f f'] m]|]; [|ring]. cbn [p_latt p_zz E12_r12]. fold (arg pos c1 c2 g).
    rewrite contraction_add, contraction_scale, !rdot_addv, rdot_scale_l, unit3_dot. fold (Sg Rl g). ring.
  Qed.
  Lemma next_Phi Rl pos N c1 s c2 : (c1 < n)%nat -> (c2 <= c1)%nat -> PhiS Rl (next Rl pos N c1 s c2) = PhiS Rl s + pairG Rl pos N c1 c2.
  Proof.
    intros L1 L2. destruct s as [a y]. unfold PhiS, Phi, next. cbn [fst snd force latt]. rewrite pair_E.
    set (p := fold_left _ (boxLoop N) _). pose (val := fun b : pairAcc => contraction (p_latt b) eps + p_zz b * zz Rl + rdot (E12_r12 b) (rvsub (d c1) (d c2))).
    assert (HV : val p = val (PA 0 (V 0 0 0) (latt a) y) + rsum (fun g => pre Rl c1 c2 * gZ Rl pos c1 c2 g) (boxLoop N)).
    { unfold p. apply (fold_sum _ val). intros b g _. apply slabTerm_Phi. }
    unfold val in HV. cbn [p_latt p_zz E12_r12] in HV. replace (rdot (V 0 0 0) (rvsub (d c1) (d c2))) with 0 in HV by (generalize (rvsub (d c1) (d c2)); intros w; destruct w; v3u; ring).
    rewrite rsum_scale in HV. rewrite work_add, work_sub by lia. rewrite contraction_sub, contraction_scale, trace_contraction.
    replace (rdot (E12_r12 p) (rvsub (d c1) (d c2))) with (rdot (E12_r12 p) (d c1) - rdot (E12_r12 p) (d c2)) in HV by (rewrite !(rdot_comm (E12_r12 p)); symmetry; apply rdot_subv).
    unfold pairG. lra.
  Qed.
  Lemma allnext_Phi Rl pos N s : PhiS Rl (allnext Rl pos N s) = PhiS Rl s + tri (pairG Rl pos N).
  Proof. unfold allnext. apply (fold_tri (next Rl pos N) (PhiS Rl)). intros; apply next_Phi; auto. Qed.

  (** ** Derivatives *)
  Lemma col_strained Rl t : col (strained Rl eps t) = rvadd (col Rl) (rvscale t (rmv eps (col Rl))).
  Proof. unfold strained. destruct Rl, eps, iDir as [|[|[|k]]]; try lia; cbn [mrow mtrans]; v3u; f_equal; ring. Qed.
  Lemma L_pos Rl : rdet Rl <> 0 -> 0 < rdot (col Rl) (col Rl).
  Proof.
    intros D. assert (P := col_pos Rl iDir D Dir). replace (col Rl) with (mcol Rl iDir) by (destruct Rl, iDir as [|[|[|k]]]; try lia; reflexivity). exact P.
  Qed.
  Lemma L2_derive Rl : rdet Rl <> 0 -> is_derive (fun t => rdot (col (strained Rl eps t)) (col (strained Rl eps t))) 0 (2 * (zz Rl * rdot (col Rl) (col Rl))).
  Proof.
    intros D. assert (P := L_pos Rl D). apply (is_derive_ext (fun t => rlen2 (rvadd (rvadd (col Rl) (rvscale t (rmv eps (col Rl)))) (rvscale (t*t) (V 0 0 0))))).
    - intros t. rewrite col_strained. generalize (col Rl) (rmv eps (col Rl)). intros u v. match goal with |- ?a = ?b => change (@eq R a b) end. destruct u, v. v3u. ring.
    - eapply dval; [apply poly_len2|]. unfold zz. replace (rdot (col Rl) (rmv eps (col Rl))) with (contraction (Ions_Model.outer (col Rl) (col Rl)) eps).
      + field. lra.
      + generalize (col Rl). intros u. destruct u, eps. unfold contraction, Ions_Model.outer. v3u. ring.
  Qed.
  Lemma L_derive Rl : rdet Rl <> 0 -> is_derive (fun t => slabL (strained Rl eps t) iDir) 0 (slabL Rl iDir * zz Rl).
  Proof.
    intros D. assert (P := L_pos Rl D). unfold slabL.
    assert (Sq : 0 < sqrt (rdot (col Rl) (col Rl))) by (apply sqrt_lt_R0; exact P).
    eapply dval; [apply (is_derive_comp (K:=R_AbsRing) (V:=R_NormedModule) sqrt (fun t => rdot (col (strained Rl eps t)) (col (strained Rl eps t))) 0 (/ (2 * sqrt (rdot (col Rl) (col Rl)))) (2 * (zz Rl * rdot (col Rl) (col Rl)))); [|apply L2_derive; exact D]|].
    - rewrite strained_same, strained_0. apply is_derive_Reals. apply derivable_pt_lim_sqrt. exact P.
    - match goal with |- ?a = ?b => change (@eq R a b) end. change (2 * (zz Rl * rdot (col Rl) (col Rl)) * / (2 * sqrt (rdot (col Rl) (col Rl))) = sqrt (rdot (col Rl) (col Rl)) * zz Rl).
      rewrite <- (sqrt_sqrt (rdot (col Rl) (col Rl))) at 1 by lra. field. lra.
  Qed.
  Lemma comp_lin u v t : comp (rvadd u (rvscale t v)) iDir = comp u iDir + t * comp v iDir.
  Proof. destruct u, v. unfold comp. destruct iDir as [|[|k]]; v3u; ring. Qed.
  Lemma r12_displaced pos t c1 c2 : r12 (displaced pos d t) c1 c2 = rvadd (r12 pos c1 c2) (rvscale t (rvsub (d c1) (d c2))).
  Proof. unfold r12, displaced. generalize (pos c1) (pos c2) (d c1) (d c2). intros u v w x. destruct u, v, w, x. v3u. f_equal; ring. Qed.
  Lemma z_derive Rl pos c1 c2 : rdet Rl <> 0 -> is_derive (fun t => z12 (strained Rl eps t) (displaced pos d t) c1 c2) 0 (z12 Rl pos c1 c2 * zz Rl + slabL Rl iDir * comp (rvsub (d c1) (d c2)) iDir).
  Proof.
    intros D. unfold z12. apply (is_derive_ext (fun t => slabL (strained Rl eps t) iDir * (comp (r12 pos c1 c2) iDir + t * comp (rvsub (d c1) (d c2)) iDir))).
    - intros t. rewrite r12_displaced, comp_lin. reflexivity.
    - eapply dval; [apply (dmul (fun t => slabL (strained Rl eps t) iDir) (fun t => comp (r12 pos c1 c2) iDir + t * comp (rvsub (d c1) (d c2)) iDir) 0 (slabL Rl iDir * zz Rl) (comp (rvsub (d c1) (d c2)) iDir)); [apply L_derive; exact D|auto_derive; [exact Logic.I|ring]]|].
      cbv beta. rewrite strained_same, strained_0. ring.
  Qed.
  Lemma z_0 Rl pos c1 c2 : z12 (strained Rl eps 0) (displaced pos d 0) c1 c2 = z12 Rl pos c1 c2.
  Proof. unfold z12, r12. rewrite strained_same, strained_0, !displaced_0. reflexivity. Qed.
  Lemma zTerms_pos q z : 0 < q -> sqrt q * Rabs z <= 100 -> zTerms sigma q z = Some (zF sigma (sqrt q) z, zP sigma (sqrt q) z, zM sigma (sqrt q) z).
  Proof.
    intros P L. unfold zTerms. cbv zeta. destruct (Req_EM_T q 0); [lra|]. assert (Sq : 0 < sqrt q) by (apply sqrt_lt_R0; exact P).
    rewrite Rabs_mult, (Rabs_pos_eq (sqrt q)) by lra. destruct (Rlt_dec 100 (sqrt q * Rabs z)); [lra|]. unfold zM, zK, zF, zP. rewrite sqrt_sqrt by lra.
    replace (exp (- (sqrt q * z))) with (1 / exp (sqrt q * z)) by (rewrite exp_Ropp; unfold Rdiv; ring). reflexivity.
  Qed.
  Lemma zTerms_far q z : 0 < q -> 100 < sqrt q * Rabs z -> zTerms sigma q z = None.
  Proof.
    intros P L. unfold zTerms. cbv zeta. destruct (Req_EM_T q 0); [lra|]. assert (Sq : 0 < sqrt q) by (apply sqrt_lt_R0; exact P).
    rewrite Rabs_mult, (Rabs_pos_eq (sqrt q)) by lra. destruct (Rlt_dec 100 (sqrt q * Rabs z)); [reflexivity|lra].
  Qed.
  Lemma zTerms_0 z : zTerms sigma 0 z = Some (zF0 sigma z, - erf (sqrt (1/2) / sigma * z), 0).
  Proof. unfold zTerms. cbv zeta. destruct (Req_EM_T 0 0); [|lra]. reflexivity. Qed.
  Lemma G_derive Rl g : rdet Rl <> 0 -> g <> (0, 0, 0)%Z ->
    is_derive (fun t => sqrt (metric2 (gGGT (strained Rl eps t)) (cellVec g))) 0 (- Sg Rl g / sqrt (metric2 (gGGT Rl) (cellVec g))).
  Proof.
    intros D N. assert (P : 0 < metric2 (gGGT Rl) (cellVec g)) by (assert (A := Gsq_nonneg Rl (cellVec g)); destruct (Req_EM_T (metric2 (gGGT Rl) (cellVec g)) 0) as [E|E]; [apply Gsq_0 in E; [contradiction|exact D]|lra]).
    assert (Sq := sqrt_lt_R0 _ P).
    eapply dval; [apply (is_derive_comp (K:=R_AbsRing) (V:=R_NormedModule) sqrt (fun t => metric2 (gGGT (strained Rl eps t)) (cellVec g)) 0 (/ (2 * sqrt (metric2 (gGGT Rl) (cellVec g)))) (-2 * Sg Rl g)); [|apply Gsq_derive; exact D]|].
    - rewrite strained_same, strained_0. apply is_derive_Reals. apply derivable_pt_lim_sqrt. exact P.
    - match goal with |- ?a = ?b => change (@eq R a b) end. change (-2 * Sg Rl g * / (2 * sqrt (metric2 (gGGT Rl) (cellVec g))) = - Sg Rl g / sqrt (metric2 (gGGT Rl) (cellVec g))). field. lra.
  Qed.
  Definition val3 (o : option (R * R * R)) : R := match o with None => 0 | Some (f, f', m) => f end.
  Definition der3 (o : option (R * R * R)) (z' S : R) : R := match o with None => 0 | Some (f, f', m) => f' * z' + m * S end.
  Lemma zt_derive Rl pos c1 c2 g : rdet Rl <> 0 -> sqrt (metric2 (gGGT Rl) (cellVec g)) * Rabs (z12 Rl pos c1 c2) <> 100 ->
    is_derive (fun t => val3 (zt (strained Rl eps t) (displaced pos d t) c1 c2 g)) 0
      (der3 (zt Rl pos c1 c2 g) (z12 Rl pos c1 c2 * zz Rl + slabL Rl iDir * comp (rvsub (d c1) (d c2)) iDir) (Sg Rl g)).
  Proof.
    intros D H. assert (Dz := z_derive Rl pos c1 c2 D). set (z' := z12 Rl pos c1 c2 * zz Rl + slabL Rl iDir * comp (rvsub (d c1) (d c2)) iDir) in *.
    set (z := fun t => z12 (strained Rl eps t) (displaced pos d t) c1 c2) in *. assert (z0 : z 0 = z12 Rl pos c1 c2) by apply z_0. rewrite <- z0 in H.
    destruct (Req_EM_T (metric2 (gGGT Rl) (cellVec g)) 0) as [E|E].
    - apply Gsq_0 in E; [|exact D]. subst g. assert (Z : forall Rl, metric2 (gGGT Rl) (cellVec (0, 0, 0)%Z) = 0).
      { intros A. rewrite metric_len. unfold cellVec. cbn [v0 v1 v2 fst snd]. destruct (gG A). v3u. ring. }
      unfold zt. rewrite Z, zTerms_0. cbn [der3]. apply (is_derive_ext (fun t => zF0 sigma (z t))); [intros t; rewrite Z, zTerms_0; reflexivity|].
      rewrite Rmult_0_l, Rplus_0_r. rewrite Rmult_comm. rewrite <- z0.
      apply (is_derive_comp (K:=R_AbsRing) (V:=R_NormedModule) (zF0 sigma) z 0); [apply zF0_derive; exact Sp|exact Dz].
    - assert (N : g <> (0, 0, 0)%Z) by (intros F; apply E, Gsq_0; auto).
      assert (DG := G_derive Rl g D N). set (G := fun t => sqrt (metric2 (gGGT (strained Rl eps t)) (cellVec g))) in *.
      assert (G0 : G 0 = sqrt (metric2 (gGGT Rl) (cellVec g))) by (unfold G; rewrite strained_same, strained_0; reflexivity). rewrite <- G0 in H, DG.
      assert (P : 0 < metric2 (gGGT Rl) (cellVec g)) by (assert (A := Gsq_nonneg Rl (cellVec g)); lra). assert (Sq := sqrt_lt_R0 _ P). rewrite <- G0 in Sq.
      assert (Lp : locally 0 (fun t => 0 < metric2 (gGGT (strained Rl eps t)) (cellVec g))) by apply (above_loc Rl eps (cellVec g) 0 D P).
      assert (C : continuous (fun t => G t * Rabs (z t)) 0).
      { apply (continuous_mult G (fun t => Rabs (z t))); [apply (ex_derive_continuous (K:=R_AbsRing) (V:=R_NormedModule)); eexists; exact DG|].
        apply (continuous_comp z Rabs); [apply (ex_derive_continuous (K:=R_AbsRing) (V:=R_NormedModule)); eexists; exact Dz|apply continuous_Rabs]. }
      destruct (Rlt_le_dec 100 (G 0 * Rabs (z 0))) as [Hi|Lo].
      + unfold zt at 2. rewrite zTerms_far by (rewrite <- ?G0, <- ?z0; assumption). cbn [der3]. apply (is_derive_ext_loc (fun _ => 0)); [|apply dconst].
        assert (Lc : locally 0 (fun t => 100 < G t * Rabs (z t))) by (apply (C (fun y => 100 < y)), loc_gt; exact Hi).
        assert (F := filter_and _ _ Lp Lc). revert F. apply filter_imp. intros t [P1 P2]. unfold zt. rewrite zTerms_far by assumption. reflexivity.
      + unfold zt at 2. rewrite zTerms_pos by (rewrite <- ?G0, <- ?z0; assumption). cbn [der3]. rewrite <- G0, <- z0.
        apply (is_derive_ext_loc (fun t => zF sigma (G t) (z t))).
        * assert (Lc : locally 0 (fun t => G t * Rabs (z t) < 100)) by (apply (C (fun y => y < 100)), loc_lt; lra).
          assert (F := filter_and _ _ Lp Lc). revert F. apply filter_imp. intros t [P1 P2]. unfold zt. rewrite zTerms_pos by (try assumption; left; assumption). reflexivity.
        * eapply dval; [apply (zF_derive sigma Sp G z _ _ DG Dz Sq)|]. match goal with |- ?a = ?b => change (@eq R a b) end. field. lra.
  Qed.
  Lemma eZ_derive Rl pos c1 c2 g : rdet Rl <> 0 -> sqrt (metric2 (gGGT Rl) (cellVec g)) * Rabs (z12 Rl pos c1 c2) <> 100 ->
    is_derive (fun t => eZ (strained Rl eps t) (displaced pos d t) c1 c2 g) 0 (gZ Rl pos c1 c2 g).
  Proof.
    intros D H. assert (Dt := zt_derive Rl pos c1 c2 g D H).
    assert (Dc : is_derive (fun t => cos (arg (displaced pos d t) c1 c2 g)) 0 (- sin (arg pos c1 c2 g) * (2 * PI * rdot (cellVec g) (rvsub (d c1) (d c2))))).
    { apply (is_derive_ext (fun t => cos (arg pos c1 c2 g + t * (2 * PI * rdot (cellVec g) (rvsub (d c1) (d c2)))))); [|apply dcos]. intros t. f_equal. unfold arg. rewrite r12_displaced.
      generalize (cellVec g) (r12 pos c1 c2) (rvsub (d c1) (d c2)). intros u v w. match goal with |- ?a = ?b => change (@eq R a b) end. destruct u, v, w. v3u. ring. }
    apply (is_derive_ext (fun t => cos (arg (displaced pos d t) c1 c2 g) * val3 (zt (strained Rl eps t) (displaced pos d t) c1 c2 g))).
    - intros t. unfold eZ. destruct (zt (strained Rl eps t) (displaced pos d t) c1 c2 g) as [[[f f'] m]|]; cbn [val3]; match goal with |- ?a = ?b => change (@eq R a b) end; ring.
    - eapply dval; [apply (dmul _ _ _ _ _ Dc Dt)|]. cbv beta.
      assert (Ez : zt (strained Rl eps 0) (displaced pos d 0) c1 c2 g = zt Rl pos c1 c2 g) by (unfold zt; rewrite z_0, strained_same, strained_0; reflexivity).
      assert (Ea : arg (displaced pos d 0) c1 c2 g = arg pos c1 c2 g) by (unfold arg, r12; rewrite !displaced_0; reflexivity).
      rewrite Ez, Ea. unfold gZ. destruct (zt Rl pos c1 c2 g) as [[[f f'] m]|]; cbn [val3 der3]; match goal with |- ?a = ?b => change (@eq R a b) end; ring.
  Qed.
  Lemma pre_derive Rl c1 c2 : rdet Rl <> 0 -> is_derive (fun t => pre (strained Rl eps t) c1 c2) 0 (pre Rl c1 c2 * (zz Rl - rtrace eps)).
  Proof.
    intros D. unfold pre, volPrefac. set (w := if Nat.eqb c1 c2 then 1 else 2).
    apply (is_derive_ext (fun t => (PI * Zc c1 * Zc c2 * w) * (slabL (strained Rl eps t) iDir * (1 / Rabs (rdet (strained Rl eps t)))))).
    - intros t. match goal with |- ?a = ?b => change (@eq R a b) end. unfold Rdiv. ring.
    - eapply dval; [apply dscal, (dmul _ _ _ _ _ (L_derive Rl D) (invvol_derive Rl eps D))|]. cbv beta. rewrite strained_same, strained_0. match goal with |- ?a = ?b => change (@eq R a b) end. unfold Rdiv. ring.
  Qed.
  Lemma pairE_derive Rl pos N c1 c2 : rdet Rl <> 0 -> (forall g, In g (boxLoop N) -> sqrt (metric2 (gGGT Rl) (cellVec g)) * Rabs (z12 Rl pos c1 c2) <> 100) ->
    is_derive (fun t => pairE (strained Rl eps t) (displaced pos d t) N c1 c2) 0 (pairG Rl pos N c1 c2).
  Proof.
    intros D H. unfold pairE, pairG.
    assert (Ds : is_derive (fun t => rsum (eZ (strained Rl eps t) (displaced pos d t) c1 c2) (boxLoop N)) 0 (rsum (gZ Rl pos c1 c2) (boxLoop N))).
    { apply (rsum_derive (boxLoop N) (fun g t => eZ (strained Rl eps t) (displaced pos d t) c1 c2 g)). intros g I. apply eZ_derive; auto. }
    eapply dval; [apply (dmul _ _ _ _ _ (pre_derive Rl c1 c2 D) Ds)|]. cbv beta. rewrite strained_same, strained_0. unfold pairE.
    replace (rsum (eZ Rl (displaced pos d 0) c1 c2) (boxLoop N)) with (rsum (eZ Rl pos c1 c2) (boxLoop N)); [ring|].
    apply rsum_ext. intros g _. unfold eZ, zt, arg, z12, r12. rewrite !displaced_0. reflexivity.
  Qed.
  Lemma allok_iff Rl pos : allok Rl pos = true <-> forall c1 c2, (c1 < n)%nat -> (c2 <= c1)%nat -> Rabs (z12 Rl pos c1 c2) < 1/2 * slabL Rl iDir - margin.
  Proof.
    unfold allok. rewrite forallb_forall. split.
    - intros H c1 c2 L1 L2. assert (A := H c1 ltac:(apply in_seq; lia)). rewrite forallb_forall in A. specialize (A c2 ltac:(apply in_seq; lia)). unfold okp in A. destruct (Rle_dec _ _); [discriminate|lra].
    - intros H c1 I1. apply in_seq in I1. rewrite forallb_forall. intros c2 I2. apply in_seq in I2. specialize (H c1 c2 ltac:(lia) ltac:(lia)). unfold okp. destruct (Rle_dec _ _); [lra|reflexivity].
  Qed.
  Lemma allok_loc Rl pos : rdet Rl <> 0 -> allok Rl pos = true -> locally 0 (fun t => allok (strained Rl eps t) (displaced pos d t) = true).
  Proof.
    intros D H. rewrite allok_iff in H.
    assert (A : locally 0 (fun t => forall c1, (c1 < n)%nat -> forall c2, (c2 < n)%nat -> (c2 <= c1)%nat -> Rabs (z12 (strained Rl eps t) (displaced pos d t) c1 c2) < 1/2 * slabL (strained Rl eps t) iDir - margin)).
    { apply loc_all. intros c1 L1. apply (loc_all n (fun c2 t => (c2 <= c1)%nat -> Rabs (z12 (strained Rl eps t) (displaced pos d t) c1 c2) < 1/2 * slabL (strained Rl eps t) iDir - margin)). intros c2 L2.
      destruct (Nat.le_gt_cases c2 c1) as [L|L]; [|apply filter_forall; intros; lia]. specialize (H c1 c2 L1 L).
      assert (C : continuous (fun t => 1/2 * slabL (strained Rl eps t) iDir + - Rabs (z12 (strained Rl eps t) (displaced pos d t) c1 c2)) 0).
      { apply (continuous_plus (V:=R_NormedModule) (fun t => 1/2 * slabL (strained Rl eps t) iDir) (fun t => - Rabs (z12 (strained Rl eps t) (displaced pos d t) c1 c2))).
        - apply (continuous_mult (fun _ => 1/2) (fun t => slabL (strained Rl eps t) iDir)); [apply continuous_const|apply (ex_derive_continuous (K:=R_AbsRing) (V:=R_NormedModule)); eexists; apply L_derive; exact D].
        - apply (continuous_opp (V:=R_NormedModule) (fun t => Rabs (z12 (strained Rl eps t) (displaced pos d t) c1 c2))).
          apply (continuous_comp (fun t => z12 (strained Rl eps t) (displaced pos d t) c1 c2) Rabs); [apply (ex_derive_continuous (K:=R_AbsRing) (V:=R_NormedModule)); eexists; apply z_derive; exact D|apply continuous_Rabs]. }
      assert (Lc : locally 0 (fun t => margin < 1/2 * slabL (strained Rl eps t) iDir + - Rabs (z12 (strained Rl eps t) (displaced pos d t) c1 c2))).
      { apply (C (fun y => margin < y)), loc_gt. rewrite z_0, strained_same, strained_0. lra. }
      revert Lc. apply filter_imp. intros t Ht _. lra. }
    revert A. apply filter_imp. intros t Ht. apply allok_iff. intros c1 c2 L1 L2. apply Ht; lia.
  Qed.
End Slab.
