(** D3: forces and lattice derivative; total force and symmetry of the lattice derivative. *)
From Coq Require Import ZArith Reals List Bool Lia Lra Psatz.
From Coquelicot Require Import Coquelicot.
From Verif Require Import Base WorkDiv_Model Grid_Model Vec3_Model Vec3_Facts Lattice_Model RealUtil Coulomb_Model Coulomb_Proofs Coulomb_Proofs3 WS_Model Ions_Model CellMap_Spec CellMap_Proofs VdW_Model VdW_Spec VdW_Proofs VdW_Proofs2 VdW_Proofs3 VdW_Proofs4.
Import ListNotations.
Local Open Scope R_scope.
Set Bullet Behavior "Strict Subproofs".

Lemma sum2_derive n (F : nat -> nat -> R -> R) (F' : nat -> nat -> R) t :
  (forall c1 c2, (c1 < n)%nat -> (c2 < n)%nat -> is_derive (F c1 c2) t (F' c1 c2)) -> is_derive (fun s => sum2 n (fun c1 c2 => F c1 c2 s)) t (sum2 n F').
Proof.
  intros H. unfold sum2. apply (rsum_derive (seq 0 n) (fun c1 s => rsum (fun c2 => F c1 c2 s) (seq 0 n))). intros c1 I1.
  apply (rsum_derive (seq 0 n) (fun c2 s => F c1 c2 s)). intros c2 I2. apply in_seq in I1. apply in_seq in I2. apply H; lia.
Qed.
Lemma ind_derive c e (f : R -> R) (f' t : R) : is_derive f t f' -> is_derive (fun s => ind c e (f s)) t (ind c e f').
Proof. intros H. unfold ind. destruct (c =? e)%nat; [exact H|apply dconst]. Qed.
Lemma cut_sq Rl pos c1 c2 g cut : 0 < cut -> distance Rl pos c1 c2 g <> cut -> metric2 (RTR Rl) (sep pos c1 c2 g) <> cut * cut.
Proof. intros P N E. apply N. rewrite distance_sep, E. apply sqrt_square. lra. Qed.

Section Grad.
  Variables (dampBJ : bool) (s6 s8 sr6 sr8 : R) (aps : nat -> atomParams) (pps : nat -> nat -> pairParams) (n : nat) (sp : nat -> nat).
  Variables (Rl eps : mat R) (pos d : nat -> vec R) (rCut : R) (procs : list (list V3 * list V3)).
  Notation Rt t := (strained Rl eps t).
  Notation pt t := (displaced pos d t).
  Hypothesis Pc : 0 < rCut.
  Hypothesis Sep1 : separate Rl pos n (cells1 procs).
  Hypothesis Sep2 : separate Rl pos n (cells2 procs).
  Hypothesis Cut1 : none_at Rl pos n (cells1 procs) rCut.
  Hypothesis Cut2 : none_at Rl pos n (cells2 procs) 50.
  Lemma pair_derive (cells : list V3) cut (h : R -> R) (h' : R) c1 c2 g : 0 < cut -> separate Rl pos n cells -> none_at Rl pos n cells cut -> (c1 < n)%nat -> (c2 < n)%nat -> In g cells ->
    (0 < distance Rl pos c1 c2 g -> is_derive h (distance Rl pos c1 c2 g) h') ->
    is_derive (fun t => if testc cut (qOf (Rt t) (pt t) c1 c2 g) then h (sqrt (qOf (Rt t) (pt t) c1 c2 g)) else 0) 0
      (if testc cut (qOf Rl pos c1 c2 g) then h' / sqrt (qOf Rl pos c1 c2 g) * rate Rl (sep pos c1 c2 g) (rvsub (d c1) (d c2)) eps else 0).
  Proof.
    intros P Sep None L1 L2 I Dh.
    assert (T := term_derive (qt Rl eps pos d c1 c2 g) (rate Rl (sep pos c1 c2 g) (rvsub (d c1) (d c2)) eps) (testc cut) h h').
    rewrite qt_0 in T. apply T; clear T.
    - apply qt_derive.
    - apply metric2_RTR_pos.
    - intros E. apply distance_0 in E. destruct (Sep c1 c2 g L1 L2 I E) as [-> ->]. split; [unfold testc; destruct (Req_EM_T 0 0); [reflexivity|lra]|]. intros t. apply qt_self. reflexivity.
    - intros Pq. apply testc_loc; [exact Pq|]. apply cut_sq; [exact P|]. apply None; auto.
    - intros Pq _. rewrite <- distance_sep. apply Dh. rewrite distance_sep. apply sqrt_lt_R0. exact Pq.
  Qed.
  Notation CN0 := (CNt aps n sp Rl pos procs).
  Notation CNs t := (CNt aps n sp (Rt t) (pt t) procs).
  Notation dCNc := (dCN aps n sp eps d Rl pos procs).
  Lemma CN_derive c : is_derive (fun t => CNs t c) 0 (dCNc c).
  Proof.
    unfold dCN, CNt. apply (is_derive_ext (fun t => sum2 n (fun c1 c2 => ind c c1 (rsum (cn aps sp (Rt t) (pt t) c1 c2) (cells2 procs)) + ind c c2 (rsum (cn aps sp (Rt t) (pt t) c1 c2) (cells2 procs))))).
    { intros t. symmetry. apply computeCN_sum. }
    apply (sum2_derive n (fun c1 c2 t => ind c c1 (rsum (cn aps sp (Rt t) (pt t) c1 c2) (cells2 procs)) + ind c c2 (rsum (cn aps sp (Rt t) (pt t) c1 c2) (cells2 procs)))). intros c1 c2 L1 L2.
    assert (D : is_derive (fun t => rsum (cn aps sp (Rt t) (pt t) c1 c2) (cells2 procs)) 0 (rsum (cn' aps sp eps d Rl pos c1 c2) (cells2 procs))).
    { apply (rsum_derive (cells2 procs) (fun g t => cn aps sp (Rt t) (pt t) c1 c2 g)). intros g I. apply (pair_derive (cells2 procs) rCutCN (cnf (cellWeight g) (rcs aps sp c1 c2))); auto; [unfold rCutCN; lra|].
      rewrite distance_sep. intros Pq. apply cnf_derive. exact Pq. }
    apply (dplus (fun t => ind c c1 (rsum (cn aps sp (Rt t) (pt t) c1 c2) (cells2 procs))) (fun t => ind c c2 (rsum (cn aps sp (Rt t) (pt t) c1 c2) (cells2 procs)))); apply ind_derive; exact D.
  Qed.
  Hypothesis NoUnder : forall c, (c < n)%nat -> LsumOf (CNref (aps (sp c))) (CN0 c) <> underflow.
  Lemma strained_0 : Rt 0 = Rl. Proof. unfold strained. destruct Rl, eps. v3u. f_equal; ring. Qed.
  Lemma displaced_0 c : pt 0 c = pos c. Proof. unfold displaced. destruct (pos c), (d c). v3u. f_equal; ring. Qed.
  Lemma CNs_0 c : CNs 0 c = CN0 c.
  Proof.
    unfold CNt. rewrite !computeCN_sum. apply sum2_ext. intros c1 c2 _ _.
    assert (E : rsum (cn aps sp (Rt 0) (pt 0) c1 c2) (concat (map snd procs)) = rsum (cn aps sp Rl pos c1 c2) (concat (map snd procs))).
    { apply rsum_ext. intros g _. unfold cn, qOf, sep. rewrite strained_0, !displaced_0. reflexivity. }
    rewrite E. reflexivity.
  Qed.
  Lemma L_derive c i : (c < n)%nat -> is_derive (fun t => nth i (fst (Lof aps sp (CNs t) c)) 0) 0 (nth i (map (fun x => dCNc c * x) (snd (Lof aps sp CN0 c))) 0).
  Proof.
    intros L. replace (nth i (map (fun x => dCNc c * x) (snd (Lof aps sp CN0 c))) 0) with (dCNc c * nth i (snd (Lof aps sp CN0 c)) 0).
    - unfold Lof. apply (is_derive_comp (K:=R_AbsRing) (V:=R_NormedModule) (fun x => nth i (fst (getL (CNref (aps (sp c))) x)) 0) (fun t => CNs t c)); [|apply CN_derive].
      rewrite CNs_0. apply getL_derive, NoUnder, L.
    - rewrite <- (map_nth (fun x => dCNc c * x)). f_equal. ring.
  Qed.
  Lemma bilinear_scale1 k l m l' : bilinear (map (fun x => k * x) l) m l' = k * bilinear l m l'.
  Proof.
    unfold bilinear. rewrite <- rsum_scale. apply rsum_ext. intros j _. rewrite <- Rmult_assoc. f_equal. rewrite <- rsum_scale. apply rsum_ext. intros i _. rewrite <- Rmult_assoc. f_equal.
    rewrite <- (map_nth (fun x => k * x)). f_equal. ring.
  Qed.
  Lemma bilinear_scale2 k l m l' : bilinear l m (map (fun x => k * x) l') = k * bilinear l m l'.
  Proof.
    unfold bilinear. rewrite <- rsum_scale. apply rsum_ext. intros j _. replace (nth j (map (fun x => k * x) l') 0) with (k * nth j l' 0); [ring|].
    rewrite <- (map_nth (fun x => k * x)). f_equal. ring.
  Qed.
  Lemma C6_derive c1 c2 : (c1 < n)%nat -> (c2 < n)%nat -> is_derive (fun t => C6c aps pps sp (CNs t) c1 c2) 0 (dC1 aps pps sp CN0 c1 c2 * dCNc c1 + dC2 aps pps sp CN0 c1 c2 * dCNc c2).
  Proof.
    intros L1 L2. unfold C6c, C6of.
    assert (B := bilinear_derive (fun t => fst (Lof aps sp (CNs t) c1)) (fun t => fst (Lof aps sp (CNs t) c2)) (map (fun x => dCNc c1 * x) (snd (Lof aps sp CN0 c1))) (map (fun x => dCNc c2 * x) (snd (Lof aps sp CN0 c2))) (pp_C6 (pps (sp c1) (sp c2))) 0
      (fun i => L_derive c1 i L1) (fun i => L_derive c2 i L2)).
    eapply dval; [exact B|]. cbv beta. rewrite bilinear_scale1, bilinear_scale2. unfold dC1, dC2, Lof. rewrite !CNs_0. ring.
  Qed.
  Definition R0fix c1 c2 : R := if dampBJ then sqrt (rat aps sp c1 c2) else pp_R0 (pps (sp c1) (sp c2)).
  Lemma R0_fix CN c1 c2 : (dampBJ = true -> C6c aps pps sp CN c1 c2 <> 0) -> R0c dampBJ aps pps sp CN c1 c2 = R0fix c1 c2.
  Proof.
    unfold R0c, R0of, R0fix. cbv zeta. destruct dampBJ; [|reflexivity]. intros H. specialize (H eq_refl). unfold rat, C6c in *. f_equal. field. exact H.
  Qed.
  Hypothesis C6nz : dampBJ = true -> forall c1 c2, (c1 < n)%nat -> (c2 < n)%nat -> C6of aps pps sp CN0 c1 c2 <> 0.
  Notation af t c1 c2 := (rsum (a6 dampBJ s6 sr6 sr8 rCut (R0fix c1 c2) (Rt t) (pt t) c1 c2) (cells1 procs) + rsum (a8 dampBJ s8 sr6 sr8 rCut (R0fix c1 c2) (Rt t) (pt t) c1 c2) (cells1 procs) * rat aps sp c1 c2).
  Lemma Atot_fix t c1 c2 : (dampBJ = true -> C6c aps pps sp (CNs t) c1 c2 <> 0) ->
    Atot dampBJ s6 s8 sr6 sr8 aps pps sp (Rt t) (pt t) rCut (CNs t) (cells1 procs) c1 c2 = af t c1 c2.
  Proof. intros H. unfold Atot, A6, A8. rewrite (R0_fix _ _ _ H). reflexivity. Qed.
  Lemma d3_gradient :
    let r := energyAndGradD3 dampBJ s6 s8 sr6 sr8 aps pps n sp Rl pos rCut procs in
    is_derive (fun t => fst (energyAndGradD3 dampBJ s6 s8 sr6 sr8 aps pps n sp (Rt t) (pt t) rCut procs)) 0 (contraction (snd (snd r)) eps - workOf n (fst (snd r)) d).
  Proof.
    cbv zeta. match goal with |- is_derive _ _ (contraction (snd (snd ?r)) eps - workOf n (fst (snd ?r)) d) => change (contraction (snd (snd r)) eps - workOf n (fst (snd r)) d) with (Phi n eps d (fst (snd r)) (snd (snd r))) end.
    rewrite total_Phi.
    apply (is_derive_ext (fun t => sum2 n (fun c1 c2 => C6c aps pps sp (CNs t) c1 c2 * Atot dampBJ s6 s8 sr6 sr8 aps pps sp (Rt t) (pt t) rCut (CNs t) (cells1 procs) c1 c2))); [intros t; symmetry; apply total_E|].
    apply (sum2_derive n (fun c1 c2 t => C6c aps pps sp (CNs t) c1 c2 * Atot dampBJ s6 s8 sr6 sr8 aps pps sp (Rt t) (pt t) rCut (CNs t) (cells1 procs) c1 c2)). intros c1 c2 L1 L2.
    assert (NZ : dampBJ = true -> C6c aps pps sp CN0 c1 c2 <> 0) by (intros B; apply C6nz; auto).
    assert (DC := C6_derive c1 c2 L1 L2).
    apply (is_derive_ext_loc (fun t => C6c aps pps sp (CNs t) c1 c2 * af t c1 c2)).
    { assert (Lc : locally 0 (fun t => dampBJ = true -> C6c aps pps sp (CNs t) c1 c2 <> 0)).
      { destruct dampBJ eqn:B; [|apply filter_forall; intros t Hf; discriminate]. specialize (NZ eq_refl).
        assert (Cc : continuous (fun t => C6c aps pps sp (CNs t) c1 c2) 0) by (apply (ex_derive_continuous (K:=R_AbsRing) (V:=R_NormedModule)); eexists; exact DC).
        assert (E0 : C6c aps pps sp (CNs 0) c1 c2 = C6c aps pps sp CN0 c1 c2) by (unfold C6c, C6of, Lof; rewrite !CNs_0; reflexivity).
        assert (Ln : locally 0 (fun t => C6c aps pps sp (CNs t) c1 c2 <> 0)).
        { apply (Cc (fun y => y <> 0)). cbv beta. rewrite E0. apply (open_neq 0). exact NZ. }
        revert Ln. apply filter_imp. intros t H _. exact H. }
      revert Lc. apply filter_imp. intros t H. rewrite Atot_fix by exact H. reflexivity. }
    assert (DA : is_derive (fun t => af t c1 c2) 0 (A6' dampBJ s6 sr6 sr8 aps pps sp eps d Rl pos rCut CN0 (cells1 procs) c1 c2 + A8' dampBJ s8 sr6 sr8 aps pps sp eps d Rl pos rCut CN0 (cells1 procs) c1 c2 * rat aps sp c1 c2)).
    { unfold A6', A8'. rewrite (R0_fix CN0 c1 c2 NZ).
      assert (D6 : is_derive (fun t => rsum (a6 dampBJ s6 sr6 sr8 rCut (R0fix c1 c2) (Rt t) (pt t) c1 c2) (cells1 procs)) 0 (rsum (a6' dampBJ s6 sr6 sr8 eps d rCut (R0fix c1 c2) Rl pos c1 c2) (cells1 procs))).
      { apply (rsum_derive (cells1 procs) (fun g t => a6 dampBJ s6 sr6 sr8 rCut (R0fix c1 c2) (Rt t) (pt t) c1 c2 g)). intros g I.
        apply (pair_derive (cells1 procs) rCut (fun r => - (cellWeight g * s6 * fst (fst (terms dampBJ sr6 sr8 r (R0fix c1 c2)))))); auto. rewrite distance_sep. intros Pq.
        apply (is_derive_opp (V:=R_NormedModule)). apply (dscal (fun r => fst (fst (terms dampBJ sr6 sr8 r (R0fix c1 c2))))). apply terms_derive. exact Pq. }
      assert (D8 : is_derive (fun t => rsum (a8 dampBJ s8 sr6 sr8 rCut (R0fix c1 c2) (Rt t) (pt t) c1 c2) (cells1 procs)) 0 (rsum (a8' dampBJ s8 sr6 sr8 eps d rCut (R0fix c1 c2) Rl pos c1 c2) (cells1 procs))).
      { apply (rsum_derive (cells1 procs) (fun g t => a8 dampBJ s8 sr6 sr8 rCut (R0fix c1 c2) (Rt t) (pt t) c1 c2 g)). intros g I.
        apply (pair_derive (cells1 procs) rCut (fun r => - (cellWeight g * s8 * fst (snd (terms dampBJ sr6 sr8 r (R0fix c1 c2)))))); auto. rewrite distance_sep. intros Pq.
        apply (is_derive_opp (V:=R_NormedModule)). apply (dscal (fun r => fst (snd (terms dampBJ sr6 sr8 r (R0fix c1 c2))))). apply terms_derive. exact Pq. }
      apply (dplus _ (fun t => rsum (a8 dampBJ s8 sr6 sr8 rCut (R0fix c1 c2) (Rt t) (pt t) c1 c2) (cells1 procs) * rat aps sp c1 c2)); [exact D6|].
      eapply dval; [apply (dmul _ (fun _ => rat aps sp c1 c2) _ _ _ D8 (dconst _ _))|]. ring. }
    eapply dval; [apply (dmul _ _ _ _ _ DC DA)|]. cbv beta.
    assert (E0 : C6c aps pps sp (CNs 0) c1 c2 = C6c aps pps sp CN0 c1 c2) by (unfold C6c, C6of, Lof; rewrite !CNs_0; reflexivity). rewrite E0.
    assert (EA : af 0 c1 c2 = Atot dampBJ s6 s8 sr6 sr8 aps pps sp Rl pos rCut CN0 (cells1 procs) c1 c2).
    { unfold Atot, A6, A8. rewrite (R0_fix CN0 c1 c2 NZ). f_equal; [|f_equal]; apply rsum_ext; intros g _; unfold a6, a8, qOf, sep; rewrite strained_0, !displaced_0; reflexivity. }
    rewrite EA. ring.
  Qed.
End Grad.

Lemma cn'_rigid aps sp Rl pos c1 c2 g v : cn' aps sp mzero (fun _ => v) Rl pos c1 c2 g = 0.
Proof. unfold cn'. rewrite rate_rigid. destruct (testc _ _); ring. Qed.
Lemma sum2_zero n F : (forall c1 c2, F c1 c2 = 0) -> sum2 n F = 0.
Proof. intros H. unfold sum2. rewrite <- (rsum_zero (seq 0 n)). apply rsum_ext. intros c1 _. rewrite <- (rsum_zero (seq 0 n)). apply rsum_ext. intros c2 _. apply H. Qed.
Lemma rsum_zero' {A} (f : A -> R) l : (forall a, f a = 0) -> rsum f l = 0.
Proof. intros H. rewrite <- (rsum_zero l). apply rsum_ext. intros; apply H. Qed.
Lemma d3_Phi_zero bj s6 s8 sr6 sr8 aps pps n sp Rl pos rCut procs eps d :
  (forall x c1 c2, rate Rl x (rvsub (d c1) (d c2)) eps = 0) ->
  let r := energyAndGradD3 bj s6 s8 sr6 sr8 aps pps n sp Rl pos rCut procs in Phi n eps d (fst (snd r)) (snd (snd r)) = 0.
Proof.
  intros H. cbv zeta. rewrite total_Phi. apply sum2_zero. intros c1 c2.
  assert (DC : forall c, dCN aps n sp eps d Rl pos procs c = 0).
  { intros c. unfold dCN. apply sum2_zero. intros e1 e2. rewrite rsum_zero'; [unfold ind; destruct (c =? e1)%nat, (c =? e2)%nat; ring|]. intros g. unfold cn'. rewrite H. destruct (testc _ _); ring. }
  rewrite !DC. unfold A6', A8'. rewrite !rsum_zero'; [ring| |]; intros g; [unfold a8'|unfold a6']; rewrite H; destruct (testc _ _); ring.
Qed.
Lemma d3_total_force bj s6 s8 sr6 sr8 aps pps n sp Rl pos rCut procs :
  let f := fst (snd (energyAndGradD3 bj s6 s8 sr6 sr8 aps pps n sp Rl pos rCut procs)) in
  rsum (fun c => c0 (f c)) (seq 0 n) = 0 /\ rsum (fun c => c1 (f c)) (seq 0 n) = 0 /\ rsum (fun c => c2 (f c)) (seq 0 n) = 0.
Proof.
  cbv zeta. assert (W : forall v, workOf n (fst (snd (energyAndGradD3 bj s6 s8 sr6 sr8 aps pps n sp Rl pos rCut procs))) (fun _ => v) = 0).
  { intros v. assert (P := d3_Phi_zero bj s6 s8 sr6 sr8 aps pps n sp Rl pos rCut procs mzero (fun _ => v) (fun x _ _ => rate_rigid Rl x v)). cbv zeta in P. unfold Phi in P.
    assert (Z : forall m, contraction m mzero = 0) by (intros m; destruct m; unfold contraction, mzero; cbn; ring). rewrite Z in P. lra. }
  assert (A := W (V 1 0 0)). assert (B := W (V 0 1 0)). assert (C := W (V 0 0 1)). rewrite work_rigid in A, B, C.
  unfold rdot, gdot in A, B, C. cbn [c0 c1 c2] in A, B, C. lra.
Qed.
Lemma d3_symmetric_stress bj s6 s8 sr6 sr8 aps pps n sp Rl pos rCut procs :
  let s := snd (snd (energyAndGradD3 bj s6 s8 sr6 sr8 aps pps n sp Rl pos rCut procs)) in m01 s = m10 s /\ m02 s = m20 s /\ m12 s = m21 s.
Proof.
  cbv zeta. apply contraction_antisym. intros w.
  assert (P := d3_Phi_zero bj s6 s8 sr6 sr8 aps pps n sp Rl pos rCut procs _ (fun _ => vzero) (fun x _ _ => rate_rotation Rl x w)). cbv zeta in P. unfold Phi in P.
  assert (Z : forall f, workOf n f (fun _ => vzero) = 0) by (intros f; rewrite work_rigid; unfold vzero, rdot, gdot; cbn [c0 c1 c2]; ring). rewrite Z in P. lra.
Qed.
