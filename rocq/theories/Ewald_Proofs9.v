(** Slab Ewald sum: formula. *)
From Coq Require Import ZArith Reals List Bool Lia Lra Psatz.
From Verif Require Import Base Gauss Grid_Model Vec3_Model Vec3_Facts Lattice_Model RealUtil Basis_Model Coulomb_Model Coulomb_Proofs Coulomb_Proofs3 WS_Model Ions_Model CellMap_Spec CellMap_Proofs
  VdW_Model VdW_Spec VdW_Proofs VdW_Proofs2 VdW_Proofs3 VdW_Proofs4 Ewald_Model Ewald_Spec Ewald_Proofs Ewald_Proofs2 Ewald_Proofs3 Ewald_Proofs4 Ewald_Proofs5 Ewald_Proofs6 Ewald_Proofs7.
Import ListNotations.
Local Open Scope R_scope.
Set Bullet Behavior "Strict Subproofs".

Lemma rsum_snoc F n : rsum F (seq 0 (S n)) = rsum F (seq 0 n) + F n.
Proof. rewrite seq_S. cbn [Nat.add]. rewrite rsum_app. f_equal. rewrite rsum_cons', rsum_nil'. ring. Qed.
Lemma tri_full n F : (forall a b, F a b = F b a) -> tri n (fun a b => (if Nat.eqb a b then 1 else 2) * F a b) = rsum (fun a => rsum (F a) (seq 0 n)) (seq 0 n).
Proof.
  intros Sy. unfold tri. induction n as [|n IH]; [reflexivity|]. rewrite (rsum_snoc _ n), IH, (rsum_snoc (fun a => rsum (F a) (seq 0 (S n))) n).
  rewrite (rsum_ext (fun a => rsum (F a) (seq 0 (S n))) (fun a => rsum (F a) (seq 0 n) + F a n)) by (intros; apply rsum_snoc). rewrite rsum_add.
  rewrite !(rsum_snoc _ n). rewrite Nat.eqb_refl. rewrite (rsum_ext (fun b => (if Nat.eqb n b then 1 else 2) * F n b) (fun b => 2 * F n b)).
  - rewrite rsum_scale. rewrite (rsum_ext (fun a => F a n) (F n)) by (intros; apply Sy). ring.
  - intros b I. apply in_seq in I. destruct (Nat.eqb_spec n b); [lia|reflexivity].
Qed.
Lemma short_eq n Zc sigma Rl hp NR boxR : 0 < sigma -> centred_box NR boxR -> sumR n Zc sigma Rl hp NR = shortRange Rl sigma n Zc hp boxR.
Proof.
  intros Sp BR. unfold sumR, shortRange. rewrite sum2_swap. unfold sum2. rewrite <- rsum_scale. apply rsum_ext. intros c1 _. rewrite <- rsum_scale. apply rsum_ext. intros c2 _. rewrite (rsum_perm _ _ _ (box_unique NR boxR BR)), <- rsum_scale.
  apply rsum_ext. intros g _. unfold eR. cbv zeta. rewrite distance_sep. set (q := metric2 (RTR Rl) (sep hp c1 c2 g)). assert (P := metric2_RTR_pos Rl (sep hp c1 c2 g)). fold q in P. unfold test0.
  destruct (Req_EM_T q 0) as [E|E], (Req_EM_T (sqrt q) 0) as [E'|E'].
  - ring.
  - exfalso. apply E'. rewrite E. apply sqrt_0.
  - exfalso. apply E. apply sqrt_eq_0; auto.
  - rewrite eta_form by exact Sp. unfold Rdiv. ring.
Qed.
Lemma self_eq n Zc sigma : 0 < sigma -> selfE n Zc sigma = selfTerm sigma n Zc.
Proof.
  intros Sp. assert (Q := sqrtPI_pos). symmetry. unfold selfTerm, selfE. rewrite ZsqTot_sum, (rsum_ext (fun c => Zc c ^ 2 / (sqrt (2 * PI) * sigma)) (fun c => (1 / (sqrt (2 * PI) * sigma)) * (Zc c * Zc c))).
  - rewrite rsum_scale. unfold eta. rewrite sqrt_div by lra. rewrite sqrt_1, sqrt_mult by (try lra; left; apply PI_RGT_0). assert (0 < sqrt 2) by (apply sqrt_lt_R0; lra). field. lra.
  - intros c _. rewrite sqrt_mult by (try lra; left; apply PI_RGT_0). assert (0 < sqrt 2) by (apply sqrt_lt_R0; lra). field. lra.
Qed.
Lemma homeSlab_unique i p x y : (i < 3)%nat -> homeSlab i p x y -> y = centred (unit3 i (comp p i)) x.
Proof.
  intros I ((a & b & c & E) & H). destruct x as [x0 x1 x2], y as [y0 y1 y2]. v3h E. injection E as E0 E1 E2.
  assert (H0 := H 0%nat ltac:(lia)). assert (H1 := H 1%nat ltac:(lia)). assert (H2 := H 2%nat ltac:(lia)). clear H. cbv zeta in *. cbn [entry c0 c1 c2] in H0, H1, H2.
  assert (U : forall x y z q, y - x = IZR z -> q - 1/2 <= y < q + 1/2 -> y = centred1 x q) by (intros x y z q E B; unfold centred1; rewrite (rfloor_unique (1/2 + x - q) (- z)); rewrite opp_IZR; lra).
  unfold centred, unit3. cbn [c0 c1 c2]. change (entry p i) with (comp p i) in *. rewrite (Nat.eqb_sym i 0), (Nat.eqb_sym i 1), (Nat.eqb_sym i 2).
  f_equal; [apply (U _ _ a)|apply (U _ _ b)|apply (U _ _ c)]; try assumption; lra.
Qed.
Lemma lattice_col Rl i : mrow (mtrans Rl) i = latticeVec Rl i.
Proof. destruct Rl. destruct i as [|[|i]]; reflexivity. Qed.
Lemma slabL_len Rl i : slabL Rl i = rlen (latticeVec Rl i).
Proof. unfold slabL. rewrite lattice_col. reflexivity. Qed.
Lemma height_z Rl i x : rdet Rl <> 0 -> perpendicular Rl i -> height Rl i (rmv Rl x) = slabL Rl i * comp x i.
Proof.
  intros D [I P]. assert (Lp : 0 < rlen (latticeVec Rl i)) by (assert (H := colLen_pos Rl i D I); unfold colLen in H; rewrite lattice_col in H; exact H).
  rewrite slabL_len. unfold height. assert (E : rdot (latticeVec Rl i) (rmv Rl x) = rlen (latticeVec Rl i) * rlen (latticeVec Rl i) * comp x i).
  { unfold rlen. rewrite sqrt_sqrt by apply rlen2_pos. assert (P0 := P 0%nat ltac:(lia)). assert (P1 := P 1%nat ltac:(lia)). assert (P2 := P 2%nat ltac:(lia)).
    assert (X : rdot (latticeVec Rl i) (rmv Rl x) = c0 x * rdot (latticeVec Rl i) (latticeVec Rl 0) + c1 x * rdot (latticeVec Rl i) (latticeVec Rl 1) + c2 x * rdot (latticeVec Rl i) (latticeVec Rl 2)).
    { generalize (latticeVec Rl i). intros u. destruct u, x, Rl. unfold latticeVec, col0, col1, col2. v3u. ring. }
    rewrite X. change (rlen2 (latticeVec Rl i)) with (rdot (latticeVec Rl i) (latticeVec Rl i)). destruct i as [|[|[|i]]]; [| | |lia]; cbn [comp]; [rewrite P1, P2 by lia|rewrite P0, P2 by lia|rewrite P0, P1 by lia]; ring. }
  rewrite E. field. lra.
Qed.
Lemma zTerms_sheet sigma G z : 0 < sigma -> 0 <= G -> zTerms sigma (G ^ 2) z = None /\ 0 < G /\ 100 < G * Rabs z \/ (exists f' m, zTerms sigma (G ^ 2) z = Some (sheet sigma G z, f', m)) /\ ~ 100 < G * Rabs z.
Proof.
  intros S Gp. unfold zTerms, sheet. assert (S2 : 0 < sqrt 2) by (apply sqrt_lt_R0; lra). assert (Q := sqrtPI_pos). cbv zeta. assert (Et : forall r, sqrt (1/2) / sigma * r = r / (sqrt 2 * sigma)) by (intros r; apply (eta_form sigma S)).
  assert (SS : sqrt 2 * sqrt 2 = 2) by (apply sqrt_sqrt; lra).
  destruct (Req_EM_T (G ^ 2) 0) as [E|E].
  - assert (G0 : G = 0) by nra. subst G. right. split; [|rewrite Rmult_0_l; lra]. destruct (Req_EM_T 0 0) as [_|N]; [|contradiction]. eexists _, _. f_equal. f_equal. f_equal. rewrite Et.
    assert (Ea : exp (- (sqrt (1/2) / sigma * (sqrt (1/2) / sigma)) * z * z) = exp (- (z / sigma) ^ 2 / 2)).
    { f_equal. transitivity (- (sqrt (1/2) * sqrt (1/2)) * (z / sigma) ^ 2); [field; lra|]. rewrite sqrt_sqrt by lra. field. lra. }
    rewrite Ea. f_equal. f_equal. rewrite !sqrt_div by (try lra; apply PI_RGT_0). rewrite sqrt_1. field. lra.
  - assert (G1 : 0 < G) by nra. rewrite sqrt_pow2 by lra. rewrite Rabs_mult, (Rabs_right G) by lra. destruct (Rlt_dec 100 (G * Rabs z)) as [H|H]; [left; auto|right]. split; [|exact H]. destruct (Req_EM_T G 0); [lra|].
    eexists _, _. f_equal. f_equal. f_equal. rewrite !Et.
    replace (1 / exp (G * z)) with (exp (- G * z)) by (replace (- G * z) with (- (G * z)) by ring; rewrite exp_Ropp; unfold Rdiv; ring).
    replace ((sigma * sigma * G + z) / (sqrt 2 * sigma)) with (sigma * G / sqrt 2 + z / (sqrt 2 * sigma)) by (field; lra). replace ((sigma * sigma * G - z) / (sqrt 2 * sigma)) with (sigma * G / sqrt 2 - z / (sqrt 2 * sigma)) by (field; lra).
    field. lra.
Qed.
Lemma rsum_abs_le {A} (f g : A -> R) l : (forall a, In a l -> Rabs (f a) <= g a) -> Rabs (rsum f l) <= rsum g l.
Proof.
  induction l as [|a l IH]; intros H; [rewrite !rsum_nil', Rabs_R0; lra|]. rewrite !rsum_cons'. apply Rle_trans with (1 := Rabs_triang _ _). apply Rplus_le_compat; [apply H; left; auto|apply IH; intros; apply H; right; auto].
Qed.
Lemma rsum_minus {A} (f g : A -> R) l : rsum f l - rsum g l = rsum (fun a => f a - g a) l.
Proof. induction l as [|a l IH]; [rewrite !rsum_nil'; ring|]. rewrite !rsum_cons', <- IH. ring. Qed.
Lemma slab_formula_bound Rl sigma i margin NR NG n Zc pos hp boxR boxG f s r : 0 < sigma -> rdet Rl <> 0 -> perpendicular Rl i -> (forall c, (c < n)%nat -> homeSlab i (pos 0%nat) (pos c) (hp c)) ->
  centred_box NR boxR -> centred_box NG boxG -> ewaldSlab Rl sigma i margin NR NG n Zc pos f s = Some r ->
  Rabs (energy r - slabFormula Rl sigma i n Zc hp boxR boxG) <= leftOut Rl i n Zc hp boxG.
Proof.
  intros Sp D P H BR BG Run. assert (Di := proj1 P). assert (Vp : 0 < Rabs (rdet Rl)) by (apply Rabs_pos_lt; auto).
  assert (E : energy r = slabE sigma i n Zc Rl hp NR NG).
  { unfold ewaldSlab in Run. destruct (Nat.eqb_spec n 0) as [->|N].
    - injection Run as <-. cbn [energy]. rewrite slabE_zero; reflexivity.
    - apply (slab_energy sigma i margin n Zc Rl hp NR NG f s r Di). rewrite <- Run. apply slab_ext; [exact Di|]. intros c1 c2 L1 L2. rewrite (homeSlab_unique i _ _ _ Di (H c1 L1)), (homeSlab_unique i _ _ _ Di (H c2 L2)). reflexivity. }
  rewrite E. unfold slabE, slabFormula. rewrite (short_eq n Zc sigma Rl hp NR boxR Sp BR), (self_eq n Zc sigma Sp).
  set (K := PI * rlen (latticeVec Rl i) / Rabs (rdet Rl)).
  set (W := fun c1 c2 g => let r := rmv Rl (rvsub (hp c1) (hp c2)) in cos (rdot (recipVec Rl g) r) * sheet sigma (rlen (recipVec Rl g)) (height Rl i r)).
  set (B := fun c1 c2 g => let G := rlen (recipVec Rl g) in if Rlt_dec 100 (G * Rabs (height Rl i (rmv Rl (rvsub (hp c1) (hp c2))))) then 2 * exp (- (100)) / G else 0).
  assert (T : forall c1 c2 g, Rabs (eZ sigma i Rl hp c1 c2 g - W c1 c2 g) <= B c1 c2 g).
  { intros c1 c2 g. unfold eZ, W, B, zt, arg. cbv zeta. rewrite recip_phase by exact D. rewrite height_z by assumption. fold (r12 hp c1 c2). fold (z12 i Rl hp c1 c2).
    assert (L2 : metric2 (gGGT Rl) (cellVec g) = rlen (recipVec Rl g) ^ 2) by (rewrite recipVec_gG; unfold rlen; rewrite pow2_sqrt by apply rlen2_pos; apply metric_len).
    rewrite L2. set (G := rlen (recipVec Rl g)). set (z := z12 i Rl hp c1 c2). set (ph := 2 * PI * rdot (cellVec g) (r12 hp c1 c2)).
    destruct (zTerms_sheet sigma G z Sp (sqrt_pos _)) as [(E0 & Gp & Hz)|((f' & m & E0) & Hz)]; rewrite E0; destruct (Rlt_dec 100 (G * Rabs z)); try contradiction.
    - rewrite Rminus_0_l, Rabs_Ropp, Rabs_mult. assert (C := COS_bound ph). assert (Cb : Rabs (cos ph) <= 1) by (apply Rabs_le; lra). assert (Sb := sheet_small sigma G z Sp Gp Hz). assert (Pb := Rabs_pos (sheet sigma G z)). nra.
    - rewrite Rminus_eq_0, Rabs_R0. lra. }
  assert (Sy : forall c1 c2 g, eZ sigma i Rl hp c1 c2 g = eZ sigma i Rl hp c2 c1 g).
  { intros c1 c2 g. unfold eZ, zt, arg. assert (Z1 : z12 i Rl hp c2 c1 = - z12 i Rl hp c1 c2) by (unfold z12, r12; destruct (hp c1), (hp c2); destruct i as [|[|[|k]]]; [| | |lia]; unfold comp; v3u; ring).
    assert (A1 : cos (2 * PI * rdot (cellVec g) (r12 hp c2 c1)) = cos (2 * PI * rdot (cellVec g) (r12 hp c1 c2))).
    { rewrite <- cos_neg. f_equal. unfold r12. generalize (cellVec g). intros w. destruct w, (hp c1), (hp c2). v3u. ring. }
    rewrite Z1, A1. assert (L2 : metric2 (gGGT Rl) (cellVec g) = rlen (recipVec Rl g) ^ 2) by (rewrite recipVec_gG; unfold rlen; rewrite pow2_sqrt by apply rlen2_pos; apply metric_len).
    rewrite L2. destruct (zTerms_sheet sigma (rlen (recipVec Rl g)) (z12 i Rl hp c1 c2) Sp (sqrt_pos _)) as [(E0 & Gp & Hz)|((f' & m & E0) & Hz)], (zTerms_sheet sigma (rlen (recipVec Rl g)) (- z12 i Rl hp c1 c2) Sp (sqrt_pos _)) as [(E1 & Gp' & Hz')|((f1 & m1 & E1) & Hz')]; rewrite E0, E1; rewrite Rabs_Ropp in Hz'; try contradiction; try reflexivity.
    rewrite sheet_even by exact Sp. reflexivity. }
  rewrite (tri_ext n (pairE sigma i Zc Rl hp NG) (fun a b => (if Nat.eqb a b then 1 else 2) * (K * (Zc a * Zc b * rsum (eZ sigma i Rl hp a b) boxG)))).
  2: { intros a b _ _. unfold pairE, pre, volPrefac. rewrite slabL_len. fold K. rewrite (rsum_perm _ _ _ (box_unique NG boxG BG)). match goal with |- _ * ?x = _ * (_ * (_ * ?y)) => change y with x; generalize x; intros; ring end. }
  rewrite (tri_full n (fun a b => K * (Zc a * Zc b * rsum (eZ sigma i Rl hp a b) boxG))).
  2: { intros a b. rewrite (rsum_ext (eZ sigma i Rl hp a b) (eZ sigma i Rl hp b a)) by (intros; apply Sy). ring. }
  rewrite (rsum_ext _ (fun a => K * rsum (fun b => Zc a * Zc b * rsum (eZ sigma i Rl hp a b) boxG) (seq 0 n))) by (intros; rewrite <- rsum_scale; reflexivity). rewrite rsum_scale.
  match goal with |- Rabs (- ?x + ?y + K * ?u - (?y + K * ?v - ?x)) <= _ => replace (- x + y + K * u - (y + K * v - x)) with (K * (u - v)) by ring end.
  assert (Kp : 0 <= K). { unfold K, Rdiv. assert (P1 := PI_RGT_0). assert (Q1 := sqrt_pos (rlen2 (latticeVec Rl i))). fold (rlen (latticeVec Rl i)) in Q1. apply Rmult_le_pos; [nra|left; apply Rinv_0_lt_compat; exact Vp]. }
  rewrite Rabs_mult, (Rabs_right K) by lra. unfold leftOut. fold K. apply Rmult_le_compat_l; [exact Kp|]. rewrite rsum_minus. apply rsum_abs_le. intros a _. rewrite rsum_minus. apply rsum_abs_le. intros b _.
  rewrite <- Rmult_minus_distr_l, Rabs_mult. apply Rmult_le_compat_l; [apply Rabs_pos|]. rewrite rsum_minus. apply rsum_abs_le. intros g _. apply (T a b g).
Qed.
Lemma leftOut_zero Rl i n q hp boxG : (forall c1 c2 g, (c1 < n)%nat -> (c2 < n)%nat -> In g boxG -> rlen (recipVec Rl g) * Rabs (height Rl i (rmv Rl (rvsub (hp c1) (hp c2)))) <= 100) -> leftOut Rl i n q hp boxG = 0.
Proof.
  intros H. unfold leftOut. match goal with |- ?K * rsum ?F _ = 0 => replace (rsum F (seq 0 n)) with 0; [ring|] end. symmetry. transitivity (rsum (fun _ : nat => 0) (seq 0 n)); [|apply rsum_zero]. apply rsum_ext. intros a Ia.
  transitivity (rsum (fun _ : nat => 0) (seq 0 n)); [|apply rsum_zero]. apply rsum_ext. intros b Ib. match goal with |- ?K * rsum ?F _ = 0 => replace (rsum F boxG) with 0; [ring|] end. symmetry.
  transitivity (rsum (fun _ : V3 => 0) boxG); [|apply rsum_zero]. apply rsum_ext. intros g Ig. apply in_seq in Ia. apply in_seq in Ib. cbv zeta. specialize (H a b g ltac:(lia) ltac:(lia) Ig). destruct (Rlt_dec _ _); [lra|reflexivity].
Qed.
