(** Slab Ewald sum: derivatives, conservation laws, formula. *)
From Coq Require Import ZArith Reals List Bool Lia Lra Psatz.
From Coquelicot Require Import Coquelicot.
From Verif Require Import Base Gauss Grid_Model Vec3_Model Vec3_Facts Lattice_Model RealUtil Basis_Model Coulomb_Model Coulomb_Proofs Coulomb_Proofs3 WS_Model Ions_Model CellMap_Spec CellMap_Proofs
  VdW_Model VdW_Spec VdW_Proofs VdW_Proofs2 VdW_Proofs3 VdW_Proofs4 Ewald_Model Ewald_Spec Ewald_Proofs Ewald_Proofs2 Ewald_Proofs3 Ewald_Proofs5 Ewald_Proofs6.
Import ListNotations.
Local Open Scope R_scope.
Set Bullet Behavior "Strict Subproofs".

  Lemma tri_ext n F G : (forall c1 c2, (c1 < n)%nat -> (c2 <= c1)%nat -> F c1 c2 = G c1 c2) -> tri n F = tri n G.
  Proof. intros H. apply rsum_ext. intros c1 I. apply in_seq in I. apply rsum_ext. intros c2 J. apply in_seq in J. apply H; lia. Qed.
  Lemma tri_zero n F : (forall c1 c2, (c1 < n)%nat -> (c2 <= c1)%nat -> F c1 c2 = 0) -> tri n F = 0.
  Proof.
    intros H. unfold tri. transitivity (rsum (fun _ : nat => 0) (seq 0 n)); [|apply rsum_zero]. apply rsum_ext. intros c1 I. apply in_seq in I. transitivity (rsum (fun _ : nat => 0) (seq 0 (S c1))); [|apply rsum_zero].
    apply rsum_ext. intros c2 J. apply in_seq in J. apply H; lia.
  Qed.
Section Run.
  Variables (sigma : R) (iDir : nat) (margin : R) (n : nat) (Zc : nat -> R).
  Definition slab0 (Rl : mat R) (pos : nat -> vec R) (NR : V3) (f : nat -> vec R) : acc :=
    realSum Rl sigma n Zc pos NR (Acc (- (1/2) * ZsqTot n Zc * (sqrt (1/2) / sigma) * (2 / sqrt PI)) f (rdiag 0 0 0)).
  Lemma slab_run Rl pos NR NG f s : ewaldSlabAt Rl sigma iDir margin n Zc pos NR NG f s =
    if Req_EM_T (ZsqTot n Zc) 0 then Some (Acc 0 f s)
    else if allok iDir margin n Rl pos then
      let b := allnext sigma iDir n Zc Rl pos NG (slab0 Rl pos NR f, 0) in
      let zHat := rvscale (1 / rlen (mrow (mtrans Rl) iDir)) (mrow (mtrans Rl) iDir) in
      Some (Acc (energy (fst b)) (force (fst b)) (rmadd s (rmadd (latt (fst b)) (rmscale (snd b) (Ions_Model.outer zHat zHat)))))
    else None.
  Proof.
    unfold ewaldSlabAt. cbv zeta. destruct (Req_EM_T _ 0); [reflexivity|]. rewrite (slabPairs sigma iDir margin n Zc Rl pos NG). fold (slab0 Rl pos NR f). destruct (allok _ _ _ _ _); [|reflexivity].
    destruct (allnext _ _ _ _ _ _ _ _) as [b y]. reflexivity.
  Qed.
  Definition slabE (Rl : mat R) (pos : nat -> vec R) (NR NG : V3) : R := - selfE n Zc sigma + sumR n Zc sigma Rl pos NR + tri n (pairE sigma iDir Zc Rl pos NG).
  Lemma slabE_zero Rl pos NR NG : ZsqTot n Zc = 0 -> slabE Rl pos NR NG = 0.
  Proof.
    intros E. unfold slabE. destruct (sums_zero n Zc sigma Rl pos NR NG E) as (-> & _ & _ & ->). rewrite tri_zero; [ring|]. intros c1 c2 L1 _. unfold pairE, pre. rewrite (ZsqTot_zero n Zc E c1 L1). ring.
  Qed.
  Lemma slab_energy Rl pos NR NG f s r : (iDir < 3)%nat -> ewaldSlabAt Rl sigma iDir margin n Zc pos NR NG f s = Some r -> energy r = slabE Rl pos NR NG.
  Proof.
    intros Di. rewrite slab_run. destruct (Req_EM_T _ 0) as [E|E]; [intros H; injection H as <-; cbn [energy]; rewrite slabE_zero by exact E; reflexivity|].
    destruct (allok _ _ _ _ _); [|discriminate]. cbv zeta. intros H. injection H as <-. cbn [energy]. rewrite allnext_E by exact Di. cbn [fst]. unfold slab0. rewrite realSum_E. cbn [energy]. unfold slabE, selfE, eta, sumR. ring.
  Qed.
  Lemma slab_Phi Rl pos NR NG f s r eps d : (iDir < 3)%nat -> rdet Rl <> 0 -> ewaldSlabAt Rl sigma iDir margin n Zc pos NR NG f s = Some r ->
    contraction (rmsub (latt r) s) eps - workOf n (added f (force r)) d = if Req_EM_T (ZsqTot n Zc) 0 then 0 else
      sum2 n (fun c2 c1 => rsum (gR Zc sigma eps d Rl pos c1 c2) (boxLoop NR)) + tri n (pairG sigma iDir Zc eps d Rl pos NG).
  Proof.
    intros Di D. rewrite slab_run. rewrite contraction_sub, work_minus. destruct (Req_EM_T _ 0) as [E|E]; [intros H; injection H as <-; cbn [latt force]; ring|].
    destruct (allok _ _ _ _ _); [|discriminate]. cbv zeta. intros H. injection H as <-. cbn [latt force]. rewrite !contraction_add, contraction_scale.
    assert (P := allnext_Phi sigma iDir n Zc Di eps d Rl pos NG (slab0 Rl pos NR f, 0)). unfold PhiS in P. cbn [fst snd] in P.
    assert (Ez : contraction (Ions_Model.outer (rvscale (1 / rlen (mrow (mtrans Rl) iDir)) (mrow (mtrans Rl) iDir)) (rvscale (1 / rlen (mrow (mtrans Rl) iDir)) (mrow (mtrans Rl) iDir))) eps = zz iDir eps Rl).
    { unfold zz. assert (Pc := L_pos iDir Zc Di d Rl D). set (u := mrow (mtrans Rl) iDir) in *. assert (Sq := sqrt_lt_R0 _ Pc). unfold rlen. change (rlen2 u) with (rdot u u).
      rewrite <- (sqrt_sqrt (rdot u u)) at 3 by lra. generalize dependent (sqrt (rdot u u)). intros l Hl. unfold Rdiv. rewrite Rinv_mult. destruct u, eps. unfold contraction, Ions_Model.outer. v3u. ring. }
    rewrite Ez. unfold Phi in P. assert (Pr := realSum_Phi n Zc sigma eps d Rl pos NR (Acc (- (1/2) * ZsqTot n Zc * (sqrt (1/2) / sigma) * (2 / sqrt PI)) f (rdiag 0 0 0))).
    fold (slab0 Rl pos NR f) in Pr. unfold PhiA, Phi in Pr. cbn [latt force] in Pr. replace (contraction (rdiag 0 0 0) eps) with 0 in Pr by (destruct eps; unfold contraction; v3u; ring). lra.
  Qed.
  (** only differences of positions matter *)
  Lemma slab_ext Rl p p' NR NG f s : (iDir < 3)%nat -> (forall c1 c2, (c1 < n)%nat -> (c2 < n)%nat -> rvsub (p c1) (p c2) = rvsub (p' c1) (p' c2)) ->
    ewaldSlabAt Rl sigma iDir margin n Zc p NR NG f s = ewaldSlabAt Rl sigma iDir margin n Zc p' NR NG f s.
  Proof.
    intros Di H. rewrite !slab_run. destruct (Req_EM_T _ 0); [reflexivity|].
    assert (Er : slab0 Rl p NR f = slab0 Rl p' NR f).
    { unfold slab0, realSum. apply fold_ext. intros b a2 I2. apply fold_ext. intros b' a1 I1. apply fold_ext. intros b'' g _. apply in_seq in I1. apply in_seq in I2. unfold realTerm, sep. rewrite (H a1 a2) by lia. reflexivity. }
    assert (Eo : allok iDir margin n Rl p = allok iDir margin n Rl p').
    { assert (T : allok iDir margin n Rl p = true <-> allok iDir margin n Rl p' = true).
      { rewrite !(allok_iff iDir margin n Zc Di (fun _ => V 0 0 0)). unfold z12, r12. split; intros A a1 a2 L1 L2; specialize (A a1 a2 L1 L2); [rewrite <- H by lia|rewrite H by lia]; exact A. }
      destruct (allok iDir margin n Rl p), (allok iDir margin n Rl p'); try reflexivity; exfalso; destruct T as [T1 T2]; [specialize (T1 eq_refl)|specialize (T2 eq_refl)]; discriminate. }
    assert (En : forall q, allnext sigma iDir n Zc Rl p NG q = allnext sigma iDir n Zc Rl p' NG q).
    { intros q. unfold allnext. apply fold_ext. intros b a1 I1. apply fold_ext. intros b' a2 I2. apply in_seq in I1. apply in_seq in I2. unfold next, z12, r12. rewrite (H a1 a2) by lia. reflexivity. }
    rewrite Er, Eo, En. reflexivity.
  Qed.
End Run.
Definition refSlab (iDir : nat) (pos : nat -> vec R) : vec R := unit3 iDir (comp (pos 0%nat) iDir).
Lemma unit3_lin i a b t : unit3 i (a + t * b) = rvadd (unit3 i a) (rvscale t (unit3 i b)).
Proof. unfold unit3. v3u. f_equal; destruct (Nat.eqb i _); ring. Qed.
Lemma integral_centred p x : integral3 (rvsub (centred p x) x).
Proof.
  exists (- rfloor (1/2 + c0 x - c0 p))%Z, (- rfloor (1/2 + c1 x - c1 p))%Z, (- rfloor (1/2 + c2 x - c2 p))%Z. rewrite !opp_IZR. destruct x as [a b c]. unfold centred, centred1. cbn [c0 c1 c2]. v3u. f_equal; ring.
Qed.
Lemma Wz f d : workOf 0 f d = 0. Proof. unfold workOf. cbn [seq]. apply rsum_nil'. Qed.
Lemma slab_gradient Rl sigma iDir margin NR NG n Zc pos f s r eps d : 0 < sigma -> (iDir < 3)%nat -> rdet Rl <> 0 -> distinct_atoms n pos -> off_edges n pos (fun _ => refSlab iDir pos) ->
  (forall c1 c2 g, (c1 < n)%nat -> (c2 < n)%nat -> In g (boxLoop NG) -> 
    sqrt (metric2 (gGGT Rl) (cellVec g)) * Rabs (slabL Rl iDir * comp (rvsub (centred (refSlab iDir pos) (pos c1)) (centred (refSlab iDir pos) (pos c2))) iDir) <> 100) ->
  ewaldSlab Rl sigma iDir margin NR NG n Zc pos f s = Some r ->
  is_derive (fun t => match ewaldSlab (strained Rl eps t) sigma iDir margin NR NG n Zc (displaced pos d t) f s with Some a => energy a | None => 0 end) 0
    (contraction (rmsub (latt r) s) eps - workOf n (added f (force r)) d).
Proof.
  intros Sp Di D Dis Off H100 Run. unfold ewaldSlab in *. destruct (Nat.eqb_spec n 0) as [->|N].
  - injection Run as <-. cbn [latt force energy]. rewrite contraction_sub. rewrite Wz. eapply dval; [apply dconst|]. ring.
  - fold (refSlab iDir pos) in Run. set (p := fun c => centred (refSlab iDir pos) (pos c)) in *.
    assert (Sep : separate Rl p n (boxLoop NR)).
    { apply (distinct_separate Rl n pos p); auto. intros c _. apply integral_centred. }
    rewrite (slab_Phi sigma iDir margin n Zc Rl p NR NG f s r eps d Di D Run).
    apply (is_derive_ext_loc (fun t => slabE sigma iDir n Zc (strained Rl eps t) (displaced p d t) NR NG)).
    + assert (L1 := centred_loc n pos d (refSlab iDir pos) (unit3 iDir (comp (d 0%nat) iDir)) Off).
      assert (L2 : locally 0 (fun t => ZsqTot n Zc <> 0 -> allok iDir margin n (strained Rl eps t) (displaced p d t) = true)).
      { rewrite slab_run in Run. destruct (Req_EM_T _ 0) as [E|E]; [apply filter_forall; intros; contradiction|]. destruct (allok iDir margin n Rl p) eqn:Ok; [|discriminate].
        assert (A := allok_loc iDir margin n Zc Di eps d Rl p D Ok). revert A. apply filter_imp. auto. }
      assert (F := filter_and _ _ L1 L2). revert F. apply filter_imp. intros t [Ht Ok].
      rewrite (slab_ext sigma iDir margin n Zc (strained Rl eps t) _ (displaced p d t)); [|exact Di|].
      * destruct (ewaldSlabAt (strained Rl eps t) sigma iDir margin n Zc (displaced p d t) NR NG f s) as [a|] eqn:Ra.
        { symmetry. apply (slab_energy _ _ _ _ _ _ _ _ _ _ _ _ Di Ra). }
        { exfalso. rewrite slab_run in Ra. destruct (Req_EM_T _ 0) as [E|E]; [discriminate|]. rewrite (Ok E) in Ra. discriminate. }
      * assert (Eq : forall c, (c < n)%nat -> centred (unit3 iDir (comp (displaced pos d t 0%nat) iDir)) (displaced pos d t c) = displaced p d t c).
        { intros c L. unfold p. rewrite <- Ht by exact L. f_equal. unfold refSlab. rewrite <- unit3_lin. f_equal. unfold displaced. apply comp_lin; exact Di. }
        intros c1 c2 L1' L2'. rewrite !Eq by assumption. reflexivity.
    + destruct (Req_EM_T _ 0) as [E|E].
      * apply (is_derive_ext (fun _ => 0)); [|apply dconst]. intros t. rewrite slabE_zero by exact E. reflexivity.
      * unfold slabE. eapply dval; [apply dplus; [apply dplus; [apply dconst|apply (real_derive n Zc sigma eps d Rl p NR Sep)]|]|].
        { unfold tri. apply (rsum_derive (seq 0 n) (fun c1 t => rsum (pairE sigma iDir Zc (strained Rl eps t) (displaced p d t) NG c1) (seq 0 (S c1)))). intros c1 I1.
          apply (rsum_derive (seq 0 (S c1)) (fun c2 t => pairE sigma iDir Zc (strained Rl eps t) (displaced p d t) NG c1 c2)). intros c2 I2. apply in_seq in I1. apply in_seq in I2.
          apply (pairE_derive sigma iDir Zc Sp Di eps d Rl p NG c1 c2 D). intros g Ig. apply H100; auto; lia. }
        { unfold tri. ring. }
Qed.
Lemma slab_zero_Phi Rl sigma iDir margin NR NG n Zc pos f s r eps d : (iDir < 3)%nat -> rdet Rl <> 0 ->
  ewaldSlab Rl sigma iDir margin NR NG n Zc pos f s = Some r ->
  (forall x c1 c2, rate Rl x (rvsub (d c1) (d c2)) eps = 0) -> rtrace eps = 0 -> (forall u, contraction (Ions_Model.outer u u) eps = 0) -> (forall c1 c2, rvsub (d c1) (d c2) = V 0 0 0) ->
  contraction (rmsub (latt r) s) eps - workOf n (added f (force r)) d = 0.
Proof.
  intros Di D Run Hr Ht Ho Hd. unfold ewaldSlab in Run. destruct (Nat.eqb_spec n 0) as [->|N].
  - injection Run as <-. cbn [latt force]. rewrite contraction_sub, Wz. ring.
  - rewrite (slab_Phi sigma iDir margin n Zc Rl _ NR NG f s r eps d Di D Run). destruct (Req_EM_T _ 0); [reflexivity|]. rewrite gR_sym. rewrite tri_zero.
    + rewrite Rplus_0_r. unfold sum2. transitivity (rsum (fun _ : nat => 0) (seq 0 n)); [|apply rsum_zero]. apply rsum_ext. intros a _. transitivity (rsum (fun _ : nat => 0) (seq 0 n)); [|apply rsum_zero].
      apply rsum_ext. intros b _. transitivity (rsum (fun _ : V3 => 0) (boxLoop NR)); [|apply rsum_zero]. apply rsum_ext. intros g _. unfold gS. cbv zeta. rewrite Hr. destruct (test0 _); ring.
    + intros c1 c2 _ _. unfold pairG. rewrite Ht. unfold zz. rewrite Ho.
      match goal with |- _ * rsum ?F _ + _ = 0 => replace (rsum F (boxLoop NG)) with 0; [unfold Rdiv; ring|] end.
      symmetry. transitivity (rsum (fun _ : V3 => 0) (boxLoop NG)); [|apply rsum_zero]. apply rsum_ext. intros g _. unfold gZ, zz, Sg. rewrite !Ho, Hd. destruct (zt _ _ _ _ _ _ _) as [[[x x'] m]|]; [|reflexivity].
      replace (comp (V 0 0 0) iDir) with 0 by (destruct iDir as [|[|k]]; reflexivity). replace (rdot (cellVec g) (V 0 0 0)) with 0 by (generalize (cellVec g); intros w; destruct w; v3u; ring). unfold Rdiv. ring.
Qed.
Lemma slab_total_force Rl sigma iDir margin NR NG n Zc pos f s r : (iDir < 3)%nat -> rdet Rl <> 0 -> ewaldSlab Rl sigma iDir margin NR NG n Zc pos f s = Some r ->
  let F := added f (force r) in
  rsum (fun c => c0 (F c)) (seq 0 n) = 0 /\ rsum (fun c => c1 (F c)) (seq 0 n) = 0 /\ rsum (fun c => c2 (F c)) (seq 0 n) = 0.
Proof.
  intros Di D Run. cbv zeta. set (F := added f (force r)).
  assert (Zm : forall m, contraction m mzero = 0) by (intros m; destruct m; unfold contraction, mzero; cbn; ring).
  assert (W : forall v, workOf n F (fun _ => v) = 0).
  { intros v. assert (P := slab_zero_Phi Rl sigma iDir margin NR NG n Zc pos f s r mzero (fun _ => v) Di D Run). fold F in P. rewrite Zm in P. cut (0 - workOf n F (fun _ => v) = 0); [lra|]. apply P.
    - intros; apply rate_rigid.
    - unfold mzero; v3u; ring.
    - intros; apply Zm.
    - intros. destruct v. v3u. f_equal; ring. }
  assert (A := W (V 1 0 0)). assert (B := W (V 0 1 0)). assert (C := W (V 0 0 1)). rewrite work_rigid in A, B, C.
  unfold rdot, gdot in A, B, C. cbn [c0 c1 c2] in A, B, C. lra.
Qed.
Lemma slab_symmetric Rl sigma iDir margin NR NG n Zc pos f s r : (iDir < 3)%nat -> rdet Rl <> 0 -> ewaldSlab Rl sigma iDir margin NR NG n Zc pos f s = Some r ->
  let S := rmsub (latt r) s in m01 S = m10 S /\ m02 S = m20 S /\ m12 S = m21 S.
Proof.
  intros Di D Run. cbv zeta. apply contraction_antisym. intros w. set (e := M 0 (- c2 w) (c1 w) (c2 w) 0 (- c0 w) (- c1 w) (c0 w) 0).
  assert (P := slab_zero_Phi Rl sigma iDir margin NR NG n Zc pos f s r e (fun _ => vzero) Di D Run).
  assert (Z : forall f, workOf n f (fun _ => vzero) = 0) by (intros h; rewrite work_rigid; unfold vzero, rdot, gdot; cbn [c0 c1 c2]; ring). rewrite Z in P.
  cut (contraction (rmsub (latt r) s) e - 0 = 0); [lra|]. apply P.
  - intros; apply rate_rotation.
  - unfold e; v3u; ring.
  - intros; apply outer_antisym.
  - intros. unfold vzero. v3u. f_equal; ring.
Qed.
Lemma centred1_shift x p k m : centred1 (x + IZR k) (p + IZR m) = centred1 x p + IZR m.
Proof.
  unfold centred1. replace (1/2 + (x + IZR k) - (p + IZR m)) with ((1/2 + x - p) + IZR (k - m)) by (rewrite minus_IZR; ring). rewrite rfloor_add, plus_IZR, minus_IZR. ring.
Qed.
Lemma slab_images Rl sigma iDir margin NR NG n Zc pos pos' f s : (iDir < 3)%nat -> equivalent n pos pos' ->
  ewaldSlab Rl sigma iDir margin NR NG n Zc pos' f s = ewaldSlab Rl sigma iDir margin NR NG n Zc pos f s.
Proof.
  intros Di Eq. unfold ewaldSlab. destruct (Nat.eqb_spec n 0) as [->|N]; [reflexivity|]. apply slab_ext; [exact Di|].
  destruct (Eq 0%nat ltac:(lia)) as (x0 & y0 & z0 & E0).
  assert (K : exists w, forall c, (c < n)%nat -> centred (unit3 iDir (comp (pos' 0%nat) iDir)) (pos' c) = rvadd (centred (unit3 iDir (comp (pos 0%nat) iDir)) (pos c)) w).
  { exists (unit3 iDir (comp (V (IZR x0) (IZR y0) (IZR z0)) iDir)). intros c L. destruct (Eq c L) as (x & y & z & E).
    assert (Ec : pos' c = rvadd (pos c) (V (IZR x) (IZR y) (IZR z))) by (rewrite <- E; destruct (pos c), (pos' c); v3u; f_equal; ring).
    assert (E0' : pos' 0%nat = rvadd (pos 0%nat) (V (IZR x0) (IZR y0) (IZR z0))) by (rewrite <- E0; destruct (pos 0%nat), (pos' 0%nat); v3u; f_equal; ring).
    rewrite Ec, E0'. destruct (pos c) as [a b e], (pos 0%nat) as [a0 b0 e0].
    assert (S0 : forall q k, centred1 (q + IZR k) 0 = centred1 q 0 + 0) by (intros q k; assert (T := centred1_shift q 0 k 0); rewrite !Rplus_0_r in *; exact T).
    destruct iDir as [|[|[|k]]]; try lia; unfold centred, unit3, comp; cbn [Nat.eqb]; v3u; f_equal; first [apply centred1_shift|apply S0]. }
  destruct K as [w K]. intros c1 c2 L1 L2. rewrite !K by assumption. generalize (centred (unit3 iDir (comp (pos 0%nat) iDir)) (pos c1)) (centred (unit3 iDir (comp (pos 0%nat) iDir)) (pos c2)). intros u v. destruct u, v, w. v3u. f_equal; ring.
Qed.
