(** Concrete systems used in the examples: two atoms, three bohrs apart. *)
From Coq Require Import ZArith Reals List Bool Lia Lra Psatz.
From Coquelicot Require Import Coquelicot.
From Verif Require Import Base WorkDiv_Model Grid_Model Grid_Spec Vec3_Model Vec3_Facts Lattice_Model RealUtil Coulomb_Model Coulomb_Proofs Coulomb_Proofs3 WS_Model WS_Proofs3 Ions_Model CellMap_Spec CellMap_Proofs VdW_Model VdW_Spec VdW_Proofs VdW_Proofs2 VdW_Proofs3 VdW_Proofs4 VdW_Proofs5 VdW_Proofs6 VdW_Proofs7 VdW_Proofs8.
Import ListNotations.
Local Open Scope R_scope.
Set Bullet Behavior "Strict Subproofs".

Definition cube : mat R := M 10 0 0 0 10 0 0 0 10.
Definition dimer (c : nat) : vec R := match c with O => V 0 0 0 | _ => V (3/10) 0 0 end.
Definition shiftOf (a b : nat) : R := match a, b with O, O => 0 | O, S _ => - (3/10) | S _, O => 3/10 | S _, S _ => 0 end.
Lemma dimer_distance a b x y z : distance cube dimer a b (x, y, z) = 10 * sqrt ((IZR x + shiftOf a b) * (IZR x + shiftOf a b) + IZR y * IZR y + IZR z * IZR z).
Proof.
  unfold distance, rlen. replace 10 with (sqrt (10 * 10)) at 1 by (apply sqrt_square; lra). rewrite <- sqrt_mult_alt by lra. f_equal.
  destruct a, b; cbn [dimer shiftOf]; unfold cube; v3u; field.
Qed.
Lemma int_sq (k : Z) : k <> 0%Z -> 1 <= IZR k * IZR k.
Proof. intros N. rewrite <- mult_IZR. apply IZR_le. nia. Qed.
Lemma shift_sq a b x : (IZR x + shiftOf a b) * (IZR x + shiftOf a b) = 0 /\ x = 0%Z /\ shiftOf a b = 0 \/ 9/100 <= (IZR x + shiftOf a b) * (IZR x + shiftOf a b).
Proof.
  destruct (Z.eq_dec x 0) as [->|N].
  - destruct a, b; cbn [shiftOf]; try (left; repeat split; lra); right; lra.
  - right. assert (S1 : (x >= 1 \/ x <= -1)%Z) by lia. destruct S1 as [S1|S1]; [apply Z.ge_le in S1|]; apply IZR_le in S1; destruct a, b; cbn [shiftOf]; nra.
Qed.
Lemma dimer_far a b g : distance cube dimer a b g = 0 /\ g = (0, 0, 0)%Z /\ shiftOf a b = 0 \/ 3 <= distance cube dimer a b g.
Proof.
  destruct g as [[x y] z]. rewrite dimer_distance. set (q := _ + IZR y * IZR y + IZR z * IZR z).
  assert (Y : 0 <= IZR y * IZR y) by apply Rle_0_sqr. assert (Zz : 0 <= IZR z * IZR z) by apply Rle_0_sqr. assert (X : 0 <= (IZR x + shiftOf a b) * (IZR x + shiftOf a b)) by apply Rle_0_sqr.
  assert (Big : 9/100 <= q -> 3 <= 10 * sqrt q). { intros B. assert (G : sqrt (3/10 * (3/10)) <= sqrt q) by (apply sqrt_le_1; lra). rewrite sqrt_square in G by lra. lra. }
  destruct (Z.eq_dec y 0) as [->|Ny]; [|right; apply Big; assert (1 <= IZR y * IZR y) by (apply int_sq; auto); unfold q; lra].
  destruct (Z.eq_dec z 0) as [->|Nz]; [|right; apply Big; assert (1 <= IZR z * IZR z) by (apply int_sq; auto); unfold q; lra].
  destruct (shift_sq a b x) as [(E & -> & S0)|B]; [left|right; apply Big; unfold q; lra]. split; [|auto]. unfold q. rewrite E. replace (0 + 0 * 0 + 0 * 0) with 0 by ring. rewrite sqrt_0. ring.
Qed.
Lemma dimer_separate cells : separate cube dimer 2 cells.
Proof.
  intros a b g La Lb _ E. destruct (dimer_far a b g) as [(_ & G & S0)|B]; [|lra]. split; [|exact G]. destruct a as [|[|]], b as [|[|]]; try lia; cbn [shiftOf] in S0; lra.
Qed.
Lemma dimer_none cells d : 0 < d < 3 -> none_at cube dimer 2 cells d.
Proof. intros D a b g _ _ _ E. destruct (dimer_far a b g) as [(Z & _)|B]; lra. Qed.
Lemma cube_columns k : (k < 3)%nat -> rlen (mrow (mtrans cube) k) <> 0.
Proof.
  intros K. assert (E : rlen2 (mrow (mtrans cube) k) = 10 * 10). { destruct k as [|[|[|k]]]; [| | |lia]; unfold cube; cbn [mrow]; v3u; ring. } unfold rlen. rewrite E, sqrt_square; lra.
Qed.
Lemma whole_box_exists S : exists B, whole_box S B.
Proof.
  destruct S as [[a b] c]. pose (r := fun n => filter (fun x => 2 * Z.abs x <? n)%Z (zrange (- n) n)).
  exists (flat_map (fun x => flat_map (fun y => map (fun z => (x, y, z)) (r c)) (r b)) (r a)).
  assert (In1 : forall n x, In x (r n) <-> (2 * Z.abs x < n)%Z). { intros n x. unfold r. rewrite filter_In, in_zrange, Z.ltb_lt. lia. }
  assert (N1 : forall n, NoDup (r n)) by (intros n; apply NoDup_filter, zrange_NoDup).
  split.
  - apply NoDup_flat_map; [apply N1| |].
    + intros x _. apply NoDup_flat_map; [apply N1| |].
      * intros y _. apply FinFun.Injective_map_NoDup; [|apply N1]. intros u v E. injection E. auto.
      * intros y y' g _ _ I I'. apply in_map_iff in I, I'. destruct I as (z & <- & _), I' as (z' & E & _). congruence.
    + intros x x' g _ _ I I'. apply in_flat_map in I, I'. destruct I as (y & _ & I), I' as (y' & _ & I'). apply in_map_iff in I, I'. destruct I as (z & <- & _), I' as (z' & E & _). congruence.
  - intros x y z. rewrite in_flat_map. split.
    + intros (x' & I & J). apply in_flat_map in J. destruct J as (y' & I' & J). apply in_map_iff in J. destruct J as (z' & E & I''). injection E as -> -> ->. apply In1 in I, I', I''. auto.
    + intros (A & B & C). exists x. split; [apply In1; auto|]. apply in_flat_map. exists y. split; [apply In1; auto|]. apply in_map_iff. exists z. split; [auto|apply In1; auto].
Qed.
(** periodic lattice of dimers on two processes *)
Definition carbons (_ : nat) : d2par := D2P 4 (1/2).
Lemma ex_d2_full : exists procs B, allProcs (sampling cube (fun _ => false) 25) 2 (Z.to_nat (nG (sampling cube (fun _ => false) 25) + 1)) (zrange 0 2) = Some procs /\ whole_box (sampling cube (fun _ => false) 25) B /\
  Etot (energyAndGradD2 cube 2 carbons dimer (3/4) 0 procs) =
  - (3/4 / 2) * rsum (fun c1 => neighbour_sum cube dimer 2 B (fun _ => true) (fun c2 d => grimme2 (sqrt (4 * 4)) (1/2 + 1/2) d) c1) (seq 0 2).
Proof.
  destruct (sampling_odd cube (fun _ => false) 25 ltac:(lra) cube_columns) as [P O]. assert (G := nG_pos _ P).
  assert (F : (nG (sampling cube (fun _ => false) 25) < Z.of_nat (Z.to_nat (nG (sampling cube (fun _ => false) 25) + 1)))%Z) by lia.
  destruct (allProcs_cells _ 2 _ P ltac:(lia) F) as (ls & E & _). destruct (whole_box_exists (sampling cube (fun _ => false) 25)) as [B HB]. exists ls, B. split; [exact E|]. split; [exact HB|].
  apply (d2_energy_full cube (fun _ => false) 25 2 _ ls B 2 carbons dimer (3/4) ltac:(lra) cube_columns ltac:(lia) F E HB).
  - intros c _. cbn. lra.
  - intros c1 c2 g _ _ _. destruct (dimer_far c1 c2 g) as [(Z & _)|X]; [left; exact Z|right; cbn [carbons p_R0]; lra].
Qed.
(** isolated dimer (all directions truncated), one species with a single reference state *)
Definition isolated (_ : nat) : bool := true.
Definition oneRef : atomParams := AP 6 1 (1/10) [0] [0%Z].
Definition apsEx (_ : nat) : atomParams := oneRef.
Definition ppsEx (_ _ : nat) : pairParams := PP 1 (RM 1 1 [5]).
Lemma isolated_sampling cut : sampling cube isolated cut = (1, 1, 1)%Z.
Proof. reflexivity. Qed.
Lemma isolated_procs cut : allProcs (sampling cube isolated cut) 2 3 (zrange 0 2) = Some [[]; [(0, 0, 0)%Z]].
Proof. reflexivity. Qed.
Lemma isolated_fuel cut : (nG (sampling cube isolated cut) < Z.of_nat 3)%Z.
Proof. rewrite isolated_sampling. reflexivity. Qed.
Lemma isolated_box cut : whole_box (sampling cube isolated cut) [(0, 0, 0)%Z].
Proof.
  rewrite isolated_sampling. split; [repeat constructor; auto|]. intros x y z. split.
  - intros [E|[]]. injection E as <- <- <-. cbn. lia.
  - intros (A & B & C). left. assert (x = 0 /\ y = 0 /\ z = 0)%Z as (-> & -> & ->) by lia. reflexivity.
Qed.
Lemma counting_bound k d : 0 < counting k d < 1.
Proof. unfold counting. assert (X := exp_pos (- (16) * (k / d - 1))). split; [apply Rinv_0_lt_compat; lra|]. set (e := exp _) in *. apply (Rmult_lt_reg_r (1 + e)); [lra|]. rewrite Rinv_l; lra. Qed.
Lemma dimer_coordination c : (c < 2)%nat -> 0 <= neighbour_sum cube dimer 2 [(0, 0, 0)%Z] (fun d => if Rle_dec d 50 then true else false) (fun c2 d => counting (1/10 + 1/10) d) c <= 2.
Proof.
  intros L. unfold neighbour_sum. cbn [seq]. rewrite !rsum_cons, !rsum_nil.
  assert (T : forall c2, 0 <= rsum (fun g => let d := distance cube dimer c c2 g in if Req_EM_T d 0 then 0 else if (if Rle_dec d 50 then true else false) then counting (1/10+1/10) d else 0) [(0, 0, 0)%Z] <= 1).
  { intros c2. rewrite rsum_cons, rsum_nil. cbv zeta. destruct (Req_EM_T _ 0); [lra|]. destruct (Rle_dec _ _); [|lra]. assert (X := counting_bound (1/10+1/10) (distance cube dimer c c2 (0, 0, 0)%Z)). lra. }
  assert (T0 := T 0%nat). assert (T1 := T 1%nat). rewrite rsum_cons, rsum_nil in T0, T1. cbv zeta in T0, T1. split; lra.
Qed.
Lemma exp_small x : 0 <= x <= 2 -> / 10 ^ 40 < exp (- (4) * (x - 0) ^ 2).
Proof.
  intros H. assert (D : forall y, exp (2 * y) = exp y * exp y) by (intros y; rewrite <- exp_plus; f_equal; ring).
  assert (E1 := exp_le_3). assert (P1 := exp_pos 1). assert (E2 := D 1). assert (E4 := D (2 * 1)). assert (E8 := D (2 * (2 * 1))). assert (E16 := D (2 * (2 * (2 * 1)))).
  assert (B2 : 0 < exp (2 * 1) <= 9) by nra. assert (B4 : 0 < exp (2 * (2 * 1)) <= 81) by nra. assert (B8 : 0 < exp (2 * (2 * (2 * 1))) <= 6561) by nra. assert (B16 : exp (2 * (2 * (2 * (2 * 1)))) <= 43046721) by nra.
  apply Rlt_le_trans with (exp (- (2 * (2 * (2 * (2 * 1)))))).
  - rewrite exp_Ropp. apply Rinv_lt_contravar; [apply Rmult_lt_0_compat; [apply exp_pos|apply pow_lt; lra]|]. apply Rle_lt_trans with (1 := B16). apply Rlt_le_trans with (10 ^ 8); [lra|]. apply Rle_pow; [lra|lia].
  - destruct (Req_dec (- (2 * (2 * (2 * (2 * 1))))) (- (4) * (x - 0) ^ 2)) as [->|N]; [lra|]. apply Rlt_le, exp_increasing. nra.
Qed.
Lemma origin_distance a b : (a < 2)%nat -> (b < 2)%nat -> distance cube dimer a b (0, 0, 0)%Z = 0 \/ distance cube dimer a b (0, 0, 0)%Z = 3.
Proof.
  intros A B. rewrite dimer_distance. assert (S0 : shiftOf a b = 0 \/ shiftOf a b * shiftOf a b = 3/10 * (3/10)) by (destruct a, b; cbn [shiftOf]; [left|right|right|left]; lra).
  replace ((0 + shiftOf a b) * (0 + shiftOf a b) + 0 * 0 + 0 * 0) with (shiftOf a b * shiftOf a b) by ring. destruct S0 as [-> | ->]; [left; rewrite Rmult_0_l, sqrt_0; ring|right; rewrite sqrt_square; lra].
Qed.
Lemma origin_none d : d <> 0 -> d <> 3 -> none_at cube dimer 2 [(0, 0, 0)%Z] d.
Proof. intros N0 N3 a b g A B [<-|[]] E. destruct (origin_distance a b A B); lra. Qed.
Lemma ex_d3_full : fst (energyAndGradD3 false 1 (7/10) (12/10) 1 apsEx ppsEx 2 (fun _ => 0%nat) cube dimer 20 [([], []); ([(0, 0, 0)%Z], [(0, 0, 0)%Z])]) =
  - (1/2) * rsum (fun c1 => neighbour_sum cube dimer 2 [(0, 0, 0)%Z] (fun d => if Rle_dec d 20 then true else false)
    (fun c2 d => d3attraction false 1 (7/10) (12/10) 1 (dispersionC6 cube [(0, 0, 0)%Z] apsEx ppsEx 2 (fun _ => 0%nat) dimer c1 c2) (dispersionC6 cube [(0, 0, 0)%Z] apsEx ppsEx 2 (fun _ => 0%nat) dimer c1 c2 * (3 * 1 * 1)) 1 d) c1) (seq 0 2).
Proof.
  apply (d3_energy_full cube isolated 20 2 3 3 [[]; [(0, 0, 0)%Z]] [[]; [(0, 0, 0)%Z]] [(0, 0, 0)%Z] [(0, 0, 0)%Z] false 1 (7/10) (12/10) 1 apsEx ppsEx 2 (fun _ => 0%nat) dimer
    ltac:(lra) cube_columns ltac:(lia) (isolated_fuel 20) (isolated_fuel 50) (isolated_procs 20) (isolated_procs 50) (isolated_box 20) (isolated_box 50)).
  - reflexivity.
  - intros a b. split; reflexivity.
  - intros a b i j Hi Hj. cbn in Hi, Hj. assert (i = 0 /\ j = 0)%nat as [-> ->] by lia. reflexivity.
  - intros c L. unfold gaussSum. cbn [apsEx oneRef CNref]. rewrite rsum_cons, rsum_nil, Rplus_0_r. apply Rlt_le, exp_small. apply (dimer_coordination c L).
  - discriminate.
Qed.
Lemma dimer_CN c : (c < 2)%nat -> computeCN apsEx 2 (fun _ => 0%nat) cube dimer [[]; [(0, 0, 0)%Z]] c = neighbour_sum cube dimer 2 [(0, 0, 0)%Z] (fun d => if Rle_dec d 50 then true else false) (fun c2 d => counting (1/10 + 1/10) d) c.
Proof. intros L. apply (cn_full cube isolated 2 3 [[]; [(0, 0, 0)%Z]] [(0, 0, 0)%Z] 2 apsEx (fun _ => 0%nat) dimer c cube_columns ltac:(lia) (isolated_fuel 50) (isolated_procs 50) (isolated_box 50) L). Qed.
Definition exProcs : list (list V3 * list V3) := [([], []); ([(0, 0, 0)%Z], [(0, 0, 0)%Z])].
Lemma ex_d3_gradient eps d : let r := energyAndGradD3 true 1 (7/10) (4/10) 5 apsEx ppsEx 2 (fun _ => 0%nat) cube dimer 20 exProcs in
  is_derive (fun t => fst (energyAndGradD3 true 1 (7/10) (4/10) 5 apsEx ppsEx 2 (fun _ => 0%nat) (strained cube eps t) (displaced dimer d t) 20 exProcs)) 0 (contraction (snd (snd r)) eps - workOf 2 (fst (snd r)) d).
Proof.
  cbv zeta. apply d3_gradient; try (apply dimer_separate); try (apply origin_none; lra); try lra.
  - intros c L. change (CNt apsEx 2 (fun _ => 0%nat) cube dimer exProcs c) with (computeCN apsEx 2 (fun _ => 0%nat) cube dimer [[]; [(0, 0, 0)%Z]] c). rewrite (dimer_CN c L). rewrite LsumOf_gauss. unfold gaussSum. cbn [apsEx oneRef CNref]. rewrite rsum_cons, rsum_nil, Rplus_0_r. apply Rgt_not_eq, exp_small, dimer_coordination, L.
  - intros _ c1 c2 L1 L2. unfold C6of, Lof, ppsEx, apsEx, oneRef, bilinear, entry. cbn [pp_C6 nr nc mdata seq CNref]. rewrite !rsum_cons, !rsum_nil. cbn [Nat.mul Nat.add nth].
    assert (W : forall x, nth 0 (fst (getL [0] x)) 0 = 1). { intros x. destruct (weights_sum [0] x ltac:(discriminate)) as (_ & S1 & _). cbn [length seq] in S1. rewrite rsum_cons, rsum_nil in S1. lra. }
    rewrite !W. lra.
Qed.
Lemma ex_d2_gradient eps d : let procs := [[(0, 0, 0)%Z; (1, 0, 0)%Z]; [(0, -1, 1)%Z]] in let r := energyAndGradD2 cube 2 carbons dimer (3/4) 0 procs in
  is_derive (fun t => Etot (energyAndGradD2 (strained cube eps t) 2 carbons (displaced dimer d t) (3/4) 0 procs)) 0 (contraction (E_RRT r) eps - workOf 2 (forces r) d).
Proof.
  cbv zeta. apply d2_gradient; [apply dimer_separate| |intros N; exfalso; apply N; reflexivity]. intros _. split; [intros c _; cbn; lra|].
  intros c1 c2 g L1 L2 I. cbn [carbons p_R0]. destruct (dimer_far c1 c2 g) as [(Z0 & _)|B]; lra.
Qed.
Lemma ex_lj_full : Etot (energyAndGradD2 cube 2 carbons dimer 1 8 [[]; [(0, 0, 0)%Z]]) =
  - (1 / 2) * rsum (fun c1 => neighbour_sum cube dimer 2 [(0, 0, 0)%Z] (fun d => if Rle_dec d 8 then true else false) (fun c2 d => lennardJones (sqrt (4 * 4)) (1/2 + 1/2) d) c1) (seq 0 2).
Proof. apply (d2_energy_lj cube isolated 8 2 3 [[]; [(0, 0, 0)%Z]] [(0, 0, 0)%Z] 2 carbons dimer 1 8 ltac:(lra) cube_columns ltac:(lia) (isolated_fuel 8) (isolated_procs 8) (isolated_box 8)). lra. Qed.
Lemma ex_weights : let r := [0; 9925/10000; 19887/10000] in r <> [] /\ rsum (fun i => nth i (fst (getL r 1)) 0) (seq 0 3) = 1 /\ 2 <= bilinear (fst (getL r 1)) (RM 3 1 [2; 5; 3]) (fst (getL [0] 0)) <= 5.
Proof.
  cbv zeta. split; [discriminate|]. split; [apply (weights_sum [0; 9925/10000; 19887/10000] 1); discriminate|]. apply weights_convex; try discriminate; try reflexivity.
  intros i j I J. cbn in I, J. assert (j = 0)%nat by lia. subst j. destruct i as [|[|[|]]]; [| | |lia]; unfold entry; cbn; lra.
Qed.
Lemma ex_reach : orthogonal cube /\ (let d := rvsub (dimer 1) (dimer 0) in -1 < c0 d < 1 /\ -1 < c1 d < 1 /\ -1 < c2 d < 1) /\ distance cube dimer 1 0 (0, 0, 0)%Z <= 20.
Proof.
  split; [unfold orthogonal, cube; v3u; repeat split; ring|]. split; [cbn [dimer]; v3u; repeat split; lra|]. destruct (origin_distance 1 0); try lia; lra.
Qed.
