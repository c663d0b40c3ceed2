(** Dispersion energies and coordination numbers as sums over all images. *)
From Coq Require Import ZArith Reals List Bool Lia Lra Psatz Permutation.
From Verif Require Import Base WorkDiv_Model Grid_Model Grid_Spec Vec3_Model Vec3_Facts Lattice_Model RealUtil Coulomb_Model Coulomb_Proofs Coulomb_Proofs3 WS_Model Ions_Model CellMap_Spec CellMap_Proofs VdW_Model VdW_Spec VdW_Proofs VdW_Proofs2 VdW_Proofs3 VdW_Proofs4 VdW_Proofs5 VdW_Proofs6.
Import ListNotations.
Local Open Scope R_scope.
Set Bullet Behavior "Strict Subproofs".

Definition oddBox (S : Z*Z*Z) : Prop := let '(a, b, c) := S in (a mod 2 = 1 /\ b mod 2 = 1 /\ c mod 2 = 1)%Z.
Lemma allProcs_length S nProcs fuel ps ls : allProcs S nProcs fuel ps = Some ls -> length ls = length ps.
Proof.
  revert ls. induction ps as [|p ps IH]; cbn [allProcs]; intros ls E; [injection E as <-; reflexivity|].
  destruct (procCells S nProcs p fuel); [|discriminate]. destruct (allProcs S nProcs fuel ps); [|discriminate]. injection E as <-. cbn. f_equal. apply IH. reflexivity.
Qed.
Lemma map_combine {A B} (a : list A) (b : list B) : length a = length b -> map fst (combine a b) = a /\ map snd (combine a b) = b.
Proof. revert b. induction a as [|x a IH]; intros [|y b]; cbn; intros E; try discriminate; auto. destruct (IH b ltac:(lia)) as [-> ->]. auto. Qed.

Section Cells.
  Variables (Rl : mat R) (tr : nat -> bool) (cut : R) (nProcs : Z) (fuel : nat) (procs : list (list V3)) (B : list (Z*Z*Z)).
  Hypothesis Pc : 0 < cut.
  Hypothesis Len : forall k, (k < 3)%nat -> rlen (mrow (mtrans Rl) k) <> 0.
  Hypothesis Np : (0 < nProcs)%Z.
  Hypothesis Fu : (nG (sampling Rl tr cut) < Z.of_nat fuel)%Z.
  Hypothesis Run : allProcs (sampling Rl tr cut) nProcs fuel (zrange 0 nProcs) = Some procs.
  Hypothesis Box : whole_box (sampling Rl tr cut) B.
  Lemma cells_pair n (F : nat -> nat -> Z*Z*Z -> R) : (forall c1 c2 g, F c2 c1 g = F c1 c2 (neg3 g)) ->
    sum2 n (fun c1 c2 => rsum (fun g => cellWeight g * F c1 c2 g) (concat procs)) = 1/2 * sum2 n (fun c1 c2 => rsum (F c1 c2) B).
  Proof.
    destruct (sampling_odd Rl tr cut Pc Len) as [P O]. destruct (allProcs_cells (sampling Rl tr cut) nProcs fuel P Np Fu) as (ls & E & N & M). rewrite Run in E. injection E as <-.
    apply (pair_box (sampling Rl tr cut)); auto.
  Qed.
  Lemma cells_box (F : Z*Z*Z -> R) : rsum (fun g => cellWeight g * (F g + F (neg3 g))) (concat procs) = rsum F B.
  Proof.
    destruct (sampling_odd Rl tr cut Pc Len) as [P O]. destruct (allProcs_cells (sampling Rl tr cut) nProcs fuel P Np Fu) as (ls & E & N & M). rewrite Run in E. injection E as <-.
    apply (box_sum (sampling Rl tr cut)); auto.
  Qed.
End Cells.

(** ** D2 *)
Definition d2term (Rl : mat R) pos par lj c1 c2 g : R := let d := distance Rl pos c1 c2 g in if Req_EM_T d 0 then 0 else fst (vdwPair d (C6p par c1 c2) (R0p par c1 c2) lj).
Lemma d2term_swap Rl pos par lj c1 c2 g : d2term Rl pos par lj c2 c1 g = d2term Rl pos par lj c1 c2 (neg3 g).
Proof. unfold d2term. rewrite distance_swap. replace (C6p par c2 c1) with (C6p par c1 c2) by (unfold C6p; f_equal; ring). replace (R0p par c2 c1) with (R0p par c1 c2) by (unfold R0p; ring). reflexivity. Qed.
Lemma e2_term Rl pos par scaleFac lj c1 c2 g : e2 par scaleFac lj Rl pos c1 c2 g = - scaleFac * (cellWeight g * d2term Rl pos par lj c1 c2 g).
Proof.
  unfold e2, d2term, test0. cbv zeta. rewrite <- distance_sep. destruct (Req_EM_T (metric2 (RTR Rl) (sep pos c1 c2 g)) 0) as [E|E], (Req_EM_T (distance Rl pos c1 c2 g) 0) as [D|D]; try ring.
  - exfalso. apply D, distance_0, E.
  - exfalso. apply E, distance_0, D.
Qed.
Lemma sum2_scale n k F : sum2 n (fun a b => k * F a b) = k * sum2 n F.
Proof. unfold sum2. rewrite <- rsum_scale. apply rsum_ext. intros; apply rsum_scale. Qed.
Lemma d2_energy_vdw Rl tr rCut nProcs fuel procs B n par pos scaleFac lj :
  0 < rCut -> (forall k, (k < 3)%nat -> rlen (mrow (mtrans Rl) k) <> 0) -> (0 < nProcs)%Z -> (nG (sampling Rl tr rCut) < Z.of_nat fuel)%Z ->
  allProcs (sampling Rl tr rCut) nProcs fuel (zrange 0 nProcs) = Some procs -> whole_box (sampling Rl tr rCut) B ->
  Etot (energyAndGradD2 Rl n par pos scaleFac lj procs) =
  - (scaleFac / 2) * sum2 n (fun c1 c2 => rsum (d2term Rl pos par lj c1 c2) B).
Proof.
  intros Pc Len Np Fu Run Box. rewrite energyD2_E. change (sum3 n (e2 par scaleFac lj Rl pos) (concat procs)) with (sum2 n (fun c1 c2 => rsum (e2 par scaleFac lj Rl pos c1 c2) (concat procs))).
  rewrite (sum2_ext n _ (fun c1 c2 => - scaleFac * rsum (fun g => cellWeight g * d2term Rl pos par lj c1 c2 g) (concat procs))).
  2:{ intros c1 c2 _ _. rewrite <- rsum_scale. apply rsum_ext. intros g _. apply e2_term. }
  rewrite sum2_scale, (cells_pair Rl tr rCut nProcs fuel procs B Pc Len Np Fu Run Box n (d2term Rl pos par lj)) by (intros; apply d2term_swap). lra.
Qed.
Lemma vdwPair_grimme r C6 R0 : 0 < R0 -> rRegularize * R0 <= r -> fst (vdwPair r C6 R0 0) = grimme2 C6 R0 r.
Proof.
  intros P G. unfold vdwPair, grimme2. destruct (Req_EM_T 0 0); [|lra]. cbv zeta. destruct (Rlt_dec _ _) as [L|L].
  - apply (scaled_lt r R0 P) in L. lra.
  - cbn [fst]. assert (Pr : 0 < r) by (unfold rRegularize in G; nra). assert (X := exp_pos (-20 * (r * (1 / R0) - 1))).
    replace (r / R0) with (r * (1 / R0)) by (unfold Rdiv; ring). change (- (20)) with (-20). field. split; lra.
Qed.
Lemma vdwPair_lj r C6 R0 lj : lj <> 0 -> 0 < r -> fst (vdwPair r C6 R0 lj) = if Rle_dec r lj then lennardJones C6 R0 r else 0.
Proof.
  intros N P. unfold vdwPair, lennardJones. destruct (Req_EM_T lj 0); [lra|]. destruct (Rlt_dec lj r), (Rle_dec r lj); try lra; [reflexivity|]. cbv zeta. cbn [fst]. field. lra.
Qed.
Lemma d2_energy_full Rl tr rCut nProcs fuel procs B n par pos scaleFac :
  0 < rCut -> (forall k, (k < 3)%nat -> rlen (mrow (mtrans Rl) k) <> 0) -> (0 < nProcs)%Z -> (nG (sampling Rl tr rCut) < Z.of_nat fuel)%Z ->
  allProcs (sampling Rl tr rCut) nProcs fuel (zrange 0 nProcs) = Some procs -> whole_box (sampling Rl tr rCut) B ->
  (forall c, (c < n)%nat -> 0 < p_R0 (par c)) ->
  (forall c1 c2 g, (c1 < n)%nat -> (c2 < n)%nat -> In g B -> distance Rl pos c1 c2 g = 0 \/ 3000002494598603 / 10000000000000000 * (p_R0 (par c1) + p_R0 (par c2)) <= distance Rl pos c1 c2 g) ->
  Etot (energyAndGradD2 Rl n par pos scaleFac 0 procs) =
  - (scaleFac / 2) * rsum (fun c1 => neighbour_sum Rl pos n B (fun _ => true) (fun c2 d => grimme2 (sqrt (p_C6 (par c1) * p_C6 (par c2))) (p_R0 (par c1) + p_R0 (par c2)) d) c1) (seq 0 n).
Proof.
  intros Pc Len Np Fu Run Box PR Far. rewrite (d2_energy_vdw Rl tr rCut nProcs fuel procs B n par pos scaleFac 0 Pc Len Np Fu Run Box). f_equal.
  apply (sum2_ext n _ (fun c1 c2 => rsum (fun g => let d := distance Rl pos c1 c2 g in if Req_EM_T d 0 then 0 else grimme2 (sqrt (p_C6 (par c1) * p_C6 (par c2))) (p_R0 (par c1) + p_R0 (par c2)) d) B)).
  intros c1 c2 L1 L2. apply rsum_ext. intros g I. unfold d2term. cbv zeta. destruct (Req_EM_T _ 0) as [E|E]; [reflexivity|]. destruct (Far c1 c2 g L1 L2 I) as [Z|G]; [contradiction|].
  apply vdwPair_grimme; [|exact G]. unfold R0p. assert (A1 := PR c1 L1). assert (A2 := PR c2 L2). lra.
Qed.
Lemma d2_energy_lj Rl tr rCut nProcs fuel procs B n par pos scaleFac lj :
  0 < rCut -> (forall k, (k < 3)%nat -> rlen (mrow (mtrans Rl) k) <> 0) -> (0 < nProcs)%Z -> (nG (sampling Rl tr rCut) < Z.of_nat fuel)%Z ->
  allProcs (sampling Rl tr rCut) nProcs fuel (zrange 0 nProcs) = Some procs -> whole_box (sampling Rl tr rCut) B -> lj <> 0 ->
  Etot (energyAndGradD2 Rl n par pos scaleFac lj procs) =
  - (scaleFac / 2) * rsum (fun c1 => neighbour_sum Rl pos n B (fun d => if Rle_dec d lj then true else false) (fun c2 d => lennardJones (sqrt (p_C6 (par c1) * p_C6 (par c2))) (p_R0 (par c1) + p_R0 (par c2)) d) c1) (seq 0 n).
Proof.
  intros Pc Len Np Fu Run Box LJ. rewrite (d2_energy_vdw Rl tr rCut nProcs fuel procs B n par pos scaleFac lj Pc Len Np Fu Run Box). f_equal.
  apply (sum2_ext n _ (fun c1 c2 => rsum (fun g => let d := distance Rl pos c1 c2 g in if Req_EM_T d 0 then 0 else if (if Rle_dec d lj then true else false) then lennardJones (sqrt (p_C6 (par c1) * p_C6 (par c2))) (p_R0 (par c1) + p_R0 (par c2)) d else 0) B)).
  intros c1 c2 L1 L2. apply rsum_ext. intros g I. unfold d2term. cbv zeta. destruct (Req_EM_T _ 0) as [E|E]; [reflexivity|]. rewrite vdwPair_lj; [destruct (Rle_dec _ _); reflexivity|exact LJ|].
  assert (0 <= distance Rl pos c1 c2 g) by (rewrite distance_sep; apply sqrt_pos). lra.
Qed.

(** ** Coordination numbers *)
Definition within (cut : R) (d : R) : bool := if Rle_dec d cut then true else false.
Lemma testc_within cut Rl pos c1 c2 g : 0 < cut -> testc cut (metric2 (RTR Rl) (sep pos c1 c2 g)) = if Req_EM_T (distance Rl pos c1 c2 g) 0 then false else within cut (distance Rl pos c1 c2 g).
Proof.
  intros P. unfold testc, within. assert (N := metric2_RTR_pos Rl (sep pos c1 c2 g)). assert (D := distance_sep Rl pos c1 c2 g). assert (Z := distance_0 Rl pos c1 c2 g).
  set (q := metric2 _ _) in *. set (d := distance _ _ _ _ _) in *. assert (S2 := sqrt_sqrt q N). rewrite <- D in S2. assert (0 <= d) by (rewrite D; apply sqrt_pos).
  destruct (Req_EM_T q 0) as [Q|Q], (Req_EM_T d 0) as [E|E]; try reflexivity; [exfalso; tauto|exfalso; tauto|].
  destruct (Rle_dec q (cut * cut)), (Rle_dec d cut); try reflexivity; exfalso; nra.
Qed.
Definition cnterm (aps : nat -> atomParams) sp Rl pos c1 c2 g : R :=
  let d := distance Rl pos c1 c2 g in if Req_EM_T d 0 then 0 else if within 50 d then counting (rcs aps sp c1 c2) d else 0.
Lemma cn_term aps sp Rl pos c1 c2 g : cn aps sp Rl pos c1 c2 g = cellWeight g * cnterm aps sp Rl pos c1 c2 g.
Proof.
  unfold cn, cnterm, qOf. cbv zeta. rewrite testc_within by (unfold rCutCN; lra). unfold rCutCN. rewrite <- distance_sep. destruct (Req_EM_T _ 0); [ring|]. destruct (within _ _); [|ring]. unfold cnf, counting, k1. unfold Rdiv. reflexivity.
Qed.
Lemma cnterm_swap aps sp Rl pos c1 c2 g : cnterm aps sp Rl pos c2 c1 g = cnterm aps sp Rl pos c1 c2 (neg3 g).
Proof. unfold cnterm. rewrite distance_swap. replace (rcs aps sp c2 c1) with (rcs aps sp c1 c2) by (unfold rcs; ring). reflexivity. Qed.
Lemma cn_full Rl tr nProcs fuel procs B n aps sp pos c :
  (forall k, (k < 3)%nat -> rlen (mrow (mtrans Rl) k) <> 0) -> (0 < nProcs)%Z -> (nG (sampling Rl tr 50) < Z.of_nat fuel)%Z ->
  allProcs (sampling Rl tr 50) nProcs fuel (zrange 0 nProcs) = Some procs -> whole_box (sampling Rl tr 50) B -> (c < n)%nat ->
  computeCN aps n sp Rl pos procs c = neighbour_sum Rl pos n B (fun d => if Rle_dec d 50 then true else false) (fun c2 d => counting (k2Rcov (aps (sp c)) + k2Rcov (aps (sp c2))) d) c.
Proof.
  intros Len Np Fu Run Box Lc. rewrite computeCN_sum. set (T := fun c1 c2 => rsum (cn aps sp Rl pos c1 c2) (concat procs)).
  change (sum2 n (fun c1 c2 => ind c c1 (T c1 c2) + ind c c2 (T c1 c2)) = neighbour_sum Rl pos n B (fun d => if Rle_dec d 50 then true else false) (fun c2 d => counting (k2Rcov (aps (sp c)) + k2Rcov (aps (sp c2))) d) c).
  rewrite sum2_add. rewrite (sum2_swap n (fun c1 c2 => ind c c2 (T c1 c2))). rewrite <- sum2_add.
  transitivity (rsum (fun c2 => T c c2 + T c2 c) (seq 0 n)).
  { transitivity (rsum (fun c1 => ind c1 c (rsum (fun c2 => T c1 c2 + T c2 c1) (seq 0 n))) (seq 0 n)).
    - unfold sum2. apply rsum_ext. intros c1 _. unfold ind. rewrite (Nat.eqb_sym c c1). destruct (c1 =? c)%nat; [reflexivity|]. transitivity (rsum (fun _ : nat => 0) (seq 0 n)); [apply rsum_ext; intros; ring|apply rsum_zero].
    - apply (rsum_ind n c (fun c1 => rsum (fun c2 => T c1 c2 + T c2 c1) (seq 0 n)) Lc). }
  unfold neighbour_sum. apply rsum_ext. intros c2 _. unfold T.
  transitivity (rsum (cnterm aps sp Rl pos c c2) B); [|reflexivity].
  rewrite <- (cells_box Rl tr 50 nProcs fuel procs B ltac:(lra) Len Np Fu Run Box), <- rsum_add. apply rsum_ext. intros g _. rewrite !cn_term, (cnterm_swap aps sp Rl pos c c2 g). ring.
Qed.

(** ** D3 *)
Lemma LsumOf_gauss refs x : LsumOf refs x = gaussSum refs x.
Proof. rewrite LsumOf_rsum. reflexivity. Qed.
Lemma getL_weights refs x i : underflow <= gaussSum refs x -> (i < length refs)%nat -> nth i (fst (getL refs x)) 0 = gaussWeight refs x i.
Proof.
  intros U L. unfold getL. cbv zeta. rewrite LsumOf_gauss. destruct (Rlt_dec _ _); [lra|]. cbn [fst]. rewrite (nth_map _ refs 0 i). assert (E : (i <? length refs)%nat = true) by (apply Nat.ltb_lt; auto). rewrite E.
  unfold Lraw, gaussWeight, k3, Rdiv. ring.
Qed.
Lemma getL_length refs x : length (fst (getL refs x)) = length refs.
Proof. unfold getL. cbv zeta. destruct (Rlt_dec _ _); cbn [fst]; rewrite map_length, ?seq_length; reflexivity. Qed.
Lemma bilinear_weights r1 r2 m x1 x2 : underflow <= gaussSum r1 x1 -> underflow <= gaussSum r2 x2 -> nr m = length r1 -> nc m = length r2 ->
  bilinear (fst (getL r1 x1)) m (fst (getL r2 x2)) = interpolated r1 r2 (entry m) x1 x2.
Proof.
  intros U1 U2 E1 E2. unfold bilinear, interpolated. rewrite E1, E2.
  rewrite (rsum_ext (fun j => _ * _) (fun j => rsum (fun i => gaussWeight r1 x1 i * gaussWeight r2 x2 j * entry m i j) (seq 0 (length r1)))).
  - apply rsum_swap.
  - intros j J. apply in_seq in J. rewrite (getL_weights r2 x2 j U2) by lia. rewrite Rmult_comm, <- rsum_scale. apply rsum_ext. intros i I. apply in_seq in I. rewrite (getL_weights r1 x1 i U1) by lia. ring.
Qed.
Lemma interpolated_swap r1 r2 (t t' : nat -> nat -> R) x1 x2 : (forall i j, (i < length r1)%nat -> (j < length r2)%nat -> t i j = t' j i) -> interpolated r1 r2 t x1 x2 = interpolated r2 r1 t' x2 x1.
Proof.
  intros H. unfold interpolated. rewrite rsum_swap. apply rsum_ext. intros j J. apply rsum_ext. intros i I. apply in_seq in I. apply in_seq in J. rewrite H by lia. ring.
Qed.
Lemma terms_spec bj s6 s8 sr6 sr8 C6 C8 R0 d : 0 < d -> C6 * (s6 * fst (fst (terms bj sr6 sr8 d R0))) + C8 * (s8 * fst (snd (terms bj sr6 sr8 d R0))) = d3attraction bj s6 s8 sr6 sr8 C6 C8 R0 d.
Proof.
  intros P. unfold terms, d3attraction. destruct bj; cbn [fst snd].
  - unfold vdWpotentialBJ, beckeJohnson. cbv zeta. cbn [fst snd]. unfold Rdiv. ring.
  - unfold vdWpotential, zeroDamped, alpha6, alpha8. cbv zeta. cbn [fst snd]. replace (sr6 * R0 / d) with (sr6 * R0 * (1 / d)) by (unfold Rdiv; ring). replace (sr8 * R0 / d) with (sr8 * R0 * (1 / d)) by (unfold Rdiv; ring).
    assert (Q : forall x (k : nat), 0 < 1 + 6 * x ^ (2 * k)) by (intros x k; assert (H := even_pow_pos x k); lra).
    assert (Q6 := Q (sr6 * R0 * (1 / d)) 7%nat). assert (Q8 := Q (sr8 * R0 * (1 / d)) 8%nat). change (2 * 7)%nat with 14%nat in Q6. change (2 * 8)%nat with 16%nat in Q8.
    set (u := 1 + 6 * (sr6 * R0 * (1 / d)) ^ 14) in *. set (v := 1 + 6 * (sr8 * R0 * (1 / d)) ^ 16) in *. clearbody u v. field. repeat split; lra.
Qed.
Section D3.
  Variables (Rl : mat R) (tr : nat -> bool) (rCut : R) (nProcs : Z) (fuel1 fuel2 : nat) (procs1 procs2 : list (list V3)) (B1 B2 : list (Z*Z*Z)).
  Variables (bj : bool) (s6 s8 sr6 sr8 : R) (aps : nat -> atomParams) (pps : nat -> nat -> pairParams) (n : nat) (sp : nat -> nat) (pos : nat -> vec R).
  Hypothesis Pc : 0 < rCut.
  Hypothesis Len : forall k, (k < 3)%nat -> rlen (mrow (mtrans Rl) k) <> 0.
  Hypothesis Np : (0 < nProcs)%Z.
  Hypothesis Fu1 : (nG (sampling Rl tr rCut) < Z.of_nat fuel1)%Z.
  Hypothesis Fu2 : (nG (sampling Rl tr 50) < Z.of_nat fuel2)%Z.
  Hypothesis Run1 : allProcs (sampling Rl tr rCut) nProcs fuel1 (zrange 0 nProcs) = Some procs1.
  Hypothesis Run2 : allProcs (sampling Rl tr 50) nProcs fuel2 (zrange 0 nProcs) = Some procs2.
  Hypothesis Box1 : whole_box (sampling Rl tr rCut) B1.
  Hypothesis Box2 : whole_box (sampling Rl tr 50) B2.
  Hypothesis SymR : forall a b, pp_R0 (pps a b) = pp_R0 (pps b a).
  Hypothesis Dim : forall a b, nr (pp_C6 (pps a b)) = length (CNref (aps a)) /\ nc (pp_C6 (pps a b)) = length (CNref (aps b)).
  Hypothesis SymC : forall a b i j, (i < length (CNref (aps a)))%nat -> (j < length (CNref (aps b)))%nat -> entry (pp_C6 (pps a b)) i j = entry (pp_C6 (pps b a)) j i.
  Definition coordination (c : nat) : R := neighbour_sum Rl pos n B2 (fun d => if Rle_dec d 50 then true else false) (fun c2 d => counting (k2Rcov (aps (sp c)) + k2Rcov (aps (sp c2))) d) c.
  Definition dispersionC6 (c1 c2 : nat) : R := interpolated (CNref (aps (sp c1))) (CNref (aps (sp c2))) (entry (pp_C6 (pps (sp c1) (sp c2)))) (coordination c1) (coordination c2).
  Definition radius (c1 c2 : nat) : R := if bj then sqrt (3 * sqrtQ (aps (sp c1)) * sqrtQ (aps (sp c2))) else pp_R0 (pps (sp c1) (sp c2)).
  Hypothesis NoU : forall c, (c < n)%nat -> / 10 ^ 40 <= gaussSum (CNref (aps (sp c))) (coordination c).
  Hypothesis NZ : bj = true -> forall c1 c2, (c1 < n)%nat -> (c2 < n)%nat -> dispersionC6 c1 c2 <> 0.
  Let procs := combine procs1 procs2.
  Lemma procs_split : map fst procs = procs1 /\ map snd procs = procs2.
  Proof. apply map_combine. rewrite (allProcs_length _ _ _ _ _ Run1), (allProcs_length _ _ _ _ _ Run2). reflexivity. Qed.
  Lemma CNt_full c : (c < n)%nat -> CNt aps n sp Rl pos procs c = coordination c.
  Proof. intros L. unfold CNt. rewrite (proj2 procs_split). apply (cn_full Rl tr nProcs fuel2 procs2 B2 n aps sp pos c Len Np Fu2 Run2 Box2 L). Qed.
  Lemma C6_full c1 c2 : (c1 < n)%nat -> (c2 < n)%nat -> C6c aps pps sp (CNt aps n sp Rl pos procs) c1 c2 = dispersionC6 c1 c2.
  Proof.
    intros L1 L2. unfold C6c, C6of, Lof. rewrite (CNt_full c1 L1), (CNt_full c2 L2). apply bilinear_weights; [apply NoU; auto|apply NoU; auto|apply Dim|apply Dim].
  Qed.
  Lemma C6_swap c1 c2 : dispersionC6 c1 c2 = dispersionC6 c2 c1.
  Proof. unfold dispersionC6. apply interpolated_swap. intros i j. apply SymC. Qed.
  Lemma R0_full c1 c2 : (c1 < n)%nat -> (c2 < n)%nat -> R0c bj aps pps sp (CNt aps n sp Rl pos procs) c1 c2 = radius c1 c2.
  Proof.
    intros L1 L2. unfold R0c, R0of, radius. cbv zeta. fold (C6c aps pps sp (CNt aps n sp Rl pos procs) c1 c2). rewrite C6_full by auto. destruct bj; [|reflexivity].
    f_equal. unfold ratio8by6. field. apply NZ; auto.
  Qed.
  Lemma radius_swap c1 c2 : radius c1 c2 = radius c2 c1.
  Proof. unfold radius. destruct bj; [f_equal; ring|apply SymR]. Qed.
  Definition d3term c1 c2 g : R := let d := distance Rl pos c1 c2 g in if Req_EM_T d 0 then 0 else if within rCut d then
    d3attraction bj s6 s8 sr6 sr8 (dispersionC6 c1 c2) (dispersionC6 c1 c2 * (3 * sqrtQ (aps (sp c1)) * sqrtQ (aps (sp c2)))) (radius c1 c2) d else 0.
  Lemma d3term_swap c1 c2 g : d3term c2 c1 g = d3term c1 c2 (neg3 g).
  Proof. unfold d3term. rewrite distance_swap, (C6_swap c2 c1), (radius_swap c2 c1). replace (3 * sqrtQ (aps (sp c2)) * sqrtQ (aps (sp c1))) with (3 * sqrtQ (aps (sp c1)) * sqrtQ (aps (sp c2))) by ring. reflexivity. Qed.
  Lemma d3_energy_full : fst (energyAndGradD3 bj s6 s8 sr6 sr8 aps pps n sp Rl pos rCut (combine procs1 procs2)) =
    - (1/2) * rsum (fun c1 => neighbour_sum Rl pos n B1 (fun d => if Rle_dec d rCut then true else false)
      (fun c2 d => d3attraction bj s6 s8 sr6 sr8 (dispersionC6 c1 c2) (dispersionC6 c1 c2 * (3 * sqrtQ (aps (sp c1)) * sqrtQ (aps (sp c2)))) (radius c1 c2) d) c1) (seq 0 n).
  Proof.
    rewrite total_E. fold procs. unfold cells1. rewrite (proj1 procs_split).
    rewrite (sum2_ext n _ (fun c1 c2 => -1 * rsum (fun g => cellWeight g * d3term c1 c2 g) (concat procs1))).
    - rewrite sum2_scale, (cells_pair Rl tr rCut nProcs fuel1 procs1 B1 Pc Len Np Fu1 Run1 Box1 n d3term) by (intros; apply d3term_swap).
      transitivity (- (1/2) * sum2 n (fun c1 c2 => rsum (d3term c1 c2) B1)); [lra|reflexivity].
    - intros c1 c2 L1 L2. rewrite C6_full by auto. unfold Atot, A6, A8. rewrite R0_full by auto.
      transitivity (rsum (fun g => dispersionC6 c1 c2 * a6 bj s6 sr6 sr8 rCut (radius c1 c2) Rl pos c1 c2 g + dispersionC6 c1 c2 * rat aps sp c1 c2 * a8 bj s8 sr6 sr8 rCut (radius c1 c2) Rl pos c1 c2 g) (concat procs1)).
      { rewrite rsum_add, !rsum_scale. ring. }
      rewrite <- rsum_scale. apply rsum_ext. intros g _. unfold a6, a8, d3term, qOf. cbv zeta. rewrite testc_within by exact Pc. rewrite <- distance_sep.
      destruct (Req_EM_T _ 0) as [E|E]; [ring|]. destruct (within _ _); [|ring].
      rewrite <- terms_spec; [unfold rat, ratio8by6; ring|]. assert (0 <= distance Rl pos c1 c2 g) by (rewrite distance_sep; apply sqrt_pos). lra.
  Qed.
End D3.
