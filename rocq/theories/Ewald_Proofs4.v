(** Reach of the sums. *)
From Coq Require Import ZArith Reals List Bool Lia Lra Psatz.
From Verif Require Import Base Gauss Grid_Model Vec3_Model Vec3_Facts Lattice_Model RealUtil Basis_Model Basis_Proofs Coulomb_Model Coulomb_Proofs Coulomb_Proofs3 WS_Model WS_Proofs3 CellMap_Spec CellMap_Proofs
  VdW_Model VdW_Spec VdW_Proofs VdW_Proofs2 Ewald_Model Ewald_Spec Ewald_Proofs Ewald_Proofs2 Ewald_Proofs3.
Import ListNotations.
Local Open Scope R_scope.
Set Bullet Behavior "Strict Subproofs".

Lemma cs u v : Rabs (rdot u v) <= rlen u * rlen v.
Proof.
  unfold rlen. rewrite <- sqrt_mult_alt by apply rlen2_pos. rewrite <- sqrt_Rsqr_abs. apply sqrt_le_1_alt. unfold Rsqr. apply cauchy.
Qed.
Lemma row_R Rl x k : rdet Rl <> 0 -> (k < 3)%nat -> rdot (mrow (gG Rl) k) (rmv Rl x) = 2 * PI * comp x k.
Proof.
  intros D K. assert (E : rmv (gG Rl) (rmv Rl x) = rvscale (2 * PI) x).
  { rewrite <- rmv_mm, gG_R by exact D. destruct x. v3u. f_equal; ring. }
  transitivity (comp (rmv (gG Rl) (rmv Rl x)) k).
  - generalize (gG Rl) (rmv Rl x). intros m v. destruct m, v. destruct k as [|[|[|k]]]; [| | |lia]; unfold comp, mrow; v3u; ring.
  - rewrite E. destruct x. destruct k as [|[|[|k]]]; [| | |lia]; unfold comp; v3u; ring.
Qed.
Lemma col_G Rl w k : rdet Rl <> 0 -> (k < 3)%nat -> rdot (rvm w (gG Rl)) (mrow (mtrans Rl) k) = 2 * PI * comp w k.
Proof.
  intros D K. assert (E : rvm (rvm w (gG Rl)) Rl = rvscale (2 * PI) w).
  { rewrite <- rvm_mm, gG_R by exact D. destruct w. v3u. f_equal; ring. }
  transitivity (comp (rvm (rvm w (gG Rl)) Rl) k).
  - generalize (rvm w (gG Rl)). intros v. destruct Rl, v. destruct k as [|[|[|k]]]; [| | |lia]; unfold comp, mrow; v3u; ring.
  - rewrite E. destruct w. destruct k as [|[|[|k]]]; [| | |lia]; unfold comp; v3u; ring.
Qed.
Lemma rowLen_pos Rl k : rdet Rl <> 0 -> (k < 3)%nat -> 0 < rowLen Rl k.
Proof.
  intros D K. destruct (Rle_lt_or_eq_dec 0 (rowLen Rl k) (sqrt_pos _)) as [H|H]; [exact H|exfalso].
  set (e := V (if Nat.eqb k 0 then 1 else 0) (if Nat.eqb k 1 then 1 else 0) (if Nat.eqb k 2 then 1 else 0)). assert (A := row_R Rl e k D K). assert (B := cs (mrow (gG Rl) k) (rmv Rl e)). fold (rowLen Rl k) in B. rewrite <- H, A in B.
  replace (comp e k) with 1 in B by (destruct k as [|[|[|k]]]; [| | |lia]; reflexivity). assert (P := PI_RGT_0). rewrite Rabs_right in B; lra.
Qed.
Lemma colLen_pos Rl k : rdet Rl <> 0 -> (k < 3)%nat -> 0 < colLen Rl k.
Proof.
  intros D K. destruct (Rle_lt_or_eq_dec 0 (colLen Rl k) (sqrt_pos _)) as [H|H]; [exact H|exfalso].
  set (e := V (if Nat.eqb k 0 then 1 else 0) (if Nat.eqb k 1 then 1 else 0) (if Nat.eqb k 2 then 1 else 0)). assert (A := col_G Rl e k D K). assert (B := cs (rvm e (gG Rl)) (mrow (mtrans Rl) k)). fold (colLen Rl k) in B. rewrite <- H, A in B.
  replace (comp e k) with 1 in B by (destruct k as [|[|[|k]]]; [| | |lia]; reflexivity). assert (P := PI_RGT_0). rewrite Rabs_right in B; lra.
Qed.
Lemma nSig_pos : 0 < nSigmasPerWidth. Proof. unfold nSigmasPerWidth. assert (H := sqrt_pos (- 2 * ln (/ 2 ^ 52))). lra. Qed.
Lemma abs_gap g N d : (N < Z.abs g)%Z -> Rabs d < 1 -> IZR N < Rabs (IZR g + d).
Proof.
  intros H Hd. assert (A : IZR (N + 1) <= Rabs (IZR g)) by (rewrite <- abs_IZR; apply IZR_le; lia). rewrite plus_IZR in A.
  assert (B := Rabs_triang_inv (IZR g) (- d)). rewrite Rabs_Ropp in B. replace (IZR g - - d) with (IZR g + d) in B by ring. lra.
Qed.
Lemma real_reach Rl sigma pos c1 c2 g k : rdet Rl <> 0 -> 0 < sigma -> (k < 3)%nat -> (Nreal1 Rl sigma k < Z.abs (match k with O => v0 g | 1%nat => v1 g | _ => v2 g end))%Z ->
  Rabs (comp (rvsub (pos c1) (pos c2)) k) < 1 -> nSigmasPerWidth * sigma + 2 * PI / rowLen Rl k < distance Rl pos c1 c2 g.
Proof.
  intros D S K Hg Hd. assert (P := PI_RGT_0). assert (Rp := rowLen_pos Rl k D K). rewrite distance_sep, metric2_RTR. set (x := sep pos c1 c2 g).
  assert (Hx : Rabs (comp x k) > IZR (Nreal1 Rl sigma k)).
  { replace (comp x k) with (IZR (match k with O => v0 g | 1%nat => v1 g | _ => v2 g end) + comp (rvsub (pos c1) (pos c2)) k); [apply abs_gap; assumption|].
    unfold x, sep, cellVec. generalize (rvsub (pos c1) (pos c2)). intros v. destruct v. destruct k as [|[|[|k]]]; [| | |lia]; unfold comp; v3u; ring. }
  unfold Nreal1 in Hx. rewrite plus_IZR in Hx. assert (C := rceil_ge (nSigmasPerWidth * rowLen Rl k * sigma / (2 * PI))).
  assert (B := cs (mrow (gG Rl) k) (rmv Rl x)). rewrite row_R in B by assumption. fold (rowLen Rl k) in B. change (sqrt (rlen2 (rmv Rl x))) with (rlen (rmv Rl x)). rewrite Rabs_mult, (Rabs_right (2 * PI)) in B by lra.
  apply (Rmult_lt_reg_l (rowLen Rl k) _ _ Rp). apply Rlt_le_trans with (2 * PI * Rabs (comp x k)); [|exact B].
  replace (rowLen Rl k * (nSigmasPerWidth * sigma + 2 * PI / rowLen Rl k)) with (2 * PI * (1 + nSigmasPerWidth * rowLen Rl k * sigma / (2 * PI))) by (field; lra). apply Rmult_lt_compat_l; lra.
Qed.
Lemma recip_reach Rl sigma g k : rdet Rl <> 0 -> 0 < sigma -> (k < 3)%nat -> (Nrecip1 Rl sigma k < Z.abs (match k with O => v0 g | 1%nat => v1 g | _ => v2 g end))%Z ->
  nSigmasPerWidth / sigma + 2 * PI / colLen Rl k < rlen (recipVec Rl g).
Proof.
  intros D S K Hg. assert (P := PI_RGT_0). assert (Rp := colLen_pos Rl k D K). rewrite recipVec_gG.
  assert (Hx : Rabs (comp (cellVec g) k) > IZR (Nrecip1 Rl sigma k)).
  { replace (comp (cellVec g) k) with (IZR (match k with O => v0 g | 1%nat => v1 g | _ => v2 g end) + 0); [apply abs_gap; [assumption|rewrite Rabs_R0; lra]|].
    unfold cellVec. destruct k as [|[|[|k]]]; [| | |lia]; unfold comp; v3u; ring. }
  unfold Nrecip1 in Hx. rewrite plus_IZR in Hx. assert (C := rceil_ge (nSigmasPerWidth * colLen Rl k / (2 * PI * sigma))).
  assert (B := cs (rvm (cellVec g) (gG Rl)) (mrow (mtrans Rl) k)). rewrite col_G in B by assumption. fold (colLen Rl k) in B. rewrite Rabs_mult, (Rabs_right (2 * PI)) in B by lra.
  apply (Rmult_lt_reg_r (colLen Rl k) _ _ Rp). apply Rlt_le_trans with (2 * PI * Rabs (comp (cellVec g) k)); [|exact B].
  replace ((nSigmasPerWidth / sigma + 2 * PI / colLen Rl k) * colLen Rl k) with (2 * PI * (1 + nSigmasPerWidth * colLen Rl k / (2 * PI * sigma))) by (field; lra). apply Rmult_lt_compat_l; lra.
Qed.
(** ** Below machine precision *)
Lemma exp_nSig : exp (- (nSigmasPerWidth * nSigmasPerWidth) / 2) <= / 2 ^ 59.
Proof.
  unfold nSigmasPerWidth. assert (L : ln (/ 2 ^ 52) = - (52 * ln 2)) by (rewrite ln_Rinv by (apply pow_lt; lra); rewrite ln_pow by lra; replace (INR 52) with 52 by (rewrite INR_IZR_INZ; reflexivity); ring).
  rewrite L. assert (L2 := ln_lt_2). set (s := sqrt (- 2 * - (52 * ln 2))). assert (Ss : s * s = 104 * ln 2) by (unfold s; rewrite sqrt_sqrt by lra; ring). assert (Sp : 0 <= s) by apply sqrt_pos.
  assert (S7 : 7 < s) by nra.
  replace (/ 2 ^ 59) with (exp (- (59 * ln 2))).
  - replace (- ((1 + s) * (1 + s)) / 2) with (- (52 * ln 2) + (- s - 1/2)) by lra. assert (LL : ln 2 < 1) by (apply exp_lt_inv; rewrite exp_ln by lra; assert (H := exp_ineq1 1 ltac:(lra)); lra).
    destruct (Req_dec 0 1); [lra|]. left. apply exp_increasing. lra.
  - rewrite exp_Ropp. f_equal. rewrite <- (exp_ln (2 ^ 59)) by (apply pow_lt; lra). f_equal. rewrite ln_pow by lra. replace (INR 59) with 59 by (rewrite INR_IZR_INZ; reflexivity). reflexivity.
Qed.
Lemma gauss_small x : nSigmasPerWidth < x -> exp (- (x * x) / 2) < / 2 ^ 59.
Proof.
  intros H. assert (P := nSig_pos). apply Rlt_le_trans with (exp (- (nSigmasPerWidth * nSigmasPerWidth) / 2)); [|apply exp_nSig]. apply exp_increasing. nra.
Qed.
Lemma erfc_small d sigma : 0 < sigma -> nSigmasPerWidth * sigma < d -> erfc (d / (sqrt 2 * sigma)) < / 2 ^ 59.
Proof.
  intros S H. assert (P := nSig_pos). assert (S2 : 0 < sqrt 2) by (apply sqrt_lt_R0; lra). assert (SS : sqrt 2 * sqrt 2 = 2) by (apply sqrt_sqrt; lra).
  set (x := d / (sqrt 2 * sigma)). assert (Xs : x * sqrt 2 = d / sigma) by (unfold x; field; lra).
  assert (Ds : nSigmasPerWidth < d / sigma) by (apply (Rmult_lt_reg_r sigma); [exact S|]; unfold Rdiv; rewrite Rmult_assoc, Rinv_l by lra; lra).
  assert (N2 : 2 < nSigmasPerWidth).
  { unfold nSigmasPerWidth. assert (L : ln (/ 2 ^ 52) = - (52 * ln 2)) by (rewrite ln_Rinv by (apply pow_lt; lra); rewrite ln_pow by lra; replace (INR 52) with 52 by (rewrite INR_IZR_INZ; reflexivity); ring).
    rewrite L. assert (L2 := ln_lt_2). assert (1 < sqrt (- 2 * - (52 * ln 2))); [|lra]. rewrite <- sqrt_1 at 1. apply sqrt_lt_1; lra. }
  assert (X1 : 1 < x) by nra. assert (G := gauss_small (d / sigma) Ds). assert (Eg : gauss x = exp (- (d / sigma * (d / sigma)) / 2)).
  { unfold gauss. f_equal. rewrite <- Xs. replace (x * sqrt 2 * (x * sqrt 2)) with (x * x * (sqrt 2 * sqrt 2)) by ring. rewrite SS. field. }
  rewrite <- Eg in G. assert (M := erfc_mills x ltac:(lra)). assert (Q := sqrtPI_pos). assert (Q2 := sqrtPI_sq). assert (P3 : 1 < PI) by (assert (H3 := PI2_3_2); lra).
  assert (Q1 : 1 < sqrt PI) by nra. assert (G0 : 0 < gauss x) by (unfold gauss; apply exp_pos). apply Rlt_trans with (1 := M). apply Rle_lt_trans with (2 := G).
  apply (Rmult_le_reg_r (x * sqrt PI)); [nra|]. unfold Rdiv. rewrite Rmult_assoc, Rinv_l by nra. rewrite Rmult_1_r. assert (1 < x * sqrt PI) by nra. nra.
Qed.
(** ** Boxes *)
Lemma not_in_box g N : ~ In g (boxLoop N) -> exists k, (k < 3)%nat /\ (match k with O => v0 N | 1%nat => v1 N | _ => v2 N end < Z.abs (match k with O => v0 g | 1%nat => v1 g | _ => v2 g end))%Z.
Proof.
  destruct g as [[x y] z]. rewrite in_boxLoop. destruct N as [[a b] c]. cbn [v0 v1 v2 fst snd]. intros H.
  destruct (Z_lt_le_dec a (Z.abs x)); [exists 0%nat; split; [lia|assumption]|]. destruct (Z_lt_le_dec b (Z.abs y)); [exists 1%nat; split; [lia|assumption]|]. destruct (Z_lt_le_dec c (Z.abs z)); [exists 2%nat; split; [lia|assumption]|]. exfalso. apply H. lia.
Qed.
Lemma home_diff x x' y y' k : home x y -> home x' y' -> (k < 3)%nat -> Rabs (comp (rvsub y y') k) < 1.
Proof. intros (_ & A0 & A1 & A2) (_ & B0 & B1 & B2) K. destruct y as [ya yb yc], y' as [yd ye yf]. cbn [c0 c1 c2] in *. destruct k as [|[|[|k]]]; [| | |lia]; unfold comp; v3u; apply Rabs_def1; lra. Qed.
Lemma homeSlab_diff i p x x' y y' k : homeSlab i p x y -> homeSlab i p x' y' -> (k < 3)%nat -> Rabs (comp (rvsub y y') k) < 1.
Proof.
  intros [_ A] [_ B] K. specialize (A k K). specialize (B k K). cbv zeta in A, B. replace (comp (rvsub y y') k) with (entry y k - entry y' k); [apply Rabs_def1; lra|].
  destruct y, y'. destruct k as [|[|[|k]]]; [| | |lia]; unfold comp, entry; v3u; ring.
Qed.
Lemma periodic_real_reach Rl sigma n pos hp c1 c2 g : rdet Rl <> 0 -> 0 < sigma -> (forall c, (c < n)%nat -> home (pos c) (hp c)) -> (c1 < n)%nat -> (c2 < n)%nat -> ~ In g (boxLoop (NrealP Rl sigma)) ->
  exists k, (k < 3)%nat /\ nSigmasPerWidth * sigma + 2 * PI / rowLen Rl k < distance Rl hp c1 c2 g.
Proof.
  intros D S H L1 L2 G. destruct (not_in_box _ _ G) as (k & K & HG). exists k. split; [exact K|]. apply real_reach; auto.
  - unfold NrealP in HG. cbn [v0 v1 v2 fst snd] in HG. destruct k as [|[|[|k]]]; [| | |lia]; exact HG.
  - apply (home_diff (pos c1) (pos c2)); auto.
Qed.
Lemma periodic_recip_reach Rl sigma g : rdet Rl <> 0 -> 0 < sigma -> ~ In g (boxLoop (NrecipP Rl sigma)) -> exists k, (k < 3)%nat /\ nSigmasPerWidth / sigma + 2 * PI / colLen Rl k < rlen (recipVec Rl g).
Proof.
  intros D S G. destruct (not_in_box _ _ G) as (k & K & HG). exists k. split; [exact K|]. apply recip_reach; auto.
  unfold NrecipP in HG. cbn [v0 v1 v2 fst snd] in HG. destruct k as [|[|[|k]]]; [| | |lia]; exact HG.
Qed.
Definition planar (i : nat) (g : V3) : Prop := (match i with O => v0 g | 1%nat => v1 g | _ => v2 g end) = 0%Z.
Lemma slab_real_reach Rl sigma i n p pos hp c1 c2 g : rdet Rl <> 0 -> 0 < sigma -> (forall c, (c < n)%nat -> homeSlab i p (pos c) (hp c)) -> (c1 < n)%nat -> (c2 < n)%nat -> planar i g -> ~ In g (boxLoop (NrealS Rl sigma i)) ->
  exists k, (k < 3)%nat /\ k <> i /\ nSigmasPerWidth * sigma + 2 * PI / rowLen Rl k < distance Rl hp c1 c2 g.
Proof.
  intros D S H L1 L2 Pl G. destruct (not_in_box _ _ G) as (k & K & HG). exists k. unfold NrealS in HG. unfold planar in Pl. cbn [v0 v1 v2 fst snd] in HG.
  assert (N : k <> i). { intros ->. destruct i as [|[|[|i]]]; [| | |lia]; cbn [Nat.eqb] in HG; rewrite Pl in HG; cbn in HG; lia. }
  split; [exact K|]. split; [exact N|]. apply real_reach; auto.
  - apply Nat.eqb_neq in N. destruct k as [|[|[|k]]]; [| | |lia]; rewrite N in HG; exact HG.
  - apply (homeSlab_diff i p (pos c1) (pos c2)); auto.
Qed.
Lemma slab_recip_reach Rl sigma i g : rdet Rl <> 0 -> 0 < sigma -> planar i g -> ~ In g (boxLoop (NrecipS Rl sigma i)) ->
  exists k, (k < 3)%nat /\ k <> i /\ nSigmasPerWidth / sigma + 2 * PI / colLen Rl k < rlen (recipVec Rl g).
Proof.
  intros D S Pl G. destruct (not_in_box _ _ G) as (k & K & HG). exists k. unfold NrecipS in HG. unfold planar in Pl. cbn [v0 v1 v2 fst snd] in HG.
  assert (N : k <> i). { intros ->. destruct i as [|[|[|i]]]; [| | |lia]; cbn [Nat.eqb] in HG; rewrite Pl in HG; cbn in HG; lia. }
  split; [exact K|]. split; [exact N|]. apply recip_reach; auto.
  apply Nat.eqb_neq in N. destruct k as [|[|[|k]]]; [| | |lia]; rewrite N in HG; exact HG.
Qed.
Lemma recip_small sigma x : 0 < sigma -> nSigmasPerWidth / sigma < x -> exp (- (sigma * x) ^ 2 / 2) < / 2 ^ 59.
Proof.
  intros S H. replace (- (sigma * x) ^ 2 / 2) with (- (sigma * x * (sigma * x)) / 2) by field. apply gauss_small. apply (Rmult_lt_compat_l sigma) in H; [|exact S]. replace (sigma * (nSigmasPerWidth / sigma)) with nSigmasPerWidth in H by (field; lra). exact H.
Qed.
(** ** Skipped sheets *)
Lemma sheet_even sigma G z : 0 < sigma -> sheet sigma G (- z) = sheet sigma G z.
Proof.
  intros S. unfold sheet. assert (S2 : 0 < sqrt 2) by (apply sqrt_lt_R0; lra). destruct (Req_EM_T G 0).
  - replace (- z / (sqrt 2 * sigma)) with (- (z / (sqrt 2 * sigma))) by (field; lra). rewrite erf_odd. replace (- (- z / sigma) ^ 2 / 2) with (- (z / sigma) ^ 2 / 2) by (field; lra). ring.
  - replace (- z / (sqrt 2 * sigma)) with (- (z / (sqrt 2 * sigma))) by (field; lra). f_equal. rewrite Rplus_comm. replace (G * - z) with (- G * z) by ring. replace (- G * - z) with (G * z) by ring.
    replace (sigma * G / sqrt 2 - - (z / (sqrt 2 * sigma))) with (sigma * G / sqrt 2 + z / (sqrt 2 * sigma)) by ring. replace (sigma * G / sqrt 2 + - (z / (sqrt 2 * sigma))) with (sigma * G / sqrt 2 - z / (sqrt 2 * sigma)) by ring. ring.
Qed.
Lemma sheet_small_pos sigma G z : 0 < sigma -> 0 < G -> 100 < G * z -> Rabs (sheet sigma G z) <= 2 * exp (- (100)) / G.
Proof.
  intros S HG Hz. assert (S2 : 0 < sqrt 2) by (apply sqrt_lt_R0; lra). assert (SS : sqrt 2 * sqrt 2 = 2) by (apply sqrt_sqrt; lra).
  assert (Zp : 0 < z) by nra. unfold sheet. destruct (Req_EM_T G 0); [lra|].
  set (a := sigma * G / sqrt 2). set (b := z / (sqrt 2 * sigma)). assert (Ab : 2 * (a * b) = G * z) by (unfold a, b; transitivity (2 * (G * z) / (sqrt 2 * sqrt 2)); [field; lra|rewrite SS; field]).
  assert (Ap : 0 < a) by (unfold a; apply Rdiv_lt_0_compat; nra). assert (Bp : 0 < b) by (unfold b; apply Rdiv_lt_0_compat; nra).
  assert (E1 := erfc_le (a + b) ltac:(lra)). assert (B1 := erfc_bounds (a + b)). assert (B2 := erfc_bounds (a - b)). assert (P3 : 2 < PI) by (assert (H3 := PI2_3_2); lra).
  assert (X : exp (- G * z) < exp (- (100))) by (apply exp_increasing; lra). assert (Xp := exp_pos (- G * z)). assert (Yp := exp_pos (G * z)).
  assert (T1 : exp (G * z) * erfc (a + b) <= 2 * exp (- G * z)).
  { apply Rle_trans with (exp (G * z) * (4 / PI * gauss (a + b))); [apply Rmult_le_compat_l; lra|]. unfold gauss.
    replace (exp (G * z) * (4 / PI * exp (- ((a + b) * (a + b))))) with (4 / PI * exp (G * z + - ((a + b) * (a + b)))) by (rewrite exp_plus; ring).
    assert (Q : exp (G * z + - ((a + b) * (a + b))) <= exp (- G * z)).
    { destruct (Req_dec (G * z + - ((a + b) * (a + b))) (- G * z)) as [->|Ne]; [lra|]. left. apply exp_increasing. assert (0 <= (a - b) * (a - b)) by apply Rle_0_sqr. nra. }
    apply Rle_trans with (2 * exp (G * z + - ((a + b) * (a + b)))); [|lra]. apply Rmult_le_compat_r; [left; apply exp_pos|]. apply (Rmult_le_reg_r PI); [lra|]. unfold Rdiv. rewrite Rmult_assoc, Rinv_l by lra. lra. }
  assert (T2 : exp (- G * z) * erfc (a - b) <= 2 * exp (- G * z)) by nra. assert (N1 : 0 <= exp (G * z) * erfc (a + b)) by nra. assert (N2 : 0 <= exp (- G * z) * erfc (a - b)) by nra.
  rewrite Rabs_right.
  - apply (Rmult_le_reg_r (2 * G)); [lra|]. unfold Rdiv. rewrite Rmult_assoc, Rinv_l by lra. replace (2 * exp (- (100)) * / G * (2 * G)) with (4 * exp (- (100))) by (field; lra). lra.
  - apply Rle_ge. apply Rmult_le_pos; [lra|]. left. apply Rinv_0_lt_compat. lra.
Qed.
Lemma sheet_small sigma G z : 0 < sigma -> 0 < G -> 100 < G * Rabs z -> Rabs (sheet sigma G z) <= 2 * exp (- (100)) / G.
Proof.
  intros S HG H. unfold Rabs in H at 1. destruct (Rcase_abs z).
  - rewrite <- sheet_even by exact S. apply sheet_small_pos; auto.
  - apply sheet_small_pos; auto.
Qed.

(** ** In terms of the specification *)
Lemma nSig_widths : nSigmasPerWidth = widths.
Proof. unfold nSigmasPerWidth, widths. f_equal. f_equal. rewrite ln_Rinv by (apply pow_lt; lra). rewrite ln_pow by lra. replace (INR 52) with 52 by (rewrite INR_IZR_INZ; reflexivity). ring. Qed.
Lemma rowLen_spacing Rl k : rdet Rl <> 0 -> (k < 3)%nat -> 2 * PI / rowLen Rl k = planeSpacing Rl k.
Proof.
  intros D K. assert (P := rowLen_pos Rl k D K). assert (P1 := PI_RGT_0). assert (E : rowLen Rl k = 2 * PI * rlen (mrow (rinv Rl) k)).
  { unfold rowLen, gG. replace (mrow (rmscale (2 * PI) (rinv Rl)) k) with (rvscale (2 * PI) (mrow (rinv Rl) k)).
    - unfold rlen. replace (rlen2 (rvscale (2 * PI) (mrow (rinv Rl) k))) with ((2 * PI) ^ 2 * rlen2 (mrow (rinv Rl) k)) by (generalize (mrow (rinv Rl) k); intros u; destruct u; v3u; ring). rewrite sqrt_mult_alt by nra. rewrite sqrt_pow2 by lra. reflexivity.
    - generalize (rinv Rl). intros m. destruct m. destruct k as [|[|[|k]]]; [| | |lia]; reflexivity. }
  unfold planeSpacing. rewrite E in P |- *. assert (rlen (mrow (rinv Rl) k) <> 0) by (intros H; rewrite H in P; lra). field. split; [assumption|lra].
Qed.
Lemma planar_in i g : inPlane i g -> planar i g. Proof. destruct g as [[x y] z]. destruct i as [|[|i]]; exact (fun H => H). Qed.
Lemma colLen_lattice Rl k : colLen Rl k = rlen (latticeVec Rl k).
Proof. unfold colLen. destruct Rl. destruct k as [|[|k]]; reflexivity. Qed.
