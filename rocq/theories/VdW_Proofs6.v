(** The half-space loops with their weights and the division over processes add up to sums over all images. *)
From Coq Require Import ZArith Reals List Bool Lia Lra Psatz Permutation.
From Verif Require Import Base WorkDiv_Model WorkDiv_Spec WorkDiv_Proofs WorkDiv_Proofs2 Grid_Model Grid_Spec Grid_Proofs Vec3_Model Vec3_Facts Lattice_Model RealUtil Coulomb_Model Coulomb_Proofs Coulomb_Proofs3 WS_Model WS_Proofs3 Ions_Model CellMap_Spec CellMap_Proofs VdW_Model VdW_Spec VdW_Proofs VdW_Proofs2 VdW_Proofs3 VdW_Proofs4.
Import ListNotations.
Local Open Scope R_scope.
Set Bullet Behavior "Strict Subproofs".

(** ** The cells of all processes *)
Lemma nG_pos S : pos3 S -> (0 < nG S)%Z.
Proof. destruct S as [[a b] c]. unfold pos3, nG, Grid_Model.v0, Grid_Model.v1, Grid_Model.v2. cbn [fst snd]. intros (A & B & C). assert (0 <= c / 2)%Z by (apply Z.div_pos; lia). nia. Qed.
Lemma td_bounds nT nP p : (0 <= nT -> 0 < nP -> 0 <= p < nP -> 0 <= td_start (stopArr nT nP) p <= td_stop (stopArr nT nP) p /\ td_stop (stopArr nT nP) p <= nT)%Z.
Proof. intros A B C. destruct (td_balanced_partition nT nP A B) as [H _ _ _]. apply H; auto. Qed.
Lemma allProcs_lists S nProcs fuel ps : pos3 S -> (0 < nProcs)%Z -> (nG S < Z.of_nat fuel)%Z -> Forall (fun p => 0 <= p < nProcs)%Z ps ->
  exists ls Ls, allProcs S nProcs fuel ps = Some ls /\ ls = map (map snd) Ls /\
    map fst (concat Ls) = concat (map (fun p => zrange (td_start (stopArr (nG S) nProcs) p) (td_stop (stopArr (nG S) nProcs) p)) ps) /\
    Forall (fun ig => halfG_point S (snd ig) /\ row_major S (Grid_Model.v2 S / 2 + 1) (snd ig) = fst ig) (concat Ls).
Proof.
  intros P Np F. assert (G := nG_pos S P). induction ps as [|p ps IH]; intros A.
  - exists [], []. cbn. auto.
  - inversion A as [|? ? Hp Hps]. subst. destruct (IH Hps) as (ls & Ls & E & M & V1 & V2).
    destruct (td_bounds (nG S) nProcs p ltac:(lia) Np Hp) as [B1 B2].
    destruct (halfG_visits S (td_start (stopArr (nG S) nProcs) p) (td_stop (stopArr (nG S) nProcs) p) fuel P ltac:(lia) B2 ltac:(lia) ltac:(lia)) as (L & EL & VL1 & VL2).
    exists (map snd L :: ls), (L :: Ls). cbn [allProcs map concat]. unfold procCells. rewrite EL, E. cbn [option_map]. repeat split.
    + rewrite M. reflexivity.
    + rewrite map_app. exact (f_equal2 (@app Z) VL1 V1).
    + apply Forall_app. split; auto.
Qed.
Lemma allProcs_cells S nProcs fuel : pos3 S -> (0 < nProcs)%Z -> (nG S < Z.of_nat fuel)%Z ->
  exists ls, allProcs S nProcs fuel (zrange 0 nProcs) = Some ls /\ NoDup (concat ls) /\ forall g, In g (concat ls) <-> halfG_point S g.
Proof.
  intros P Np F. assert (G := nG_pos S P).
  destruct (allProcs_lists S nProcs fuel (zrange 0 nProcs) P Np F) as (ls & Ls & E & M & V1 & V2).
  { apply Forall_forall. intros p I. apply in_zrange in I. lia. }
  rewrite td_partition in V1 by lia. exists ls. split; [exact E|].
  assert (C : concat ls = map snd (concat Ls)) by (rewrite M, concat_map; reflexivity). rewrite C.
  rewrite Forall_forall in V2.
  assert (X : map (row_major S (Grid_Model.v2 S / 2 + 1)) (map snd (concat Ls)) = zrange 0 (nG S)).
  { rewrite <- V1, map_map. apply map_ext_in. intros ig I. apply V2; auto. }
  split.
  - apply (NoDup_map_inv (row_major S (Grid_Model.v2 S / 2 + 1))). rewrite X. apply zrange_NoDup.
  - intros g. split; intros H.
    + apply in_map_iff in H. destruct H as (ig & <- & I). apply V2; auto.
    + assert (R := half_row_range S g P H). assert (I : In (row_major S (Grid_Model.v2 S / 2 + 1) g) (zrange 0 (nG S))) by (apply in_zrange; lia).
      rewrite <- X in I. apply in_map_iff in I. destruct I as (g' & Eg & I'). assert (H' : halfG_point S g') by (apply in_map_iff in I'; destruct I' as (ig & <- & I''); apply V2; auto).
      rewrite <- (half_row_inj S g' g P H' H Eg). exact I'.
Qed.

(** ** Half space with weights against the whole box *)
Lemma neg3_inv g : neg3 (neg3 g) = g. Proof. destruct g as [[x y] z]. unfold neg3. rewrite !Z.opp_involutive. reflexivity. Qed.
Lemma NoDup_map_inj {A B} (f : A -> B) l : (forall x y, f x = f y -> x = y) -> NoDup l -> NoDup (map f l).
Proof.
  intros I. induction 1 as [|x l H N IH]; cbn; constructor; auto. intros C. apply in_map_iff in C. destruct C as (y & E & Iy). apply I in E. subst. contradiction.
Qed.
Lemma NoDup_app3 {A} (a b : list A) : NoDup a -> NoDup b -> (forall x, In x a -> In x b -> False) -> NoDup (a ++ b).
Proof.
  induction a as [|x a IH]; cbn; intros Na Nb H; [exact Nb|]. inversion Na; subst. constructor; [rewrite in_app_iff; intros [C|C]; [contradiction|apply (H x); auto]|].
  apply IH; auto. intros y I1 I2. apply (H y); auto.
Qed.
Section Box.
  Variables (S : Z*Z*Z) (H B : list (Z*Z*Z)).
  Hypothesis Odd : let '(a, b, c) := S in (a mod 2 = 1 /\ b mod 2 = 1 /\ c mod 2 = 1)%Z.
  Hypothesis NH : NoDup H.
  Hypothesis MH : forall g, In g H <-> halfG_point S g.
  Hypothesis WB : whole_box S B.
  Let up := filter (fun g : Z*Z*Z => negb (v2 g =? 0)%Z) H.
  Let flat := filter (fun g : Z*Z*Z => (v2 g =? 0)%Z) H.
  Lemma in_flat g : In g flat <-> In g H /\ v2 g = 0%Z.
  Proof. unfold flat. rewrite filter_In, Z.eqb_eq. reflexivity. Qed.
  Lemma in_up g : In g up <-> In g H /\ v2 g <> 0%Z.
  Proof. unfold up. rewrite filter_In, negb_true_iff, Z.eqb_neq. reflexivity. Qed.
  Lemma in_neg g l : In g (map neg3 l) <-> In (neg3 g) l.
  Proof. rewrite in_map_iff. split; [intros (x & <- & I); rewrite neg3_inv; auto|intros I; exists (neg3 g); rewrite neg3_inv; auto]. Qed.
  Lemma neg3_inj x y : neg3 x = neg3 y -> x = y. Proof. intros E. rewrite <- (neg3_inv x), E. apply neg3_inv. Qed.
  Lemma flat_neg : Permutation (map neg3 flat) flat.
  Proof.
    apply NoDup_Permutation; [apply NoDup_map_inj; [apply neg3_inj|apply NoDup_filter; auto]|apply NoDup_filter; auto|].
    intros g. rewrite in_neg, !in_flat, !MH. destruct S as [[a b] c], g as [[x y] z]. unfold neg3, halfG_point, Grid_Model.v2. cbn [fst snd]. lia.
  Qed.
  Lemma box_perm : Permutation B (up ++ flat ++ map neg3 up).
  Proof.
    destruct WB as [NB MB]. apply NoDup_Permutation; [exact NB| |].
    - apply NoDup_app3; [apply NoDup_filter; auto| |].
      + apply NoDup_app3; [apply NoDup_filter; auto|apply NoDup_map_inj; [apply neg3_inj|apply NoDup_filter; auto]|].
        intros g. rewrite in_neg, in_flat, in_up. destruct g as [[x y] z]. unfold neg3, Grid_Model.v2. cbn [fst snd]. lia.
      + intros g. rewrite in_app_iff, in_neg, in_flat, !in_up, !MH. destruct S as [[a b] c], g as [[x y] z]. unfold neg3, halfG_point, Grid_Model.v2. cbn [fst snd]. lia.
    - intros [[x y] z]. rewrite MB, !in_app_iff, in_neg, in_flat, !in_up, !MH. destruct S as [[a b] c]. unfold neg3, halfG_point, Grid_Model.v2. cbn [fst snd]. lia.
  Qed.
  Lemma box_sum (F : Z*Z*Z -> R) : rsum (fun g => cellWeight g * (F g + F (neg3 g))) H = rsum F B.
  Proof.
    rewrite (rsum_perm F _ _ box_perm), !rsum_app, rsum_map.
    assert (P : forall K, rsum K H = rsum K up + rsum K flat).
    { intros K. unfold up, flat. rewrite !rsum_filter, <- rsum_add. apply rsum_ext. intros g _. destruct (v2 g =? 0)%Z; cbn [negb]; ring. }
    rewrite P. assert (E1 : rsum (fun g => cellWeight g * (F g + F (neg3 g))) up = rsum F up + rsum (fun g => F (neg3 g)) up).
    { rewrite <- rsum_add. apply rsum_ext. intros g I. apply in_up in I. unfold cellWeight. destruct (Z.eqb_spec (v2 g) 0); [tauto|ring]. }
    assert (E2 : rsum (fun g => cellWeight g * (F g + F (neg3 g))) flat = 1/2 * (rsum F flat + rsum (fun g => F (neg3 g)) flat)).
    { rewrite <- rsum_add, <- rsum_scale. apply rsum_ext. intros g I. apply in_flat in I. unfold cellWeight. destruct (Z.eqb_spec (v2 g) 0); [ring|tauto]. }
    assert (E3 : rsum (fun g => F (neg3 g)) flat = rsum F flat) by (rewrite <- rsum_map; apply rsum_perm, flat_neg).
    refine (eq_trans (f_equal2 Rplus E1 E2) _). rewrite E3. lra.
  Qed.
  Lemma pair_box n (F : nat -> nat -> Z*Z*Z -> R) : (forall c1 c2 g, F c2 c1 g = F c1 c2 (neg3 g)) ->
    sum2 n (fun c1 c2 => rsum (fun g => cellWeight g * F c1 c2 g) H) = 1/2 * sum2 n (fun c1 c2 => rsum (F c1 c2) B).
  Proof.
    intros Sy. assert (D : 2 * sum2 n (fun c1 c2 => rsum (fun g => cellWeight g * F c1 c2 g) H) = sum2 n (fun c1 c2 => rsum (F c1 c2) B)).
    { replace (2 * sum2 n (fun c1 c2 => rsum (fun g => cellWeight g * F c1 c2 g) H)) with (sum2 n (fun c1 c2 => rsum (fun g => cellWeight g * F c1 c2 g) H) + sum2 n (fun c1 c2 => rsum (fun g => cellWeight g * F c1 c2 g) H)) by ring.
      rewrite (sum2_swap n (fun c1 c2 => rsum (fun g => cellWeight g * F c1 c2 g) H)) at 2. rewrite <- sum2_add. apply sum2_ext. intros c1 c2 _ _. rewrite <- rsum_add, <- box_sum.
      apply rsum_ext. intros g _. rewrite (Sy c1 c2 g). ring. }
    lra.
  Qed.
End Box.
Lemma distance_swap Rl pos c1 c2 g : distance Rl pos c2 c1 g = distance Rl pos c1 c2 (neg3 g).
Proof.
  destruct g as [[x y] z]. unfold distance, neg3, rlen. rewrite !opp_IZR. f_equal. generalize (pos c1) (pos c2) (IZR x) (IZR y) (IZR z). intros p q a b c. destruct p, q, Rl. v3u. ring.
Qed.
Lemma sampling_odd Rl tr rCut : 0 < rCut -> (forall k, (k < 3)%nat -> rlen (mrow (mtrans Rl) k) <> 0) ->
  pos3 (sampling Rl tr rCut) /\ let '(a, b, c) := sampling Rl tr rCut in (a mod 2 = 1 /\ b mod 2 = 1 /\ c mod 2 = 1)%Z.
Proof.
  intros P L. assert (G : forall k, (k < 3)%nat -> (0 < nSample Rl tr rCut k)%Z /\ (nSample Rl tr rCut k mod 2 = 1)%Z).
  { intros k K. unfold nSample. assert (N : (0 <= if tr k then 0 else rceil (rCut / rlen (mrow (mtrans Rl) k)))%Z).
    { destruct (tr k); [lia|]. assert (Q : 0 < rlen (mrow (mtrans Rl) k)) by (assert (0 <= rlen (mrow (mtrans Rl) k)) by apply sqrt_pos; assert (D := L k K); lra).
      assert (U := rceil_ge (rCut / rlen (mrow (mtrans Rl) k))). assert (0 < rCut / rlen (mrow (mtrans Rl) k)) by (apply Rdiv_lt_0_compat; lra).
      assert (0 < IZR (rceil (rCut / rlen (mrow (mtrans Rl) k)))) by lra. apply lt_IZR in H0. lia. }
    set (m := if tr k then 0%Z else _) in *. lia. }
  unfold sampling. destruct (G 0%nat ltac:(lia)), (G 1%nat ltac:(lia)), (G 2%nat ltac:(lia)). cbn. auto.
Qed.
