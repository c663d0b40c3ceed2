(** Reversal of the displacements, examples, and the limit of the equivalence test. *)
From Coq Require Import ZArith Reals List Bool Lia Lra Psatz Permutation Sorted Classical.
From Verif Require Import Base Vec3_Model Vec3_Facts Lattice_Model RealUtil Coulomb_Model Coulomb_Proofs WS_Model WS_Spec WS_Proofs WS_Proofs2 WS_Proofs3 CellMap_Model CellMap_Spec CellMap_Proofs CellMap_Proofs2 CellMap_Proofs3 CellMap_Proofs4.
Import ListNotations.
Local Open Scope R_scope.
#[local] Opaque rsum.

Lemma neigh_min l dr : (l = [] /\ drSqNeigh l dr = None) \/ exists d, drSqNeigh l dr = Some d /\ (exists n, In n l /\ d = rlen2 (rvsub dr n)) /\ forall n, In n l -> d <= rlen2 (rvsub dr n).
Proof.
  destruct l as [|a l]; [left; auto|]. right.
  assert (G : forall l m, exists d, fold_left (fun m rSup => let d := rlen2 (rvsub dr rSup) in Some (match m with None => d | Some m => Rmin m d end)) l (Some m) = Some d /\ d <= m /\
    forall n, In n l -> d <= rlen2 (rvsub dr n)).
  { induction l0 as [|b l0 IH]; intros q; cbn [fold_left]; [exists q; split; [auto|split; [lra|intros n []]]|]. destruct (IH (Rmin q (rlen2 (rvsub dr b)))) as (d & Ed & Ld & Md). exists d. split; [exact Ed|].
    assert (U := Rmin_l q (rlen2 (rvsub dr b))). assert (V := Rmin_r q (rlen2 (rvsub dr b))). split; [lra|]. intros n [<-|I]; [lra|auto]. }
  destruct (G l (rlen2 (rvsub dr a))) as (d & Ed & Ld & Md). exists d. assert (E : drSqNeigh (a :: l) dr = Some d) by exact Ed. split; [exact E|]. split; [apply neigh_some; exact E|].
  intros n [<-|I]; auto.
Qed.
Lemma neigh_opp Rs l dr : (forall n, In n l -> In (zvopp n) l) -> drSqNeigh (rSupNeigh Rs l) (rvopp dr) = drSqNeigh (rSupNeigh Rs l) dr.
Proof.
  intros C. set (L := rSupNeigh Rs l). assert (CL : forall v, In v L -> In (rvopp v) L).
  { intros v I. unfold L, rSupNeigh in *. apply in_map_iff in I. destruct I as (n & <- & I). apply in_map_iff. exists (zvopp n). split; [|auto]. destruct Rs, n as [a b c]. unfold zvopp, gvopp, vIZR, vmap. cbn [c0 c1 c2]. rewrite !opp_IZR. v3u. f_equal; ring. }
  assert (Q : forall v, rlen2 (rvsub (rvopp dr) (rvopp v)) = rlen2 (rvsub dr v)). { intros [a b c]. destruct dr as [d e f]. v3u. ring. }
  assert (Q' : forall v, rlen2 (rvsub dr (rvopp v)) = rlen2 (rvsub (rvopp dr) v)). { intros [a b c]. destruct dr as [d e f]. v3u. ring. }
  destruct (neigh_min L dr) as [[E N]|(d & N & (n & I & E) & M)], (neigh_min L (rvopp dr)) as [[E' N']|(d' & N' & (n' & I' & E') & M')]; rewrite N, N'; auto.
  { rewrite E in I'. destruct I'. } { rewrite E' in I. destruct I. }
  f_equal. apply Rle_antisym. { rewrite E, <- Q. apply M'. auto. } { rewrite E', <- Q'. apply M. auto. }
Qed.
Lemma d12_le Rl tr x1 x2 B : 0 <= B -> (forall a b, In a x1 -> In b x2 -> cart2 Rl (proj tr (rvsub a b)) <= B) -> d12sqMax Rl tr x1 x2 <= B.
Proof.
  intros P H. unfold d12sqMax. revert H. assert (G : forall l m, (forall a b, In a l -> In b x2 -> cart2 Rl (proj tr (rvsub a b)) <= B) -> m <= B ->
    fold_left (fun m a => fold_left (fun m b => Rmax m (rlen2 (rmv Rl (proj tr (rvsub a b))))) x2 m) l m <= B).
  { assert (G1 : forall a l m, (forall b, In b l -> cart2 Rl (proj tr (rvsub a b)) <= B) -> m <= B -> fold_left (fun m b => Rmax m (rlen2 (rmv Rl (proj tr (rvsub a b))))) l m <= B).
    { intros a. induction l as [|c l IH]; intros m H L; cbn [fold_left]; [auto|]. apply IH; [intros b I; apply H; right; auto|]. apply Rmax_lub; [auto|]. apply H. left; auto. }
    induction l as [|c l IH]; intros m H L; cbn [fold_left]; [auto|]. apply IH; [intros a b I J; apply H; [right|]; auto|]. apply G1; [|auto]. intros b I. apply H; [left; auto|auto]. }
  intros H. apply G; auto.
Qed.
Lemma d12_sym Rl tr x1 x2 : d12sqMax Rl tr x1 x2 = d12sqMax Rl tr x2 x1.
Proof.
  assert (G : forall x1 x2, d12sqMax Rl tr x1 x2 <= d12sqMax Rl tr x2 x1).
  { intros y1 y2. apply d12_le; [apply d12_pos|]. intros a b I J. replace (cart2 Rl (proj tr (rvsub a b))) with (cart2 Rl (proj tr (rvsub b a))); [apply d12_ge; auto|].
    rewrite <- cart_opp. f_equal. destruct a as [a0 a1 a2], b as [b0 b1 b2]. unfold proj. v3u. destruct (tr 0%nat), (tr 1%nat), (tr 2%nat); f_equal; ring. }
  apply Rle_antisym; apply G.
Qed.
Lemma box_sym Rl tr x1 x2 rc : boxCells Rl tr x1 x2 rc = boxCells Rl tr x2 x1 rc.
Proof. unfold boxCells, Rmax_of. rewrite d12_sym. reflexivity. Qed.
Lemma opp_opp (c : vec Z) : zvopp (zvopp c) = c.
Proof. destruct c as [a b c]. unfold zvopp, gvopp, vmap. cbn [c0 c1 c2]. f_equal; apply Z.opp_involutive. Qed.
Lemma box_opp Rl tr x1 x2 rc c : In c (boxCells Rl tr x1 x2 rc) -> In (zvopp c) (boxCells Rl tr x1 x2 rc).
Proof. rewrite !box_iff. intros H k K. specialize (H k K). destruct c as [a b c], k as [|[|[|k]]]; cbn in *; lia. Qed.
Lemma box_perm Rl tr x1 x2 rc : Permutation (map zvopp (boxCells Rl tr x1 x2 rc)) (boxCells Rl tr x1 x2 rc).
Proof.
  apply NoDup_Permutation; [|apply box_nodup|].
  { apply FinFun.Injective_map_NoDup; [|apply box_nodup]. intros a b H. rewrite <- (opp_opp a), <- (opp_opp b), H. reflexivity. }
  intros c. rewrite in_map_iff. split. { intros (b & <- & I). apply box_opp; auto. } { intros I. exists (zvopp c). split; [apply opp_opp|apply box_opp; auto]. }
Qed.
Lemma dr_opp Rl tr x1 x2 c i j : drOf Rl tr x2 x1 (zvopp c) j i = rvopp (drOf Rl tr x1 x2 c i j).
Proof.
  unfold drOf. replace (proj tr (rvsub (rvadd (vIZR (zvopp c)) (nth i x1 (V 0 0 0))) (nth j x2 (V 0 0 0)))) with (rvopp (proj tr (rvsub (rvadd (vIZR c) (nth j x2 (V 0 0 0))) (nth i x1 (V 0 0 0))))).
  { generalize (proj tr (rvsub (rvadd (vIZR c) (nth j x2 (V 0 0 0))) (nth i x1 (V 0 0 0)))). intros [a b d]. destruct Rl. v3u. f_equal; ring. }
  generalize (nth i x1 (V 0 0 0)) (nth j x2 (V 0 0 0)). intros [a0 a1 a2] [b0 b1 b2]. destruct c as [a b c]. unfold proj, zvopp, gvopp, vIZR, vmap. cbn [c0 c1 c2]. rewrite !opp_IZR. v3u.
  destruct (tr 0%nat), (tr 1%nat), (tr 2%nat); f_equal; ring.
Qed.
Lemma wt_opp Rl Rs tr x1 x2 rSmooth neigh c i j : (forall n, In n neigh -> In (zvopp n) neigh) ->
  weightOf Rl Rs tr x2 x1 rSmooth neigh (zvopp c) j i = weightOf Rl Rs tr x1 x2 rSmooth neigh c i j.
Proof.
  intros C. unfold weightOf. rewrite dr_opp. unfold tOf. rewrite neigh_opp by auto. replace (rlen2 (rvopp (drOf Rl tr x1 x2 c i j))) with (rlen2 (drOf Rl tr x1 x2 c i j)); [reflexivity|].
  generalize (drOf Rl tr x1 x2 c i j). intros [a b d]. v3u. ring.
Qed.
Lemma same_opp super a b : same_cell super a b -> same_cell super (zvopp a) (zvopp b).
Proof. intros (n & ->). exists (zvopp n). destruct a as [a0 a1 a2], super as [s00 s01 s02 s10 s11 s12 s20 s21 s22], n as [n0 n1 n2]. unfold zvadd, zvopp, zmv, gvadd, gvopp, gmv, gdot, vmap, row0, row1, row2. cbn [c0 c1 c2 m00 m01 m02 m10 m11 m12 m20 m21 m22]. f_equal; ring. Qed.

Lemma reversal Rl super tr x1 x2 rSmooth thr rc neigh : rdet Rl <> 0 -> zdet super <> 0%Z -> truncation_orthogonal Rl tr -> truncation_diagonal super tr ->
  contains_cell (rmm Rl (mIZR super)) rc -> 0 < rSmooth -> 0 < thr -> thr < 1 / 2 -> thr * Rabs (IZR (zdet super)) <= 1 -> (forall n, In n neigh -> In (zvopp n) neigh) ->
  forall m m', getCellMap Rl (rmm Rl (mIZR super)) tr x1 x2 rSmooth thr rc neigh = Some m -> getCellMap Rl (rmm Rl (mIZR super)) tr x2 x1 rSmooth thr rc neigh = Some m' ->
  forall e, In e m -> exists e', In e' m' /\ fst e' = zvopp (fst e) /\ forall i j, (i < length x1)%nat -> (j < length x2)%nat -> snd e' j i = snd e i j.
Proof.
  intros DR DS TO TD CC SM TP TS TB SN m m' E E' e I. set (Rs := rmm Rl (mIZR super)) in *.
  destruct (map_form Rl super tr x1 x2 rSmooth thr rc neigh DR DS TO TD CC SM TP TS TB) as (m1 & E1 & P1 & F1 & _). fold Rs in E1. rewrite E in E1. injection E1 as <-.
  destruct (map_form Rl super tr x2 x1 rSmooth thr rc neigh DR DS TO TD CC SM TP TS TB) as (m2 & E2 & P2 & F2 & _). fold Rs in E2. rewrite E' in E2. injection E2 as <-.
  destruct (F1 e I) as (B & N & W). fold Rs in N.
  assert (N' : rawEntry Rl Rs tr x2 x1 rSmooth neigh (zvopp (fst e)) <> None).
  { revert N. unfold rawEntry. destruct (existsb _ (pairs (length x1) (length x2))) eqn:X; [|congruence]. intros _. apply existsb_exists in X. destruct X as ([i j] & Ip & X). apply pairs_in in Ip. cbn [fst snd] in X.
    replace (existsb _ (pairs (length x2) (length x1))) with true; [discriminate|]. symmetry. apply existsb_exists. exists (j, i). split; [apply pairs_in; tauto|]. cbn [fst snd]. rewrite wt_opp by auto. exact X. }
  assert (K : In (zvopp (fst e)) (map fst (rawMap Rl Rs tr x2 x1 rSmooth rc neigh))).
  { destruct (rawEntry Rl Rs tr x2 x1 rSmooth neigh (zvopp (fst e))) as [e'|] eqn:Y; [|congruence]. assert (Z := Y). apply rawE_some in Z. apply in_map_iff. exists e'. split; [subst e'; reflexivity|].
    apply (raw_box Rl super tr x2 x1 rSmooth rc neigh (zvopp (fst e))); [|exact Y]. rewrite box_sym. apply box_opp. auto. }
  apply (Permutation_in _ (Permutation_sym P2)) in K. apply in_map_iff in K. destruct K as (e' & Fe & Ie). exists e'. split; [auto|]. split; [auto|]. intros i j Hi Hj.
  destruct (F2 e' Ie) as (_ & _ & W'). rewrite W, W', Fe by auto. assert (RW : forall c, rw Rl super tr x2 x1 rSmooth neigh (zvopp c) j i = rw Rl super tr x1 x2 rSmooth neigh c i j).
  { intros c. unfold rw. fold Rs. rewrite wt_opp by auto. reflexivity. }
  rewrite RW. f_equal. unfold csum. rewrite box_sym. rewrite <- (rsum_perm _ _ _ (box_perm Rl tr x1 x2 rc)), rsum_map. apply rsum_ext. intros b _. rewrite RW.
  replace (equivCell Rl (rmm Rl (mIZR super)) thr (zvopp (fst e)) (zvopp b)) with (equivCell Rl (rmm Rl (mIZR super)) thr (fst e) b); [reflexivity|].
  assert (Q := fun a b => eqv_iff Rl super thr DR DS TP TB a b).
  destruct (equivCell Rl (rmm Rl (mIZR super)) thr (fst e) b) eqn:A, (equivCell Rl (rmm Rl (mIZR super)) thr (zvopp (fst e)) (zvopp b)) eqn:A'; auto.
  { apply Q, same_opp, Q in A. congruence. } { apply Q, same_opp in A'. rewrite !opp_opp in A'. apply Q in A'. congruence. }
Qed.

(** an example: a slab, doubled along the first direction *)
Definition exSuper : mat Z := (M 2 0 0 0 1 0 0 0 1)%Z.
Definition exTr (k : nat) : bool := Nat.eqb k 2.
Lemma ex_contains : contains_cell (rmm rid (mIZR exSuper)) 2.
Proof.
  split; [lra|]. intros [a b c] H. assert (H0 := H (V 1 0 0)%Z). assert (H1 := H (V (-1) 0 0)%Z). assert (H2 := H (V 0 1 0)%Z). assert (H3 := H (V 0 (-1) 0)%Z). assert (H4 := H (V 0 0 1)%Z). assert (H5 := H (V 0 0 (-1))%Z). clear H.
  revert H0 H1 H2 H3 H4 H5. unfold closer, cart2, exSuper. v3u. intros.
  assert (A : -(1/2) <= a <= 1/2) by lra. assert (B : -(1/2) <= b <= 1/2) by lra. assert (C : -(1/2) <= c <= 1/2) by lra. clear H0 H1 H2 H3 H4 H5. nra.
Qed.
Lemma ex_orth : truncation_orthogonal rid exTr.
Proof. intros i j I J. destruct i as [|[|[|i]]], j as [|[|[|j]]]; try lia; intros A B; try discriminate; unfold mget, vget, mrow; v3u; ring. Qed.
Lemma ex_diag : truncation_diagonal exSuper exTr.
Proof. intros i j I J. destruct i as [|[|[|i]]], j as [|[|[|j]]]; try lia; intros N; try (exfalso; apply N; reflexivity); reflexivity. Qed.
Lemma ex_reps : representatives exSuper (planar exTr) [V 0 0 0; V 1 0 0]%Z.
Proof.
  split; [|split].
  { intros c [<-|[<-|[]]] k K T; destruct k as [|[|[|k]]]; try discriminate; try reflexivity; lia. }
  { intros [a b c] P. assert (C := P 2%nat ltac:(lia) eq_refl). cbn in C. subst c. exists (V (a mod 2) 0 0)%Z. split.
    { assert (B := Z.mod_pos_bound a 2 ltac:(lia)). cbn. assert (a mod 2 = 0 \/ a mod 2 = 1)%Z as [->| ->] by lia; auto. }
    exists (V (a / 2) b 0)%Z. assert (D := Z.div_mod a 2 ltac:(lia)). unfold exSuper, zvadd, zmv, gvadd, gmv, gdot, row0, row1, row2. cbn [c0 c1 c2 m00 m01 m02 m10 m11 m12 m20 m21 m22]. f_equal; lia. }
  { assert (N : forall n, (2 * n <> 1)%Z) by (intros; lia). intros i j I J (n & E). destruct n as [a b c]. destruct i as [|[|i]], j as [|[|j]]; cbn [length] in *; try lia; exfalso;
    unfold exSuper, zvadd, zmv, gvadd, gmv, gdot, row0, row1, row2 in E; cbn [nth c0 c1 c2 m00 m01 m02 m10 m11 m12 m20 m21 m22] in E; injection E as E0 E1 E2; lia. }
Qed.
Lemma ex_det : rdet rid <> 0 /\ zdet exSuper <> 0%Z /\ 1 / 10000 * Rabs (IZR (zdet exSuper)) <= 1.
Proof.
  replace (zdet exSuper) with 2%Z by reflexivity. split; [|split; [lia|rewrite Rabs_pos_eq; lra]]. v3u. lra.
Qed.
(** supercells of more than 1/symmThreshold cells: neighbouring cells pass the test of equivalence *)
Definition bigSuper : mat Z := (M 20000 0 0 0 1 0 0 0 1)%Z.
Lemma big_confused : equivCell rid (rmm rid (mIZR bigSuper)) (1 / 10000) (V 0 0 0)%Z (V 1 0 0)%Z = true /\ ~ same_cell bigSuper (V 0 0 0)%Z (V 1 0 0)%Z.
Proof.
  split.
  { unfold equivCell. rewrite superInv_eq. 2:{ apply ex_det. } 2:{ cbv. discriminate. }
    rewrite rinv_adj by (cbv; discriminate). replace (rvscale _ _) with (V (1/20000) 0 0).
    2:{ replace (zdet bigSuper) with 20000%Z by reflexivity. replace (zmv _ _) with (V 1 0 0)%Z by reflexivity. v3u. f_equal; lra. }
    unfold roundErr. assert (R1 : rround (1/20000) = 0%Z). { unfold rround. destruct (Rle_dec 0 (1/20000)); [|lra]. apply rfloor_unique. lra. }
    assert (R0 : rround 0 = 0%Z) by apply (rround_IZR 0). destruct (Rlt_dec _ _) as [|N]; [reflexivity|exfalso; apply N]. unfold vmap at 1. cbn [c0 c1 c2]. rewrite R1, R0. replace (rlen _) with (1/20000); [lra|].
    unfold rlen. v3u. symmetry. apply sqrt_lem_1; lra. }
  { intros ([a b c] & E). unfold bigSuper, zvadd, zmv, gvadd, gmv, gdot, row0, row1, row2 in E. cbn [c0 c1 c2 m00 m01 m02 m10 m11 m12 m20 m21 m22] in E. injection E as E0 E1 E2. lia. }
Qed.
