(** Embedding spreads every mesh point evenly over its images. *)
From Coq Require Import ZArith Reals List Bool Lia Lra Psatz Permutation.
From Verif Require Import Base Vec3_Model Vec3_Facts RealUtil Coulomb_Model Coulomb_Proofs WS_Model WS_Spec WS_Proofs WS_Proofs2 WS_Proofs3 IntUtil_Model IntUtil_Proofs CellMap_Model CellMap_Spec CellMap_Proofs CellMap_Proofs2 CellMap_Proofs3 CellMap_Proofs4 Embed_Model Embed_Spec Embed_Proofs Embed_Proofs2.
Import ListNotations.
Local Open Scope R_scope.

Lemma zopp_R n : vIZR (zvopp n) = rvopp (vIZR n).
Proof. destruct n as [a b c]. unfold zvopp, gvopp, vIZR, vmap. cbn [c0 c1 c2]. rewrite !opp_IZR. reflexivity. Qed.
Lemma ip_add_l Rl a b c : ip Rl (rvadd a b) c = ip Rl a c + ip Rl b c.
Proof. unfold ip. rewrite rmv_add. generalize (rmv Rl a) (rmv Rl b) (rmv Rl c). intros [a0 a1 a2] [b0 b1 b2] [d0 d1 d2]. v3u. ring. Qed.
Lemma ip_sub_l Rl a b c : ip Rl (rvsub a b) c = ip Rl a c - ip Rl b c.
Proof. unfold ip. rewrite rmv_sub. generalize (rmv Rl a) (rmv Rl b) (rmv Rl c). intros [a0 a1 a2] [b0 b1 b2] [d0 d1 d2]. v3u. ring. Qed.
Lemma ip_sym Rl a b : ip Rl a b = ip Rl b a.
Proof. unfold ip. generalize (rmv Rl a) (rmv Rl b). intros [a0 a1 a2] [b0 b1 b2]. v3u. ring. Qed.
Lemma ip_add_r Rl a b c : ip Rl c (rvadd a b) = ip Rl c a + ip Rl c b.
Proof. rewrite !(ip_sym Rl c). apply ip_add_l. Qed.
Lemma ip_sub_r Rl a b c : ip Rl c (rvsub a b) = ip Rl c a - ip Rl c b.
Proof. rewrite !(ip_sym Rl c). apply ip_sub_l. Qed.
Lemma cart_ip Rl a : cart2 Rl a = ip Rl a a.
Proof. unfold cart2, ip. generalize (rmv Rl a). intros [a0 a1 a2]. v3u. ring. Qed.
Lemma ip_mul t Rl a b : ip Rl (rvscale t a) b = t * ip Rl a b.
Proof. unfold ip. destruct Rl, a, b. v3u. ring. Qed.
Lemma cell_opp Rl x : in_cell Rl x -> in_cell Rl (rvopp x).
Proof.
  intros C l. assert (A := C (zvopp l)). rewrite closer_iff in *. rewrite zopp_R, ip_opp, cart_opp in A. rewrite ip_sym, ip_opp, ip_sym. exact A.
Qed.
Lemma zsplit (tr : nat -> bool) (l : vec Z) : vIZR l = rvadd (proj tr (vIZR l)) (vIZR (zvsub l (zproj tr l))).
Proof. rewrite <- zproj_R. rewrite vIZR_sub. generalize (vIZR l) (vIZR (zproj tr l)). intros [a b c] [d e f]. v3u. f_equal; ring. Qed.
Lemma trunc_part (tr : nat -> bool) (l : vec Z) : proj tr (vIZR (zvsub l (zproj tr l))) = V 0 0 0.
Proof. rewrite vIZR_sub, proj_sub, zproj_R, proj_idem. generalize (proj tr (vIZR l)). intros [a b c]. v3u. f_equal; ring. Qed.

Section Main.
  Variables (Rl : mat R) (faces : list face) (tr : nat -> bool) (S Se : vec Z).
  Hypothesis DR : rdet Rl <> 0.
  Hypothesis VF : List.Forall (fun f => nonzero (img f) /\ f = bisector Rl (img f)) faces.
  Hypothesis BC : bounds_cell Rl (map img faces).
  Hypothesis PS : posS S.
  Hypothesis DB : doubled tr S Se.
  Hypothesis TO : truncation_orthogonal Rl tr.
  Hypothesis RS : resolved Rl S (map img faces) tol.
  Hypothesis FT : fits16 Rl S.
  Lemma PE : posS Se.
  Proof. exact (PSe tr S Se PS DB). Qed.
  Hint Resolve PE : core.
  Notation image := (image Rl S Se).

  Lemma embed_index i : (0 <= i < points S)%Z -> exists fuel0 p, (forall fuel, (fuel0 <= fuel)%nat -> embedIndexOf fuel faces S Se i = Some p) /\ image i p.
  Proof.
    intros R. destruct (mesh_reduce Rl faces DR VF BC S (ivOf S i) PS) as (n & r & H & C & L). destruct PE as (A0 & A1 & A2).
    exists n, (flatMod Se r). split.
    { intros fuel F. unfold embedIndexOf. rewrite (H fuel F). cbn [option_map]. f_equal. apply lin_flat; apply wrapRem_mod; auto. }
    { exists r. split; [apply (exact_cell Rl faces S BC RS); intros; apply L|]. split; [|reflexivity].
      rewrite <- (ivOf_flat S i PS R) at 1. apply flat_iff; auto. }
  Qed.
  Lemma image_fun i i' p : image i p -> image i' p -> i = i'.
  Proof.
    intros (q & _ & -> & ->) (q' & _ & -> & E). apply flat_iff; [auto|]. apply (congr_coarse tr S Se DB). apply flat_iff; auto.
  Qed.
  Lemma image_range i p : image i p -> (0 <= i < points S)%Z /\ (0 <= p < points Se)%Z.
  Proof. intros (q & _ & -> & ->). split; apply flat_range; auto. Qed.

  Lemma frac_Se r : frac S r = rvadd (proj tr (frac Se r)) (rvscale 2 (rvsub (frac Se r) (proj tr (frac Se r)))).
  Proof.
    clear FT RS BC. destruct PS as (A & B & C). apply IZR_lt in A, B, C. assert (D0 := DB 0%nat ltac:(lia)). assert (D1 := DB 1%nat ltac:(lia)). assert (D2 := DB 2%nat ltac:(lia)). cbn [vget] in *.
    unfold frac, proj. cbn [c0 c1 c2]. rewrite D0, D1, D2, !mult_IZR. clear - A B C. revert A B C. generalize (IZR (c0 S)) (IZR (c1 S)) (IZR (c2 S)) (IZR (c0 r)) (IZR (c1 r)) (IZR (c2 r)). intros s t u a b c A B C. v3u. destruct (tr 0%nat), (tr 1%nat), (tr 2%nat); f_equal; field; repeat split; lra.
  Qed.
  Lemma proj_orth u v : proj tr v = V 0 0 0 -> ip Rl (proj tr u) v = 0.
  Proof. intros E. apply (ip_orth Rl tr); auto. apply proj_idem. Qed.
  Lemma cell_of_class q r : in_cell Rl (frac S q) -> congr Se q r -> (forall l, closer Rl (2 * tol) (frac Se r) l) -> in_cell Rl (frac S r).
  Proof.
    intros C (n & En) L.
    set (z := frac Se r). set (y := frac S q) in *. set (nT := zvsub n (zproj tr n)).
    assert (Ez : z = rvadd (frac Se q) (vIZR n)) by (unfold z; rewrite En; apply frac_add; auto).
    assert (Ey := frac_Se q). fold y in Ey. set (w := frac Se q) in *. assert (Tn := trunc_part tr n). fold nT in Tn. assert (Sn := zsplit tr n). fold nT in Sn.
    assert (Tw : forall u v : vec R, proj tr v = V 0 0 0 -> ip Rl (rvsub u (proj tr u)) v = ip Rl u v). { intros u v E. rewrite ip_sub_l, (proj_orth u v E). ring. }
    assert (IPw : forall v, proj tr v = V 0 0 0 -> ip Rl y v = 2 * ip Rl w v). { intros v E. rewrite Ey, ip_add_l, (proj_orth w v E), ip_mul, (Tw w v E). ring. }
    assert (N0 : vIZR nT = V 0 0 0).
    { assert (L1 := L nT). rewrite closer_iff in L1. fold z in L1. assert (C1 := C (zvopp nT)). rewrite closer_iff, zopp_R, ip_opp, cart_opp in C1. rewrite (IPw _ Tn) in C1.
      rewrite Ez, ip_add_l in L1. rewrite Sn in L1 at 1. rewrite ip_add_l, (proj_orth (vIZR n) _ Tn), <- cart_ip in L1. assert (Q := cart_pos Rl (vIZR nT)).
      apply (cart_zero Rl); [exact DR|]. unfold tol in L1. lra. }
    assert (Er : frac S r = rvadd y (vIZR n)).
    { rewrite (frac_Se r). fold z. rewrite Ez, Ey, Sn, N0. rewrite !proj_add, !proj_idem. replace (proj tr (V 0 0 0)) with (V 0 0 0) by (unfold proj; cbn [c0 c1 c2]; destruct (tr 0%nat), (tr 1%nat), (tr 2%nat); reflexivity).
      generalize w (proj tr w) (proj tr (vIZR n)). intros [a b c] [d e f] [g h i]. v3u. f_equal; ring. }
    apply (exact_cell Rl faces S BC RS). intros l _. rewrite Er. apply closer_iff.
    set (lU := zproj tr l). set (lT := zvsub l lU). assert (Sl := zsplit tr l). fold lU lT in Sl. assert (Tl := trunc_part tr l). fold lU lT in Tl.
    assert (L1 := L lU). rewrite closer_iff in L1. fold z in L1. assert (C1 := C lT). rewrite closer_iff in C1.
    assert (EU : vIZR lU = proj tr (vIZR l)) by apply zproj_R. rewrite EU in L1.
    assert (O : ip Rl (proj tr (vIZR l)) (vIZR lT) = 0) by (apply proj_orth; auto).
    assert (U0 : forall u, proj tr (rvsub u (proj tr u)) = V 0 0 0). { intros u. rewrite proj_sub, proj_idem. generalize (proj tr u). intros [a b c]. v3u. f_equal; ring. }
    assert (UW : ip Rl y (proj tr (vIZR l)) = ip Rl w (proj tr (vIZR l))). { rewrite Ey. rewrite ip_add_l, ip_mul. rewrite (ip_sym Rl (rvsub _ _)), (proj_orth _ _ (U0 w)). replace (ip Rl w (proj tr (vIZR l))) with (ip Rl (proj tr w) (proj tr (vIZR l)) + ip Rl (rvsub w (proj tr w)) (proj tr (vIZR l))) by (rewrite ip_sub_l; ring). rewrite (ip_sym Rl (rvsub _ _)), (proj_orth _ _ (U0 w)). ring. }
    assert (NP : vIZR n = proj tr (vIZR n)). { rewrite Sn at 1. rewrite N0. generalize (proj tr (vIZR n)). intros [a b c]. v3u. f_equal; ring. }
    assert (E1 : ip Rl y (vIZR l) = ip Rl y (proj tr (vIZR l)) + ip Rl y (vIZR lT)) by (rewrite Sl at 1; apply ip_add_r).
    assert (E2 : ip Rl (vIZR n) (vIZR lT) = 0) by (rewrite NP; apply proj_orth; auto).
    assert (E3 : ip Rl (vIZR n) (vIZR l) = ip Rl (vIZR n) (proj tr (vIZR l))) by (rewrite Sl at 1; rewrite ip_add_r, E2; ring).
    assert (E4 : cart2 Rl (vIZR l) = cart2 Rl (proj tr (vIZR l)) + cart2 Rl (vIZR lT)). { rewrite Sl at 1. rewrite !cart_ip, ip_add_l, !ip_add_r, (ip_sym Rl (vIZR lT)), O. ring. }
    rewrite ip_add_l, E1, E3, E4, UW.
    rewrite Ez, ip_add_l in L1. assert (Q := cart_pos Rl (vIZR lT)). unfold tol in *. lra.
  Qed.
  Lemma pair_of p : (0 <= p < points Se)%Z -> exists fuel0 o, (forall fuel, (fuel0 <= fuel)%nat -> boundaryPair fuel Rl faces S Se p = Some o) /\
    exists r, p = flatMod Se r /\ ((exists i, image i p) -> in_cell Rl (frac S r)) /\ ((onBd Rl faces (frac S r) /\ o = Some (flatMod S r, p)) \/ (~ onBd Rl faces (frac S r) /\ o = None)).
  Proof.
    intros R. destruct (mesh_reduce Rl faces DR VF BC Se (ivOf Se p) PE) as (n & r & H & C & L).
    assert (Ep : p = flatMod Se r). { rewrite <- (ivOf_flat Se p PE R) at 1. apply flat_iff; auto. }
    assert (IC : (exists i, image i p) -> in_cell Rl (frac S r)). { intros (i & q & Cq & _ & E). apply (cell_of_class q r); auto. apply flat_iff; [auto|]. congruence. }
    assert (BI := bd_iff Rl faces S DR VF BC RS r). destruct (onBoundary Rl faces (frac S r)) eqn:EB.
    { exists n, (Some (flatMod S r, p)). assert (OB : onBd Rl faces (frac S r)) by (apply BI; reflexivity). split; [|exists r; auto]. intros fuel F. unfold boundaryPair. rewrite (H fuel F), frac_mesh, EB.
      destruct FT as [F1 F2]. assert (IR : in_cell Rl (frac S r)) by apply OB. assert (G := F2 r IR).
      assert (X0 := F1 0%nat ltac:(lia)). assert (X1 := F1 1%nat ltac:(lia)). assert (X2 := F1 2%nat ltac:(lia)). assert (Y0 := G 0%nat ltac:(lia)). assert (Y1 := G 1%nat ltac:(lia)). assert (Y2 := G 2%nat ltac:(lia)). cbn [vget] in *.
      rewrite !positiveRemainder_ok by lia. do 3 f_equal. apply lin_flat; reflexivity. }
    { exists n, None. split; [intros fuel F; unfold boundaryPair; rewrite (H fuel F), frac_mesh, EB; reflexivity|]. exists r. split; [auto|]. split; [auto|]. right. split; [|auto]. intros Q. apply BI in Q. discriminate. }
  Qed.
  (** uniform fuel *)
  Lemma uniform {T} (P : nat -> Z -> T -> Prop) n : (forall i, (0 <= i < n)%Z -> exists fuel0 o, forall fuel, (fuel0 <= fuel)%nat -> P fuel i o) ->
    exists fuel0, forall i, (0 <= i < n)%Z -> exists o, forall fuel, (fuel0 <= fuel)%nat -> P fuel i o.
  Proof.
    intros H. destruct (Z.le_gt_cases n 0) as [N|N]. { exists 0%nat. intros i Hi. lia. }
    assert (G : forall m, (Z.of_nat m <= n)%Z -> exists fuel0, forall i, (0 <= i < Z.of_nat m)%Z -> exists o, forall fuel, (fuel0 <= fuel)%nat -> P fuel i o).
    { induction m as [|m IH]; intros M. { exists 0%nat. intros i Hi. lia. }
      destruct IH as (f1 & H1); [lia|]. destruct (H (Z.of_nat m)) as (f2 & o & H2); [lia|]. exists (Nat.max f1 f2). intros i Hi. destruct (Z.eq_dec i (Z.of_nat m)) as [->|D].
      { exists o. intros fuel F. apply H2. lia. } { destruct (H1 i) as (o' & H3); [lia|]. exists o'. intros fuel F. apply H3. lia. } }
    destruct (G (Z.to_nat n)) as (f & Hf); [lia|]. exists f. rewrite Z2Nat.id in Hf by lia. exact Hf.
  Qed.
End Main.
