(** Examples of the embedding on the cubic lattice. *)
From Coq Require Import ZArith Reals List Bool Lia Lra Psatz Permutation.
From Verif Require Import Base Vec3_Model Vec3_Facts Lattice_Model RealUtil Coulomb_Model Coulomb_Proofs WS_Model WS_Spec WS_Proofs WS_Proofs2 WS_Proofs3 IntUtil_Model IntUtil_Proofs CellMap_Model CellMap_Spec CellMap_Proofs CellMap_Proofs2 CellMap_Proofs3 CellMap_Proofs4 Embed_Model Embed_Spec Embed_Proofs Embed_Proofs2 Embed_Proofs3 Embed_Proofs4 Embed_Proofs5.
Import ListNotations.
Local Open Scope R_scope.

Definition slabTr (k : nat) : bool := Nat.eqb k 2.
Definition allTr (k : nat) : bool := true.
Definition cube (s : Z) : vec Z := V s s s.
Lemma rid_orth tr : truncation_orthogonal rid tr.
Proof.
  intros i j Hi Hj Ti Tj. assert (D : i <> j) by congruence. unfold rid.
  destruct i as [|[|[|i]]]; [| | |lia]; (destruct j as [|[|[|j]]]; [| | |lia]); try congruence; unfold mget, vget, mrow; v3u; ring.
Qed.
Lemma cube_pos s : (0 < s)%Z -> posS (cube s).
Proof. intros H. unfold posS, cube. cbn [c0 c1 c2]. auto. Qed.
Lemma cube_get s k : vget (cube s) k = s.
Proof. destruct k as [|[|k]]; reflexivity. Qed.
Lemma cube_resolved s : (0 < s <= 100)%Z -> resolved rid (cube s) (map img cubicFaces) tol.
Proof.
  intros Hs q l I. destruct (cubic_g (cube s) q l (cube_pos s ltac:(lia)) I) as (k & sg & _ & _ & E & E1 & _). cbv zeta. rewrite E, E1, cube_get. clear - Hs.
  set (m := (s - 2 * (sg * vget q k))%Z). assert (Ps : 0 < IZR s) by (apply IZR_lt; lia). assert (Ls : IZR s <= 100) by (apply IZR_le; lia).
  replace (1 - 2 * (IZR sg * IZR (vget q k)) / IZR s) with (IZR m * / IZR s) by (unfold m; rewrite minus_IZR, !mult_IZR; field; lra).
  assert (Pi : / 100 <= / IZR s) by (apply Rinv_le_contravar; lra). unfold tol. split; intros G.
  { assert (M : (m <= -1)%Z). { apply Z.nlt_ge. intros K. assert (0 <= IZR m) by (apply IZR_le; lia). assert (0 <= IZR m * / IZR s) by (apply Rmult_le_pos; lra). lra. } apply IZR_le in M. nra. }
  { assert (M : (1 <= m)%Z). { apply Z.nlt_ge. intros K. assert (IZR m <= 0) by (apply IZR_le; lia). assert (0 <= - IZR m * / IZR s) by (apply Rmult_le_pos; lra). lra. } apply IZR_le in M. assert (/100 <= IZR m * / IZR s) by nra. nra. }
Qed.
Lemma img_unit k : (k < 3)%nat -> In (V (if Nat.eqb k 0 then 1 else 0) (if Nat.eqb k 1 then 1 else 0) (if Nat.eqb k 2 then 1 else 0))%Z (map img cubicFaces).
Proof. intros K. unfold cubicFaces. cbn [map bisector img]. destruct k as [|[|[|k]]]; [| | |lia]; cbn [Nat.eqb]; [left|right; left|right; right; left]; reflexivity. Qed.
Lemma ip_rid x y : ip rid x y = c0 x * c0 y + c1 x * c1 y + c2 x * c2 y.
Proof. destruct x, y. unfold ip, rid. v3u. ring. Qed.
Lemma cart_rid x : cart2 rid x = c0 x * c0 x + c1 x * c1 x + c2 x * c2 x.
Proof. destruct x. unfold cart2, rid. v3u. ring. Qed.
Lemma cube_cell s q : (0 < s)%Z -> (in_cell rid (frac (cube s) q) <-> forall k, (k < 3)%nat -> (- s <= 2 * vget q k <= s)%Z).
Proof.
  intros Hs. assert (Ps : 0 < IZR s) by (apply IZR_lt; lia). assert (K : forall a b, 2 * (IZR a / IZR s * IZR b) <= 1 * 1 <-> (2 * (a * b) <= s)%Z).
  { intros a b. split; intros H. { apply le_IZR. rewrite !mult_IZR. apply (Rmult_le_compat_r (IZR s)) in H; [|lra]. replace (2 * (IZR a / IZR s * IZR b) * IZR s) with (2 * (IZR a * IZR b)) in H by (field; lra). lra. }
    { apply IZR_le in H. rewrite !mult_IZR in H. apply (Rmult_le_reg_r (IZR s)); [lra|]. replace (2 * (IZR a / IZR s * IZR b) * IZR s) with (2 * (IZR a * IZR b)) by (field; lra). lra. } }
  split.
  { intros C k Hk. assert (A : forall sg, (sg = 1 \/ sg = -1)%Z -> (2 * (vget q k * sg) <= s)%Z).
    { intros sg Sg. apply K. set (l := (V (if Nat.eqb k 0 then sg else 0) (if Nat.eqb k 1 then sg else 0) (if Nat.eqb k 2 then sg else 0))%Z). assert (Q := C l). rewrite closer_iff, ip_rid, cart_rid in Q. unfold frac, l, vIZR, vmap, cube in Q. cbn [c0 c1 c2] in Q.
      destruct k as [|[|[|k]]]; [| | |lia]; cbn [Nat.eqb vget] in *; destruct Sg as [-> | ->]; lra. }
    assert (X := A 1%Z ltac:(auto)). assert (Y := A (-1)%Z ltac:(auto)). lia. }
  { intros H. apply cubic_bounds. intros l I. unfold cubicFaces in I. cbn [map bisector img In] in I.
    assert (H0 := H 0%nat ltac:(lia)). assert (H1 := H 1%nat ltac:(lia)). assert (H2 := H 2%nat ltac:(lia)). cbn [vget] in *.
    assert (X0 := proj2 (K (c0 q) 1%Z) ltac:(lia)). assert (Y0 := proj2 (K (c0 q) (-1)%Z) ltac:(lia)). assert (X1 := proj2 (K (c1 q) 1%Z) ltac:(lia)). assert (Y1 := proj2 (K (c1 q) (-1)%Z) ltac:(lia)). assert (X2 := proj2 (K (c2 q) 1%Z) ltac:(lia)). assert (Y2 := proj2 (K (c2 q) (-1)%Z) ltac:(lia)).
    destruct I as [<-|[<-|[<-|[]]]]; rewrite !closer_iff, zopp_R, ip_opp, cart_opp, !ip_rid, !cart_rid; unfold frac, vIZR, vmap, cube; cbn [c0 c1 c2]; split; lra. }
Qed.
Lemma cube_fits s : (0 < s <= 100)%Z -> fits16 rid (cube s).
Proof. intros H. split; [intros k K; rewrite cube_get; lia|]. intros q C k K. rewrite cube_cell in C by lia. specialize (C k K). lia. Qed.
Lemma slab_images : images rid (cube 2) (embedS slabTr (cube 2)) 1 [1; 3]%Z.
Proof.
  split; [repeat constructor; cbn; intuition; discriminate|]. intros p. split.
  { intros [<-|[<-|[]]]; [exists (V 0 0 1)%Z|exists (V 0 0 (-1))%Z]; (split; [|split; reflexivity]); apply cube_cell; try lia; intros k K; destruct k as [|[|[|k]]]; cbn; lia. }
  { intros ([a b c] & C & E & ->). rewrite cube_cell in C by lia. assert (C0 := C 0%nat ltac:(lia)). assert (C1 := C 1%nat ltac:(lia)). assert (C2 := C 2%nat ltac:(lia)). cbn [vget c0 c1 c2] in *.
    assert (Ha : (a = -1 \/ a = 0 \/ a = 1)%Z) by lia. assert (Hb : (b = -1 \/ b = 0 \/ b = 1)%Z) by lia. assert (Hc : (c = -1 \/ c = 0 \/ c = 1)%Z) by lia.
    destruct Ha as [-> | [-> | ->]], Hb as [-> | [-> | ->]], Hc as [-> | [-> | ->]]; cbv in E; try discriminate; cbv; auto. }
Qed.
Lemma odd_empty : exists fuel0, forall fuel, (fuel0 <= fuel)%nat -> boundaryPairs fuel rid cubicFaces (cube 3) (embedS allTr (cube 3)) = Some [] /\
  forall order x, Permutation order [] -> embedExpand fuel cubicFaces (cube 3) (embedS allTr (cube 3)) order x = None /\ embedShrink fuel cubicFaces (cube 3) (embedS allTr (cube 3)) order x = None.
Proof.
  destruct (system_ex rid cubicFaces allTr (cube 3) (embedS allTr (cube 3)) cubic_det cubic_valid cubic_bounds (cube_pos 3 ltac:(lia)) (embedS_doubled _ _) (rid_orth _) (cube_resolved 3 ltac:(lia)) (cube_fits 3 ltac:(lia))) as (f & e & pairs & H).
  exists f. intros fuel F. specialize (H fuel F). destruct H as (EL & _ & EB & _ & _ & _ & _ & NB).
  assert (N : pairs = []).
  { destruct pairs as [|[i p] pairs]; [auto|]. exfalso. destruct (NB i p (or_introl eq_refl)) as (r & _ & l & I & G). destruct (cubic_g (cube 3) r l (cube_pos 3 ltac:(lia)) (or_introl I)) as (k & sg & _ & _ & _ & E1 & E2). unfold g_of in G. rewrite E1, E2, cube_get in G.
    assert (Q : exists m, Rabs (IZR (vget r k) / 3) = IZR m / 3). { exists (Z.abs (vget r k)). rewrite abs_IZR. unfold Rdiv. rewrite Rabs_mult. f_equal. apply Rabs_right. lra. }
    destruct Q as (m & Q). rewrite Q in G. assert (X : IZR (2 * m) = IZR 3) by (rewrite mult_IZR; lra). apply eq_IZR in X. lia. }
  subst pairs. split; [auto|]. intros order x P. apply Permutation_sym, Permutation_nil in P. subst order. unfold embedExpand, embedShrink. rewrite EL. split; reflexivity.
Qed.
