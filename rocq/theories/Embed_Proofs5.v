(** Adjointness, charge and examples of the embedding. *)
From Coq Require Import ZArith Reals List Bool Lia Lra Psatz Permutation.
From Verif Require Import Base Vec3_Model Vec3_Facts Lattice_Model RealUtil Coulomb_Model Coulomb_Proofs WS_Model WS_Spec WS_Proofs WS_Proofs2 WS_Proofs3 IntUtil_Model IntUtil_Proofs CellMap_Model CellMap_Spec CellMap_Proofs CellMap_Proofs2 CellMap_Proofs3 CellMap_Proofs4 Embed_Model Embed_Spec Embed_Proofs Embed_Proofs2 Embed_Proofs3 Embed_Proofs4.
Import ListNotations.
Local Open Scope R_scope.

Lemma zsum_rsum f n : zsum f n = rsum f (zrange 0 n).
Proof. unfold zsum, rsum, zrange. rewrite Z.sub_0_r. induction (seq 0 (Z.to_nat n)) as [|k l IH]; [reflexivity|]. cbn [map fold_right]. rewrite <- IH. f_equal. Qed.
Lemma embedS_doubled tr S : doubled tr S (embedS tr S).
Proof. intros k K. destruct k as [|[|[|k]]]; [| | |lia]; reflexivity. Qed.

Section Thm.
  Variables (Rl : mat R) (faces : list face) (tr : nat -> bool) (S : vec Z).
  Let Se := embedS tr S.
  Hypothesis DR : rdet Rl <> 0.
  Hypothesis VF : List.Forall (fun f => nonzero (img f) /\ f = bisector Rl (img f)) faces.
  Hypothesis BC : bounds_cell Rl (map img faces).
  Hypothesis PS : (0 < c0 S)%Z /\ (0 < c1 S)%Z /\ (0 < c2 S)%Z.
  Hypothesis TO : truncation_orthogonal Rl tr.
  Hypothesis RS : resolved Rl S (map img faces) tol.
  Hypothesis FT : fits16 Rl S.

  (** the list of images, from the tables of the code *)
  Definition imgs (e : Z -> Z) (pairs : list (Z * Z)) (i : Z) : list Z :=
    match map snd (filter (fun pr => fst pr =? i)%Z pairs) with [] => [e i] | l => l end.
  Lemma imgs_ne e pairs i : exists a l, imgs e pairs i = a :: l.
  Proof. unfold imgs. destruct (map snd (filter (fun pr => fst pr =? i)%Z pairs)) as [|a l]; eauto. Qed.
  Lemma nodup_filter_snd (g : Z * Z -> bool) (l : list (Z * Z)) : NoDup (map snd l) -> NoDup (map snd (filter g l)).
  Proof.
    induction l as [|a l IH]; intros N; [constructor|]. inversion N as [|x y X Y]; subst. cbn [filter]. destruct (g a); [|auto]. cbn [map]. constructor; [|auto]. intros I. apply X. apply in_map_iff in I. destruct I as (b & E & I). apply filter_In in I. apply in_map_iff. exists b. tauto.
  Qed.
  Lemma imgs_ok fuel e pairs i : system Rl faces S Se fuel e pairs -> (0 <= i < points S)%Z -> images Rl S Se i (imgs e pairs i).
  Proof.
    intros (_ & IE & _ & ND & PI & IP & _) Hi. unfold imgs. set (l := map snd _).
    assert (ML : forall p, In p l <-> In (i, p) pairs). { intros p. unfold l. rewrite in_map_iff. split. { intros ([j q] & E & I). apply filter_In in I. destruct I as [I J]. cbn [fst snd] in *. apply Z.eqb_eq in J. subst. auto. } { intros I. exists (i, p). split; [auto|]. apply filter_In. split; [auto|]. apply Z.eqb_refl. } }
    assert (NL : NoDup l) by (apply nodup_filter_snd; auto). clearbody l. destruct l as [|a l].
    { split; [repeat constructor; intros []|]. intros p. split; [intros [<-|[]]; auto|]. intros Q. left. destruct (Z.eq_dec (e i) p) as [|D]; [auto|]. destruct (proj2 (ML (e i))). apply (IP i (e i) p); auto. }
    { split; [auto|]. intros p. rewrite ML. split; [apply PI|]. intros Q. destruct (Z.eq_dec p a) as [->|D]; [apply ML; left; auto|]. apply (IP i p a); auto. apply PI, ML. left; auto. }
  Qed.
  Definition isIn (p : Z) (l : list Z) : bool := if in_dec Z.eq_dec p l then true else false.
  Lemma isIn_iff p l : isIn p l = true <-> In p l.
  Proof. unfold isIn. destruct (in_dec Z.eq_dec p l); split; auto; discriminate. Qed.
  Lemma pairing (L : Z -> list Z) (x y : Z -> R) (yE : Z -> R) : (forall i, (0 <= i < points S)%Z -> images Rl S Se i (L i)) ->
    (forall i l p, (0 <= i < points S)%Z -> images Rl S Se i l -> In p l -> yE p = x i / INR (length l)) -> (forall p, (forall i, ~ image Rl S Se i p) -> yE p = 0) ->
    rsum (fun p => yE p * y p) (zrange 0 (points Se)) = rsum (fun i => x i * (rsum y (L i) / INR (length (L i)))) (zrange 0 (points S)).
  Proof.
    intros HL H1 H0. assert (DB := embedS_doubled tr S). fold Se in DB.
    rewrite (rsum_ext _ (fun p => rsum (fun i => if isIn p (L i) then x i / INR (length (L i)) * y p else 0) (zrange 0 (points S)))).
    2:{ intros p Ip. destruct (Classical_Prop.classic (exists i, image Rl S Se i p)) as [(i & Im)|N].
      { assert (Ri := proj1 (image_range Rl tr S Se PS DB i p Im)). rewrite (rsum_single _ _ i); [|apply nodup_zrange|apply in_zrange; auto|].
        { assert (I : In p (L i)) by (apply HL; auto). rewrite (proj2 (isIn_iff p (L i)) I). f_equal. apply H1; auto. }
        { intros j Ij D. apply in_zrange in Ij. destruct (isIn p (L j)) eqn:E; [|auto]. exfalso. apply D. apply isIn_iff in E. apply HL in E; auto. apply (image_fun Rl tr S Se PS DB j i p); auto. } }
      { rewrite H0 by eauto. rewrite Rmult_0_l. symmetry. rewrite (rsum_ext _ (fun _ => 0)). { apply rsum_zero. } intros j Ij. apply in_zrange in Ij. destruct (isIn p (L j)) eqn:E; [|auto]. apply isIn_iff in E. apply HL in E; auto. destruct N. eauto. } }
    rewrite rsum_swap. apply rsum_ext. intros i Ii. apply in_zrange in Ii. rewrite <- (rsum_filter (fun p => x i / INR (length (L i)) * y p) (fun p => isIn p (L i))). rewrite rsum_scale.
    rewrite (rsum_perm y _ (L i)). { unfold Rdiv. ring. }
    apply NoDup_Permutation; [apply NoDup_filter, nodup_zrange|apply HL; auto|]. intros p. rewrite filter_In, isIn_iff, in_zrange. split; [tauto|]. intros I. split; [|auto]. apply HL in I; auto. apply (image_range Rl tr S Se PS DB i p I).
  Qed.
  Hypothesis EV : exists k, (k < 3)%nat /\ Z.Even (vget S k).
  Lemma embed_sys : exists fuel0 e pairs, (forall fuel, (fuel0 <= fuel)%nat -> system Rl faces S Se fuel e pairs) /\ pairs <> [].
  Proof.
    assert (DB := embedS_doubled tr S). fold Se in DB. destruct (system_ex Rl faces tr S Se DR VF BC PS DB TO RS FT) as (f & e & pairs & H). exists f, e, pairs. split; [auto|].
    apply (H f (le_n f)). apply (even_bd Rl faces tr S Se DR VF BC PS DB TO RS FT EV).
  Qed.
  Lemma embed_thm : exists fuel0, forall fuel, (fuel0 <= fuel)%nat -> exists pairs, boundaryPairs fuel Rl faces S Se = Some pairs /\ forall order, Permutation order pairs ->
    (forall x, exists y, embedExpand fuel faces S Se order x = Some y /\
      (forall i l p, (0 <= i < points S)%Z -> images Rl S Se i l -> In p l -> y p = x i / INR (length l)) /\ (forall p, (forall i, ~ image Rl S Se i p) -> y p = 0)) /\
    (forall y, exists x, embedShrink fuel faces S Se order y = Some x /\ forall i l, (0 <= i < points S)%Z -> images Rl S Se i l -> x i = lsum y l / INR (length l)).
  Proof.
    assert (DB := embedS_doubled tr S). fold Se in DB. destruct embed_sys as (f & e & pairs & H & NE). exists f. intros fuel F. specialize (H fuel F). exists pairs. split; [apply H|]. intros order PO. split; intros x.
    { apply (expand_val Rl faces tr S Se PS DB fuel e pairs order x H NE PO). }
    { apply (shrink_val Rl faces tr S Se PS DB fuel e pairs order x H NE PO). }
  Qed.
  Lemma images_ex : forall i, (0 <= i < points S)%Z -> exists l, images Rl S Se i l /\ l <> [].
  Proof.
    intros i Hi. destruct embed_sys as (f & e & pairs & H & NE). specialize (H f (le_n f)). exists (imgs e pairs i). split; [apply (imgs_ok f); auto|].
    destruct (imgs_ne e pairs i) as (a & l & ->). discriminate.
  Qed.
  Lemma adjoint_thm : exists fuel0, forall fuel, (fuel0 <= fuel)%nat -> exists pairs, boundaryPairs fuel Rl faces S Se = Some pairs /\ forall order, Permutation order pairs ->
    forall x y, exists x' y', embedExpand fuel faces S Se order x = Some y' /\ embedShrink fuel faces S Se order y = Some x' /\
      zsum (fun p => y' p * y p) (points Se) = zsum (fun i => x i * x' i) (points S) /\ zsum y' (points Se) = zsum x (points S).
  Proof.
    assert (DB := embedS_doubled tr S). fold Se in DB. destruct embed_sys as (f & e & pairs & H & NE). exists f. intros fuel F. specialize (H fuel F). exists pairs. split; [apply H|]. intros order PO x y.
    destruct (expand_val Rl faces tr S Se PS DB fuel e pairs order x H NE PO) as (y' & E1 & A & B). destruct (shrink_val Rl faces tr S Se PS DB fuel e pairs order y H NE PO) as (x' & E2 & C).
    exists x', y'. split; [auto|]. split; [auto|]. rewrite !zsum_rsum. assert (P := pairing (imgs e pairs) x). assert (HL : forall i, (0 <= i < points S)%Z -> images Rl S Se i (imgs e pairs i)) by (intros; apply (imgs_ok fuel); auto). split.
    { rewrite (P y y' HL A B). apply rsum_ext. intros i Ii. apply in_zrange in Ii. rewrite (C i (imgs e pairs i) Ii (HL i Ii)). reflexivity. }
    { transitivity (rsum (fun p => y' p * 1) (zrange 0 (points Se))); [apply rsum_ext; intros; ring|]. rewrite (P (fun _ => 1) y' HL A B). apply rsum_ext. intros i Ii. assert (Q : forall l : list Z, rsum (fun _ => 1) l = INR (length l)). { intros l. induction l as [|a l IH]; [reflexivity|]. rewrite rsum_cons, IH. cbn [length]. rewrite S_INR. ring. }
      rewrite Q. field. apply not_0_INR. destruct (imgs_ne e pairs i) as (a & l & ->). discriminate. }
  Qed.
End Thm.

(** examples on the cubic lattice *)
Lemma cubic_g S q l : posS S -> In l (map img cubicFaces) \/ In (zvopp l) (map img cubicFaces) -> exists k sg, (k < 3)%nat /\ (sg = 1 \/ sg = -1)%Z /\
  cart2 rid (rvsub (frac S q) (vIZR l)) - cart2 rid (frac S q) = 1 - 2 * (IZR sg * IZR (vget q k)) / IZR (vget S k) /\ cart2 rid (vIZR l) = 1 /\ Rabs (ip rid (frac S q) (vIZR l)) = Rabs (IZR (vget q k) / IZR (vget S k)).
Proof.
  intros (A & B & C) I. apply IZR_lt in A, B, C. destruct S as [s t u], q as [a b c]. cbn [c0 c1 c2] in *.
  assert (G : exists k sg, (k < 3)%nat /\ (sg = 1 \/ sg = -1)%Z /\ l = (V (if Nat.eqb k 0 then sg else 0) (if Nat.eqb k 1 then sg else 0) (if Nat.eqb k 2 then sg else 0))%Z).
  { unfold cubicFaces in I. cbn [map bisector img] in I. destruct l as [x y z]. unfold zvopp, gvopp, vmap in I. cbn [c0 c1 c2 In] in I.
    destruct I as [[E|[E|[E|[]]]]|[E|[E|[E|[]]]]]; injection E as E0 E1 E2.
    { exists 0%nat, 1%Z. split; [lia|]. split; [auto|]. cbn [Nat.eqb]. f_equal; lia. } { exists 1%nat, 1%Z. split; [lia|]. split; [auto|]. cbn [Nat.eqb]. f_equal; lia. } { exists 2%nat, 1%Z. split; [lia|]. split; [auto|]. cbn [Nat.eqb]. f_equal; lia. }
    { exists 0%nat, (-1)%Z. split; [lia|]. split; [auto|]. cbn [Nat.eqb]. f_equal; lia. } { exists 1%nat, (-1)%Z. split; [lia|]. split; [auto|]. cbn [Nat.eqb]. f_equal; lia. } { exists 2%nat, (-1)%Z. split; [lia|]. split; [auto|]. cbn [Nat.eqb]. f_equal; lia. } }
  destruct G as (k & sg & K & Sg & ->). exists k, sg. split; [auto|]. split; [auto|].
  unfold cart2, ip, frac, vIZR, vmap, rid. cbn [c0 c1 c2].
  destruct k as [|[|[|k]]]; [| | |lia]; cbn [Nat.eqb vget c0 c1 c2]; destruct Sg as [-> | ->]; revert A B C; generalize (IZR s) (IZR t) (IZR u) (IZR a) (IZR b) (IZR c); intros s' t' u' a' b' c' A B C; v3u; (split; [field; lra|split; [ring|]]);
    match goal with |- Rabs ?x = Rabs ?y => first [replace x with y by (field; lra); reflexivity|replace x with (- y) by (field; lra); apply Rabs_Ropp] end.
Qed.
