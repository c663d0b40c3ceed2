(** Candidate transforms of a mesh point. *)
From Coq Require Import ZArith Reals List Bool Lia Lra.
From Verif Require Import Base RealUtil Vec3_Model Vec3_Facts Grid_Model Lattice_Model ExKernel_Model ExKernel_Proofs2 ExPairs_Model ExPairs_Spec.
Import ListNotations.
Local Open Scope R_scope.

Lemma in_candidates : forall thr sym invs kq km t, In t (candidates thr sym invs kq km) <->
  In (kt_sym t) sym /\ In (kt_invert t) invs /\ kt_multiplicity t = 0%nat /\ circDistanceSquared (rvscale (IZR (kt_invert t)) (applyRecip (kt_sym t) kq)) km < thr * thr.
Proof.
  intros. unfold candidates. rewrite in_flat_map. split.
  - intros (inv & Hi & H). apply in_flat_map in H. destruct H as (op & Ho & H). destruct (Rlt_dec _ _) as [L|]; [|contradiction]. destruct H as [<-|[]]. cbn [kt_sym kt_invert kt_multiplicity]. auto.
  - intros (Ho & Hi & Hm & L). exists (kt_invert t). split; [exact Hi|]. apply in_flat_map. exists (kt_sym t). split; [exact Ho|]. destruct (Rlt_dec _ _) as [_|N]; [|contradiction]. left. destruct t; cbn in *. subst. reflexivity.
Qed.
Lemma circ1_near : forall a b, exists n : Z, (a - b - IZR n) * (a - b - IZR n) <= circ1 a b.
Proof. intros. exists (rround (a - b)). apply circ1_round. Qed.
Lemma candidates_near : forall thr sym invs kq km t, In t (candidates thr sym invs kq km) ->
  In (kt_sym t) sym /\ In (kt_invert t) invs /\ exists x y z : Z, rlen2 (rvsub (rvsub (rvscale (IZR (kt_invert t)) (rvm kq (mIZR (sg_rot (kt_sym t))))) km) (V (IZR x) (IZR y) (IZR z))) < thr * thr.
Proof.
  intros thr sym invs kq km t H. apply in_candidates in H. destruct H as (Ho & Hi & _ & L). split; [exact Ho|]. split; [exact Hi|].
  unfold applyRecip in L. revert L. generalize (rvscale (IZR (kt_invert t)) (rvm kq (mIZR (sg_rot (kt_sym t))))). intros [p q r] L. destruct km as [a b c]. unfold circDistanceSquared in L. cbn [c0 c1 c2] in L.
  destruct (circ1_near p a) as [x X], (circ1_near q b) as [y Y], (circ1_near r c) as [z Z]. exists x, y, z.
  change (rvsub (rvsub (V p q r) (V a b c)) (V (IZR x) (IZR y) (IZR z))) with (V (p - a - IZR x) (q - b - IZR y) (r - c - IZR z)). rewrite rlen2_V. lra.
Qed.
Lemma candidates_all : forall thr sym invs kq km op inv, 0 < thr -> In op sym -> In inv invs -> equivK (rvscale (IZR inv) (rvm kq (mIZR (sg_rot op)))) km ->
  In (KT op inv 0) (candidates thr sym invs kq km).
Proof.
  intros thr sym invs kq km op inv Ht Ho Hi (x & y & z & E). apply in_candidates. cbn [kt_sym kt_invert kt_multiplicity]. split; [exact Ho|]. split; [exact Hi|]. split; [reflexivity|].
  unfold applyRecip. rewrite E. unfold circDistanceSquared. cbn [c0 c1 c2]. rewrite !circ1_shift. unfold circ1. assert (0 < thr * thr) by (apply Rmult_lt_0_compat; exact Ht). lra.
Qed.
Lemma candidates_distinct : forall thr sym invs kq km, NoDup sym -> NoDup invs -> NoDup (candidates thr sym invs kq km).
Proof.
  intros thr sym invs kq km Ns Ni. unfold candidates. set (g := fun inv => flat_map _ sym).
  assert (G : forall inv, NoDup (g inv) /\ forall t, In t (g inv) -> kt_invert t = inv).
  { intros inv. unfold g. split.
    - clear g. induction Ns as [|op l Hn Nl IH]; [constructor|]. cbn [flat_map]. destruct (Rlt_dec _ _); [|exact IH]. cbn [app]. constructor; [|exact IH].
      intros H. apply in_flat_map in H. destruct H as (op' & Ho & H). destruct (Rlt_dec _ _); [|contradiction]. destruct H as [E|[]]. injection E as ->. contradiction.
    - intros t H. apply in_flat_map in H. destruct H as (op & _ & H). destruct (Rlt_dec _ _); [|contradiction]. destruct H as [<-|[]]. reflexivity. }
  clearbody g. induction Ni as [|i l Hn Nl IH]; [constructor|]. cbn [flat_map]. apply NoDup_app_intro; [apply G|exact IH|].
  intros t H H'. apply in_flat_map in H'. destruct H' as (j & Hj & H'). rewrite <- (proj2 (G i) t H) in Hn. rewrite (proj2 (G j) t H') in Hn. contradiction.
Qed.
