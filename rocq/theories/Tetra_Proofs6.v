(** Proofs for C43: the density of states of all bands. *)
From Coq Require Import ZArith Reals List Bool Lra Lia Psatz Sorting.Sorted.
From Verif Require Import Base Tetra_Model Tetra_Spec Tetra_Proofs Tetra_Proofs2 Tetra_Proofs3 Tetra_Proofs4 Tetra_Proofs5.
Import ListNotations.
Open Scope R_scope.

Definition low (t : tetra) : R := let '(e0, _, _, _) := energies t in e0.
Definition high (t : tetra) : R := let '(_, _, _, e3) := energies t in e3.
Lemma corner_range : forall t q, ordered t -> In q (cornersOf t) -> low t <= fst q <= high t.
Proof. intros [v [[[q0 q1] q2] q3]] q O H. cbn in O, H. unfold low, high; cbn. destruct H as [<-|[<-|[<-|[<-|[]]]]]; lra. Qed.
Lemma low_corner : forall t, exists q, In q (cornersOf t) /\ fst q = low t.
Proof. intros [v [[[q0 q1] q2] q3]]. exists q0; cbn; auto. Qed.
(** an energy that no band of a tetrahedron crosses separates nothing *)
Lemma linked_side : forall ts x, (forall t, In t ts -> ordered t) -> (forall t, In t ts -> high t < x \/ (low t = x /\ high t = x) \/ x < low t) ->
  forall t u, linked ts t u -> In t ts -> (high t < x -> high u < x) /\ (x < low t -> x < low u).
Proof.
  intros ts x O C t u H. induction H as [t|t u v Iu (q & r & Hq & Hr & E) H IH]; intros It; [auto|].
  pose proof (corner_range t q (O t It) Hq). pose proof (corner_range u r (O u Iu) Hr). specialize (IH Iu). destruct (C t It) as [X|[X|X]], (C u Iu) as [Y|[Y|Y]]; split; intros; try (exfalso; lra); apply IH; lra.
Qed.
Lemma tetKey_corners : forall t k, ordered t -> tetKey t k -> low t <= fst k /\ snd k <= high t.
Proof. intros [v [[[q0 q1] q2] q3]] k O H. unfold tetKey, low, high in *. cbn in *. destruct H as (H & [->|[->| ->]]); cbn; lra. Qed.
Lemma tet_cover : forall t x, ordered t -> low t < high t -> low t <= x <= high t -> exists k, tetKey t k /\ fst k <= x <= snd k.
Proof.
  intros [v [[[q0 q1] q2] q3]] x O L H. unfold tetKey, low, high in *. cbn in *.
  destruct (Rle_dec x (fst q1)), (Rlt_dec (fst q0) (fst q1)).
  - exists (fst q0, fst q1). cbn. intuition.
  - destruct (Rlt_dec (fst q1) (fst q2)); [exists (fst q1, fst q2); cbn; intuition lra|]. exists (fst q2, fst q3). cbn. intuition lra.
  - destruct (Rle_dec x (fst q2)); [exists (fst q1, fst q2); cbn; intuition lra|]. exists (fst q2, fst q3). cbn. intuition lra.
  - destruct (Rle_dec x (fst q2)); [exists (fst q1, fst q2); cbn; intuition lra|]. exists (fst q2, fst q3). cbn. intuition lra.
Qed.
Lemma band_gapless : forall ts, (forall t, In t ts -> ordered t) -> connected ts -> gapless (pieces (bandSpline ts)) (deltas (bandSpline ts)).
Proof.
  intros ts O C lo hi x Hlo Hhi L. destruct (band_ok ts O) as (K & D & _ & _).
  assert (N : forall y, nodeOf (pieces (bandSpline ts)) (deltas (bandSpline ts)) y -> exists t, In t ts /\ low t <= y <= high t).
  { intros y [(p & Hp & Hy)|(d & Hd & ->)].
    - assert (In (fst p) (keys (pieces (bandSpline ts)))) as Kp by (apply in_map; auto). apply K in Kp. destruct Kp as (t & Ht & Kt). exists t. split; auto.
      pose proof (tetKey_corners t (fst p) (O t Ht) Kt). assert (fst (fst p) < snd (fst p)) by (destruct t as [v [[[q0 q1] q2] q3]]; apply Kt). destruct Hy as [->| ->]; lra.
    - assert (In (fst d) (map fst (deltas (bandSpline ts)))) as Kp by (apply in_map; auto). apply D in Kp. destruct Kp as (t & Ht & Kt). exists t. split; auto.
      destruct t as [v [[[q0 q1] q2] q3]]. unfold tetFlat, low, high in *. cbn in *. lra. }
  destruct (N lo Hlo) as (t & It & Lt). destruct (N hi Hhi) as (u & Iu & Lu).
  destruct (Exists_dec (fun t => low t < high t /\ low t <= x <= high t) ts) as [E|E].
  { intros s. destruct (Rlt_dec (low s) (high s)), (Rle_dec (low s) x), (Rle_dec x (high s)); (left; lra) || (right; lra). }
  - apply Exists_exists in E. destruct E as (s & Is & Ls & Hs). destruct (tet_cover s x (O s Is) Ls Hs) as (k & Kk & Rk).
    assert (In k (keys (pieces (bandSpline ts)))) as Ik by (apply K; eauto). apply in_map_iff in Ik. destruct Ik as (p & <- & Hp). exists p. auto.
  - exfalso. assert (Q : forall s, In s ts -> high s < x \/ (low s = x /\ high s = x) \/ x < low s).
    { intros s Is. assert (~ (low s < high s /\ low s <= x <= high s)) as Z by (intros Z; apply E, Exists_exists; eauto).
      assert (low s <= high s). { specialize (O s Is). destruct s as [v [[[q0 q1] q2] q3]]. unfold low, high; cbn in *. lra. }
      destruct (Rlt_dec (high s) x); [auto|]. destruct (Rlt_dec x (low s)); [auto|]. lra. }
    destruct (linked_side ts x O Q t u (C t u It Iu) It) as [A _].
    destruct (Q t It) as [X|[X|X]]; [apply A in X; lra|lra|lra].
Qed.
Lemma band_flat : forall ts, ts <> [] -> (forall t, In t ts -> ordered t) -> connected ts -> pieces (bandSpline ts) = [] ->
  exists e w, deltas (bandSpline ts) = [(e, w)].
Proof.
  intros ts NE O C P. destruct (band_ok ts O) as (K & D & S & _). rewrite P in K. cbn in K.
  assert (F : forall t, In t ts -> low t = high t).
  { intros t It. destruct (Req_dec (low t) (high t)) as [|N]; auto. exfalso. assert (low t <= high t). { specialize (O t It). destruct t as [v [[[q0 q1] q2] q3]]. unfold low, high; cbn in *. lra. }
    destruct (tet_cover t (low t) (O t It)) as (k & Kk & _); [lra|lra|]. apply (K k). eauto. }
  destruct ts as [|t0 ts]; [contradiction|].
  assert (A : forall t, In t (t0 :: ts) -> low t = low t0).
  { intros t It. assert (G : forall a b, linked (t0 :: ts) a b -> In a (t0 :: ts) -> low b = low a).
    { induction 1 as [a|a b c Ib (q & r & Hq & Hr & E) H IH]; intros Ia; auto. rewrite IH by auto.
      pose proof (corner_range a q (O a Ia) Hq). pose proof (corner_range b r (O b Ib) Hr). rewrite <- (F a Ia) in *. rewrite <- (F b Ib) in *. lra. }
    apply G; [apply C; [left; auto|auto]|left; auto]. }
  assert (Fl : forall t e, In t (t0 :: ts) -> (tetFlat t e <-> e = low t0)).
  { intros t e It. pose proof (A t It). pose proof (F t It). destruct t as [v [[[q0 q1] q2] q3]]. unfold tetFlat, low, high in *. cbn in *. split; [intros [X ->]; auto|intros ->; split; congruence]. }
  assert (Dk : forall e, In e (map fst (deltas (bandSpline (t0 :: ts)))) <-> e = low t0).
  { intros e. rewrite D. split; [intros (t & It & H); apply (Fl t); auto|intros ->; exists t0; split; [left; auto|apply Fl; auto; left; auto]]. }
  clear P K D. destruct (deltas (bandSpline (t0 :: ts))) as [|[e w] [|[e' w'] l]].
  - exfalso. apply (Dk (low t0)). auto.
  - eauto.
  - exfalso. cbn in S, Dk. assert (e = low t0) by (apply Dk; auto). assert (e' = low t0) by (apply Dk; auto). inversion S as [|? ? _ F']; subst. inversion F'; subst. lra.
Qed.
Lemma bandDOS_ok : forall Etol ts, 0 < Etol -> ts <> [] -> (forall t, In t ts -> ordered t) -> connected ts ->
  exists l, bandDOS Etol ts = Some l /\ table l /\ area l = rsuml (map tetraWeight ts).
Proof.
  intros Etol ts HE NE O C. destruct (band_ok ts O) as (K & D & S & T). unfold bandDOS. cbv zeta.
  destruct (pieces (bandSpline ts)) as [|p ps] eqn:P.
  - destruct (band_flat ts NE O C P) as (e & w & Q). rewrite Q in *. eexists. split; [reflexivity|]. split; [split; [cbn; lia|cbn; lra]|].
    rewrite <- T. cbn. replace 0.5 with (/2) by lra. field. lra.
  - destruct (coalesce_ok (bandSpline ts)) as (c & E & Dc & Nc & Pc & Jc & Tc & _).
    + rewrite P; discriminate.
    + rewrite P. intros q Hq. assert (In (fst q) (keys (p :: ps))) as Kq by (apply in_map; auto). apply K in Kq. destruct Kq as ([v [[[q0 q1] q2] q3]] & _ & Kt). apply Kt.
    + apply increasing_sorted. auto.
    + apply band_gapless; auto.
    + rewrite E. destruct (convert_ok (pieces c) Nc Pc Jc) as (l & El & Tl & Al). rewrite P in Tc.
      exists l. split; [|split; auto; rewrite Al, Tc; auto].
      destruct (deltas (bandSpline ts)) as [|[? ?] [|? ?]]; exact El.
Qed.
Lemma getDOS_ok : forall Etol bands, 0 < Etol -> (forall ts, In ts bands -> ts <> [] /\ (forall t, In t ts -> ordered t) /\ connected ts) ->
  exists dos, getDOS Etol bands = Some dos /\ area dos = rsuml (map (fun ts => rsuml (map tetraWeight ts)) bands).
Proof.
  intros Etol bands HE H. unfold getDOS.
  assert (G : exists ls, allBands Etol bands = Some ls /\ (forall l, In l ls -> table l) /\ map area ls = map (fun ts => rsuml (map tetraWeight ts)) bands).
  { induction bands as [|ts bands IH]; [exists []; cbn; intuition|]. destruct IH as (ls & E & T & A); [intros; apply H; right; auto|].
    destruct (H ts) as (N & O & C); [left; auto|]. destruct (bandDOS_ok Etol ts HE N O C) as (l & El & Tl & Al).
    exists (l :: ls). cbn. rewrite El, E. split; auto. split; [intros x [<-|Hx]; auto|]. rewrite Al, A. auto. }
  destruct G as (ls & E & T & A). rewrite E. destruct (merge_ok ls T) as (o & Eo & Ao). exists o. split; auto. rewrite Ao, A. auto.
Qed.

(** ** collections with gaps *)
Ltac rdec := repeat match goal with
  | |- context [Req_EM_T ?a ?b] => destruct (Req_EM_T a b); try (exfalso; lra); cbn
  | |- context [Rlt_dec ?a ?b] => destruct (Rlt_dec a b); try (exfalso; lra); cbn
  | |- context [Rle_dec ?a ?b] => destruct (Rle_dec a b); try (exfalso; lra); cbn
  end.
(** a delta function outside of all intervals is lost *)
Lemma isolated_delta : let cs := {| pieces := [((0, 1), (1, 1, 1, 1))]; deltas := [(2, 1)] |} in
  exists c, coalesceIntervals cs = Some c /\ deltas c = [] /\ integrals (pieces c) <> integrals (pieces cs) + masses (deltas cs).
Proof.
  eexists. split; [|split].
  - unfold coalesceIntervals, nodes. cbn. unfold add4, intLt. rdec. reflexivity.
  - reflexivity.
  - cbn [pieces deltas integrals masses fst snd]. rewrite !piece_int. unfold bsum, bvalue, bderiv. lra.
Qed.
Lemma isolated_delta_lost : exists cs c, proper (pieces cs) /\ coalesceIntervals cs = Some c /\ deltas c = [] /\ integrals (pieces c) <> integrals (pieces cs) + masses (deltas cs).
Proof.
  destruct isolated_delta as (c & E & D & I). eexists. exists c. split; [|split; [exact E|split; [exact D|exact I]]].
  intros p [<-|[]]. cbn. lra.
Qed.
(** two delta functions without any interval *)
Lemma only_deltas : coalesceIntervals {| pieces := []; deltas := [(0, 1); (1, 1)] |} = None.
Proof. reflexivity. Qed.
(** two intervals with a gap between them *)
Lemma gap_fails : coalesceIntervals {| pieces := [((0, 1), (1, 1, 1, 1)); ((2, 3), (1, 1, 1, 1))]; deltas := [] |} = None.
Proof. unfold coalesceIntervals, nodes. cbn. rdec. unfold intLt. cbn. rdec. unfold intLt. cbn. rdec. reflexivity. Qed.
