(** Proofs for C43: the output grid, and the complete density of states. *)
From Coq Require Import ZArith Reals List Bool Lra Lia Psatz Sorting.Sorted.
From Verif Require Import Base Tetra_Model Tetra_Spec Tetra_Proofs Tetra_Proofs2 Tetra_Proofs3 Tetra_Proofs4.
Import ListNotations.
Open Scope R_scope.

Section Dup.
  Variable B : R -> bool.
  Definition dupl (l : list R) : list R := flat_map (fun e => if B e then [e; e] else [e]) l.
  Lemma dupl_in : forall l x, In x (dupl l) <-> In x l.
  Proof.
    intros l x. unfold dupl. rewrite in_flat_map. split.
    - intros (y & Hy & Hx). destruct (B y); cbn in Hx; intuition (subst; auto).
    - intros H. exists x. split; auto. destruct (B x); cbn; auto.
  Qed.
  Lemma dupl_sorted : forall l, rsorted l -> lesorted (dupl l).
  Proof.
    induction 1 as [|a l H IH F]; cbn; [constructor|]. rewrite Forall_forall in F.
    assert (X : List.Forall (Rle a) (dupl l)). { apply Forall_forall. intros x Hx. apply (proj1 (dupl_in _ _)) in Hx. left. apply F; auto. }
    destruct (B a); cbn; repeat constructor; auto; lra.
  Qed.
  Lemma dupl_head : forall x l, exists t, dupl (x :: l) = x :: t.
  Proof. intros. unfold dupl. cbn. destruct (B x); cbn; eauto. Qed.
  Lemma last_cons : forall (l : list R) a p, last (a :: l) p = last l a.
  Proof. induction l as [|b l IH]; intros a p; auto. change (last (a :: b :: l) p) with (last (b :: l) p). rewrite !IH. auto. Qed.
  Lemma start_dup : forall s e n S2 S1 p, rsorted (S1 ++ e :: n :: S2) ->
    (B e = true /\ s = 1) \/ (B e = false /\ s * (n - last S1 p) = n - e) -> startOK s e p (dupl (S1 ++ e :: n :: S2)).
  Proof.
    intros s e n S2. induction S1 as [|a S1 IH]; intros p S H.
    - cbn [app] in *. inversion S as [|? ? S' F]; subst. assert (e < n) by (inversion F; auto).
      destruct (dupl_head n S2) as (t & E). unfold dupl in *. cbn [flat_map] in E |- *. rewrite E. cbn in H.
      destruct H as [[-> ->]|[-> H]]; cbn.
      + destruct (Rle_dec e e); [|lra]. destruct (Rle_dec n e); [lra|]. split; auto; ring.
      + destruct (Rle_dec n e); [lra|]. auto.
    - cbn [app] in *. inversion S as [|? ? S' F]; subst. rewrite Forall_forall in F. rewrite last_cons in H. specialize (IH a S' H).
      assert (a < e) by (apply F, in_or_app; right; left; auto).
      assert (exists x t, dupl (S1 ++ e :: n :: S2) = x :: t /\ x <= e) as (x & t & E & L).
      { destruct S1 as [|b S1]; cbn [app] in *; [destruct (dupl_head e (n :: S2)) as (t & ->); exists e, t; split; auto; lra|].
        destruct (dupl_head b (S1 ++ e :: n :: S2)) as (t & ->). exists b, t. split; auto. inversion S' as [|? ? _ F']; subst. rewrite Forall_forall in F'. left. apply F', in_or_app; right; left; auto. }
      unfold dupl in *. cbn [flat_map]. rewrite E in *. destruct (B a).
      + change (startOK s e p (a :: a :: x :: t)). cbn [startOK]. destruct (Rle_dec a e); [|lra]. destruct (Rle_dec x e); [|lra]. exact IH.
      + change (startOK s e p (a :: x :: t)). cbn [startOK]. destruct (Rle_dec x e); [|lra]. exact IH.
  Qed.
  Lemma stop_dup : forall s e S2 S1 p, rsorted (S1 ++ e :: S2) ->
    (B e = true /\ s = 1) \/ (B e = false /\ exists n t, S2 = n :: t /\ s * (n - last S1 p) = e - last S1 p) -> stopOK s e p (dupl (S1 ++ e :: S2)).
  Proof.
    intros s e S2. induction S1 as [|a S1 IH]; intros p S H.
    - cbn [app] in *. unfold dupl. cbn [flat_map]. destruct H as [[-> ->]|[-> (n & t & -> & H)]]; cbn [app stopOK].
      + destruct (Req_EM_T e e); [|contradiction]. ring.
      + destruct (Req_EM_T e e); [|contradiction]. destruct (dupl_head n t) as (u & E). unfold dupl in E. rewrite E. exact H.
    - cbn [app] in *. inversion S as [|? ? S' F]; subst. rewrite Forall_forall in F. assert (a < e) by (apply F, in_or_app; right; left; auto).
      assert (H' : (B e = true /\ s = 1) \/ (B e = false /\ exists n t, S2 = n :: t /\ s * (n - last S1 a) = e - last S1 a)).
      { destruct H as [H|[H (n & t & E & X)]]; [left; auto|right; split; auto]. exists n, t. rewrite last_cons in X. auto. }
      specialize (IH a S' H'). unfold dupl in *. cbn [flat_map]. destruct (B a); cbn [app stopOK]; destruct (Req_EM_T a e); try lra; auto.
  Qed.
End Dup.
Lemma prevOf_ok : forall S1 e S2, rsorted (S1 ++ e :: S2) -> S1 <> [] -> prevOf e (S1 ++ e :: S2) = Some (last S1 0).
Proof.
  induction S1 as [|a [|b S1] IH]; intros e S2 S N; [contradiction| |].
  - cbn. destruct (Req_EM_T e e); auto; contradiction.
  - cbn [app] in *. inversion S as [|? ? S' F]; subst. specialize (IH e S2 S'). inversion S' as [|? ? S'' F']; subst. rewrite Forall_forall in F'.
    assert (b < e) by (apply F', in_or_app; right; left; auto).
    change (prevOf e (a :: b :: S1 ++ e :: S2)) with (if Req_EM_T b e then Some a else prevOf e (b :: S1 ++ e :: S2)). destruct (Req_EM_T b e); [lra|]. rewrite IH by discriminate. reflexivity.
Qed.
Lemma nextOf_ok : forall S1 e n S2, rsorted (S1 ++ e :: n :: S2) -> nextOf e (S1 ++ e :: n :: S2) = Some n.
Proof.
  induction S1 as [|a S1 IH]; intros e n S2 S.
  - cbn. destruct (Req_EM_T e e); auto; contradiction.
  - cbn [app] in *. inversion S as [|? ? S' F]; subst. rewrite Forall_forall in F. assert (a < e) by (apply F, in_or_app; right; left; auto).
    specialize (IH e n S2 S'). destruct (S1 ++ e :: n :: S2) as [|b l] eqn:Q; [destruct S1; discriminate|].
    change (nextOf e (a :: b :: l)) with (if Req_EM_T a e then Some b else nextOf e (b :: l)). destruct (Req_EM_T a e); [lra|]. exact IH.
Qed.
Lemma memR_true : forall e l, memR e l = true <-> In e l.
Proof. intros; unfold memR; destruct (in_dec Req_EM_T e l); split; auto; discriminate. Qed.
Lemma table_ends : forall l, table l -> exists a b t, l = a :: b :: t /\ front l < back l /\ In (front l) (map fst l) /\ In (back l) (map fst l).
Proof.
  intros l [L Inc]. destruct l as [|a [|b t]]; cbn in L; try lia. exists a, b, t. split; auto. 
  assert (In (last (a :: b :: t) (0, 0)) (b :: t)).
  { change (last (a :: b :: t) (0, 0)) with (last (b :: t) (0, 0)). clear. revert b. induction t as [|c t IH]; intros b; [left; auto|]. right. apply IH. }
  repeat split.
  - cbn [front]. unfold back. apply increasing_sorted in Inc. cbn [map] in Inc. inversion Inc as [|? ? _ F]; subst. rewrite Forall_forall in F. apply F. apply (in_map fst (b :: t)). exact H.
  - left; auto.
  - right. unfold back. apply (in_map fst (b :: t)). exact H.
Qed.
Lemma grid_energies : forall ls, map fst (grid ls) = dupl (isBoundary ls) (eSet ls).
Proof.
  intros ls. unfold grid, dupl. induction (eSet ls) as [|e l IH]; cbn; auto. rewrite map_app, IH. destruct (isBoundary ls e); auto.
Qed.
Lemma grid_area : forall ls, area (grid ls) = 0.
Proof.
  intros ls. assert (Z : forall q, In q (grid ls) -> snd q = 0). { intros q H. unfold grid in H. apply in_flat_map in H. destruct H as (e & _ & H). destruct (isBoundary ls e); cbn in H; intuition (subst; auto). }
  induction (grid ls) as [|p [|q l] IH]; auto. rewrite area2, IH by (intros; apply Z; right; auto). rewrite (Z p), (Z q) by (cbn; auto). field.
Qed.
Section Merge.
  Variable ls : list lspline.
  Hypothesis T : forall l, In l ls -> table l.
  Lemma eSet_ok : rsorted (eSet ls) /\ forall x, In x (eSet ls) <-> exists l, In l ls /\ In x (map fst l).
  Proof.
    unfold eSet, toSet. destruct (toSet_ok (flat_map (map fst) ls) []) as [A B]; [constructor|]. split; auto. intros x. rewrite B, in_flat_map. cbn. intuition.
  Qed.
  Lemma left_ok : forall x, In x (leftSet ls) <-> exists l, In l ls /\ front l = x.
  Proof. intros x. unfold leftSet, toSet. destruct (toSet_ok (map front ls) []) as [A B]; [constructor|]. rewrite B, in_map_iff. cbn. firstorder. Qed.
  Lemma right_ok : forall x, In x (rightSet ls) <-> exists l, In l ls /\ back l = x.
  Proof. intros x. unfold rightSet, toSet. destruct (toSet_ok (map back ls) []) as [A B]; [constructor|]. rewrite B, in_map_iff. cbn. firstorder. Qed.
  Lemma split_at : forall e, In e (eSet ls) -> exists S1 S2, eSet ls = S1 ++ e :: S2.
  Proof. intros e H. apply in_split in H. auto. Qed.
  Lemma last_indep : forall (l : list R) p q, l <> [] -> last l p = last l q.
  Proof. induction l as [|a [|b l] IH]; intros p q N; [contradiction|auto|]. apply IH. discriminate. Qed.
  (** a left boundary has a later node; if it is also a right boundary it has an earlier one *)
  Lemma start_ok : forall l p, In l ls -> exists s, startScale ls (front l) = Some s /\ startOK s (front l) p (map fst (grid ls)).
  Proof.
    intros l p Hl. destruct eSet_ok as [S I]. destruct (table_ends l (T l Hl)) as (a & b & t & E & L & F1 & F2).
    assert (In (front l) (eSet ls)) as If by (apply I; eauto). destruct (split_at _ If) as (S1 & S2 & ES).
    assert (In (back l) (eSet ls)) as Ib by (apply I; eauto). rewrite ES in Ib, S. destruct (rsorted_app _ _ S) as (A1 & A2 & A3).
    assert (exists n t, S2 = n :: t) as (n & t' & ->).
    { apply in_app_or in Ib. destruct Ib as [Ib|[Ib|Ib]]; [specialize (A3 _ _ Ib (or_introl eq_refl)); lra|lra|]. destruct S2; [destruct Ib|eauto]. }
    unfold startScale. rewrite grid_energies, ES. destruct (isBoundary ls (front l)) eqn:Q.
    - eexists. split; [reflexivity|]. apply start_dup; auto.
    - assert (S1 <> []) as N1.
      { unfold isBoundary in Q. assert (memR (front l) (leftSet ls) = true) as Ml by (apply memR_true, left_ok; eauto). rewrite Ml in Q.
        destruct (memR (front l) (rightSet ls)) eqn:Mr; [|discriminate]. apply memR_true, right_ok in Mr. destruct Mr as (l' & Hl' & El).
        destruct (table_ends l' (T l' Hl')) as (a' & b' & t'' & E' & L' & G1 & G2). rewrite El in L'.
        assert (In (front l') (eSet ls)) as X by (apply I; eauto). rewrite ES in X. apply in_app_or in X. destruct X as [X|X]; [intros ->; destruct X|].
        exfalso. destruct X as [X|X]; [lra|]. inversion A2 as [|? ? _ F]; subst. rewrite Forall_forall in F. apply F in X. lra. }
      rewrite prevOf_ok, nextOf_ok by auto. eexists. split; [reflexivity|]. apply start_dup; auto. right. split; auto.
      rewrite (last_indep S1 p 0 N1). assert (last S1 0 < n). { apply A3; [|right; left; auto]. destruct (exists_last N1) as (u & z & ->). rewrite last_last. apply in_or_app; right; left; auto. }
      field. lra.
  Qed.
  Lemma stop_ok : forall l p, In l ls -> exists s, stopScale ls (back l) = Some s /\ stopOK s (back l) p (map fst (grid ls)).
  Proof.
    intros l p Hl. destruct eSet_ok as [S I]. destruct (table_ends l (T l Hl)) as (a & b & t & E & L & F1 & F2).
    assert (In (back l) (eSet ls)) as If by (apply I; eauto). destruct (split_at _ If) as (S1 & S2 & ES).
    assert (In (front l) (eSet ls)) as Ib by (apply I; eauto). rewrite ES in Ib, S. destruct (rsorted_app _ _ S) as (A1 & A2 & A3).
    assert (S1 <> []) as N1.
    { apply in_app_or in Ib. destruct Ib as [Ib|[Ib|Ib]]; [intros ->; destruct Ib|exfalso; lra|]. exfalso. inversion A2 as [|? ? _ F]; subst. rewrite Forall_forall in F. apply F in Ib. lra. }
    unfold stopScale. rewrite grid_energies, ES. destruct (isBoundary ls (back l)) eqn:Q.
    - eexists. split; [reflexivity|]. apply stop_dup; auto.
    - assert (exists n t, S2 = n :: t) as (n & t' & ->).
      { unfold isBoundary in Q. assert (memR (back l) (rightSet ls) = true) as Ml by (apply memR_true, right_ok; eauto). rewrite Ml in Q.
        destruct (memR (back l) (leftSet ls)) eqn:Mr; [|discriminate]. apply memR_true, left_ok in Mr. destruct Mr as (l' & Hl' & El).
        destruct (table_ends l' (T l' Hl')) as (a' & b' & t'' & E' & L' & G1 & G2). rewrite El in L'.
        assert (In (back l') (eSet ls)) as X by (apply I; eauto). rewrite ES in X. apply in_app_or in X.
        destruct X as [X|[X|X]]; [specialize (A3 _ _ X (or_introl eq_refl)); lra|lra|]. destruct S2; [destruct X|eauto]. }
      rewrite prevOf_ok, nextOf_ok by auto. eexists. split; [reflexivity|]. apply stop_dup; auto. right. split; auto. exists n, t'. split; auto.
      rewrite (last_indep S1 p 0 N1). assert (last S1 0 < n). { apply A3; [|right; left; auto]. destruct (exists_last N1) as (u & z & ->). rewrite last_last. apply in_or_app; right; left; auto. }
      field. lra.
  Qed.
  Lemma mergeInto_ok : forall todo out p, incl todo ls -> map fst out = map fst (grid ls) ->
    exists o, mergeInto ls todo out = Some o /\ map fst o = map fst (grid ls) /\ areaP p o = areaP p out + rsuml (map area todo).
  Proof.
    induction todo as [|l todo IH]; intros out p I M; [exists out; cbn; repeat split; auto; ring|].
    assert (In l ls) as Hl by (apply I; left; auto). destruct (start_ok l p Hl) as (s1 & E1 & K1). destruct (stop_ok l p Hl) as (s2 & E2 & K2).
    destruct (table_ends l (T l Hl)) as (a & b & t & E & L & F1 & F2). rewrite <- M in K1, K2. pose proof (T l Hl) as Tl.
    destruct eSet_ok as [S J].
    subst l. cbn [mergeInto]. rewrite E1, E2. destruct (add_ok s1 s2 (front (a :: b :: t)) (back (a :: b :: t)) out a b t p) as (o & Eo & Mo & To); auto.
    - rewrite M, grid_energies. apply dupl_sorted; auto.
    - apply Tl.
    - intros q Hq. rewrite M, grid_energies. apply dupl_in, J. exists (a :: b :: t). split; auto. apply in_map. right; auto.
    - rewrite Eo. destruct (IH o p) as (o' & E' & M' & T'); [intros x Hx; apply I; right; auto|rewrite Mo; auto|].
      exists o'. split; auto. split; auto. rewrite T', To. cbn [map rsuml]. ring.
  Qed.
  Lemma merge_ok : exists o, mergeLsplines ls = Some o /\ area o = rsuml (map area ls).
  Proof.
    unfold mergeLsplines. destruct (mergeInto_ok ls (grid ls) (nextE 0 (grid ls))) as (o & E & M & X); [intros x; auto|auto|].
    exists o. split; auto.
    assert (G : forall l, areaP (nextE 0 l) l = area l) by (intros [|[e v] l]; auto; apply areaP_area).
    rewrite <- (nextE_map 0 o (grid ls) M), G in X. rewrite X. rewrite (nextE_map 0 o (grid ls) M), G, grid_area. ring.
  Qed.
End Merge.

(** ** bands *)
Lemma deltaAdd_keys : forall e v m k, In k (map fst (deltaAdd e v m)) <-> k = e \/ In k (map fst m).
Proof.
  intros e v m k; induction m as [|[a b] m IH]; cbn; [intuition|]. destruct (Rlt_dec e a); [cbn; intuition|]. destruct (Rlt_dec a e); cbn; [rewrite IH; intuition|].
  assert (e = a) by lra. subst. intuition.
Qed.
Lemma deltaAdd_sorted : forall e v m, rsorted (map fst m) -> rsorted (map fst (deltaAdd e v m)).
Proof.
  intros e v m; induction m as [|[a b] m IH]; intros H; cbn; [repeat constructor|]. cbn in H. inversion H as [|? ? H' F]; subst. destruct (Rlt_dec e a).
  - cbn. constructor; auto. constructor; auto. eapply List.Forall_impl; [|exact F]. cbn; intros; lra.
  - destruct (Rlt_dec a e); cbn; auto. constructor; auto. apply Forall_forall. intros x Hx. apply deltaAdd_keys in Hx. destruct Hx as [->|Hx]; auto. rewrite Forall_forall in F; auto.
Qed.
Definition energies (t : tetra) : R * R * R * R := let '(_, (q0, q1, q2, q3)) := t in (fst q0, fst q1, fst q2, fst q3).
(** intervals and delta energy of a tetrahedron *)
Definition tetKey (t : tetra) (k : R * R) : Prop :=
  let '(e0, e1, e2, e3) := energies t in fst k < snd k /\ (k = (e0, e1) \/ k = (e1, e2) \/ k = (e2, e3)).
Definition tetFlat (t : tetra) (e : R) : Prop := let '(e0, e1, e2, e3) := energies t in e3 = e0 /\ e = e0.
Lemma accum_keys : forall vol q0 q1 q2 q3 cs, ordered (vol, (q0, q1, q2, q3)) ->
  let r := accumTetrahedron vol q0 q1 q2 q3 cs in
  (forall k, In k (keys (pieces r)) <-> In k (keys (pieces cs)) \/ tetKey (vol, (q0, q1, q2, q3)) k) /\
  (forall e, In e (map fst (deltas r)) <-> In e (map fst (deltas cs)) \/ tetFlat (vol, (q0, q1, q2, q3)) e) /\
  (rsorted (map fst (deltas cs)) -> rsorted (map fst (deltas r))).
Proof.
  intros vol [e0 w0] [e1 w1] [e2 w2] [e3 w3] cs O. cbn in O. unfold tetKey, tetFlat, energies, accumTetrahedron. cbv zeta. cbn [fst snd].
  destruct (Req_EM_T e3 e0) as [E|N]; cbn [pieces deltas].
  - split; [|split].
    + intros k. split; auto. intros [H|(H & H')]; auto. exfalso. destruct H' as [->|[->| ->]]; cbn in H; lra.
    + intros e. rewrite deltaAdd_keys. intuition.
    + apply deltaAdd_sorted.
  - split; [|split; auto].
    + assert (X : forall a b v m k, In k (keys (if gt b a then pieceAdd (a, b) v m else m)) <-> In k (keys m) \/ (a < b /\ k = (a, b))).
      { intros a b v m k. unfold gt. destruct (Rlt_dec a b); [rewrite pieceAdd_keys; intuition|intuition]. }
      intros k. rewrite !X. split.
      * intros [[[H|[H ->]]|[H ->]]|[H ->]]; auto; right; cbn; split; auto.
      * intros [H|[H [->|[->| ->]]]]; cbn in H; auto.
    + intros e. split; auto. intros [H|[H _]]; auto. congruence.
Qed.
Lemma band_ok : forall ts, (forall t, In t ts -> ordered t) ->
  let cs := bandSpline ts in
  (forall k, In k (keys (pieces cs)) <-> exists t, In t ts /\ tetKey t k) /\
  (forall e, In e (map fst (deltas cs)) <-> exists t, In t ts /\ tetFlat t e) /\
  rsorted (map fst (deltas cs)) /\ integrals (pieces cs) + masses (deltas cs) = rsuml (map tetraWeight ts).
Proof.
  intros ts. unfold bandSpline.
  assert (G : forall ts cs, (forall t, In t ts -> ordered t) -> rsorted (map fst (deltas cs)) ->
    let r := fold_left (fun cs t => let '(vol, (q0, q1, q2, q3)) := t in accumTetrahedron vol q0 q1 q2 q3 cs) ts cs in
    (forall k, In k (keys (pieces r)) <-> In k (keys (pieces cs)) \/ exists t, In t ts /\ tetKey t k) /\
    (forall e, In e (map fst (deltas r)) <-> In e (map fst (deltas cs)) \/ exists t, In t ts /\ tetFlat t e) /\
    rsorted (map fst (deltas r)) /\ integrals (pieces r) + masses (deltas r) = integrals (pieces cs) + masses (deltas cs) + rsuml (map tetraWeight ts)).
  { clear ts. induction ts as [|t ts IH]; intros cs O S; cbv zeta.
    - cbn. split; [|split; [|split; auto; ring]].
      + intros k. split; auto. intros [H|(t & [] & _)]; auto.
      + intros k. split; auto. intros [H|(t & [] & _)]; auto.
    - cbn [fold_left]. assert (Ot : ordered t) by (apply O; left; auto). destruct t as [vol [[[q0 q1] q2] q3]].
      destruct (accum_keys vol q0 q1 q2 q3 cs Ot) as (A & B & C).
      destruct (IH (accumTetrahedron vol q0 q1 q2 q3 cs)) as (A' & B' & C' & D'); [intros; apply O; right; auto|auto|].
      cbv zeta in *. split; [|split; [|split; auto]].
      + intros k. rewrite A', A. split.
        * intros [[H|H]|(t & H & K)]; [auto|right; exists (vol, (q0, q1, q2, q3)); split; [left; auto|auto]|right; exists t; split; [right; auto|auto]].
        * intros [H|(t & [<-|H] & K)]; eauto.
      + intros k. rewrite B', B. split.
        * intros [[H|H]|(t & H & K)]; [auto|right; exists (vol, (q0, q1, q2, q3)); split; [left; auto|auto]|right; exists t; split; [right; auto|auto]].
        * intros [H|(t & [<-|H] & K)]; eauto.
      + rewrite D'. destruct q0 as [e0 w0], q1 as [e1 w1], q2 as [e2 w2], q3 as [e3 w3]. cbn in Ot. rewrite accum_integral by lra. cbn [map rsuml tetraWeight snd]. ring. }
  intros O. destruct (G ts {| pieces := []; deltas := [] |} O) as (A & B & C & D); [constructor|]. cbv zeta in *. split; [|split; [|split; auto]].
  - intros k. rewrite A. cbn. intuition.
  - intros k. rewrite B. cbn. intuition.
  - rewrite D. cbn. ring.
Qed.
