(** Proofs for C43: discontinuities, delta functions and linear tables. *)
From Coq Require Import ZArith Reals List Bool Lra Lia Psatz Sorting.Sorted.
From Coquelicot Require Import Coquelicot.
From Verif Require Import Base Tetra_Model Tetra_Spec Tetra_Proofs Tetra_Proofs2.
Import ListNotations.
Open Scope R_scope.

(** ** delta functions *)
Definition dval (ds : list (R * R)) (e : R) : R := match findDelta e ds with Some v => v | None => 0 end.
Lemma dval_notin : forall ds e, ~ In e (map fst ds) -> dval ds e = 0.
Proof.
  induction ds as [|[k v] ds IH]; intros e H; cbn; auto. unfold dval in *; cbn. destruct (Req_EM_T k e) as [->|N]; [exfalso; apply H; left; auto|]. apply IH. intros X; apply H; right; auto.
Qed.
Lemma dval_cons : forall k v ds e, dval ((k, v) :: ds) e = if Req_EM_T k e then v else dval ds e.
Proof. intros; unfold dval; cbn. destruct (Req_EM_T k e); auto. Qed.
Lemma dval_in : forall ds d v, NoDup (map fst ds) -> In (d, v) ds -> dval ds d = v.
Proof.
  induction ds as [|[k u] ds IH]; intros d v N H; [destruct H|]. rewrite dval_cons. inversion N as [|? ? N1 N2]; subst. destruct H as [H|H].
  - injection H as <- <-. destruct (Req_EM_T k k); auto; contradiction.
  - destruct (Req_EM_T k d) as [->|]; [|apply IH; auto]. exfalso. apply N1. apply in_map_iff. exists (d, v); auto.
Qed.
Definition dsum (ds : list (R * R)) (l : list R) : R := rsuml (map (dval ds) l).
Lemma dsum_cons : forall ds k v l, ~ In k (map fst ds) -> NoDup l -> dsum ((k, v) :: ds) l = dsum ds l + (if in_dec Req_EM_T k l then v else 0).
Proof.
  intros ds k v l N H; unfold dsum. induction H as [|e l X H IH]; [cbn; ring|]. cbn [map rsuml].
  rewrite IH, dval_cons. destruct (Req_EM_T k e) as [->|Ne].
  - rewrite (dval_notin ds e N). destruct (in_dec Req_EM_T e l); [contradiction|]. destruct (in_dec Req_EM_T e (e :: l)) as [|Q]; [lra|exfalso; apply Q; left; auto].
  - destruct (in_dec Req_EM_T k l) as [I|I], (in_dec Req_EM_T k (e :: l)) as [J|J]; try lra; exfalso; cbn in J; intuition.
Qed.
Lemma dsum_all : forall ds l, NoDup (map fst ds) -> NoDup l -> incl (map fst ds) l -> dsum ds l = masses ds.
Proof.
  induction ds as [|[k v] ds IH]; intros l N H I.
  - unfold dsum. cbn. induction l; cbn; auto. rewrite IHl; [unfold dval; cbn; ring|inversion H; auto|intros x []].
  - inversion N as [|? ? N1 N2]; subst. rewrite dsum_cons by auto. rewrite IH; auto; [|intros x Hx; apply I; right; auto].
    destruct (in_dec Req_EM_T k l) as [|Q]; [cbn; ring|]. exfalso; apply Q, I; left; auto.
Qed.
Lemma increasing_sorted : forall l, increasing l <-> rsorted (map fst l).
Proof.
  induction l as [|p l IH]; [split; intros; [constructor|exact I]|].
  destruct l as [|q l].
  - split; intros; [repeat constructor|exact I].
  - change (increasing (p :: q :: l)) with (fst p < fst q /\ increasing (q :: l)). rewrite IH. cbn [map]. split.
    + intros [L S]. constructor; auto. inversion S as [|? ? _ F]; subst. constructor; auto. eapply List.Forall_impl; [|exact F]. cbn; intros; lra.
    + intros S. inversion S as [|? ? S' F]; subst. split; auto. inversion F; auto.
Qed.

(** ** contiguous pieces *)
Fixpoint contig (ks : list (R * R)) : Prop := match ks with k :: ((k' :: _) as l) => snd k = fst k' /\ contig l | _ => True end.
Fixpoint junctions (ks : list (R * R)) : list R := match ks with k :: ((_ :: _) as l) => snd k :: junctions l | _ => [] end.
Lemma fixDisc_ok : forall ds l cur, proper (cur :: l) -> contig (keys (cur :: l)) ->
  exists r, fixDisc ds cur l = Some r /\ keys r = keys (cur :: l) /\ joined r /\ (match r with p :: _ => b0of p = b0of cur | [] => False end) /\
  integrals r = integrals (cur :: l) + dsum ds (junctions (keys (cur :: l))).
Proof.
  intros ds l; induction l as [|[[f0 f1] [[[y0 y1] y2] y3]] l IH]; intros [[e0 e1] [[[x0 x1] x2] x3]] P C.
  - eexists. cbn [fixDisc]. split; [reflexivity|]. repeat split; auto. symmetry; apply Rplus_0_r.
  - cbn [fixDisc]. cbn [keys map contig fst snd] in C. destruct C as [C1 C2]. destruct (Req_EM_T f0 e1) as [->|N]; [|congruence].
    assert (e0 < e1) as L1 by (apply (P ((e0, e1), (x0, x1, x2, x3))); left; auto).
    assert (e1 < f1) as L2 by (apply (P ((e1, f1), (y0, y1, y2, y3))); right; left; auto).
    set (w := _ / _). destruct (IH ((e1, f1), (w, y1, y2, y3))) as (r & E & K & J & H & T).
    + intros p [<-|Hp]; [exact L2|apply P; right; right; auto].
    + exact C2.
    + rewrite E. eexists. split; [reflexivity|]. split; [cbn [keys map] in K |- *; unfold keys in K |- *; cbn; rewrite K; reflexivity|]. split; [|split; [reflexivity|]].
      * destruct r as [|q r]; [destruct H|]. cbn [joined]. split; [|split; auto]. cbn [keys map] in K. injection K as K _. rewrite K. reflexivity.
      * cbn [integrals fst snd] in T |- *. rewrite T, !piece_int. unfold bsum. unfold dsum. cbn [keys map fst snd junctions rsuml]. fold (dval ds e1).
        unfold w. match goal with |- context [rsuml ?a] => match goal with |- _ = _ + (_ + rsuml ?b) => change (rsuml a) with (rsuml b); generalize (rsuml b) end end. intros. unfold dval. destruct (findDelta e1 ds); field; lra.
Qed.
Lemma keys_consec : forall ns c, keys c = consec ns -> rsorted ns -> proper c /\ contig (keys c).
Proof.
  intros ns c K S. split.
  - intros p Hp. assert (In (fst p) (consec ns)) by (rewrite <- K; apply in_map; auto). apply consec_in in H; auto. apply H.
  - rewrite K. clear. induction ns as [|a [|b [|c l]] IH]; cbn; auto.
Qed.
Lemma junctions_consec : forall a b l, junctions (consec (a :: b :: l)) = removelast (b :: l).
Proof.
  intros a b l; revert a b; induction l as [|c l IH]; intros a b; [reflexivity|].
  change (b :: junctions (consec (b :: c :: l)) = b :: removelast (c :: l)). f_equal. apply IH.
Qed.
Lemma addBottom_ok : forall ds l n0, joined l -> proper l -> (match l with p :: _ => fst (fst p) = n0 | [] => False end) -> rsorted (map fst ds) -> (forall d, In d (map fst ds) -> n0 <= d) ->
  let r := addBottom ds l in keys r = keys l /\ joined r /\ integrals r = integrals l + dval ds n0.
Proof.
  intros ds l n0 J P H S M. destruct l as [|[[e0 e1] [[[x0 x1] x2] x3]] l]; [destruct H|]. cbn in H. subst n0.
  assert (e0 < e1) as L by (apply (P ((e0, e1), (x0, x1, x2, x3))); left; auto).
  destruct ds as [|[d v] ds]; cbn [addBottom]; cbv zeta.
  - split; auto. split; auto. unfold dval; cbn; ring.
  - destruct (Req_EM_T d e0) as [->|N].
    + split; [reflexivity|]. split; [destruct l; auto|]. rewrite dval_cons. destruct (Req_EM_T e0 e0); [|contradiction].
      cbn [integrals fst snd]. rewrite !piece_int. unfold bsum. field. lra.
    + split; [reflexivity|]. split; auto. rewrite dval_notin; [ring|]. cbn [map fst]. inversion S as [|? ? _ F]; subst. rewrite Forall_forall in F.
      assert (e0 <= d) by (apply M; left; auto). intros [X|X]; [cbn in X; lra|]. apply F in X. cbn in X. lra.
Qed.
Lemma integrals_app : forall a b, integrals (a ++ b) = integrals a + integrals b.
Proof. induction a; intros; cbn [app integrals]; [ring|rewrite IHa; ring]. Qed.
Lemma joined_last : forall l k x0 x1 x2 x3 y, joined (l ++ [(k, (x0, x1, x2, x3))]) -> joined (l ++ [(k, (x0, x1, x2, y))]).
Proof.
  induction l as [|p [|q l] IH]; intros k x0 x1 x2 x3 y H; auto.
  cbn [app joined] in H |- *. destruct H as (A & B & C). split; auto. split; auto. apply (IH k x0 x1 x2 x3 y C).
Qed.
Lemma addTop_ok : forall ds l n1, joined l -> proper l -> (match rev l with p :: _ => snd (fst p) = n1 | [] => False end) -> rsorted (map fst ds) -> (forall d, In d (map fst ds) -> d <= n1) ->
  let r := addTop ds l in keys r = keys l /\ joined r /\ integrals r = integrals l + dval ds n1.
Proof.
  intros ds l n1 J P H S M. unfold addTop. cbv zeta. change (@rev (interval * b4) l) with (@rev piece l). destruct (rev l) as [|[[e0 e1] [[[x0 x1] x2] x3]] l'] eqn:RL; [destruct H|]. cbn in H. subst n1.
  assert (E : l = rev l' ++ [((e0, e1), (x0, x1, x2, x3))]) by (rewrite <- (rev_involutive l), RL; reflexivity).
  assert (e0 < e1) as L by (apply (P ((e0, e1), (x0, x1, x2, x3))); rewrite E; apply in_or_app; right; left; auto).
  destruct (rev ds) as [|[d v] ds'] eqn:RD.
  - assert (ds = []) as -> by (rewrite <- (rev_involutive ds), RD; reflexivity). repeat split; auto. unfold dval; cbn; ring.
  - assert (ED : ds = rev ds' ++ [(d, v)]) by (rewrite <- (rev_involutive ds), RD; reflexivity).
    assert (In (d, v) ds) as Id by (rewrite ED; apply in_or_app; right; left; auto).
    assert (forall x, In x (map fst ds) -> x <= d) as Mx.
    { intros x Hx. rewrite ED, map_app in Hx, S. destruct (rsorted_app _ _ S) as (_ & _ & Q). apply in_app_or in Hx. destruct Hx as [Hx|[Hx|[]]]; [left; apply Q; [auto|left; auto]|cbn in Hx; lra]. }
    destruct (Req_EM_T d e1) as [->|N].
    + cbn [rev]. split; [|split].
      * rewrite E. unfold keys. rewrite !map_app. reflexivity.
      * rewrite E in J. apply (joined_last _ _ _ _ _ _ _ J).
      * rewrite E, !integrals_app, (dval_in ds e1 v); auto; [|apply rsorted_nodup; auto]. cbn [integrals fst snd]. rewrite !piece_int. unfold bsum.
        match goal with |- integrals ?a + _ = integrals ?b + _ + _ => change (integrals a) with (integrals b); generalize (integrals b) end. intros. field. lra.
    + split; [reflexivity|]. split; auto. rewrite dval_notin; [ring|]. intros X. specialize (Mx _ X).
      assert (d <= e1) by (apply M; apply in_map_iff; exists (d, v); auto). lra.
Qed.
Lemma last_key : forall ns c, keys c = consec ns -> (2 <= List.length ns)%nat -> match rev c with p :: _ => snd (fst p) = last ns 0 | [] => False end.
Proof.
  intros ns c; revert ns. induction c as [|p c IH] using rev_ind; intros ns K L.
  - destruct ns as [|a [|b ns]]; cbn in L; try lia. discriminate.
  - rewrite rev_app_distr. cbn [rev app]. unfold keys in K. rewrite map_app in K. cbn [map] in K. clear IH L.
    assert (G : forall ns ks q, ks ++ [q] = consec ns -> snd q = last ns 0); [|apply (G _ _ _ K)].
    clear. induction ns as [|a [|b l] IH]; intros ks q H; cbn in H; try (destruct ks; discriminate).
    destruct ks as [|k ks]; cbn in H.
    + injection H as -> H. destruct l; [reflexivity|discriminate].
    + injection H as -> H. apply IH in H. rewrite H. reflexivity.
Qed.
Lemma sorted_last : forall ns x, rsorted ns -> In x ns -> x <= last ns 0.
Proof.
  induction ns as [|a [|b l] IH]; intros x S H; [destruct H|destruct H as [<-|[]]; cbn; lra|].
  inversion S as [|? ? S' F]; subst. rewrite Forall_forall in F. change (last (a :: b :: l) 0) with (last (b :: l) 0). destruct H as [<-|H]; [|apply IH; auto].
  apply Rle_trans with b; [left; apply F; left; auto|apply IH; auto; left; auto].
Qed.
Lemma dsum_last : forall ds a l, l <> [] -> dval ds a + dsum ds (removelast l) + dval ds (last l 0) = dsum ds (a :: l).
Proof.
  intros ds a l N. rewrite (app_removelast_last 0 N) at 3. unfold dsum. cbn [map rsuml]. rewrite map_app.
  assert (forall x y, rsuml (x ++ y) = rsuml x + rsuml y) as Q by (induction x; intros; cbn; [ring|rewrite IHx; ring]). rewrite Q. cbn. ring.
Qed.

Lemma coalesce_ok : forall cs, pieces cs <> [] -> proper (pieces cs) -> increasing (deltas cs) -> gapless (pieces cs) (deltas cs) ->
  exists c, coalesceIntervals cs = Some c /\ deltas c = [] /\ pieces c <> [] /\ proper (pieces c) /\ joined (pieces c) /\ integrals (pieces c) = integrals (pieces cs) + masses (deltas cs) /\
  keys (pieces c) = consec (nodes cs).
Proof.
  intros cs NE P D G. destruct (nodes_ok cs) as [S N]. destruct (split_gapless cs P G) as (c & E & K & T & _).
  apply increasing_sorted in D.
  unfold coalesceIntervals. rewrite E.
  assert (exists a b l, nodes cs = a :: b :: l) as (a & b & l & EN).
  { destruct (pieces cs) as [|p ps] eqn:Q; [contradiction|]. assert (fst (fst p) < snd (fst p)) by (apply P; left; auto).
    assert (In (fst (fst p)) (nodes cs)) by (apply N; left; exists p; split; [left; auto|auto]).
    assert (In (snd (fst p)) (nodes cs)) by (apply N; left; exists p; split; [left; auto|auto]).
    destruct (nodes cs) as [|a [|b l]]; [contradiction|cbn in *; exfalso; lra|eauto]. }
  destruct (keys_consec _ _ K S) as [Pc Cc].
  destruct c as [|cur rest]; [rewrite EN in K; discriminate|].
  destruct (fixDisc_ok (deltas cs) rest cur Pc Cc) as (r & E2 & K2 & J2 & H2 & T2). rewrite E2.
  assert (forall d, In d (map fst (deltas cs)) -> In d (nodes cs)) as Dn.
  { intros d Hd. apply in_map_iff in Hd. destruct Hd as (x & <- & Hx). apply N. right. exists x; auto. }
  assert (KR : keys r = consec (nodes cs)) by (etransitivity; [exact K2|exact K]).
  assert (Pr : proper r) by (apply (keys_consec _ _ KR S)).
  destruct (addBottom_ok (deltas cs) r a J2 Pr) as (K3 & J3 & T3); auto.
  { rewrite EN in KR. destruct r as [|p r]; [destruct H2|]. cbn in KR. injection KR as KR _. rewrite KR. reflexivity. }
  { intros d Hd. apply Dn in Hd. rewrite EN in Hd, S. destruct Hd as [->|Hd]; [lra|]. inversion S as [|? ? _ F]; subst. rewrite Forall_forall in F. left; auto. }
  assert (KB : keys (addBottom (deltas cs) r) = consec (nodes cs)) by (etransitivity; [exact K3|exact KR]).
  destruct (addTop_ok (deltas cs) (addBottom (deltas cs) r) (last (nodes cs) 0) J3) as (K4 & J4 & T4); auto.
  { apply (keys_consec _ _ KB S). }
  { apply last_key; auto. rewrite EN; cbn; lia. }
  { intros d Hd. apply sorted_last; auto. }
  eexists. split; [reflexivity|]. cbn [deltas pieces]. split; auto.
  assert (KT : keys (addTop (deltas cs) (addBottom (deltas cs) r)) = consec (nodes cs)) by (etransitivity; [exact K4|exact KB]).
  split; [intros Q; rewrite Q, EN in KT; discriminate|]. split; [apply (keys_consec _ _ KT S)|]. split; auto. split; auto.
  assert (T2' : integrals r = integrals (pieces cs) + dsum (deltas cs) (removelast (b :: l))).
  { etransitivity; [exact T2|]. apply f_equal2; [exact T|]. apply f_equal. rewrite <- (junctions_consec a b l). apply f_equal. rewrite <- EN. exact K. }
  etransitivity; [exact T4|]. rewrite T3, T2', EN. rewrite <- (dsum_all (deltas cs) (nodes cs)); [|apply rsorted_nodup; exact D|apply rsorted_nodup; exact S|intros x Hx; auto].
  rewrite ?EN. rewrite <- (dsum_last _ a (b :: l)) by discriminate. change (last (a :: b :: l) 0) with (last (b :: l) 0). ring.
Qed.

(** ** linear tables *)
Lemma d60 : 0.60 = 3/5. Proof. lra. Qed.
Lemma d15 : 0.15 = 3/20. Proof. lra. Qed.
Lemma area2 : forall p q l, area (p :: q :: l) = (fst q - fst p) * (snd p + snd q) / 2 + area (q :: l).
Proof. reflexivity. Qed.
Lemma convert_area : forall ps p, proper (p :: ps) -> joined (p :: ps) ->
  area ((fst (fst p), b0of p) :: flat_map convertPiece (p :: ps)) = integrals (p :: ps).
Proof.
  induction ps as [|q ps IH]; intros [[e0 e3] [[[b0 b1] b2] b3]] P J.
  - cbn [flat_map convertPiece app area fst snd b0of integrals]. rewrite piece_int. unfold bsum. rewrite d60, d15. field.
  - destruct J as (J1 & J2 & J3).
    change (flat_map convertPiece ((e0, e3, (b0, b1, b2, b3)) :: q :: ps)) with (convertPiece (e0, e3, (b0, b1, b2, b3)) ++ flat_map convertPiece (q :: ps)).
    cbn [convertPiece app fst snd b0of]. rewrite !(area2 _ (_, _)). cbn [fst snd].
    change (integrals (?x :: q :: ps)) with (RInt (pieceAt x) (fst (fst x)) (snd (fst x)) + integrals (q :: ps)).
    rewrite <- (IH q) by (auto; intros x Hx; apply P; right; auto). cbn [fst snd b3of] in J1, J2. rewrite <- J1, <- J2.
    cbn [integrals fst snd]. rewrite piece_int. unfold bsum. 
    generalize (area ((e3, b3) :: flat_map convertPiece (q :: ps))). intros. rewrite d60, d15. field.
Qed.
Lemma convert_table : forall ps p, proper (p :: ps) -> joined (p :: ps) -> increasing ((fst (fst p), b0of p) :: flat_map convertPiece (p :: ps)).
Proof.
  induction ps as [|q ps IH]; intros [[e0 e3] [[[b0 b1] b2] b3]] P J.
  - assert (e0 < e3) by (apply (P ((e0, e3), (b0, b1, b2, b3))); left; auto). cbn. repeat split; auto; lra.
  - destruct J as (J1 & J2 & J3). assert (e0 < e3) by (apply (P ((e0, e3), (b0, b1, b2, b3))); left; auto).
    change (flat_map convertPiece ((e0, e3, (b0, b1, b2, b3)) :: q :: ps)) with (convertPiece (e0, e3, (b0, b1, b2, b3)) ++ flat_map convertPiece (q :: ps)).
    assert (X : increasing ((fst (fst q), b0of q) :: flat_map convertPiece (q :: ps))) by (apply IH; auto; intros x Hx; apply P; right; auto).
    cbn [fst snd b3of] in J1, J2. rewrite <- J1, <- J2 in X. cbn [convertPiece app fst]. cbn [increasing fst].
    split; [lra|]. split; [lra|]. split; [lra|]. exact X.
Qed.
Lemma convert_ok : forall ps, ps <> [] -> proper ps -> joined ps -> exists l, convertLspline ps = Some l /\ table l /\ area l = integrals ps.
Proof.
  intros [|p ps] N P J; [contradiction|]. assert (E : convertLspline (p :: ps) = Some ((fst (fst p), b0of p) :: flat_map convertPiece (p :: ps))) by (destruct p as [[e0 e3] [[[b0 b1] b2] b3]]; reflexivity).
  eexists. split; [exact E|]. split; [split; [|apply convert_table; auto]|apply convert_area; auto].
  destruct p as [[e0 e3] [[[b0 b1] b2] b3]]; cbn; lia.
Qed.
(** straight lines are reproduced *)
Lemma convert_linear : forall e0 e3 a s, e0 < e3 ->
  let b := (a + s*e0, a + s*(e0 + (e3-e0)/3), a + s*(e0 + 2*(e3-e0)/3), a + s*e3) in
  forall q, In q (convertPiece ((e0, e3), b)) -> snd q = a + s * fst q.
Proof. intros e0 e3 a s L b q H. cbn in H. destruct H as [<-|[<-|[<-|[]]]]; cbn [fst snd]; unfold b; rewrite ?d60, ?d15; field. Qed.
