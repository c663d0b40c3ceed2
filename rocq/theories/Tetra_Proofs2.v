(** Proofs for C43: coalescing the intervals and conversion to linear tables. *)
From Coq Require Import ZArith Reals List Bool Lra Lia Psatz Sorting.Sorted.
From Coquelicot Require Import Coquelicot.
From Verif Require Import Base Tetra_Model Tetra_Spec Tetra_Proofs.
Import ListNotations.
Open Scope R_scope.

(** ** sorted sets of reals *)
Notation rsorted := (StronglySorted Rlt).
Lemma setInsert_in : forall e l x, In x (setInsert e l) <-> x = e \/ In x l.
Proof.
  intros e l x; induction l as [|k l IH]; cbn; [intuition|].
  destruct (Rlt_dec e k); [cbn; intuition|]. destruct (Rlt_dec k e); cbn; [rewrite IH; intuition|].
  assert (e = k) by lra. subst. intuition.
Qed.
Lemma setInsert_sorted : forall e l, rsorted l -> rsorted (setInsert e l).
Proof.
  intros e l H; induction H as [|k l H IH F]; cbn; [repeat constructor|].
  destruct (Rlt_dec e k).
  - constructor; [constructor; auto|]. constructor; auto. eapply List.Forall_impl; [|exact F]. cbn. intros; lra.
  - destruct (Rlt_dec k e); [|constructor; auto]. constructor; auto. apply Forall_forall. intros x Hx. apply setInsert_in in Hx.
    destruct Hx as [->|Hx]; auto. rewrite Forall_forall in F; auto.
Qed.
Lemma toSet_ok : forall l s, rsorted s -> rsorted (fold_left (fun s e => setInsert e s) l s) /\ forall x, In x (fold_left (fun s e => setInsert e s) l s) <-> In x l \/ In x s.
Proof.
  induction l as [|e l IH]; intros s H; cbn; [split; auto; intuition|].
  destruct (IH (setInsert e s)) as [A B]; [apply setInsert_sorted; auto|]. split; auto. intros x. rewrite B, setInsert_in. intuition.
Qed.
Lemma rsorted_app : forall l1 l2, rsorted (l1 ++ l2) -> rsorted l1 /\ rsorted l2 /\ forall a b, In a l1 -> In b l2 -> a < b.
Proof.
  induction l1 as [|a l1 IH]; intros l2 H; cbn in *; [repeat split; auto; try constructor; intros ? ? []|].
  inversion H as [|? ? H' F]; subst. destruct (IH _ H') as (A & B & C). rewrite Forall_forall in F. repeat split; auto.
  - constructor; auto. apply Forall_forall. intros x Hx. apply F, in_or_app; auto.
  - intros x y [<-|Hx] Hy; auto. apply F, in_or_app; auto.
Qed.
Lemma rsorted_nodup : forall l, rsorted l -> NoDup l.
Proof. induction 1 as [|a l H IH F]; constructor; auto. rewrite Forall_forall in F. intros X. apply F in X. lra. Qed.

Lemma nodes_ok : forall cs, rsorted (nodes cs) /\ forall x, In x (nodes cs) <-> nodeOf (pieces cs) (deltas cs) x.
Proof.
  intros cs. unfold nodes.
  assert (P : forall ps s, rsorted s -> rsorted (fold_left (fun (s : list R) (p : interval * b4) => setInsert (snd (fst p)) (setInsert (fst (fst p)) s)) ps s) /\
    forall x, In x (fold_left (fun (s : list R) (p : interval * b4) => setInsert (snd (fst p)) (setInsert (fst (fst p)) s)) ps s) <-> (exists p, In p ps /\ (x = fst (fst p) \/ x = snd (fst p))) \/ In x s).
  { induction ps as [|p ps IH]; intros s H; cbn [fold_left].
    - split; auto. intros x. split; auto. intros [(p & [] & _)|]; auto.
    - destruct (IH (setInsert (snd (fst p)) (setInsert (fst (fst p)) s))) as [A B]; [repeat apply setInsert_sorted; auto|]. split; auto.
      intros x. rewrite B, !setInsert_in. split.
      + intros [(q & Hq & Hx)|[->|[->|Hx]]]; [left; exists q; cbn; auto|left; exists p; cbn; auto|left; exists p; cbn; auto|auto].
      + intros [(q & [<-|Hq] & Hx)|Hx]; [intuition|left; exists q; auto|auto]. }
  assert (D : forall (ds : list (R * R)) s, rsorted s -> rsorted (fold_left (fun s d => setInsert (fst d) s) ds s) /\ forall x, In x (fold_left (fun s d => setInsert (fst d) s) ds s) <-> (exists d, In d ds /\ x = fst d) \/ In x s).
  { induction ds as [|p ps IH]; intros s H; cbn [fold_left].
    - split; auto. intros x. split; auto. intros [(p & [] & _)|]; auto.
    - destruct (IH (setInsert (fst p) s)) as [A B]; [repeat apply setInsert_sorted; auto|]. split; auto.
      intros x. rewrite B, !setInsert_in. split.
      + intros [(q & Hq & Hx)|[->|Hx]]; [left; exists q; cbn; auto|left; exists p; cbn; auto|auto].
      + intros [(q & [<-|Hq] & Hx)|Hx]; [intuition|left; exists q; auto|auto]. }
  destruct (P (pieces cs) []) as [A B]; [constructor|]. destruct (D (deltas cs) _ A) as [A' B']. split; auto.
  intros x. rewrite B', B. unfold nodeOf. cbn. intuition.
Qed.

(** ** keys of the map of pieces *)
Definition keys (m : list piece) : list (R * R) := map fst m.
Notation ksorted := (StronglySorted (fun a b => intLt a b = true)).
Lemma intLt_spec : forall i j, intLt i j = true <-> fst i < fst j \/ (fst i = fst j /\ snd i < snd j).
Proof.
  intros [a b] [c d]; unfold intLt; cbn. destruct (Req_EM_T a c); [destruct (Rlt_dec b d)|destruct (Rlt_dec a c)]; split; auto; try discriminate; intros; lra.
Qed.
Lemma pieceAdd_keys : forall key v m k, In k (keys (pieceAdd key v m)) <-> k = key \/ In k (keys m).
Proof.
  intros key v m k; induction m as [|[k' b] m IH]; cbn [pieceAdd]; [cbn; intuition|].
  destruct (intLt key k') eqn:L1; [cbn; intuition|]. destruct (intLt k' key) eqn:L2.
  - cbn in IH |- *. rewrite IH. intuition.
  - apply intLt_eq in L1; auto; subst k'. cbn. intuition.
Qed.
Lemma pieceAdd_sorted : forall key v m, ksorted (keys m) -> ksorted (keys (pieceAdd key v m)).
Proof.
  intros key v m; induction m as [|[k b] m IH]; intros H; cbn [pieceAdd]; [repeat constructor|].
  cbn in H. inversion H as [|? ? H' F]; subst. destruct (intLt key k) eqn:L1.
  - cbn. constructor; auto. constructor; auto. eapply List.Forall_impl; [|exact F]. cbn. intros a. rewrite !intLt_spec in *. lra.
  - destruct (intLt k key) eqn:L2.
    + cbn. constructor; [apply IH; auto|]. apply Forall_forall. intros x Hx. apply pieceAdd_keys in Hx. destruct Hx as [->|Hx]; auto. rewrite Forall_forall in F; auto.
    + cbn. auto.
Qed.
Lemma ksorted_same : forall l l', ksorted l -> ksorted l' -> (forall k, In k l <-> In k l') -> l = l'.
Proof.
  induction l as [|a l IH]; intros l' H H' E.
  - destruct l' as [|b l']; auto. exfalso. apply (E b). left; auto.
  - destruct l' as [|b l']; [exfalso; apply (E a); left; auto|].
    inversion H as [|? ? S F]; inversion H' as [|? ? S' F']; subst. rewrite Forall_forall in F, F'.
    assert (a = b).
    { assert (In b (a :: l)) as Hb by (apply E; left; auto). assert (In a (b :: l')) as Ha by (apply E; left; auto).
      destruct Hb as [|Hb]; auto. destruct Ha as [|Ha]; auto. apply F in Hb. apply F' in Ha. rewrite intLt_spec in *. lra. }
    subst b. f_equal. apply IH; auto. intros k. specialize (E k). cbn in E. split; intros X.
    + assert (In k l') as Y; auto. destruct E as [E _]. destruct E as [<-|]; auto. apply F in X. rewrite intLt_spec in X. lra.
    + destruct E as [_ E]. destruct E as [<-|]; auto. apply F' in X. rewrite intLt_spec in X. lra.
Qed.
Fixpoint consec (l : list R) : list (R * R) := match l with a :: ((b :: _) as l') => (a, b) :: consec l' | _ => [] end.
Lemma consec_in : forall l k, rsorted l -> In k (consec l) -> In (fst k) l /\ In (snd k) l /\ fst k < snd k /\ forall x, In x l -> x <= fst k \/ snd k <= x.
Proof.
  induction l as [|a [|b l] IH]; intros k S H; [destruct H|destruct H|]. cbn [consec] in H. destruct H as [H|H].
  - inversion S as [|? ? S' F]; subst. rewrite Forall_forall in F. cbn [fst snd]. repeat split; [left; auto|right; left; auto|apply F; left; auto|].
    intros x [<-|[<-|Hx]]; [lra|lra|]. inversion S' as [|? ? _ F']; subst. rewrite Forall_forall in F'. right. left. auto.
  - inversion S as [|? ? S' F]; subst. rewrite Forall_forall in F. destruct (IH k S' H) as (A & B & C & D). repeat split; auto; try (right; auto; fail).
    intros x [<-|Hx]; auto. left. left. auto.
Qed.
Lemma consec_sorted : forall l, rsorted l -> ksorted (consec l).
Proof.
  induction l as [|a [|b l] IH]; intros S; try constructor.
  - apply IH. inversion S; auto.
  - inversion S as [|? ? S' F]; subst. apply Forall_forall. intros k H. apply (consec_in (b :: l)) in H; auto. rewrite Forall_forall in F.
    apply intLt_spec. left. cbn [fst]. apply F, H.
Qed.
Lemma consec_suffix : forall pre e l k, rsorted (pre ++ e :: l) -> (In k (consec (e :: l)) <-> In k (consec (pre ++ e :: l)) /\ e <= fst k).
Proof.
  induction pre as [|a pre IH]; intros e l k S.
  - cbn [app]. split; [intros H; split; auto|tauto]. apply consec_in in H; auto. destruct H as (H & _). destruct H as [H|H]; [lra|].
    inversion S as [|? ? _ F]; subst. rewrite Forall_forall in F. apply F in H. lra.
  - cbn [app] in S |- *. inversion S as [|? ? S' F]; subst. rewrite (IH e l k S').
    assert (N : a < e) by (rewrite Forall_forall in F; apply F, in_or_app; right; left; auto).
    destruct (pre ++ e :: l) as [|b m] eqn:Q; [destruct pre; discriminate|].
    cbn [consec]. cbn [In]. split; [tauto|]. intros [[<-|X] Y]; auto. cbn in Y. lra.
Qed.
Lemma findNode_ok : forall e l, In e l -> exists pre fol, l = pre ++ e :: fol /\ findNode e l = Some fol.
Proof.
  induction l as [|k l IH]; intros H; [destruct H|]. cbn. destruct (Req_EM_T k e) as [->|N].
  - exists [], l; auto.
  - destruct H as [->|H]; [contradiction|]. destruct (IH H) as (pre & fol & E & F). exists (k :: pre), fol. subst; auto.
Qed.

(** ** breaking up a piece *)
Definition prim (eStart eStop : R) (b : b4) (E : R) : R :=
  let '(b0, b1, b2, b3) := b in (eStop-eStart) * (let t := (E-eStart)*(1/(eStop-eStart)) in b0*(1-(1-t)^4)/4 + b1*(3*t^2/2-2*t^3+3*t^4/4) + b2*(t^3-3*t^4/4) + b3*t^4/4).
Definition subPiece (eStart eStop : R) (b : b4) (e eNext : R) : b4 :=
  let inv_de := 1/(eStop-eStart) in
  let v := bvalue b ((e-eStart)*inv_de) in let d := bderiv b ((e-eStart)*inv_de) * inv_de in
  let vNext := bvalue b ((eNext-eStart)*inv_de) in let dNext := bderiv b ((eNext-eStart)*inv_de) * inv_de in
  (v, v + (1/3)*(eNext-e)*d, vNext - (1/3)*(eNext-e)*dNext, vNext).
Lemma sub_int : forall eStart eStop b e eNext, eStop <> eStart ->
  (eNext - e) / 4 * bsum (subPiece eStart eStop b e eNext) = prim eStart eStop b eNext - prim eStart eStop b e.
Proof. intros eStart eStop [[[b0 b1] b2] b3] e eNext N. unfold subPiece, prim, bsum, bvalue, bderiv. cbv zeta. field. lra. Qed.
Lemma sub_value : forall eStart eStop b e eNext E, eStop <> eStart -> eNext <> e ->
  pieceAt ((e, eNext), subPiece eStart eStop b e eNext) E = pieceAt ((eStart, eStop), b) E.
Proof. intros eStart eStop [[[b0 b1] b2] b3] e eNext E N N'. unfold pieceAt, subPiece, bern, bvalue, bderiv. cbn [fst snd]. field. lra. Qed.
Lemma prim_ends : forall eStart eStop b, eStop <> eStart -> prim eStart eStop b eStop - prim eStart eStop b eStart = (eStop - eStart) / 4 * bsum b.
Proof. intros eStart eStop [[[b0 b1] b2] b3] N. unfold prim, bsum. cbv zeta. field. lra. Qed.

Definition contrib (E : R) (p : piece) : R := if inside E p then pieceAt p E else 0.
Lemma splitPiece_ok : forall eStart eStop b following e comb, eStart < eStop -> rsorted (e :: following) -> In eStop (e :: following) -> ksorted (keys comb) ->
  let inv_de := 1/(eStop-eStart) in
  exists c, splitPiece eStart eStop inv_de b e (bvalue b ((e-eStart)*inv_de)) (bderiv b ((e-eStart)*inv_de) * inv_de) following comb = Some c /\
  ksorted (keys c) /\ (forall k, In k (keys c) <-> In k (keys comb) \/ (In k (consec (e :: following)) /\ snd k <= eStop)) /\
  integrals c = integrals comb + (prim eStart eStop b eStop - prim eStart eStop b e) /\
  forall E, (forall x, In x (e :: following) -> E <> x) -> density c E = density comb E + (if inside E ((e, eStop), b) then pieceAt ((eStart, eStop), b) E else 0).
Proof.
  intros eStart eStop b following. induction following as [|eN l IH]; intros e comb L S I K inv_de.
  - destruct I as [<-|[]]. exists comb. cbn [splitPiece]. destruct (Req_EM_T e e) as [_|N]; [|contradiction]. repeat split; auto.
    + intros [H|[[] _]]; auto.
    + ring.
    + intros E _. rewrite inside_false by lra. ring.
  - cbn [splitPiece]. inversion S as [|? ? S' F]; subst. rewrite Forall_forall in F. assert (e < eN) by (apply F; left; auto).
    destruct (Req_EM_T e eStop) as [->|N].
    + exists comb. repeat split; auto.
      * intros [H0|[H0 H1]]; auto. apply (consec_in (eStop :: eN :: l)) in H0; auto. destruct H0 as (A & B & C & D). destruct (D eStop) as [X|X]; [left; auto| |]; try lra.
        exfalso. destruct B as [B|B]; [destruct A as [A|A]; [lra|apply F in A; lra]|apply F in B; lra].
      * ring.
      * intros E _. rewrite inside_false by lra. ring.
    + destruct I as [I|I]; [congruence|].
      assert (eN <= eStop). { destruct I as [->|I]; [lra|]. inversion S' as [|? ? _ F']; subst. rewrite Forall_forall in F'. left; auto. }
      destruct (IH eN (pieceAdd (e, eN) (subPiece eStart eStop b e eN) comb) L S' I) as (c & E & A & B & C & D); [apply pieceAdd_sorted; auto|].
      exists c. split; [exact E|]. split; auto. split; [|split].
      * intros k. rewrite B, pieceAdd_keys. cbn [consec In]. split; [intros [[->|X]|X]; intuition|intros [X|[[<-|X] Y]]; intuition].
      * rewrite C, pieceAdd_int. cbn [fst snd]. rewrite sub_int by lra. ring.
      * intros E' NE. rewrite D, pieceAdd_density by (intros x Hx; apply NE; right; auto). rewrite sub_value by lra.
        assert (E' <> e) by (apply NE; left; auto). assert (E' <> eN) by (apply NE; right; left; auto).
        destruct (Rlt_dec e E') as [Q1|Q1]; [|rewrite !inside_false by lra; ring].
        destruct (Rlt_dec E' eStop) as [Q2|Q2]; [|rewrite !inside_false by lra; ring].
        rewrite (inside_true E' e eStop) by lra. destruct (Rlt_dec E' eN).
        -- rewrite (inside_true E' e eN) by lra. rewrite inside_false by lra. ring.
        -- rewrite (inside_false E' e eN) by lra. rewrite inside_true by lra. ring.
Qed.
Lemma splitAll_ok : forall ns ps comb, rsorted ns -> proper ps -> (forall p, In p ps -> In (fst (fst p)) ns /\ In (snd (fst p)) ns) -> ksorted (keys comb) ->
  exists c, splitAll ns ps comb = Some c /\ ksorted (keys c) /\
  (forall k, In k (keys c) <-> In k (keys comb) \/ (In k (consec ns) /\ exists p, In p ps /\ fst (fst p) <= fst k /\ snd k <= snd (fst p))) /\
  integrals c = integrals comb + integrals ps /\
  forall E, (forall x, In x ns -> E <> x) -> density c E = density comb E + density ps E.
Proof.
  intros ns ps; induction ps as [|[[s t] b] ps IH]; intros comb S P I K.
  - exists comb. cbn. repeat split; auto; try ring. + intros [H|(_ & p & [] & _)]; auto. + intros; ring.
  - cbn [splitAll]. assert (s < t) as L by (apply (P ((s, t), b)); left; auto).
    destruct (I ((s, t), b)) as [Is It]; [left; auto|]. cbn [fst snd] in Is, It.
    destruct (findNode_ok s ns Is) as (pre & fol & Q & F). rewrite F. subst ns.
    destruct (rsorted_app _ _ S) as (_ & S2 & S12).
    assert (In t (s :: fol)) as It'. { apply in_app_or in It. destruct It as [It|]; auto. exfalso. specialize (S12 t s It (or_introl eq_refl)). lra. }
    destruct (splitPiece_ok s t b fol s comb L S2 It' K) as (c & E & A & B & C & D).
    cbv zeta. rewrite E.
    destruct (IH c) as (c' & E' & A' & B' & C' & D'); auto.
    + intros p Hp. apply P; right; auto.
    + intros p Hp. apply I; right; auto.
    + exists c'. split; auto. split; auto. split; [|split].
      * intros k. rewrite B', B, (consec_suffix _ _ _ _ S). split.
        -- intros [[X|((X & Y) & Z)]|(X & p & Hp & Y)]; auto; right; split; auto; [exists ((s, t), b); cbn; auto|exists p; cbn; auto].
        -- intros [X|(X & p & [<-|Hp] & Y)]; [auto|cbn [fst snd] in Y; left; right; tauto|]. right. split; auto. exists p; auto.
      * rewrite C', C. cbn [integrals fst snd]. rewrite piece_int, prim_ends by lra. ring.
      * intros E0 N. rewrite D' by auto. rewrite D by (intros x Hx; apply N, in_or_app; auto). cbn [density].
        rewrite Rplus_assoc. reflexivity.
Qed.
Lemma split_gapless : forall cs, proper (pieces cs) -> gapless (pieces cs) (deltas cs) ->
  exists c, splitAll (nodes cs) (pieces cs) [] = Some c /\ keys c = consec (nodes cs) /\ integrals c = integrals (pieces cs) /\
  forall E, (forall x, nodeOf (pieces cs) (deltas cs) x -> E <> x) -> density c E = density (pieces cs) E.
Proof.
  intros cs P G. destruct (nodes_ok cs) as [S N].
  destruct (splitAll_ok (nodes cs) (pieces cs) []) as (c & E & A & B & C & D); auto.
  - intros p Hp. split; apply N; left; exists p; auto.
  - constructor.
  - exists c. split; auto. split; [|split].
    + apply ksorted_same; auto; [apply consec_sorted; auto|]. intros k. rewrite B. cbn. split; [tauto|]. intros H. right. split; auto.
      destruct (consec_in _ _ S H) as (K1 & K2 & K3 & K4).
      destruct (G (fst k) (snd k) ((fst k + snd k)/2)) as (p & Hp & X); [apply N; auto|apply N; auto|lra|].
      assert (In (fst (fst p)) (nodes cs) /\ In (snd (fst p)) (nodes cs)) as [M1 M2] by (split; apply N; left; exists p; auto).
      exists p. split; auto. apply K4 in M1. apply K4 in M2. split; lra.
    + rewrite C; cbn; ring.
    + intros E0 N0. rewrite D; cbn; [ring|]. intros x Hx. apply N0, N; auto.
Qed.
