(** The table of pair transforms. *)
From Coq Require Import ZArith Reals List Bool Arith Lia Lra.
From Verif Require Import Base Vec3_Model ExPairs_Model ExPairs_Spec ExPairs_Proofs3.
Import ListNotations.

Notation mpt := (nat * Ktransform)%type.
Definition pcount (L : list (mpt * mpt)) (i j : nat) : nat := length (filter (fun p => (fst (fst p) =? i)%nat && (fst (snd p) =? j)%nat) L).
Record inv (thr : R) (L : list (mpt * mpt)) (a : table * nat) : Prop := Inv {
  i_mult : forall i j, totalMultiplicity (fst a i j) = pcount L i j;
  i_sound : forall i j t, In t (fst a i j) -> (0 < kt_multiplicity t)%nat /\
    exists ki kj, In ((i, ki), (j, kj)) L /\ kt_sym t = kt_sym (netTransform ki kj) /\ kt_invert t = kt_invert (netTransform ki kj);
  i_complete : (0 < thr)%R -> forall i j ki kj, In ((i, ki), (j, kj)) L -> exists t, In t (fst a i j) /\ kt_eqb thr t (netTransform ki kj) = true;
  i_distinct : forall i j, distinct thr (fst a i j);
  i_count : forall Q, (forall p, In p L -> (fst (fst p) < Q /\ fst (snd p) < Q)%nat) ->
    snd a = list_sum (map (fun ij => length (fst a (fst ij) (snd ij))) (list_prod (seq 0 Q) (seq 0 Q))) }.
Lemma sum_upd : forall (A : Type) (f g : A -> nat) l x d, NoDup l -> In x l -> f x = (g x + d)%nat -> (forall y, y <> x -> f y = g y) ->
  list_sum (map f l) = (list_sum (map g l) + d)%nat.
Proof.
  intros A f g l x d. induction l as [|y l IH]; intros N I E H; [destruct I|]. inversion N as [|? ? Hn N']; subst.
  cbn [map]. change (list_sum (?h :: ?t)) with (h + list_sum t)%nat. destruct I as [->|I].
  - rewrite E. replace (map f l) with (map g l); [unfold list_sum; cbn; lia|]. apply map_ext_in. intros z Hz. symmetry; apply H. intros ->. contradiction.
  - unfold list_sum in *; cbn [fold_right]. rewrite (IH N' I E H), (H y); [lia|]. intros ->; contradiction.
Qed.
Lemma NoDup_app' : forall (A : Type) (l m : list A), NoDup l -> NoDup m -> (forall x, In x l -> ~ In x m) -> NoDup (l ++ m).
Proof.
  intros A l m Hl Hm H. induction Hl as [|x l Hx Hl IH]; [exact Hm|]. cbn. constructor.
  - rewrite in_app_iff. intros [G|G]; [contradiction|]. apply (H x); [left; reflexivity|exact G].
  - apply IH. intros y Hy. apply H. right; exact Hy.
Qed.
Lemma NoDup_prod : forall (A B : Type) (l : list A) (m : list B), NoDup l -> NoDup m -> NoDup (list_prod l m).
Proof.
  intros A B l m Hl Hm. induction Hl as [|x l Hx Hl IH]; [constructor|]. cbn [list_prod]. apply NoDup_app'.
  - apply FinFun.Injective_map_NoDup; [intros a b E; congruence|exact Hm].
  - exact IH.
  - intros [a b] H1 H2. apply in_map_iff in H1. destruct H1 as [y [E _]]. injection E as -> ->. apply in_prod_iff in H2. destruct H2; contradiction.
Qed.
Lemma set_same : forall t i j l, setTable t i j l i j = l.
Proof. intros. unfold setTable. rewrite !Nat.eqb_refl. reflexivity. Qed.
Lemma set_other : forall t i j l i' j', (i', j') <> (i, j) -> setTable t i j l i' j' = t i' j'.
Proof.
  intros. unfold setTable. destruct (i' =? i)%nat eqn:E; destruct (j' =? j)%nat eqn:F; cbn; try reflexivity. apply Nat.eqb_eq in E, F. subst. contradiction.
Qed.
Lemma inv_step : forall thr L a p, inv thr L a -> inv thr (L ++ [p]) (scoreStep thr a p).
Proof.
  intros thr L a [[iq ki] [jq kj]] [Im Is Ic Id In']. unfold scoreStep. set (kt := netTransform ki kj). assert (kt_multiplicity kt = 1%nat) as K1 by reflexivity.
  set (r := addTransform thr kt (fst a iq jq)). split; cbn [fst snd].
  - intros i j. unfold pcount. rewrite filter_app, app_length. cbn [filter fst snd]. fold (pcount L i j).
    destruct (Nat.eq_dec i iq) as [->|Ni].
    + destruct (Nat.eq_dec j jq) as [->|Nj].
      * rewrite set_same. unfold r. rewrite add_total, Im by exact K1. rewrite !Nat.eqb_refl. cbn. lia.
      * rewrite set_other by congruence. replace (jq =? j)%nat with false by (symmetry; apply Nat.eqb_neq; congruence). rewrite andb_false_r. cbn. rewrite Im. lia.
    + rewrite set_other by congruence. replace (iq =? i)%nat with false by (symmetry; apply Nat.eqb_neq; congruence). cbn. rewrite Im. lia.
  - intros i j t Ht. destruct (Nat.eq_dec i iq) as [->|Ni]; [destruct (Nat.eq_dec j jq) as [->|Nj]|].
    + rewrite set_same in Ht. split.
      * apply (add_mult_pos thr kt (fst a iq jq) K1); [intros q Hq; apply (Is _ _ _ Hq)|exact Ht].
      * revert Ht. apply (add_sound thr kt (fst a iq jq) (fun s v => exists ki0 kj0, In ((iq, ki0), (jq, kj0)) (L ++ [((iq, ki), (jq, kj))]) /\ s = kt_sym (netTransform ki0 kj0) /\ v = kt_invert (netTransform ki0 kj0))).
        -- exists ki, kj. split; [apply in_or_app; right; left; reflexivity|split; reflexivity].
        -- intros q Hq. destruct (Is _ _ _ Hq) as [_ [x [y [H1 H2]]]]. exists x, y. split; [apply in_or_app; left; exact H1|exact H2].
    + rewrite set_other in Ht by congruence. destruct (Is _ _ _ Ht) as [H0 [x [y [H1 H2]]]]. split; [exact H0|]. exists x, y. split; [apply in_or_app; left; exact H1|exact H2].
    + rewrite set_other in Ht by congruence. destruct (Is _ _ _ Ht) as [H0 [x [y [H1 H2]]]]. split; [exact H0|]. exists x, y. split; [apply in_or_app; left; exact H1|exact H2].
  - intros Hthr i j xi xj H. apply in_app_or in H. destruct H as [H|[H|[]]].
    + destruct (Ic Hthr _ _ _ _ H) as [t [H1 H2]]. destruct (Nat.eq_dec i iq) as [->|Ni]; [destruct (Nat.eq_dec j jq) as [->|Nj]|].
      * rewrite set_same. destruct (add_keeps thr kt _ _ H1) as [t' [A1 [A2 A3]]]. exists t'. split; [exact A1|]. rewrite <- H2. apply (eqb_ops thr t' t _ A2 A3).
      * rewrite set_other by congruence. exists t; split; assumption.
      * rewrite set_other by congruence. exists t; split; assumption.
    + injection H as <- <- <- <-. rewrite set_same. apply add_complete. exact Hthr.
  - intros i j. destruct (Nat.eq_dec i iq) as [->|Ni]; [destruct (Nat.eq_dec j jq) as [->|Nj]|].
    + rewrite set_same. apply add_distinct, Id.
    + rewrite set_other by congruence. apply Id.
    + rewrite set_other by congruence. apply Id.
  - intros Q HQ. rewrite (In' Q) by (intros q Hq; apply HQ; apply in_or_app; left; exact Hq). symmetry.
    destruct (HQ ((iq, ki), (jq, kj)) ltac:(apply in_or_app; right; left; reflexivity)) as [B1 B2]. cbn in B1, B2.
    apply (sum_upd _ _ _ _ (iq, jq)).
    + apply NoDup_prod; apply seq_NoDup.
    + apply in_prod; apply in_seq; lia.
    + cbn [fst snd]. rewrite set_same. apply add_length.
    + intros [x y] Hxy. cbn [fst snd]. rewrite set_other by exact Hxy. reflexivity.
Qed.
Lemma inv_fold : forall thr L' L a, inv thr L a -> inv thr (L ++ L') (fold_left (scoreStep thr) L' a).
Proof.
  intros thr L'; induction L' as [|p L' IH]; intros L a H; cbn [fold_left]; [rewrite app_nil_r; exact H|].
  replace (L ++ p :: L') with ((L ++ [p]) ++ L') by (rewrite <- app_assoc; reflexivity). apply IH, inv_step, H.
Qed.
Lemma inv_0 : forall thr, inv thr [] (fun _ _ => [], 0%nat).
Proof.
  intros. split; cbn.
  - reflexivity.
  - intros i j t [].
  - intros _ i j ki kj [].
  - intros. constructor.
  - intros Q _. generalize (list_prod (seq 0 Q) (seq 0 Q)). intros l. induction l as [|x l IH]; [reflexivity|]. cbn. exact IH.
Qed.
Definition pairsOf (mesh : list mpt) := flat_map (fun p => map (pair p) mesh) mesh.
Lemma score_inv : forall thr mesh, inv thr (pairsOf mesh) (score thr mesh).
Proof. intros. unfold score. fold (pairsOf mesh). apply (inv_fold thr (pairsOf mesh) [] _ (inv_0 thr)). Qed.
Lemma in_pairs : forall mesh p q, In (p, q) (pairsOf mesh) <-> In p mesh /\ In q mesh.
Proof.
  intros mesh p q. unfold pairsOf. rewrite in_flat_map. split.
  - intros [x [H1 H2]]. apply in_map_iff in H2. destruct H2 as [y [E H2]]. injection E as -> ->. auto.
  - intros [H1 H2]. exists p. split; [exact H1|]. apply in_map. exact H2.
Qed.
Lemma filter_len_map : forall (A B : Type) (f : A -> B) (g : B -> bool) l, length (filter g (map f l)) = length (filter (fun x => g (f x)) l).
Proof. intros. induction l as [|x l IH]; [reflexivity|]. cbn. destruct (g (f x)); cbn; rewrite IH; reflexivity. Qed.
Lemma meshCount_len : forall (mesh : list mpt) q, meshCount (map fst mesh) q = length (filter (fun p => (fst p =? q)%nat) mesh).
Proof. intros. unfold meshCount. rewrite filter_len_map. f_equal. apply filter_ext. intros. apply Nat.eqb_sym. Qed.
Lemma pairs_count : forall mesh i j, pcount (pairsOf mesh) i j = (meshCount (map fst mesh) i * meshCount (map fst mesh) j)%nat.
Proof.
  intros mesh i j. unfold pairsOf, pcount. rewrite !meshCount_len. 
  assert (forall l, length (filter (fun p : mpt * mpt => (fst (fst p) =? i)%nat && (fst (snd p) =? j)%nat) (flat_map (fun p => map (pair p) mesh) l)) =
    (length (filter (fun p : mpt => (fst p =? i)%nat) l) * length (filter (fun p : mpt => (fst p =? j)%nat) mesh))%nat) as G; [|apply G].
  induction l as [|x l IH]; [reflexivity|]. cbn [flat_map]. rewrite filter_app, app_length, IH, filter_len_map. cbn [fst snd filter]. destruct (fst x =? i)%nat; cbn.
  - reflexivity.
  - replace (filter (fun _ => false) mesh) with (@nil mpt); [reflexivity|]. clear. induction mesh; [reflexivity|exact IHmesh].
Qed.
Lemma count_total : forall (red : list nat) Q, (forall q, In q red -> (q < Q)%nat) -> list_sum (map (meshCount red) (seq 0 Q)) = length red.
Proof.
  intros red Q. unfold meshCount. induction red as [|x red IH]; intros H.
  - cbn. generalize (seq 0 Q). induction l; [reflexivity|exact IHl].
  - cbn [length]. rewrite <- IH by (intros; apply H; right; assumption). rewrite <- Nat.add_1_r.
    apply (sum_upd _ _ _ _ x); [apply seq_NoDup|apply in_seq; split; [lia|]; apply H; left; reflexivity| |].
    + cbn. rewrite Nat.eqb_refl. cbn. lia.
    + intros y Hy. cbn. replace (y =? x)%nat with false by (symmetry; apply Nat.eqb_neq; exact Hy). reflexivity.
Qed.
Lemma weight_total : forall w n l, rtotal (map (pairWeight w n) l) = (w * (/ (INR n * INR n)) * INR (totalMultiplicity l))%R.
Proof.
  intros. unfold rtotal, totalMultiplicity. induction l as [|t l IH]; [cbn; ring|]. cbn [map fold_right]. rewrite IH.
  change (list_sum (?h :: ?t)) with (h + list_sum t)%nat. replace (list_sum (kt_multiplicity t :: map kt_multiplicity l)) with (kt_multiplicity t + list_sum (map kt_multiplicity l))%nat by reflexivity.
  rewrite plus_INR. unfold pairWeight. ring.
Qed.
Lemma rtotal_INR : forall (l : list nat) (c : R), rtotal (map (fun x => c * INR x)%R l) = (c * INR (list_sum l))%R.
Proof.
  intros. unfold rtotal. induction l as [|x l IH]; [cbn; ring|]. cbn [map fold_right]. rewrite IH. replace (list_sum (x :: l)) with (x + list_sum l)%nat by reflexivity. rewrite plus_INR. ring.
Qed.
Lemma column_weight : forall thr mesh Q w jq, mesh <> [] -> (forall p, In p mesh -> (fst p < Q)%nat) ->
  rtotal (map (fun iq => rtotal (map (pairWeight w (length mesh)) (fst (score thr mesh) iq jq))) (seq 0 Q)) =
  (w * INR (meshCount (map fst mesh) jq) / INR (length mesh))%R.
Proof.
  intros thr mesh Q w jq Hne HQ. set (n := length mesh). assert (INR n <> 0)%R as Hn by (apply not_0_INR; unfold n; destruct mesh; [contradiction|discriminate]).
  rewrite (map_ext _ (fun iq => w * (/ (INR n * INR n)) * INR (meshCount (map fst mesh) jq) * INR (meshCount (map fst mesh) iq))%R).
  - rewrite <- (map_map (meshCount (map fst mesh)) (fun x => w * (/ (INR n * INR n)) * INR (meshCount (map fst mesh) jq) * INR x)%R), rtotal_INR, count_total.
    + rewrite map_length. fold n. field. exact Hn.
    + intros q Hq. apply in_map_iff in Hq. destruct Hq as [p [<- Hp]]. apply HQ, Hp.
  - intros iq. rewrite weight_total, (i_mult _ _ _ (score_inv thr mesh)), pairs_count, mult_INR. ring.
Qed.
Lemma full_weight : forall thr mesh Q w, mesh <> [] -> (forall p, In p mesh -> (fst p < Q)%nat) ->
  rtotal (map (fun jq => rtotal (map (fun iq => rtotal (map (pairWeight w (length mesh)) (fst (score thr mesh) iq jq))) (seq 0 Q))) (seq 0 Q)) = w.
Proof.
  intros thr mesh Q w Hne HQ. rewrite (map_ext _ (fun jq => w / INR (length mesh) * INR (meshCount (map fst mesh) jq))%R).
  - rewrite <- (map_map (meshCount (map fst mesh)) (fun x => w / INR (length mesh) * INR x)%R), rtotal_INR, count_total.
    + rewrite map_length. field. apply not_0_INR; destruct mesh; [contradiction|discriminate].
    + intros q Hq. apply in_map_iff in Hq. destruct Hq as [p [<- Hp]]. apply HQ, Hp.
  - intros jq. rewrite column_weight by assumption. unfold Rdiv. ring.
Qed.
Lemma jcost_sum : forall Q t jq, jCost Q t jq = list_sum (map (fun iq => length (t iq jq)) (seq 0 Q)).
Proof.
  intros. unfold jCost. generalize (seq 0 Q). intros l. assert (forall l a, fold_left (fun s iq => (s + length (t iq jq))%nat) l a = (a + list_sum (map (fun iq => length (t iq jq)) l))%nat) as G; [|rewrite G; reflexivity].
  induction l0 as [|x l0 IH]; intros a; cbn [fold_left map]; [cbn; lia|]. rewrite IH. replace (list_sum (length (t x jq) :: map (fun iq => length (t iq jq)) l0)) with (length (t x jq) + list_sum (map (fun iq => length (t iq jq)) l0))%nat by reflexivity. lia.
Qed.
Lemma jcost_pos : forall thr mesh Q jq, (forall p, In p mesh -> (fst p < Q)%nat) -> In jq (map fst mesh) -> (0 < jCost Q (fst (score thr mesh)) jq)%nat.
Proof.
  intros thr mesh Q jq HQ Hj. rewrite jcost_sum. apply in_map_iff in Hj. destruct Hj as [[q k] [E Hp]]. cbn in E. subst q.
  assert (0 < length (fst (score thr mesh) jq jq))%nat as L.
  { pose proof (i_mult _ _ _ (score_inv thr mesh) jq jq) as H. rewrite pairs_count in H. destruct (fst (score thr mesh) jq jq); [|cbn; lia].
    cbn in H. assert (0 < meshCount (map fst mesh) jq)%nat as C; [|nia]. rewrite meshCount_len.
    assert (In (jq, k) (filter (fun p : mpt => (fst p =? jq)%nat) mesh)) as F by (apply filter_In; split; [exact Hp|cbn; apply Nat.eqb_refl]).
    destruct (filter _ mesh); [destruct F|cbn; lia]. }
  assert (forall l, In jq l -> (length (fst (score thr mesh) jq jq) <= list_sum (map (fun iq => length (fst (score thr mesh) iq jq)) l))%nat) as G.
  { induction l as [|x l IH]; [intros []|]. intros [->|H]; cbn [map]; unfold list_sum in *; cbn [fold_right]; [lia|]. specialize (IH H). lia. }
  apply Nat.lt_le_trans with (1 := L). apply G. apply in_seq. specialize (HQ _ Hp). cbn in HQ. lia.
Qed.
