(** Statements about the table, examples. *)
From Coq Require Import ZArith Reals List Bool Arith Lia Lra.
From Verif Require Import Base Vec3_Model Vec3_Facts ExPairs_Model ExPairs_Spec ExPairs_Proofs ExPairs_Proofs2 ExPairs_Proofs3 ExPairs_Proofs4.
Import ListNotations.

Lemma distinct_pairs : forall thr l, distinct thr l -> ForallOrdPairs (fun p q => kt_eqb thr p q = false) l.
Proof. intros thr l H. induction H as [|p l Hp H IH]; constructor; [apply Forall_forall; exact Hp|exact IH]. Qed.
Lemma table_multiplicities : forall thr mesh iq jq, totalMultiplicity (fst (score thr mesh) iq jq) = (meshCount (map fst mesh) iq * meshCount (map fst mesh) jq)%nat.
Proof. intros. rewrite (i_mult _ _ _ (score_inv thr mesh)). apply pairs_count. Qed.
Lemma table_sound : forall thr mesh iq jq t, In t (fst (score thr mesh) iq jq) -> (0 < kt_multiplicity t)%nat /\
  exists ki kj, In (iq, ki) mesh /\ In (jq, kj) mesh /\ kt_sym t = kt_sym (netTransform ki kj) /\ kt_invert t = kt_invert (netTransform ki kj).
Proof.
  intros thr mesh iq jq t H. destruct (i_sound _ _ _ (score_inv thr mesh) _ _ _ H) as [H0 [ki [kj [H1 H2]]]]. split; [exact H0|]. exists ki, kj. apply in_pairs in H1. tauto.
Qed.
Lemma table_complete : forall thr mesh iq jq ki kj, (0 < thr)%R -> In (iq, ki) mesh -> In (jq, kj) mesh ->
  exists t, In t (fst (score thr mesh) iq jq) /\ kt_invert t = kt_invert (netTransform ki kj) /\ sg_rot (kt_sym t) = sg_rot (kt_sym (netTransform ki kj)) /\
    (circDistanceSquared (sg_a (kt_sym t)) (sg_a (kt_sym (netTransform ki kj))) < thr * thr)%R.
Proof.
  intros thr mesh iq jq ki kj Ht H1 H2. destruct (i_complete _ _ _ (score_inv thr mesh) Ht iq jq ki kj) as [t [A B]]; [apply in_pairs; auto|].
  exists t. split; [exact A|]. unfold kt_eqb in B. destruct (Z.eqb_spec (kt_invert t) (kt_invert (netTransform ki kj))) as [E|]; [|discriminate]. cbn [negb] in B.
  destruct (meqb _ _) eqn:E2; [|discriminate]. cbn [negb] in B. destruct (Rlt_dec _ _) as [E3|]; [|discriminate]. split; [exact E|]. split; [|exact E3].
  revert E2. generalize (sg_rot (kt_sym t)) (sg_rot (kt_sym (netTransform ki kj))). intros [] []. unfold meqb. cbn. rewrite !andb_true_iff, !Z.eqb_eq. intros E2.
  decompose [and] E2. congruence.
Qed.
Lemma table_number : forall thr mesh Q, (forall p, In p mesh -> (fst p < Q)%nat) ->
  snd (score thr mesh) = list_sum (map (fun jq => jCost Q (fst (score thr mesh)) jq) (seq 0 Q)).
Proof.
  intros thr mesh Q H. rewrite (i_count _ _ _ (score_inv thr mesh) Q).
  - set (f := fun i j => length (fst (score thr mesh) i j)). rewrite (map_ext _ (fun jq => list_sum (map (fun iq => f iq jq) (seq 0 Q)))) by (intros; apply jcost_sum).
    assert (forall l m, list_sum (map (fun ij => f (fst ij) (snd ij)) (list_prod l m)) = list_sum (map (fun jq => list_sum (map (fun iq => f iq jq) l)) m)) as G; [|apply G].
    intros l m. induction l as [|x l IH]; cbn [list_prod].
    + cbn. induction m; [reflexivity|exact IHm].
    + rewrite map_app, list_sum_app, IH, map_map. cbn [fst snd map]. clear. induction m as [|y m IHm]; [reflexivity|]. cbn [map]. unfold list_sum in *; cbn [fold_right] in *. lia.
  - intros [p q] Hp. apply in_pairs in Hp. destruct Hp. split; apply H; assumption.
Qed.

(** a mesh of three points, two of which reduce to the second state, related by inversion of the second axis *)
Definition opE := SGO zid (V 0 0 0)%R.
Definition opM := SGO (zdiag 1 (-1) 1)%Z (V 0 0 0)%R.
Definition meshX : list (nat * Ktransform) := [(0%nat, KT opE 1 0); (1%nat, KT opE 1 0); (1%nat, KT opM 1 0)].
