(** Properties C88-C90: pairs of k-points, division of bands, and messages in the exact exchange. *)
From Coq Require Import ZArith Reals List Bool Arith Lia Lra.
From Verif Require Import Base Vec3_Model Vec3_Facts ExPairs_Model ExPairs_Spec ExPairs_Proofs ExPairs_Proofs2 ExPairs_Proofs3 ExPairs_Proofs4 ExPairs_Proofs5 ExPairs_Proofs6.
Import ListNotations.

(** ** C88 *)
Theorem C88_partition : forall (nProcs nBands : nat) (cost : list nat), (0 < nProcs)%nat -> (0 < nBands)%nat -> (forall c, In c cost -> (0 < c)%nat) ->
  flat_map (fun jProc => bandsOfRanges (statesOf nProcs nBands cost jProc)) (seq 0 nProcs) = allBands (length cost) nBands.
Proof. exact partition. Qed.
Print Assumptions C88_partition.
Theorem C88_ranges : forall (nProcs nBands : nat) (cost : list nat), (0 < nProcs)%nat -> (0 < nBands)%nat -> (forall c, In c cost -> (0 < c)%nat) -> forall jProc l,
  (jProc < nProcs)%nat -> In l (statesOf nProcs nBands cost jProc) -> (ls_iq l < length cost /\ ls_bStart l <= ls_bStop l /\ ls_bStop l <= nBands)%nat.
Proof. exact ranges. Qed.
Print Assumptions C88_ranges.
Theorem C88_balance : forall (nProcs nBands : nat) (cost : list nat), (0 < nProcs)%nat -> (0 < nBands)%nat -> (forall c, In c cost -> (0 < c)%nat) -> forall jProc m,
  (jProc < nProcs)%nat -> (forall c, In c cost -> (c <= m)%nat) -> (0 < m)%nat ->
  (nProcs * costOfBands cost (bandsOfRanges (statesOf nProcs nBands cost jProc)) < nBands * list_sum cost + nProcs * m)%nat.
Proof. exact balance. Qed.
Print Assumptions C88_balance.
Theorem C88_cost_positive : forall thr mesh qCount jq, (forall p, In p mesh -> (fst p < qCount)%nat) -> In jq (map fst mesh) -> (0 < jCost qCount (fst (score thr mesh)) jq)%nat.
Proof. exact jcost_pos. Qed.
Print Assumptions C88_cost_positive.
Example C88_example : map (fun j => map (fun l => (ls_iq l, ls_bStart l, ls_bStop l)) (statesOf 3 4 [1; 5; 2]%nat j)) [0; 1; 2]%nat = [[(0, 0, 4); (1, 0, 2)]; [(1, 2, 4)]; [(2, 0, 4)]]%nat.
Proof. reflexivity. Qed.
(** ** C89 *)
Theorem C89_multiplicities : forall thr mesh iq jq, totalMultiplicity (fst (score thr mesh) iq jq) = (meshCount (map fst mesh) iq * meshCount (map fst mesh) jq)%nat.
Proof. exact table_multiplicities. Qed.
Print Assumptions C89_multiplicities.
Theorem C89_sound : forall thr mesh iq jq t, In t (fst (score thr mesh) iq jq) -> (0 < kt_multiplicity t)%nat /\
  exists ki kj, In (iq, ki) mesh /\ In (jq, kj) mesh /\ kt_sym t = kt_sym (netTransform ki kj) /\ kt_invert t = kt_invert (netTransform ki kj).
Proof. exact table_sound. Qed.
Print Assumptions C89_sound.
Theorem C89_complete : forall thr mesh iq jq ki kj, (0 < thr)%R -> In (iq, ki) mesh -> In (jq, kj) mesh ->
  exists t, In t (fst (score thr mesh) iq jq) /\ kt_invert t = kt_invert (netTransform ki kj) /\ sg_rot (kt_sym t) = sg_rot (kt_sym (netTransform ki kj)) /\
    (circDistanceSquared (sg_a (kt_sym t)) (sg_a (kt_sym (netTransform ki kj))) < thr * thr)%R.
Proof. exact table_complete. Qed.
Print Assumptions C89_complete.
Theorem C89_no_duplicates : forall thr mesh iq jq, ForallOrdPairs (fun p q => kt_eqb thr p q = false) (fst (score thr mesh) iq jq).
Proof. exact (fun thr mesh iq jq => distinct_pairs thr _ (i_distinct _ _ _ (score_inv thr mesh) iq jq)). Qed.
Print Assumptions C89_no_duplicates.
Theorem C89_number : forall thr mesh qCount, (forall p, In p mesh -> (fst p < qCount)%nat) ->
  snd (score thr mesh) = list_sum (map (fun jq => jCost qCount (fst (score thr mesh)) jq) (seq 0 qCount)).
Proof. exact table_number. Qed.
Print Assumptions C89_number.
Theorem C89_state_weight : forall thr mesh qCount spinWeight jq, mesh <> [] -> (forall p, In p mesh -> (fst p < qCount)%nat) ->
  rtotal (map (fun iq => rtotal (map (pairWeight spinWeight (length mesh)) (fst (score thr mesh) iq jq))) (seq 0 qCount)) =
  (spinWeight * INR (meshCount (map fst mesh) jq) / INR (length mesh))%R.
Proof. exact column_weight. Qed.
Print Assumptions C89_state_weight.
Theorem C89_total_weight : forall thr mesh qCount spinWeight, mesh <> [] -> (forall p, In p mesh -> (fst p < qCount)%nat) ->
  rtotal (map (fun jq => rtotal (map (fun iq => rtotal (map (pairWeight spinWeight (length mesh)) (fst (score thr mesh) iq jq))) (seq 0 qCount))) (seq 0 qCount)) = spinWeight.
Proof. exact full_weight. Qed.
Print Assumptions C89_total_weight.
Theorem C89_momentum : forall kiq kjq Ki Kj ki kj,
  unimodular (sg_rot (kt_sym kj)) -> (kt_invert kj = 1 \/ kt_invert kj = -1)%Z ->
  equivK (pairK kiq ki) Ki -> equivK (pairK kjq kj) Kj ->
  equivK (rvsub (pairK kiq (netTransform ki kj)) kjq) (rvscale (IZR (kt_invert kj)) (applyRecip (sgo_inv (kt_sym kj)) (rvsub Ki Kj))).
Proof. exact net_momentum. Qed.
Print Assumptions C89_momentum.
Theorem C89_inverse : forall ki kj, unimodular (sg_rot (kt_sym ki)) -> unimodular (sg_rot (kt_sym kj)) ->
  sgo_mul (kt_sym (netTransform ki kj)) (kt_sym (netTransform kj ki)) = SGO zid (V 0 0 0)%R /\
  sgo_mul (kt_sym (netTransform kj ki)) (kt_sym (netTransform ki kj)) = SGO zid (V 0 0 0)%R /\ kt_invert (netTransform ki kj) = kt_invert (netTransform kj ki).
Proof. exact net_inverse. Qed.
Print Assumptions C89_inverse.
Theorem C89_candidates_near : forall thr sym invs kq km t, In t (candidates thr sym invs kq km) ->
  In (kt_sym t) sym /\ In (kt_invert t) invs /\
  exists x y z : Z, (rlen2 (rvsub (rvsub (rvscale (IZR (kt_invert t)) (rvm kq (mIZR (sg_rot (kt_sym t))))) km) (V (IZR x) (IZR y) (IZR z))) < thr * thr)%R.
Proof. exact candidates_near. Qed.
Print Assumptions C89_candidates_near.
Theorem C89_candidates_all : forall thr sym invs kq km op inv, (0 < thr)%R -> In op sym -> In inv invs ->
  equivK (rvscale (IZR inv) (rvm kq (mIZR (sg_rot op)))) km -> In (KT op inv 0) (candidates thr sym invs kq km).
Proof. exact candidates_all. Qed.
Print Assumptions C89_candidates_all.
Theorem C89_candidates_distinct : forall thr sym invs kq km, NoDup sym -> NoDup invs -> NoDup (candidates thr sym invs kq km).
Proof. exact candidates_distinct. Qed.
Print Assumptions C89_candidates_distinct.
Example C89_example : meshX <> [] /\ (forall p, In p meshX -> (fst p < 2)%nat) /\ unimodular (sg_rot opM) /\
  equivK (pairK (V 0 (/4) 0)%R (KT opM 1 0)) (V 0 (3/4) 0)%R.
Proof.
  split; [discriminate|]. split; [intros p [<-|[<-|[<-|[]]]]; cbn; lia|]. split; [right; reflexivity|].
  exists 0%Z, (-1)%Z, 0%Z. unfold pairK, applyRecip, opM. v3_unfold. cbn [kt_sym kt_invert sg_rot zdiag gdiag mIZR mmap m00 m01 m02 m10 m11 m12 m20 m21 m22 c0 c1 c2]. f_equal; field.
Qed.
(** ** C90 *)
Theorem C90_messages_match : forall a d whose rpa chunks, a <> d ->
  sentTo d (posted (redistribute a whose rpa chunks)) = receivedFrom a (posted (redistribute d whose rpa chunks)).
Proof. exact matched. Qed.
Print Assumptions C90_messages_match.
Theorem C90_receives_completed : forall me whose rpa chunks w iq b src,
  In (Recv w iq b src) (posted (redistribute me whose rpa chunks)) -> In (Recv w iq b src) (waited (redistribute me whose rpa chunks)).
Proof. exact receives_waited. Qed.
Print Assumptions C90_receives_completed.
Theorem C90_everything_sent : forall me whose rpa chunks d ls, In (d, ls) chunks -> d <> me -> whose (ls_iq ls) = me ->
  In (Send ItemC (ls_iq ls) (ls_bStart ls) d) (posted (redistribute me whose rpa chunks)) /\ In (Send ItemF (ls_iq ls) (ls_bStart ls) d) (posted (redistribute me whose rpa chunks)) /\
  (rpa = true -> In (Send ItemE (ls_iq ls) (ls_bStart ls) d) (posted (redistribute me whose rpa chunks))) /\
  (In (Send ItemF (ls_iq ls) (ls_bStart ls) d) (waited (redistribute me whose rpa chunks)) \/ rpa = true).
Proof. exact sends_posted. Qed.
Print Assumptions C90_everything_sent.
Theorem C90_wavefunctions_never_completed : forall me whose rpa chunks iq b d, ~ In (Send ItemC iq b d) (waited (redistribute me whose rpa chunks)).
Proof. exact wavefunctions_not_waited. Qed.
Print Assumptions C90_wavefunctions_never_completed.
Theorem C90_sends_completed_refuted : exists me whose rpa chunks m,
  In m (posted (redistribute me whose rpa chunks)) /\ ~ In m (waited (redistribute me whose rpa chunks)).
Proof. exact (ex_intro _ 0%nat (ex_intro _ (fun _ => 0%nat) (ex_intro _ false (ex_intro _ [(1%nat, LS 0 0 4)] (ex_intro _ (Send ItemC 0 0 1) (conj (or_introl eq_refl) (wavefunctions_not_waited _ _ _ _ _ _ _))))))). Qed.
Print Assumptions C90_sends_completed_refuted.
Example C90_example : posted (redistribute 0 (fun q => q) false [(0%nat, LS 0 0 2); (1%nat, LS 0 2 4); (0%nat, LS 1 0 1)]) = [Send ItemC 0 2 1; Send ItemF 0 2 1; Recv ItemC 1 0 1; Recv ItemF 1 0 1]%nat /\
  waited (redistribute 0 (fun q => q) false [(0%nat, LS 0 0 2); (1%nat, LS 0 2 4); (0%nat, LS 1 0 1)]) = [Send ItemF 0 2 1; Recv ItemC 1 0 1; Recv ItemF 1 0 1]%nat.
Proof. split; reflexivity. Qed.
