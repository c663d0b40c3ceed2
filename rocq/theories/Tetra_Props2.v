(** C43: post-processing of the density of states. *)
From Coq Require Import ZArith Reals List Lra Lia.
From Verif Require Import Base Tetra_Model Tetra_Spec Tetra_Proofs Tetra_Proofs2 Tetra_Proofs3 Tetra_Proofs4 Tetra_Proofs5 Tetra_Proofs6.
Import ListNotations.
Open Scope R_scope.

(** breaking up the pieces does not change the density at any energy *)
Theorem C43_split : forall cs, proper (pieces cs) -> gapless (pieces cs) (deltas cs) ->
  exists c, splitAll (nodes cs) (pieces cs) [] = Some c /\ keys c = consec (nodes cs) /\ integrals c = integrals (pieces cs) /\
  forall E, (forall x, nodeOf (pieces cs) (deltas cs) x -> E <> x) -> density c E = density (pieces cs) E.
Proof. exact split_gapless. Qed.
Print Assumptions C43_split.
(** coalescing gives contiguous pieces with matching values and the integral of the pieces and the delta functions *)
Theorem C43_coalesce : forall cs, pieces cs <> [] -> proper (pieces cs) -> increasing (deltas cs) -> gapless (pieces cs) (deltas cs) ->
  exists c, coalesceIntervals cs = Some c /\ deltas c = [] /\ pieces c <> [] /\ proper (pieces c) /\ joined (pieces c) /\ integrals (pieces c) = integrals (pieces cs) + masses (deltas cs) /\
  keys (pieces c) = consec (nodes cs).
Proof. exact coalesce_ok. Qed.
Print Assumptions C43_coalesce.
Theorem C43_convert : forall ps, ps <> [] -> proper ps -> joined ps -> exists l, convertLspline ps = Some l /\ table l /\ area l = integrals ps.
Proof. exact convert_ok. Qed.
Print Assumptions C43_convert.
(** straight lines keep their values at the new nodes *)
Theorem C43_convert_linear : forall e0 e3 a s, e0 < e3 ->
  let b := (a + s*e0, a + s*(e0 + (e3-e0)/3), a + s*(e0 + 2*(e3-e0)/3), a + s*e3) in
  forall q, In q (convertPiece ((e0, e3), b)) -> snd q = a + s * fst q.
Proof. exact convert_linear. Qed.
Print Assumptions C43_convert_linear.
Theorem C43_merge : forall ls, (forall l, In l ls -> table l) -> exists o, mergeLsplines ls = Some o /\ area o = rsuml (map area ls).
Proof. exact merge_ok. Qed.
Print Assumptions C43_merge.
(** the complete density of states of bands of connected tetrahedra *)
Theorem C43_getDOS : forall Etol bands, 0 < Etol -> (forall ts, In ts bands -> ts <> [] /\ (forall t, In t ts -> ordered t) /\ connected ts) ->
  exists dos, getDOS Etol bands = Some dos /\ area dos = rsuml (map (fun ts => rsuml (map tetraWeight ts)) bands).
Proof. exact getDOS_ok. Qed.
Print Assumptions C43_getDOS.
(** for an arbitrary collection the claim is false: a delta function outside of all the intervals is dropped *)
Theorem C43_isolated_delta_refuted : exists cs c, proper (pieces cs) /\ coalesceIntervals cs = Some c /\ deltas c = [] /\
  integrals (pieces c) <> integrals (pieces cs) + masses (deltas cs).
Proof. exact isolated_delta_lost. Qed.
Print Assumptions C43_isolated_delta_refuted.
(** two intervals with a gap stop at the assertion, delta functions alone make the first iterator invalid *)
Theorem C43_gap_refuted : coalesceIntervals {| pieces := [((0, 1), (1, 1, 1, 1)); ((2, 3), (1, 1, 1, 1))]; deltas := [] |} = None /\
  coalesceIntervals {| pieces := []; deltas := [(0, 1); (1, 1)] |} = None.
Proof. exact (conj gap_fails only_deltas). Qed.
Print Assumptions C43_gap_refuted.

Definition tetA : tetra := (1, ((0, 1), (1, 2), (1, 3), (2, 4))).
Definition tetB : tetra := (2, ((2, 1), (2, 1), (2, 1), (2, 5))).
Definition tetC : tetra := (3, ((1, 1), (1, 1), (3/2, 1), (4, 5))).
Example ex43 : exists dos, getDOS 1 [[tetA; tetB]; [tetC]; [tetB]] = Some dos /\ area dos = 1 * (10/4) + 2 * 2 + 3 * 2 + 2 * 2.
Proof.
  destruct (C43_getDOS 1 [[tetA; tetB]; [tetC]; [tetB]]) as (dos & E & A); [lra| |exists dos; split; [exact E|rewrite A; cbn; lra]].
  assert (R1 : forall ts t, linked ts t t) by constructor.
  assert (AB : share tetA tetB) by (exists (2, 4), (2, 1); cbn; auto 8). assert (BA : share tetB tetA) by (exists (2, 1), (2, 4); cbn; auto 8).
  intros ts [<-|[<-|[<-|[]]]]; (split; [discriminate|]); (split; [intros t Ht; cbn in Ht; intuition (subst; cbn; lra)|]).
  - intros t u Ht Hu. cbn in Ht, Hu. destruct Ht as [<-|[<-|[]]], Hu as [<-|[<-|[]]]; auto; [apply (linked_step _ tetA tetB tetB)|apply (linked_step _ tetB tetA tetA)]; cbn; auto.
  - intros t u [<-|[]] [<-|[]]; auto.
  - intros t u [<-|[]] [<-|[]]; auto.
Qed.
