(** Forms used by the property theorems C14, C15. *)
From Coq Require Import Reals ZArith List Bool Arith Lia Lra.
From Verif Require Import XR_Model VecOps Pulay_Model Pulay_Spec Pulay_Proofs Pulay_Proofs3.
Import ListNotations.
Open Scope R_scope.
Lemma history_bounded : forall S V (v : VectorOps V) (sys : Mixable S V) inv kill, vector_laws v -> metric_ok v (mx_metric sys) ->
  forall pp, (1 <= pp_history pp)%nat -> stores sys -> forall o s E0 extra, bounded (pp_history pp) o ->
  let out := pulayMinimize v sys inv kill pp o s E0 extra in bounded (pp_history pp) (out_obj out) /\ out_end out <> BadErase.
Proof.
  intros S V v sys inv kill laws HM pp Hh Hst o s E0 extra HB out.
  destruct (minimize_spec v sys inv kill laws (proj1 HM) pp Hh Hst o s E0 extra HB) as (A&B&_). auto.
Qed.
Lemma run_good : forall S V (v : VectorOps V) (sys : Mixable S V) inv kill, vector_laws v -> metric_ok v (mx_metric sys) ->
  forall pp, (1 <= pp_history pp)%nat -> stores sys -> forall o s E0 extra, bounded (pp_history pp) o ->
  overlaps v (mx_metric sys) (po_res o) (po_ov o) ->
  let out := pulayMinimize v sys inv kill pp o s E0 extra in
  good_run v sys (pp_history pp) o (mx_get sys s) (out_trace out) /\
  (out_end out = Limit -> overlaps v (mx_metric sys) (po_res (out_obj out)) (po_ov (out_obj out))).
Proof.
  intros S V v sys inv kill laws HM pp Hh Hst o s E0 extra HB HO out.
  destruct (minimize_spec v sys inv kill laws (proj1 HM) pp Hh Hst o s E0 extra HB) as (_&_&C). auto.
Qed.
Lemma clear_ok : forall V (v : VectorOps V) M h (o : PulayObj V), bounded h (clearState o) /\ overlaps v M (po_res (clearState o)) (po_ov (clearState o)).
Proof. intros. split; [split; cbn; lia|]. intros i j x y Hi. destruct i; discriminate. Qed.
Lemma round_trip : forall S V Byte (v : VectorOps V) (sys : Mixable S V) (ser : V -> list Byte) deser sz,
  (forall x, length (ser x) = sz) -> (forall x, deser (ser x) = x) -> (0 < sz)%nat -> metric_ok v (mx_metric sys) ->
  forall pp o o2, length (po_vars o) = length (po_res o) ->
  exists o', loadState v sys deser sz pp o2 (saveState ser o) = Some o' /\
    po_vars o' = lastn (pp_history pp) (po_vars o) /\ po_res o' = lastn (pp_history pp) (po_res o) /\
    overlaps v (mx_metric sys) (po_res o') (po_ov o').
Proof. intros S V Byte v sys ser deser sz H1 H2 H3 HM pp o o2 L. apply load_save; auto. exact (proj1 HM). Qed.
Lemma same_parameters : forall S V Byte (v : VectorOps V) (sys : Mixable S V) (ser : V -> list Byte) deser sz,
  (forall x, length (ser x) = sz) -> (forall x, deser (ser x) = x) -> (0 < sz)%nat -> metric_ok v (mx_metric sys) ->
  forall pp o o2, bounded (pp_history pp) o -> overlaps v (mx_metric sys) (po_res o) (po_ov o) ->
  exists o', loadState v sys deser sz pp o2 (saveState ser o) = Some o' /\ po_vars o' = po_vars o /\ po_res o' = po_res o /\
    forall i j, (i < length (po_res o))%nat -> (j < length (po_res o))%nat -> po_ov o' i j = po_ov o i j.
Proof.
  intros S V Byte v sys ser deser sz H1 H2 H3 HM pp o o2 (L&B) HO.
  destruct (round_trip S V Byte v sys ser deser sz H1 H2 H3 HM pp o o2 L) as (o'&E&Ev&Er&Eo).
  rewrite lastn_all in Ev by lia. rewrite lastn_all in Er by lia. exists o'. split; [exact E|]. split; [exact Ev|]. split; [exact Er|].
  intros i j Hi Hj. apply nth_error_Some in Hi. apply nth_error_Some in Hj.
  destruct (nth_error (po_res o) i) as [x|] eqn:Ei; [|contradiction]. destruct (nth_error (po_res o) j) as [y|] eqn:Ej; [|contradiction].
  rewrite (HO i j x y Ei Ej). apply Eo; rewrite Er; auto.
Qed.
Lemma bad_length : forall S V Byte (v : VectorOps V) (sys : Mixable S V) (deser : list Byte -> V) sz pp o f,
  (length f mod (2 * sz))%nat <> O -> loadState v sys deser sz pp o f = None.
Proof. intros. apply load_bad; auto. Qed.
Lemma load_example : exists o', loadState ops1 drift (fun l => hd 0 l) 1 (PP 9 (Fin 0) (Fin 0) 2) (PO [] [] (fun _ _ => 7)) (saveState (fun x => [x]) (PO [1;2;3] [4;5;6] (fun _ _ => 0))) = Some o' /\
  po_vars o' = [2;3] /\ po_res o' = [5;6] /\ po_ov o' 0%nat 1%nat = 30.
Proof. eexists. split; [reflexivity|]. split; [reflexivity|]. split; [reflexivity|]. cbn. lra. Qed.
