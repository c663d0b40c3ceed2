(** Property theorems C14 (Pulay mixing) and C15 (its restart files). *)
From Coq Require Import Reals ZArith List.
From Verif Require Import XR_Model VecOps Pulay_Model Pulay_Spec Pulay_Proofs Pulay_Proofs2 Pulay_Proofs3 Pulay_Proofs4.
Import ListNotations.
Open Scope R_scope.

(** The history never exceeds its limit, however often the object is used (the condition is preserved by each call). *)
Theorem C14_history_bounded : forall S V (v : VectorOps V) (sys : Mixable S V) inv kill, vector_laws v -> metric_ok v (mx_metric sys) ->
  forall pp, (1 <= pp_history pp)%nat -> stores sys -> forall o s E0 extra, bounded (pp_history pp) o ->
  let out := pulayMinimize v sys inv kill pp o s E0 extra in bounded (pp_history pp) (out_obj out) /\ out_end out <> BadErase.
Proof. exact history_bounded. Qed.
Print Assumptions C14_history_bounded.

(** Within a call that starts with correct overlaps (in particular with an empty history) every mixing step remembers the
    most recent cycles, has overlaps equal to the inner products of the remembered residuals and combines the remembered
    variables and preconditioned residuals.  A call ended by the iteration limit leaves correct overlaps. *)
Theorem C14_overlaps : forall S V (v : VectorOps V) (sys : Mixable S V) inv kill, vector_laws v -> metric_ok v (mx_metric sys) ->
  forall pp, (1 <= pp_history pp)%nat -> stores sys -> forall o s E0 extra, bounded (pp_history pp) o ->
  overlaps v (mx_metric sys) (po_res o) (po_ov o) ->
  let out := pulayMinimize v sys inv kill pp o s E0 extra in
  good_run v sys (pp_history pp) o (mx_get sys s) (out_trace out) /\
  (out_end out = Limit -> overlaps v (mx_metric sys) (po_res (out_obj out)) (po_ov (out_obj out))).
Proof. exact run_good. Qed.
Print Assumptions C14_overlaps.

(** clearState makes any object ready for a new call. *)
Theorem C14_clear : forall V (v : VectorOps V) M h (o : PulayObj V), bounded h (clearState o) /\ overlaps v M (po_res (clearState o)) (po_ov (clearState o)).
Proof. exact clear_ok. Qed.
Print Assumptions C14_clear.

(** When the matrix inverse is one, the coefficients add up to one, and the residual of the combination is the smallest
    possible with such coefficients. *)
Theorem C14_coefficients : forall S V (v : VectorOps V) (sys : Mixable S V) inv kill, vector_laws v -> metric_ok v (mx_metric sys) -> stores sys ->
  forall pp o s E0 extra, (1 <= pp_history pp)%nat -> bounded (pp_history pp) o -> overlaps v (mx_metric sys) (po_res o) (po_ov o) ->
  forall m, In m (out_trace (pulayMinimize v sys inv kill pp o s E0 extra)) ->
  let rs := po_res (mi_obj m) in let n := length rs in let A := bordered n (po_ov (mi_obj m)) in
  right_inverse (n+1) A (inv (n+1)%nat A) ->
  total (mi_alpha m) = 1 /\
  ((forall x, 0 <= v_dot v x (mx_metric sys x)) -> forall be, length be = n -> total be = 1 ->
     v_dot v (combo v (mi_alpha m) rs) (mx_metric sys (combo v (mi_alpha m) rs)) <= v_dot v (combo v be rs) (mx_metric sys (combo v be rs))).
Proof. exact @mix_coefficients. Qed.
Print Assumptions C14_coefficients.

(** A cycle that reproduces its variable is a fixed point of mixing, if the bordered overlap matrix was invertible. *)
Theorem C14_fixed_point : forall S V (v : VectorOps V) (sys : Mixable S V) inv kill, vector_laws v -> metric_ok v (mx_metric sys) -> stores sys ->
  mx_precond sys (v_zero v) = v_zero v ->
  forall pp o s E0 extra, (1 <= pp_history pp)%nat -> bounded (pp_history pp) o -> overlaps v (mx_metric sys) (po_res o) (po_ov o) ->
  forall m xs rs x, In m (out_trace (pulayMinimize v sys inv kill pp o s E0 extra)) ->
  po_vars (mi_obj m) = xs ++ [x] -> po_res (mi_obj m) = rs ++ [v_zero v] -> length xs = length rs ->
  let n := length (po_res (mi_obj m)) in let A := bordered n (po_ov (mi_obj m)) in right_inverse (n+1) (inv (n+1)%nat A) A ->
  mi_var m = x.
Proof. exact @mix_fixed. Qed.
Print Assumptions C14_fixed_point.

(** False as stated for repeated calls without clearState (as in the exact-exchange loop of SCF::minimize): the first call
    stops on convergence before computing the overlaps of its last residual, and the second call mixes with whatever the
    overlap matrix contained there (here 0 instead of 1/100). *)
Theorem C14_repeated_calls_refuted : forall inv, exists o1 : PulayObj R,
  let call o s := pulayMinimize ops1 drift inv (fun _ => false) drift_pp2 o s (Fin 0) [] in
  let first := call (PO [] [] (fun _ _ => 0)) 0 in
  out_end first = Stopped /\ out_obj first = o1 /\
  exists m r, In m (out_trace (call o1 (out_sys first))) /\ nth_error (po_res (mi_obj m)) 1 = Some r /\ r * r = 1/100 /\ po_ov (mi_obj m) 1%nat 1%nat = 0.
Proof. exact recall_refuted. Qed.
Print Assumptions C14_repeated_calls_refuted.

Example C14_example : vector_laws ops1 /\ metric_ok ops1 (mx_metric drift) /\ stores drift /\
  (forall ov, right_inverse 2 (bordered 1 ov) (inv2 2 (bordered 1 ov))) /\
  let out := pulayMinimize ops1 drift inv2 (fun _ => false) drift_pp2 (PO [] [] (fun _ _ => 7)) 0 (Fin 0) [] in
  exists m, out_trace out = [m] /\ po_ov (mi_obj m) 0%nat 0%nat = 1/100 /\ out_end out = Stopped /\ length (po_res (out_obj out)) = 2%nat.
Proof. exact (conj ops1_laws (conj drift_metric (conj drift_stores (conj (fun ov => proj1 (inv2_inverse ov)) (example_run inv2 (fun _ _ => 7)))))). Qed.

(** Loading a saved history restores the most recent variables and residuals (all, if within the limit) and recomputes
    their overlaps.  [ser] and [deser] are writeVariable and readVariable, with [sz] bytes per variable. *)
Theorem C15_round_trip : forall S V Byte (v : VectorOps V) (sys : Mixable S V) (ser : V -> list Byte) deser sz,
  (forall x, length (ser x) = sz) -> (forall x, deser (ser x) = x) -> (0 < sz)%nat -> metric_ok v (mx_metric sys) ->
  forall pp o o2, length (po_vars o) = length (po_res o) ->
  exists o', loadState v sys deser sz pp o2 (saveState ser o) = Some o' /\
    po_vars o' = lastn (pp_history pp) (po_vars o) /\ po_res o' = lastn (pp_history pp) (po_res o) /\
    overlaps v (mx_metric sys) (po_res o') (po_ov o').
Proof. exact round_trip. Qed.
Print Assumptions C15_round_trip.

(** With the same parameters nothing is lost: variables, residuals and overlaps are all restored. *)
Theorem C15_same_parameters : forall S V Byte (v : VectorOps V) (sys : Mixable S V) (ser : V -> list Byte) deser sz,
  (forall x, length (ser x) = sz) -> (forall x, deser (ser x) = x) -> (0 < sz)%nat -> metric_ok v (mx_metric sys) ->
  forall pp o o2, bounded (pp_history pp) o -> overlaps v (mx_metric sys) (po_res o) (po_ov o) ->
  exists o', loadState v sys deser sz pp o2 (saveState ser o) = Some o' /\ po_vars o' = po_vars o /\ po_res o' = po_res o /\
    forall i j, (i < length (po_res o))%nat -> (j < length (po_res o))%nat -> po_ov o' i j = po_ov o i j.
Proof. exact same_parameters. Qed.
Print Assumptions C15_same_parameters.

(** Files of any other length are rejected. *)
Theorem C15_bad_length : forall S V Byte (v : VectorOps V) (sys : Mixable S V) (deser : list Byte -> V) sz pp o f,
  (length f mod (2 * sz))%nat <> O -> loadState v sys deser sz pp o f = None.
Proof. exact bad_length. Qed.
Print Assumptions C15_bad_length.

Example C15_example : exists o', loadState ops1 drift (fun l => hd 0 l) 1 (PP 9 (Fin 0) (Fin 0) 2) (PO [] [] (fun _ _ => 7)) (saveState (fun x => [x]) (PO [1;2;3] [4;5;6] (fun _ _ => 0))) = Some o' /\
  po_vars o' = [2;3] /\ po_res o' = [5;6] /\ po_ov o' 0%nat 1%nat = 30.
Proof. exact load_example. Qed.
