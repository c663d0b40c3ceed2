(** Property theorems C25 (lattice vector reduction) and C26 (periodic lookup). *)
From Coq Require Import ZArith Reals List.
From Verif Require Import Base Vec3_Model Lattice_Model Lattice_Spec Lattice_Proofs Lattice_Proofs2 Lattice_Proofs3.
Import ListNotations.
Open Scope R_scope.

(** The reduction always terminates (for a positive tolerance), whatever the vectors. *)
Theorem C25_reduction_terminates : forall thr Rl, 0 < thr ->
  exists n, forall fuel, (n <= fuel)%nat -> exists st, reduceMatrix fuel thr Rl = Some st.
Proof. exact reduce_all. Qed.
Print Assumptions C25_reduction_terminates.

(** The reduced vectors generate the same lattice, through an integer matrix of determinant 1 whose reported
    inverse is its inverse; the (signed) cell volume is unchanged. *)
Theorem C25_same_lattice : forall fuel thr Rl st, 0 <= thr -> reduceMatrix fuel thr Rl = Some st ->
  (forall x, in_lattice (rs_R st) x <-> in_lattice Rl x) /\ rs_R st = rmm Rl (mIZR (rs_t st)) /\
  zmm (rs_t st) (rs_tInv st) = zid /\ zmm (rs_tInv st) (rs_t st) = zid /\ zdet (rs_t st) = 1%Z /\ rdet (rs_R st) = rdet Rl.
Proof. exact reduce_generates. Qed.
Print Assumptions C25_same_lattice.

(** No vector of the result can be shortened beyond the tolerance by adding the others with factors -1, 0, 1. *)
Theorem C25_result_is_reduced : forall fuel thr Rl st, 0 <= thr -> reduceMatrix fuel thr Rl = Some st ->
  lattice_reduced thr (rs_R st) /\ rnrm2 (rs_R st) <= rnrm2 Rl.
Proof. exact (fun fuel thr Rl st Ht H => proj2 (proj2 (proj2 (proj2 (proj2 (reduceMatrix_result fuel thr Rl st Ht H)))))). Qed.
Print Assumptions C25_result_is_reduced.

(** The amount of fuel does not influence the result. *)
Theorem C25_fuel_irrelevant : forall thr Rl f1 f2 a b,
  reduceMatrix f1 thr Rl = Some a -> reduceMatrix f2 thr Rl = Some b -> a = b.
Proof. exact (fun thr Rl f1 f2 a b => red_loop_fuel thr f1 f2 (RS Rl zid zid) a b). Qed.
Print Assumptions C25_fuel_irrelevant.

Example C25_example_skew_cell : ~ lattice_reduced (1/10000) skew /\
  exists fuel st, reduceMatrix fuel (1/10000) skew = Some st /\ rs_R st <> skew.
Proof.
  split; [exact skew_not_reduced|].
  destruct (C25_reduction_terminates (1/10000) skew ltac:(Lra.lra)) as (n&H). destruct (H n (le_n n)) as (st&E).
  exists n, st. split; [exact E|]. intros Q. apply skew_not_reduced. rewrite <- Q.
  exact (proj1 (C25_result_is_reduced n (1/10000) skew st ltac:(Lra.lra) E)).
Qed.

(** Building the table never leaves the array of cells (it either completes or stops at the assertion). *)
Theorem C26_table_in_range : forall thr pts metric n, mkLookup thr pts metric n <> OutOfRange.
Proof. exact (fun thr pts metric n => proj1 (mkLookup_ok thr pts metric n)). Qed.
Print Assumptions C26_table_in_range.

(** The search never leaves the array of cells; it returns only points equivalent to the query (with a matching
    tag), and returns one whenever an equivalent point (with a matching tag) exists. *)
Theorem C26_lookup_exact : forall thr pts metric n lk tagOK v, 0 < thr -> mkLookup thr pts metric n = Done lk ->
  exists r, lookup_find thr pts tagOK lk v = Done r /\
    match r with
    | Some i => tagOK i = true /\ exists p, nth_error pts i = Some p /\ chord2 v p < thr*thr /\ same_mod1 thr v p
    | None => forall i p, nth_error pts i = Some p -> tagOK i = true -> thr*thr <= chord2 v p /\ ~ same_mod1 (thr/14) v p
    end.
Proof. exact lookup_total. Qed.
Print Assumptions C26_lookup_exact.

(** The same holds after further points have been registered with addPoint. *)
Theorem C26_lookup_after_adding : forall thr pts metric n lk extra tagOK v, 0 < thr -> mkLookup thr pts metric n = Done lk ->
  exists lk' r, addPoints lk (List.length pts) extra = Some lk' /\ lookup_find thr (pts ++ extra) tagOK lk' v = Done r /\
    match r with
    | Some i => tagOK i = true /\ exists p, nth_error (pts ++ extra) i = Some p /\ chord2 v p < thr*thr
    | None => forall i p, nth_error (pts ++ extra) i = Some p -> chord2 v p < thr*thr -> tagOK i = false
    end.
Proof. exact lookup_after_adding. Qed.
Print Assumptions C26_lookup_after_adding.

Example C26_example_image_found : let pts := [V (1/4) 0 0] in
  exists lk, mkLookup (1/10000) pts rid 0 = Done lk /\
    lookup_find (1/10000) pts (fun _ => true) lk (V (5/4) 1 (-3)) = Done (Some 0%nat).
Proof. exact lookup_example. Qed.
