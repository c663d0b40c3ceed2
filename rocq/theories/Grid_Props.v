(** Property C04. *)
From Coq Require Import ZArith List Lia Bool.
From Verif Require Import Base WorkDiv_Model Grid_Model Grid_Spec Grid_Proofs.
Import ListNotations.
Open Scope Z_scope.

(** C04: each loop macro, on any sub-range, visits exactly the requested indices in order, with
    the valid grid point stored at that index. *)
Theorem C04_rLoop_visits : forall S iStart iStop fuel, pos3 S -> 0 <= iStart -> iStop <= nr S ->
  iStop - iStart < Z.of_nat fuel -> (0 < fuel)%nat ->
  exists L, THREAD_rLoop S fuel iStart iStop = Some L /\ visits (r_point S) (row_major S (v2 S)) iStart iStop L.
Proof. exact rLoop_visits. Qed.
Print Assumptions C04_rLoop_visits.

Theorem C04_fullGspaceLoop_visits : forall S iStart iStop fuel, pos3 S -> 0 <= iStart < iStop -> iStop <= nr S ->
  iStop - iStart <= Z.of_nat fuel ->
  exists L, THREAD_fullGspaceLoop S fuel iStart iStop = Some L /\ visits (G_point S) (row_major S (v2 S)) iStart iStop L.
Proof. exact fullG_visits. Qed.
Print Assumptions C04_fullGspaceLoop_visits.

Theorem C04_halfGspaceLoop_visits : forall S iStart iStop fuel, pos3 S -> 0 <= iStart -> iStop <= nG S ->
  iStop - iStart < Z.of_nat fuel -> (0 < fuel)%nat ->
  exists L, THREAD_halfGspaceLoop S fuel iStart iStop = Some L /\
    visits (halfG_point S) (row_major S (v2 S / 2 + 1)) iStart iStop L.
Proof. exact halfG_visits. Qed.
Print Assumptions C04_halfGspaceLoop_visits.

(** C04: all threads of a launch together visit the whole grid exactly once. *)
Theorem C04_rLoop_all_threads : forall S nThreads fuel, pos3 S -> 0 < nThreads -> nr S < Z.of_nat fuel ->
  exists L, thread_union (THREAD_rLoop S) fuel nThreads (nr S) = Some L /\
    visits (r_point S) (row_major S (v2 S)) 0 (nr S) L.
Proof. exact rLoop_all_threads. Qed.
Print Assumptions C04_rLoop_all_threads.

Theorem C04_halfGspaceLoop_all_threads : forall S nThreads fuel, pos3 S -> 0 < nThreads -> nG S < Z.of_nat fuel ->
  exists L, thread_union (THREAD_halfGspaceLoop S) fuel nThreads (nG S) = Some L /\
    visits (halfG_point S) (row_major S (v2 S/2+1)) 0 (nG S) L.
Proof. exact halfG_all_threads. Qed.
Print Assumptions C04_halfGspaceLoop_all_threads.

(** The full reciprocal space loop needs no more threads than grid points. *)
Theorem C04_fullGspaceLoop_all_threads : forall S nThreads fuel, pos3 S -> 0 < nThreads -> nThreads <= nr S ->
  nr S <= Z.of_nat fuel ->
  exists L, thread_union (THREAD_fullGspaceLoop S) fuel nThreads (nr S) = Some L /\
    visits (G_point S) (row_major S (v2 S)) 0 (nr S) L.
Proof. exact fullG_all_threads. Qed.
Print Assumptions C04_fullGspaceLoop_all_threads.

(** ... and without that the loop does not finish: THREAD_fullGspaceLoop tests for the end
    only after executing its body (LoopMacros.h:67), so an empty range never ends. *)
Theorem C04_fullGspaceLoop_any_thread_count_refuted :
  exists S nThreads, pos3 S /\ 0 < nThreads /\
    forall fuel, thread_union (THREAD_fullGspaceLoop S) fuel nThreads (nr S) = None.
Proof. exact fullG_few_points_diverges. Qed.
Print Assumptions C04_fullGspaceLoop_any_thread_count_refuted.

(** C04: the index functions agree with the array layout, which is a bijection. *)
Theorem C04_fullRindex_layout : forall S g, pos3 S -> r_point S g -> fullRindex S g = row_major S (v2 S) g.
Proof. exact fullRindex_row. Qed.
Print Assumptions C04_fullRindex_layout.
Theorem C04_fullGindex_layout : forall S g, pos3 S -> G_point S g -> fullGindex S g = row_major S (v2 S) g.
Proof. exact fullGindex_row. Qed.
Print Assumptions C04_fullGindex_layout.
Theorem C04_halfGindex_layout : forall S g, pos3 S -> halfG_point S g -> halfGindex S g = row_major S (v2 S / 2 + 1) g.
Proof. exact halfGindex_row. Qed.
Print Assumptions C04_halfGindex_layout.
Theorem C04_full_layout_injective : forall S g g', pos3 S -> G_point S g -> G_point S g' ->
  row_major S (v2 S) g = row_major S (v2 S) g' -> g = g'.
Proof. exact full_row_inj. Qed.
Print Assumptions C04_full_layout_injective.
Theorem C04_half_layout_injective : forall S g g', pos3 S -> halfG_point S g -> halfG_point S g' ->
  row_major S (v2 S/2+1) g = row_major S (v2 S/2+1) g' -> g = g'.
Proof. exact half_row_inj. Qed.
Print Assumptions C04_half_layout_injective.
Theorem C04_full_layout_in_bounds : forall S g, pos3 S -> 0 <= row_major S (v2 S) g < nr S.
Proof. exact full_row_range. Qed.
Print Assumptions C04_full_layout_in_bounds.
Theorem C04_half_layout_in_bounds : forall S g, pos3 S -> halfG_point S g -> 0 <= row_major S (v2 S/2+1) g < nG S.
Proof. exact half_row_range. Qed.
Print Assumptions C04_half_layout_in_bounds.

(** C04: a component is flagged Nyquist exactly when its mirror image is not itself a grid point. *)
Theorem C04_nyquist_has_no_mirror : forall S g, pos3 S -> G_point S g ->
  (is_nyquist S g = true <-> ~ G_point S (neg3 g)).
Proof. exact nyquist_iff. Qed.
Print Assumptions C04_nyquist_has_no_mirror.

Example C04_example_half :
  THREAD_halfGspaceLoop (2,1,4) 10 2 6
  = Some [(2,(0,0,2)); (3,(1,0,0)); (4,(1,0,1)); (5,(1,0,2))] /\ pos3 (2,1,4) /\ nG (2,1,4) = 6.
Proof. split; [vm_compute; reflexivity|]. split; [cbn; lia|reflexivity]. Qed.
Example C04_example_full :
  THREAD_fullGspaceLoop (1,3,3) 10 2 7
  = Some [(2,(0,0,-1)); (3,(0,1,0)); (4,(0,1,1)); (5,(0,1,-1)); (6,(0,-1,0))].
Proof. vm_compute. reflexivity. Qed.
Example C04_example_points : G_point (2,3,4) (1,-1,-1) /\ is_nyquist (2,3,4) (1,-1,-1) = true.
Proof. split; [cbn; lia|reflexivity]. Qed.
