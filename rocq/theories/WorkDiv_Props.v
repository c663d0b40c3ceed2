(** Properties C01, C02, C03. *)
From Coq Require Import ZArith List Lia Permutation Bool Reals Lra.
From Verif Require Import Base WorkDiv_Model WorkDiv_Spec WorkDiv_Proofs WorkDiv_Proofs2.
Import ListNotations.
Open Scope Z_scope.

(** C01: dividing nTasks over nProcs processes is a balanced, rank ordered partition. *)
Theorem C01_task_division_partition : forall nTasks nProcs, 0 <= nTasks -> 0 < nProcs ->
  balanced_partition nTasks nProcs (td_start (stopArr nTasks nProcs)) (td_stop (stopArr nTasks nProcs)).
Proof. exact td_balanced_partition. Qed.
Print Assumptions C01_task_division_partition.

(** C01: concatenating the ranges in rank order gives 0,1,...,nTasks-1. *)
Theorem C01_task_division_covers_in_order : forall nTasks nProcs, 0 <= nTasks -> 0 < nProcs ->
  concat (map (fun p => zrange (td_start (stopArr nTasks nProcs) p) (td_stop (stopArr nTasks nProcs) p))
              (zrange 0 nProcs)) = zrange 0 nTasks.
Proof. exact td_partition. Qed.
Print Assumptions C01_task_division_covers_in_order.

(** C01: whose(q) names the only process for which isMine(q) holds. *)
Theorem C01_whose_is_the_owner : forall nTasks nProcs q p, 0 <= nTasks -> 0 < nProcs ->
  0 <= q < nTasks -> 0 <= p < nProcs ->
  (td_isMine (stopArr nTasks nProcs) p q = true <-> p = td_whose (stopArr nTasks nProcs) q).
Proof. exact td_owner_unique. Qed.
Print Assumptions C01_whose_is_the_owner.

Theorem C01_whose_in_range : forall nTasks nProcs q, 0 <= nTasks -> 0 < nProcs -> 0 <= q < nTasks ->
  0 <= td_whose (stopArr nTasks nProcs) q < nProcs /\
  td_start (stopArr nTasks nProcs) (td_whose (stopArr nTasks nProcs) q) <= q
    < td_stop (stopArr nTasks nProcs) (td_whose (stopArr nTasks nProcs) q).
Proof. exact td_whose_in. Qed.
Print Assumptions C01_whose_in_range.

(** C01, processes split into groups: group indices are valid, non-decreasing in rank,
    and group sizes differ by at most one. *)
Theorem C01_process_groups_balanced : forall nGroups nProcs g, 0 < nGroups -> 0 < nProcs -> 0 <= g < nGroups ->
  nProcs / nGroups
  <= Z.of_nat (length (filter (fun i => procGroup nGroups nProcs i =? g) (zrange 0 nProcs)))
  <= (nProcs + nGroups - 1) / nGroups.
Proof. exact procGroup_balanced. Qed.
Print Assumptions C01_process_groups_balanced.

Theorem C01_process_groups_valid : forall nGroups nProcs i, 0 < nGroups -> 0 < nProcs -> 0 <= i < nProcs ->
  0 <= procGroup nGroups nProcs i < nGroups.
Proof. exact procGroup_range. Qed.
Print Assumptions C01_process_groups_valid.

Theorem C01_process_groups_ordered : forall nGroups nProcs i j, 0 < nGroups -> 0 < nProcs -> i <= j ->
  procGroup nGroups nProcs i <= procGroup nGroups nProcs j.
Proof. exact procGroup_mono. Qed.
Print Assumptions C01_process_groups_ordered.

(** C01, cores of a node: with at least one core per process all cores are used, none twice. *)
Theorem C01_core_division_total : forall nCores nSiblings, 0 < nSiblings -> nSiblings <= nCores ->
  fold_right Z.add 0 (map (coresOf nCores nSiblings) (zrange 0 nSiblings)) = nCores.
Proof.
  exact (fun n s Hs Hn => eq_trans (coresOf_sum_gen n s s (Z.lt_le_incl _ _ Hs) Hs Hn) (bound_p n s Hs)).
Qed.
Print Assumptions C01_core_division_total.

Example C01_example_7_tasks_3_procs :
  stopArr 7 3 = [2; 4; 7] /\ map (td_whose (stopArr 7 3)) (zrange 0 7) = [0;0;1;1;2;2;2].
Proof. vm_compute. auto. Qed.
Example C01_example_more_procs_than_tasks :
  map (fun p => (td_start (stopArr 2 4) p, td_stop (stopArr 2 4) p)) (zrange 0 4) = [(0,0);(0,1);(1,1);(1,2)].
Proof. vm_compute. auto. Qed.
(** Every process gets at least one core (even with more processes than cores), and at most its share rounded up. *)
Theorem C01_every_process_gets_a_core : forall nCores nSiblings i, 0 <= nCores -> 0 < nSiblings -> 0 <= i < nSiblings ->
  1 <= coresOf nCores nSiblings i /\ coresOf nCores nSiblings i <= Z.max 1 ((nCores + nSiblings - 1) / nSiblings).
Proof. exact coresOf_bounds. Qed.
Print Assumptions C01_every_process_gets_a_core.

Example C01_example_groups : map (procGroup 3 7) (zrange 0 7) = [0;0;0;1;1;2;2] /\ map (coresOf 7 3) (zrange 0 3) = [2;2;3].
Proof. vm_compute. auto. Qed.

(** C02: every schedule of the threads executes each iteration exactly once and leaves the
    memory of the serial loop, for a non-empty loop. *)
Theorem C02_threaded_loop_exactly_once : forall A nThreads nJobs (body : Z -> A -> A) sched mem,
  0 < nThreads -> 0 < nJobs -> interleave (thread_iterations nThreads nJobs) sched ->
  Permutation sched (zrange 0 nJobs) /\
  forall j, run_iterations body sched mem j = run_iterations body (zrange 0 nJobs) mem j.
Proof. exact @threaded_loop_serial. Qed.
Print Assumptions C02_threaded_loop_exactly_once.

Theorem C02_threaded_loop_effect : forall A nThreads nJobs (body : Z -> A -> A) sched mem,
  0 < nThreads -> 0 < nJobs -> interleave (thread_iterations nThreads nJobs) sched ->
  pointwise_update body nJobs mem (run_iterations body sched mem).
Proof. exact @threaded_loop_pointwise. Qed.
Print Assumptions C02_threaded_loop_effect.

(** C02, empty loop: false of the code.  With nJobs = 0 each thread t is handed [t, nThreads),
    so a loop over zero iterations does run its body. *)
Theorem C02_empty_loop_runs_nothing_refuted :
  exists nThreads, 0 < nThreads /\ concat (thread_iterations nThreads 0) <> [].
Proof. exact empty_loop_runs. Qed.
Print Assumptions C02_empty_loop_runs_nothing_refuted.

(** ... and with several threads the same cell is updated more than once. *)
Theorem C02_empty_loop_runs_cell_twice_refuted :
  exists nThreads j, 0 < nThreads /\ ~ NoDup (concat (thread_iterations nThreads 0)) /\
    run_iterations (fun _ x => x + 1) (concat (thread_iterations nThreads 0)) (fun _ => 0) j = 2.
Proof. exact empty_loop_twice. Qed.
Print Assumptions C02_empty_loop_runs_cell_twice_refuted.

Example C02_example_schedule :
  interleave (thread_iterations 2 3) [1; 0; 2] /\ thread_iterations 2 3 = [[0]; [1; 2]].
Proof.
  split; [|reflexivity]. change (interleave ([[0]] ++ [1; 2] :: []) [1; 0; 2]).
  constructor. cbn. change (interleave ([] ++ (0 :: []) :: [[2]]) [0; 2]). constructor.
  cbn. change (interleave ([[]] ++ [2] :: []) [2]). constructor. constructor. cbn. repeat constructor.
Qed.

(** C03: lock-protected accumulation gives the serial sum for every lock order (N >= 1). *)
Theorem C03_threaded_accumulate_serial : forall nThreads n f order, 0 < nThreads -> 0 < n ->
  Permutation order (zrange 0 nThreads) ->
  threaded_reduce 0%R Rplus nThreads n f order = Rsum f n.
Proof. exact threaded_reduce_R. Qed.
Print Assumptions C03_threaded_accumulate_serial.

Theorem C03_threaded_dot_serial : forall nThreads n x y order, 0 < nThreads -> 0 < n ->
  Permutation order (zrange 0 nThreads) ->
  threaded_ddot nThreads n x y order = Rsum (fun i => x i * y i)%R n.
Proof. exact (fun nT n x y o => threaded_reduce_R nT n (fun i => x i * y i)%R o). Qed.
Print Assumptions C03_threaded_dot_serial.

Theorem C03_threaded_zdotc_serial : forall nThreads n x y order, 0 < nThreads -> 0 < n ->
  Permutation order (zrange 0 nThreads) ->
  threaded_zdotc nThreads n x y order
  = (Rsum (fun i => fst (x i) * fst (y i) + snd (x i) * snd (y i))%R n,
     Rsum (fun i => fst (x i) * snd (y i) - snd (x i) * fst (y i))%R n).
Proof. exact threaded_zdotc_R. Qed.
Print Assumptions C03_threaded_zdotc_serial.

Theorem C03_threaded_nrm2_serial : forall nThreads n x order, 0 < nThreads -> 0 < n ->
  Permutation order (zrange 0 nThreads) ->
  threaded_nrm2 nThreads n x order = sqrt (Rsum (fun i => x i * x i)%R n).
Proof. exact threaded_nrm2_R. Qed.
Print Assumptions C03_threaded_nrm2_serial.

(** C03, N = 0: false of the code.  The dot product of empty vectors reads element 0 and
    returns x0*y0 (BlasExtra.cpp:272 launches with nJobs = N = 0). *)
Theorem C03_empty_dot_is_zero_refuted :
  exists x y, threaded_ddot 1 0 x y (zrange 0 1) <> Rsum (fun i => x i * y i)%R 0.
Proof. exact empty_dot_nonzero. Qed.
Print Assumptions C03_empty_dot_is_zero_refuted.

Example C03_example_order : Permutation [1; 0] (zrange 0 2) /\ 0 < 2 /\ 0 < 5.
Proof. repeat split. apply perm_swap. Qed.
