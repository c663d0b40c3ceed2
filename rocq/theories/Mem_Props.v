(** Property theorems C16 (allocation cache) and C17 (memory usage report). *)
From Coq Require Import ZArith List Bool Reals String Permutation Lia Lra.
From Verif Require Import XR_Model XR_Facts Mem_Model Mem_Spec Mem_Proofs Mem_Proofs2 Mem_Proofs3 Mem_Proofs4 Mem_Proofs5.
Import ListNotations.
Open Scope Z_scope.

(** In any sequence of allocations and releases, the blocks in use and in the cache are exactly the blocks held from the
    system, all of them apart, with the byte counts correct.  Only releasing something not in use is an error. *)
Theorem C16_consistent : forall raw cacheSize margin, allocator_ok raw -> forall ops, (forall n, In (Alloc n) ops -> 0 <= n) ->
  forall w, w_live w = [] ->
  match fold_left (step raw cacheSize margin) ops (Running (emptyMC w)) with
  | Running m => consistent m
  | Died m => consistent m /\ cache m = []
  | Invalid => exists pre p post m, ops = pre ++ Free p :: post /\
      fold_left (step raw cacheSize margin) pre (Running (emptyMC w)) = Running m /\ ~ In p (map fst (allocated m))
  end.
Proof. exact run_from_start. Qed.
Print Assumptions C16_consistent.

(** An allocation provides a block of at least the requested size, apart from every block in use.  It is taken from the
    cache if the waste is below the margin, or is new and exact and then the cache is trimmed to its target. *)
Theorem C16_alloc : forall raw cacheSize margin, allocator_ok raw -> forall m size, consistent m -> 0 <= size ->
  match mcAlloc raw cacheSize margin m size with
  | Got p m' => consistent m' /\ exists cap, size <= cap /\ Permutation (allocated m') ((p, cap) :: allocated m) /\
      (forall b, In b (allocated m) -> apart (p, cap) b) /\
      ((world m' = world m /\ (IZR cap < IZR size * (1 + margin))%R) \/
       (cap = size /\ (cacheSize = 0 \/ overallTot m' <= cacheSize \/ cache m' = [])))
  | OutOfMemory m' => consistent m' /\ allocated m' = allocated m /\ cache m' = []
  | BadFree => False
  end.
Proof. exact alloc_apart. Qed.
Print Assumptions C16_alloc.

(** Releasing moves exactly that block to the cache, and nothing is asked of the system. *)
Theorem C16_free : forall m p s, consistent m -> In (p, s) (allocated m) -> exists m', mcFree m p = Some m' /\ consistent m' /\
  Permutation (allocated m) ((p, s) :: allocated m') /\ Permutation (cached m') ((p, s) :: cached m) /\ world m' = world m.
Proof. exact free_spec. Qed.
Print Assumptions C16_free.

(** It can be reused: the next request of that size needs no new memory. *)
Theorem C16_reuse : forall raw cacheSize margin, allocator_ok raw -> forall ops w m, (forall n, In (Alloc n) ops -> 0 <= n) -> w_live w = [] ->
  fold_left (step raw cacheSize margin) ops (Running (emptyMC w)) = Running m ->
  forall p s m', In (p, s) (allocated m) -> 0 < s -> (0 < margin)%R -> mcFree m p = Some m' ->
  exists q m'', mcAlloc raw cacheSize margin m' s = Got q m'' /\ world m'' = world m /\ In (q, s) (cached m') /\
    Permutation (allocated m'') ((q, s) :: allocated m').
Proof. exact reuse_reachable. Qed.
Print Assumptions C16_reuse.

(** At the end everything is returned to the system. *)
Theorem C16_destroy : forall m, consistent m -> exists w, mcDestroy m = Some w /\ w_live w = [].
Proof. exact destroy_spec. Qed.
Print Assumptions C16_destroy.

(** Objects holding memory, under any sequence of initialisation, release and move: objects with bytes hold blocks of at
    least their size that are apart, the reported usage is the sum over objects, and no bytes remain in use after all
    objects are released. *)
Theorem C16_objects : forall raw cacheSize margin, allocator_ok raw -> forall ops w N, w_live w = [] ->
  sizes (fun n => 0 <= n) ops -> (forall o i, In o ops -> touches o i -> (i < N)%nat) ->
  match fold_left (sysStep raw cacheSize margin) ops (Fine (sys0 w)) with
  | Fine s => consistent (sy_mc s) /\
      (forall i, 0 < ob_n (sy_obj s i) -> exists cap, ob_n (sy_obj s i) <= cap /\ holds s i cap) /\
      (forall i j a b, i <> j -> holds s i a -> holds s j b -> apart (ob_c (sy_obj s i), a) (ob_c (sy_obj s j), b)) /\
      ((forall i, ob_n (sy_obj s i) = 0) -> allocatedTot (sy_mc s) = 0) /\
      (forall c, used (delta c) (List.length (sy_ev s)) (sy_ev s) = category_bytes c s N) /\
      used delta_total (List.length (sy_ev s)) (sy_ev s) = total_bytes s N
  | Dead s => consistent (sy_mc s) /\ cache (sy_mc s) = []
  | Undefined => False
  end.
Proof. exact objects_spec. Qed.
Print Assumptions C16_objects.

(** But an object of zero bytes never gives its block back: blocks can remain after all objects are released. *)
Theorem C16_zero_bytes_refuted : exists raw cacheSize margin ops w s, allocator_ok raw /\ w_live w = [] /\ sizes (fun n => 0 <= n) ops /\
  fold_left (sysStep raw cacheSize margin) ops (Fine (sys0 w)) = Fine s /\ (forall i, ob_n (sy_obj s i) = 0) /\ allocated (sy_mc s) <> [].
Proof. exact zero_bytes. Qed.
Print Assumptions C16_zero_bytes_refuted.

(** The report lists each category that occurred once with its peak usage, and the peak of the total. *)
Theorem C17_report : forall evs, sizes_ok evs ->
  exists l t, printed (fold_left manager evs report0) = l ++ [("Total"%string, t)] /\ is_peak delta_total evs t /\ NoDup (map fst l) /\
    (forall c, In c (map fst l) <-> exists e, In e evs /\ cat_of e = c) /\ forall c p, In (c, p) l -> is_peak (delta c) evs p.
Proof. exact printed_spec. Qed.
Print Assumptions C17_report.

(** *** Examples *)
(** Two blocks of 8 and 16 bytes, the first released and requested again with 7 bytes: reused for margin 0.2. *)
Example run_ex : exists m, fold_left (step bump 0 0.2) [Alloc 8; Alloc 16; Free 1; Alloc 7] (Running (emptyMC (mkW [] 0))) = Running m /\
  allocated m = [(1, 8); (10, 16)] /\ cache m = [] /\ overallTot m = 24.
Proof. exact example_reuse. Qed.
(** With a target of 20 bytes, a new block of 10 bytes displaces the cached one. *)
Example trim_ex : exists m, fold_left (step bump 20 0.2) [Alloc 8; Alloc 9; Free 1; Alloc 11] (Running (emptyMC (mkW [] 0))) = Running m /\
  allocated m = [(20, 11); (10, 9)] /\ cache m = [] /\ overallTot m = 20.
Proof. exact example_trim. Qed.
Example report_ex : printed (fold_left manager [Add "b" 5; Add "a" 3; Remove "b" 5; Add "a" 1; Remove "a" 4; Add "b" 2] report0)
  = [("a", 4); ("b", 5); ("Total", 8)]%string.
Proof. reflexivity. Qed.
