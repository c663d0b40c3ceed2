(** Work division over MPI processes and threads (C01, C02, C03).
    Integers are modelled in Z: size_t / int overflow of the products is not modelled. *)
From Coq Require Import ZArith List Bool.
From Verif Require Import Base.
Import ListNotations.
Open Scope Z_scope.

(** jdftx/core/MPIUtil.cpp:377-380  TaskDivision::init: the array stopArr. *)
Definition stopArr (nTasks nProcs : Z) : list Z :=
  map (fun iProc => (nTasks * (iProc + 1)) / nProcs) (zrange 0 nProcs).

(** jdftx/core/MPIUtil.cpp:371-372 TaskDivision::TaskDivision(nTasks, 0): the division without MPI. *)
Definition stopArr_noMPI (nTasks : Z) : list Z := [nTasks].

(** jdftx/core/MPIUtil.h:152  TaskDivision::stop(iProc) = stopArr[iProc]. *)
Definition td_stop (arr : list Z) (iProc : Z) : Z := nth (Z.to_nat iProc) arr 0.

(** jdftx/core/MPIUtil.h:151  TaskDivision::start(iProc) = iProc ? stopArr[iProc-1] : 0. *)
Definition td_start (arr : list Z) (iProc : Z) : Z :=
  if iProc =? 0 then 0 else nth (Z.to_nat (iProc - 1)) arr 0.

(** jdftx/core/MPIUtil.h:153  TaskDivision::isMine evaluated on process iProc
    (startMine, stopMine are start(iProc), stop(iProc): MPIUtil.cpp:381-382). *)
Definition td_isMine (arr : list Z) (iProc task : Z) : bool :=
  (td_start arr iProc <=? task) && (task <? td_stop arr iProc).

(** std::upper_bound(first,last,q)-first: number of leading elements not exceeding q.
    (Library contract on sorted ranges; a binary search in practice.) *)
Fixpoint upper_bound (arr : list Z) (q : Z) : Z :=
  match arr with
  | [] => 0
  | s :: arr' => if q <? s then 0 else 1 + upper_bound arr' q
  end.

(** jdftx/core/MPIUtil.cpp:385-389  TaskDivision::whose. *)
Definition td_whose (arr : list Z) (q : Z) : Z :=
  if (1 <? Z.of_nat (length arr)) then upper_bound arr q else 0.

(** jdftx/core/MPIUtil.cpp:29-35  MPIUtil::ProcDivision with nGroups > 0: group index of process iProcess. *)
Definition procGroup (nGroups nProcesses iProcess : Z) : Z :=
  iProcess * nGroups / nProcesses.

(** jdftx/core/Util.cpp:271  cores assigned to process iSibling out of nSiblings on a node
    with nCores cores (nProcsAvailable). *)
Definition coresOf (nCores nSiblings iSibling : Z) : Z :=
  Z.max 1 ((nCores * (iSibling + 1)) / nSiblings - (nCores * iSibling) / nSiblings).

(** jdftx/core/Thread.h:123-124  threadLaunch: half-open range [i1,i2) given to thread t. *)
Definition thread_i1 (nThreads nJobs t : Z) : Z :=
  if 0 <? nJobs then (t * nJobs) / nThreads else t.
Definition thread_i2 (nThreads nJobs t : Z) : Z :=
  if 0 <? nJobs then ((t + 1) * nJobs) / nThreads else nThreads.

(** jdftx/core/Thread.h:118-134, 143-149  threadedLoop: the iterations executed by each thread
    (thread t runs i = i1 .. i2-1 in order: threadedLoop_sub). *)
Definition thread_iterations (nThreads nJobs : Z) : list (list Z) :=
  map (fun t => zrange (thread_i1 nThreads nJobs t) (thread_i2 nThreads nJobs t)) (zrange 0 nThreads).

(** Effect of executing iterations in the order given by a schedule: iteration i replaces
    its own cell i by body i (old content).  (The loop bodies in the code write only
    the array elements with their own index.) *)
Definition run_iterations {A} (body : Z -> A -> A) (sched : list Z) (mem : Z -> A) : Z -> A :=
  fold_left (fun m i => fun j => if j =? i then body i (m i) else m j) sched mem.

(** jdftx/core/Thread.h:152-163, core/BlasExtra.cpp:234-316: each thread accumulates its
    own range into a private accumulator starting from zero, then adds it to the shared
    total while holding the lock.  [order] is the order in which threads get the lock. *)
Section Reduce.
  Context {A : Type} (zero : A) (add : A -> A -> A).

  Definition partial_sum (f : Z -> A) (i1 i2 : Z) : A :=
    fold_left (fun acc i => add acc (f i)) (zrange i1 i2) zero.

  Definition threaded_reduce (nThreads nJobs : Z) (f : Z -> A) (order : list Z) : A :=
    fold_left (fun tot t => add tot (partial_sum f (thread_i1 nThreads nJobs t) (thread_i2 nThreads nJobs t)))
      order zero.
End Reduce.

From Coq Require Import Reals.
Open Scope Z_scope.

(** cblas_dnrm2 contract: Euclidean norm of elements i1..i2-1 (exact real arithmetic). *)
Definition blas_nrm2 (x : Z -> R) (i1 i2 : Z) : R :=
  sqrt (partial_sum 0%R Rplus (fun i => (x i * x i)%R) i1 i2).

(** jdftx/core/BlasExtra.cpp:278-316  eblas_dznrm2 / eblas_dnrm2: squares of the thread norms
    are added under the lock, the square root is taken at the end.
    (For dznrm2 the elements x i are the real and imaginary parts.) *)
Definition threaded_nrm2 (nThreads nJobs : Z) (x : Z -> R) (order : list Z) : R :=
  sqrt (fold_left (fun ret t =>
          let retSub := blas_nrm2 x (thread_i1 nThreads nJobs t) (thread_i2 nThreads nJobs t) in
          (ret + retSub * retSub)%R) order 0%R).

(** jdftx/core/BlasExtra.cpp:256-276  eblas_ddot, and 234-254 eblas_zdotc (conjugates the first
    argument; complex numbers as (re,im) pairs, core/scalar.h:67-125). *)
Definition threaded_ddot (nThreads nJobs : Z) (x y : Z -> R) (order : list Z) : R :=
  threaded_reduce 0%R Rplus nThreads nJobs (fun i => (x i * y i)%R) order.
Definition cadd (a b : R * R) : R * R := (fst a + fst b, snd a + snd b)%R.
Definition cconj_mul (a b : R * R) : R * R :=
  (fst a * fst b + snd a * snd b, fst a * snd b - snd a * fst b)%R.
Definition threaded_zdotc (nThreads nJobs : Z) (x y : Z -> R * R) (order : list Z) : R * R :=
  threaded_reduce (0,0)%R cadd nThreads nJobs (fun i => cconj_mul (x i) (y i)) order.
