(** Model of the allocation cache and memory usage report, jdftx/core/ManagedMemory.cpp.  Addresses and sizes are
    integers (size_t without overflow); the lock makes every operation atomic, so that concurrent use is some sequence. *)
From Coq Require Import ZArith List Bool Reals String.
From Verif Require Import XR_Model.
Import ListNotations.
Open Scope Z_scope.

(** *** Underlying memory space: live blocks (address, size) and a step counter for the allocator's choices *)
Record World := mkW { w_live : list (Z * Z); w_tick : nat }.

(** jdftx/core/ManagedMemory.cpp 160-167: class MemCache; std::map by address, std::multimap by size (kept sorted) *)
Record MC := mkMC { allocated : list (Z * Z); cache : list (Z * Z); allocatedTot : Z; cacheTot : Z; overallTot : Z; world : World }.
Definition emptyMC (w : World) : MC := mkMC [] [] 0 0 0 w.

Section Cache.
Variable raw : World -> Z -> option Z.    (* MemSpace::alloc; None for a null pointer *)
Variable cacheSize : Z.                   (* 32; unlimited if 0 *)
Variable margin : R.                      (* 33: cacheMargin *)

(** MemSpace::free; None if the address is not live *)
Definition rawFree (w : World) (p : Z) : option World :=
  if existsb (fun b => fst b =? p) (w_live w)
  then Some (mkW (filter (fun b => negb (fst b =? p)) (w_live w)) (S (w_tick w))) else None.

(** std::map find, insert (no effect for a present key) and erase *)
Definition mfind (l : list (Z * Z)) (p : Z) : option Z := option_map snd (find (fun b => fst b =? p) l).
Definition minsert (l : list (Z * Z)) (p s : Z) : list (Z * Z) := match mfind l p with Some _ => l | None => (p, s) :: l end.
Definition merase (l : list (Z * Z)) (p : Z) : list (Z * Z) := filter (fun b => negb (fst b =? p)) l.
(** std::multimap insert: after all entries with keys <= size *)
Fixpoint cinsert (c : list (Z * Z)) (s p : Z) : list (Z * Z) :=
  match c with [] => [(s, p)] | e :: c' => if fst e <=? s then e :: cinsert c' s p else (s, p) :: c end.
(** std::multimap lower_bound: entries before, and the first entry with key >= size *)
Fixpoint lowerBound (c : list (Z * Z)) (size : Z) : option (list (Z * Z) * (Z * Z) * list (Z * Z)) :=
  match c with
  | [] => None
  | e :: c' => if size <=? fst e then Some ([], e, c')
               else match lowerBound c' size with Some (a, x, b) => Some (e :: a, x, b) | None => None end
  end.

(** jdftx/core/ManagedMemory.cpp 170-183: free; None: failed assertion *)
Definition mcFree (m : MC) (p : Z) : option MC :=
  match mfind (allocated m) p with
  | None => None
  | Some size => Some (mkMC (merase (allocated m) p) (cinsert (cache m) size p) (allocatedTot m - size) (cacheTot m + size) (overallTot m) (world m))
  end.

(** jdftx/core/ManagedMemory.cpp 259-268: allocRaw *)
Definition allocRaw (m : MC) (size : Z) : MC * option Z :=
  match raw (world m) size with
  | None => (mkMC (allocated m) (cache m) (allocatedTot m) (cacheTot m) (overallTot m) (mkW (w_live (world m)) (S (w_tick (world m)))), None)
  | Some p => (mkMC (minsert (allocated m) p size) (cache m) (allocatedTot m + size) (cacheTot m) (overallTot m + size)
                 (mkW ((p, size) :: w_live (world m)) (S (w_tick (world m)))), Some p)
  end.
(** jdftx/core/ManagedMemory.cpp 271-277: freeRaw of the first entry *)
Definition freeRaw (m : MC) : option MC :=
  match cache m with
  | [] => None
  | (s, p) :: c => match rawFree (world m) p with
      | None => None
      | Some w => Some (mkMC (allocated m) c (allocatedTot m) (cacheTot m - s) (overallTot m - s) w)
      end
  end.

Inductive AllocOut := Got (p : Z) (m : MC) | OutOfMemory (m : MC) | BadFree.

(** jdftx/core/ManagedMemory.cpp 210-213: n = number of entries in the cache *)
Fixpoint clearAhead (n : nat) (size : Z) (m : MC) : option MC :=
  match n with
  | O => Some m
  | S n => match freeRaw m with
      | None => None
      | Some m1 => if overallTot m1 + size <=? cacheSize then Some m1 else clearAhead n size m1
      end
  end.
(** jdftx/core/ManagedMemory.cpp 225-237 *)
Fixpoint retry (n : nat) (size : Z) (m : MC) : AllocOut :=
  match n with
  | O => OutOfMemory m
  | S n => match freeRaw m with
      | None => BadFree
      | Some m1 => let '(m2, r) := allocRaw m1 size in match r with Some p => Got p m2 | None => retry n size m2 end
      end
  end.
(** jdftx/core/ManagedMemory.cpp 205-237: allocation from the underlying memory space *)
Definition allocNew (size : Z) (m : MC) : AllocOut :=
  let m1 := if negb (cacheSize =? 0) && (cacheSize <? overallTot m + size) then clearAhead (List.length (cache m)) size m else Some m in
  match m1 with
  | None => BadFree
  | Some m1 => let '(m2, r) := allocRaw m1 size in match r with Some p => Got p m2 | None => retry (List.length (cache m2)) size m2 end
  end.
(** jdftx/core/ManagedMemory.cpp 185-238: alloc *)
Definition mcAlloc (m : MC) (size : Z) : AllocOut :=
  match lowerBound (cache m) size with
  | Some (a, (s, p), b) =>
      if Rltb (IZR s) (IZR size + IZR size * margin)
      then Got p (mkMC (minsert (allocated m) p s) (a ++ b) (allocatedTot m + s) (cacheTot m - s) (overallTot m) (world m))
      else allocNew size m
  | None => allocNew size m
  end.
(** jdftx/core/ManagedMemory.cpp 250-255: destructor; None if a block is freed that is not live *)
Fixpoint freeAll (ps : list Z) (w : World) : option World :=
  match ps with [] => Some w | p :: ps => match rawFree w p with Some w => freeAll ps w | None => None end end.
Definition mcDestroy (m : MC) : option World :=
  match freeAll (map fst (allocated m)) (world m) with Some w => freeAll (map snd (cache m)) w | None => None end.

(** Sequences of operations: the block to free is given by its address *)
Inductive Op := Alloc (size : Z) | Free (p : Z).
Inductive RunOut := Running (m : MC) | Died (m : MC) | Invalid.
Definition step (r : RunOut) (o : Op) : RunOut :=
  match r with
  | Running m => match o with
      | Alloc size => match mcAlloc m size with Got _ m' => Running m' | OutOfMemory m' => Died m' | BadFree => Invalid end
      | Free p => match mcFree m p with Some m' => Running m' | None => Invalid end
      end
  | _ => r
  end.

(** *** jdftx/core/ManagedMemory.cpp 365-413: ManagedMemoryBase objects (single cache, as with unified memory) *)
Record Obj := mkObj { ob_cat : string; ob_n : Z; ob_gpu : bool; ob_c : Z }.
Definition noObj : Obj := mkObj "" 0 false 0.
(** calls to MemUsageReport::manager *)
Inductive Event := Add (cat : string) (n : Z) | Remove (cat : string) (n : Z).
Record Sys := mkSys { sy_obj : nat -> Obj; sy_mc : MC; sy_ev : list Event }.
Definition upd (f : nat -> Obj) (i : nat) (o : Obj) : nat -> Obj := fun j => if Nat.eqb j i then o else f j.

(** 365-381: memFree; None: failed assertion *)
Definition memFree (s : Sys) (i : nat) : option Sys :=
  let o := sy_obj s i in
  if ob_n o =? 0 then Some s else
  match mcFree (sy_mc s) (ob_c o) with
  | None => None
  | Some m => Some (mkSys (upd (sy_obj s) i noObj) m (sy_ev s ++ [Remove (ob_cat o) (ob_n o)]))
  end.
Inductive SysOut := Fine (s : Sys) | Dead (s : Sys) | Undefined.
(** 384-405: memInit *)
Definition memInit (s : Sys) (i : nat) (cat : string) (n : Z) (gpu : bool) : SysOut :=
  let o := sy_obj s i in
  if String.eqb cat (ob_cat o) && (n =? ob_n o) && Bool.eqb gpu (ob_gpu o) then Fine s else
  match memFree s i with
  | None => Undefined
  | Some s1 => match mcAlloc (sy_mc s1) n with
      | Got p m => Fine (mkSys (upd (sy_obj s1) i (mkObj cat n gpu p)) m (sy_ev s1 ++ [Add cat n]))
      | OutOfMemory m => Dead (mkSys (sy_obj s1) m (sy_ev s1))
      | BadFree => Undefined
      end
  end.
(** 407-413: memMove *)
Definition memMove (s : Sys) (i j : nat) : Sys := mkSys (upd (upd (sy_obj s) i (sy_obj s j)) j (sy_obj s i)) (sy_mc s) (sy_ev s).

Inductive ObjOp := Init (i : nat) (cat : string) (n : Z) (gpu : bool) | Release (i : nat) | Move (i j : nat).
Definition sysStep (r : SysOut) (o : ObjOp) : SysOut :=
  match r with
  | Fine s => match o with
      | Init i cat n gpu => memInit s i cat n gpu
      | Release i => match memFree s i with Some s' => Fine s' | None => Undefined end
      | Move i j => Fine (memMove s i j)
      end
  | _ => r
  end.
Definition sys0 (w : World) : Sys := mkSys (fun _ => noObj) (emptyMC w) [].
End Cache.

(** *** jdftx/core/ManagedMemory.cpp 89-137: usage per category (std::map) and in total *)
Record Usage := mkUsage { current : Z; peak : Z }.
Definition usage0 := mkUsage 0 0.
Definition uadd (u : Usage) (n : Z) : Usage := mkUsage (current u + n) (if peak u <? current u + n then current u + n else peak u).
Definition usub (u : Usage) (n : Z) : Usage := mkUsage (current u - n) (peak u).
Record Report := mkRep { usageMap : list (string * Usage); usageTotal : Usage }.
Definition ulookup (l : list (string * Usage)) (c : string) : Usage :=
  match find (fun e => String.eqb (fst e) c) l with Some (_, u) => u | None => usage0 end.
(** usageMap[category] = ..., in the order of a std::map *)
Fixpoint uinsert (l : list (string * Usage)) (c : string) (u : Usage) : list (string * Usage) :=
  match l with [] => [(c, u)] | e :: l' => if String.ltb c (fst e) then (c, u) :: l else e :: uinsert l' c u end.
Definition uset (l : list (string * Usage)) (c : string) (u : Usage) : list (string * Usage) :=
  if existsb (fun e => String.eqb (fst e) c) l then map (fun e => if String.eqb (fst e) c then (c, u) else e) l else uinsert l c u.
Definition manager (r : Report) (e : Event) : Report :=
  match e with
  | Add c n => mkRep (uset (usageMap r) c (uadd (ulookup (usageMap r) c) n)) (uadd (usageTotal r) n)
  | Remove c n => mkRep (uset (usageMap r) c (usub (ulookup (usageMap r) c) n)) (usub (usageTotal r) n)
  end.
Definition report0 := mkRep [] usage0.
(** 138-143: Print, as the list of names and peaks (formatting not modelled) *)
Definition printed (r : Report) : list (string * Z) := map (fun e => (fst e, peak (snd e))) (usageMap r) ++ [("Total"%string, peak (usageTotal r))].
