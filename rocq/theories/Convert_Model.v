(** Half / full reciprocal space conversions and grid changes (C38): core/Operators_internal.h 31-97 and core/Operators.cpp 39-116, 850-895.
    Arrays are functions of the index; a threaded loop is the list of its stores, executed in any order (every interleaving of the threads
    is one of the orders).  The arrays read are never the arrays written. *)
From Coq Require Import ZArith Reals List Bool.
From Coquelicot Require Import Complex.
From Verif Require Import Base Grid_Model.
Import ListNotations.
Open Scope Z_scope.

Definition array := Z -> C.
Definition store (a : array) (w : Z * C) : array := fun i => if i =? fst w then snd w else a i.
Definition exec (ws : list (Z * C)) (a : array) : array := fold_left store ws a.

(** Operators_internal.h 32-39: COMPUTE_fullRefIndices *)
Definition refC (S x : Z) : Z := let iv := wrap1 S x in if iv =? 0 then 0 else S - iv.
Definition iFull (S iG : V3) : Z := wrap1 (v2 S) (v2 iG) + v2 S * (wrap1 (v1 S) (v1 iG) + v1 S * wrap1 (v0 S) (v0 iG)).
Definition iFullRef (S iG : V3) : Z := refC (v2 S) (v2 iG) + v2 S * (refC (v1 S) (v1 iG) + v1 S * refC (v0 S) (v0 iG)).
(** 43-48 RealG_calc *)
Definition RealG_calc (S : V3) (vFull : array) (scaleFac : R) (p : Z * V3) : list (Z * C) :=
  let (iHalf, iG) := p in [(iHalf, Cmult (RtoC (scaleFac * 0.5)) (Cplus (vFull (iFull S iG)) (Cconj (vFull (iFullRef S iG)))))].
(** 51-56 ImagG_calc *)
Definition ImagG_calc (S : V3) (vFull : array) (scaleFac : R) (p : Z * V3) : list (Z * C) :=
  let (iHalf, iG) := p in [(iHalf, Cmult (0%R, (- scaleFac * 0.5)%R) (Cminus (vFull (iFull S iG)) (Cconj (vFull (iFullRef S iG)))))].
(** 59-66 ComplexG_calc: two stores *)
Definition ComplexG_calc (S : V3) (vHalf : array) (scaleFac : R) (p : Z * V3) : list (Z * C) :=
  let (iHalf, iG) := p in
  let temp := Cmult (RtoC scaleFac) (vHalf iHalf) in
  [(iFull S iG, temp); (iFullRef S iG, Cconj temp)].
(** 71-78 COMPUTE_index of changeGrid_calc; None: return *)
Definition outside (S x : Z) : bool := (2 * x <? 1 - S) || (S <? 2 * x).
Definition indexHalf (S iG : V3) : option Z :=
  if outside (v0 S) (v0 iG) then None else
  let i := 0 * v0 S + wrap1 (v0 S) (v0 iG) in
  if outside (v1 S) (v1 iG) then None else
  let i := i * v1 S + wrap1 (v1 S) (v1 iG) in
  if v2 S <? 2 * v2 iG then None else Some (i * (1 + v2 S / 2) + v2 iG).
(** 87-92 COMPUTE_index of changeGridFull_calc *)
Definition indexFull (S iG : V3) : option Z :=
  if outside (v0 S) (v0 iG) then None else
  let i := 0 * v0 S + wrap1 (v0 S) (v0 iG) in
  if outside (v1 S) (v1 iG) then None else
  let i := i * v1 S + wrap1 (v1 S) (v1 iG) in
  if outside (v2 S) (v2 iG) then None else Some (i * v2 S + wrap1 (v2 S) (v2 iG)).
(** 69-83, 85-97 *)
Definition changeGrid_calc (index : V3 -> V3 -> option Z) (Sin Sout : V3) (inp : array) (p : Z * V3) : list (Z * C) :=
  match index Sin (snd p) with
  | None => []
  | Some iin => match index Sout (snd p) with None => [] | Some iout => [(iout, inp iin)] end
  end.
(** Operators.cpp 865 *)
Definition Smax (Sin Sout : V3) : V3 := (Z.max (v0 Sin) (v0 Sout), Z.max (v1 Sin) (v1 Sout), Z.max (v2 Sin) (v2 Sout)).

(** The outcome r of a launch of the body calc over the points L of all threads, on the memory a *)
Definition launched (calc : Z * V3 -> list (Z * C)) (L : list (Z * V3)) (a r : array) : Prop :=
  exists ws, Permutation.Permutation ws (flat_map calc L) /\ r = exec ws a.
(** Operators.cpp 51, 77, 112: threadLaunch over the half space; freshly allocated output, contents a arbitrary *)
Definition Real_run (nThreads : Z) (S : V3) (s : R) (vFull r : array) : Prop :=
  exists fuel L a, thread_union (THREAD_halfGspaceLoop S) fuel nThreads (nG S) = Some L /\ launched (RealG_calc S vFull s) L a r.
Definition Imag_run (nThreads : Z) (S : V3) (s : R) (vFull r : array) : Prop :=
  exists fuel L a, thread_union (THREAD_halfGspaceLoop S) fuel nThreads (nG S) = Some L /\ launched (ImagG_calc S vFull s) L a r.
Definition Complex_run (nThreads : Z) (S : V3) (s : R) (vHalf r : array) : Prop :=
  exists fuel L a, thread_union (THREAD_halfGspaceLoop S) fuel nThreads (nG S) = Some L /\ launched (ComplexG_calc S vHalf s) L a r.
(** 859-869, 885-895: the output is zeroed first (nullToZero) *)
Definition zeroArray : array := fun _ => RtoC 0.
Definition changeGrid_run (nThreads : Z) (Sin Sout : V3) (inp r : array) : Prop :=
  exists fuel L, thread_union (THREAD_halfGspaceLoop (Smax Sin Sout)) fuel nThreads (nG (Smax Sin Sout)) = Some L /\
    launched (changeGrid_calc indexHalf Sin Sout inp) L zeroArray r.
Definition changeGridFull_run (nThreads : Z) (Sin Sout : V3) (inp r : array) : Prop :=
  exists fuel L, thread_union (THREAD_fullGspaceLoop (Smax Sin Sout)) fuel nThreads (nr (Smax Sin Sout)) = Some L /\
    launched (changeGrid_calc indexFull Sin Sout inp) L zeroArray r.
