(** Grid index loops (C04) and FFT box selection (C05).
    Sample counts and indices in Z; size_t / int overflow is not modelled. *)
From Coq Require Import ZArith List Bool.
From Verif Require Import Base WorkDiv_Model.
Import ListNotations.
Open Scope Z_scope.

Definition V3 := (Z * Z * Z)%type.
Definition v0 (v : V3) := fst (fst v).
Definition v1 (v : V3) := snd (fst v).
Definition v2 (v : V3) := snd v.

(** One wrap "if(2*x>S) x-=S" : LoopMacros.h:66,73,76,79,101,111,114. *)
Definition wrapS (S x : Z) : Z := if S <? 2 * x then x - S else x.

(** LoopMacros.h:36-50 / 102-117: while(i<iStop) { code; i++; if(i==iStop) break; advance }.
    Result: the (index, coordinates) pairs handed to the loop body, in order.
    None: fuel exhausted before the loop ended. *)
Fixpoint loop_while (fuel : nat) (next : V3 -> V3) (i iStop : Z) (st : V3) : option (list (Z * V3)) :=
  match fuel with
  | O => None
  | S f =>
    if i <? iStop then
      if i + 1 =? iStop then Some [(i, st)]
      else option_map (cons (i, st)) (loop_while f next (i+1) iStop (next st))
    else Some []
  end.

(** LoopMacros.h:67-82: while(true) { code; i++; if(i==iStop) break; advance }.
    (size_t wrap-around of i after 2^64 iterations is not modelled.) *)
Fixpoint loop_true (fuel : nat) (next : V3 -> V3) (i iStop : Z) (st : V3) : option (list (Z * V3)) :=
  match fuel with
  | O => None
  | S f =>
    if i + 1 =? iStop then Some [(i, st)]
    else option_map (cons (i, st)) (loop_true f next (i+1) iStop (next st))
  end.

(** LoopMacros.h:32-35  THREAD_rLoop initial coordinates. *)
Definition r_init (S : V3) (i : Z) : V3 :=
  (i / (v2 S * v1 S), (i / v2 S) mod v1 S, i mod v2 S).
(** LoopMacros.h:41-49  THREAD_rLoop advance. *)
Definition r_next (S : V3) (iv : V3) : V3 :=
  let c := v2 iv + 1 in
  if c =? v2 S then
    let b := v1 iv + 1 in
    if b =? v1 S then (v0 iv + 1, 0, 0) else (v0 iv, b, 0)
  else (v0 iv, v1 iv, c).
Definition THREAD_rLoop (S : V3) (fuel : nat) (iStart iStop : Z) :=
  loop_while fuel (r_next S) iStart iStop (r_init S iStart).

(** LoopMacros.h:65-66  THREAD_fullGspaceLoop initial coordinates. *)
Definition fullG_init (S : V3) (i : Z) : V3 :=
  (wrapS (v0 S) (i / (v2 S * v1 S)), wrapS (v1 S) ((i / v2 S) mod v1 S), wrapS (v2 S) (i mod v2 S)).
(** LoopMacros.h:72-81  THREAD_fullGspaceLoop advance. *)
Definition fullG_next (S : V3) (iG : V3) : V3 :=
  let c := wrapS (v2 S) (v2 iG + 1) in
  if c =? 0 then
    let b := wrapS (v1 S) (v1 iG + 1) in
    if b =? 0 then (wrapS (v0 S) (v0 iG + 1), b, c) else (v0 iG, b, c)
  else (v0 iG, v1 iG, c).
Definition THREAD_fullGspaceLoop (S : V3) (fuel : nat) (iStart iStop : Z) :=
  loop_true fuel (fullG_next S) iStart iStop (fullG_init S iStart).

(** LoopMacros.h:98-101  THREAD_halfGspaceLoop initial coordinates. *)
Definition size2 (S : V3) : Z := v2 S / 2 + 1.
Definition halfG_init (S : V3) (i : Z) : V3 :=
  (wrapS (v0 S) (i / (size2 S * v1 S)), wrapS (v1 S) ((i / size2 S) mod v1 S), wrapS (v2 S) (i mod size2 S)).
(** LoopMacros.h:107-116  THREAD_halfGspaceLoop advance. *)
Definition halfG_next (S : V3) (iG : V3) : V3 :=
  let c := v2 iG + 1 in
  if c =? size2 S then
    let b := wrapS (v1 S) (v1 iG + 1) in
    if b =? 0 then (wrapS (v0 S) (v0 iG + 1), b, 0) else (v0 iG, b, 0)
  else (v0 iG, v1 iG, c).
Definition THREAD_halfGspaceLoop (S : V3) (fuel : nat) (iStart iStop : Z) :=
  loop_while fuel (halfG_next S) iStart iStop (halfG_init S iStart).

(** LoopMacros.h:133  IS_NYQUIST. *)
Definition is_nyquist (S iG : V3) : bool :=
  (2 * v0 iG - v0 S =? 0) || (2 * v1 iG - v1 S =? 0) || (2 * v2 iG - v2 S =? 0).

(** GridInfo.h:129-145  wrapGcoords, fullRindex, fullGindex, halfGindex. *)
Definition wrap1 (S x : Z) : Z := if x <? 0 then x + S else x.
Definition wrapGcoords (S iG : V3) : V3 := (wrap1 (v0 S) (v0 iG), wrap1 (v1 S) (v1 iG), wrap1 (v2 S) (v2 iG)).
Definition fullRindex (S iR : V3) : Z := v2 iR + v2 S * (v1 iR + v1 S * v0 iR).
Definition fullGindex (S iG : V3) : Z := fullRindex S (wrapGcoords S iG).
Definition halfGindex (S iG : V3) : Z :=
  let w := wrapGcoords S iG in v2 w + (v2 S / 2 + 1) * (v1 w + v1 S * v0 w).

(** Total counts: GridInfo.cpp:254-255. *)
Definition nr (S : V3) : Z := v0 S * v1 S * v2 S.
Definition nG (S : V3) : Z := v0 S * v1 S * (v2 S / 2 + 1).

(** threadLaunch(X_sub, n, ...) for a loop macro X (e.g. Operators.cpp:47,108,275): each thread t runs the
    macro on its range [thread_i1, thread_i2) (Thread.h:122-127).  The visits of all
    threads are listed thread by thread; None if any thread fails to finish. *)
Definition thread_union (loop : nat -> Z -> Z -> option (list (Z*V3))) (fuel : nat) (nThreads n : Z) : option (list (Z*V3)) :=
  fold_right (fun t acc => match loop fuel (thread_i1 nThreads n t) (thread_i2 nThreads n t), acc with
                           | Some L, Some L' => Some (L ++ L') | _, _ => None end) (Some []) (zrange 0 nThreads).
