(** Integer helper functions and error collection.
    Sources: core/Util.h:182-186, core/scalar.h:52-55, core/vector3.h:155-169 (gcd_loop, gcdReduce and ceildiv are in FFTBox_Model),
    fluid/TranslationOperator_internal.h:28-33, core/MPIUtil.cpp:134-157. *)
From Coq Require Import ZArith List Bool.
From Verif Require Import Base Grid_Model FFTBox_Model.
Import ListNotations.
Open Scope Z_scope.

(** Conversion of an int argument to int16_t / uint16_t (modulo 2^16). *)
Definition to_uint16 (x : Z) : Z := x mod 2^16.
Definition to_int16 (x : Z) : Z := (x + 2^15) mod 2^16 - 2^15.
(** positiveRemainder(int16_t x, uint16_t y) (Util.h:182-186), called with int arguments; None is division by zero. *)
Definition positiveRemainder (x y : Z) : option Z :=
  let x := to_int16 x in let y := to_uint16 y in
  if y =? 0 then None
  else let xMody := to_int16 (Z.rem x y) in
       Some (if xMody <? 0 then to_uint16 (y + xMody) else to_uint16 xMody).
(** floorMultiple (scalar.h:55). *)
Definition floorMultiple (num den : Z) : Z := Z.quot num den * den.
(** wrappedIndex (TranslationOperator_internal.h:28-33). *)
Definition wrap_once (i s : Z) : Z := if s <=? i then i - s else i.
Definition wrappedIndex (i S : V3) : Z :=
  wrap_once (v2 i) (v2 S) + v2 S * (wrap_once (v1 i) (v1 S) + v1 S * wrap_once (v0 i) (v0 S)).

(** checkErrors (MPIUtil.cpp:134-157), executed by all processes of a communicator.
    A process holds its message and, once errors exist, a buffer bufTot and the write offset into it.
    bcast(data, n, root) copies n items of root's buffer to all others; allReduce(ReduceSum) adds. *)
Definition write_at (buf : list Z) (off : nat) (s : list Z) : list Z :=
  firstn off buf ++ s ++ skipn (off + length s) buf.
Definition slice (buf : list Z) (off n : nat) : list Z := firstn n (skipn off buf).
(** Loop body MPIUtil.cpp:143-149 for jProcess = j with message s: process j copies its message into its
    buffer; then the slice is broadcast from j; the offset advances (it is the same everywhere). *)
Definition check_round (st : list (list Z) * nat) (js : nat * list Z) : list (list Z) * nat :=
  let '(bufs, off) := st in let '(j, s) := js in
  let bufs1 := map (fun ib => if Nat.eqb (fst ib) j then write_at (snd ib) off s else snd ib) (combine (seq 0 (length bufs)) bufs) in
  let sent := slice (nth j bufs1 []) off (length s) in
  (map (fun b => write_at b off sent) bufs1, (off + length s)%nat).
Inductive check_result := Continues | Stops (printed : list Z).
(** What fputs of a C string prints: up to the first NUL. *)
Fixpoint c_str (s : list Z) : list Z := match s with [] => [] | c :: r => if c =? 0 then [] else c :: c_str r end.
Definition checkErrors (msgs : list (list Z)) : list check_result :=
  let nTot := fold_right (fun s n => (length s + n)%nat) 0%nat msgs in
  if Nat.eqb nTot 0 then map (fun _ => Continues) msgs
  else
    let bufs := map (fun _ => repeat 32 nTot) msgs in
    let '(bufs, _) := fold_left check_round (combine (seq 0 (length msgs)) msgs) (bufs, 0%nat) in
    map (fun b => Stops (c_str (b ++ [10]))) bufs.
