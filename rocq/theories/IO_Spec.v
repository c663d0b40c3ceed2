(** Specification of binary transfers: what number a run of bytes means on a host, and on file. *)
From Coq Require Import ZArith List Bool.
From Verif Require Import Base.
Import ListNotations.
Open Scope Z_scope.

(** The number stored in n consecutive bytes by a little endian reader, from the lowest address. *)
Fixpoint le_number (get : Z -> Z) (base : Z) (n : nat) : Z :=
  match n with O => 0 | S k => get base + 256 * le_number get (base+1) k end.
(** ... and by a big endian reader. *)
Fixpoint be_number (get : Z -> Z) (base : Z) (n : nat) : Z :=
  match n with O => 0 | S k => get base * 256^(Z.of_nat k) + be_number get (base+1) k end.
Definition host_number (little : bool) := if little then le_number else be_number.

(** Width of the numbers that make up an element of the given size: 1, 2, 4 or 8 bytes,
    with anything else a sequence of 8 byte numbers. *)
Definition number_width (size : Z) : option Z :=
  if size =? 1 then Some 1 else if size =? 2 then Some 2 else if size =? 4 then Some 4
  else if (0 <? size) && (size mod 8 =? 0) then Some 8 else None.

From Verif Require Import IO_Model.
(** Effect of a successful write of n bytes of w-byte numbers from address ptr on a host:
    memory unchanged; the numbers appear in little endian order at the file position, nothing else in the
    file changes and the position moves past them. *)
Definition written (little : bool) (w ptr n : Z) (m m' : mem) (f f' : file) : Prop :=
  (forall a, m' a = m a) /\
  (forall q, 0 <= q -> (q+1)*w <= n ->
     le_number (content f') (fpos f + q*w) (Z.to_nat w) = host_number little m (ptr + q*w) (Z.to_nat w)) /\
  (forall o, ~ (fpos f <= o < fpos f + n) -> content f' o = content f o) /\
  fpos f' = fpos f + n /\ flen f' = Z.max (flen f) (fpos f + n).
(** Effect of a successful read. *)
Definition read_back (little : bool) (w ptr n : Z) (m m' : mem) (f f' : file) : Prop :=
  (forall q, 0 <= q -> (q+1)*w <= n ->
     host_number little m' (ptr + q*w) (Z.to_nat w) = le_number (content f) (fpos f + q*w) (Z.to_nat w)) /\
  (forall a, ~ (ptr <= a < ptr + n) -> m' a = m a) /\
  (forall o, content f' o = content f o) /\ fpos f' = fpos f + n /\ flen f' = flen f.
