(** The bit-serial definition of CRC-32 (reflected polynomial 0xEDB88320, register preset to ones, result complemented). *)
From Coq Require Import NArith ZArith List Bool.
Import ListNotations.
Open Scope N_scope.

(** The eight bits of a byte, least significant first (bytes are integers modulo 256). *)
Definition byte_bits (c : Z) : list bool := map (fun i => Z.testbit c i) [0;1;2;3;4;5;6;7]%Z.
(** Shift one message bit into the register. *)
Definition shift_bit (r : N) (b : bool) : N :=
  if xorb (N.odd r) b then N.lxor (N.shiftr r 1) 0xEDB88320 else N.shiftr r 1.
Definition crc32_spec (s : list Z) : N :=
  N.lxor (fold_left shift_bit (flat_map byte_bits s) 0xFFFFFFFF) 0xFFFFFFFF.
