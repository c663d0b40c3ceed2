(** Property C58. *)
From Coq Require Import NArith ZArith List.
From Verif Require Import Crc_Model Crc_Spec Crc_Proofs.
Import ListNotations.

(** C58: the table driven checksum is the bit-serial CRC-32 for every character sequence (signed or unsigned char). *)
Theorem C58_crc32_is_standard : forall s, crc32 s = crc32_spec s.
Proof. exact crc32_correct. Qed.
Print Assumptions C58_crc32_is_standard.

(** The published check value for "123456789", and a string with a negative (signed char) byte. *)
Example C58_check_value : crc32 [49;50;51;52;53;54;55;56;57]%Z = 0xCBF43926%N.
Proof. vm_compute. reflexivity. Qed.
Example C58_signed_char : crc32 [-23]%Z = crc32 [233]%Z.
Proof. vm_compute. reflexivity. Qed.
