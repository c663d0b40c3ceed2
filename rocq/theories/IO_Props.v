(** Properties C06 and C07. *)
From Coq Require Import ZArith List Lia Bool.
From Verif Require Import Base IO_Model IO_Spec IO_Proofs IO_Proofs2.
Import ListNotations.
Open Scope Z_scope.

(** C06: a parallel write transfers nmemb elements contiguously and in order, leaves memory and the rest of the
    file alone, and every count given to the MPI library is positive and fits in an int. *)
Theorem C06_write_moves_every_element : forall little ptr size nmemb w s,
  1 <= size <= INT_MAX/2 -> 0 <= nmemb -> nmemb*size <= 2^63 ->
  number_width size = Some w -> counts s = [] -> fpos (ff s) <= flen (ff s) ->
  exists s', mpi_fwrite little ptr size nmemb s = Some s' /\
    written little w ptr (nmemb*size) (mm s) (mm s') (ff s) (ff s') /\
    Forall (fun c => 0 < c <= INT_MAX) (counts s') /\ fold_right Z.add 0 (counts s') = nmemb*size.
Proof. exact mpi_fwrite_spec. Qed.
Print Assumptions C06_write_moves_every_element.

Theorem C06_read_moves_every_element : forall little ptr size nmemb w s,
  1 <= size <= INT_MAX/2 -> 0 <= nmemb -> nmemb*size <= 2^63 ->
  number_width size = Some w -> counts s = [] -> 0 <= fpos (ff s) -> fpos (ff s) + nmemb*size <= flen (ff s) ->
  exists s', mpi_fread little ptr size nmemb s = Some s' /\
    read_back little w ptr (nmemb*size) (mm s) (mm s') (ff s) (ff s') /\
    Forall (fun c => 0 < c <= INT_MAX) (counts s') /\ fold_right Z.add 0 (counts s') = nmemb*size.
Proof. exact mpi_fread_spec. Qed.
Print Assumptions C06_read_moves_every_element.

(** C06: a file that is too short is always reported. *)
Theorem C06_short_file_is_detected : forall little ptr size nmemb w s,
  1 <= size <= INT_MAX/2 -> 0 <= nmemb -> nmemb*size <= 2^63 ->
  number_width size = Some w -> counts s = [] -> 0 <= fpos (ff s) <= flen (ff s) -> flen (ff s) < fpos (ff s) + nmemb*size ->
  mpi_fread little ptr size nmemb s = None.
Proof. exact mpi_fread_short. Qed.
Print Assumptions C06_short_file_is_detected.

(** C07: the file is little endian on any host, and the caller's buffer is unchanged ([written]). *)
Theorem C07_file_is_little_endian : forall little ptr size nmemb w f m, 0 <= nmemb -> number_width size = Some w ->
  exists m' f', fwriteLE little ptr size nmemb f m = Some (m', f', nmemb) /\ written little w ptr (nmemb*size) m m' f f'.
Proof. exact fwriteLE_spec. Qed.
Print Assumptions C07_file_is_little_endian.

Theorem C07_read_is_host_independent : forall little ptr size nmemb w f m, 0 <= nmemb -> number_width size = Some w ->
  0 <= fpos f -> fpos f + nmemb*size <= flen f ->
  exists m' f', freadLE little ptr size nmemb f m = Some (m', f', nmemb) /\ read_back little w ptr (nmemb*size) m m' f f'.
Proof. exact freadLE_spec. Qed.
Print Assumptions C07_read_is_host_independent.

(** C07: what one host writes another host reads back, number by number, for each combination of hosts. *)
Theorem C07_round_trip : forall l1 l2 w p1 p2 n m1 m1' f f' m2 m2' f'' g, 0 < w ->
  written l1 w p1 n m1 m1' f f' -> read_back l2 w p2 n m2 m2' f'' g ->
  (forall o, content f'' o = content f' o) -> fpos f'' = fpos f ->
  forall q, 0 <= q -> (q+1)*w <= n ->
    host_number l2 m2' (p2+q*w) (Z.to_nat w) = host_number l1 m1 (p1+q*w) (Z.to_nat w).
Proof. exact roundtrip. Qed.
Print Assumptions C07_round_trip.

Definition ex_file := {| content := fun o => o; flen := 24; fpos := 0 |}.
Example C06_example : number_width 16 = Some 8 /\ 1 <= 16 <= INT_MAX/2 /\
  option_map counts (mpi_fread false 100 16 1 {| mm := fun _ => 0; ff := ex_file; counts := [] |}) = Some [16] /\
  option_map (fun s => map (mm s) [100;107;108;115;116]) (mpi_fread false 100 16 1 {| mm := fun _ => 0; ff := ex_file; counts := [] |})
  = Some [7;0;15;8;0].
Proof. split; [reflexivity|]. split; [vm_compute; split; discriminate|]. split; vm_compute; reflexivity. Qed.
(** Number 0x0102 stored on a big endian host appears little endian on file. *)
Example C07_example : option_map (fun r => map (content (snd (fst r))) [0;1]) (fwriteLE false 5 2 1 ex_file (fun a => if a =? 5 then 1 else 2))
  = Some [2;1] /\ number_width 2 = Some 2.
Proof. split; vm_compute; reflexivity. Qed.
