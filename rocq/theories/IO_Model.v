(** Binary file input/output.
    Sources: core/MPIUtil.cpp:326-367 (fread, fwrite), core/Util.cpp:526-598 (endian conversion, freadLE, fwriteLE),
    core/scalar.h:52 (ceildiv).
    Memory and file content are maps from addresses / offsets to bytes.  Arithmetic in
    size_t wraps modulo 2^64 as in C.  isLittleEndian (Util.cpp:526-544) is a parameter of the host. *)
From Coq Require Import ZArith List Bool.
From Verif Require Import Base.
Import ListNotations.
Open Scope Z_scope.

Definition INT_MAX : Z := 2147483647.
Definition u64 (x : Z) : Z := x mod 2^64.

Definition mem := Z -> Z.
(** std::swap(bytes[i], bytes[j]) (Util.cpp:573). *)
Definition swap_bytes (m : mem) (i j : Z) : mem := fun a => if a =? i then m j else if a =? j then m i else m a.
(** Inner loop Util.cpp:572-574. *)
Definition swap_chunk (chunkSize : Z) (m : mem) (bytes : Z) : mem :=
  fold_left (fun m iByte => swap_bytes m (bytes + iByte) (bytes + (chunkSize - 1 - iByte))) (zrange 0 (chunkSize / 2)) m.
(** Outer loop Util.cpp:571-576 (bytes advances by chunkSize each time). *)
Definition swap_chunks (chunkSize nChunks : Z) (m : mem) (ptr : Z) : mem :=
  fold_left (fun m iChunk => swap_chunk chunkSize m (ptr + iChunk * chunkSize)) (zrange 0 nChunks) m.

(** Selection of chunk size and count (Util.cpp:552-568); None is die(). *)
Definition chunking (size nmemb : Z) : option (Z*Z) :=
  if (size =? 2) || (size =? 4) || (size =? 8) then Some (size, nmemb)
  else if size mod 8 =? 0 then Some (8, nmemb * (size / 8)) else None.
(** convertToLE (Util.cpp:547-578) on a host that is little endian or not; None is die(). *)
Definition convertToLE (little : bool) (m : mem) (ptr size nmemb : Z) : option mem :=
  if little || (size =? 1) then Some m
  else match chunking size nmemb with
       | Some (c, n) => Some (swap_chunks c n m ptr)
       | None => None
       end.
(** convertFromLE (Util.cpp:581-583). *)
Definition convertFromLE := convertToLE.

(** A file: contents, length in bytes, current position. *)
Record file := { content : Z -> Z; flen : Z; fpos : Z }.
(** Transfer of n bytes from memory to the file at its position (MPI_File_write / fwrite), and back.
    The read returns how many bytes were available. *)
Definition raw_write (f : file) (m : mem) (ptr n : Z) : file :=
  {| content := fun o => if (fpos f <=? o) && (o <? fpos f + n) then m (ptr + (o - fpos f)) else content f o;
     flen := Z.max (flen f) (fpos f + n); fpos := fpos f + n |}.
Definition raw_read (f : file) (m : mem) (ptr n : Z) : mem * file * Z :=
  let avail := Z.max 0 (Z.min n (flen f - fpos f)) in
  (fun a => if (ptr <=? a) && (a <? ptr + avail) then content f (fpos f + (a - ptr)) else m a,
   {| content := content f; flen := flen f; fpos := fpos f + avail |}, avail).

(** State of a transfer, with the byte counts handed to the MPI library so far. *)
Record io := { mm : mem; ff : file; counts : list Z }.

(** ceildiv on size_t (scalar.h:52). *)
Definition ceildiv_u64 (num den : Z) : Z := u64 (num + den - 1) / den.
(** blockSize, nBlocks, and offset/length of one block (MPIUtil.cpp:329-333, 350-354). *)
Definition blockSize (size : Z) : Z := INT_MAX / u64 (2*size).
Definition block_offset (bs iBlock : Z) : Z := u64 (iBlock * bs).
Definition block_length (bs nmemb iBlock : Z) : Z :=
  u64 (Z.min nmemb (u64 ((iBlock+1) * bs)) - block_offset bs iBlock).

(** One pass of the loop of MPIUtil::fread (MPIUtil.cpp:331-340); None is die(). *)
Definition fread_block (little : bool) (ptr size nmemb bs : Z) (st : option io) (iBlock : Z) : option io :=
  match st with None => None | Some s =>
    let len := block_length bs nmemb iBlock in
    let p := ptr + block_offset bs iBlock * size in
    let '(m1, f1, cnt) := raw_read (ff s) (mm s) p (len * size) in
    match convertFromLE little m1 p size len with
    | None => None
    | Some m2 => if cnt =? len * size then Some {| mm := m2; ff := f1; counts := counts s ++ [len*size] |} else None
    end
  end.
Definition mpi_fread (little : bool) (ptr size nmemb : Z) (s : io) : option io :=
  let bs := blockSize size in
  fold_left (fread_block little ptr size nmemb bs) (zrange 0 (ceildiv_u64 nmemb bs)) (Some s).

(** One pass of the loop of MPIUtil::fwrite (MPIUtil.cpp:352-362). The write itself is assumed to succeed. *)
Definition fwrite_block (little : bool) (ptr size nmemb bs : Z) (st : option io) (iBlock : Z) : option io :=
  match st with None => None | Some s =>
    let len := block_length bs nmemb iBlock in
    let p := ptr + block_offset bs iBlock * size in
    match convertToLE little (mm s) p size len with
    | None => None
    | Some m1 =>
      let f1 := raw_write (ff s) m1 p (len * size) in
      match convertFromLE little m1 p size len with
      | None => None
      | Some m2 => Some {| mm := m2; ff := f1; counts := counts s ++ [len*size] |}
      end
    end
  end.
Definition mpi_fwrite (little : bool) (ptr size nmemb : Z) (s : io) : option io :=
  let bs := blockSize size in
  fold_left (fwrite_block little ptr size nmemb bs) (zrange 0 (ceildiv_u64 nmemb bs)) (Some s).

(** freadLE and fwriteLE (Util.cpp:586-598); the read returns the number of complete elements. *)
Definition freadLE (little : bool) (ptr size nmemb : Z) (f : file) (m : mem) : option (mem * file * Z) :=
  let '(m1, f1, cnt) := raw_read f m ptr (size*nmemb) in
  match convertFromLE little m1 ptr size nmemb with
  | None => None
  | Some m2 => Some (m2, f1, cnt / size)
  end.
Definition fwriteLE (little : bool) (ptr size nmemb : Z) (f : file) (m : mem) : option (mem * file * Z) :=
  match convertToLE little m ptr size nmemb with
  | None => None
  | Some m1 => let f1 := raw_write f m1 ptr (size*nmemb) in
      match convertFromLE little m1 ptr size nmemb with
      | None => None
      | Some m2 => Some (m2, f1, nmemb)
      end
  end.
