(** Parallel reading and writing of quantities stored per state (k-point and spin).
    Models /repo/jdftx/electronic/ElecInfo.cpp lines 528-617 (ElecInfo::read, ElecInfo::write for diagMatrix and matrix).
    A file is a map from element offsets to elements (bytes and endianness are the subject of IO_Model.v); a matrix is
    its list of nRows*nCols elements, a diagMatrix the case nCols = 1. Process p holds its own array of states. *)
From Coq Require Import ZArith List Bool.
From Verif Require Import Base WorkDiv_Model.
Import ListNotations.
Open Scope Z_scope.

Section StateIO.
  Context {A : Type}.
  Record efile := EF { e_at : Z -> option A; e_len : Z }.
  Definition emptyFile : efile := EF (fun _ => None) 0.
  (** fwriteData of one row at position [pos] *)
  Definition writeAt (f : efile) (w : Z * list A) : efile :=
    let '(pos, row) := w in
    EF (fun o => if (pos <=? o) && (o <? pos + Z.of_nat (length row)) then nth_error row (Z.to_nat (o - pos)) else e_at f o)
       (Z.max (e_len f) (pos + Z.of_nat (length row))).
  (** freadData of [n] elements at [pos]: None if the file is too short *)
  Fixpoint readAt (f : efile) (pos : Z) (n : nat) : option (list A) :=
    match n with
    | O => Some []
    | S n' => match e_at f pos, readAt f (pos + 1) n' with
              | Some a, Some r => Some (a :: r)
              | _, _ => None
              end
    end.

  (** int products: None is overflow (undefined behaviour) *)
  Definition in_int (x : Z) : bool := (-2^31 <=? x) && (x <? 2^31).
  Definition intMul (a b : Z) : option Z := if in_int (a * b) then Some (a * b) else None.
  (** n*nRows*nCols in int, as in lines 531-532, 544-545, 577, 609 (nCols = 1 for a diagMatrix) *)
  Definition elements (n nRows nCols : Z) : option Z :=
    match intMul n nRows with Some x => intMul x nCols | None => None end.

  (** collective write (lines 575-582, 607-615): the rows written by process [p], in order, with their positions *)
  Fixpoint rowsFrom (pos : Z) (rows : list (list A)) : list (Z * list A) :=
    match rows with
    | [] => []
    | r :: rest => (pos, r) :: rowsFrom (pos + Z.of_nat (length r)) rest
    end.
  Definition procWrites (nStates nProcs nRows nCols : Z) (M : Z -> Z -> list A) (p : Z) : option (list (Z * list A)) :=
    let arr := stopArr nStates nProcs in
    match elements (td_start arr p) nRows nCols with
    | None => None
    | Some pos => Some (rowsFrom pos (map (M p) (zrange (td_start arr p) (td_stop arr p))))
    end.
  Fixpoint sequence {B} (l : list (option B)) : option (list B) :=
    match l with
    | [] => Some []
    | Some b :: r => match sequence r with Some r' => Some (b :: r') | None => None end
    | None :: _ => None
    end.
  (** [f] is a possible content of the file after all processes have written, in any interleaving *)
  Definition collectiveWrite (nStates nProcs nRows nCols : Z) (M : Z -> Z -> list A) (f : efile) : Prop :=
    exists progs sched, sequence (map (procWrites nStates nProcs nRows nCols M) (zrange 0 nProcs)) = Some progs /\
      interleave progs sched /\ f = fold_left writeAt sched emptyFile.

  (** safe write (lines 556-573, 590-605): process p sends (tag q, M[q]) for each of its states; the head writes all states in order,
      receiving from whose(q) what is not its own *)
  Definition sends (nStates nProcs : Z) (M : Z -> Z -> list A) (p : Z) : list (Z * list A) :=
    let arr := stopArr nStates nProcs in
    if p =? 0 then [] else map (fun q => (q, M p q)) (zrange (td_start arr p) (td_stop arr p)).
  Definition recv (nStates nProcs : Z) (M : Z -> Z -> list A) (from tag : Z) : option (list A) :=
    option_map snd (find (fun m => fst m =? tag) (sends nStates nProcs M from)).
  Definition headRow (nStates nProcs : Z) (M : Z -> Z -> list A) (q : Z) : option (list A) :=
    let arr := stopArr nStates nProcs in
    if td_isMine arr 0 q then Some (M 0 q) else recv nStates nProcs M (td_whose arr q) q.
  Definition safeWrite (nStates nProcs : Z) (M : Z -> Z -> list A) : option efile :=
    match sequence (map (headRow nStates nProcs M) (zrange 0 nStates)) with
    | None => None
    | Some rows => Some (fold_left writeAt (rowsFrom 0 rows) emptyFile)
    end.

  (** read (lines 528-551) on process [p]: None is die() or overflow; result lists (q, M[q]) *)
  Fixpoint readRows (f : efile) (pos : Z) (n : Z) (qs : list Z) : option (list (Z * list A)) :=
    match qs with
    | [] => Some []
    | q :: rest => match readAt f pos (Z.to_nat n), readRows f (pos + n) n rest with
                   | Some r, Some l => Some ((q, r) :: l)
                   | _, _ => None
                   end
    end.
  Definition readProc (nStates nProcs nRows nCols : Z) (f : efile) (p : Z) : option (list (Z * list A)) :=
    let arr := stopArr nStates nProcs in
    match elements nStates nRows nCols, elements (td_start arr p) nRows nCols with
    | Some size, Some pos =>
        if negb (size =? 0) && negb (e_len f =? size) then None
        else readRows f pos (nRows * nCols) (zrange (td_start arr p) (td_stop arr p))
    | _, _ => None
    end.
End StateIO.
Arguments efile : clear implicits.
