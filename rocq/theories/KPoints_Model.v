(** k-point folding, symmetry reduction and spin expansion.
    Models /repo/jdftx/electronic/ElecInfo.cpp lines 46-54, 430-512, ElecInfo.h lines 45-57 and
    /repo/jdftx/electronic/Symmetries.cpp lines 65-157.  Doubles are idealised as reals. *)
From Coq Require Import ZArith Reals List Bool.
From Verif Require Import Base WorkDiv_Model Vec3_Model Lattice_Model.
Import ListNotations.

(** QuantumNumber: ElecInfo.h lines 45-54 *)
Record qnum := QN { q_k : vec R; q_spin : Z; q_w : R }.

(** C library fmod for y = 1 and positive y generally: x - y*trunc(x/y) *)
Definition rtrunc (x : R) : Z := if Rle_dec 0 x then rfloor x else (- rfloor (- x))%Z.
Definition rfmod (x y : R) : R := (x - y * IZR (rtrunc (x / y)))%R.
(** fmodPositive: ElecInfo.cpp lines 431-435 *)
Definition fmodPositive (x y : R) : R :=
  let ret := rfmod x y in if Rlt_dec ret 0 then (ret + Rabs y)%R else ret.

Definition sumR (l : list R) : R := fold_left Rplus l 0%R.

(** kpointsFold: ElecInfo.cpp lines 437-469; [None] = die (line 445) *)
Definition fold1 (n : Z) (x : R) (i : Z) : R :=
  let y := ((x + IZR i) / IZR n)%R in if Rlt_dec (1/2) y then (y - 1)%R else y.
Definition fold_one (kf : vec Z) (q : qnum) : list qnum :=
  let nFold := (c0 kf * c1 kf * c2 kf)%Z in
  flat_map (fun i0 => flat_map (fun i1 => map (fun i2 =>
    QN (V (fold1 (c0 kf) (c0 (q_k q)) i0) (fold1 (c1 kf) (c1 (q_k q)) i1) (fold1 (c2 kf) (c2 (q_k q)) i2))
       (q_spin q) (q_w q / IZR nFold)%R)
    (zrange 0 (c2 kf))) (zrange 0 (c1 kf))) (zrange 0 (c0 kf)).
Definition regularize (q : qnum) : qnum :=
  QN (vmap (fun x => fmodPositive x 1) (q_k q)) (q_spin q) (q_w q).
Definition kpointsFold (kf : vec Z) (qs : list qnum) : option (list qnum) :=
  let wSum := sumR (map q_w qs) in
  if Rlt_dec (1/1000000000000) (Rabs (wSum - 1)) then None
  else Some (flat_map (fold_one kf) (map regularize qs)).

(** ** kmapPack, kmapUnpack: Symmetries.cpp lines 65-75 (unsigned 64-bit; the arguments are such that the
    fields do not overlap, iSym < 2^31 and iSrc < 2^32, so that | is +) *)
Definition kmapPack (iSrc : Z) (neg : bool) (iSym : Z) : Z :=
  (iSrc * 2^32 + (if neg then 2^31 else 0) + iSym)%Z.
Definition kmapUnpack (e : Z) : Z * bool * Z :=
  ((e / 2^32)%Z, Z.testbit e 31, (e mod 2^31)%Z).
Definition kmapNone : Z := (2^64 - 1)%Z.

Section ReduceKmesh.
  (** plook.find (C26); the list of symmetry rotations; kReduceUseInversion and (spinType != SpinVector) *)
  Variable find : vec R -> option nat.
  Variable sym : list (mat Z).
  Variable useInversion : bool.
  Variable qs : list qnum.

  Definition minusI : mat Z := zdiag (-1)%Z (-1)%Z (-1)%Z.
  Definition mat_eqb (a b : mat Z) : bool :=
    (m00 a =? m00 b)%Z && (m01 a =? m01 b)%Z && (m02 a =? m02 b)%Z &&
    (m10 a =? m10 b)%Z && (m11 a =? m11 b)%Z && (m12 a =? m12 b)%Z &&
    (m20 a =? m20 b)%Z && (m21 a =? m21 b)%Z && (m22 a =? m22 b)%Z.
  (** invertList: lines 84-93; [true] stands for -1 *)
  Definition invertList : list bool :=
    if useInversion then (if existsb (fun r => mat_eqb r minusI) sym then [false] else [false;true]) else [false].
  (** invert * qnums[iSrc].k * sym[iSym].rot: line 104 *)
  Definition kimage (neg : bool) (rot : mat Z) (k : vec R) : vec R :=
    rvm (if neg then rvscale (-1)%R k else k) (mIZR rot).
  Definition upd (m : list Z) (i : nat) (e : Z) : list Z :=
    map (fun je => if Nat.eqb (fst je) i then Z.min (snd je) e else snd je) (combine (seq 0 (List.length m)) m).
  (** innermost body: lines 104-109 (the isSymKmesh flags only control a warning and are not modelled) *)
  Definition kmap_step (m : list Z) (t : Z * bool * Z) : list Z :=
    let '(iSrc,neg,iSym) := t in
    match nth_error qs (Z.to_nat iSrc), nth_error sym (Z.to_nat iSym) with
    | Some q, Some rot => match find (kimage neg rot (q_k q)) with
                          | Some iDest => upd m iDest (kmapPack iSrc neg iSym)
                          | None => m
                          end
    | _, _ => m
    end.
  Definition kmap_trips (iStart iStop : Z) : list (Z * bool * Z) :=
    flat_map (fun iSrc => flat_map (fun neg => map (fun iSym => (iSrc,neg,iSym)) (zrange 0 (Z.of_nat (List.length sym)))) invertList)
      (zrange iStart iStop).
  (** kmap of one process: lines 96-110, range of line 99 *)
  Definition kmap_proc (iStart iStop : Z) : list Z :=
    fold_left kmap_step (kmap_trips iStart iStop) (repeat kmapNone (List.length qs)).
  (** allReduceData(kmap, ReduceMin): line 112 *)
  Definition zip_min (a b : list Z) : list Z := map (fun p => Z.min (fst p) (snd p)) (combine a b).
  Definition kmap_all (nProcs : Z) : list Z :=
    let arr := stopArr (Z.of_nat (List.length qs)) nProcs in
    fold_left zip_min (map (fun p => kmap_proc (td_start arr p) (td_stop arr p)) (zrange 0 nProcs))
      (repeat kmapNone (List.length qs)).

  (** std::map<size_t,size_t> iSrcMap: sorted set of the sources (lines 131-138) *)
  Definition srcOf (e : Z) : Z := fst (fst (kmapUnpack e)).
  Definition sources (kmap : list Z) : list Z :=
    filter (fun s => existsb (fun e => (srcOf e =? s)%Z) kmap) (zrange 0 (Z.of_nat (List.length qs))).
  Fixpoint indexOf (s : Z) (l : list Z) : nat :=
    match l with [] => O | x :: l' => if (x =? s)%Z then O else S (indexOf s l') end.
  (** lines 145, 147-154: reduced k-points with collected weights *)
  Definition collect (kmap : list Z) (s : Z) (q : qnum) : qnum :=
    QN (q_k q) (q_spin q)
      (fold_left Rplus
        (map (fun je => match nth_error qs (fst je) with Some qd => q_w qd | None => 0%R end)
          (List.filter (fun je => (srcOf (snd je) =? s)%Z && negb (Z.of_nat (fst je) =? s)%Z)
            (combine (seq 0 (List.length kmap)) kmap)))
        (q_w q)).
  (** [None]: a source index beyond qnums (only possible if an entry was never set) *)
  Definition reduceKmesh_of (kmap : list Z) : option (list qnum * list Z) :=
    if forallb (fun e => (srcOf e <? Z.of_nat (List.length qs))%Z) kmap then
      let src := sources kmap in
      let qRed := flat_map (fun s => match nth_error qs (Z.to_nat s) with Some q => [collect kmap s q] | None => [] end) src in
      let kmap' := map (fun e => let '(s,neg,iSym) := kmapUnpack e in kmapPack (Z.of_nat (indexOf s src)) neg iSym) kmap in
      Some (qRed,kmap')
    else None.
  (** reduceKmesh with mode != SymmetriesNone *)
  Definition reduceKmesh (nProcs : Z) : option (list qnum * list Z) := reduceKmesh_of (kmap_all nProcs).
End ReduceKmesh.

(** ** Spin expansion: ElecInfo.cpp lines 49-54 and 479-492 (the branch of lines 494-504 for incommensurate
    perturbations is modelled by [offsetK]) *)
Inductive SpinType := SpinNone | SpinZ | SpinVector | SpinOrbit.
Definition spinWeight (s : SpinType) : Z := match s with SpinNone => 2 | _ => 1 end.
Definition nSpins (s : SpinType) : nat := match s with SpinZ => 2 | _ => 1 end.
Definition expandSpins (st : SpinType) (qRed : list qnum) : list qnum :=
  let up := map (fun q => QN (q_k q) (q_spin q) (q_w q * IZR (spinWeight st))%R) qRed in
  match st with
  | SpinZ => map (fun q => QN (q_k q) 1 (q_w q)) up ++ map (fun q => QN (q_k q) (-1) (q_w q)) qRed
  | _ => up
  end.
Definition offsetK (qvec : vec R) (qs : list qnum) : list qnum :=
  map (fun q => QN (rvadd (q_k q) qvec) (q_spin q) (q_w q)) qs ++
  map (fun q => QN (rvsub (q_k q) qvec) (q_spin q) (q_w q)) qs.
