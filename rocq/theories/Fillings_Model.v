(** Initial fillings. Models /repo/jdftx/electronic/ElecInfo.cpp lines 46-183 (ElecInfo::setup). Doubles are reals. *)
From Coq Require Import Reals List ZArith Bool.
Import ListNotations.
Open Scope R_scope.

Inductive SpinType := SpinNone | SpinZ | SpinVector | SpinOrbit.
Inductive FillingsUpdate := FillingsConst | FillingsHsub.
(** lines 49-54; ElecInfo.h line 77 *)
Definition spinWeight (st : SpinType) : R := match st with SpinNone => 2 | _ => 1 end.
Definition nSpins (st : SpinType) : nat := match st with SpinZ => 2 | _ => 1 end.
(** a state's spin and weight; index(): ElecInfo.h line 53 *)
Record qnum := QN { q_spin : Z; q_weight : R }.
Definition index (q : qnum) : nat := if (q_spin q <? 0)%Z then 1 else 0.

Definition sumR {A} (f : A -> R) (l : list A) : R := fold_left (fun acc a => acc + f a) l 0.

(** lines 69-88: electrons in spin channel s; a species is its valence Z and number of atoms *)
Definition qNet (st : SpinType) (Qinitial Minitial : R) (s : nat) : R :=
  (Qinitial + (match s with O => 1 | _ => -1 end) * Minitial) / INR (nSpins st).
Definition nsElectrons (st : SpinType) (Qinitial Minitial : R) (species : list (R * nat)) (s : nat) : R :=
  fold_left (fun acc sp => acc + fst sp * INR (snd sp) * (1 / INR (nSpins st))) species (qNet st Qinitial Minitial s).
(** ceil and round (half away from zero, used on non-negative values) as integers *)
Definition zfloor (x : R) : Z := (up x - 1)%Z.
Definition zceil (x : R) : Z := (- zfloor (- x))%Z.
Definition zround (x : R) : Z := zfloor (x + 1/2).
(** lines 91-100; [nAtomic] is iInfo.nAtomicOrbitals(); nBands = 0 means not specified *)
Definition chooseBands (st : SpinType) (fu : FillingsUpdate) (ns : list R) (mult : R) (nAtomic : Z) (nBands : Z) : Z :=
  if (nBands =? 0)%Z then
    let nsMax := fold_left Rmax (tl ns) (hd 0 ns) in
    let nBandsMin := Z.max 1 (zceil (nsMax * (1 / spinWeight st))) in
    match fu with
    | FillingsConst => Z.max nBandsMin (zround (IZR nBandsMin * mult))
    | FillingsHsub => Z.max (nBandsMin + 1) (zround (IZR nAtomic * mult))
    end
  else nBands.
(** lines 106-112: the loop over bands of one state *)
Fixpoint fillLowest (nBands : nat) (ftot : R) : list R :=
  match nBands with
  | O => []
  | S n => if Rlt_dec 1 ftot then 1 :: fillLowest n (ftot - 1)
           else if Rlt_dec 0 ftot then ftot :: repeat 0 n
           else 0 :: fillLowest n (ftot - 0)
  end.

(** lines 120-163: fillings of one state read from a file ([Fin] already of length nBandsOld, in file units) *)
Definition fMin : R := -35458 / 1000000.
Definition fMax : R := 10833154705877 / 10000000000000.
(** lines 140-144 on the bands in the order visited (highest first) *)
Fixpoint depleteLoop (F : list R) (q : R) : list R * R :=
  match F with
  | [] => ([], q)
  | f :: rest => if Rlt_dec f q then let '(r, q') := depleteLoop rest (q - f) in (0 :: r, q') else (f - q :: rest, 0)
  end.
(** lines 153-157 *)
Fixpoint saturateLoop (F : list R) (q : R) : list R * R :=
  match F with
  | [] => ([], q)
  | f :: rest => if Rlt_dec 1 (f + q) then let '(r, q') := saturateLoop rest (q - (1 - f)) in (1 :: r, q') else (f + q :: rest, 0)
  end.
(** F[q].resize(nBands, 0.) *)
Definition resize (n : nat) (F : list R) : list R := firstn n F ++ repeat 0 (n - length F).
(** None is die() *)
Definition readFillings (wInv : R) (nBands : nat) (Fin : list R) : option (list R) :=
  let F := map (fun f => f * wInv) Fin in
  if existsb (fun f => if Rlt_dec f fMin then true else if Rlt_dec fMax f then true else false) F then None
  else
    let change := sumR (fun f => f) (skipn nBands F) in
    let F1 := resize nBands F in
    if Rlt_dec change 0 then
      let '(F2, q) := depleteLoop (rev F1) (- change) in if Rlt_dec 0 q then None else Some (rev F2)
    else if Rlt_dec 0 change then
      let '(F2, q) := saturateLoop F1 change in if Rlt_dec 0 q then None else Some F2
    else Some F1.
Fixpoint sequence {A} (l : list (option A)) : option (list A) :=
  match l with
  | [] => Some []
  | Some a :: r => match sequence r with Some r' => Some (a :: r') | None => None end
  | None :: _ => None
  end.

(** lines 46-183; result: number of electrons, number of bands, fillings per state. [fromFile] are the fillings read, if any. *)
Definition setup (st : SpinType) (fu : FillingsUpdate) (Qinitial Minitial : R) (species : list (R * nat)) (mult : R) (nAtomic nBands0 : Z)
  (qnums : list qnum) (fromFile : option (list (list R))) : option (R * Z * list (list R)) :=
  let ns := map (nsElectrons st Qinitial Minitial species) (seq 0 (nSpins st)) in
  if existsb (fun x => if Rlt_dec x 0 then true else false) ns then None
  else
    let nElectrons := sumR (fun x => x) ns in
    let wInv := 1 / spinWeight st in
    let nBands := chooseBands st fu ns mult nAtomic nBands0 in
    match
      match fromFile with
      | None => Some (nElectrons, map (fun q => fillLowest (Z.to_nat nBands) (nth (index q) ns 0 * wInv)) qnums)
      | Some Fin =>
          match sequence (map (readFillings wInv (Z.to_nat nBands)) Fin) with
          | None => None
          | Some F => Some (sumR (fun qF => q_weight (fst qF) * sumR (fun f => f) (snd qF)) (combine qnums F), F)
          end
      end
    with
    | None => None
    | Some (nElectrons, F) =>
        let qWeightSum := INR (nSpins st) * spinWeight st in
        let nBandsMin := zceil (nElectrons / qWeightSum) in
        match fu with
        | FillingsHsub => if Rle_dec (IZR nBands * qWeightSum) nElectrons then None else Some (nElectrons, nBands, F)
        | FillingsConst => if (nBands <? nBandsMin)%Z then None else Some (nElectrons, nBands, F)
        end
    end.
