(** Map of unit cells in the Wigner-Seitz supercell with smoothed boundary weights (core/LatticeUtils.cpp).
    Doubles are modelled as reals. *)
From Coq Require Import ZArith Reals List Bool.
From Verif Require Import Base Vec3_Model Lattice_Model WS_Model.
Import ListNotations.
Local Open Scope R_scope.

(** core/LatticeUtils.cpp 273, 293: components along truncated directions are projected out *)
Definition proj (isTruncated : nat -> bool) (x : vec R) : vec R :=
  V (if isTruncated 0%nat then 0 else c0 x) (if isTruncated 1%nat then 0 else c1 x) (if isTruncated 2%nat then 0 else c2 x).
(** core/LatticeUtils.cpp 268-276: largest squared distance between an x1 and an x2, and the search radius;
    circumRadius is the value of WignerSeitz::circumRadius, an argument here *)
Definition d12sqMax (Rl : mat R) (isTruncated : nat -> bool) (x1 x2 : list (vec R)) : R :=
  fold_left (fun m a => fold_left (fun m b => Rmax m (rlen2 (rmv Rl (proj isTruncated (rvsub a b))))) x2 m) x1 0.
Definition Rmax_of (Rl : mat R) (isTruncated : nat -> bool) (x1 x2 : list (vec R)) (circumRadius : R) : R :=
  circumRadius + sqrt (d12sqMax Rl isTruncated x1 x2).
(** core/LatticeUtils.cpp 279-282: bounding box in cells *)
Definition iCellMax (Rl : mat R) (isTruncated : nat -> bool) (rmax : R) (l : nat) : Z :=
  if isTruncated l then 0%Z else (1 + rceil (rmax * rlen (mrow (rinv Rl) l)))%Z.
(** core/LatticeUtils.cpp 297-299: squared distance to the nearest supercell neighbour; None stands for the initial DBL_MAX *)
Definition drSqNeigh (rSupNeigh : list (vec R)) (dr : vec R) : option R :=
  fold_left (fun m rSup => let d := rlen2 (rvsub dr rSup) in Some (match m with None => d | Some m => Rmin m d end)) rSupNeigh None.
(** core/LatticeUtils.cpp 300-305: weight, None where the matrix element is left zero; without neighbours t is below -1 *)
Definition tOf (rSmooth : R) (rSupNeigh : list (vec R)) (dr : vec R) : R :=
  match drSqNeigh rSupNeigh dr with None => -1 | Some d => 0.5 * (rlen2 dr - d) / rSmooth end.
Definition smoothW (t : R) : option R :=
  if Rlt_dec t 1 then Some (if Rle_dec t (-1) then 1 else 0.25 * (2 - t * (3 - t * t))) else None.
(** core/LatticeUtils.cpp 292-294: displacement of the sites in Cartesian coordinates *)
Definition drOf (Rl : mat R) (isTruncated : nat -> bool) (x1 x2 : list (vec R)) (iCell : vec Z) (i j : nat) : vec R :=
  rmv Rl (proj isTruncated (rvsub (rvadd (vIZR iCell) (nth j x2 (V 0 0 0))) (nth i x1 (V 0 0 0)))).

(** matrices of weights, x1.size() by x2.size() *)
Definition entry : Type := vec Z * (nat -> nat -> R).
Definition pairs (n m : nat) : list (nat * nat) := flat_map (fun i => map (fun j => (i, j)) (seq 0 m)) (seq 0 n).

Section CellMap.
  Variables (Rl Rsup : mat R) (isTruncated : nat -> bool) (x1 x2 : list (vec R)) (rSmooth symmThreshold circumRadius : R) (xSupNeigh : list (vec Z)).

  Definition rSupNeigh : list (vec R) := map (fun n => rmv Rsup (vIZR n)) xSupNeigh.   (* 262-265; the neighbours are those of getNeighbours *)
  Definition weightOf (iCell : vec Z) (i j : nat) : option R := smoothW (tOf rSmooth rSupNeigh (drOf Rl isTruncated x1 x2 iCell i j)).
  (** core/LatticeUtils.cpp 288-307: entry of one cell, kept only if some element is non-zero *)
  Definition rawEntry (iCell : vec Z) : option entry :=
    if existsb (fun ij => match weightOf iCell (fst ij) (snd ij) with Some _ => true | None => false end) (pairs (length x1) (length x2))
    then Some (iCell, fun i j => match weightOf iCell i j with Some w => w | None => 0 end) else None.
  (** core/LatticeUtils.cpp 283-287: all cells of the box, in the (lexicographic) order of the map *)
  Definition boxCells : list (vec Z) :=
    let m := iCellMax Rl isTruncated (Rmax_of Rl isTruncated x1 x2 circumRadius) in
    flat_map (fun a => flat_map (fun b => map (fun c => V a b c) (zrange (- m 2%nat) (m 2%nat + 1))) (zrange (- m 1%nat) (m 1%nat + 1)))
      (zrange (- m 0%nat) (m 0%nat + 1)).
  Definition rawMap : list entry := flat_map (fun c => match rawEntry c with Some e => [e] | None => [] end) boxCells.

  (** core/vector3.h 138-142 and core/LatticeUtils.cpp 313, 320-321: the offset is an integer combination of supercell vectors *)
  Definition superInv : mat R := rmm (rinv Rsup) Rl.
  Definition roundErr (v : vec R) : R := rlen (rvadd v (rvopp (vIZR (vmap rround v)))).
  Definition equivCell (a b : vec Z) : bool := if Rlt_dec (roundErr (rmv superInv (vIZR (zvsub b a)))) symmThreshold then true else false.
  Definition veqb (a b : vec Z) : bool := ((c0 a =? c0 b) && (c1 a =? c1 b) && (c2 a =? c2 b))%Z.
  Definition member (c : vec Z) (l : list (vec Z)) : bool := existsb (veqb c) l.
  Definition wSumOf (l : list entry) (i j : nat) : R := fold_left (fun s (e : entry) => s + snd e i j) (tl l) (match l with e :: _ => snd e i j | [] => 0 end).
  (** core/LatticeUtils.cpp 311-336: normalization of each set of equivalent cells; None is the failed assertion *)
  Fixpoint normLoop (l : list entry) (cellsDone : list (vec Z)) : option (list entry) :=
    match l with
    | [] => Some []
    | e :: l' =>
      if member (fst e) cellsDone then normLoop l' cellsDone
      else
        let equiv := filter (fun e2 : entry => negb (member (fst e2) cellsDone) && equivCell (fst e) (fst e2)) l' in
        let wSum := wSumOf (e :: equiv) in
        if forallb (fun ij => if Rlt_dec symmThreshold (wSum (fst ij) (snd ij)) then true else false) (pairs (length x1) (length x2)) then
          match normLoop l' (map fst equiv ++ cellsDone) with
          | Some r => Some (map (fun e2 : entry => (fst e2, fun i j => 1 / wSum i j * snd e2 i j)) (e :: equiv) ++ r)
          | None => None
          end
        else None
    end.
  Definition getCellMap : option (list entry) := normLoop rawMap [].
End CellMap.
