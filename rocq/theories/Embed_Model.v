(** Embedding of a mesh in the enlarged mesh of truncated Coulomb interactions (core/Coulomb.cpp), in real space.
    Doubles are modelled as reals; the Fourier transforms and the translation by the embedding center
    (operators I, J, centerToO, centerFromO) are not part of this model. *)
From Coq Require Import ZArith Reals List Bool.
From Verif Require Import Base Vec3_Model Coulomb_Model WS_Model IntUtil_Model.
Import ListNotations.
Local Open Scope R_scope.

(** core/LoopMacros.h 32-35: mesh coordinates of index i, and core/Coulomb.cpp 345, 363: index of mesh coordinates *)
Definition ivOf (S : vec Z) (i : Z) : vec Z := (V (i / (c2 S * c1 S)) ((i / c2 S) mod c1 S) (i mod c2 S))%Z.
Definition lin (S iv : vec Z) : Z := (c2 iv + c2 S * (c1 iv + c1 S * c0 iv))%Z.
Definition nrOf (S : vec Z) : Z := (c0 S * c1 S * c2 S)%Z.
(** core/Coulomb.cpp 392-394: sample count of the embedding mesh *)
Definition dimScale (tr : nat -> bool) (k : nat) : Z := if tr k then 2 else 1.
Definition embedS (tr : nat -> bool) (S : vec Z) : vec Z := (V (dimScale tr 0 * c0 S) (dimScale tr 1 * c1 S) (dimScale tr 2 * c2 S))%Z.
(** core/Coulomb.cpp 342-343: the remainder of C has the sign of the dividend *)
Definition wrapRem (a n : Z) : Z := let r := Z.rem a n in if (r <? 0)%Z then (r + n)%Z else r.
(** core/Coulomb.cpp 337-347 (setEmbedIndex_sub); None while the reduction has not ended *)
Definition embedIndexOf (fuel : nat) (faces : list face) (S Se : vec Z) (i : Z) : option Z :=
  option_map (fun iv => lin Se (V (wrapRem (c0 iv) (c0 Se)) (wrapRem (c1 iv) (c1 Se)) (wrapRem (c2 iv) (c2 Se)))) (reduceMesh fuel faces S (ivOf S i)).
(** core/WignerSeitz.h 97-108 with iDir = -1: minDistSq = None stands for DBL_MAX *)
Fixpoint onBoundaryLoop (Rl : mat R) (faces : list face) (x : vec R) (minDistSq : option R) : bool :=
  match faces with
  | [] => match minDistSq with None => false | Some m => if Rlt_dec m tol then true else false end
  | f :: l =>
    let dDiff := 1/2 * (1 - Rabs (rdot (eqn f) x)) in
    if Rlt_dec dDiff (- tol) then false
    else let distSq := dDiff * dDiff * metric2 (RTR Rl) (vIZR (img f)) in
         onBoundaryLoop Rl l x (match minDistSq with None => Some distSq | Some m => if Rlt_dec distSq m then Some distSq else Some m end)
  end.
Definition onBoundary (Rl : mat R) (faces : list face) (x : vec R) : bool := onBoundaryLoop Rl faces x None.
(** core/Coulomb.cpp 355-365 (setEmbedBoundarySymm_sub): the pair inserted for index i of the embedding mesh, if any.
    Outer None: reduction not ended, or division by zero in positiveRemainder *)
Definition boundaryPair (fuel : nat) (Rl : mat R) (faces : list face) (Sorig S : vec Z) (i : Z) : option (option (Z * Z)) :=
  match reduceMesh fuel faces S (ivOf S i) with
  | None => None
  | Some ivWS =>
    if onBoundary Rl faces (meshPoint ivWS Sorig) then
      match positiveRemainder (c0 ivWS) (c0 Sorig), positiveRemainder (c1 ivWS) (c1 Sorig), positiveRemainder (c2 ivWS) (c2 Sorig) with
      | Some a, Some b, Some c => Some (Some (lin Sorig (V a b c), i))
      | _, _, _ => None
      end
    else Some None
  end.
Fixpoint collect {A} (l : list (option A)) : option (list A) :=
  match l with [] => Some [] | o :: l => match o, collect l with Some a, Some r => Some (a :: r) | _, _ => None end end.
Definition pairsOf (l : list (option (Z * Z))) : list (Z * Z) := flat_map (fun o => match o with Some p => [p] | None => [] end) l.
Definition boundaryPairs (fuel : nat) (Rl : mat R) (faces : list face) (Sorig S : vec Z) : option (list (Z * Z)) :=
  option_map pairsOf (collect (map (boundaryPair fuel Rl faces Sorig S) (zrange 0 (nrOf S)))).
(** core/Coulomb.cpp 363, 368: insertion in a multimap, after the entries with keys not larger *)
Fixpoint minsert (p : Z * Z) (m : list (Z * Z)) : list (Z * Z) :=
  match m with [] => [p] | q :: m' => if (fst p <? fst q)%Z then p :: m else q :: minsert p m' end.
Definition boundaryMapOf (order : list (Z * Z)) : list (Z * Z) := fold_left (fun m p => minsert p m) order [].
(** core/Coulomb.cpp 419-427: runs of equal keys *)
Fixpoint groups (m : list (Z * Z)) : list (Z * list Z) :=
  match m with
  | [] => []
  | (k, i) :: m' => match groups m' with
                    | (k', g) :: r => if (k =? k')%Z then (k, i :: g) :: r else (k, [i]) :: (k', g) :: r
                    | [] => [(k, [i])]
                    end
  end.
Definition symmEquiv (m : list (Z * Z)) (n : nat) : list Z := flat_map (fun g : Z * list Z => if Nat.eqb (length (snd g)) n then snd g else []) (groups m).
Definition maxCount (m : list (Z * Z)) : nat := fold_left Nat.max (map (fun g : Z * list Z => length (snd g)) (groups m)) 0%nat.
(** core/BlasExtra_internal.h 69-74 and core/BlasExtra.cpp 137-145 (eblas_symmetrize) on arrays modelled as functions *)
Definition upd (x : Z -> R) (i : Z) (v : R) : Z -> R := fun j => if (j =? i)%Z then v else x j.
Definition symmetrize_calc (n : nat) (symmIndex : list Z) (x : Z -> R) (i : nat) : Z -> R :=
  let idx j := nth (n * i + j) symmIndex 0%Z in
  let xSum := fold_left (fun s j => s + x (idx j)) (seq 0 n) 0 * (1 / INR n) in
  fold_left (fun x j => upd x (idx j) xSum) (seq 0 n) x.
(** core/Coulomb.cpp 151-155 (boundarySymmetrize) with 428-438: N/n classes of n points for each n; rbegin() of an empty map (line 428) is undefined: None *)
Definition boundarySymmetrize (m : list (Z * Z)) (x : Z -> R) : option (Z -> R) :=
  match m with
  | [] => None
  | _ => Some (fold_left (fun x n => fold_left (symmetrize_calc n (symmEquiv m n)) (seq 0 (length (symmEquiv m n) / n)) x) (seq 2 (maxCount m - 1)) x)
  end.
(** core/BlasExtra.cpp 88-95: scatter and gather with factor 1 *)
Definition scatter (index : Z -> Z) (n : Z) (x y : Z -> R) : Z -> R := fold_left (fun y i => upd y (index i) (y (index i) + x i)) (zrange 0 n) y.
Definition gather (index : Z -> Z) (n : Z) (x : Z -> R) (y : Z -> R) : Z -> R := fun i => if ((0 <=? i) && (i <? n))%Z then y i + x (index i) else y i.

(** core/Coulomb.cpp 157-164, 175-183: real-space parts; order is the order in which the threads insert the pairs *)
Section Embed.
  Variables (fuel : nat) (faces : list face) (S Se : vec Z) (order : list (Z * Z)).
  Definition embedIndexList : option (list Z) := collect (map (embedIndexOf fuel faces S Se) (zrange 0 (nrOf S))).
  Definition embedExpand (x : Z -> R) : option (Z -> R) :=
    match embedIndexList with
    | Some idx => boundarySymmetrize (boundaryMapOf order) (scatter (fun i => nth (Z.to_nat i) idx 0%Z) (nrOf S) x (fun _ => 0))
    | None => None
    end.
  Definition embedShrink (y : Z -> R) : option (Z -> R) :=
    match embedIndexList, boundarySymmetrize (boundaryMapOf order) y with
    | Some idx, Some y' => Some (gather (fun i => nth (Z.to_nat i) idx 0%Z) (nrOf S) y' (fun _ => 0))
    | _, _ => None
    end.
End Embed.
