(** Model of the plane-wave basis (C37): jdftx/electronic/Basis.cpp, with the lattice quantities of core/GridInfo.cpp.
    Doubles are idealised to real numbers and int to Z; M_PI is pi. *)
From Coq Require Import ZArith Reals List Bool.
From Verif Require Import Base Grid_Model Vec3_Model.
Import ListNotations.
Open Scope R_scope.

(** GridInfo.cpp 62-64: G = (2*M_PI)*inv(R), GGT = G*GT *)
Definition gG (Rl : mat R) : mat R := rmscale (2 * PI) (rinv Rl).
Definition gGGT (Rl : mat R) : mat R := rmm (gG Rl) (mtrans (gG Rl)).

(** int(x) for x >= 0, and ceil(x) *)
Definition truncZ (x : R) : Z := Int_part x.
Definition ceilZ (x : R) : Z := (- Int_part (- x))%Z.
(** Basis.cpp 52-53: iGbox[i], with a the i-th column of R *)
Definition iGbox (Ecut : R) (a : vec R) (ki : R) : Z := (1 + truncZ (sqrt (2 * Ecut) * sqrt (rlen2 a) / (2 * PI)) + ceilZ (Rabs ki))%Z.
(** 60: 0.5*dot(iG+k, GGT*(iG+k)) <= Ecut *)
Definition within (Rl : mat R) (Ecut : R) (k : vec R) (iG : vec Z) : bool :=
  let q := rvadd (vIZR iG) k in if Rle_dec (0.5 * rdot q (rmv (gGGT Rl) q)) Ecut then true else false.
(** for(x=-b; x<=b; x++) *)
Definition symRange (b : Z) : list Z := zrange (- b) (b + 1).
(** 54-64: the nested loops; the list of pairs (iGvec, indexVec) *)
Definition basisVectors (Rl : mat R) (Ecut : R) (k : vec R) : list (vec Z) :=
  let b0 := iGbox Ecut (col0 Rl) (c0 k) in let b1 := iGbox Ecut (col1 Rl) (c1 k) in let b2 := iGbox Ecut (col2 Rl) (c2 k) in
  flat_map (fun x => flat_map (fun y => flat_map (fun z => if within Rl Ecut k (V x y z) then [V x y z] else []) (symRange b2)) (symRange b1)) (symRange b0).
Definition basisIndices (S : V3) (iGvec : list (vec Z)) : list Z := map (fun g => fullGindex S (c0 g, c1 g, c2 g)) iGvec.

(** 70-87: integer vectors from indices; C++ integer division *)
Definition decodeIndex (S : V3) (index : Z) : vec Z :=
  let stride1 := v2 S in
  let stride0 := (v1 S * stride1)%Z in
  let g0 := Z.quot index stride0 in
  let index := (index - stride0 * g0)%Z in
  let g1 := Z.quot index stride1 in
  let g2 := (index - stride1 * g1)%Z in
  V (wrapS (v0 S) g0) (wrapS (v1 S) g1) (wrapS (v2 S) g2).
Definition setupFromIndices (S : V3) (indexVec : list Z) : list (vec Z) := map (decodeIndex S) indexVec.

(** 104-107: head *)
Fixpoint headFrom (n : nat) (iGvec : list (vec Z)) : list nat :=
  match iGvec with
  | [] => []
  | g :: l => if (zdot g g <? 4)%Z then n :: headFrom (S n) l else headFrom (S n) l
  end.
Definition basisHead (iGvec : list (vec Z)) : list nat := headFrom 0 iGvec.

(** Everything.cpp 43-44 and GridInfo.cpp 208: Gmax = sqrt(2 Ecut), GmaxRho = sqrt(2 EcutRho), and Smin[k], with a the k-th column of R *)
Definition gridSmin (Ecut GmaxRho : R) (a : vec R) : Z := Z.max 1 (4 * ceilZ (Rmax (sqrt (2 * Ecut)) (0.5 * GmaxRho) * sqrt (rlen2 a) / (2 * PI))).
