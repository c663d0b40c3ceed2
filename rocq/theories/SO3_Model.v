(** Quadratures over molecular orientations.
    Models /repo/jdftx/fluid/SO3quad.cpp lines 65-77 (nOrientations, euler, weight), 79-93 (isSymmetric) and 95-130 (setup).
    A molecule is the list of its sites, each the list of its positions.  Real idealisation of double; unsigned and int are nat.
    Not modelled: the choice of the S2 quadrature (lines 30-55), the printed output and the verification against Wigner
    matrices (lines 132-161), which does not change the result. *)
From Coq Require Import List Reals Arith Bool.
From Verif Require Import Vec3_Model Euler_Model.
Import ListNotations.
Local Open Scope R_scope.

Definition molecule := list (list (vec R)).
(** SO3quad.h lines 43-47 *)
Record quad := Quad { eulerS2 : list (vec R); weightS2 : list R; nS1byZn : nat; nS1 : nat }.

(** lines 65-67 *)
Definition nOrientations (q : quad) : nat := (length (weightS2 q) * nS1byZn q)%nat.
(** lines 69-73 *)
Definition euler (q : quad) (i : nat) : vec R :=
  let ret := nth (i / nS1byZn q) (eulerS2 q) (V 0 0 0) in
  vset ret 2 (vget ret 2 + (2 * PI / INR (nS1 q)) * INR (i mod nS1byZn q)).
(** lines 75-77 *)
Definition weight (q : quad) (i : nat) : R := nth (i / nS1byZn q) (weightS2 q) 0.

Section Symmetry.
(** LatticeUtils.cpp lines 28-29: a global variable and its square *)
Variable symmThreshold : R.
Definition symmThresholdSq : R := symmThreshold * symmThreshold.
Definition ltb (x y : R) : bool := if Rlt_dec x y then true else false.
(** lines 79-93 *)
Definition isSymmetric (rot : mat R) (mol : molecule) : bool :=
  forallb (fun site => forallb (fun r1 =>
    let rot_r1 := rmv rot r1 in
    existsb (fun r2 => let d := rvsub rot_r1 r2 in ltb (rdot d d) symmThresholdSq) site) site) mol.
(** lines 100-104 *)
Definition rhoMax (site : list (vec R)) : R :=
  fold_left (fun rm r => let rho := sqrt (c0 r * c0 r + c1 r * c1 r) in if ltb rm rho then rho else rm) site 0.
(** lines 97-108 *)
Definition maxZn (mol : molecule) : nat :=
  fold_left (fun Zn site => if ltb symmThreshold (rhoMax site) then (if (length site <? Zn)%nat then length site else Zn) else Zn) mol 12%nat.
(** lines 111-112 *)
Fixpoint findZn (Zn : nat) (mol : molecule) : nat :=
  match Zn with
  | S (S _ as k) => if isSymmetric (rotation (2 * PI / INR Zn) 2) mol then Zn else findZn k mol
  | _ => Zn
  end.
Definition molZn (mol : molecule) : nat := findZn (maxZn mol) mol.
(** lines 115-130; [n] is s2quad.nS1().  Line 115 rounds the quotient up to the next integer. *)
Definition setup (nodes : list (vec R)) (weights : list R) (n : nat) (mol : molecule) : quad :=
  let Zn := molZn mol in
  let byZn := ((n + (Zn - 1)) / Zn)%nat in
  let weightSum := fold_left Rplus weights 0 in
  let normFac := 1 / (weightSum * INR byZn) in
  Quad nodes (map (fun w => w * normFac) weights) byZn (byZn * Zn).
End Symmetry.
