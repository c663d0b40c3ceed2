(** Wigner-Seitz cells.
    Models /repo/jdftx/core/WignerSeitz.h lines 39-93 and /repo/jdftx/core/WignerSeitz.cpp lines 31-153 (constructor), 156-164, 179-188, 280-289.
    Real idealisation of double; int is unbounded.  The vertex and edge lists of the polyhedron are not modelled: the slicing of
    the polyhedron by a plane (addPlane lines 290-430) and its largest vertex distance enter the constructor as functions. *)
From Coq Require Import ZArith Reals List Bool.
From Verif Require Import Base Vec3_Model Lattice_Model Coulomb_Model.
Import ListNotations.
Local Open Scope R_scope.

(** Face: WignerSeitz.h lines 163-167 *)
Record face := Face { img : vec Z; eqn : vec R }.
Definition RTR (Rl : mat R) : mat R := rmm (mtrans Rl) Rl.
(** addPlane: WignerSeitz.cpp line 281 *)
Definition bisector (Rl : mat R) (a : vec Z) : face :=
  Face a (rvscale (2 / metric2 (RTR Rl) (vIZR a)) (rmv (RTR Rl) (vIZR a))).
(** the six faces of the initial parallelepiped: lines 36, 50-60 *)
Definition eqns (Rl : mat R) : mat R := rmm (rdiag (2 / m00 (RTR Rl)) (2 / m11 (RTR Rl)) (2 / m22 (RTR Rl))) (RTR Rl).
Definition unitZ (dir : nat) (s : Z) : vec Z := vset (V 0 0 0)%Z dir s.
Definition initialFaces (Rl : mat R) : list face :=
  flat_map (fun dir => map (fun s => Face (unitZ dir (2*s-1)%Z) (rvscale (IZR (2*s-1)) (mrow (eqns Rl) dir))) [0;1]%Z) [0;1;2]%nat.
(** eight initial vertices and their largest squared distance: lines 37-49 *)
Definition initialVertices (Rl : mat R) : list (vec R) :=
  flat_map (fun i0 => flat_map (fun i1 => map (fun i2 => rmv (rinv (eqns Rl)) (vIZR (V (2*i0-1) (2*i1-1) (2*i2-1))%Z)) [0;1]%Z) [0;1]%Z) [0;1]%Z.
Definition maxSq (Rl : mat R) (vs : list (vec R)) : R :=
  fold_left (fun rMaxSq v => let rSq := metric2 (RTR Rl) v in if Rlt_dec rMaxSq rSq then rSq else rMaxSq) vs 0.
(** ceil of a double converted to int *)
Definition rceil (x : R) : Z := (- rfloor (- x))%Z.
(** lines 73-76 *)
Definition ivMax (Rl : mat R) (rMaxSq : R) (dir : nat) : Z := rceil (2 * sqrt (rMaxSq * rlen2 (mrow (rinv Rl) dir))).
(** lines 79-87: the entries put into ivMap, before sorting by distance *)
Definition zlen2 (v : vec Z) : Z := zdot v v.
Definition candidates (Rl : mat R) (rMaxSq : R) : list (vec Z) :=
  let r dir := zrange (- ivMax Rl rMaxSq dir) (ivMax Rl rMaxSq dir + 1) in
  filter (fun iv => (1 <? zlen2 iv)%Z && (if Rlt_dec (metric2 (RTR Rl) (vIZR iv)) (4 * rMaxSq) then true else false))
    (flat_map (fun a => flat_map (fun b => map (fun c => V a b c) (r 2%nat)) (r 1%nat)) (r 0%nat)).
(** lines 89-100; addPlane maps the list of images of the current faces to the new one, rMax is the largest squared vertex distance *)
Section Build.
  Variables (Rl : mat R) (addPlane : list (vec Z) -> vec Z -> list (vec Z)) (rMax : list (vec Z) -> R).
  Fixpoint slice (planes : list (vec Z)) (rMaxSq : R) (ivMap : list (vec Z)) : list (vec Z) :=
    match ivMap with
    | [] => planes
    | iv :: l =>
      if Rlt_dec (4 * rMaxSq) (metric2 (RTR Rl) (vIZR iv)) then planes
      else let planes' := addPlane planes iv in slice planes' (rMax planes') l
    end.
  Definition build (ivMap : list (vec Z)) : list (vec Z) :=
    slice (map img (initialFaces Rl)) (maxSq Rl (initialVertices Rl)) ivMap.
End Build.
(** one face of each inversion pair: lines 102-137 (without the checks on vertices); None is the failed assertion of line 137 *)
Definition veqb (a b : vec Z) : bool := ((c0 a =? c0 b) && (c1 a =? c1 b) && (c2 a =? c2 b))%Z.
Fixpoint pickHalf (faces imgFace half : list (vec Z)) : option (list (vec Z)) :=
  match faces with
  | [] => match imgFace with [] => Some half | _ => None end
  | f :: l =>
    if existsb (veqb (zvopp f)) imgFace then pickHalf l (filter (fun g => negb (veqb (zvopp f) g)) imgFace) half
    else pickHalf l (f :: imgFace) (half ++ [f])
  end.
Definition faceHalf (Rl : mat R) (faces : list (vec Z)) : option (list face) := option_map (map (bisector Rl)) (pickHalf faces [] []).

(** reduce: WignerSeitz.h lines 40-55 *)
Definition tol : R := 1 / 100000000.
Definition outside (d : R) : bool := if Rlt_dec d (- tol) then true else if Rlt_dec (1 + tol) d then true else false.
Definition reduceFace (st : vec R * bool) (f : face) : vec R * bool :=
  let '(xWS, changed) := st in
  let d := 1/2 * (1 + rdot (eqn f) xWS) in
  if outside d then (rvsub xWS (rvscale (IZR (rfloor d)) (vIZR (img f))), true) else (xWS, changed).
Fixpoint reduce (fuel : nat) (faces : list face) (xWS : vec R) : option (vec R) :=
  match fuel with
  | O => None
  | S fuel' => let '(x', changed) := fold_left reduceFace faces (xWS, false) in
               if changed then reduce fuel' faces x' else Some x'
  end.
(** reduce in mesh coordinates: lines 58-78, with invS = 1/S *)
Definition meshPoint (iv S : vec Z) : vec R := V (IZR (c0 iv) * (1 / IZR (c0 S))) (IZR (c1 iv) * (1 / IZR (c1 S))) (IZR (c2 iv) * (1 / IZR (c2 S))).
Definition reduceMeshFace (S : vec Z) (st : vec Z * bool) (f : face) : vec Z * bool :=
  let '(ivWS, changed) := st in
  let xDotEqn := 0 + c0 (eqn f) * IZR (c0 ivWS) * (1 / IZR (c0 S)) + c1 (eqn f) * IZR (c1 ivWS) * (1 / IZR (c1 S)) + c2 (eqn f) * IZR (c2 ivWS) * (1 / IZR (c2 S)) in
  let d := 1/2 * (1 + xDotEqn) in
  if outside d then
    let id := rfloor d in
    (V (c0 ivWS - id * c0 (img f) * c0 S) (c1 ivWS - id * c1 (img f) * c1 S) (c2 ivWS - id * c2 (img f) * c2 S), true)%Z
  else (ivWS, changed).
Fixpoint reduceMesh (fuel : nat) (faces : list face) (S ivWS : vec Z) : option (vec Z) :=
  match fuel with
  | O => None
  | Datatypes.S fuel' => let '(x', changed) := fold_left (reduceMeshFace S) faces (ivWS, false) in
               if changed then reduceMesh fuel' faces S x' else Some x'
  end.

(** "iDir<0 || !f->img[iDir]": None stands for iDir = -1 *)
Definition considered (iDir : option nat) (f : face) : bool :=
  match iDir with None => true | Some k => (vget (img f) k =? 0)%Z end.
(** boundaryDistance: lines 83-93; minDistSq = None stands for DBL_MAX, and the result None for sqrt(DBL_MAX) *)
Fixpoint boundaryLoop (Rl : mat R) (faces : list face) (iDir : option nat) (x : vec R) (minDistSq : option R) : option R :=
  match faces with
  | [] => option_map sqrt minDistSq
  | f :: l =>
    if considered iDir f then
      let dDiff := 1/2 * (1 - Rabs (rdot (eqn f) x)) in
      if Rlt_dec dDiff 0 then Some 0
      else let distSq := dDiff * dDiff * metric2 (RTR Rl) (vIZR (img f)) in
           boundaryLoop Rl l iDir x (match minDistSq with None => Some distSq | Some m => if Rlt_dec distSq m then Some distSq else Some m end)
    else boundaryLoop Rl l iDir x minDistSq
  end.
Definition boundaryDistance (Rl : mat R) (faces : list face) (x : vec R) (iDir : option nat) : option R := boundaryLoop Rl faces iDir x None.
(** inRadius: WignerSeitz.cpp lines 156-164 *)
Definition inRadius (Rl : mat R) (faces : list face) (iDir : option nat) : option R :=
  option_map (fun m => 1/2 * sqrt m)
    (fold_left (fun rSqMin f => if considered iDir f then
        let rSq := metric2 (RTR Rl) (vIZR (img f)) in
        match rSqMin with None => Some rSq | Some m => if Rlt_dec rSq m then Some rSq else Some m end
      else rSqMin) faces None).
(** getNeighbours: lines 179-188; the continue statement of line 184 belongs to the loop over k *)
Definition getNeighbours (isTruncated : nat -> bool) (faces : list face) : list (vec Z) :=
  fold_left (fun neighbours f =>
    let neighbours := fold_left (fun nb k => if isTruncated k && negb (vget (img f) k =? 0)%Z then nb (* continue *) else nb) [0;1;2]%nat neighbours in
    neighbours ++ [img f]) faces [].
