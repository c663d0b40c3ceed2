(** Model of the symmetrization of fields, forces and tensors (C35): jdftx/electronic/Symmetries.cpp and
    jdftx/core/BlasExtra_internal.h.  Arrays are functions of the index; doubles are idealised to real numbers. *)
From Coq Require Import ZArith Reals List Bool.
From Coquelicot Require Import Complex.
From Verif Require Import Base Grid_Model Vec3_Model IntUtil_Model.
Import ListNotations.
Open Scope R_scope.

(** core/scalar.h: cis(x) = (cos x, sin x) *)
Definition cis (x : R) : C := (cos x, sin x).
Definition csum {T} (f : T -> C) (l : list T) : C := fold_left (fun acc t => Cplus acc (f t)) l (RtoC 0).
(** x[i] = v *)
Definition setZ {W} (x : Z -> W) (i : Z) (v : W) : Z -> W := fun k => if Z.eqb k i then v else x k.

(** *** Symmetries.cpp 528-583: initSymmIndex *)
Definition toV (g : V3) : vec Z := V (v0 g) (v1 g) (v2 g).
(** 546-551: image of iG projected back into range; None for the division by zero in positiveRemainder *)
Definition opIndex (S : V3) (iG : V3) (op : SpaceGroupOp) : option Z :=
  let iG2 := zvm (toV iG) (sg_rot op) in
  match positiveRemainder (c0 iG2) (v0 S), positiveRemainder (c1 iG2) (v1 S), positiveRemainder (c2 iG2) (v2 S) with
  | Some a, Some b, Some c => Some (fullRindex S (a, b, c))
  | _, _, _ => None
  end.
(** 547 *)
Definition opPhase (iG : V3) (op : SpaceGroupOp) : C := cis (-2 * PI * rdot (vIZR (toV iG)) (sg_a op)).
(** std::set<int> of the images: number of distinct ones *)
Definition orbitSize (l : list Z) : Z := Z.of_nat (length (nodup Z.eq_dec l)).
Record SymmClass := mkClass { cl_index : list Z; cl_phase : list C; cl_mult : Z }.
Fixpoint sequenceO {A} (l : list (option A)) : option (list A) :=
  match l with [] => Some [] | Some a :: l' => option_map (cons a) (sequenceO l') | None :: _ => None end.
(** 541-565: loop over the points; None: die *)
Fixpoint symmClasses (S : V3) (sym : list SpaceGroupOp) (pts : list (Z * V3)) (done : Z -> bool) : option (list SymmClass) :=
  match pts with
  | [] => Some []
  | (i, iG) :: pts' =>
      if done i then symmClasses S sym pts' done
      else match sequenceO (map (opIndex S iG) sym) with
        | None => None
        | Some idx =>
            let n := Z.of_nat (length sym) in
            let mult := (n / orbitSize idx)%Z in
            if negb (mult * orbitSize idx =? n)%Z then None
            else option_map (cons (mkClass idx (map (opPhase iG) sym) mult))
                   (symmClasses S sym pts' (fun k => existsb (Z.eqb k) idx || done k))
        end
  end.
Definition initSymmIndex (S : V3) (sym : list SpaceGroupOp) : option (list SymmClass) :=
  match THREAD_fullGspaceLoop S (Z.to_nat (nr S)) 0 (nr S) with
  | None => None
  | Some pts => symmClasses S sym pts (fun _ => false)
  end.

(** *** BlasExtra_internal.h 76-85: eblas_symmetrize_phase_calc *)
Definition symmetrize_phase_calc (cl : SymmClass) (x : Z -> C) : Z -> C :=
  let ips := combine (cl_index cl) (cl_phase cl) in
  let n := Z.of_nat (length (cl_index cl)) in
  let xSum := csum (fun ip => Cmult (x (fst ip)) (snd ip)) ips in
  let xSum := Cmult xSum (RtoC (1 / IZR (n * cl_mult cl))) in
  let x1 := fold_left (fun x ip => setZ x (fst ip) (RtoC 0)) ips x in
  fold_left (fun x ip => setZ x (fst ip) (Cplus (x (fst ip)) (Cmult xSum (Cconj (snd ip))))) ips x1.
(** Symmetries.cpp 178-182, BlasExtra.cpp 150-157: symmetrize(complexScalarFieldTilde&), one class after the other
    (the classes have no common index, so their distribution over threads does not matter) *)
Definition symmetrizeTilde (sym : list SpaceGroupOp) (cls : list SymmClass) (x : Z -> C) : Z -> C :=
  if Nat.eqb (length sym) 1 then x else fold_left (fun x cl => symmetrize_phase_calc cl x) cls x.

(** *** BlasExtra_internal.h 88-131: spin density matrices, complexPtr4 and eblas_symmetrize_phase_rot_calc *)
Record C4 := mkC4 { up : C; dn : C; re : C; im : C }.
Definition cvadd := gvadd Cplus.
Definition cvscale (a : C) (v : vec C) : vec C := vmap (fun x => Cmult x a) v.
Definition cmv (m : mat R) (v : vec C) : vec C := gmv Cplus Cmult (mmap RtoC m) v.
Definition cvm (v : vec C) (m : mat R) : vec C := gvm Cplus Cmult v (mmap RtoC m).
(** 92-95: get *)
Definition get4 (w : C4) (alpha : C) : C * vec C :=
  (Cmult alpha (Cplus (up w) (dn w)),
   cvscale alpha (V (Cmult (RtoC 2) (re w)) (Cmult (RtoC (-2)) (im w)) (Cminus (up w) (dn w)))).
(** 96-102: accum *)
Definition accum4 (w : C4) (alpha : C) (s : C) (v : vec C) : C4 :=
  let h := Cmult (RtoC (1/2)) alpha in
  mkC4 (Cplus (up w) (Cmult h (Cplus s (c2 v)))) (Cplus (dn w) (Cmult h (Cminus s (c2 v))))
       (Cplus (re w) (Cmult h (c0 v))) (Cminus (im w) (Cmult h (c1 v))).
Definition zero4 : C4 := mkC4 (RtoC 0) (RtoC 0) (RtoC 0) (RtoC 0).
(** 111-131; ipr: index, phase and spin rotation of each operation *)
Definition symmetrize_rot_calc (rots : list (mat R)) (cl : SymmClass) (x : Z -> C4) : Z -> C4 :=
  let ipr := combine (combine (cl_index cl) (cl_phase cl)) rots in
  let n := Z.of_nat (length (cl_index cl)) in
  let sv := fold_left (fun acc t => let '(i, p, r) := t in let '(s, v) := get4 (x i) p in (Cplus (fst acc) s, cvadd (snd acc) (cmv r v)))
              ipr (RtoC 0, V (RtoC 0) (RtoC 0) (RtoC 0)) in
  let f := RtoC (1 / IZR (n * cl_mult cl)) in
  let s := Cmult (fst sv) f in
  let v := cvscale f (snd sv) in
  let x1 := fold_left (fun x t => setZ x (fst (fst t)) zero4) ipr x in
  fold_left (fun x t => let '(i, p, r) := t in setZ x i (accum4 (x i) (Cconj p) s (cvm v r))) ipr x1.
(** Symmetries.cpp 568-572: spin is a pseudo-vector *)
Definition rotCart (Rl : mat R) (op : SpaceGroupOp) : mat R := rmm (rmm Rl (mIZR (sg_rot op))) (rinv Rl).
Definition rotSpin (Rl : mat R) (op : SpaceGroupOp) : mat R := rmscale (1 / rdet (rotCart Rl op)) (rotCart Rl op).
(** Symmetries.cpp 216-224 (vector-spin mode) *)
Definition symmetrizeSpin (Rl : mat R) (sym : list SpaceGroupOp) (cls : list SymmClass) (x : Z -> C4) : Z -> C4 :=
  if Nat.eqb (length sym) 1 then x else fold_left (fun x cl => symmetrize_rot_calc (map (rotSpin Rl) sym) cl x) cls x.

(** *** Symmetries.cpp 227-238: forces of the atoms of one species; atomMap atom iRot *)
Definition rvsum {T} (f : T -> vec R) (l : list T) : vec R := fold_left (fun acc t => rvadd acc (f t)) l (V 0 0 0).
Definition symmetrizeForces (sym : list SpaceGroupOp) (atomMap : nat -> nat -> nat) (f : nat -> vec R) : nat -> vec R :=
  if Nat.leb (length sym) 1 then f
  else fun atom => rvscale (/ INR (length sym))
    (rvsum (fun iRot => rmv (mtrans (mIZR (sg_rot (nth iRot sym (SGO zid (V 0 0 0)))))) (f (atomMap atom iRot))) (seq 0 (length sym))).
(** *** Symmetries.cpp 240-248: Cartesian tensors *)
Definition rmsum {T} (f : T -> mat R) (l : list T) : mat R := fold_left (fun acc t => rmadd acc (f t)) l (rdiag 0 0 0).
Definition symmetrizeTensor (Rl : mat R) (sym : list SpaceGroupOp) (m : mat R) : mat R :=
  rmscale (1 / INR (length sym)) (rmsum (fun op => rmm (rmm (rotCart Rl op) m) (mtrans (rotCart Rl op))) sym).
