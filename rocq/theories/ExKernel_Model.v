(** Numerical exchange kernel on the supercell of k-points, and its use for a pair of k-points.
    Models /repo/jdftx/core/Coulomb_ExchangeEval.cpp lines 202-220 (extractExchangeKernel_thread), 511-529 and 539-558 (NumericalKernel),
    575-581, 607-623 and 656-672 (use), and /repo/jdftx/core/Coulomb_internal.h lines 335-345, 352-358, 366-376, 384-391.
    Arrays are functions of an index together with a size; a read outside of the array is [None].  int and size_t are unbounded, double is idealised to the real numbers.
    The values may be of any type: double for the kernel, symmetricMatrix3 for its lattice derivative. *)
From Coq Require Import ZArith Reals List Bool.
From Verif Require Import Base Grid_Model Vec3_Model Lattice_Model.
Import ListNotations.
Local Open Scope Z_scope.

(** iG * super (= ~super * iG): matrix3.h lines 210-221 *)
Definition timesSuper (iG : V3) (super : mat Z) : V3 :=
  (v0 iG * m00 super + v1 iG * m10 super + v2 iG * m20 super, v0 iG * m01 super + v1 iG * m11 super + v2 iG * m21 super, v0 iG * m02 super + v1 iG * m12 super + v2 iG * m22 super).
(** the eight vertices and the supercell sample count: lines 511-524; S/2 is C++ integer division *)
Definition vertices : list V3 :=
  flat_map (fun x => flat_map (fun y => map (fun z => (x, y, z)) [-1; 1]) [-1; 1]) [-1; 1].
Definition vertexVec (S s : V3) : V3 := (v0 s * (Z.quot (v0 S) 2 + 1), v1 s * (Z.quot (v1 S) 2 + 1), v2 s * (Z.quot (v2 S) 2 + 1)).
Definition enlarge (a : Z) (g : Z) : Z := let s := 2 * Z.abs g in if a <? s then s else a.
Definition Ssuper (S : V3) (super : mat Z) : V3 :=
  fold_left (fun a s => let g := timesSuper (vertexVec S s) super in (enlarge (v0 a) (v0 g), enlarge (v1 a) (v1 g), enlarge (v2 a) (v2 g))) vertices (0, 0, 0).
(** line 529 *)
Definition nGsuper (Ss : V3) : Z := v0 Ss * (v1 Ss * (1 + Z.quot (v2 Ss) 2)).

Definition zneg (g : V3) : V3 := (- v0 g, - v1 g, - v2 g).
(** lines 213-216; also Coulomb_internal.h lines 338-342 and 369-373 *)
Definition reducedIndex (S : V3) (g : V3) : Z :=
  let g := if v2 g <? 0 then zneg g else g in
  let y := if v1 g <? 0 then v1 g + v1 S else v1 g in
  let x := if v0 g <? 0 then v0 g + v0 S else v0 g in
  v2 g + (1 + Z.quot (v2 S) 2) * (y + v1 S * x).

(** round with its error: vector3.h lines 138-142 *)
Definition roundVec (v : vec R) : vec Z := vmap rround v.
Definition roundError (v : vec R) : R := rlen (rvadd v (rvopp (vIZR (roundVec v)))).
Definition ofVec (v : vec Z) : V3 := (c0 v, c1 v, c2 v).

Section Kernel.
  Context {A : Type}.
  Definition readAt (n : Z) (a : Z -> A) (i : Z) : option A := if (0 <=? i) && (i <? n) then Some (a i) else None.
  (** lines 205-219 for the component iG of the full reciprocal-space loop *)
  Definition extractExchangeKernel (thr : R) (Ss : V3) (super : mat Z) (dk : vec R) (dataSuper : Z -> A) (iG : V3) : option A :=
    let d := rvm dk (mIZR super) in
    if Rlt_dec (roundError d) thr then
      let dkSuper := ofVec (roundVec d) in
      let g := timesSuper iG super in
      readAt (nGsuper Ss) dataSuper (reducedIndex Ss (v0 g + v0 dkSuper, v1 g + v1 dkSuper, v2 g + v2 dkSuper))
    else None.
  (** Coulomb_internal.h lines 354-357 and 386-390: the index used for the component iG *)
  Definition transformedIndex (S : V3) (iG offset : V3) : Z :=
    let w (s x : Z) := if x <? 0 then x + s else x in
    let x := w (v0 S) (v0 iG - v0 offset) in let y := w (v1 S) (v1 iG - v1 offset) in let z := w (v2 S) (v2 iG - v2 offset) in
    z + v2 S * (y + v1 S * x).
  (** lines 543-547: the differences of k-points, reduced to [-1/2,1/2) *)
  Definition dkOf (k0 k : vec R) : vec R := vmap (fun x => x - IZR (rfloor (x + 1/2)))%R (rvsub k k0).
  Definition dkArr (kmesh : list (vec R)) : list (vec R) := map (dkOf (hd (V 0 0 0)%R kmesh)) kmesh.
  (** lines 608-621 and 658-670: the factor of the component iG.  [kernelData ik] is the array of the ik'th difference; None when no difference matches or an assertion fails *)
  Fixpoint numericalKernel (thr : R) (S : V3) (kernelData : nat -> Z -> A) (dks : list (vec R)) (ik : nat) (kDiff : vec R) (iG : V3) : option A :=
    match dks with
    | [] => None
    | dk :: dks' =>
        if Rlt_dec (circDistanceSquared dk kDiff) (thr * thr) then
          let d := rvsub dk kDiff in
          if Rlt_dec (roundError d) thr then readAt (nr S) (kernelData ik) (transformedIndex S iG (ofVec (roundVec d))) else None
        else numericalKernel thr S kernelData dks' (Datatypes.S ik) kDiff iG
    end.
  (** Coulomb_internal.h lines 335-345 and 366-376 *)
  Definition realKernel (S : V3) (kernel : Z -> A) (iG : V3) : option A := readAt (nG S) kernel (reducedIndex S iG).
End Kernel.
