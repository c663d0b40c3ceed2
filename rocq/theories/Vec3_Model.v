(** 3-vectors and 3x3 matrices.
    Models /repo/jdftx/core/vector3.h lines 34-152 and /repo/jdftx/core/matrix3.h lines 31-268, 338-359.
    The C++ templates over [scalar] become definitions over an arbitrary carrier with explicit operations,
    instantiated below at the integers (vector3<int>, matrix3<int>, without wrap-around) and at the real numbers
    (vector3<>, matrix3<>, real idealisation of double). *)
From Coq Require Import ZArith Reals List.
Import ListNotations.

Record vec (A : Type) := V { c0 : A; c1 : A; c2 : A }.
Arguments V {A} _ _ _. Arguments c0 {A} _. Arguments c1 {A} _. Arguments c2 {A} _.
Record mat (A : Type) := M { m00 : A; m01 : A; m02 : A; m10 : A; m11 : A; m12 : A; m20 : A; m21 : A; m22 : A }.
Arguments M {A} _ _ _ _ _ _ _ _ _.
Arguments m00 {A} _. Arguments m01 {A} _. Arguments m02 {A} _.
Arguments m10 {A} _. Arguments m11 {A} _. Arguments m12 {A} _.
Arguments m20 {A} _. Arguments m21 {A} _. Arguments m22 {A} _.

(** operator[] / operator() with a run-time index in {0,1,2}: vector3.h lines 39-40, matrix3.h lines 37-38 *)
Definition vget {A} (v : vec A) (k : nat) : A := match k with O => c0 v | 1%nat => c1 v | _ => c2 v end.
Definition vset {A} (v : vec A) (k : nat) (x : A) : vec A :=
  match k with O => V x (c1 v) (c2 v) | 1%nat => V (c0 v) x (c2 v) | _ => V (c0 v) (c1 v) x end.
(** row(), column(), set_rows, set_cols: matrix3.h lines 39-49 *)
Definition row0 {A} (m : mat A) := V (m00 m) (m01 m) (m02 m).
Definition row1 {A} (m : mat A) := V (m10 m) (m11 m) (m12 m).
Definition row2 {A} (m : mat A) := V (m20 m) (m21 m) (m22 m).
Definition col0 {A} (m : mat A) := V (m00 m) (m10 m) (m20 m).
Definition col1 {A} (m : mat A) := V (m01 m) (m11 m) (m21 m).
Definition col2 {A} (m : mat A) := V (m02 m) (m12 m) (m22 m).
Definition mrow {A} (m : mat A) (i : nat) := match i with O => row0 m | 1%nat => row1 m | _ => row2 m end.
Definition mget {A} (m : mat A) (i j : nat) : A := vget (mrow m i) j.
Definition set_rows {A} (u v w : vec A) : mat A := M (c0 u) (c1 u) (c2 u) (c0 v) (c1 v) (c2 v) (c0 w) (c1 w) (c2 w).
Definition set_cols {A} (u v w : vec A) : mat A := M (c0 u) (c0 v) (c0 w) (c1 u) (c1 v) (c1 w) (c2 u) (c2 v) (c2 w).
Definition mset {A} (m : mat A) (i j : nat) (x : A) : mat A :=
  match i with
  | O => set_rows (vset (row0 m) j x) (row1 m) (row2 m)
  | 1%nat => set_rows (row0 m) (vset (row1 m) j x) (row2 m)
  | _ => set_rows (row0 m) (row1 m) (vset (row2 m) j x)
  end.
(** operator~ : matrix3.h lines 135-141 *)
Definition mtrans {A} (m : mat A) : mat A := set_rows (col0 m) (col1 m) (col2 m).
Definition vmap {A B} (f : A -> B) (v : vec A) : vec B := V (f (c0 v)) (f (c1 v)) (f (c2 v)).
Definition mmap {A B} (f : A -> B) (m : mat A) : mat B :=
  M (f (m00 m)) (f (m01 m)) (f (m02 m)) (f (m10 m)) (f (m11 m)) (f (m12 m)) (f (m20 m)) (f (m21 m)) (f (m22 m)).

Section Generic.
  Context {A : Type} (zero : A) (add mul sub : A -> A -> A) (opp : A -> A).
  (** vector3.h lines 55, 60, 61, 91-96 *)
  Definition gvadd (v w : vec A) : vec A := V (add (c0 v) (c0 w)) (add (c1 v) (c1 w)) (add (c2 v) (c2 w)).
  Definition gvsub (v w : vec A) : vec A := V (sub (c0 v) (c0 w)) (sub (c1 v) (c1 w)) (sub (c2 v) (c2 w)).
  Definition gvopp (v : vec A) : vec A := vmap opp v.
  Definition gvscale (s : A) (v : vec A) : vec A := vmap (fun x => mul x s) v.
  (** dot, cross, box: vector3.h lines 107, 118-128 *)
  Definition gdot (a b : vec A) : A := add (add (mul (c0 a) (c0 b)) (mul (c1 a) (c1 b))) (mul (c2 a) (c2 b)).
  Definition gcross (a b : vec A) : vec A :=
    V (sub (mul (c1 a) (c2 b)) (mul (c2 a) (c1 b)))
      (sub (mul (c2 a) (c0 b)) (mul (c0 a) (c2 b)))
      (sub (mul (c0 a) (c1 b)) (mul (c1 a) (c0 b))).
  Definition gbox (a b c : vec A) : A := gdot a (gcross b c).
  (** matrix * vector, vector * matrix, matrix * matrix: matrix3.h lines 178-249 *)
  Definition gmv (m : mat A) (v : vec A) : vec A := V (gdot (row0 m) v) (gdot (row1 m) v) (gdot (row2 m) v).
  Definition gvm (v : vec A) (m : mat A) : vec A := V (gdot v (col0 m)) (gdot v (col1 m)) (gdot v (col2 m)).
  Definition gmm (m n : mat A) : mat A :=
    M (gdot (row0 m) (col0 n)) (gdot (row0 m) (col1 n)) (gdot (row0 m) (col2 n))
      (gdot (row1 m) (col0 n)) (gdot (row1 m) (col1 n)) (gdot (row1 m) (col2 n))
      (gdot (row2 m) (col0 n)) (gdot (row2 m) (col1 n)) (gdot (row2 m) (col2 n)).
  (** matrix + matrix, matrix - matrix, scalar * matrix: matrix3.h lines 83-121 *)
  Definition gmadd (m n : mat A) : mat A :=
    set_rows (gvadd (row0 m) (row0 n)) (gvadd (row1 m) (row1 n)) (gvadd (row2 m) (row2 n)).
  Definition gmsub (m n : mat A) : mat A :=
    set_rows (gvsub (row0 m) (row0 n)) (gvsub (row1 m) (row1 n)) (gvsub (row2 m) (row2 n)).
  Definition gmscale (s : A) (m : mat A) : mat A := mmap (fun x => mul x s) m.
  (** constructor matrix3(d0,d1,d2), trace, det, adjugate, nrm2sq: matrix3.h lines 52-55, 257-267 *)
  Definition gdiag (a b c : A) : mat A := M a zero zero zero b zero zero zero c.
  Definition gtrace (m : mat A) : A := add (add (m00 m) (m11 m)) (m22 m).
  Definition gdet (m : mat A) : A := gbox (row0 m) (row1 m) (row2 m).
  Definition gadj (m : mat A) : mat A :=
    set_cols (gcross (row1 m) (row2 m)) (gcross (row2 m) (row0 m)) (gcross (row0 m) (row1 m)).
  Definition gnrm2sq (m : mat A) : A := gtrace (gmm (mtrans m) m).
End Generic.

(** ** Integer instances (vector3<int>, matrix3<int>) *)
Definition zvadd := gvadd Z.add.
Definition zvsub := gvsub Z.sub.
Definition zvopp := gvopp Z.opp.
Definition zdot := gdot Z.add Z.mul.
Definition zmv := gmv Z.add Z.mul.
Definition zvm := gvm Z.add Z.mul.
Definition zmm := gmm Z.add Z.mul.
Definition zdet := gdet Z.add Z.mul Z.sub.
Definition zadj := gadj Z.mul Z.sub.
Definition zmscale := gmscale Z.mul.
Definition zdiag := gdiag 0%Z.
Definition zid : mat Z := zdiag 1%Z 1%Z 1%Z.

(** ** Real instances (vector3<>, matrix3<>) *)
Definition rvadd := gvadd Rplus.
Definition rvsub := gvsub Rminus.
Definition rvopp := gvopp Ropp.
Definition rvscale := gvscale Rmult.
Definition rdot := gdot Rplus Rmult.
Definition rcross := gcross Rmult Rminus.
Definition rmv := gmv Rplus Rmult.
Definition rvm := gvm Rplus Rmult.
Definition rmm := gmm Rplus Rmult.
Definition rmadd := gmadd Rplus.
Definition rmsub := gmsub Rminus.
Definition rmscale := gmscale Rmult.
Definition rdet := gdet Rplus Rmult Rminus.
Definition radj := gadj Rmult Rminus.
Definition rdiag := gdiag 0%R.
Definition rid : mat R := rdiag 1%R 1%R 1%R.
Definition rtrace := gtrace Rplus.
Definition rnrm2sq := gnrm2sq Rplus Rmult.
(** length_squared, length: vector3.h lines 67-68; nrm2, inv: matrix3.h lines 264-268 *)
Definition rlen2 (v : vec R) : R := rdot v v.
Definition rlen (v : vec R) : R := sqrt (rlen2 v).
Definition rnrm2 (m : mat R) : R := sqrt (rnrm2sq m).
Definition rinv (m : mat R) : mat R := rmscale (1 / rdet m)%R (radj m).

(** conversions int -> double in mixed products: matrix3.h lines 187-193, 240-245 *)
Definition vIZR (v : vec Z) : vec R := vmap IZR v.
Definition mIZR (m : mat Z) : mat R := mmap IZR m.

(** circDistanceSquared: vector3.h lines 148-152 ( |cis(2 pi a) - cis(2 pi b)|^2 summed over the components;
    complex::norm is re^2+im^2, scalar.h) *)
Definition circ1 (a b : R) : R :=
  ((cos (2*PI*a) - cos (2*PI*b)) * (cos (2*PI*a) - cos (2*PI*b))
   + (sin (2*PI*a) - sin (2*PI*b)) * (sin (2*PI*a) - sin (2*PI*b)))%R.
Definition circDistanceSquared (a b : vec R) : R :=
  (circ1 (c0 a) (c0 b) + circ1 (c1 a) (c1 b) + circ1 (c2 a) (c2 b))%R.

(** SpaceGroupOp: matrix3.h lines 338-359 *)
Record SpaceGroupOp := SGO { sg_rot : mat Z; sg_a : vec R }.
Definition applyReal (op : SpaceGroupOp) (r : vec R) : vec R := rvadd (rmv (mIZR (sg_rot op)) r) (sg_a op).
Definition applyRecip (op : SpaceGroupOp) (k : vec R) : vec R := rvm k (mIZR (sg_rot op)).
Definition sgo_mul (p q : SpaceGroupOp) : SpaceGroupOp :=
  SGO (zmm (sg_rot p) (sg_rot q)) (rvadd (rmv (mIZR (sg_rot p)) (sg_a q)) (sg_a p)).
Definition sgo_inv (p : SpaceGroupOp) : SpaceGroupOp :=
  let rot' := zmscale (zdet (sg_rot p)) (zadj (sg_rot p)) in
  SGO rot' (rvopp (rmv (mIZR rot') (sg_a p))).
