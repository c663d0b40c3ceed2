(** Euler angles and spinor rotations.
    Models /repo/jdftx/fluid/Euler.h lines 38-72, rotation() of /repo/jdftx/core/matrix3.h lines 270-290 and
    Symmetries::getSpinorRotation of /repo/jdftx/electronic/Symmetries.cpp lines 355-373.
    Real idealisation of double: sin, cos, acos are the real functions, atan2 is the real-valued function of two real
    arguments (no signed zeros, atan2(0,0) = 0).  Not modelled: wigner_d (Euler.h lines 75-97). *)
From Coq Require Import ZArith Reals.
From Coquelicot Require Import Complex.
From Verif Require Import Vec3_Model.
Local Open Scope R_scope.

(** C library atan2(y,x), result in (-pi,pi] *)
Definition atan2 (y x : R) : R :=
  if Rlt_dec 0 x then atan (y / x)
  else if Rlt_dec x 0 then (if Rle_dec 0 y then atan (y / x) + PI else atan (y / x) - PI)
  else if Rlt_dec 0 y then PI / 2 else if Rlt_dec y 0 then - (PI / 2) else 0.

(** rotation: matrix3.h lines 271-290 *)
Definition rotation (theta : R) (axis : nat) : mat R :=
  let s := sin theta in let c := cos theta in
  match axis with
  | O => M 1 0 0
           0 c s
           0 (- s) c
  | 1%nat => M c 0 (- s)
               0 1 0
               s 0 c
  | _ => M c s 0
           (- s) c 0
           0 0 1
  end.
(** polarUnitVector: Euler.h lines 39-42 *)
Definition polarUnitVector (alpha beta : R) : vec R :=
  let sBeta := sin beta in V (sBeta * cos alpha) (sBeta * sin alpha) (cos beta).
(** getEulerAxis: lines 45-53 (assigns the first two angles and leaves the third) *)
Definition getEulerAxis (newZ euler : vec R) : vec R :=
  let b := acos (c2 newZ / rlen newZ) in
  if Rlt_dec (b * (PI - b)) (1 / 1000000) then V 0 b (c2 euler)
  else V (atan2 (c1 newZ) (c0 newZ)) b (c2 euler).
(** matrixFromEuler: lines 56-60 *)
Definition matrixFromEuler (euler : vec R) : mat R :=
  rmm (rmm (rotation (c0 euler) 2) (rotation (c1 euler) 1)) (rotation (c2 euler) 2).
(** eulerFromMatrix: lines 63-72 *)
Definition eulerFromMatrix (m : mat R) : vec R :=
  if Rlt_dec (1 - 1 / 10000000) (Rabs (m22 m)) then
    V 0 (if Rlt_dec 0 (m22 m) then 0 else PI) (atan2 (- m10 m) (m11 m))
  else V (atan2 (m12 m) (- m02 m)) (acos (m22 m)) (atan2 (m21 m) (m20 m)).

(** 2x2 complex matrices, row major *)
Definition mat2 := (C * C * C * C)%type.
Definition mm2 (a b : mat2) : mat2 :=
  let '(a00, a01, a10, a11) := a in let '(b00, b01, b10, b11) := b in
  ((a00 * b00 + a01 * b10)%C, (a00 * b01 + a01 * b11)%C, (a10 * b00 + a11 * b10)%C, (a10 * b01 + a11 * b11)%C).
(** cis: scalar.h *)
Definition cis (x : R) : C := (cos x, sin x).
(** getSpinorRotation: Symmetries.cpp lines 355-373 *)
Definition spinZ (angle : R) : mat2 := let c := cis (1/2 * angle) in (c, RtoC 0, RtoC 0, Cconj c).
Definition spinY (angle : R) : mat2 := let c := cis (1/2 * angle) in (RtoC (Re c), RtoC (Im c), RtoC (- Im c), RtoC (Re c)).
Definition spinorRotation (rot : mat R) : mat2 :=
  let euler := eulerFromMatrix (rmscale (1 / rdet rot) rot) in
  mm2 (mm2 (spinZ (c0 euler)) (spinY (c1 euler))) (spinZ (c2 euler)).
