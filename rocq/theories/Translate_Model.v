(** Translation operators of the classical fluid code.
    Models /repo/jdftx/fluid/TranslationOperator.cpp lines 34-41, 48-91, 97-111 and
    /repo/jdftx/fluid/TranslationOperator_internal.h lines 35-70 (wrappedIndex, lines 28-33, is in IntUtil_Model).
    Real idealisation of double; int is unbounded.  The CPU path is modelled: threadLaunch over THREAD_rLoop (Grid_Model)
    with an arbitrary schedule of the loop bodies of all threads.  x and y are assumed to be different arrays. *)
From Coq Require Import ZArith Reals List Bool.
From Coquelicot Require Import Complex.
From Verif Require Import Base WorkDiv_Model Grid_Model IntUtil_Model Vec3_Model Lattice_Model KPoints_Model Convert_Model Deriv_Model.
Import ListNotations.
Local Open Scope R_scope.

(** FieldData: the array and the pending scale factor (core/ScalarField.h lines 50-68) *)
Record field := Field { fscale : R; fdata : Z -> R }.
(** data(): absorbs the scale factor, lines 179-185; data(false) leaves it *)
Definition absorbScale (f : field) : field := Field 1 (fun i => fscale f * fdata f i).
(** nullToZero(y, gInfo): core/Operators.h line 256 *)
Definition nullToZero (y : option field) : field := match y with Some f => f | None => Field 1 (fun _ => 0) end.

(** element access of an array with n entries; None is an access outside it *)
Definition rd (n : Z) (x : Z -> R) (i : Z) : option R := if ((0 <=? i) && (i <? n))%Z%bool then Some (x i) else None.
Definition v3add (a b : V3) : V3 := (v0 a + v0 b, v1 a + v1 b, v2 a + v2 b)%Z.
Definition obind {A B} (o : option A) (f : A -> option B) : option B := match o with Some a => f a | None => None end.

(** constantSplineTaxpy_calc: TranslationOperator_internal.h lines 35-40; the increment of y[yIndex] *)
Definition constantSpline_calc (S : V3) (alpha : R) (x : Z -> R) (Tint : V3) (iy : V3) : option R :=
  obind (rd (nr S) x (wrappedIndex (v3add iy Tint) S)) (fun v => Some (alpha * v)).
(** linearSplineTaxpy_calc: lines 42-65 *)
Definition w2 (f : R) (i : Z) : R := if (i =? 0)%Z then 1 - f else f.
Fixpoint wsum (l : list Z) (w : Z -> R) (f : Z -> option R) (temp : R) : option R :=
  match l with
  | [] => Some temp
  | i :: l' => obind (f i) (fun v => wsum l' w f (temp + w i * v))
  end.
Definition linearSpline_calc (S : V3) (alpha : R) (x : Z -> R) (Tint : V3) (Tfrac : vec R) (iy : V3) : option R :=
  let ix := v3add iy Tint in
  obind (wsum [0;1]%Z (w2 (c0 Tfrac)) (fun i0 =>
           wsum [0;1]%Z (w2 (c1 Tfrac)) (fun i1 =>
             wsum [0;1]%Z (w2 (c2 Tfrac)) (fun i2 => rd (nr S) x (wrappedIndex (v3add ix (i0, i1, i2)) S)) 0) 0) 0)
        (fun temp0 => Some (alpha * temp0)).

(** lines 57-63 of TranslationOperator.cpp for one component *)
Definition roundSym (t : R) : Z := if Rlt_dec t 0 then (- rfloor (Rabs t + 1/2))%Z else rfloor (Rabs t + 1/2).
Definition constantT (S : Z) (t : R) : Z :=
  let i := Z.rem (roundSym t) S in if (i <? 0)%Z then (i + S)%Z else i.
(** lines 73-81 for one component: integer and fractional part *)
Definition linearT (S : Z) (t : R) : Z * R :=
  let t := rfmod t (IZR S) in
  let t := if Rlt_dec t 0 then t + IZR S else t in
  (Z.rem (rfloor t) S, t - IZR (rfloor t)).
(** line 51: Diag(S) * inv(R) * (-t) *)
Definition gridUnits (S : V3) (Rl : mat R) (t : vec R) : vec R :=
  let u := rmv (rinv Rl) (rvopp t) in V (IZR (v0 S) * c0 u) (IZR (v1 S) * c1 u) (IZR (v2 S) * c2 u).

(** y[i] += inc(iv), for the given order of the loop bodies *)
Fixpoint accumulate (inc : V3 -> option R) (visits : list (Z * V3)) (y : Z -> R) : option (Z -> R) :=
  match visits with
  | [] => Some y
  | (i, iv) :: l => obind (inc iv) (fun v => accumulate inc l (fun k => if (k =? i)%Z then y k + v else y k))
  end.
(** visits made by each thread of threadLaunch(..., gInfo.nr, ...) over THREAD_rLoop: core/Thread.h lines 122-127 *)
Definition thread_visits (S : V3) (fuel : nat) (nThreads : Z) : list (option (list (Z * V3))) :=
  map (fun t => THREAD_rLoop S fuel (thread_i1 nThreads (nr S) t) (thread_i2 nThreads (nr S) t)) (zrange 0 nThreads).
(** the loop bodies of all threads are executed in some interleaved order s *)
Definition schedule (S : V3) (fuel : nat) (nT : Z) (s : list (Z * V3)) : Prop :=
  exists ls, thread_visits S fuel nT = map Some ls /\ interleave ls s.
Definition execution (S : V3) (s : list (Z * V3)) : Prop :=
  exists fuel nT, (0 < nT)%Z /\ (nr S < Z.of_nat fuel)%Z /\ schedule S fuel nT s.
(** values represented by a field; a null pointer stands for zero *)
Definition value (f : field) (i : Z) : R := fscale f * fdata f i.
Definition valueO (f : option field) (i : Z) : R := match f with Some f => value f i | None => 0 end.

Inductive splineType := Constant | Linear.
(** the loop body selected by taxpy: lines 55-90 *)
Definition increment (ty : splineType) (S : V3) (Rl : mat R) (t : vec R) (alpha : R) (x : field) : V3 -> option R :=
  let T := gridUnits S Rl t in
  match ty with
  | Constant => constantSpline_calc S (alpha * fscale x) (fdata x) (constantT (v0 S) (c0 T), constantT (v1 S) (c1 T), constantT (v2 S) (c2 T))
  | Linear => let a := linearT (v0 S) (c0 T) in let b := linearT (v1 S) (c1 T) in let c := linearT (v2 S) (c2 T) in
              linearSpline_calc S (alpha * fscale x) (fdata x) (fst a, fst b, fst c) (V (snd a) (snd b) (snd c))
  end.
(** taxpy: lines 48-91, for a given order [visits] of the loop bodies *)
Definition taxpy (ty : splineType) (S : V3) (Rl : mat R) (visits : list (Z * V3)) (t : vec R) (alpha : R) (x : field) (y : option field) : option field :=
  let y := absorbScale (nullToZero y) in
  obind (accumulate (increment ty S Rl t alpha x) visits (fdata y)) (fun d => Some (Field (fscale y) d)).

(** TranslationOperatorFourier::taxpy lines 103-111, in reciprocal space: the factor applied to the coefficient at iG, and the
    translated field (half-space coefficients).  The transforms J and I are not modelled. *)
Definition fourierTranslate_calc (Gt : vec R) (iG : V3) (x : C) : C :=
  let ph := - rdot (vIZR (toVec iG)) Gt in (x * (cos ph, sin ph))%C.
Definition fourierTranslate (G : mat R) (S : V3) (t : vec R) : (Z -> C) -> Z -> C := pointwise (fourierTranslate_calc (rmv G t)) S.
