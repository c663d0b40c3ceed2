(** Model of the quintic spline interpolation (C39-C41): jdftx/core/Spline.h 65-152, jdftx/core/Spline.cpp 24-77,
    and its guarded uses in jdftx/core/RadialFunction.h 63-72 and jdftx/core/Coulomb_internal.h 238-242.
    Doubles are idealised to real numbers and int to Z.  Reading an array outside its bounds is the outcome None. *)
From Coq Require Import ZArith Reals List Bool.
From Verif Require Import Base Lattice_Model KPoints_Model.
Import ListNotations.
Open Scope R_scope.

(** coeff[i] *)
Definition rd (coeff : list R) (i : Z) : option R := if (i <? 0)%Z then None else nth_error coeff (Z.to_nat i).
(** Spline.h 72-73: load six coefficients starting at j *)
Fixpoint load (n : nat) (coeff : list R) (j : Z) : option (list R) :=
  match n with
  | O => Some []
  | S n' => match rd coeff j, load n' coeff (j + 1) with Some a, Some l => Some (a :: l) | _, _ => None end
  end.
(** 75-80: Bernstein coefficients from blip coefficients *)
Definition bernstein (c : list R) : list R :=
  match c with
  | [c0; c1; c2; c3; c4; c5] =>
    [ (1/66) * (c0 + 26*c1 + 66*c2 + 26*c3 + c4);
      (1/33) * (8*c1 + 33*c2 + 18*c3 + c4);
      (2/33) * (2*c1 + 15*c2 + 12*c3 + c4);
      (2/33) * (c1 + 12*c2 + 15*c3 + 2*c4);
      (1/33) * (c1 + 18*c2 + 33*c3 + 8*c4);
      (1/66) * (c1 + 26*c2 + 66*c3 + 26*c4 + c5) ]
  | _ => []
  end.
(** 67-81: getBernsteinCoeffs returns (tR, tL, b) *)
Definition getBernsteinCoeffs (coeff : list R) (x : R) : option (R * R * list R) :=
  let j := rtrunc x in
  let tR := x - IZR j in
  let tL := 1 - tR in
  match load 6 coeff j with Some c => Some (tR, tL, bernstein c) | None => None end.

(** one de Casteljau reduction, e.g. line 88 *)
Fixpoint lower (tL tR : R) (b : list R) : list R :=
  match b with
  | a :: l => match l with a' :: _ => (tL * a + tR * a') :: lower tL tR l | [] => [] end
  | [] => []
  end.
(** line 100: differences of neighbouring entries *)
Fixpoint diffs (b : list R) : list R :=
  match b with
  | a :: l => match l with a' :: _ => (a' - a) :: diffs l | [] => [] end
  | [] => []
  end.
(** 84-93 *)
Definition value (coeff : list R) (x : R) : option R :=
  match getBernsteinCoeffs coeff x with
  | Some (tR, tL, b) => Some (hd 0 (lower tL tR (lower tL tR (lower tL tR (lower tL tR (lower tL tR b))))))
  | None => None
  end.
(** 96-105 *)
Definition deriv (coeff : list R) (x : R) : option R :=
  match getBernsteinCoeffs coeff x with
  | Some (tR, tL, b) => Some (5 * hd 0 (lower tL tR (lower tL tR (lower tL tR (lower tL tR (diffs b))))))
  | None => None
  end.

(** one backtrace step, e.g. line 119: c[0]=0; for i: c[i] += tL*b[i]; c[i+1] = tR*b[i] *)
Fixpoint raiseFrom (acc tL tR : R) (b : list R) : list R :=
  match b with
  | [] => [acc]
  | a :: l => (acc + tL * a) :: raiseFrom (tR * a) tL tR l
  end.
Definition raise (tL tR : R) (b : list R) : list R := raiseFrom 0 tL tR b.
(** 124-129: from Bernstein to blip coefficients *)
Definition blip (b : list R) : list R :=
  match b with
  | [b0; b1; b2; b3; b4; b5] =>
    [ (1/66) * b0;
      (1/66) * (26*b0 + 16*b1 + 8*b2 + 4*b3 + 2*b4 + b5);
      (1/33) * (33*b0 + 33*b1 + 30*b2 + 24*b3 + 18*b4 + 13*b5);
      (1/33) * (13*b0 + 18*b1 + 24*b2 + 30*b3 + 33*b4 + 33*b5);
      (1/66) * (b0 + 2*b1 + 4*b2 + 8*b3 + 16*b4 + 26*b5);
      (1/66) * b5 ]
  | _ => []
  end.
(** E_coeff[i] += v *)
Fixpoint addAt (l : list R) (n : nat) (v : R) : option (list R) :=
  match l, n with
  | [], _ => None
  | a :: l', O => Some ((a + v) :: l')
  | a :: l', S n' => match addAt l' n' v with Some r => Some (a :: r) | None => None end
  end.
Definition accum (l : list R) (i : Z) (v : R) : option (list R) := if (i <? 0)%Z then None else addAt l (Z.to_nat i) v.
(** 132: for(i<6) E_coeff[j+i] += E_value * c[i] *)
Fixpoint accumAll (E : list R) (j : Z) (E_value : R) (c : list R) : option (list R) :=
  match c with
  | [] => Some E
  | a :: c' => match accum E j (E_value * a) with Some E' => accumAll E' (j + 1) E_value c' | None => None end
  end.
(** 112-132, the CPU branch *)
Definition valueGradWeights (x : R) : list R :=
  let j := rtrunc x in
  let tR := x - IZR j in
  let tL := 1 - tR in
  blip (raise tL tR (raise tL tR (raise tL tR (raise tL tR [tL; tR])))).
Definition valueGrad (E_value : R) (E_coeff : list R) (x : R) : option (list R) :=
  accumAll E_coeff (rtrunc x) E_value (valueGradWeights x).

(** 137-146, the GPU branch: reduction of one component over the threads of a block.
    Between two barriers the threads iThread < extent run in the order given by [ord]. *)
Definition addInto (stride : nat) (sh : nat -> R) (t : nat) : nat -> R := fun u => if Nat.eqb u t then sh t + sh (stride + t)%nat else sh u.
Fixpoint blockReduce (fuel : nat) (ord : nat -> list nat) (extent stride : nat) (sh : nat -> R) : option (nat -> R) :=
  match fuel with
  | O => None
  | S f => if Nat.eqb extent 0 then Some sh
           else blockReduce f ord (Nat.div2 stride) (Nat.div2 (stride + 1)) (fold_left (addInto stride) (ord extent) sh)
  end.
Definition blockSum (ord : nat -> list nat) (blockDim : nat) (sh : nat -> R) : option (nat -> R) :=
  blockReduce (S (S blockDim)) ord (Nat.div2 blockDim) (Nat.div2 (blockDim + 1)) sh.

(** ** Spline.cpp getCoeff: bands (band m i = band[m][i]) and the right-hand side x *)
Record pent := { band : Z -> Z -> R; rhs : Z -> R }.
Definition setb (s : pent) (m i : Z) (v : R) : pent :=
  {| band := fun m' i' => if ((m' =? m) && (i' =? i))%Z then v else band s m' i'; rhs := rhs s |}.
Definition setx (s : pent) (i : Z) (v : R) : pent := {| band := band s; rhs := fun i' => if (i' =? i)%Z then v else rhs s i' |}.
Definition addb (s : pent) (m i : Z) (v : R) : pent := setb s m i (band s m i + v).
Definition off1 : R := 13/33.
Definition off2 : R := 1/66.
(** 26-34 and 36 *)
Definition pentInit (samples : list R) (odd : bool) : pent :=
  {| band := fun m _ => if (m =? 0)%Z then 1 else if (Z.abs m =? 1)%Z then off1 else off2;
     rhs := fun i => if (odd && (i =? 0)%Z)%bool then 0 else nth (Z.to_nat i) samples 0 |}.
Definition sgn (odd : bool) : R := if odd then -1 else 1.
(** 38-48; extrap = {{1,-3,3},{3,-8,6}} *)
Definition pentBC (N : Z) (odd : bool) (s : pent) : pent :=
  let s := addb s 0 1 (sgn odd * off2) in
  let s := addb s 1 0 (sgn odd * off1) in
  let s := addb s 2 0 (sgn odd * off2) in
  let s := addb s (-1) (N-3) (off2 * 1) in
  let s := addb s 0 (N-2) (off2 * -3) in
  let s := addb s 1 (N-2) (off2 * 3) in
  let s := addb s (-2) (N-3) (off1 * 1 + off2 * 3) in
  let s := addb s (-1) (N-2) (off1 * -3 + off2 * -8) in
  addb s 0 (N-1) (off1 * 3 + off2 * 6).
(** 52-60: eliminate column i from row i+m *)
Definition pentElim (N i : Z) (s : pent) (m : Z) : pent :=
  if (i + m <? N)%Z then
    let rot := band s (- m) i / band s 0 i in
    let s := fold_left (fun s n => addb s (n - m) (i + n) (- (rot * band s n i))) (zrange 1 m) s in
    let s := fold_left (fun s n => if (i + n <? N)%Z then addb s (n - m) (i + m) (- (rot * band s n i)) else s) (zrange m 3) s in
    setx s (i + m) (rhs s (i + m) - rot * rhs s i)
  else s.
(** 50-60: forward sweep *)
Definition pentForward (N : Z) (s : pent) : pent := fold_left (fun s i => fold_left (pentElim N i) [1; 2]%Z s) (zrange 0 N) s.
(** 62-67: reverse sweep *)
Definition pentBack (N : Z) (s : pent) (i : Z) : pent :=
  let invDiag := 1 / band s 0 i in
  let s := fold_left (fun s m => if (i + m <? N)%Z then setx s i (rhs s i - band s m i * rhs s (i + m)) else s) [1; 2]%Z s in
  setx s i (rhs s i * invDiag).
Definition pentReverse (N : Z) (s : pent) : pent := fold_left (pentBack N) (rev (zrange 0 N)) s.
(** 24-77.  With fewer than three samples the boundary lines 38-48 and 70 index outside the arrays: None. *)
Definition getCoeff (samples : list R) (odd : bool) : option (list R) :=
  let N := Z.of_nat (List.length samples) in
  if (N <? 3)%Z then None
  else
    let x := rhs (pentReverse N (pentForward N (pentBC N odd (pentInit samples odd)))) in
    Some ([sgn odd * x 2%Z; sgn odd * x 1%Z] ++ map x (zrange 0 N)
          ++ [1 * x (N-3)%Z + -3 * x (N-2)%Z + 3 * x (N-1)%Z; 3 * x (N-3)%Z + -8 * x (N-2)%Z + 6 * x (N-1)%Z]).

(** RadialFunction.h 63-72 *)
Definition radialValue (coeff : list R) (dGinv G : R) : option R :=
  if Rle_dec (IZR (Z.of_nat (List.length coeff) - 5)) (G * dGinv) then Some 0 else value coeff (G * dGinv).
Definition radialDeriv (coeff : list R) (dGinv G : R) : option R :=
  if Rle_dec (IZR (Z.of_nat (List.length coeff) - 5)) (G * dGinv) then Some 0
  else match deriv coeff (G * dGinv) with Some d => Some (d * dGinv) | None => None end.
(** Coulomb_internal.h 238-242, with nSamples the number of samples handed to getCoeff (Coulomb_ExchangeEval.cpp 397-405) *)
Definition screenedValue (coeff : list R) (nSamples : Z) (t : R) : option R :=
  if Rle_dec (IZR nSamples) t then Some 0 else value coeff t.
