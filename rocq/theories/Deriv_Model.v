(** Differential operators in reciprocal space (C65) and inner products of half-space fields (C66):
    core/Operators_internal.h 99-150, 174-213, core/tensor3.h 33-74, core/Operators.cpp 394-412, 433-471, 778-787, 809-819, 968-1005.
    Doubles are real numbers.  The loops store to index i the value computed at the point of index i (C04), so a field is the
    function of the index; halfG_init gives the point. *)
From Coq Require Import ZArith Reals List Bool.
From Coquelicot Require Import Complex.
From Verif Require Import Base Grid_Model Vec3_Model Convert_Model.
Import ListNotations.
Open Scope C_scope.

Definition toVec (g : V3) : vec Z := V (v0 g) (v1 g) (v2 g).
(** iG*G in Cartesian coordinates *)
Definition Gvec (G : mat R) (g : V3) : vec R := rvm (vIZR (toVec g)) G.
Definition iota (nyq : bool) : C := (0%R, if nyq then 0%R else 1%R).

(** 174-178 gradient_calc, 180-184 divergence_calc at one point *)
Definition gradient_calc (G : mat R) (S g : V3) (x : C) : vec C :=
  let q := Gvec G g in let t := iota (is_nyquist S g) * x in V (RtoC (c0 q) * t) (RtoC (c1 q) * t) (RtoC (c2 q) * t).
Definition divergence_calc (G : mat R) (S g : V3) (w : vec C) : C :=
  let q := Gvec G g in iota (is_nyquist S g) * (RtoC (c0 q) * c0 w + RtoC (c1 q) * c1 w + RtoC (c2 q) * c2 w).

(** tensor3.h 33-62: components xy, yz, zx, xxr, yyr *)
Record tensor := T5 { t_xy : C; t_yz : C; t_zx : C; t_xxr : C; t_yyr : C }.
Definition tensorOfMatrix (m : mat C) : tensor :=
  let traceTerm := RtoC (1/3) * (m00 m + m11 m + m22 m) in
  T5 (RtoC 0.5 * (m01 m + m10 m)) (RtoC 0.5 * (m12 m + m21 m)) (RtoC 0.5 * (m20 m + m02 m)) (m00 m - traceTerm) (m11 m - traceTerm).
(** 65-74 *)
Definition matrixOfTensor (t : tensor) : mat C :=
  M (t_xxr t) (t_xy t) (t_zx t) (t_xy t) (t_yyr t) (t_yz t) (t_zx t) (t_yz t) (- (t_xxr t + t_yyr t)).
(** Operators_internal.h 187-198 *)
Definition tensorGradient_calc (G : mat R) (S g : V3) (x : C) : tensor :=
  let mx := if is_nyquist S g then RtoC 0 else - x in
  let q := Gvec G g in
  let Gsq := rlen2 q in
  T5 (mx * RtoC (c0 q) * RtoC (c1 q)) (mx * RtoC (c1 q) * RtoC (c2 q)) (mx * RtoC (c2 q) * RtoC (c0 q))
     (mx * RtoC (c0 q * c0 q - (1/3) * Gsq)) (mx * RtoC (c1 q * c1 q - (1/3) * Gsq)).
(** 200-213 *)
Definition tensorDivergence_calc (G : mat R) (S g : V3) (t : tensor) : C :=
  let temp :=
    if is_nyquist S g then RtoC 0 else
      let q := Gvec G g in
      RtoC 0 + t_xy t * RtoC (2 * c0 q * c1 q) + t_yz t * RtoC (2 * c1 q * c2 q) + t_zx t * RtoC (2 * c2 q * c0 q)
        + t_xxr t * RtoC (c0 q * c0 q - c2 q * c2 q) + t_yyr t * RtoC (c1 q * c1 q - c2 q * c2 q) in
  - temp.

(** 99-102 D_calc with Ge a column of the reciprocal matrix: no treatment of the Nyquist frequencies *)
Definition D_calc (Ge : vec R) (g : V3) (x : C) : C := x * (0%R, rdot (vIZR (toVec g)) Ge).

(** 121-150: l-th order gradient and divergence, with Y the list of the 2l+1 spherical harmonics at the point; lPhase = cis(l*pi/2) *)
Definition lPhase (l : nat) : C := (cos (INR l * 0.5 * PI), sin (INR l * 0.5 * PI)).
Definition lGradient_calc (l : nat) (nyq : bool) (Y : list R) (x : C) : list C :=
  let phasedIn := if nyq then RtoC 0 else lPhase l * x in map (fun y => phasedIn * RtoC y) Y.
Fixpoint lDiv_sum (Y : list R) (w : list C) : C :=
  match Y, w with y :: Y', v :: w' => v * RtoC y + lDiv_sum Y' w' | _, _ => RtoC 0 end.
Definition lDivergence_calc (l : nat) (nyq : bool) (Y : list R) (w : list C) : C :=
  (if nyq then RtoC 0 else lPhase l) * lDiv_sum Y w.

(** Fields *)
Definition pointwise {A B} (f : V3 -> A -> B) (S : V3) (x : Z -> A) : Z -> B := fun i => f (halfG_init S i) (x i).
Definition gradientF (G : mat R) (S : V3) : (Z -> C) -> Z -> vec C := pointwise (gradient_calc G S) S.
Definition divergenceF (G : mat R) (S : V3) : (Z -> vec C) -> Z -> C := pointwise (divergence_calc G S) S.
Definition tensorGradientF (G : mat R) (S : V3) : (Z -> C) -> Z -> tensor := pointwise (tensorGradient_calc G S) S.
Definition tensorDivergenceF (G : mat R) (S : V3) : (Z -> tensor) -> Z -> C := pointwise (tensorDivergence_calc G S) S.
Definition DF (Ge : vec R) (S : V3) : (Z -> C) -> Z -> C := pointwise (D_calc Ge) S.

(** eblas_zdotc(N, X, incX, Y, incY): sum of conj(X[i*incX]) Y[i*incY] *)
Fixpoint zsum (l : list Z) (f : Z -> C) : C := match l with [] => RtoC 0 | i :: l' => f i + zsum l' f end.
Definition zdotc (N : Z) (X : Z -> C) (incX : Z) (Y : Z -> C) (incY : Z) : C :=
  zsum (zrange 0 N) (fun i => Cconj (X (i * incX)%Z) * Y (i * incY)%Z).
(** Operators.cpp 778-787: dot of two half-space fields (scale factors 1) *)
Definition dotTilde (S : V3) (X Y : Z -> C) : R :=
  let S2 := (v2 S / 2 + 1)%Z in
  let S01 := (v0 S * v1 S)%Z in
  let complexDot := zdotc (nG S) X 1 Y 1 in
  let correction1 := zdotc S01 X S2 Y S2 in
  let correction2 := if (S2 =? 1)%Z then RtoC 0 else zdotc S01 (fun i => X (i + S2 - 1)%Z) S2 (fun i => Y (i + S2 - 1)%Z) S2 in
  Re (RtoC 2 * complexDot - correction1 - correction2).
(** 809-819: sum of the values of a half-space field: the same with Y the constant 1 read with increment 0 (scale 1) *)
Definition sumTilde (S : V3) (X : Z -> C) : R :=
  let S2 := (v2 S / 2 + 1)%Z in
  let S01 := (v0 S * v1 S)%Z in
  let one := fun _ : Z => RtoC 1 in
  let complexSum := zdotc (nG S) X 1 one 0 in
  let correction1 := zdotc S01 X S2 one 0 in
  let correction2 := if (S2 =? 1)%Z then RtoC 0 else zdotc S01 (fun i => X (i + S2 - 1)%Z) S2 one 0 in
  Re (RtoC 2 * complexSum - correction1 - correction2).
