(** Double-precision values idealised as extended reals: every finite double is a real number and there are two
    infinities and one not-a-number.  Operations follow IEEE 754 except that there is no rounding and only one zero,
    which divides like +0.  The code relies on comparisons with a not-a-number being false and on isfinite()
    (jdftx/core/Minimize_linmin.h 44, 78, 121, 169 and jdftx/core/Minimize.h 213, 217). *)
From Coq Require Import Reals Bool.
Open Scope R_scope.

Inductive xr := Fin (r : R) | PInf | MInf | NaN.

(** std::isfinite *)
Definition isfin (x : xr) : bool := match x with Fin _ => true | _ => false end.
(** std::isnan *)
Definition isnan (x : xr) : bool := match x with NaN => true | _ => false end.

Definition Rltb (a b : R) : bool := if Rlt_dec a b then true else false.
Definition Rleb (a b : R) : bool := if Rle_dec a b then true else false.
Definition Reqb (a b : R) : bool := if Req_EM_T a b then true else false.

(** a < b on doubles *)
Definition xltb (a b : xr) : bool :=
  match a, b with
  | NaN, _ | _, NaN => false
  | Fin x, Fin y => Rltb x y
  | MInf, MInf => false | MInf, _ => true
  | _, MInf => false
  | PInf, _ => false
  | Fin _, PInf => true
  end.
(** a <= b on doubles *)
Definition xleb (a b : xr) : bool :=
  match a, b with
  | NaN, _ | _, NaN => false
  | Fin x, Fin y => Rleb x y
  | MInf, _ => true
  | _, PInf => true
  | _, _ => false
  end.

Definition xopp (a : xr) : xr := match a with Fin x => Fin (- x) | PInf => MInf | MInf => PInf | NaN => NaN end.
Definition xadd (a b : xr) : xr :=
  match a, b with
  | NaN, _ | _, NaN => NaN
  | Fin x, Fin y => Fin (x + y)
  | PInf, MInf | MInf, PInf => NaN
  | PInf, _ | _, PInf => PInf
  | MInf, _ | _, MInf => MInf
  end.
Definition xsub (a b : xr) : xr := xadd a (xopp b).
(** An infinity with the sign of x; not-a-number if x is zero. *)
Definition xinf (x : R) : xr := if Rlt_dec 0 x then PInf else if Rlt_dec x 0 then MInf else NaN.
Definition xmul (a b : xr) : xr :=
  match a, b with
  | NaN, _ | _, NaN => NaN
  | Fin x, Fin y => Fin (x * y)
  | PInf, Fin x | Fin x, PInf => xinf x
  | MInf, Fin x | Fin x, MInf => xinf (- x)
  | PInf, PInf | MInf, MInf => PInf
  | PInf, MInf | MInf, PInf => MInf
  end.
Definition xdiv (a b : xr) : xr :=
  match a, b with
  | NaN, _ | _, NaN => NaN
  | Fin x, Fin y => if Req_EM_T y 0 then xinf x else Fin (x / y)
  | Fin _, (PInf | MInf) => Fin 0
  | PInf, Fin y => if Rlt_dec y 0 then MInf else PInf
  | MInf, Fin y => if Rlt_dec y 0 then PInf else MInf
  | _, _ => NaN
  end.
Definition xabs (a : xr) : xr := match a with Fin x => Fin (Rabs x) | NaN => NaN | _ => PInf end.
Definition xsqrt (a : xr) : xr :=
  match a with
  | Fin x => if Rlt_dec x 0 then NaN else Fin (sqrt x)
  | PInf => PInf
  | _ => NaN
  end.
(** std::copysign(a, b), with the sign of a zero or not-a-number b taken as positive *)
Definition xcopysign (a b : xr) : xr := if xltb b (Fin 0) then xopp (xabs a) else xabs a.
(** std::min(a,b) = (b < a) ? b : a, std::max(a,b) = (a < b) ? b : a *)
Definition xmin (a b : xr) : xr := if xltb b a then b else a.
Definition xmax (a b : xr) : xr := if xltb a b then b else a.
