(** Cavity shape functions of the solvation models (C46).
    Models /repo/jdftx/fluid/PCM_internal.h lines 93-238 (compute kernels) at one grid point; double is idealised as R,
    erfc is the C library function (Gauss.v), pow/exp/log/sin/cos their real counterparts. *)
From Coq Require Import ZArith Reals List Bool.
From Verif Require Import Base Vec3_Model Lattice_Model Gauss.
Import ListNotations.
Open Scope R_scope.

(** ** ShapeFunction: lines 93-102.
    At n = 0 the C library gives log(0) = -inf, erfc(-inf) = 2 and exp(-inf) = 0. *)
Definition shape_calc (nc sigma n : R) : R :=
  if Req_EM_T n 0 then 1 else erfc (sqrt 0.5 * ln (Rabs n / nc) / sigma) * 0.5.
Definition shape_grad_calc (nc sigma n grad_shape grad_n : R) : R :=
  grad_n + if Req_EM_T n 0 then 0 else
    (-1 / (nc * sigma * sqrt (2 * PI))) * grad_shape * exp (0.5 * (sigma ^ 2 - (ln (Rabs n / nc) / sigma + sigma) ^ 2)).

(** ** ShapeFunctionCANDLE: lines 104-143 *)
(** C copysign(a, p) for a > 0; the sign of a zero p is taken as positive; it is irrelevant because asymm and asymm_x vanish at x = 0 *)
Definition copysign (a p : R) : R := if Rlt_dec p 0 then - a else a.
(** lines 122-129 *)
Definition asymm (x : R) : R :=
  if Rlt_dec 4 x then 1
  else if Rlt_dec 0 x then let exp2x2 := exp (2 * x * x) in let den := 1 / (1 + exp2x2) in (exp2x2 - 1) * den
  else 0.
Definition asymm_x (x : R) : R :=
  if Rlt_dec 4 x then 0
  else if Rlt_dec 0 x then let exp2x2 := exp (2 * x * x) in let den := 1 / (1 + exp2x2) in 8 * x * exp2x2 * den * den
  else 0.
Section Candle.
  Variables nc invSigmaSqrt2 : R.
  (** lines 113-121 *)
  Definition cd_normFac (Dn : vec R) : R := 1 / sqrt (rlen2 Dn + / 10 ^ 4 * nc * nc).
  Definition cd_e (Dn : vec R) : vec R := rvscale (cd_normFac Dn) Dn.
  Definition cd_eDotE (Dn Dphi : vec R) : R := rdot (cd_e Dn) (rvopp Dphi).
  Definition cd_x (Dn Dphi : vec R) (p : R) : R := - Rabs p * cd_eDotE Dn Dphi.
  (** lines 130-131 *)
  Definition cd_comb (n : R) (Dn Dphi : vec R) (p : R) : R := ln (n / nc) - copysign 3 p * asymm (cd_x Dn Dphi p).
  (** lines 112, 132-133: with grad = false *)
  Definition candle (n : R) (Dn Dphi : vec R) (p : R) : R :=
    if Rlt_dec n (/ 10 ^ 8) then 1 else 0.5 * erfc (invSigmaSqrt2 * cd_comb n Dn Dphi p).
  (** lines 112, 134-141: with grad = true; the increments of (A_n, A_Dn, A_Dphi, A_pCavity) *)
  Definition candle_grad (n : R) (Dn Dphi : vec R) (p A_shape : R) : R * vec R * vec R * R :=
    if Rlt_dec n (/ 10 ^ 8) then (0, V 0 0 0, V 0 0 0, 0)
    else
      let normFac := cd_normFac Dn in let e := cd_e Dn in let E := rvopp Dphi in
      let eDotE := cd_eDotE Dn Dphi in let x_eDotE := - Rabs p in let x := cd_x Dn Dphi p in
      let comb := cd_comb n Dn Dphi p in
      let A_comb := (- invSigmaSqrt2 / sqrt PI) * A_shape * exp (- comb * comb * invSigmaSqrt2 * invSigmaSqrt2) in
      let A_x := A_comb * (- copysign 3 p) * asymm_x x in
      (A_comb / n,
       rvscale (A_x * x_eDotE * normFac) (rvsub E (rvscale eDotE e)),
       rvscale (A_x * x_eDotE * (-1)) e,
       A_x * (- copysign 1 p) * eDotE).
End Candle.

(** ** ShapeFunctionSGA13::expandDensity_calc: lines 145-160; (nEx, nEx_nBar, nEx_DnBarSq) *)
Definition expandDensity_calc (alpha n D2 : R) : R * R * R :=
  if Rlt_dec n (/ 10 ^ 9) then (/ 10 ^ 9, 0, 0)
  else let nInv := 1 / n in (alpha * n + D2 * nInv, alpha - D2 * nInv * nInv, nInv).

(** ** ShapeFunctionSoftSphere: lines 162-210.  [y] is iv*Sinv, the lattice coordinates of the grid point. *)
(** metric_length_squared: matrix3.h lines 123-127 *)
Definition metric_len2 (RTR : mat R) (v : vec R) : R :=
  c0 v * c0 v * m00 RTR + c1 v * c1 v * m11 RTR + c2 v * c2 v * m22 RTR
  + 2 * (c0 v * c1 v * m01 RTR + c0 v * c2 v * m02 RTR + c1 v * c2 v * m12 RTR).
(** lines 169-173, 187-191 *)
Definition wrap1 (t : R) : R := t - IZR (rfloor (0.5 + t)).
Definition wrapDisp (x y : vec R) : vec R := V (wrap1 (c0 x - c0 y)) (wrap1 (c1 x - c1 y)) (wrap1 (c2 x - c2 y)).
(** lines 175-177 *)
Definition repDisp (x y : vec R) (rep : vec Z) : vec R := rvadd (wrapDisp x y) (vIZR rep).
Definition repDist (RTR : mat R) (x y : vec R) (rep : vec Z) : R := sqrt (metric_len2 RTR (repDisp x y rep)).
Definition repFactor (RTR : mat R) (sigmaInv radius : R) (x y : vec R) (rep : vec Z) : R :=
  0.5 * erfc (sigmaInv * (radius - repDist RTR x y rep)).
(** lines 165-181; the atoms with their radii as a list *)
Definition softSphere (RTR : mat R) (sigmaInv : R) (reps : list (vec Z)) (atoms : list (vec R * R)) (y : vec R) : R :=
  fold_left (fun s a => fold_left (fun s rep => s * repFactor RTR sigmaInv (snd a) (fst a) y rep) reps s) atoms 1.
(** lines 183-209 for one atom: (E_x, E_radius) at this grid point *)
Definition softSphere_grad (RTR : mat R) (sigmaInv : R) (reps : list (vec Z)) (x : vec R) (radius : R) (y : vec R) (s E_shape : R) : vec R * R :=
  if Rlt_dec (/ 10 ^ 14) s then
    fold_left (fun acc rep =>
      let dx := repDisp x y rep in
      let dr := sqrt (metric_len2 RTR dx) in
      if Rlt_dec dr (/ 10 ^ 14) then acc
      else
        let drComb := sigmaInv * (radius - dr) in
        let sContrib := 0.5 * erfc drComb in
        let sContrib_dr := (sigmaInv / sqrt PI) * exp (- drComb * drComb) in
        let E_dr := (E_shape * s / sContrib) * sContrib_dr in
        (rvadd (fst acc) (rvscale (E_dr / dr) (rmv RTR dx)), snd acc - E_dr)) reps (V 0 0 0, 0)
  else (V 0 0 0, 0).

(** ** ShapeFunctionSCCS: lines 212-238 *)
Section SCCS.
  Variables rhoMin rhoMax epsBulk : R.
  Definition sccs_f (rho : R) : R := ln (rhoMax / rho) / ln (rhoMax / rhoMin).
  Definition sccs_t (f : R) : R := f - sin (2 * PI * f) / (2 * PI).
  Definition sccs_calc (rho : R) : R :=
    if Rle_dec rhoMax rho then 0 else if Rle_dec rho rhoMin then 1
    else (Rpower epsBulk (sccs_t (sccs_f rho)) - 1) / (epsBulk - 1).
  Definition sccs_grad_calc (rho grad_shape grad_n : R) : R :=
    if Rle_dec rhoMax rho then grad_n else if Rle_dec rho rhoMin then grad_n
    else
      let logDen := ln (rhoMax / rhoMin) in
      let f := ln (rhoMax / rho) / logDen in
      let f_rho := -1 / (rho * logDen) in
      let t := f - sin (2 * PI * f) / (2 * PI) in
      let t_f := 1 - cos (2 * PI * f) in
      let s_t := ln epsBulk * Rpower epsBulk t / (epsBulk - 1) in
      grad_n + grad_shape * s_t * t_f * f_rho.
End SCCS.
