(** Analytic Coulomb and exchange kernels and their lattice gradients.
    Models /repo/jdftx/core/Coulomb_internal.h lines 38-107, 192-229, 257-304, /repo/jdftx/core/Coulomb_internal.cpp
    lines 40-48, 73-123, the ion kernel of /repo/jdftx/core/Coulomb.cpp lines 372-374 and the assembly of the
    stress in /repo/jdftx/core/CoulombPeriodic.cpp lines 153-158, CoulombSlab.cpp lines 199-206,
    CoulombIsolated.cpp lines 132-137.
    Real idealisation of double; the branch [Gsq ? a : b] becomes a decision of Gsq = 0.
    Not modelled: the spline tables of the screened truncated kernels (ExchangeSphericalScreened_calc and the
    screened mode of ExchangeSlab_calc), the numerical kernels of wire and Wigner-Seitz geometries, GPU versions. *)
From Coq Require Import ZArith Reals List.
From Verif Require Import Vec3_Model Basis_Model LDA_Model.
Import ListNotations.
Local Open Scope R_scope.

(** symmetricMatrix3: matrix3.h lines 293-301 *)
Record smat := SM { sxx : R; syy : R; szz : R; syz : R; szx : R; sxy : R }.
(** default constructor: lines 297-301 *)
Definition szero : smat := SM 0 0 0 0 0 0.
(** conversion to matrix3: lines 310-315 *)
Definition smat_mat (s : smat) : mat R :=
  M (sxx s) (sxy s) (szx s)
    (sxy s) (syy s) (syz s)
    (szx s) (syz s) (szz s).
(** scale: lines 318-320, 328; accumulate: lines 323-326 *)
Definition sscale (a : R) (s : smat) : smat := SM (a * sxx s) (a * syy s) (a * szz s) (a * syz s) (a * szx s) (a * sxy s).
Definition sadd (s m : smat) : smat := SM (sxx s + sxx m) (syy s + syy m) (szz s + szz m) (syz s + syz m) (szx s + szx m) (sxy s + sxy m).
(** outer: lines 332-334 *)
Definition outer (v : vec R) : smat := SM (c0 v * c0 v) (c1 v * c1 v) (c2 v * c2 v) (c1 v * c2 v) (c2 v * c0 v) (c0 v * c1 v).
(** assignment through a double pointer to entry k in {0,1,2} (Coulomb_internal.h lines 72, 77): the first three entries are the diagonal *)
Definition sdiagset (s : smat) (k : nat) (x : R) : smat :=
  match k with
  | O => SM x (syy s) (szz s) (syz s) (szx s) (sxy s)
  | 1%nat => SM (sxx s) x (szz s) (syz s) (szx s) (sxy s)
  | _ => SM (sxx s) (syy s) x (syz s) (szx s) (sxy s)
  end.
(** metric_length_squared: matrix3.h lines 123-128 *)
Definition metric2 (m : mat R) (v : vec R) : R :=
  c0 v * c0 v * m00 m + c1 v * c1 v * m11 m + c2 v * c2 v * m22 m
  + 2 * (c0 v * c1 v * m01 m + c0 v * c2 v * m02 m + c1 v * c2 v * m12 m).

(** CoulombPeriodic_calc: Coulomb_internal.h lines 39-48 *)
Definition periodic (iG : vec Z) (GGT : mat R) : R :=
  let Gsq := metric2 GGT (vIZR iG) in if Req_EM_T Gsq 0 then 0 else (4 * PI) / Gsq.
Definition periodic_grad (iG : vec Z) (GGT : mat R) : smat :=
  let Gsq := metric2 GGT (vIZR iG) in sscale (if Req_EM_T Gsq 0 then 0 else (8 * PI) / (Gsq * Gsq)) (outer (vIZR iG)).

(** CoulombSlab_calc: lines 51-81 *)
Definition slab (iDir : nat) (hlfL : R) (iG : vec Z) (GGT : mat R) : R :=
  let Gsq := metric2 GGT (vIZR iG) in
  let g := IZR (vget iG iDir) in
  let Gplane2 := Gsq - mget GGT iDir iDir * g * g in
  let Gplane := if Rlt_dec 0 Gplane2 then sqrt Gplane2 else 0 in
  (4 * PI) * (if Req_EM_T Gsq 0 then - (1/2) * hlfL * hlfL
              else (1 - exp (- Gplane * hlfL) * cos (PI * g)) / Gsq).
Definition slab_grad (iDir : nat) (hlfL : R) (iG : vec Z) (GGT : mat R) : smat :=
  let Gsq := metric2 GGT (vIZR iG) in
  let g := IZR (vget iG iDir) in
  if Req_EM_T Gsq 0 then sdiagset szero iDir ((-4 * PI) * hlfL * hlfL / mget GGT iDir iDir)
  else
    let GsqInv := 1 / Gsq in
    let iGplane := vset iG iDir 0%Z in
    let Gplane := sqrt (metric2 GGT (vIZR iGplane)) in
    let GplaneInv := if Req_EM_T Gplane 0 then 0 else 1 / Gplane in
    let expCosTerm := exp (- Gplane * hlfL) * cos (PI * g) in
    let prefac1 := 2 * (1 - expCosTerm) * GsqInv in
    let result := sscale (prefac1 - expCosTerm * hlfL * GplaneInv) (outer (vIZR iGplane)) in
    let result := sdiagset result iDir (prefac1 * g * g + expCosTerm * hlfL * Gplane / mget GGT iDir iDir) in
    sscale (4 * PI * GsqInv) result.

(** CoulombSpherical_calc: lines 84-97 *)
Definition spherical (Rc : R) (iG : vec Z) (GGT : mat R) : R :=
  let Gsq := metric2 GGT (vIZR iG) in
  if Req_EM_T Gsq 0 then (2 * PI) * Rc * Rc else (4 * PI) * (1 - cos (Rc * sqrt Gsq)) / Gsq.
Definition spherical_grad (Rc : R) (iG : vec Z) (GGT : mat R) : smat :=
  let Gsq := metric2 GGT (vIZR iG) in
  let GRc := sqrt Gsq * Rc in
  sscale (if Req_EM_T Gsq 0 then 0 else (4 * PI) * (2 * (1 - cos GRc) - GRc * sin GRc) / (Gsq * Gsq)) (outer (vIZR iG)).

(** setIonKernel: Coulomb.cpp lines 372-374; CoulombIonKernel_calc: Coulomb_internal.h lines 100-107 *)
Definition ion_expFac (ionWidth : R) : R := (1/2) * ionWidth * ionWidth.
Definition ionkernel (ionWidth GzeroVal : R) (iG : vec Z) (GGT : mat R) : R :=
  let Gsq := metric2 GGT (vIZR iG) in let expFac := ion_expFac ionWidth in
  (4 * PI) * (if Req_EM_T Gsq 0 then GzeroVal else (1 - exp (- expFac * Gsq)) / Gsq).
Definition ionkernel_grad (ionWidth : R) (iG : vec Z) (GGT : mat R) : smat :=
  let Gsq := metric2 GGT (vIZR iG) in let expFac := ion_expFac ionWidth in
  sscale (if Req_EM_T Gsq 0 then 0 else (8 * PI) * (1 - exp (- expFac * Gsq) * (1 + expFac * Gsq)) / (Gsq * Gsq)) (outer (vIZR iG)).

(** Exchange kernels as (value, (latticeGradientPrefac, grad_lnDetR)) of kSq:
    ExchangePeriodic_calc lines 193-200, ExchangePeriodicScreened_calc lines 203-213, ExchangeSpherical_calc lines 216-229.
    grad_lnDetR keeps its initial value 0 (Coulomb_internal.cpp line 112) in the kernels that do not assign it. *)
Record xkernel := XK { xval : R -> R; xpre : R -> R; xlnDet : R -> R }.
Definition exPeriodic : xkernel := XK (fun k => (4 * PI) / k) (fun k => (8 * PI) / (k * k)) (fun _ => 0).
Definition inv4omegaSq (omega : R) : R := (1/4) / (omega * omega).
Definition exScreened (omega : R) : xkernel :=
  let a := inv4omegaSq omega in
  XK (fun k => (4 * PI) * (1 - exp (- a * k)) / k)
     (fun k => (8 * PI) * (1 - exp (- a * k) * (1 + a * k)) / (k * k)) (fun _ => 0).
Definition exSpherical (Rc : R) : xkernel :=
  XK (fun k => (4 * PI) * (1 - cos (Rc * sqrt k)) / k)
     (fun k => let kR := sqrt k * Rc in (4 * PI) * (2 * (1 - cos kR) - kR * sin kR) / (k * k))
     (fun k => let kR := sqrt k * Rc in (4 * PI) * (kR * sin kR) / (3 * k)).

(** exchangeAnalytic_thread: Coulomb_internal.cpp lines 78-79 *)
Definition exchange (K : xkernel) (Vzero thresholdSq : R) (iG : vec Z) (kDiff : vec R) (GGT : mat R) : R :=
  let kplusGsq := metric2 GGT (rvadd (vIZR iG) kDiff) in
  if Rlt_dec kplusGsq thresholdSq then Vzero else xval K kplusGsq.
(** exchangeAnalyticStress_thread: lines 109-114 with XiNorm = 1 *)
Definition exchange_grad (K : xkernel) (thresholdSq : R) (iG : vec Z) (kDiff : vec R) (G : mat R) : smat :=
  let iGkCart := rvm (rvadd (vIZR iG) kDiff) G in
  let kplusGsq := rlen2 iGkCart in
  if Rlt_dec kplusGsq thresholdSq then sscale 0 (outer iGkCart)
  else
    let d := xlnDet K kplusGsq in
    sadd (sscale (xpre K kplusGsq) (outer iGkCart)) (SM d d d 0 0 0).

(** Coulomb_ExchangeEval.cpp line 383: Rc from the volume detRsuper of the supercell of nk cells
    (line 381 instead takes the fixed radius of CoulombSpherical when there is no exchange regularization) *)
Definition superRc (nk : R) (Rl : mat R) : R := cpow (3 / (4 * PI) * (nk * Rabs (rdet Rl))) (1/3).

(** ExchangeSlab_calc in the unscreened mode (coeff = 0): Coulomb_internal.h lines 258-304;
    zHatOuter = outer(Ri/|Ri|) with Ri = R.column(iDir): Coulomb_ExchangeEval.cpp line 419 *)
Definition exslab (iDir : nat) (hlfL Vzero thresholdSq : R) (iG : vec Z) (kDiff : vec R) (GGT : mat R) : R :=
  let Gsq := metric2 GGT (rvadd (vIZR iG) kDiff) in
  if Rlt_dec Gsq thresholdSq then Vzero
  else
    let g := IZR (vget iG iDir) in
    let Gplane2 := Gsq - mget GGT iDir iDir * g * g in
    let Gplane := if Rlt_dec 0 Gplane2 then sqrt Gplane2 else 0 in
    (4 * PI) * (1 - exp (- Gplane * hlfL) * cos (PI * g)) / Gsq.
Definition mcol {A} (m : mat A) (i : nat) : vec A := match i with O => col0 m | 1%nat => col1 m | _ => col2 m end.
Definition zHatOuter (Rl : mat R) (iDir : nat) : smat :=
  let Ri := mcol Rl iDir in outer (rvscale (1 / rlen Ri) Ri).
Definition exslab_grad (iDir : nat) (hlfL : R) (zHO : smat) (thresholdSq : R) (iG : vec Z) (kDiff : vec R) (G : mat R) : smat :=
  let Gsq := rlen2 (rvm (rvadd (vIZR iG) kDiff) G) in
  if Rlt_dec thresholdSq Gsq then
    let GsqInv := 1 / Gsq in
    let iGplaneCart := rvm (vset (rvadd (vIZR iG) kDiff) iDir 0) G in
    let GplaneSq := rlen2 iGplaneCart in
    let GaxisSq := Gsq - GplaneSq in
    let Gplane := sqrt GplaneSq in
    let GplaneInv := if Req_EM_T Gplane 0 then 0 else 1 / Gplane in
    let expCosTerm := exp (- Gplane * hlfL) * cos (PI * IZR (vget iG iDir)) in
    let Vc0 := 4 * PI * GsqInv in
    let prefac1 := 2 * (1 - expCosTerm) * GsqInv in
    let result := sscale (Vc0 * (prefac1 - expCosTerm * hlfL * GplaneInv)) (outer iGplaneCart) in
    let result_zz := Vc0 * (prefac1 * GaxisSq + expCosTerm * hlfL * Gplane) in
    sadd result (sscale result_zz zHO)
  else szero.

(** hlfL = 0.5*sqrt(RTR(iDir,iDir)): CoulombSlab.cpp lines 190, 201; RTR = ~R*R: GridInfo.cpp line 60 *)
Definition hlfL_of (iDir : nat) (Rl : mat R) : R := (1/2) * sqrt (mget (rmm (mtrans Rl) Rl) iDir iDir).

(** coulombAnalyticStress_thread (Coulomb_internal.cpp 44-47), eblas_sum and the conversion
    detR * (GT * resultSum * G) of getLatticeGradient: CoulombPeriodic.cpp lines 153-158 *)
Definition weight (S2 : Z) (iG : vec Z) : R :=
  if orb (Z.eqb (c2 iG) 0) (Z.eqb (2 * c2 iG) S2) then 1 else 2.
(** the list holds, for each point of the half reciprocal space, iG with X[i] and Y[i] *)
Definition stressSum (S2 : Z) (grad : vec Z -> smat) (l : list (vec Z * ((R * R) * (R * R)))) : smat :=
  fold_right (fun p acc => let '(iG, ((xr, xi), (yr, yi))) := p in
    sadd (sscale (weight S2 iG * (xr * yr + xi * yi)) (grad iG)) acc) szero l.
Definition latticeGradient (Rl : mat R) (s : smat) : mat R :=
  rmscale (Rabs (rdet Rl)) (rmm (rmm (mtrans (gG Rl)) (smat_mat s)) (gG Rl)).
