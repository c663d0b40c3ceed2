(** Exchange kernel of a whole pair density, its G=0 component and its lattice derivative.
    Models /repo/jdftx/core/Coulomb_ExchangeEval.cpp lines 39-73 (effGsq, fSingular), 142-145 (sum over the mesh), 298-317 (strain basis), 320-366 (probe charge), 371-478 (Vzero), 582-658
    (operator() and latticeGradient) and /repo/jdftx/core/Coulomb_internal.cpp lines 66-130; the kernels themselves are those of Coulomb_Model.
    Real idealisation of double; int is unbounded.  Modelled are the periodic, spherical (unscreened) and slab (unscreened) kernels; the screened spherical and slab kernels
    (quintic-spline tables), the cylinder and the numerical quadrature of the auxiliary function (lines 75-141) are not. *)
From Coq Require Import ZArith Reals List Bool.
From Verif Require Import Base Gauss Grid_Model Vec3_Model Lattice_Model Basis_Model Coulomb_Model WS_Model Ions_Model VdW_Model Ewald_Model.
Import ListNotations.
Local Open Scope R_scope.

(** complex::norm: scalar.h line 52 *)
Definition cnorm (x : R * R) : R := fst x * fst x + snd x * snd x.

(** ** The kernel applied to a pair density *)
Section Apply.
  Variables (grid : list (vec Z)) (X : vec Z -> R * R) (thresholdSq : R) (kDiff : vec R).
  (** operator() (lines 582-600) followed by dot(n, O(Kn)): the value of iG+kDiff given by [K] multiplies every component; O multiplies by detR *)
  Definition exchangeEnergy (K : vec Z -> R) (detR : R) : R :=
    detR * fold_left (fun s iG => s + cnorm (X iG) * K iG) grid 0.
  (** latticeGradient: lines 629-637, and exchangeAnalyticStress_thread, Coulomb_internal.cpp lines 104-118 *)
  Definition exchangeStress (dK : vec Z -> smat) (Vzero_RRT : mat R) (detR : R) : mat R :=
    let resultSum := smat_mat (fold_left (fun s iG => sadd s (sscale (cnorm (X iG)) (dK iG))) grid szero) in
    let resultSum := if Rlt_dec (rlen2 kDiff) thresholdSq then rmadd resultSum (rmscale (cnorm (X (V 0 0 0)%Z)) Vzero_RRT) else resultSum in
    rmscale detR resultSum.
End Apply.

(** ** Probe charge *)
(** lines 327-331; None of [truncated] true for periodic systems *)
Definition probeReach (invR : mat R) (omega : R) (truncated : nat -> bool) (k : nat) : Z :=
  let rMax := nSigmasPerWidth * sqrt (1/2) / omega in
  if truncated k then 0%Z else (1 + rceil (rMax * rlen (mrow invR k)))%Z.
Definition probeBox (Rsuper : mat R) (omega : R) (truncated : nat -> bool) : V3 :=
  (probeReach (rinv Rsuper) omega truncated 0, probeReach (rinv Rsuper) omega truncated 1, probeReach (rinv Rsuper) omega truncated 2).
(** lines 334-349: energy and its lattice derivative *)
Definition probeTerm (Rsuper : mat R) (omega : R) (a : R * mat R) (iR : V3) : R * mat R :=
  let rSq := metric2 (RTR Rsuper) (cellVec iR) in
  if Req_EM_T rSq 0 then a else
  let r := sqrt rSq in
  let rVec := rmv Rsuper (cellVec iR) in
  let m := (1/2) * (erfc (omega * r) / r + (2 / sqrt PI) * omega * exp (- (omega * omega) * rSq)) / rSq in
  (fst a + (1/2) * erfc (omega * r) / r, rmsub (snd a) (rmscale m (Ions_Model.outer rVec rVec))).
Definition rzero : mat R := rdiag 0 0 0.
Definition probeScreened (Rsuper : mat R) (omega : R) (N : V3) : R * mat R :=
  fold_left (probeTerm Rsuper omega) (boxLoop N) (0, rzero).
(** lines 351-353: one unit charge at the origin; width and reach chosen by createEwald are parameters *)
Definition probeEwald (Rsuper : mat R) (sigma : R) (Nreal Nrecip : V3) : R * mat R :=
  let r := ewaldPeriodic Rsuper sigma Nreal Nrecip 1 (fun _ => 1) (fun _ => V 0 0 0) (fun _ => V 0 0 0) rzero in (energy r, latt r).
(** lines 364-366 *)
Definition probeCorrection (Rsuper : mat R) (E : R * mat R) : R * mat R :=
  let detRsuper := Rabs (rdet Rsuper) in
  (- 2 * detRsuper * fst E, rmscale (- 2 * detRsuper) (rmadd (snd E) (rmscale (fst E) rid))).

(** the kernel of the periodic geometry: lines 588-592 and 639-642 *)
Definition periodicKernel (omega : R) : xkernel := if Req_EM_T omega 0 then exPeriodic else exScreened omega.
(** ** The G=0 component and its lattice derivative for a given correction: lines 373-375, 383, 411-414, 476-477 *)
Definition VzeroPeriodic (omega : R) (corr : R * mat R) : R * mat R :=
  (fst corr + (if Req_EM_T omega 0 then 0 else PI / (omega * omega)), snd corr).
Definition VzeroSpherical (nk : R) (Rl : mat R) : R * mat R :=
  let Rc := superRc nk Rl in
  ((2 * PI) * Rc * Rc, rmscale ((4 * PI / 3) * Rc * Rc * erfc (Rc * 0)) rid).
Definition VzeroSlab (iDir : nat) (Rl : mat R) (corr : R * mat R) : R * mat R :=
  let hlfL := (1/2) * rlen (Coulomb_Model.mcol Rl iDir) in
  ((- 2 * PI) * (hlfL * hlfL) + fst corr, rmadd (rmscale ((- 4 * PI) * (hlfL * hlfL)) (smat_mat (zHatOuter Rl iDir))) (snd corr)).

(** ** Auxiliary function *)
(** effGsq: lines 39-46 *)
Definition effGsq (g : vec R) (GGT : mat R) : R :=
  let s x := sin (PI * x) in let s2 x := sin (2 * PI * x) in
  1 / (PI * PI) * (s (c0 g) * s (c0 g) * m00 GGT + s (c1 g) * s (c1 g) * m11 GGT + s (c2 g) * s (c2 g) * m22 GGT
    + (1/2) * (s2 (c0 g) * s2 (c1 g) * m01 GGT + s2 (c1 g) * s2 (c2 g) * m12 GGT + s2 (c2 g) * s2 (c0 g) * m20 GGT)).
(** fSingular3D: lines 51-55 *)
Definition fSingular3D (g : vec R) (GGT : mat R) (omegaSq : R) : R :=
  let Gsq := effGsq g GGT in
  if Req_EM_T omegaSq 0 then (if Req_EM_T Gsq 0 then 0 else (4 * PI) / Gsq)
  else (if Req_EM_T Gsq 0 then PI / omegaSq else (1 - exp (- (1/4) * Gsq / omegaSq)) * (4 * PI) / Gsq).
(** erf_by_x and erf_by_xPrime_by_x: Coulomb_internal.h lines 130-143 *)
Definition erf_by_x (x : R) : R :=
  let xSq := x * x in
  if Rlt_dec xSq (1/1000000) then (1 / sqrt PI) * (2 + xSq * (- (2/3) + (1/5) * xSq)) else erf x / x.
Definition erf_by_xPrime_by_x (x : R) : R :=
  let xSq := x * x in
  if Rlt_dec xSq (1/1000000) then (2 / sqrt PI) * (- (2/3) + (2/5) * xSq) else ((2 / sqrt PI) * x * exp (- xSq) - erf x) / (x * xSq).
(** fSingular2D: lines 59-66 *)
Definition fSingular2D (g : vec R) (GGT : mat R) (omegaSq : R) : R :=
  let G := sqrt (effGsq g GGT) in
  if Req_EM_T omegaSq 0 then (if Req_EM_T G 0 then 0 else 2 * PI / G)
  else let hlfOmegaInv := (1/2) / sqrt omegaSq in (2 * PI) * hlfOmegaInv * erf_by_x (hlfOmegaInv * G).
(** the sum over the mesh of k-point differences: lines 139-143, with the integral over the zone [I] *)
Definition integralMinusSum (f : vec R -> R) (I : R) (kmesh : list (vec R)) : R :=
  let k0 := match kmesh with k :: _ => k | [] => V 0 0 0 end in
  let fSum := fold_left (fun s k => s + f (rvsub k k0)) kmesh 0 in
  I * INR (length kmesh) - fSum.
(** the strain basis and the finite-difference lattice derivative: lines 298-316 *)
Definition strainBasis : list (mat R) :=
  let q := sqrt (1/2) in
  [M 1 0 0 0 0 0 0 0 0; M 0 0 0 0 1 0 0 0 0; M 0 0 0 0 0 0 0 0 1;
   M 0 0 0 0 0 q 0 q 0; M 0 0 q 0 0 0 q 0 0; M 0 q 0 q 0 0 0 0 0].
Definition finiteDifference (h : R) (F : mat R -> R) (Rl : mat R) : mat R :=
  fold_left (fun s d => rmadd s (rmscale ((1/2) / h * (F (rmm (rmadd rid (rmscale h d)) Rl) - F (rmm (rmsub rid (rmscale h d)) Rl))) d)) strainBasis rzero.
