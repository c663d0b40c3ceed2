(** Short-ranged omega-PBE exchange (C109, C110) and the two potentials without an energy (C111):
    /repo/jdftx/electronic/ExCorr_internal_GGA.h lines 300-493, at one grid point.  double is R; pow is modelled as in
    LDA_Model and erfc is that of Gauss.  The long function of lines 357-445 is divided into its commented sections. *)
From Coq Require Import ZArith Reals List Bool.
From Verif Require Import Gauss LDA_Model GGA_Model.
Open Scope R_scope.

(** an integral and its derivatives with respect to A and B *)
Record erfInt := EI { ei : R; ei_A : R; ei_B : R }.
(** ** integralErfcGaussian<1>, lines 305-314 *)
Definition integralErfcGaussian1 (A B : R) : erfInt :=
  let invApBsq := 1 / (A + B * B) in
  let invsqrtApBsq := sqrt invApBsq in
  let inv3sqrtApBsq := invsqrtApBsq * invApBsq in
  let invA := 1 / A in
  EI ((1 - B * invsqrtApBsq) * 0.5 * invA) ((B * (1.5 * A + B * B) * inv3sqrtApBsq - 1) * 0.5 * invA * invA) (-0.5 * inv3sqrtApBsq).
(** ** integralErfcGaussian<2>, lines 316-325 *)
Definition integralErfcGaussian2 (A B : R) : erfInt :=
  let invsqrtPi := 1 / sqrt PI in
  let invApBsq := 1 / (A + B * B) in
  let invA := 1 / A in
  let atanTerm := atan (sqrt A / B) * invA / sqrt A in
  EI (0.5 * invsqrtPi * (- B * invApBsq / A + atanTerm))
     (invsqrtPi * (B * (1.25 + 0.75 * B * B * invA) * invApBsq * invApBsq * invA - 0.75 * atanTerm / A))
     (- invsqrtPi * invApBsq * invApBsq).
(** ** integralErfcGaussian<3>, lines 327-337 *)
Definition integralErfcGaussian3 (A B : R) : erfInt :=
  let invApBsq := 1 / (A + B * B) in
  let invsqrtApBsq := sqrt invApBsq in
  let inv3sqrtApBsq := invsqrtApBsq * invApBsq in
  let inv5sqrtApBsq := inv3sqrtApBsq * invApBsq in
  let invA := 1 / A in
  EI ((1 - B * (invsqrtApBsq + 0.5 * A * inv3sqrtApBsq)) * 0.5 * invA * invA)
     ((- invA * invA + B * (0.375 * inv5sqrtApBsq + invA * (0.5 * inv3sqrtApBsq + invA * invsqrtApBsq))) * invA)
     (-0.75 * inv5sqrtApBsq).
(** ** integralErfcGaussian<5>, lines 339-352 *)
Definition integralErfcGaussian5 (A B : R) : erfInt :=
  let invApBsq := 1 / (A + B * B) in
  let invsqrtApBsq := sqrt invApBsq in
  let inv3sqrtApBsq := invsqrtApBsq * invApBsq in
  let inv5sqrtApBsq := inv3sqrtApBsq * invApBsq in
  let inv7sqrtApBsq := inv5sqrtApBsq * invApBsq in
  let invA := 1 / A in
  EI (invA * (invA * invA - B * (0.375 * inv5sqrtApBsq + invA * (0.5 * inv3sqrtApBsq + invA * invsqrtApBsq))))
     (-3 * invA * (invA * invA * invA - B * (0.3125 * inv7sqrtApBsq + invA * (0.375 * inv5sqrtApBsq + invA * (0.5 * inv3sqrtApBsq + invA * invsqrtApBsq)))))
     (-1.875 * inv7sqrtApBsq).

(** ** GGA_eval<GGA_X_wPBE_SR>, lines 357-445 *)
Definition sMax : R := 8.572844.
(** scaling of s, lines 364-378: (s2, s2_sIn2) *)
Definition scaleS (sIn2 : R) : R * R :=
  if Rlt_dec 225 sIn2 then (sMax * sMax, 0)
  else if Rlt_dec 1 sIn2 then
    let sIn := sqrt sIn2 in
    let expTerm := exp (sIn - sMax) in
    let s := sIn - ln (1 + expTerm) in
    let s_sIn := 1 / (1 + expTerm) in
    (s * s, s * s_sIn / sIn)
  else (sIn2, 1).
(** parameters of the hole, lines 381-384 *)
Definition hA : R := 1.0161144.
Definition hB : R := -0.37170836.
Definition hC : R := -0.077215461.
Definition hD : R := 0.57786348.
(** the function h of s2, lines 385-397: (h, h_s2) *)
Definition holeH (s2 : R) : R * R :=
  let H_a1 := 0.00979681 in let H_a2 := 0.0410834 in let H_a3 := 0.187440 in let H_a4 := 0.00120824 in let H_a5 := 0.0347188 in
  let s := sqrt s2 in
  let hNum := s2 * s2 * (H_a1 + s2 * H_a2) in
  let hNum_s2 := s2 * (2 * H_a1 + s2 * (3 * H_a2)) in
  let hDenInv := 1 / (1 + s2 * s2 * (H_a3 + s * H_a4 + s2 * H_a5)) in
  let hDen_s2 := s2 * (2 * H_a3 + s * (2.5 * H_a4) + s2 * (3 * H_a5)) in
  (hNum * hDenInv, (hNum_s2 - hNum * hDenInv * hDen_s2) * hDenInv).
(** the function f, lines 398-401: (f, f_s2) *)
Definition holeF (s2 h h_s2 : R) : R * R := (hC - 0.5 * h - (1/27) * s2, -0.5 * h_s2 - (1/27)).
(** the function g of f and h, lines 402-412.  The division by gErfcArg in gExpErfcTerm_h is one by zero when h is zero:
    the derivative g_h is then not finite, which is None *)
Record gOut := GO { g_val : R; g_h : option R; g_f : R }.
Definition holeG (h f : R) : gOut :=
  let Dph := hD + h in let sqrtDph := sqrt Dph in
  let gExpArg_h := 2.25 / hA in
  let gExpArg := gExpArg_h * h in let gErfcArg := sqrt gExpArg in
  let gExpErfcTerm := exp gExpArg * erfc gErfcArg in
  let gExpErfcTerm_h := if Req_EM_T gErfcArg 0 then None else Some ((gExpErfcTerm - (1 / sqrt PI) / gErfcArg) * gExpArg_h) in
  GO (- Dph * (0.2 * f + Dph * ((4/15) * hB + Dph * ((8/15) * hA + sqrtDph * (0.8 * sqrt PI) * (sqrt hA * gExpErfcTerm - 1)))))
     (option_map (fun eh => - (0.2 * f + Dph * ((8/15) * hB + Dph * (1.6 * hA + sqrtDph * (0.8 * sqrt PI) * (sqrt hA * (3.5 * gExpErfcTerm + Dph * eh) - 3.5))))) gExpErfcTerm_h)
     (- Dph * 0.2).
(** the integral over the hole, lines 413-440: I, I_s2 and I_erfcArg as functions of s2 and erfcArg *)
Record iOut := IO { o_I : R; o_s2 : option R; o_B : R }.
Definition holeI (s2 erfcArg : R) : iOut :=
  let '(h, h_s2) := holeH s2 in
  let '(f, f_s2) := holeF s2 h h_s2 in
  let '(GO g gh gf) := holeG h f in
  let g_s2 := option_map (fun x => x * h_s2 + gf * f_s2) gh in
  let a1 := -0.000205484 in let b1 := 0.006601306 in
  let a2 := -0.109465240 in let b2 := 0.259931140 in
  let a3 := -0.064078780 in let b3 := 0.520352224 in
  let a4 := -0.008181735 in let b4 := 0.118551043 in
  let a5 := -0.000110666 in let b5 := 0.046003777 in
  let '(EI fit1 fit1_h fit1_B) := integralErfcGaussian1 (b1 + h) erfcArg in
  let '(EI fit2 fit2_h fit2_B) := integralErfcGaussian1 (b2 + h) erfcArg in
  let '(EI fit3 fit3_h fit3_B) := integralErfcGaussian2 (b3 + h) erfcArg in
  let '(EI fit4 fit4_h fit4_B) := integralErfcGaussian2 (b4 + h) erfcArg in
  let '(EI fit5 fit5_h fit5_B) := integralErfcGaussian3 (b5 + h) erfcArg in
  let I := a1 * fit1 + a2 * fit2 + a3 * fit3 + a4 * fit4 + a5 * fit5 in
  let I_s2 := (a1 * fit1_h + a2 * fit2_h + a3 * fit3_h + a4 * fit4_h + a5 * fit5_h) * h_s2 in
  let I_B := a1 * fit1_B + a2 * fit2_B + a3 * fit3_B + a4 * fit4_B + a5 * fit5_B in
  let '(EI term1 term1_h term1_B) := integralErfcGaussian1 (hD + h) erfcArg in
  let '(EI term2 term2_h term2_B) := integralErfcGaussian3 (hD + h) erfcArg in
  let '(EI term3 term3_h term3_B) := integralErfcGaussian5 (hD + h) erfcArg in
  IO (I + (hB * term1 + f * term2 + g * term3))
     (option_map (fun gs => I_s2 + (f_s2 * term2 + gs * term3 + (hB * term1_h + f * term2_h + g * term3_h) * h_s2)) g_s2)
     (I_B + (hB * term1_B + f * term2_B + g * term3_B)).
(** the result, lines 358-362, 417-418 and 441-444; None is not finite: an infinity multiplied by s2_sIn2 *)
Record wOut := WO { wo_e : R; wo_rs : R; wo_s2 : option R }.
Definition omega : R := 0.11.
Definition erfcArgPrefac : R := omega * cpow (2 / (9 * PI)) (1/3).
Definition GGA_X_wPBE_SR (rs sIn2 : R) : wOut :=
  let '(eSlater, eSlater_rs) := slaterExchange rs in
  let '(s2, s2_sIn2) := scaleS sIn2 in
  let erfcArg := erfcArgPrefac * rs in
  let '(IO I0 I_s2 I_erfcArg) := holeI s2 erfcArg in
  WO ((-8/9) * eSlater * I0) ((-8/9) * (eSlater_rs * I0 + eSlater * I_erfcArg * erfcArgPrefac)) (option_map (fun x => (-8/9) * eSlater * x * s2_sIn2) I_s2).

(** ** GGA_calc<GGA_X_LB94>, lines 472-492: what is added to E_n[s] by one iteration of the loop over spins *)
Definition LB94 (nCount scaleFac n sigma : R) : R :=
  let ns := n * nCount in
  if Rlt_dec ns nCutoff then 0 else
  let nsCbrt := cpow ns (1/3) in
  let x := nCount * sqrt sigma / (nsCbrt * ns) in
  let beta := 0.05 in
  scaleFac * (- beta * nsCbrt * x * x / (1 + 3 * beta * x * arcsinh x)).
(** ** GGA_calc<GGA_X_GLLBsc>, lines 448-470: what is added to E and to E_n[s] by one iteration *)
Definition GLLBsc (nCount scaleFac n sigma : R) : R * R :=
  let ns := n * nCount in
  if Rlt_dec ns nCutoff then (0, 0) else
  let rs := cpow ((4 * PI / 3) * ns) (-1/3) in
  let s2_sigma := cpow ns (-8/3) * ((0.25 * nCount * nCount) * cpow (3 * PI * PI) (-2/3)) in
  let s2 := s2_sigma * sigma in
  let e := x_e (GGA_evalX X_PBEsol rs s2) in
  (scaleFac * (n * e), scaleFac * (2 * e)).
