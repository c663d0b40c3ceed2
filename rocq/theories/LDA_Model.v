(** Local density functionals (C49): /repo/jdftx/electronic/ExCorr_internal_LDA.h lines 112-306 and the spin
    interpolation of ExCorr_internal.h lines 128-184, at one grid point.  double is R.  pow(x,y) is modelled for x >= 0
    only (negative densities or |zeta| > 1, where C returns NaN, are outside the domain of the theorems). *)
From Coq Require Import ZArith Reals List Bool.
Open Scope R_scope.

(** C pow(x,y) for x >= 0 and y <> 0 *)
Definition cpow (x y : R) : R := if Req_EM_T x 0 then 0 else Rpower x y.

(** ** spinInterpolation, ExCorr_internal.h lines 129-135: (f, f_zeta) *)
Definition spinInterpolation (zeta : R) : R * R :=
  let scale := 1 / (cpow 2 (4/3) - 2) in
  let zetaPlusCbrt := cpow (1 + zeta) (1/3) in
  let zetaMinusCbrt := cpow (1 - zeta) (1/3) in
  (scale * ((1 + zeta) * zetaPlusCbrt + (1 - zeta) * zetaMinusCbrt - 2),
   scale * (zetaPlusCbrt - zetaMinusCbrt) * (4/3)).

(** ** spinInterpolate with two functors, lines 138-154: (e, e_rs, e_zeta); a functor returns (e, e_rs) *)
Definition spinInterpolate2 (rs zeta : R) (para ferro : R -> R * R) : R * R * R :=
  let '(ePara, ePara_rs) := para rs in
  if Req_EM_T zeta 0 then (ePara, ePara_rs, 0)
  else
    let '(eFerro, eFerro_rs) := ferro rs in
    let '(f, f_zeta) := spinInterpolation zeta in
    (ePara + f * (eFerro - ePara), ePara_rs + f * (eFerro_rs - ePara_rs), f_zeta * (eFerro - ePara)).

(** ** spinInterpolate with three functors, lines 159-184 *)
Definition fDblPrime0_default : R := 4 / (9 * (cpow 2 (1/3) - 1)).
Definition spinInterpolate3 (rs zeta : R) (para ferro stiff : R -> R * R) (fDblPrime0 : R) : R * R * R :=
  let '(ePara, ePara_rs) := para rs in
  if Req_EM_T zeta 0 then (ePara, ePara_rs, 0)
  else
    let '(eFerro, eFerro_rs) := ferro rs in
    let '(eStiff, eStiff_rs) := stiff rs in
    let '(f, f_zeta) := spinInterpolation zeta in
    let zeta2 := zeta * zeta in let zeta3 := zeta2 * zeta in let zeta4 := zeta2 * zeta2 in
    let scale := -1 / fDblPrime0 in
    let w1 := zeta4 * f in let w1_zeta := 4 * zeta3 * f + zeta4 * f_zeta in
    let w2 := scale * ((1 - zeta4) * f) in let w2_zeta := scale * (-4 * zeta3 * f + (1 - zeta4) * f_zeta) in
    (ePara + w1 * (eFerro - ePara) + w2 * eStiff,
     ePara_rs + w1 * (eFerro_rs - ePara_rs) + w2 * eStiff_rs,
     w1_zeta * (eFerro - ePara) + w2_zeta * eStiff).

(** ** LDA_eval_C_PZ, ExCorr_internal_LDA.h lines 174-194 *)
Definition eval_C_PZ (para : bool) (rs : R) : R * R :=
  if Rlt_dec rs 1 then
    let a := if para then 0.0311 else 0.01555 in
    let b := if para then -0.0480 else -0.0269 in
    let c := if para then 0.0020 else 0.0007 in
    let d := if para then -0.0116 else -0.0048 in
    ((a + c * rs) * ln rs + b + d * rs, a / rs + c * (1 + ln rs) + d)
  else
    let gamma := if para then -0.1423 else -0.0843 in
    let beta1 := if para then 1.0529 else 1.3981 in
    let beta2 := if para then 0.3334 else 0.2611 in
    let denInv := 1 / (1 + beta1 * sqrt rs + beta2 * rs) in
    let denPrime := beta1 / (2 * sqrt rs) + beta2 in
    (gamma * denInv, gamma * (- denInv * denInv) * denPrime).

(** template parameter spinID *)
Inductive spinID := Para | Ferro | Stiff.
Definition bySpin {A} (s : spinID) (a b c : A) : A := match s with Para => a | Ferro => b | Stiff => c end.

(** ** LDA_eval_C_PW, lines 204-227; the formula with its fit parameters abstracted *)
Definition PW_formula (A alpha beta1 beta2 beta3 beta4 rs : R) : R * R :=
  let x := sqrt rs in
  let den := (2 * A) * x * (beta1 + x * (beta2 + x * (beta3 + x * beta4))) in
  let den_x := (2 * A) * (beta1 + x * (2 * beta2 + x * (3 * beta3 + x * (4 * beta4)))) in
  let den_rs := den_x * 0.5 / x in
  let logTerm := ln (1 + 1 / den) in
  let logTerm_rs := - den_rs / (den * (1 + den)) in
  (- (2 * A) * (1 + alpha * rs) * logTerm, - (2 * A) * (alpha * logTerm + (1 + alpha * rs) * logTerm_rs)).
Definition eval_C_PW (s : spinID) (prec : bool) (rs : R) : R * R :=
  PW_formula (if prec then bySpin s 0.0310907 0.01554535 0.0168869 else bySpin s 0.031091 0.015545 0.016887)
    (bySpin s 0.21370 0.20548 0.11125) (bySpin s 7.5957 14.1189 10.357) (bySpin s 3.5876 6.1977 3.6231)
    (bySpin s 1.6382 3.3662 0.88026) (bySpin s 0.49294 0.62517 0.49671) rs.

(** ** LDA_eval_C_VWN, lines 245-267 *)
Definition VWN_formula (A b c x0 rs : R) : R * R :=
  let X0 := c + x0 * (b + x0) in
  let Q := sqrt (4 * c - b * b) in
  let x := sqrt rs in
  let X := c + x * (b + x) in
  let X_x := 2 * x + b in
  let atanTerm := (2 / Q) * atan (Q / X_x) in let atanTerm_x := -4 / (Q * Q + X_x * X_x) in
  let logTerm1 := ln (x * x / X) in let logTerm1_x := 2 / x - X_x / X in
  let logTerm2 := ln ((x - x0) * (x - x0) / X) in let logTerm2_x := 2 / (x - x0) - X_x / X in
  let e := A * (logTerm1 + b * (atanTerm - (x0 / X0) * (logTerm2 + (b + 2 * x0) * atanTerm))) in
  let e_x := A * (logTerm1_x + b * (atanTerm_x - (x0 / X0) * (logTerm2_x + (b + 2 * x0) * atanTerm_x))) in
  (e, e_x * 0.5 / x).
Definition eval_C_VWN (s : spinID) (rs : R) : R * R :=
  VWN_formula (bySpin s 0.0310907 0.01554535 (1 / (6 * PI * PI))) (bySpin s 3.72744 7.06042 1.13107)
    (bySpin s 12.9352 18.0578 13.0045) (bySpin s (-0.10498) (-0.32500) (-0.0047584)) rs.

(** ** LDA_eval<LDA_XC_Teter>, lines 277-306 *)
Definition eval_XC_Teter (rs zeta : R) : R * R * R :=
  let pa0 := 0.4581652932831429 in let da0 := 0.119086804055547 in
  let pa1 := 2.217058676663745 in let da1 := 0.6157402568883345 in
  let pa2 := 0.7405551735357053 in let da2 := 0.1574201515892867 in
  let pa3 := 0.01968227878617998 in let da3 := 0.003532336663397157 in
  let pb2 := 4.504130959426697 in let db2 := 0.2673612973836267 in
  let pb3 := 1.110667363742916 in let db3 := 0.2052004607777787 in
  let pb4 := 0.02359291751427506 in let db4 := 0.004200005045691381 in
  let '(f, f_zeta) := spinInterpolation zeta in
  let a0 := pa0 + f * da0 in let a1 := pa1 + f * da1 in let a2 := pa2 + f * da2 in let a3 := pa3 + f * da3 in
  let b2 := pb2 + f * db2 in let b3 := pb3 + f * db3 in let b4 := pb4 + f * db4 in
  let num := a0 + rs * (a1 + rs * (a2 + rs * a3)) in
  let den := rs * (1 + rs * (b2 + rs * (b3 + rs * b4))) in
  let num_rs := a1 + rs * (2 * a2 + rs * (3 * a3)) in
  let den_rs := 1 + rs * (2 * b2 + rs * (3 * b3 + rs * (4 * b4))) in
  let num_f := da0 + rs * (da1 + rs * (da2 + rs * da3)) in
  let den_f := rs * rs * (db2 + rs * (db3 + rs * db4)) in
  (- num / den, (num * den_rs - den * num_rs) / (den * den), (num * den_f - den * num_f) * f_zeta / (den * den)).

(** LDA_Variant (lines 30-38), split by the layer that is specialized *)
Inductive evalVariant := C_PZ | C_PW | C_PW_prec | C_VWN | XC_Teter.
Definition LDA_eval (v : evalVariant) (rs zeta : R) : R * R * R :=
  match v with
  | C_PZ => spinInterpolate2 rs zeta (eval_C_PZ true) (eval_C_PZ false)
  | C_PW => spinInterpolate3 rs zeta (eval_C_PW Para false) (eval_C_PW Ferro false) (eval_C_PW Stiff false) 1.709921
  | C_PW_prec => spinInterpolate3 rs zeta (eval_C_PW Para true) (eval_C_PW Ferro true) (eval_C_PW Stiff true) fDblPrime0_default
  | C_VWN => spinInterpolate3 rs zeta (eval_C_VWN Para) (eval_C_VWN Ferro) (eval_C_VWN Stiff) fDblPrime0_default
  | XC_Teter => eval_XC_Teter rs zeta
  end.
Inductive LDA_Variant := X_Slater | KE_TF | LDA_of (v : evalVariant).

Definition nCutoff : R := / 10 ^ 16.
(** ** LDA_calc::compute, lines 115-168, for nCount = 1 and 2: increments of E and E_n *)
Definition rsOf (nTot : R) : R := cpow ((4 * PI / 3) * nTot) (-1/3).
Definition calc1_eval (v : evalVariant) (scaleFac n : R) : R * R :=
  let nTot := n in
  if Rlt_dec nTot nCutoff then (0, 0) else
  let rs := rsOf nTot in
  let zeta := 0 in
  let '(e, e_rs, e_zeta) := LDA_eval v rs zeta in
  let e_nTot := - e_rs * rs / (3 * nTot) in
  let E_nTot := e + nTot * e_nTot in
  (scaleFac * (nTot * e), scaleFac * (E_nTot - e_zeta * (zeta - 1))).
Definition calc2_eval (v : evalVariant) (scaleFac n0 n1 : R) : R * (R * R) :=
  let nTot := n0 + n1 in
  if Rlt_dec nTot nCutoff then (0, (0, 0)) else
  let rs := rsOf nTot in
  let zeta := (n0 - n1) / nTot in
  let '(e, e_rs, e_zeta) := LDA_eval v rs zeta in
  let e_nTot := - e_rs * rs / (3 * nTot) in
  let E_nTot := e + nTot * e_nTot in
  (scaleFac * (nTot * e), (scaleFac * (E_nTot - e_zeta * (zeta - 1)), scaleFac * (E_nTot - e_zeta * (zeta + 1)))).
(** one iteration of the loop over spin channels: lines 145-149 and 161-165 *)
Definition TF_spin (nCount scaleFac ns_in : R) : R * R :=
  let KEprefac := (0.3 / nCount) * cpow (3 * PI * PI) (2/3) in
  let ns := ns_in * nCount in
  let nsTo23 := cpow ns (2/3) in
  (scaleFac * (KEprefac * nsTo23 * ns), scaleFac * ((nCount * KEprefac * 5 / 3) * nsTo23)).
Definition Slater_spin (nCount scaleFac ns_in : R) : R * R :=
  let Xprefac := (-0.75 / nCount) * cpow (3 / PI) (1/3) in
  let ns := ns_in * nCount in
  let nsCbrt := cpow ns (1/3) in
  (scaleFac * (Xprefac * nsCbrt * ns), scaleFac * ((nCount * Xprefac * 4 / 3) * nsCbrt)).
Definition bothSpins (f : R -> R * R) (n0 n1 : R) : R * (R * R) :=
  let '(E0, g0) := f n0 in let '(E1, g1) := f n1 in (E0 + E1, (g0, g1)).
Definition LDA_calc1 (v : LDA_Variant) (scaleFac n : R) : R * R :=
  match v with X_Slater => Slater_spin 1 scaleFac n | KE_TF => TF_spin 1 scaleFac n | LDA_of v => calc1_eval v scaleFac n end.
Definition LDA_calc2 (v : LDA_Variant) (scaleFac n0 n1 : R) : R * (R * R) :=
  match v with
  | X_Slater => bothSpins (Slater_spin 2 scaleFac) n0 n1 | KE_TF => bothSpins (TF_spin 2 scaleFac) n0 n1
  | LDA_of v => calc2_eval v scaleFac n0 n1 end.
