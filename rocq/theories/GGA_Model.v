(** Gradient-corrected functionals (C107, C108): /repo/jdftx/electronic/ExCorr_internal_GGA.h lines 144-297 and 496-672,
    at one grid point.  double is R; pow is modelled as in LDA_Model.  The short-ranged omega-PBE exchange
    (lines 300-446) and the two functionals without an energy, GLLB-sc and LB94 (lines 449-493), are in WPBE_Model.  The pointers to the
    outputs are always set, and what is returned is what is added to them. *)
From Coq Require Import ZArith Reals List Bool.
From Verif Require Import LDA_Model.
Open Scope R_scope.

(** energy per particle and its derivatives with respect to rs and s2 *)
Record xout := XO { x_e : R; x_rs : R; x_s2 : R }.

(** ** slaterExchange, lines 224-231 *)
Definition slaterExchange (rs : R) : R * R :=
  let rsInvMinus := -1 / rs in
  let e := rsInvMinus * (0.75 * cpow (1.5 / PI) (2/3)) in
  (e, rsInvMinus * e).
(** ** GGA_PBE_exchange, lines 232-246 *)
Definition GGA_PBE_exchange (kappa mu rs s2 : R) : xout :=
  let '(eSlater, eSlater_rs) := slaterExchange rs in
  let kappaByMu := kappa / mu in
  let frac := -1 / (kappaByMu + s2) in
  let F := 1 + kappa + (kappa * kappaByMu) * frac in
  let F_s2 := (kappa * kappaByMu) * frac * frac in
  XO (eSlater * F) (eSlater_rs * F) (eSlater * F_s2).
(** ** GGA_PW91_Enhancement, lines 262-278: (F, F_s2) *)
Definition PW91_Enhancement (s2 P Q R S T U : Rdefinitions.R) : Rdefinitions.R * Rdefinitions.R :=
  let s := sqrt s2 in
  let asinhTerm := P * s * arcsinh (Q * s) in
  let asinhTerm_s2 := if Req_EM_T s2 0 then P * Q else 0.5 * (asinhTerm / s2 + (P * Q) / sqrt (1 + (Q * Q) * s2)) in
  let gaussTerm := S * exp (- T * s2) in
  let gaussTerm_s2 := - T * gaussTerm in
  let num := 1 + asinhTerm + s2 * (R - gaussTerm) in
  let num_s2 := asinhTerm_s2 + (R - gaussTerm) - s2 * gaussTerm_s2 in
  let den := 1 + asinhTerm + U * s2 * s2 in
  let den_s2 := asinhTerm_s2 + 2 * U * s2 in
  (num / den, (num_s2 * den - num * den_s2) / (den * den)).
(** ** TFKinetic, lines 629-637 *)
Definition TFKinetic (rs : R) : R * R :=
  let rsInv := 1 / rs in
  let KEprefac := 9 / 20 * cpow (1.5 * PI * PI) (1/3) in
  let e := KEprefac * cpow rsInv 2 in
  (e, -2 * e * rsInv).

Inductive xVariant := X_PBE | X_PBEsol | X_PW91 | KE_VW | KE_PW91.
(** ** GGA_eval for functionals that scale with spin: lines 248-256, 280-297, 639-672 *)
Definition GGA_evalX (v : xVariant) (rs s2 : R) : xout :=
  match v with
  | X_PBE => GGA_PBE_exchange 0.804 0.2195149727645171 rs s2
  | X_PBEsol => GGA_PBE_exchange 0.804 (10 / 81) rs s2
  | X_PW91 =>
      let '(eSlater, eSlater_rs) := slaterExchange rs in
      let '(F, F_s2) := PW91_Enhancement s2 0.19645 7.7956 0.2743 0.1508 100 0.004 in
      XO (eSlater * F) (eSlater_rs * F) (eSlater * F_s2)
  | KE_VW =>
      let lambda := 1 in
      let rsInv := 1 / rs in
      let prefac := lambda * 3 / 4 * cpow (1.5 * PI * PI) (1/3) in
      let e_s2 := prefac * cpow rsInv 2 in
      let e := e_s2 * s2 in
      XO e (-2 * e * rsInv) e_s2
  | KE_PW91 =>
      let '(eTF, eTF_rs) := TFKinetic rs in
      let '(F, F_s2) := PW91_Enhancement s2 0.093907 76.320 0.26608 0.0809615 100 0.000057767 in
      XO (eTF * F) (eTF_rs * F) (eTF * F_s2)
  end.
(** ** GGA_calc for functionals that scale with spin, lines 144-173: one iteration of the loop over spins; the increments of E, E_n[s] and E_sigma[2s] *)
Record inc := Inc { i_E : R; i_n : R; i_sigma : R }.
Definition calcX (v : xVariant) (nCount scaleFac n sigma : R) : inc :=
  let ns := n * nCount in
  if Rlt_dec ns nCutoff then Inc 0 0 0 else
  let rs := cpow ((4 * PI / 3) * ns) (-1/3) in
  let s2_sigma := cpow ns (-8/3) * ((0.25 * nCount * nCount) * cpow (3 * PI * PI) (-2/3)) in
  let s2 := s2_sigma * sigma in
  let '(XO e e_rs e_s2) := GGA_evalX v rs s2 in
  let e_n := - (e_rs * rs + 8 * e_s2 * s2) / (3 * n) in
  let e_sigma := e_s2 * s2_sigma in
  Inc (scaleFac * (n * e)) (scaleFac * (n * e_n + e)) (scaleFac * (n * e_sigma)).
(** the loop for nCount = 1 and 2; sigma[1] is never used and E_sigma[1] never changed *)
Definition calcX1 (v : xVariant) (scaleFac n sigma : R) : inc := calcX v 1 scaleFac n sigma.
Record inc2 := Inc2 { j_E : R; j_n0 : R; j_n1 : R; j_sigma0 : R; j_sigma1 : R; j_sigma2 : R }.
Definition calcX2 (v : xVariant) (scaleFac n0 n1 sigma0 sigma1 sigma2 : R) : inc2 :=
  let up := calcX v 2 scaleFac n0 sigma0 in
  let dn := calcX v 2 scaleFac n1 sigma2 in
  Inc2 (i_E up + i_E dn) (i_n up) (i_n dn) (i_sigma up) 0 (i_sigma dn).

(** ** PW91_H0, lines 501-532 *)
Record hout := HO { h_H : R; h_beta : R; h_g3 : R; h_t2 : R; h_ec : R }.
Definition PW91_H0 (gamma beta g3 t2 ecUnif : R) : hout :=
  let betaByGamma := beta / gamma in
  let expArg := ecUnif / (gamma * g3) in
  let expTerm := exp (- expArg) in
  let A_betaByGamma := 1 / (expTerm - 1) in
  let A := betaByGamma * A_betaByGamma in
  let A_expArg := A * A_betaByGamma * expTerm in
  let A_ecUnif := A_expArg / (gamma * g3) in
  let A_g3 := - A_expArg * expArg / g3 in
  let At2 := A * t2 in
  let num := 1 + At2 in let num_At2 := 1 in
  let den := 1 + At2 * (1 + At2) in let den_At2 := 1 + 2 * At2 in
  let frac := num / den in let frac_At2 := (num_At2 * den - num * den_At2) / (den * den) in
  let logArg := 1 + betaByGamma * t2 * frac in
  let logTerm := ln logArg in
  let logTerm_betaByGamma := t2 * frac / logArg in
  let logTerm_t2 := betaByGamma * (frac + t2 * A * frac_At2) / logArg in
  let logTerm_A := betaByGamma * t2 * t2 * frac_At2 / logArg in
  let H0_A := gamma * g3 * logTerm_A in
  HO (gamma * g3 * logTerm) ((gamma * g3 * logTerm_betaByGamma + H0_A * A_betaByGamma) / gamma)
     (gamma * logTerm + H0_A * A_g3) (gamma * g3 * logTerm_t2) (H0_A * A_ecUnif).
(** energy per particle and its derivatives with respect to rs, zeta, g and t2 *)
Record cout := CO { c_e : R; c_rs : R; c_zeta : R; c_g : R; c_t2 : R }.
(** ** GGA_PBE_correlation, lines 537-557 *)
Definition GGA_PBE_correlation (beta beta_rs rs zeta g t2 : R) : cout :=
  let '(ecUnif, ecUnif_rs, ecUnif_zeta) := LDA_eval C_PW_prec rs zeta in
  let g2 := g * g in let g3 := g * g2 in
  let gamma := (1 - ln 2) / (PI * PI) in
  let '(HO H H_beta H_g3 H_t2 H_ecUnif) := PW91_H0 gamma beta g3 t2 ecUnif in
  CO (ecUnif + H) (ecUnif_rs + H_ecUnif * ecUnif_rs + H_beta * beta_rs) (ecUnif_zeta + H_ecUnif * ecUnif_zeta) (H_g3 * (3 * g2)) H_t2.
Inductive cVariant := C_PBE | C_PBEsol | C_PW91.
(** ** GGA_eval for correlation: lines 559-569 and 571-624 *)
Definition GGA_evalC (v : cVariant) (rs zeta g t2 : R) : cout :=
  match v with
  | C_PBE => GGA_PBE_correlation 0.06672455060314922 0 rs zeta g t2
  | C_PBEsol => GGA_PBE_correlation 0.046 0 rs zeta g t2
  | C_PW91 =>
      let Cxc0 := 0.002568 in let aCxc := 0.023266 in let bCxc := 0.000007389 in
      let numCxc := Cxc0 + rs * (aCxc + rs * bCxc) in
      let numCxc_rs := aCxc + rs * (2 * bCxc) in
      let cCxc := 8.723 in let dCxc := 0.472 in
      let denCxc := 1 + rs * (cCxc + rs * (dCxc + rs * (10000 * bCxc))) in
      let denCxc_rs := cCxc + rs * (2 * dCxc + rs * (3 * 10000 * bCxc)) in
      let Cxc := numCxc / denCxc in
      let Cxc_rs := (numCxc_rs * denCxc - numCxc * denCxc_rs) / (denCxc * denCxc) in
      let '(ecUnif, ecUnif_rs, ecUnif_zeta) := LDA_eval C_PW rs zeta in
      let nu := (16 / PI) * cpow (3 * PI * PI) (1/3) in
      let Cx := -0.001667 in
      let nuCdiff := nu * (Cxc - Cxc0 - (3/7) * Cx) in
      let nuCdiff_rs := nu * Cxc_rs in
      let sigma := 100 * cpow (16 / (3 * PI * PI)) (2/3) in
      let g2 := g * g in let g3 := g * g2 in let g4 := g2 * g2 in
      let expCutoff := exp (- sigma * g4 * rs * t2) in
      let H1 := nuCdiff * g3 * t2 * expCutoff in
      let H1_rs := nuCdiff_rs * g3 * t2 * expCutoff - (sigma * g4 * t2) * H1 in
      let H1_g := nuCdiff * (3 * g2) * t2 * expCutoff - (sigma * 4 * g3 * rs * t2) * H1 in
      let H1_t2 := nuCdiff * g3 * expCutoff - (sigma * g4 * rs) * H1 in
      let beta := nu * (Cxc0 - Cx) in
      let alpha := 0.09 in
      let gamma := (beta * beta) / (2 * alpha) in
      let '(HO H0 H0_beta H0_g3 H0_t2 H0_ecUnif) := PW91_H0 gamma beta g3 t2 ecUnif in
      CO (ecUnif + H1 + H0) (ecUnif_rs + H1_rs + H0_ecUnif * ecUnif_rs) (ecUnif_zeta + H0_ecUnif * ecUnif_zeta) (H1_g + H0_g3 * (3 * g2)) (H1_t2 + H0_t2)
  end.
(** ** GGA_calc for correlation, lines 175-217: the part common to both spin counts, from the total density, zeta and the squared gradient of
    the total density; (e, E_nTot, e_zeta, nTot * e_sigma) *)
Definition calcC (eval : R -> R -> R -> R -> cout) (nTot zeta sigma : R) : R * R * R * R :=
  let rs := cpow ((4 * PI / 3) * nTot) (-1/3) in
  let g := 0.5 * (cpow (1 + zeta) (2/3) + cpow (1 - zeta) (2/3)) in
  let t2_sigma := (cpow (PI / 3) (1/3) / 16) * cpow nTot (-7/3) / (g * g) in
  let t2 := t2_sigma * sigma in
  let '(CO e e_rs e_zeta e_g e_t2) := eval rs zeta g t2 in
  let e_nTot := - (e_rs * rs + 7 * e_t2 * t2) / (3 * nTot) in
  let e_sigma := e_t2 * t2_sigma in
  let g_zeta := (1/3) * ((if Rlt_dec nCutoff (1 + zeta) then cpow (1 + zeta) (-1/3) else 0) - (if Rlt_dec nCutoff (1 - zeta) then cpow (1 - zeta) (-1/3) else 0)) in
  let e_zeta := e_zeta + (e_g - 2 * e_t2 * t2 / g) * g_zeta in
  (e, e + nTot * e_nTot, e_zeta, nTot * e_sigma).
Definition calcC1 (v : cVariant) (scaleFac n sigma : R) : inc :=
  let nTot := n in
  if Rlt_dec nTot nCutoff then Inc 0 0 0 else
  let zeta := 0 in
  let '(e, E_nTot, e_zeta, E_s) := calcC (GGA_evalC v) nTot zeta sigma in
  Inc (scaleFac * (nTot * e)) (scaleFac * (E_nTot - e_zeta * (zeta - 1))) (scaleFac * E_s).
Definition calcC2 (v : cVariant) (scaleFac n0 n1 sigma0 sigma1 sigma2 : R) : inc2 :=
  let nTot := n0 + n1 in
  if Rlt_dec nTot nCutoff then Inc2 0 0 0 0 0 0 else
  let zeta := (n0 - n1) / nTot in
  let '(e, E_nTot, e_zeta, E_s) := calcC (GGA_evalC v) nTot zeta (sigma0 + 2 * sigma1 + sigma2) in
  Inc2 (scaleFac * (nTot * e)) (scaleFac * (E_nTot - e_zeta * (zeta - 1))) (scaleFac * (E_nTot - e_zeta * (zeta + 1)))
    (scaleFac * E_s) (scaleFac * (E_s * 2)) (scaleFac * E_s).
