(** Scalar equations of state of classical fluids (C50): /repo/jdftx/fluid/Fex_ScalarEOS_internal.h lines 31-181 and
    Fex_ScalarEOS.cpp lines 73-80.  double is R; a NAN result is None.  pow(x,y) with real y is [cpow] (x >= 0). *)
From Coq Require Import ZArith Reals.
From Verif Require Import LDA_Model.
Open Scope R_scope.

(** core/Units.h lines 31-49 *)
Definition Joule : R := 1 / (4.35974434 / 10 ^ 18).
Definition KJoule : R := 1000 * Joule.
Definition Kelvin : R := 1.3806488 / 10 ^ 23 * Joule.
Definition Angstrom : R := 1 / 0.5291772.
Definition meter : R := 10 ^ 10 * Angstrom.
Definition liter : R := meter ^ 3 / 10 ^ 3.
Definition mol : R := 6.0221367 * 10 ^ 23.

(** vdwRadius, lines 34-36 *)
Definition vdwRadius (b : R) : R := cpow (3 * b / (16 * PI)) (1/3).
(** getAhs, lines 38-43: (Ahs, Ahs_N) *)
Definition getAhs (T N Vhs : R) : option (R * R) :=
  let n3 := Vhs * N in
  if Rle_dec 1 n3 then None else
  let den := 1 / (1 - n3) in
  Some (T * (den * den) * n3 * (4 - 3 * n3), T * Vhs * (den * den * den) * 2 * (2 - n3)).

(** ** JeffereyAustinEOS_eval, lines 47-128 *)
Record JA := mkJA { ja_T : R; ja_b : R; ja_alpha : R; ja_prefacHB : R; ja_prefacVW1 : R; ja_prefacVW2 : R;
  ja_lambda : R; ja_C1 : R; ja_nHB : R; ja_dnHB : R; ja_nc : R; ja_VPzi : R }.
Definition ja_TB : R := 1408.4 * Kelvin.
Definition ja_vB : R := 4.1782 / 10 ^ 5 * meter ^ 3 / mol.
Definition JA_init (T : R) : JA :=
  let TB := ja_TB in
  let vB := ja_vB in
  let Tf := 273.16 * Kelvin in
  let alpha := 2.145 * vB in
  let bStar := 1.0823 * vB in
  let aVW := 0.5542 * Joule * meter ^ 3 / mol ^ 2 in
  let lambda := 0.3241 in
  let C1 := 0.7140 in
  let nHB := (0.8447 * 10 ^ 6 / 18.01528) * mol / meter ^ 3 in
  let dnHB := 0.1687 * nHB in
  let epsHB := -11.49 * KJoule / mol in
  let S0 := -61.468 * Joule / (mol * Kelvin) in let omega0 := exp (- S0) in
  let SHB := -5.128 * Joule / (mol * Kelvin) in let omegaHB := exp (- SHB) in
  let b1 := 0.25081 in
  let b2 := 0.99859 in
  let b := vB * (0.2 * exp (-21.4 * (T / TB + 0.0445) ^ 3) - b1 * exp (1.016 * T / TB) + b2) in
  let prefacHB := -2 * T * ln ((omega0 + omegaHB * exp (- epsHB / T)) / (omega0 + omegaHB)) * exp (-0.18 * (T / Tf) ^ 8) * (1 + C1) in
  let prefacVW1 := - T * alpha / (lambda * b) in
  let prefacVW2 := bStar * T + aVW in
  let A1 := -2.9293 in let A2 := 0.1572 in let A5 := 1.873 in let kappa := 0.8921 in
  let Tc := 647.096 * Kelvin in
  let nc := (322 / 18.01528) * mol / liter in
  let VPzi := A1 * exp (- A5 * (T / Tc) ^ 6) * ((T / Tc - kappa) ^ 2 + A2) in
  mkJA T b alpha prefacHB prefacVW1 prefacVW2 lambda C1 nHB dnHB nc VPzi.
(** getVPphiInt, lines 90-101 *)
Definition getVPphiInt (nc n : R) : R * R :=
  let A4 := 0.0610 in let d0 := 1.917 in let d1 := 26.01 in let beta := 3.24 in
  let x := n / nc in let xPowBetaM1 := cpow x (beta - 1) in let xPow57 := cpow x 5.7 in
  let den := 1 / (d0 * (1 + d0 * x * (1 + d0 * x)) + x * d1 * xPowBetaM1) in
  let den_x := - den * den * (d0 * d0 * (1 + d0 * x * 2) + beta * d1 * xPowBetaM1) in
  let expTerm := exp (- A4 * xPow57 * x) in
  (- nc * expTerm * den, expTerm * (A4 * xPow57 * 6.7 * den - den_x)).
(** operator(), lines 104-127: (Aex, Aex_Nbar) *)
Definition JA_calc (p : JA) (N Vhs : R) : option (R * R) :=
  if Rlt_dec N 0 then Some (0, 0) else
  let gaussHB := exp (((N - ja_nHB p) / ja_dnHB p) ^ 2) in
  let fHBden := ja_C1 p + gaussHB in
  let fHBdenPrime := gaussHB * 2 * (N - ja_nHB p) / ja_dnHB p ^ 2 in
  let AHB := ja_prefacHB p / fHBden in
  let AHB_N := - AHB * fHBdenPrime / fHBden in
  let Ginv := 1 - ja_lambda p * ja_b p * N in
  if Rle_dec Ginv 0 then None else
  let '(VPphiInt, VPphiInt_N) := getVPphiInt (ja_nc p) N in
  let AVW := ja_prefacVW1 p * ln Ginv + (ja_VPzi p * VPphiInt - N) * ja_prefacVW2 p in
  let AVW_N := ja_T p * ja_alpha p / Ginv + (ja_VPzi p * VPphiInt_N - 1) * ja_prefacVW2 p in
  match getAhs (ja_T p) N Vhs with
  | None => None
  | Some (AFMT, AFMT_N) => Some (AHB + AVW - AFMT, AHB_N + AVW_N - AFMT_N)
  end.

(** ** TaoMasonEOS_eval, lines 131-181 *)
Record TM := mkTM { tm_T : R; tm_b : R; tm_lambda : R; tm_prefacQuad : R; tm_prefacVap : R; tm_prefacPole : R }.
Definition TM_init (T Tc Pc omega : R) : TM :=
  let kappa := 1.093 + 0.26 * (sqrt (0.002 + omega) + 4.5 * (0.002 + omega)) in
  let A1 := 0.143 in
  let A2 := 1.64 + 2.65 * (exp (kappa - 1.093) - 1) in
  let TB := Tc * (2.6455 - 1.1941 * omega) in
  let vB := (Tc / Pc) * (0.1646 + 0.1014 * omega) in
  let a1 := -0.0648 in let a2 := 1.8067 in let c1 := 2.6038 in let c2 := 0.9726 in
  let alpha := vB * (a1 * exp (- c1 * T / TB) + a2 * (1 - exp (- c2 * cpow (TB / T) 0.25))) in
  let B := (Tc / Pc) * (0.1445 + omega * 0.0637 + (Tc / T) * (-0.330 + (Tc / T) * (-0.1385 + 0.331 * omega + (Tc / T) * (-0.0121 - 0.423 * omega + (Tc / T) ^ 5 * (-0.000607 - 0.008 * omega))))) in
  let b := vB * (a1 * (1 - c1 * T / TB) * exp (- c1 * T / TB) + a2 * (1 - (1 + 0.25 * c2 * cpow (TB / T) 0.25) * exp (- c2 * cpow (TB / T) 0.25))) in
  let lambda := 0.4324 - 0.3331 * omega in
  let prefacQuad := - T * (alpha - B) in
  let prefacVap := prefacQuad * (- A1 * (exp (kappa * Tc / T) - A2)) / (2 * sqrt 1.8 * b) in
  let prefacPole := alpha * T / (lambda * b) in
  mkTM T b lambda prefacQuad prefacVap prefacPole.
(** operator(), lines 159-180 *)
Definition TM_calc (p : TM) (N Vhs : R) : option (R * R) :=
  if Rlt_dec N 0 then Some (0, 0) else
  let Ginv := 1 - tm_lambda p * tm_b p * N in
  if Rle_dec Ginv 0 then None else
  let AVW := N * tm_prefacQuad p + tm_prefacPole p * (- ln Ginv) in
  let AVW_N := tm_prefacQuad p + tm_prefacPole p * (tm_lambda p * tm_b p / Ginv) in
  let b2term := sqrt 1.8 * tm_b p * tm_b p in
  let bn2term := b2term * N * N in
  let Avap := tm_prefacVap p * atan bn2term in
  let Avap_N := tm_prefacVap p * b2term * N * 2 / (1 + bn2term * bn2term) in
  match getAhs (tm_T p) N Vhs with
  | None => None
  | Some (AFMT, AFMT_N) => Some (AVW + Avap - AFMT, AVW_N + Avap_N - AFMT_N)
  end.

(** ** Fex_ScalarEOS: hard sphere volume (Fex_ScalarEOS.cpp line 38) and computeUniform (lines 73-80) with the equation
    of state as parameter: (energy, increment of Phi_N[0]) *)
Definition hsVolume (Rhs : R) : R := (4 * PI / 3) * Rhs ^ 3.
Definition computeUniform (eos : R -> option (R * R)) (nPos N0 : R) : option (R * R) :=
  let invN0mult := 1 / nPos in
  let Navg := N0 * invN0mult in
  match eos Navg with None => None | Some (Aex, AexPrime) => Some (Navg * Aex, (Aex + Navg * AexPrime) * invN0mult) end.
