(** Nonlinear polarizable continuum models (C47).
    Models /repo/jdftx/fluid/PCM_internal.h lines 242-389 (Screening, Dielectric) and the lookup tables built by
    /repo/jdftx/fluid/NonlinearPCM.cpp lines 67-110.  double is idealised as R; the unbounded while loops get explicit
    fuel (None = fuel exhausted); RadialFunctionG lookups are the functions [g] (operator()) and [g'] (deriv). *)
From Coq Require Import ZArith Reals List Bool.
From Verif Require Import Base Vec3_Model.
Import ListNotations.
Open Scope R_scope.

(** C while loop: repeat [step] while [cond], with fuel *)
Fixpoint whileF {A} (fuel : nat) (cond : A -> bool) (step : A -> A) (a : A) : option A :=
  match fuel with
  | O => None
  | S k => if cond a then whileF k cond step (step a) else Some a
  end.
Definition ltb (a b : R) : bool := if Rlt_dec a b then true else false.

(** the bisection loop shared by lines 275-284 and 358-367: state (lo, hi, mid) *)
Definition bisect (fuel : nat) (h : R -> R) (target dmid lo hi mid : R) : option (R * R * R) :=
  whileF fuel (fun st => let '(lo, hi, _) := st in ltb dmid (hi - lo))
    (fun st => let '(lo, hi, m) := st in
       let '(lo', hi') := if ltb (h m) target then (m, hi) else (lo, m) in (lo', hi', 0.5 * (hi' + lo')))
    (lo, hi, mid).

(** ** Screening *)
Section Screening.
  Variables x0plus x0minus : R.
  (** PCM_internal.cpp line 220 *)
  Definition x0 : R := x0plus + x0minus.
  (** lines 255-263: (f, f_xIn) *)
  Definition fHS (xIn : R) : R * R :=
    let x := xIn in let x_xIn := 1 in
    let den := 1 / (1 - x) in let den0 := 1 / (1 - x0) in
    let comb := (x - x0) * den * den0 in let comb_x := den * den in
    let prefac := 2 / x0 in
    (prefac * comb * comb, prefac * 2 * comb * comb_x * x_xIn).
  (** lines 266-269 *)
  Definition rootFunc (x V : R) : R :=
    let f_x := snd (fHS x) in
    x - (x0plus * exp (- V - f_x * x0plus) + x0minus * exp (V - f_x * x0minus)).
  (** lines 272-285 *)
  Definition x_from_V (fuel : nat) (V : R) : option R :=
    match whileF fuel (fun x => ltb 0 (rootFunc x V)) (fun x => x * 0.5) x0 with
    | None => None
    | Some xLo =>
      match whileF fuel (fun x => ltb (rootFunc x V) 0) (fun x => 0.5 * (1 + x)) xLo with
      | None => None
      | Some xHi =>
        let x := 0.5 * (xHi + xLo) in
        let dx := x * / 10 ^ 13 in
        match bisect fuel (fun x => rootFunc x V) 0 dx xLo xHi x with
        | None => None
        | Some (_, _, x) => Some x
        end
      end
    end.
  (** NonlinearPCM.cpp lines 101-105 *)
  Definition ionEnergy (V x : R) : R :=
    let '(f, f_x) := fHS x in
    exp (V - f_x * x0minus) + exp (- V - f_x * x0plus) + f_x * x - f - 2.
  (** NonlinearPCM.cpp line 97 *)
  Definition V_of_mapped (Vm : R) : R := Vm / (1 - Vm * Vm).
  (** NonlinearPCM.cpp lines 94-107, for one sample *)
  Definition ionSample (fuel : nat) (Vm : R) : option R :=
    if Req_EM_T (Rabs Vm) 1 then Some 0
    else match x_from_V fuel (V_of_mapped Vm) with
         | None => None
         | Some x => Some (1 / (1 + ionEnergy (V_of_mapped Vm) x))
         end.
End Screening.

Section ScreeningApply.
  Variables (NT ZbyT : R) (g g' : R -> R).
  (** lines 293-297 *)
  Definition Vmapped1 (V : R) : R := 1 + 2 * V / (1 + sqrt (1 + 4 * V * V)).
  Definition ionF (phi : R) : R := (1 / g (Vmapped1 (ZbyT * phi)) - 1) * NT.
  (** lines 293-304: (A, A_phi, A_s) after the call *)
  Definition screening_apply (s phi A A_phi A_s : R) : R * R * R :=
    let V := ZbyT * phi in
    let sqrtTerm := sqrt (1 + 4 * V * V) in
    let Vmapped_plus_1 := 1 + 2 * V / (1 + sqrtTerm) in
    let E := 1 / g Vmapped_plus_1 in
    let F := (E - 1) * NT in
    let Vmapped_phi := 2 * ZbyT / (sqrtTerm * (1 + sqrtTerm)) in
    let F_phi := (- E * E * NT) * g' Vmapped_plus_1 * Vmapped_phi in
    (A + s * F, A_phi + s * F_phi, A_s + F).
End ScreeningApply.

(** ** Dielectric *)
Section Dielectric.
  Variables (linear : bool) (alpha X NT : R).
  (** lines 328-344: (frac, logsinch) *)
  Definition calcFunctions (eps : R) : R * R :=
    let epsSq := eps * eps in
    if linear then (1 / 3, epsSq * (1 / 6))
    else if Rlt_dec eps (1 / 10) then
      (1/3 + epsSq * (-1/45 + epsSq * (2/945 + epsSq * (-1/4725))),
       epsSq * (1/6 + epsSq * (-1/180 + epsSq * (1/2835))))
    else ((eps / tanh eps - 1) / epsSq,
          if Rlt_dec eps 20 then ln (sinh eps / eps) else eps - ln (2 * eps)).
  (** lines 347-351 *)
  Definition x_from_eps (eps : R) : R := eps * (1 - alpha * fst (calcFunctions eps)).
  (** lines 354-368 *)
  Definition eps_from_x (fuel : nat) (x : R) : option R :=
    if Req_EM_T x 0 then Some 0
    else
    match whileF fuel (fun e => ltb x (x_from_eps e)) (fun e => e * 0.95) x with
    | None => None
    | Some epsLo =>
      match whileF fuel (fun e => ltb (x_from_eps e) x) (fun e => e * 1.05) epsLo with
      | None => None
      | Some epsHi =>
        let eps := 0.5 * (epsHi + epsLo) in
        let deps := eps * / 10 ^ 13 in
        match bisect fuel x_from_eps x deps epsLo epsHi eps with
        | None => None
        | Some (_, _, eps) => Some eps
        end
      end
    end.
  (** NonlinearPCM.cpp lines 78-82 *)
  Definition dielEnergy (eps x : R) : R :=
    let '(frac, logsinch) := calcFunctions eps in
    NT * (logsinch - 0.5 * alpha * (eps * frac) ^ 2 + 0.5 * X * (x * x)).
  (** NonlinearPCM.cpp lines 71-83, for one sample *)
  Definition dielSample (fuel : nat) (xMapped : R) : option R :=
    if Req_EM_T xMapped 0 then Some (0.5 * NT * (1 / (3 - alpha) + X))
    else if Req_EM_T xMapped 1 then Some (0.5 * NT * X)
    else let x := xMapped / (1 - xMapped) in
      match eps_from_x fuel x with
      | None => None
      | Some eps => Some (dielEnergy eps x / (x * x))
      end.
End Dielectric.

Section DielectricApply.
  Variables (pByT : R) (g g' : R -> R).
  (** lines 376-388: (A, A_Dphi, A_s) *)
  Definition dielectric_apply (s : R) (Evec : vec R) : R * vec R * R :=
    let E := rlen Evec in
    let x := pByT * E in
    let inv_x_plus_1 := 1 / (1 + x) in
    let xMapped := x * inv_x_plus_1 in
    let F_by_x_sq := g xMapped in
    let F := F_by_x_sq * (x * x) in
    let F_E_by_E := (g' xMapped * xMapped * inv_x_plus_1 + 2 * F_by_x_sq) * (pByT * pByT) in
    (s * F, rvscale (s * F_E_by_E) Evec, F).
End DielectricApply.
