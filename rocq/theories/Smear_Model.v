(** Smearing functions and the search for the chemical potential.
    Models /repo/jdftx/electronic/ElecInfo.cpp lines 288-427 and ElecInfo.h line 112.
    Doubles are idealised as reals; sums over processes (allReduce) are sums over all states. *)
From Coq Require Import Reals List ZArith.
From Verif Require Import Gauss.
Import ListNotations.
Open Scope R_scope.

Inductive SmearingType := SmearingFermi | SmearingGauss | SmearingMP1 | SmearingCold.

(** smear: lines 288-297 ([width] is the member smearingWidth) *)
Definition smear (ty : SmearingType) (width mu eps : R) : R :=
  let x := (eps - mu) / (2 * width) in
  match ty with
  | SmearingFermi => 1/2 * (1 - tanh x)
  | SmearingGauss => 1/2 * erfc x
  | SmearingMP1 => 1/2 * erfc x - x * exp (-(x*x)) / (2 * sqrt PI)
  | SmearingCold => 1/2 * erfc (x + sqrt (1/2)) + exp (-((x + sqrt (1/2)) ^ 2)) / sqrt (2 * PI)
  end.
(** smearPrime: lines 299-308 *)
Definition smearPrime (ty : SmearingType) (width mu eps : R) : R :=
  let x := (eps - mu) / (2 * width) in
  match ty with
  | SmearingFermi => - (1/4) / (width * (cosh x) ^ 2)
  | SmearingGauss => - exp (-(x*x)) / (2 * sqrt PI * width)
  | SmearingMP1 => (x*x - 3/2) * exp (-(x*x)) / (2 * sqrt PI * width)
  | SmearingCold => - exp (-((x + sqrt (1/2)) ^ 2)) * (2 + x * sqrt 2) / (2 * sqrt PI * width)
  end.
(** smearEntropy: lines 310-325; [tiny] stands for the constant 1e-300 of lines 316-317 *)
Definition tiny : R := / 10 ^ 300.
Definition smearEntropy (ty : SmearingType) (width mu eps : R) : R :=
  let x := (eps - mu) / (2 * width) in
  match ty with
  | SmearingFermi =>
      let f := 1/2 * (1 - tanh x) in
      let S := 0 in
      let S := if Rlt_dec tiny f then S - f * ln f else S in
      let S := if Rlt_dec tiny (1 - f) then S - (1 - f) * ln (1 - f) else S in
      S
  | SmearingGauss => exp (-(x*x)) / sqrt PI
  | SmearingMP1 => (1/2 - x*x) * exp (-(x*x)) / sqrt PI
  | SmearingCold => exp (-((x + sqrt (1/2)) ^ 2)) * (1 + x * sqrt 2) / sqrt PI
  end.
(** smearGrad: the factor applied to element (i,j) in lines 352-354 *)
Definition smearGradFactor (ty : SmearingType) (width mu epsI epsJ : R) : R :=
  let deps := epsI - epsJ in
  if Rlt_dec (Rabs deps) (1/1000000) then smearPrime ty width mu epsI
  else (smear ty width mu epsI - smear ty width mu epsJ) / deps.

(** ** Electron number and magnetization: a state has its spin (-1, 0 or +1), weight and eigenvalues *)
Record kstate := KS { ks_spin : R; ks_weight : R; ks_eps : list R }.
Definition sumL {A} (f : A -> R) (l : list A) : R := fold_left (fun acc a => acc + f a) l 0.
(** muEff: ElecInfo.h line 112 *)
Definition muEff (mu Bz : R) (q : kstate) : R := mu + Bz * ks_spin q.

Section Search.
  Variable ty : SmearingType.
  Variable width : R.
  Variable states : list kstate.

  (** magnetizationCalc: lines 361-376, its N and M *)
  Definition Nof (mu Bz : R) : R :=
    sumL (fun q => sumL (fun e => ks_weight q * smear ty width (muEff mu Bz q) e) (ks_eps q)) states.
  Definition Mof (mu Bz : R) : R :=
    sumL (fun q => sumL (fun e => ks_spin q * (ks_weight q * smear ty width (muEff mu Bz q) e)) (ks_eps q)) states.

  (** The searches of lines 385-400 and 411-426 have the same three loops; [calc] is the function searched
      ([None] if its own loops run out of fuel), [target] and [tol] the value sought. *)
  Variable calc : R -> option R.
  (** while(calc(lo) >= target+tol) lo -= (hi-lo): lines 389, 415 *)
  Fixpoint lowerBracket (fuel : nat) (target tol lo hi : R) : option R :=
    match fuel with
    | O => None
    | S fuel' => match calc lo with
                 | None => None
                 | Some v => if Rle_dec (target + tol) v then lowerBracket fuel' target tol (lo - (hi - lo)) hi else Some lo
                 end
    end.
  (** while(calc(hi) <= target-tol) hi += (hi-lo): lines 390, 416 *)
  Fixpoint upperBracket (fuel : nat) (target tol lo hi : R) : option R :=
    match fuel with
    | O => None
    | S fuel' => match calc hi with
                 | None => None
                 | Some v => if Rle_dec v (target - tol) then upperBracket fuel' target tol lo (hi + (hi - lo)) else Some hi
                 end
    end.
  (** while(hi-lo >= xTol) {...}: lines 393-399, 419-425 *)
  Fixpoint bisect (fuel : nat) (target xTol lo hi : R) : option R :=
    match fuel with
    | O => None
    | S fuel' => if Rle_dec xTol (hi - lo) then
                   let mid := 1/2 * (lo + hi) in
                   match calc mid with
                   | None => None
                   | Some v => if Rlt_dec target v then bisect fuel' target xTol lo mid else bisect fuel' target xTol mid hi
                   end
                 else Some (1/2 * (lo + hi))
    end.
  Definition absTol : R := 1/10^10.
  Definition relTol : R := 1/10^14.
  Definition search (fuel : nat) (target lo0 hi0 : R) : option R :=
    let tol := Rmax absTol (relTol * Rabs target) in
    match lowerBracket fuel target tol lo0 hi0 with
    | None => None
    | Some lo => match upperBracket fuel target tol lo hi0 with
                 | None => None
                 | Some hi => bisect fuel target (Rmax (absTol * width) (relTol * Rmax (Rabs lo) (Rabs hi))) lo hi
                 end
    end.
End Search.

(** nElectronsCalc: lines 379-404; [Bz] = None is NAN, i.e. magnetization constrained to [Minitial]; returns N and Bz *)
Definition nElectronsCalc (ty : SmearingType) (width : R) (states : list kstate) (Bz : option R) (Minitial : R) (fuel : nat) (mu : R)
  : option (R * R) :=
  match Bz with
  | Some B => Some (Nof ty width states mu B, B)
  | None => match search width (fun B => Some (Mof ty width states mu B)) fuel Minitial (-1/10) (1/10) with
            | None => None
            | Some B => Some (Nof ty width states mu B, B)
            end
  end.
(** findMu: lines 408-427 *)
Definition findMu (ty : SmearingType) (width : R) (states : list kstate) (Bz : option R) (Minitial : R) (fuel : nat) (nElectrons : R)
  : option R :=
  search width (fun mu => option_map fst (nElectronsCalc ty width states Bz Minitial fuel mu)) fuel nElectrons (-1/10) 0.
