(** Density constraints of fluid mixtures: fixed molecule counts and neutrality of the unit cell.
    Models /repo/jdftx/fluid/FluidMixtureCompute.cpp lines 29-43 (Qtot) and 68-131 (scale factors of the densities).
    Real idealisation of double (the reset of lines 112-113 for a Qcell that is not a number is not modelled); the total charge at betaV = -HUGE_VAL is
    infinite if there is a free positive species and zero otherwise, similarly at +HUGE_VAL (lines 103-106, for nonzero counts). *)
From Coq Require Import List Reals Bool.
Import ListNotations.
Local Open Scope R_scope.

Definition ltb (x y : R) : bool := if Rlt_dec x y then true else false.
Definition nzb (x : R) : bool := if Req_EM_T x 0 then false else true.
(** Nnorm, N0 (line 83) and getCharge of one component *)
Record comp := Comp { Nnorm : R; N0 : R; Qmol : R }.
(** lines 82, 84 and 120: a charged component without fixed count *)
Definition isFree (c : comp) : bool := nzb (Qmol c) && negb (ltb 0 (Nnorm c)).
(** lines 89-92 *)
Definition N0Q (cs : list comp) : list (R * R) := map (fun c => (N0 c, Qmol c)) (filter isFree cs).
(** lines 76-77 and 87 *)
Definition Qfixed (rhoExt : R) (cs : list comp) : R :=
  fold_left (fun q c => if ltb 0 (Nnorm c) then q + Qmol c * Nnorm c else q) cs rhoExt.
(** lines 29-43: the charge and its derivative *)
Definition Qtot (betaV : R) (l : list (R * R)) : R * R :=
  fold_left (fun acc p => let Q := snd p in let N := fst p * exp (- Q * betaV) in
    (fst acc + Q * N, snd acc + - Q * Q * N)) l (0, 0).
(** lines 108-116: betaV, Qprime of the last evaluation, and whether the loop ended with the break of line 111 *)
Fixpoint newton (fuel : nat) (Qtol Qfix : R) (l : list (R * R)) (betaV Qprime : R) : R * R * bool :=
  match fuel with
  | O => (betaV, Qprime, false)
  | S k => let '(Qt, Qp) := Qtot betaV l in let Qcell := Qfix + Qt in
      if ltb (Rabs Qcell) (Rabs Qtol) then (betaV, Qp, true) else newton k Qtol Qfix l (betaV - Qcell / Qp) Qp
  end.
Inductive outcome := Die | Scaled (betaV Qprime : R) (converged : bool).
(** lines 96-116 *)
Definition solve (Qtol rhoExt : R) (cs : list comp) : outcome :=
  let Qfix := Qfixed rhoExt cs in let l := N0Q cs in
  match l with
  | [] => if ltb (Rabs Qtol) (Rabs Qfix) then Die else Scaled 0 0 true
  | _ => if ltb Qfix 0 && negb (existsb (fun p => ltb 0 (snd p)) l) then Die
         else if ltb 0 Qfix && negb (existsb (fun p => ltb (snd p) 0) l) then Die
         else let '(b, p, conv) := newton 10 Qtol Qfix l 0 0 in Scaled b p conv
  end.
(** lines 69, 85 and 121 *)
Definition Nscale (betaV : R) (c : comp) : R :=
  if ltb 0 (Nnorm c) then Nnorm c / N0 c else if isFree c then exp (- Qmol c * betaV) else 1.
(** lines 71 and 122 *)
Definition Nscale_Qfixed (betaV Qprime : R) (c : comp) : R := if isFree c then exp (- Qmol c * betaV) * Qmol c / Qprime else 0.
(** lines 72, 86 and 123-128; [same] when both indices are equal *)
Definition Nscale_N0 (betaV Qprime : R) (same : bool) (ci cj : comp) : R :=
  (if ltb 0 (Nnorm ci) then (if same then - Nnorm ci / (N0 ci * N0 ci) else 0) else 0)
  + (if isFree ci && isFree cj then Qmol ci * Qmol cj * exp (- (Qmol ci + Qmol cj) * betaV) / Qprime else 0).
