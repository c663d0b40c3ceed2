(** Energies of the electronic occupations and the gradient with respect to the auxiliary Hamiltonian.
    Models /repo/jdftx/electronic/ElecInfo.cpp lines 261-284 (updateFillingsEnergies), ElecInfo.h lines 53 and 112,
    /repo/jdftx/electronic/ElecVars.cpp lines 376-387 (fillings), 432-478 (constraint contributions and gradient) and Energies.cpp lines 51-56.
    Doubles are idealised as reals, sums over processes are sums over all states; mu and Bz are None for NAN.
    Only the diagonals of the subspace Hamiltonian and of the gradient are modelled (changes of the auxiliary eigenvalues, not of its eigenvectors). *)
From Coq Require Import Reals.
From Verif Require Import Smear_Model.
Open Scope R_scope.

(** for(int i=0; i<n; i++) sum += f(i) *)
Fixpoint rs (n : nat) (f : nat -> R) : R := match n with O => 0 | S k => rs k f + f k end.
(** the states of a calculation with spin (0, 1 or -1) and weight: QuantumNumber, ElecInfo.h lines 44-54 *)
Record setup := SU { nStates : nat; nBands : nat; spin : nat -> R; weight : nat -> R; smType : SmearingType; smWidth : R }.
(** QuantumNumber::index, ElecInfo.h line 53 *)
Definition spinIndex (s : R) : nat := if Rlt_dec s 0 then 1%nat else 0%nat.
(** ElecInfo.h line 112 *)
Definition muEffq (u : setup) (mu Bz : R) (q : nat) : R := mu + Bz * spin u q.
(** ElecVars.cpp lines 383-384 *)
Definition filling (u : setup) (mu Bz : R) (eps : nat -> nat -> R) (q b : nat) : R := smear (smType u) (smWidth u) (muEffq u mu Bz q) (eps q b).
Definition fprime (u : setup) (mu Bz : R) (eps : nat -> nat -> R) (q b : nat) : R := smearPrime (smType u) (smWidth u) (muEffq u mu Bz q) (eps q b).
(** magnetizationCalc, ElecInfo.cpp lines 361-376 *)
Definition Ntot (u : setup) (mu Bz : R) (eps : nat -> nat -> R) : R := rs (nStates u) (fun q => rs (nBands u) (fun b => weight u q * filling u mu Bz eps q b)).
Definition Mtot (u : setup) (mu Bz : R) (eps : nat -> nat -> R) : R := rs (nStates u) (fun q => rs (nBands u) (fun b => spin u q * (weight u q * filling u mu Bz eps q b))).

(** ** updateFillingsEnergies: ElecInfo.cpp lines 261-284; [found] is what findMu returns (mu and Bz), used only when mu is not given *)
Definition energyMultipliers (mu : option R) (found : R * R) : R * R :=
  match mu with Some m => (m, 0) | None => found end.
Definition entropyTS (u : setup) (mu Bz : R) (eps : nat -> nat -> R) : R :=
  rs (nStates u) (fun q => smWidth u * weight u q * rs (nBands u) (fun b => smearEntropy (smType u) (smWidth u) (muEffq u mu Bz q) (eps q b))).
Definition reportedTS (u : setup) (mu : option R) (found : R * R) (eps : nat -> nat -> R) : R :=
  let m := energyMultipliers mu found in entropyTS u (fst m) (snd m) eps.
Definition reportedMinusMzBz (u : setup) (mu BzTarget : option R) (found : R * R) (eps : nat -> nat -> R) : R :=
  let m := energyMultipliers mu found in
  match BzTarget with
  | None => 0
  | Some _ => - (rs (nStates u) (fun q => spin u q * weight u q * rs (nBands u) (fun b => filling u (fst m) (snd m) eps q b)) * snd m)
  end.
Definition reportedMuN (mu : option R) (nElectrons : R) : R := match mu with Some m => m * nElectrons | None => 0 end.

(** ** Constraint contributions: ElecVars.cpp lines 432-466; [h q b] is the diagonal of Hsub *)
Definition dmuNum (u : setup) (mu Bz : R) (eps h : nat -> nat -> R) (s : nat) : R :=
  rs (nStates u) (fun q => if Nat.eqb (spinIndex (spin u q)) s then weight u q * rs (nBands u) (fun b => fprime u mu Bz eps q b * (h q b - eps q b)) else 0).
Definition dmuDen (u : setup) (mu Bz : R) (eps : nat -> nat -> R) (s : nat) : R :=
  rs (nStates u) (fun q => if Nat.eqb (spinIndex (spin u q)) s then weight u q * rs (nBands u) (fun b => fprime u mu Bz eps q b) else 0).
(** [spinZ] stands for spinType==SpinZ *)
Definition contributions (u : setup) (spinZ : bool) (muTarget BzTarget : option R) (mu Bz : R) (eps h : nat -> nat -> R) : R * R :=
  let n := dmuNum u mu Bz eps h in let d := dmuDen u mu Bz eps in
  let Mconstrain := match BzTarget with None => spinZ | Some _ => false end in
  match muTarget, Mconstrain with
  | None, true => let up := n 0%nat / d 0%nat in let dn := n 1%nat / d 1%nat in (1/2 * (up + dn), 1/2 * (up - dn))
  | Some _, true => (0, (n 0%nat - n 1%nat) / (d 0%nat - d 1%nat))
  | None, false => ((n 0%nat + n 1%nat) / (d 0%nat + d 1%nat), 0)
  | Some _, false => (0, 0)
  end.
(** lines 469-478: diagonal of grad->Haux (smearGrad multiplies the diagonal by smearPrime: ElecInfo.cpp lines 352-354) *)
Definition gradHaux (u : setup) (spinZ : bool) (muTarget BzTarget : option R) (mu Bz : R) (eps h : nat -> nat -> R) (q b : nat) : R :=
  let c := contributions u spinZ muTarget BzTarget mu Bz eps h in
  weight u q * (smearGradFactor (smType u) (smWidth u) (muEffq u mu Bz q) (eps q b) (eps q b) * (h q b - eps q b - muEffq u (fst c) (snd c) q)).
