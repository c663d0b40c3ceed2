(** Specification: derivative of a free energy along a change of the auxiliary eigenvalues under constraints. *)
From Coq Require Import Reals.
From Coquelicot Require Import Coquelicot.
From Verif Require Import Smear_Model FillGrad_Model.
Open Scope R_scope.

(** A path of auxiliary eigenvalues with the multipliers that go with them. *)
Record path := PA { p_eps : nat -> nat -> R -> R; p_mu : R -> R; p_Bz : R -> R }.
Definition epsAt (p : path) (t : R) : nat -> nat -> R := fun q b => p_eps p q b t.
Definition fillAt (u : setup) (p : path) (t : R) (q b : nat) : R := filling u (p_mu p t) (p_Bz p t) (epsAt p t) q b.
Definition NAt (u : setup) (p : path) (t : R) : R := Ntot u (p_mu p t) (p_Bz p t) (epsAt p t).
Definition MAt (u : setup) (p : path) (t : R) : R := Mtot u (p_mu p t) (p_Bz p t) (epsAt p t).
Definition TSAt (u : setup) (p : path) (t : R) : R := entropyTS u (p_mu p t) (p_Bz p t) (epsAt p t).
(** eps', mu', Bz' exist at t0 *)
Record smooth (u : setup) (p : path) (t0 : R) (deps : nat -> nat -> R) (dmu dBz : R) : Prop := SM {
  s_eps : forall q b, (q < nStates u)%nat -> (b < nBands u)%nat -> is_derive (p_eps p q b) t0 (deps q b);
  s_mu : is_derive (p_mu p) t0 dmu; s_Bz : is_derive (p_Bz p) t0 dBz }.
(** an energy E of the fillings whose derivative with respect to filling (q,b) is weight q * h q b *)
Definition energyOf (u : setup) (h : nat -> nat -> R) (p : path) (t0 : R) (E : R -> R) : Prop :=
  forall dF : nat -> nat -> R, (forall q b, (q < nStates u)%nat -> (b < nBands u)%nat -> is_derive (fun t => fillAt u p t q b) t0 (dF q b)) ->
  is_derive E t0 (rs (nStates u) (fun q => rs (nBands u) (fun b => weight u q * (h q b * dF q b)))).
(** Fermi occupations away from the cutoff of the entropy *)
Definition entropySmooth (u : setup) (p : path) (t0 : R) : Prop :=
  smType u = SmearingFermi -> forall q b, tiny < fillAt u p t0 q b /\ tiny < 1 - fillAt u p t0 q b.
Definition contraction (u : setup) (g deps : nat -> nat -> R) : R := rs (nStates u) (fun q => rs (nBands u) (fun b => g q b * deps q b)).
