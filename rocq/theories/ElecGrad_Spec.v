(** Specification for the electronic gradients and steps. *)
From Coq Require Import Reals.
From Coq Require Fin.
From Coquelicot Require Import Coquelicot.
From Verif Require Import CMat MatFun_Spec.
Open Scope C_scope.

(** position of an index *)
Definition pos {n} (i : Fin.t n) : nat := proj1_sig (Fin.to_nat i).
(** lower triangular with positive diagonal *)
Definition lowerPos {n} (L : mat n n) : Prop := (forall i j, (pos i < pos j)%nat -> L i j = 0) /\ (forall i, Im (L i i) = 0%R /\ (0 < Re (L i i))%R).
(** ZPOTRF and ZTRTRI *)
Definition choleskyTri {n} (A Linv : mat n n) : Prop := exists L, A = mmul L (madj L) /\ mmul Linv L = mone /\ mmul L Linv = mone /\ lowerPos L /\ lowerPos Linv.
Definition orthonormal {m n} (O : mat m m) (Cq : mat m n) : Prop := mmul (madj Cq) (mmul O Cq) = mone.
(** Derivative of an energy of wavefunctions and fillings, when HC is its derivative with respect to the wavefunctions up to weight and fillings:
    dE = w ( sum_b F_b 2 Re <HC_b|dC_b> + sum_b <C_b|HC_b> dF_b ) *)
Definition energyDerivative {m n} (w : R) (Cq HC dC : mat m n) (F dF : Fin.t n -> R) : R :=
  (w * (2 * Re (fsum (fun b => RtoC (F b) * fsum (fun g => Cconj (HC g b) * dC g b))%C) + Re (fsum (fun b => fsum (fun g => Cconj (Cq g b) * HC g b) * RtoC (dF b))%C)))%R.
(** A differentiable energy of wavefunctions and fillings with that derivative at (Cq, F) along every path. *)
Definition energyFunctional {m n} (G : mat m n -> (Fin.t n -> R) -> R) (w : R) (Cq HC : mat m n) (F : Fin.t n -> R) : Prop :=
  forall (P : R -> mat m n) (f : R -> Fin.t n -> R) dC dF, P 0%R = Cq -> f 0%R = F -> mderive P 0 dC -> (forall b, is_derive (fun a => f a b) 0 (dF b)) ->
  is_derive (fun a => G (P a) (f a)) 0 (energyDerivative w Cq HC dC F dF).
(** sum of real numbers over bands *)
Definition rsumF {n} (x : Fin.t n -> R) : R := Re (fsum (fun b => RtoC (x b))).
(** energy of a fixed Hamiltonian: w sum_b F_b <C_b|H|C_b> *)
Definition bandEnergy {m n} (w : R) (H : mat m m) (Cq : mat m n) (F : Fin.t n -> R) : R :=
  (w * rsumF (fun b => F b * Re (fsum (fun g => Cconj (Cq g b) * fsum (fun g' => H g g' * Cq g' b))%C)))%R.
(** bookkeeping of rotations *)
From Verif Require Import MatFun_Model ElecGrad_Model.
Definition wf {m n} (s : mstate m n) : Prop :=
  unitary (sRot s) /\ mmul (sRotC s) (sRotCinv s) = mone /\ mmul (sRotCinv s) (sRotC s) = mone /\ (sExists s = false -> sRot s = mone /\ sRotC s = mone).
(** [reaches O d B s a s']: steps along the same direction lead from s to s' with total length a, all results of LAPACK meeting their contracts *)
Inductive reaches {m n} (O : mat m m) (d : mat m n) (B : mat n n) (s : mstate m n) : R -> mstate m n -> Prop :=
| reach_start : reaches O d B s 0%R s
| reach_step : forall a s' alpha Linv rot eigs inv, reaches O d B s a s' ->
    choleskyTri (mmul (madj (movedC s' alpha d)) (mmul O (movedC s' alpha d))) Linv ->
    eigensystem (movedH s' alpha B) rot eigs ->
    mmul inv (mmul (orthoMatrix Linv) rot) = mone -> mmul (mmul (orthoMatrix Linv) rot) inv = mone ->
    reaches O d B s (a + alpha)%R (stepRot s' alpha d Linv rot eigs inv).
(** at the start of a line search: no rotations yet, or rotations made unitary by report *)
Definition ready {m n} (s : mstate m n) : Prop := sExists s = false \/ (unitary (sRot s) /\ sRotC s = sRot s /\ sRotCinv s = madj (sRot s)).
(** free energy E - T S of one state, and its number of electrons, after a step of length a with chemical potential mu a *)
From Verif Require Import Smear_Model.
Definition freeEnergyAt {m n} (s : mstate m n) (d : mat m n) (w width : R) (ty : SmearingType) (G : mat m n -> (Fin.t n -> R) -> R)
  (Linv rot : R -> mat n n) (eigs : R -> Fin.t n -> R) (mu : R -> R) (inv : R -> mat n n) (a : R) : R :=
  let s' := stepRot s a d (Linv a) (rot a) (eigs a) (inv a) in
  (G (sC s') (fun b => smear ty width (mu a) (sEigs s' b)) - w * rsumF (fun b => width * smearEntropy ty width (mu a) (sEigs s' b)))%R.
Definition electronsAt {m n} (s : mstate m n) (d : mat m n) (w width : R) (ty : SmearingType)
  (Linv rot : R -> mat n n) (eigs : R -> Fin.t n -> R) (mu : R -> R) (inv : R -> mat n n) (a : R) : R :=
  let s' := stepRot s a d (Linv a) (rot a) (eigs a) (inv a) in (w * rsumF (fun b => smear ty width (mu a) (sEigs s' b)))%R.
