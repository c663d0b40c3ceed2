(** Specification of force matrices of phonons. *)
From Coq Require Import ZArith Reals List.
From Verif Require Import Vec3_Model ExCompute_Spec.
Import ListNotations.
Local Open Scope R_scope.

(** cells of a periodic supercell *)
Definition inSup (s R : nat * nat * nat) : Prop := let '(s0, s1, s2) := s in let '(R0, R1, R2) := R in (R0 < s0)%nat /\ (R1 < s1)%nat /\ (R2 < s2)%nat.
Definition negCell (s R : nat * nat * nat) : nat * nat * nat :=
  let '(s0, s1, s2) := s in let '(R0, R1, R2) := R in (((s0 - R0) mod s0)%nat, ((s1 - R1) mod s1)%nat, ((s2 - R2) mod s2)%nat).
Definition allCells (s : nat * nat * nat) : list (nat * nat * nat) := let '(s0, s1, s2) := s in list_prod (list_prod (seq 0 s0) (seq 0 s1)) (seq 0 s2).
(** [d i R j]: force on mode j in cell R due to mode i in the first cell *)
Definition forces := nat -> nat * nat * nat -> nat -> R.
(** action equals reaction under exchange of the two modes *)
Definition symmetricForces (nAtoms : nat) (s : nat * nat * nat) (d : forces) : Prop :=
  forall i j R, (i < 3 * nAtoms)%nat -> (j < 3 * nAtoms)%nat -> inSup s R -> d i R j = d j (negCell s R) i.
(** no net force along any direction, and no force due to a uniform displacement *)
Definition noNetForce (nAtoms : nat) (s : nat * nat * nat) (d : forces) : Prop :=
  (forall i b, (i < 3 * nAtoms)%nat -> (b < 3)%nat -> sumR (allCells s) (fun R => sumR (seq 0 nAtoms) (fun j => d i R (3 * j + b)%nat)) = 0) /\
  (forall j a, (j < 3 * nAtoms)%nat -> (a < 3)%nat -> sumR (allCells s) (fun R => sumR (seq 0 nAtoms) (fun i => d (3 * i + a)%nat R j)) = 0).
(** inner product of force matrices *)
Definition forceDot (nAtoms : nat) (s : nat * nat * nat) (d e : forces) : R :=
  sumR (allCells s) (fun R => sumR (seq 0 (3 * nAtoms)) (fun i => sumR (seq 0 (3 * nAtoms)) (fun j => d i R j * e i R j))).

(** the same for force matrices on a list of lattice vectors *)
Definition symmetricOn (nAtoms : nat) (cells : list (vec Z)) (F : vec Z -> nat -> nat -> R) : Prop :=
  forall c m1 m2, In c cells -> (m1 < 3 * nAtoms)%nat -> (m2 < 3 * nAtoms)%nat -> F c m1 m2 = F (zvopp c) m2 m1.
Definition noNetForceOn (nAtoms : nat) (cells : list (vec Z)) (F : vec Z -> nat -> nat -> R) : Prop :=
  (forall m1 b, (m1 < 3 * nAtoms)%nat -> (b < 3)%nat -> sumR cells (fun c => sumR (seq 0 nAtoms) (fun j => F c m1 (3 * j + b)%nat)) = 0) /\
  (forall m2 a, (m2 < 3 * nAtoms)%nat -> (a < 3)%nat -> sumR cells (fun c => sumR (seq 0 nAtoms) (fun i => F c (3 * i + a)%nat m2)) = 0).
(** The first derivative at the zone centre, along lattice direction l, of the force between uniform displacements *)
Definition gammaSlope (nAtoms : nat) (cells : list (vec Z)) (F : vec Z -> nat -> nat -> R) (l a b : nat) : R :=
  sumR cells (fun c => IZR (vget c l) * sumR (seq 0 nAtoms) (fun i => sumR (seq 0 nAtoms) (fun j => F c (3 * i + a)%nat (3 * j + b)%nat))).
(** What the cell map guarantees (C72): distinct cells, closed under inversion, with weights symmetric under exchange of the atoms that add up to one over every class of equivalent cells. *)
Record goodCells (nAtoms : nat) (s : nat * nat * nat) (wrap : vec Z -> nat * nat * nat) (cells : list (vec Z)) (w : vec Z -> nat -> nat -> R) : Prop := {
  gc_nodup : NoDup cells;
  gc_opp : forall c, In c cells -> In (zvopp c) cells;
  gc_sym : forall c i j, In c cells -> (i < nAtoms)%nat -> (j < nAtoms)%nat -> w c i j = w (zvopp c) j i;
  gc_unit : forall i j (f : nat * nat * nat -> R), (i < nAtoms)%nat -> (j < nAtoms)%nat -> sumR cells (fun c => w c i j * f (wrap c)) = sumR (allCells s) f }.

(** ** Free energies of independent oscillators *)
From Coquelicot Require Import Coquelicot.
(** partition function of an oscillator of frequency omega at temperature T (Boltzmann constant one) *)
Definition partition (omega T Z : R) : Prop := is_series (fun n => exp (- ((INR n + 1 / 2) * omega) / T)) Z.
Definition positive (e : R) : bool := if Rlt_dec 0 e then true else false.
(** weighted sum over wavevectors and over the modes of real frequency *)
Definition sumModes (points : list (R * list R)) (phi : R -> R) : R := sumR points (fun p => fst p * sumR (filter positive (snd p)) (fun e => phi (sqrt e))).
