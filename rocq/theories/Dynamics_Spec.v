(** Energies of thermostatted systems, trajectories and allowed strain rates. *)
From Coq Require Import ZArith Reals Bool List.
From Coquelicot Require Import Coquelicot.
From Verif Require Import Base Vec3_Model Lattice_Model Sym_Model Sym_Spec Ions_Model Ions_Spec Dynamics_Model.
Import ListNotations.
Local Open Scope R_scope.

(** kinetic energy of Cartesian velocities *)
Definition kinetic (cs : csys) (mass : nat -> R) (v : grad) : R := total cs (fun sp a => 1/2 * mass sp * ((c0 (v sp a))^2 + (c1 (v sp a))^2 + (c2 (v sp a))^2)).
(** work done per time by accelerations *)
Definition power (cs : csys) (mass : nat -> R) (acc v : grad) : R :=
  total cs (fun sp a => mass sp * (c0 (acc sp a) * c0 (v sp a) + c1 (acc sp a) * c1 (v sp a) + c2 (acc sp a) * c2 (v sp a))).
(** sum of products of the entries *)
Definition contract (a b : mat R) : R :=
  m00 a * m00 b + m01 a * m01 b + m02 a * m02 b + m10 a * m10 b + m11 a * m11 b + m12 a * m12 b + m20 a * m20 b + m21 a * m21 b + m22 a * m22 b.
(** a chain of thermostats of frequency squared w2 at temperature T, the first one controlling n0 degrees of freedom, all others one:
    kinetic energies with masses (number controlled) T / w2, and potential energies (number controlled) T eta *)
Definition chain_energy (n : nat) (n0 T w2 : R) (v eta : nat -> R) : R :=
  fold_right (fun j acc => (if Nat.eqb j 0 then n0 else 1) * T * (1/2 * (v j)^2 / w2 + eta j) + acc) 0 (seq 0 n).

(** derivatives of vectors, matrices and sets of vectors with respect to time *)
Definition vderive (f : R -> vec R) (t : R) (v : vec R) : Prop :=
  is_derive (fun s => c0 (f s)) t (c0 v) /\ is_derive (fun s => c1 (f s)) t (c1 v) /\ is_derive (fun s => c2 (f s)) t (c2 v).
Definition mderive (f : R -> mat R) (t : R) (m : mat R) : Prop :=
  (is_derive (fun s => m00 (f s)) t (m00 m) /\ is_derive (fun s => m01 (f s)) t (m01 m) /\ is_derive (fun s => m02 (f s)) t (m02 m)) /\
  (is_derive (fun s => m10 (f s)) t (m10 m) /\ is_derive (fun s => m11 (f s)) t (m11 m) /\ is_derive (fun s => m12 (f s)) t (m12 m)) /\
  (is_derive (fun s => m20 (f s)) t (m20 m) /\ is_derive (fun s => m21 (f s)) t (m21 m) /\ is_derive (fun s => m22 (f s)) t (m22 m)).
Definition gderive (cs : csys) (f : R -> grad) (t : R) (g : grad) : Prop := forall sp a, In (sp, a) (atoms cs) -> vderive (fun s => f s sp a) t (g sp a).

(** strain rates that keep the fixed directions and the rotations; for the hydrostatic barostat, the same in all free directions *)
Definition strain_ok (Rl : mat R) (sym : list SpaceGroupOp) (P : mat R) (isotropic : bool) (L : mat R) : Prop :=
  mtrans L = L /\ rmm (rmm P L) P = L /\ (forall p, In p sym -> rmm (rmm (cartesian Rl p) L) (mtrans (cartesian Rl p)) = L) /\
  (isotropic = true -> exists k, L = rmscale k P).

(** trace of a linear map on displacements: the dimension of its range, for a projection *)
Definition unit_at (sp a k : nat) : grad := fun sp' a' => if Nat.eqb sp' sp && Nat.eqb a' a then match k with O => V 1 0 0 | 1%nat => V 0 1 0 | _ => V 0 0 1 end else V 0 0 0.
Definition gtrace_of (cs : csys) (C : grad -> grad) : R :=
  total cs (fun sp a => c0 (C (unit_at sp a 0) sp a) + c1 (C (unit_at sp a 1) sp a) + c2 (C (unit_at sp a 2) sp a)).

(** *** Trajectories *)
(** lattice vectors, velocities, time integrals of the thermostat and barostat velocities, potential energy, accelerations and stress due to it,
    work done against the target stress *)
Record traj := Traj { x_R : R -> mat R; x_v : R -> lgrad; x_eta : R -> nat -> R; x_etab : R -> nat -> R; x_PE : R -> R; x_acc : R -> grad; x_stress : R -> mat R; x_work : R -> R }.
(** a system: parameters, constraints, masses, numbers of degrees of freedom, symmetries and free lattice directions *)
Record system := System { y_d : dynp; y_cs : csys; y_mass : nat -> R; y_nDOF : Z; y_free : Z; y_sym : list SpaceGroupOp; y_map : nat -> nat -> nat -> nat; y_ext : bool; y_P : mat R }.
Definition accelV (y : system) (x : traj) (t : R) : option lgrad :=
  thermostat (y_d y) (y_cs y) (y_mass y) (y_nDOF y) (y_free y) (x_R x t) (constrain (x_R x t) (y_sym y) (y_map y) (y_cs y) (y_ext y))
    (constrainLattice (x_R x t) (y_sym y) (y_P y) (statP (y_d y))) (x_stress x t) (x_v x t).
(** the equations of motion that the Verlet steps integrate: forces plus the velocity-dependent accelerations;
    accelerations and stress are derivatives of the potential energy *)
Record moves (y : system) (x : traj) (t : R) : Prop := {
  mv_acc : exists aV, accelV y x t = Some aV /\
    gderive (y_cs y) (fun s => ionic (x_v x s)) t (fun sp a => rvadd (x_acc x t sp a) (ionic aV sp a)) /\
    mderive (fun s => lattice (x_v x s)) t (lattice aV) /\
    (forall j, (j < chainLengthT (y_d y))%nat -> is_derive (fun s => thermo (x_v x s) j) t (thermo aV j)) /\
    (forall j, (j < chainLengthP (y_d y))%nat -> is_derive (fun s => baro (x_v x s) j) t (baro aV j));
  mv_cell : mderive (x_R x) t (rmm (lattice (x_v x t)) (x_R x t));
  mv_eta : forall j, is_derive (fun s => x_eta x s j) t (thermo (x_v x t) j);
  mv_etab : forall j, is_derive (fun s => x_etab x s j) t (baro (x_v x t) j);
  mv_PE : is_derive (x_PE x) t (- power (y_cs y) (y_mass y) (x_acc x t) (ionic (x_v x t)) + rdet (x_R x t) * contract (lattice (x_v x t)) (x_stress x t));
  mv_work : is_derive (x_work x) t (- rdet (x_R x t) * contract (lattice (x_v x t)) (stressTarget (y_d y))) }.
(** energy of the ions and of the thermostat chain *)
Definition energyT (y : system) (x : traj) (t : R) : R :=
  x_PE x t + kinetic (y_cs y) (y_mass y) (ionic (x_v x t))
  + chain_energy (chainLengthT (y_d y)) (IZR (y_nDOF y)) (T0 (y_d y)) ((1 / tDampT (y_d y))^2) (thermo (x_v x t)) (x_eta x t).
(** and of the cell: n free directions, n (n+1) / 2 strains *)
Definition energyP (y : system) (x : traj) (n : Z) (t : R) : R :=
  energyT y x t + x_work x t
  + 1/2 * (IZR (y_nDOF y + n) * T0 (y_d y) * (tDampP (y_d y))^2) * contract (lattice (x_v x t)) (lattice (x_v x t))
  + chain_energy (chainLengthP (y_d y)) (IZR (n * (n + 1)) / 2) (T0 (y_d y)) ((1 / tDampP (y_d y))^2) (baro (x_v x t)) (x_etab x t).
(** velocities allowed by the constraints and symmetries; pos: positions of the atoms of each species *)
Definition velocity_ok (Rl : mat R) (sym : list SpaceGroupOp) (pos : nat -> list (vec R)) (cs : csys) (extPot : bool) (v : grad) : Prop :=
  allowed cs extPot v /\ forall p, In p sym -> symmetric Rl pos p v.
(** no constraints that involve several atoms *)
Definition noPlane (cs : csys) : Prop := forall sp a, In (sp, a) (atoms cs) -> ctyp (cons_at cs sp a) <> CHyperPlane.
