(** Thermostats, barostats and velocities in molecular dynamics.
    Models /repo/jdftx/electronic/IonicDynamics.cpp lines 30-245 and 258-283, LatticeMinimizer.h line 67, Everything.cpp lines 168-174
    and core/matrix3.h lines 293-315.
    Real idealisation of double.  Positions, forces and the stress of the potential energy are given from outside: [acc] is the result
    of computePE (IonicDynamics.cpp 177-183), [stress0] is iInfo.stress.  Masses are in atomic units (mass*amu).  Velocities in
    SpeciesInfo are in lattice coordinates.  The random numbers are an arbitrary array.  None: index out of range, division by zero or die.
    The constraint functions are those of Ions_Model.v. *)
From Coq Require Import ZArith Reals Bool List.
From Verif Require Import Base Vec3_Model Lattice_Model Sym_Model Ions_Model.
Import ListNotations.
Local Open Scope R_scope.

(** IonicDynamicsParams.h lines 30-46 *)
Inductive stat := StatNone | Berendsen | NoseHoover.
Record dynp := DynP { statMethod : stat; T0 : R; tDampT : R; tDampP : R; B0 : R; chainLengthT : nat; chainLengthP : nat;
  hasP0 : bool; P0 : R; hasStress0 : bool; stressT0 : mat R }.
Definition stat_on (s : stat) : bool := match s with StatNone => false | _ => true end.
(** constructor: lines 32-34 *)
Definition statT (d : dynp) : bool := stat_on (statMethod d).
Definition statP (d : dynp) : bool := statT d && hasP0 d.
Definition statStress (d : dynp) : bool := statT d && hasStress0 d.
Definition baro_on (d : dynp) : bool := statP d || statStress d.
(** lines 66-67 *)
Definition stressTarget (d : dynp) : mat R := if statP d then rmscale (- P0 d) rid else stressT0 d.
(** LatticeMinimizer.h line 67; trace(Pfree) is an integer, the number of free directions *)
Definition nFree (d : dynp) (free : Z) : Z := if statP d then 1%Z else free.

(** Everything.cpp lines 170-174 *)
Definition nDimOf (cs : csys) : Z :=
  let n := fold_left (fun n i => n + Z.of_nat (getDimension (cons_at cs (fst i) (snd i))))%Z (atoms cs) 0%Z in
  if Z.eqb n 0 then 1%Z else n.
(** constructor: lines 41-54 *)
Definition nDOFof (cs : csys) : option Z :=
  let nDOF := nDimOf cs in
  let nDOF := if Z.eqb nDOF (3 * Z.of_nat (length (atoms cs))) then (nDOF - 3)%Z else nDOF in
  if Z.eqb nDOF 0 then None else Some nDOF.

(** LatticeGradient: electronic/LatticeMinimizer.h lines 30-40.  thermostat and barostat are indexed from 0 *)
Record lgrad := LG { ionic : grad; lattice : mat R; thermo : nat -> R; baro : nat -> R }.
(** axpy: LatticeMinimizer.cpp lines 66-72 *)
Definition laxpy (alpha : R) (x y : lgrad) : lgrad :=
  LG (gaxpy alpha (ionic x) (ionic y)) (rmadd (lattice y) (rmscale alpha (lattice x)))
     (fun j => thermo y j + alpha * thermo x j) (fun j => baro y j + alpha * baro x j).
Definition lzero : lgrad := LG gzero (rdiag 0 0 0) (fun _ => 0) (fun _ => 0).

(** symmetricMatrix3: matrix3.h lines 295, 304-315 *)
Definition packSym (m : mat R) : list R := [m00 m; m11 m; m22 m; m12 m; m20 m; m01 m].
Definition unpackSym (l : list R) : mat R :=
  let xx := nth 0 l 0 in let yy := nth 1 l 0 in let zz := nth 2 l 0 in let yz := nth 3 l 0 in let zx := nth 4 l 0 in let xy := nth 5 l 0 in
  M xx xy zx xy yy yz zx yz zz.

(** velocities kept between steps: SpeciesInfo::velocities, IonInfo::thermostat, IonInfo::barostat *)
Record vstore := VStore { velocities : grad; s_thermo : nat -> R; s_baro : list R }.

(** setVelocities: lines 128-146 *)
Definition setVelocities (d : dynp) (Rl : mat R) (old : vstore) (v : lgrad) : vstore :=
  VStore (gmat (rinv Rl) (ionic v)) (thermo v)
    (if baro_on d then match statMethod d with
                       | NoseHoover => packSym (lattice v) ++ map (baro v) (seq 0 (chainLengthP d))
                       | _ => s_baro old end
     else s_baro old).
(** getVelocities: lines 103-125; C, CL: ionic and lattice parts of lmin.constrain; stress: the member set by computePressure *)
Definition getVelocities (d : dynp) (Rl : mat R) (C : grad -> grad) (CL : mat R -> mat R) (stress : mat R) (s : vstore) : lgrad :=
  let L := if baro_on d then match statMethod d with
             | Berendsen => rmscale (1 / (tDampP d * B0 d)) (rmsub (stressTarget d) stress)
             | NoseHoover => unpackSym (s_baro s)
             | StatNone => rdiag 0 0 0 end
           else rdiag 0 0 0 in
  LG (C (gmat Rl (velocities s))) (CL L) (s_thermo s) (fun j => nth (6 + j) (s_baro s) 0).

(** RTR.metric_length_squared: matrix3.h lines 122-127 *)
Definition metric2 (G : mat R) (v : vec R) : R :=
  c0 v * c0 v * m00 G + c1 v * c1 v * m11 G + c2 v * c2 v * m22 G
  + 2 * (c0 v * c1 v * m01 G + c0 v * c2 v * m02 G + c1 v * c2 v * m12 G).
(** computeKE: lines 169-175 *)
Definition computeKE (cs : csys) (mass : nat -> R) (Rl : mat R) (vel : grad) : R :=
  fold_left (fun KE i => KE + (1/2 * mass (fst i)) * metric2 (rmm (mtrans Rl) Rl) (vel (fst i) (snd i))) (atoms cs) 0.
Definition temperature (nDOF : Z) (KE : R) : R := 2 * KE / IZR nDOF.
(** computePressure: lines 150-161 *)
Definition totalStress (cs : csys) (mass : nat -> R) (Rl : mat R) (stress0 : mat R) (vel : grad) : mat R :=
  fold_left (fun stress i => let vCart := rmv Rl (vel (fst i) (snd i)) in
    rmsub stress (rmscale (mass (fst i) / rdet Rl) (outer vCart vCart))) (atoms cs) stress0.
Definition pressure (stress : mat R) : R := (-1/3) * rtrace stress.

(** one chain of thermostats: lines 206-214 and 225-233; first: the coupling of the first one to the system; n1: its weight in the second one *)
Definition chainAccel (n : nat) (w2 first n1 : R) (v : nat -> R) (j : nat) : R :=
  let a := match j with
           | O => first
           | 1%nat => n1 * (v (j - 1)%nat)^2 - w2
           | _ => 1 * (v (j - 1)%nat)^2 - w2
           end in
  if Nat.ltb (j + 1) n then a - v j * v (j + 1)%nat else a.

(** thermostat: lines 185-245.  Returns accelV; the velocities are also stored *)
Definition thermostat (d : dynp) (cs : csys) (mass : nat -> R) (nDOF free : Z) (Rl : mat R) (C : grad -> grad) (CL : mat R -> mat R)
  (stress0 : mat R) (vel : lgrad) : option lgrad :=
  let vels := gmat (rinv Rl) (ionic vel) in
  let KE := computeKE cs mass Rl vels in
  let stress := totalStress cs mass Rl stress0 vels in
  match statMethod d with
  | StatNone => Some lzero
  | Berendsen =>
    let relErrKE := KE / (1/2 * IZR nDOF * T0 d) - 1 in
    let omegaDamp := 1 / tDampT d in
    let minusGammaDamp := - (1/2) * omegaDamp * relErrKE in
    let a := gscaleI minusGammaDamp (ionic vel) in
    let a := if baro_on d then gaxpy (-1) (gmat (lattice vel) (ionic vel)) a else a in
    Some (LG (C a) (CL (rdiag 0 0 0)) (fun _ => 0) (fun _ => 0))
  | NoseHoover =>
    if Nat.eqb (chainLengthT d) 0 then None
    else if baro_on d && Nat.eqb (chainLengthP d) 0 then None
    else
    let relErrKE := KE / (1/2 * IZR nDOF * T0 d) - 1 in
    let omegaDamp := 1 / tDampT d in
    let omegaDampSq := omegaDamp * omegaDamp in
    let minusGammaDamp := - thermo vel 0%nat in
    let th := chainAccel (chainLengthT d) omegaDampSq (omegaDampSq * relErrKE) (IZR nDOF) (thermo vel) in
    if baro_on d then
      let minusGammaDamp := minusGammaDamp - rtrace (lattice vel) / IZR nDOF in
      let omegaDampL := 1 / tDampP d in
      let omegaDampLsq := omegaDampL * omegaDampL in
      let nF := nFree d free in
      let nDOF_L := Z.div (nF * (nF + 1)) 2 in
      let aL := rmsub (rmscale (omegaDampLsq / (IZR (nDOF + nF) * T0 d))
                        (rmadd (rmscale (rdet Rl) (rmsub (stressTarget d) stress)) (rmscale (2 * KE / IZR nDOF) rid)))
                      (rmscale (baro vel 0%nat) (lattice vel)) in
      let ba := chainAccel (chainLengthP d) omegaDampLsq
                  (IZR (nDOF + nF) * 1 / IZR nDOF_L * rtrace (rmm (mtrans (lattice vel)) (lattice vel)) - omegaDampLsq)
                  (IZR nDOF_L) (baro vel) in
      let a := gaxpy (-1) (gmat (lattice vel) (ionic vel)) (gscaleI minusGammaDamp (ionic vel)) in
      Some (LG (C a) (CL aL) th ba)
    else Some (LG (C (gscaleI minusGammaDamp (ionic vel))) (CL (rdiag 0 0 0)) th (fun _ => 0))
  end.

(** initializeVelocities: lines 80-100; g: the random numbers, massU: masses in atomic mass units; None: division by zero *)
Definition initializeVelocities (d : dynp) (cs : csys) (amu : R) (massU : nat -> R) (nDOF : Z) (Rl : mat R) (C : grad -> grad) (g : grad) : option grad :=
  let v : grad := fun sp a => rvscale (1 / sqrt (massU sp)) (g sp a) in
  let v := C v in
  let vels := gmat (rinv Rl) v in
  let KE := computeKE cs (fun sp => massU sp * amu) Rl vels in
  if Req_EM_T KE 0 then None else
  let keRatio := (1/2 * IZR nDOF * T0 d) / KE in
  Some (gscaleI (sqrt keRatio) vels).

(** one iteration of run, lines 272-282, without barostat and constraints on the chain: Verlet step with predictor and corrector.
    pos0 -> pos: imin.step; accelAt: computePE; stat: thermostat *)
Definition verletStep (step : lgrad -> grad -> grad) (accelAt : grad -> lgrad) (stat : lgrad -> lgrad) (dt : R)
  (s : grad * lgrad * lgrad * lgrad) : grad * lgrad * lgrad * lgrad :=
  let '(pos, vel, accel, accelV) := s in
  let vel := laxpy (1/2 * dt) (laxpy 1 accelV accel) vel in
  let pos := step vel pos in
  let accel := accelAt pos in
  let vel := laxpy (1/2 * dt) (laxpy 1 accelV accel) vel in
  let accelVnew := stat vel in
  let vel := laxpy (1/2 * dt) (laxpy (-1) accelV accelVnew) vel in
  (pos, vel, accel, stat vel).
