(** Properties C78 and C79: thermostats and barostats of the ionic dynamics. *)
From Coq Require Import String ZArith Reals Bool List Lia Lra.
From Coquelicot Require Import Coquelicot.
From Verif Require Import Base SMap Vec3_Model Vec3_Facts Lattice_Model Coulomb_Proofs Sym_Model Sym_Spec Sym_Proofs9 Ions_Model Ions_Spec Ions_Proofs6 Dynamics_Model Dynamics_Spec Dynamics_Proofs3 Dynamics_Proofs4 Dynamics_Proofs5 Dynamics_Proofs6 Dynamics_Proofs7.
Import ListNotations.
Local Open Scope R_scope.

Theorem C78_thermostat_conserves y x pos t0 t1 : 0 < T0 (y_d y) -> tDampT (y_d y) <> 0 -> (0 < y_nDOF y)%Z -> statMethod (y_d y) = NoseHoover -> baro_on (y_d y) = false ->
  parsed (y_cs y) -> orthogonal_planes (y_cs y) -> t0 <= t1 ->
  (forall t, t0 <= t <= t1 -> moves y x t /\ rdet (x_R x t) <> 0 /\ lattice (x_v x t) = rdiag 0 0 0 /\
     symmetric_constraints (x_R x t) (y_sym y) (pos t) (y_map y) (y_cs y) /\ velocity_ok (x_R x t) (y_sym y) (pos t) (y_cs y) (y_ext y) (ionic (x_v x t))) ->
  energyT y x t0 = energyT y x t1.
Proof. exact (nvt y x pos t0 t1). Qed.
Print Assumptions C78_thermostat_conserves.
Example C78_thermostat_conserves_ex : 0 < T0 (y_d yT) /\ tDampT (y_d yT) <> 0 /\ (0 < y_nDOF yT)%Z /\ statMethod (y_d yT) = NoseHoover /\ baro_on (y_d yT) = false /\ parsed (y_cs yT) /\ orthogonal_planes (y_cs yT) /\
  (forall t, moves yT xT t /\ rdet (x_R xT t) <> 0 /\ lattice (x_v xT t) = rdiag 0 0 0 /\
     symmetric_constraints (x_R xT t) (y_sym yT) posPair (y_map yT) (y_cs yT) /\ velocity_ok (x_R xT t) (y_sym yT) posPair (y_cs yT) (y_ext yT) (ionic (x_v xT t))) /\
  x_PE xT 1 <> x_PE xT 0.
Proof. exact exT. Qed.

Theorem C78_barostat_conserves y x pos n t0 t1 : 0 < T0 (y_d y) -> tDampT (y_d y) <> 0 -> tDampP (y_d y) <> 0 -> (0 < y_nDOF y)%Z -> statMethod (y_d y) = NoseHoover -> baro_on (y_d y) = true ->
  unconstrained (y_cs y) -> mtrans (y_P y) = y_P y -> rmm (y_P y) (y_P y) = y_P y -> rtrace (y_P y) <> 0 -> n = (if hasP0 (y_d y) then 1%Z else y_free y) -> (0 < n)%Z -> t0 <= t1 ->
  (forall t, t0 <= t <= t1 -> moves y x t /\ rdet (x_R x t) <> 0 /\ strain_ok (x_R x t) (y_sym y) (y_P y) (statP (y_d y)) (lattice (x_v x t)) /\
     symmetric_constraints (x_R x t) (y_sym y) (pos t) (y_map y) (y_cs y) /\ velocity_ok (x_R x t) (y_sym y) (pos t) (y_cs y) (y_ext y) (ionic (x_v x t))) ->
  energyP y x n t0 = energyP y x n t1.
Proof. exact (npt_n y x pos n t0 t1). Qed.
Print Assumptions C78_barostat_conserves.
Example C78_barostat_conserves_ex : 0 < T0 (y_d yP) /\ tDampT (y_d yP) <> 0 /\ tDampP (y_d yP) <> 0 /\ (0 < y_nDOF yP)%Z /\ statMethod (y_d yP) = NoseHoover /\ baro_on (y_d yP) = true /\
  unconstrained (y_cs yP) /\ mtrans (y_P yP) = y_P yP /\ rmm (y_P yP) (y_P yP) = y_P yP /\ rtrace (y_P yP) <> 0 /\ (0 < nFree (y_d yP) (y_free yP))%Z /\
  (forall t, moves yP xP t /\ rdet (x_R xP t) <> 0 /\ strain_ok (x_R xP t) (y_sym yP) (y_P yP) (statP (y_d yP)) (lattice (x_v xP t)) /\
     symmetric_constraints (x_R xP t) (y_sym yP) posPair (y_map yP) (y_cs yP) /\ velocity_ok (x_R xP t) (y_sym yP) posPair (y_cs yP) (y_ext yP) (ionic (x_v xP t))) /\
  rdet (x_R xP 2) <> rdet (x_R xP 0).
Proof. exact exP. Qed.

Theorem C78_pressure_work y x t : statP (y_d y) = true -> mderive (x_R x) t (rmm (lattice (x_v x t)) (x_R x t)) ->
  is_derive (fun s => P0 (y_d y) * rdet (x_R x s)) t (- rdet (x_R x t) * contract (lattice (x_v x t)) (stressTarget (y_d y))).
Proof. exact (work_pressure y x t). Qed.
Print Assumptions C78_pressure_work.
Example C78_pressure_work_ex t : statP (y_d yP) = true /\ mderive (x_R xP) t (rmm (lattice (x_v xP t)) (x_R xP t)).
Proof. split; [reflexivity|exact (mv_cell _ _ _ (movesP t))]. Qed.

Theorem C78_strain_allowed Ro fixed sym iso Rl A : rdet Ro <> 0 -> space_group sym -> commensurate sym fixed -> (forall p, In p sym -> orthogonal (cartesian Ro p)) ->
  rdet Rl <> 0 -> (forall p, In p sym -> cartesian Rl p = cartesian Ro p) ->
  let P := snd (PfreeOf Ro fixed) in strain_ok Rl sym P iso (constrainLattice Rl sym P iso A).
Proof. exact (strain_of_constrain Ro fixed sym iso Rl A). Qed.
Print Assumptions C78_strain_allowed.
Example C78_strain_allowed_ex : rdet rid <> 0 /\ space_group [eOp] /\ commensurate [eOp] (Nat.eqb 0) /\ (forall p, In p [eOp] -> orthogonal (cartesian rid p)) /\ (forall p, In p [eOp] -> cartesian (cube 2) p = cartesian rid p).
Proof. exact exS. Qed.

Theorem C79_berendsen_temperature d cs mass nDOF free sym am ext (Rl : R -> mat R) pos s0 (v : R -> lgrad) (acc : R -> grad) t:
  statMethod d = Berendsen -> baro_on d = false -> 0 < T0 d -> 0 < tDampT d -> (0 < nDOF)%Z -> parsed cs -> orthogonal_planes cs -> 0 <= t ->
  (forall s, 0 <= s <= t -> rdet (Rl s) <> 0 /\ symmetric_constraints (Rl s) sym (pos s) am cs /\ velocity_ok (Rl s) sym (pos s) cs ext (ionic (v s)) /\
    0 < kinetic cs mass (ionic (v s)) /\ power cs mass (acc s) (ionic (v s)) = 0 /\
    exists aV P, thermostat d cs mass nDOF free (Rl s) (constrain (Rl s) sym am cs ext) (constrainLattice (Rl s) sym P (statP d)) (s0 s) (v s) = Some aV /\
      gderive cs (fun s => ionic (v s)) s (fun sp a => rvadd (acc s sp a) (ionic aV sp a))) ->
  let K s := kinetic cs mass (ionic (v s)) in let K0 := 1/2 * IZR nDOF * T0 d in
  K t = K0 / (1 + (K0 / K 0 - 1) * exp (- (t / tDampT d))).
Proof. exact (berendsen d cs mass nDOF free sym am ext Rl pos s0 v acc t). Qed.
Print Assumptions C79_berendsen_temperature.
Example C79_berendsen_temperature_ex : statMethod dB = Berendsen /\ baro_on dB = false /\ 0 < T0 dB /\ 0 < tDampT dB /\ parsed csPair /\ orthogonal_planes csPair /\
  (forall s, rdet rid <> 0 /\ symmetric_constraints rid [eOp] posPair (fun _ a _ => a) csPair /\ velocity_ok rid [eOp] posPair csPair false (ionic (vB s)) /\
    0 < kinetic csPair (fun _ => 3) (ionic (vB s)) /\ power csPair (fun _ => 3) gzero (ionic (vB s)) = 0 /\
    exists aV P, thermostat dB csPair (fun _ => 3) 3 0 rid (constrain rid [eOp] (fun _ a _ => a) csPair false) (constrainLattice rid [eOp] P (statP dB)) rid (vB s) = Some aV /\
      gderive csPair (fun s => ionic (vB s)) s (fun sp a => rvadd (gzero sp a) (ionic aV sp a))) /\
  kinetic csPair (fun _ => 3) (ionic (vB 0)) = 3 / 2.
Proof. exact exB. Qed.

Theorem C79_berendsen_strain d Rl C sym stress s : statMethod d = Berendsen -> hasP0 d = true -> sym <> [] -> (forall p, In p sym -> orthogonal (cartesian Rl p)) -> tDampP d <> 0 -> B0 d <> 0 ->
  lattice (getVelocities d Rl C (constrainLattice Rl sym rid (statP d)) stress s) = rmscale ((pressure stress - P0 d) / (tDampP d * B0 d)) rid.
Proof. exact (berendsen_strain d Rl C sym stress s). Qed.
Print Assumptions C79_berendsen_strain.


Theorem C79_berendsen_pressure d sym C (Rl : R -> mat R) stress s t : statMethod d = Berendsen -> hasP0 d = true -> sym <> [] -> tDampP d <> 0 -> B0 d <> 0 -> 0 <= t ->
  (forall u, 0 <= u <= t -> rdet (Rl u) <> 0 /\ (forall p, In p sym -> orthogonal (cartesian (Rl u) p)) /\
     mderive Rl u (rmm (lattice (getVelocities d (Rl u) C (constrainLattice (Rl u) sym rid (statP d)) (stress u) s)) (Rl u)) /\
     exists V', is_derive (fun w => rdet (Rl w)) u V' /\ is_derive (fun w => pressure (stress w)) u (- (B0 d * (V' / rdet (Rl u))))) ->
  pressure (stress t) - P0 d = (pressure (stress 0) - P0 d) * exp (- (3 / tDampP d * t)).
Proof. exact (berendsen_pressure d sym C Rl stress s t). Qed.
Print Assumptions C79_berendsen_pressure.
Example C79_berendsen_pressure_ex C s : statMethod dBP = Berendsen /\ hasP0 dBP = true /\ tDampP dBP <> 0 /\ B0 dBP <> 0 /\
  (forall u, rdet (RB u) <> 0 /\ (forall p, In p [eOp] -> orthogonal (cartesian (RB u) p)) /\
     mderive RB u (rmm (lattice (getVelocities dBP (RB u) C (constrainLattice (RB u) [eOp] rid (statP dBP)) (stressB u) s)) (RB u)) /\
     exists V', is_derive (fun w => rdet (RB w)) u V' /\ is_derive (fun w => pressure (stressB w)) u (- (B0 dBP * (V' / rdet (RB u))))) /\
  pressure (stressB 0) = 2.
Proof. exact (exBP C s). Qed.

Theorem C79_pressure cs mass Rl s0 v : rdet Rl <> 0 -> pressure (totalStress cs mass Rl s0 (gmat (rinv Rl) v)) = pressure s0 + 2/3 * kinetic cs mass v / rdet Rl.
Proof. exact (pressure_kinetic cs mass Rl s0 v). Qed.
Print Assumptions C79_pressure.


Theorem C79_initial_temperature d cs amu massU nDOF Rl sym pos am ext g v : 0 <= T0 d -> (0 < nDOF)%Z -> 0 < amu -> (forall sp, 0 < massU sp) -> rdet Rl <> 0 ->
  symmetric_constraints Rl sym pos am cs -> parsed cs -> orthogonal_planes cs ->
  initializeVelocities d cs amu massU nDOF Rl (constrain Rl sym am cs ext) g = Some v ->
  temperature nDOF (computeKE cs (fun sp => massU sp * amu) Rl v) = T0 d /\ velocity_ok Rl sym pos cs ext (gmat Rl v).
Proof. exact (init_temperature d cs amu massU nDOF Rl sym pos am ext g v). Qed.
Print Assumptions C79_initial_temperature.
Example C79_initial_temperature_ex : rdet rid <> 0 /\ symmetric_constraints rid [eOp] posPair (fun _ a _ => a) csPair /\ parsed csPair /\ orthogonal_planes csPair /\
  exists v, initializeVelocities dB csPair 3 (fun _ => 1) 3 rid (constrain rid [eOp] (fun _ a _ => a) csPair false) swing = Some v.
Proof. assert (D : rdet rid <> 0) by (rewrite rid_det1; lra). exact (conj D (conj (pair_sym rid D) (conj (free_parsed _ pair_free) (conj (free_planes _ pair_free) exI)))). Qed.

Theorem C79_storage d Rl C CL stress s v : rdet Rl <> 0 -> statMethod d = NoseHoover -> baro_on d = true -> mtrans (lattice v) = lattice v ->
  let g := getVelocities d Rl C CL stress (setVelocities d Rl s v) in
  coincide (ionic g) (C (ionic v)) /\ lattice g = CL (lattice v) /\ (forall j, thermo g j = thermo v j) /\ (forall j, (j < chainLengthP d)%nat -> baro g j = baro v j).
Proof. exact (store_back d Rl C CL stress s v). Qed.
Print Assumptions C79_storage.
Example C79_storage_ex : rdet (cube 2) <> 0 /\ statMethod dP = NoseHoover /\ baro_on dP = true /\ mtrans (lattice (x_v xP 0)) = lattice (x_v xP 0).
Proof. split; [apply cube_pos; lra|repeat split]. Qed.

Theorem C79_corrector step accelAt stat dt pos vel acc accV : let s' := verletStep step accelAt stat dt (pos, vel, acc, accV) in
  let pos' := fst (fst (fst s')) in let vel' := snd (fst (fst s')) in
  exists pre : lgrad, snd s' = stat vel' /\ snd (fst s') = accelAt pos' /\ pos' = step (laxpy (dt/2) (laxpy 1 accV acc) vel) pos /\
  (forall sp a, ionic pre sp a = rvadd (ionic vel sp a) (rvadd (rvscale (dt/2) (rvadd (ionic acc sp a) (ionic (accelAt pos') sp a))) (rvscale dt (ionic accV sp a)))) /\
  (forall sp a, ionic vel' sp a = rvadd (ionic vel sp a) (rvadd (rvscale (dt/2) (rvadd (ionic acc sp a) (ionic (accelAt pos') sp a))) (rvscale (dt/2) (rvadd (ionic accV sp a) (ionic (stat pre) sp a))))) /\
  (forall j, thermo vel' j = thermo vel j + dt/2 * (thermo acc j + thermo (accelAt pos') j) + dt/2 * (thermo accV j + thermo (stat pre) j)).
Proof. exact (corrector step accelAt stat dt pos vel acc accV). Qed.
Print Assumptions C79_corrector.


Theorem C79_degrees_of_freedom Rl sym am cs k : rdet Rl <> 0 -> (length sym <= 1)%nat -> parsed cs -> noPlane cs -> (exists sp a, In (sp, a) (atoms cs) /\ moveScale (cons_at cs sp a) <> 0) ->
  nDOFof cs = Some k -> gtrace_of cs (constrain Rl sym am cs false) = IZR k.
Proof. exact (dof_count Rl sym am cs k). Qed.
Print Assumptions C79_degrees_of_freedom.
Example C79_degrees_of_freedom_ex : parsed csPair /\ noPlane csPair /\ (exists sp a, In (sp, a) (atoms csPair) /\ moveScale (cons_at csPair sp a) <> 0) /\ nDOFof csPair = Some 3%Z.
Proof. exact exD. Qed.

Theorem C79_hyperplane_refuted : exists cs, parsed cs /\ nDOFof cs = None /\ exists x, allowed cs false x /\ ~ same cs x gzero.
Proof. exact (ex_intro _ csPlane plane_count). Qed.
Print Assumptions C79_hyperplane_refuted.


Theorem C79_all_fixed_refuted : exists cs, parsed cs /\ nDOFof cs = Some 1%Z /\ forall x, allowed cs false x -> same cs x gzero.
Proof. exact (ex_intro _ csFixed fixed_count). Qed.
Print Assumptions C79_all_fixed_refuted.


Theorem C79_external_potential_refuted : exists cs, unconstrained cs /\ nDOFof cs = Some 3%Z /\ gtrace_of cs (constrain rid [] (fun _ a _ => a) cs true) = 6.
Proof. exact (ex_intro _ csPair ext_count). Qed.
Print Assumptions C79_external_potential_refuted.


