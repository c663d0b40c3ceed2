(** Property theorems C61 (constraints), C62 (dynamics), C63 (trial steps), C69 (vibrations), C70 (fixed lattice vectors), C71 (safe steps). *)
From Coq Require Import String ZArith Reals Bool List Lra.
From Verif Require Import Base SMap Vec3_Model Lattice_Model Sym_Model Sym_Spec Sym_Proofs9 Ions_Model Ions_Spec Ions_Proofs2 Ions_Proofs3 Ions_Proofs4 Ions_Proofs5 Ions_Proofs6 Ions_Proofs7 Ions_Proofs8 Ions_Proofs9 Ions_Proofs10.
Import ListNotations.
Local Open Scope R_scope.

(** Constraining displacements is the orthogonal projection on the allowed symmetric ones, when different hyperplanes are orthogonal. *)
Theorem C61_projection : forall Rl sym pos atomMap cs, symmetric_constraints Rl sym pos atomMap cs -> rdet Rl <> 0 ->
  forall extPot, parsed cs -> orthogonal_planes cs -> forall x, let y := constrain Rl sym atomMap cs extPot x in
  allowed cs extPot y /\ (forall p, In p sym -> symmetric Rl pos p y) /\
  (allowed cs extPot x -> (forall p, In p sym -> symmetric Rl pos p x) -> same cs y x) /\
  same cs (constrain Rl sym atomMap cs extPot y) y /\
  (forall z, allowed cs extPot z -> (forall p, In p sym -> symmetric Rl pos p z) -> inner cs z y = inner cs z x).
Proof. exact sym_combined. Qed.
Print Assumptions C61_projection.
Example C61_projection_example : symmetric_constraints rid symI posEx (fun _ => swap2) csEx /\ rdet rid <> 0 /\ parsed csEx /\ orthogonal_planes csEx /\ active csEx "g"%string.
Proof. exact (conj ex_symmetric (conj rid_det (conj ex_parsed (conj ex_orth ex_active)))). Qed.
Theorem C61_no_symmetry : forall Rl sym atomMap cs extPot, rdet Rl <> 0 -> (length sym <= 1)%nat -> parsed cs -> orthogonal_planes cs ->
  forall x, let y := constrain Rl sym atomMap cs extPot x in
  allowed cs extPot y /\ (allowed cs extPot x -> same cs y x) /\ same cs (constrain Rl sym atomMap cs extPot y) y /\
  (forall z, allowed cs extPot z -> inner cs z y = inner cs z x).
Proof. exact free_combined. Qed.
Print Assumptions C61_no_symmetry.
Example C61_no_symmetry_example : rdet rid <> 0 /\ (length (@nil SpaceGroupOp) <= 1)%nat /\ parsed csEx /\ orthogonal_planes csEx.
Proof. exact (conj rid_det (conj (Nat.le_0_l 1) (conj ex_parsed ex_orth))). Qed.
(** Hyperplanes that are not orthogonal are not respected, and constraining is then not idempotent. *)
Theorem C61_hyperplanes_refuted : exists cs g x, parsed cs /\ active cs g /\
  let y := constrain rid [] (fun _ a _ => a) cs false x in
  inner cs (normal cs g) y <> 0 /\ ~ same cs (constrain rid [] (fun _ a _ => a) cs false y) y.
Proof. exact planes_refuted. Qed.
Print Assumptions C61_hyperplanes_refuted.
(** The check of the symmetry of constraints accepts hyperplanes that are not symmetric; they are then not respected. *)
Theorem C61_symmetric_hyperplane_refuted : exists cs sym atomMap pos g x, parsed cs /\ orthogonal_planes cs /\ active cs g /\ space_group sym /\
  (forall p, In p sym -> orthogonal (cartesian rid p)) /\ (forall sp, length (pos sp) = nAtoms cs sp) /\ (forall sp, distinct_positions (pos sp)) /\
  (forall sp a k, (a < length (pos sp))%nat -> (k < length sym)%nat -> atom_map (pos sp) (nth k sym (SGO zid (V 0 0 0))) a (atomMap sp a k)) /\
  (forall thr sp a k, 0 < thr -> In (sp, a) (atoms cs) -> (k < length sym)%nat -> isEquivalent thr (cons_at cs sp a) (cons_at cs sp (atomMap sp a k)) (cartesian rid (nth k sym (SGO zid (V 0 0 0)))) = true) /\
  let y := constrain rid sym atomMap cs false x in
  inner cs (normal cs g) y <> 0 /\ ~ same cs (constrain rid sym atomMap cs false y) y.
Proof. exact sym_planes_refuted. Qed.
Print Assumptions C61_symmetric_hyperplane_refuted.

(** With small enough thresholds the check compares the move scales, the types, and the directions after the symmetry operation. *)
Theorem C61_symmetry_check : forall c c' T, orthogonal T ->
  (exists t0, 0 < t0 /\ forall thr, 0 < thr < t0 -> isEquivalent thr c c' T = true) <->
  moveScale c = moveScale c' /\ ctyp c = ctyp c' /\
  (ctyp c = CNone \/ cdir c = V 0 0 0 /\ cdir c' = V 0 0 0 \/ cdir c <> V 0 0 0 /\ cdir c' <> V 0 0 0 /\ exists k, rmv T (cdir c) = rvscale k (cdir c')).
Proof. exact equivalent_sharp. Qed.
Print Assumptions C61_symmetry_check.
Example C61_symmetry_check_example : orthogonal (M 0 1 0 1 0 0 0 0 1) /\ rmv (M 0 1 0 1 0 0 0 0 1) (V 1 2 0) = rvscale (-1) (V (-2) (-1) 0) /\ V 1 2 0 <> V 0 0 0.
Proof. exact equivalent_example. Qed.

(** Reversing the velocities retraces the trajectory. *)
Theorem C62_reversible : forall Rl sym pos atomMap cs extPot mass F dt, symmetric_constraints Rl sym pos atomMap cs -> rdet Rl <> 0 -> parsed cs -> orthogonal_planes cs -> force_field cs F ->
  forall n x v, let C := constrain Rl sym atomMap cs extPot in let accel := fun x => C (accelOf cs mass (rinv Rl) (F x)) in
  let s := mdRun Rl C accel dt n x v in let s' := mdRun Rl C accel dt n (md_pos s) (neg (md_vel s)) in
  same cs (md_pos s') x /\ same cs (gmat Rl (md_vel s')) (neg (C (gmat Rl v))).
Proof. exact md_rev. Qed.
Print Assumptions C62_reversible.
(** The velocities keep obeying the constraints and the symmetries. *)
Theorem C62_velocities_allowed : forall Rl sym pos atomMap cs extPot mass F dt, symmetric_constraints Rl sym pos atomMap cs -> rdet Rl <> 0 -> parsed cs -> orthogonal_planes cs ->
  forall n x v, let C := constrain Rl sym atomMap cs extPot in
  let vel := gmat Rl (md_vel (mdRun Rl C (fun x => C (accelOf cs mass (rinv Rl) (F x))) dt n x v)) in
  allowed cs extPot vel /\ (forall sp a p, In (sp, a) (atoms cs) -> In p sym -> forall b, atom_map (pos sp) p a b -> rmv (mtrans (cartesian Rl p)) (vel sp b) = vel sp a).
Proof. exact md_allowed. Qed.
Print Assumptions C62_velocities_allowed.
Example C62_reversible_example : symmetric_constraints rid symI posEx (fun _ => swap2) csEx /\ rdet rid <> 0 /\ parsed csEx /\ orthogonal_planes csEx /\ force_field csEx (fun x sp a => rvscale (-2) (x sp a)).
Proof. exact (conj ex_symmetric (conj rid_det (conj ex_parsed (conj ex_orth (fun x y H sp a I => f_equal (rvscale (-2)) (H sp a I)))))). Qed.
(** Total momentum: conserved without the projection of the mean acceleration; with it, zero for atoms of equal masses. *)
Theorem C62_momentum_unprojected : forall Rl sym atomMap cs mass F dt n x v, rdet Rl <> 0 -> (length sym <= 1)%nat -> unconstrained cs -> (forall sp, mass sp <> 0) -> force_field cs F ->
  (forall x, net cs (gmat (mtrans (rinv Rl)) (F x)) = V 0 0 0) ->
  let C := constrain Rl sym atomMap cs true in
  momentum cs mass (gmat Rl (md_vel (mdRun Rl C (fun x => C (accelOf cs mass (rinv Rl) (F x))) dt n x v))) = momentum cs mass (gmat Rl v).
Proof. exact momentum_unprojected. Qed.
Print Assumptions C62_momentum_unprojected.
Theorem C62_momentum_equal_masses : forall Rl sym pos atomMap cs m F dt n x v, symmetric_constraints Rl sym pos atomMap cs -> rdet Rl <> 0 -> unconstrained cs -> force_field cs F ->
  let C := constrain Rl sym atomMap cs false in
  momentum cs (fun _ => m) (gmat Rl (md_vel (mdRun Rl C (fun x => C (accelOf cs (fun _ => m) (rinv Rl) (F x))) dt n x v))) = V 0 0 0.
Proof. exact momentum_zero. Qed.
Print Assumptions C62_momentum_equal_masses.
(** In general only the relative accelerations are kept. *)
Theorem C62_relative_acceleration : forall Rl sym atomMap cs x, rdet Rl <> 0 -> (length sym <= 1)%nat -> unconstrained cs ->
  forall sp a sp' a', In (sp, a) (atoms cs) -> In (sp', a') (atoms cs) -> let y := constrain Rl sym atomMap cs false x in
  rvsub (y sp a) (y sp' a') = rvsub (x sp a) (x sp' a').
Proof. exact relative_free. Qed.
Print Assumptions C62_relative_acceleration.
Example C62_momentum_example : rdet rid <> 0 /\ (length (@nil SpaceGroupOp) <= 1)%nat /\ unconstrained csPair /\ force_field csPair (fun _ => pull) /\ (forall x : grad, net csPair (gmat (mtrans (rinv rid)) ((fun _ => pull) x)) = V 0 0 0).
Proof. exact (conj rid_det (conj (Nat.le_0_l 1) (conj pair_free (conj (fun x y _ sp a _ => eq_refl) (fun _ => pair_force))))). Qed.
(** The mean of the accelerations is not weighted by the masses: momentum is not conserved. *)
Theorem C62_momentum_refuted : exists cs mass F dt x v, unconstrained cs /\ (forall sp, 0 < mass sp) /\ force_field cs F /\
  (forall x, net cs (gmat (mtrans (rinv rid)) (F x)) = V 0 0 0) /\
  let run := fun n => mdRun rid (constrain rid [] (fun _ a _ => a) cs false) (fun x => constrain rid [] (fun _ a _ => a) cs false (accelOf cs mass (rinv rid) (F x))) dt n x v in
  momentum cs mass (gmat rid (md_vel (run 0%nat))) = V 0 0 0 /\ momentum cs mass (gmat rid (md_vel (run 1%nat))) <> V 0 0 0.
Proof. exact momentum_lost. Qed.
Print Assumptions C62_momentum_refuted.
(** The accumulated density is the mean. *)
Theorem C62_average : forall dt n0 ns, dt <> 0 -> ns <> [] -> nAccumLoop dt 0 n0 ns = mean ns.
Proof. exact accum_mean. Qed.
Print Assumptions C62_average.
Example C62_average_example : nAccumLoop 1 0 7 [1; 2; 6] = 3.
Proof. rewrite accum_mean; [unfold mean; cbn; lra|lra|discriminate]. Qed.

(** Ionic steps add up and can be undone. *)
Theorem C63_ionic : forall invR d a b x, coincide (ionicStep invR d b (ionicStep invR d a x)) (ionicStep invR d (a + b) x) /\ coincide (ionicStep invR d 0 x) x /\ coincide (ionicStep invR d (- a) (ionicStep invR d a x)) x.
Proof. exact (fun m d a b x => conj (ionic_add m d a b x) (conj (ionic_0 m d x) (ionic_back m d a x))). Qed.
Print Assumptions C63_ionic.
Example C63_ionic_example : ionicStep rid (fun _ _ => V 1 2 3) 2 (fun _ _ => V 1 1 1) 0%nat 0%nat = V 3 5 7.
Proof. exact ionic_ex. Qed.
(** Lattice steps add up when the cell does not change. *)
Theorem C63_lattice_fixed_cell : forall io Ro d L a b s, io = true \/ L = rdiag 0 0 0 -> let st := fun k s => latticeStep io Ro d L k s in
  coincide (lpos (st b (st a s))) (lpos (st (a + b) s)) /\ lR (st b (st a s)) = lR (st (a + b) s) /\ lstrain (st b (st a s)) = lstrain (st (a + b) s).
Proof. exact lattice_add_ionic. Qed.
Print Assumptions C63_lattice_fixed_cell.
(** When it changes, they differ at second order in the steps. *)
Theorem C63_lattice_defect : forall Ro d L a b s, let st := fun k s => latticeStep false Ro d L k s in
  lR (st b (st a s)) = rmadd (lR (st (a + b) s)) (rmscale (a * b) (rmm (rmm L L) (lR s))) /\
  (rdet (rmadd rid (rmscale a L)) <> 0 -> rdet (lR s) <> 0 -> forall sp i,
    lpos (st b (st a s)) sp i = if isZero b then ionicStep (rinv (lR s)) d a (lpos s) sp i
      else rvadd (ionicStep (rinv (lR s)) d a (lpos s) sp i) (rvscale b (rmv (rinv (lR s)) (rmv (rinv (rmadd rid (rmscale a L))) (d sp i))))).
Proof. exact lattice_defect. Qed.
Print Assumptions C63_lattice_defect.
Example C63_lattice_example : rdet (rmadd rid (rmscale (1/4) rid)) <> 0 /\ rdet (rdiag 1 2 3) <> 0.
Proof. exact lattice_ex. Qed.
Theorem C63_lattice_refuted : exists Ro d L a b s, rdet (lR s) <> 0 /\ let st := fun k s => latticeStep false Ro d L k s in
  lR (st b (st a s)) <> lR (st (a + b) s) /\ lR (st (- a) (st a s)) <> lR s.
Proof. exact lattice_not_additive. Qed.
Print Assumptions C63_lattice_refuted.

(** The modes of an atom are an orthonormal basis of its allowed displacements, except for planes normal to z. *)
Theorem C69_modes : forall c, (ctyp c = CLinear \/ ctyp c = CPlanar -> rlen2 (cdir c) <> 0) -> ctyp c <> CHyperPlane \/ moveScale c = 0 ->
  (moveScale c <> 0 -> ctyp c = CPlanar -> c0 (cdir c) <> 0 \/ c1 (cdir c) <> 0) ->
  exists l, modesOf c = Some l /\ orthonormal l /\ spans l (atom_ok c).
Proof. exact modes_ok. Qed.
Print Assumptions C69_modes.
Example C69_modes_example : let c := Constraint 1 (V 1 0 2) CPlanar [] in rlen2 (cdir c) <> 0 /\ ctyp c <> CHyperPlane /\ c0 (cdir c) <> 0.
Proof. exact modes_ex. Qed.
Theorem C69_planar_z_refuted : exists c, moveScale c = 1 /\ ctyp c = CPlanar /\ rlen2 (cdir c) = 1 /\ modesOf c = None.
Proof. exact modes_z_ex. Qed.
Print Assumptions C69_planar_z_refuted.

(** Along every path of constrained steps, fixed lattice vectors do not change, and neither do the cartesian rotations. *)
Theorem C70_fixed_vectors : forall Ro fixed sym iso steps, rdet Ro <> 0 -> space_group sym -> commensurate sym fixed -> (forall p, In p sym -> orthogonal (cartesian Ro p)) ->
  let path := lattice_path (fun Rl m => constrainLattice Rl sym (snd (PfreeOf Ro fixed)) iso m) Ro steps in
  (forall Rl, In Rl path -> rdet Rl <> 0) -> forall Rl, In Rl path ->
  (forall k, (k < 3)%nat -> fixed k = true -> lattice_vector Rl k = lattice_vector Ro k) /\ (forall p, In p sym -> cartesian Rl p = cartesian Ro p).
Proof. exact fixed_path. Qed.
Print Assumptions C70_fixed_vectors.
(** The projector on the free directions. *)
Theorem C70_projector : forall Ro fixed, rdet Ro <> 0 -> let P := snd (PfreeOf Ro fixed) in
  mtrans P = P /\ rmm P P = P /\ (forall k, (k < 3)%nat -> fixed k = true -> rmv P (lattice_vector Ro k) = V 0 0 0) /\
  (forall x, (forall k, (k < 3)%nat -> fixed k = true -> rdot (lattice_vector Ro k) x = 0) -> rmv P x = x).
Proof. exact PP. Qed.
Print Assumptions C70_projector.
Example C70_example : rdet rid <> 0 /\ space_group symI /\ commensurate symI (fun k => Nat.eqb k 1) /\ (forall p, In p symI -> orthogonal (cartesian rid p)) /\
  let path := lattice_path (fun Rl m => constrainLattice Rl symI (snd (PfreeOf rid (fun k => Nat.eqb k 1))) false m) rid [(1/4, rid)] in (forall Rl, In Rl path -> rdet Rl <> 0).
Proof. exact path_ex. Qed.

(** The safe step is found after finitely many halvings, is at most half of the allowed strain, and keeps the sum within it. *)
Theorem C71_safe_step : forall strain dir, mnrm2 strain < maxAllowedStrain -> frobenius dir <> 0 -> exists fuel alpha,
  (forall fuel', (fuel <= fuel')%nat -> safeStepLattice fuel' strain dir = Some alpha) /\
  0 < alpha /\ alpha * sqrt (frobenius dir) <= 1/2 * (35/100) /\ sqrt (frobenius (rmadd strain (rmscale alpha dir))) <= 35/100.
Proof. exact safe_ok. Qed.
Print Assumptions C71_safe_step.
Example C71_safe_step_example : mnrm2 (rdiag (1/10) 0 0) < maxAllowedStrain /\ frobenius (rdiag 1 2 0) <> 0.
Proof. exact safe_ex. Qed.
(** The strain that results from a step is not the sum, and may exceed what is allowed. *)
Theorem C71_actual_strain : forall Ro d L a s, rdet Ro <> 0 -> lR s = rmm (rmadd rid (lstrain s)) Ro -> let s' := latticeStep false Ro d L a s in
  lR s' = rmm (rmadd rid (lstrain s')) Ro /\ lstrain s' = rmadd (rmadd (lstrain s) (rmscale a L)) (rmscale a (rmm L (lstrain s))).
Proof. exact true_strain. Qed.
Print Assumptions C71_actual_strain.
Example C71_actual_strain_example : let Ro := rdiag 1 2 3 in let e := rdiag (1/10) 0 0 in let s := LState (rmm (rmadd rid e) Ro) e gzero in rdet Ro <> 0 /\ lR s = rmm (rmadd rid (lstrain s)) Ro.
Proof. exact strain_ex. Qed.
Theorem C71_safe_step_refuted : exists Ro d L s fuel alpha, rdet Ro <> 0 /\ lR s = rmm (rmadd rid (lstrain s)) Ro /\ sqrt (frobenius (lstrain s)) < 35/100 /\
  safeStepLattice fuel (lstrain s) L = Some alpha /\ 35/100 < sqrt (frobenius (lstrain (latticeStep false Ro d L alpha s))).
Proof. exact unsafe_step. Qed.
Print Assumptions C71_safe_step_refuted.
