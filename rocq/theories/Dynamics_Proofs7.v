(** Concrete trajectories with barostats; instances for the other theorems. *)
From Coq Require Import String ZArith Reals Bool List Lia Lra Psatz.
From Coquelicot Require Import Coquelicot.
From Verif Require Import Base SMap Vec3_Model Vec3_Facts Lattice_Model Coulomb_Proofs Sym_Model Sym_Spec Sym_Proofs Sym_Proofs2 Sym_Proofs8 Sym_Proofs9 Ions_Model Ions_Spec Ions_Proofs Ions_Proofs2 Ions_Proofs3 Ions_Proofs4 Ions_Proofs5 Ions_Proofs8 Ions_Proofs6 VdW_Proofs3 Dynamics_Model Dynamics_Spec Dynamics_Proofs Dynamics_Proofs2 Dynamics_Proofs3 Dynamics_Proofs4 Dynamics_Proofs5 Dynamics_Proofs6.
Import ListNotations.
Local Open Scope R_scope.
Set Bullet Behavior "Strict Subproofs".

(** *** Constant pressure: the cell expands at a constant rate *)
Definition cube (e : R) : mat R := rdiag e e e.
Lemma cube_det e : rdet (cube e) = e * e * e. Proof. unfold cube. v3u. ring. Qed.
Lemma cube_pos e : e <> 0 -> rdet (cube e) <> 0.
Proof. intros H. rewrite cube_det. repeat apply Rmult_integral_contrapositive_currified; exact H. Qed.
Lemma cube_derive (f : R -> R) t e : is_derive f t e -> mderive (fun s => cube (f s)) t (cube e).
Proof. intros D. unfold mderive. unfold cube, rdiag. cbn [m00 m01 m02 m10 m11 m12 m20 m21 m22]. exact (conj (conj D (conj (dconst 0 t) (dconst 0 t))) (conj (conj (dconst 0 t) (conj D (dconst 0 t))) (conj (dconst 0 t) (conj (dconst 0 t) D)))). Qed.
Lemma cube_mul a b : rmm (cube a) (cube b) = cube (a * b). Proof. unfold cube. v3u. f_equal; ring. Qed.
Lemma exp_nz x : exp x <> 0. Proof. assert (H := exp_pos x). lra. Qed.
Definition dP : dynp := DynP NoseHoover 1 1 1 1 1 1 true 1 false rid.
Definition yP : system := System dP csPair (fun _ => 3) 3 3 [eOp] (fun _ a _ => a) false rid.
Definition xP : traj := Traj (fun t => cube (exp (t / 2))) (fun t => LG swing (cube (1/2)) (fun _ => t) (fun _ => 2 * t)) (fun t _ => t^2 / 2) (fun t _ => t^2)
  (fun t => - 6 * t^2 - exp (t / 2) * exp (t / 2) * exp (t / 2)) (fun t => gscaleI (t + 1) swing)
  (fun t => rmscale (-1 + (4 - 4 * t) / (exp (t / 2) * exp (t / 2) * exp (t / 2))) rid) (fun t => exp (t / 2) * exp (t / 2) * exp (t / 2)).
Lemma iso_lattice Rl A : rdet Rl <> 0 -> constrainLattice Rl [eOp] rid true A = rmscale (rtrace A / 3) rid.
Proof.
  intros HD. unfold constrainLattice. rewrite trace_tensor; [|discriminate|intros p [<-|[]]; rewrite cart_e by exact HD; unfold orthogonal; v3u; f_equal; ring].
  f_equal. replace (rtrace rid) with 3 by (v3u; ring). f_equal. destruct A. v3u. field.
Qed.
Lemma strainP t : strain_ok (cube (exp (t / 2))) [eOp] rid true (cube (1/2)).
Proof.
  unfold strain_ok, cube. split; [reflexivity|]. split; [v3u; f_equal; ring|]. split.
  - intros p [<-|[]]. rewrite cart_e by (apply cube_pos, exp_nz). v3u. f_equal; ring.
  - intros _. exists (1/2). v3u. f_equal; ring.
Qed.
Lemma pressure_trace s : rtrace s = -3 * pressure s. Proof. unfold pressure. lra. Qed.
Lemma trace_sub A B : rtrace (rmsub A B) = rtrace A - rtrace B. Proof. destruct A, B. v3u. ring. Qed.
Lemma trace_add A B : rtrace (rmadd A B) = rtrace A + rtrace B. Proof. destruct A, B. v3u. ring. Qed.
Lemma trace_scale k A : rtrace (rmscale k A) = k * rtrace A. Proof. destruct A. v3u. ring. Qed.
Lemma movesP t : moves yP xP t.
Proof.
  assert (D : rdet (cube (exp (t / 2))) <> 0) by (apply cube_pos, exp_nz). assert (Ez := exp_nz (t / 2)).
  assert (De : is_derive (fun s => exp (s / 2)) t (exp (t / 2) / 2)) by (auto_derive; [exact Logic.I|unfold Rdiv; ring]).
  assert (De3 : is_derive (fun s => exp (s / 2) * exp (s / 2) * exp (s / 2)) t (3/2 * (exp (t / 2) * exp (t / 2) * exp (t / 2)))).
  { eapply dval; [apply (dmul (fun s => exp (s / 2) * exp (s / 2)) (fun s => exp (s / 2))); [apply dmul; exact De|exact De]|]. cbv beta. match goal with |- ?a = ?b => change (@eq R a b) end. field. }
  constructor; cbn [yP xP x_R x_v x_eta x_etab x_PE x_acc x_stress x_work y_cs y_mass y_d y_sym y_map y_ext y_P y_nDOF y_free ionic lattice thermo baro].
  - eexists. split.
    + unfold accelV, thermostat. cbn [yP dP y_d statMethod chainLengthT chainLengthP Nat.eqb baro_on statP statStress statT stat_on hasP0 hasStress0 andb orb nFree].
      cbn [yP xP x_R x_v x_stress y_cs y_mass y_d y_sym y_map y_ext y_P y_nDOF y_free ionic lattice thermo baro].
      rewrite ke_kinetic by exact D. rewrite swing_ke. reflexivity.
    + cbn [ionic lattice thermo baro]. split; [|split; [|split]].
      * intros sp a I.
        match goal with |- context [constrain ?r ?s ?m ?c ?e (gaxpy (-1) (gmat ?L ?v) (gscaleI ?g ?v)) sp a] =>
          rewrite (keep_strain r s posPair m c e v rid true L g (pair_sym _ D) D pair_free (swing_ok _ false D) (strainP t) sp a I) end.
        unfold gaxpy, gmat, gscaleI, cube. destruct (swing sp a) as [p q r]. cbn [c0 c1 c2]. unfold vderive; repeat match goal with |- _ /\ _ => split end; (eapply dval; [apply dconst|]); v3u; match goal with |- ?a = ?b => change (@eq R a b) end; field.
      * apply mconst. rewrite iso_lattice by exact D.
        match goal with |- rmscale (rtrace ?A / 3) rid = _ => enough (Z : rtrace A = 0) by (rewrite Z; v3u; f_equal; field) end.
        rewrite trace_sub, !trace_scale, trace_add, !trace_scale, trace_sub, (pressure_trace (totalStress _ _ _ _ _)), pressure_kinetic, swing_ke by exact D.
        unfold stressTarget, dP. cbn [statP statT stat_on statMethod hasP0 andb P0 T0 tDampP]. unfold pressure. rewrite !trace_scale, cube_det. replace (rtrace rid) with 3 by (v3u; ring). replace (rtrace (cube (1/2))) with (3/2) by (unfold cube; v3u; field). change (3 + 1)%Z with 4%Z. field. exact Ez.
      * intros j Hj. change (chainLengthT dP) with 1%nat in Hj. assert (j = 0%nat) as -> by lia. unfold chainAccel, dP. cbn [Nat.ltb Nat.leb Nat.add T0 tDampT chainLengthT]. der. field.
      * intros j Hj. change (chainLengthP dP) with 1%nat in Hj. assert (j = 0%nat) as -> by lia. unfold chainAccel, dP, nFree, statP, statT. cbn [Nat.ltb Nat.leb Nat.add T0 tDampP chainLengthP stat_on statMethod hasP0 andb]. change (1 * (1 + 1) / 2)%Z with 1%Z. change (3 + 1)%Z with 4%Z.
        replace (rtrace (rmm (mtrans (cube (1/2))) (cube (1/2)))) with (3/4) by (unfold cube; v3u; field). der. field.
  - rewrite cube_mul. replace (1 / 2 * exp (t / 2)) with (exp (t / 2) / 2) by field. exact (cube_derive _ _ _ De).
  - intros j. der. field.
  - intros j. der. ring.
  - rewrite power_self, swing_ke, contract_scale, contract_id, cube_det. replace (rtrace (cube (1/2))) with (3/2) by (unfold cube; v3u; field).
    eapply dval; [apply dminus'; [|exact De3]; auto_derive; [exact Logic.I|reflexivity]|]. match goal with |- ?a = ?b => change (@eq R a b) end. field. exact Ez.
  - eapply dval; [exact De3|]. unfold stressTarget, dP. cbn [statP statT stat_on statMethod hasP0 andb P0]. rewrite contract_scale, contract_id, cube_det. replace (rtrace (cube (1/2))) with (3/2) by (unfold cube; v3u; field). match goal with |- ?a = ?b => change (@eq R a b) end. field.
Qed.
Lemma exP : 0 < T0 (y_d yP) /\ tDampT (y_d yP) <> 0 /\ tDampP (y_d yP) <> 0 /\ (0 < y_nDOF yP)%Z /\ statMethod (y_d yP) = NoseHoover /\ baro_on (y_d yP) = true /\
  unconstrained (y_cs yP) /\ mtrans (y_P yP) = y_P yP /\ rmm (y_P yP) (y_P yP) = y_P yP /\ rtrace (y_P yP) <> 0 /\ (0 < nFree (y_d yP) (y_free yP))%Z /\
  (forall t, moves yP xP t /\ rdet (x_R xP t) <> 0 /\ strain_ok (x_R xP t) (y_sym yP) (y_P yP) (statP (y_d yP)) (lattice (x_v xP t)) /\
     symmetric_constraints (x_R xP t) (y_sym yP) posPair (y_map yP) (y_cs yP) /\ velocity_ok (x_R xP t) (y_sym yP) posPair (y_cs yP) (y_ext yP) (ionic (x_v xP t))) /\
  rdet (x_R xP 2) <> rdet (x_R xP 0).
Proof.
  split; [cbn; lra|]. split; [cbn; lra|]. split; [cbn; lra|]. split; [cbn; lia|]. split; [reflexivity|]. split; [reflexivity|]. split; [exact pair_free|]. split; [reflexivity|].
  split; [cbn [yP y_P]; v3u; f_equal; ring|]. split; [cbn [yP y_P]; v3u; lra|]. split; [reflexivity|]. split.
  - intros t. assert (D : rdet (cube (exp (t / 2))) <> 0) by (apply cube_pos, exp_nz). split; [apply movesP|]. split; [exact D|]. split; [apply strainP|]. split; [apply pair_sym, D|apply swing_ok, D].
  - cbn [xP x_R]. rewrite !cube_det. replace (0 / 2) with 0 by field. rewrite exp_0. replace (2 / 2) with 1 by field. assert (H := exp_ineq1 1 ltac:(lra)). assert (X : 1 * 1 < exp 1 * exp 1) by (apply Rmult_le_0_lt_compat; lra). nra.
Qed.

(** *** Berendsen thermostat: a system starting at half the target temperature *)
Definition dB : dynp := DynP Berendsen 2 1 3 (1/3) 1 1 false 0 false rid.
Definition vB (t : R) : lgrad := LG (gscaleI (/ sqrt (1 + exp (- t))) swing) (rdiag 0 0 0) (fun _ => 0) (fun _ => 0).
Lemma gscale_ok Rl k ext v : rdet Rl <> 0 -> velocity_ok Rl [eOp] posPair csPair ext v -> velocity_ok Rl [eOp] posPair csPair ext (gscaleI k v).
Proof.
  intros HD [A S]. split.
  - apply (allowed_ext csPair ext (gaxpy (k - 1) v v)); [intros sp a _; unfold gaxpy, gscaleI; destruct (v sp a); v3u; f_equal; ring|apply ok_axpy_all; assumption].
  - intros p Hp sp a b M. unfold gscaleI. rewrite <- (S p Hp sp a b M). generalize (mtrans (cartesian Rl p)) (v sp b). intros [] []. v3u. f_equal; ring.
Qed.
Lemma kinetic_scale cs mass k v : kinetic cs mass (gscaleI k v) = k * k * kinetic cs mass v.
Proof. unfold kinetic. rewrite <- total_scale. apply total_ext. intros sp a _. unfold gscaleI. destruct (v sp a). v3u. ring. Qed.
Lemma keB t : kinetic csPair (fun _ => 3) (ionic (vB t)) = 3 / (1 + exp (- t)).
Proof.
  assert (E := exp_pos (- t)). cbn [vB ionic]. rewrite kinetic_scale, swing_ke. rewrite <- Rinv_mult. rewrite sqrt_sqrt by lra. field. lra.
Qed.
Lemma exB : statMethod dB = Berendsen /\ baro_on dB = false /\ 0 < T0 dB /\ 0 < tDampT dB /\ parsed csPair /\ orthogonal_planes csPair /\
  (forall s, rdet rid <> 0 /\ symmetric_constraints rid [eOp] posPair (fun _ a _ => a) csPair /\ velocity_ok rid [eOp] posPair csPair false (ionic (vB s)) /\
    0 < kinetic csPair (fun _ => 3) (ionic (vB s)) /\ power csPair (fun _ => 3) gzero (ionic (vB s)) = 0 /\
    exists aV P, thermostat dB csPair (fun _ => 3) 3 0 rid (constrain rid [eOp] (fun _ a _ => a) csPair false) (constrainLattice rid [eOp] P (statP dB)) rid (vB s) = Some aV /\
      gderive csPair (fun s => ionic (vB s)) s (fun sp a => rvadd (gzero sp a) (ionic aV sp a))) /\
  kinetic csPair (fun _ => 3) (ionic (vB 0)) = 3 / 2.
Proof.
  assert (D : rdet rid <> 0) by (rewrite rid_det1; lra).
  split; [reflexivity|]. split; [reflexivity|]. split; [cbn; lra|]. split; [cbn; lra|]. split; [apply free_parsed, pair_free|]. split; [apply free_planes, pair_free|]. split.
  - intros s. assert (E := exp_pos (- s)). assert (OK : velocity_ok rid [eOp] posPair csPair false (ionic (vB s))) by (apply gscale_ok; [exact D|apply swing_ok, D]).
    split; [exact D|]. split; [apply pair_sym, D|]. split; [exact OK|]. split; [rewrite keB; apply Rdiv_lt_0_compat; lra|]. split.
    { rewrite <- (Rmult_0_r 0). rewrite <- (Rmult_0_l (2 * kinetic csPair (fun _ => 3) (ionic (vB s)))) at 2. rewrite Rmult_0_l. unfold power. rewrite (total_ext csPair _ (fun _ _ => 0)); [rewrite total_const; ring|]. intros sp a _. unfold gzero. destruct (ionic (vB s) sp a). v3u. ring. }
    eexists. exists rid. split; [unfold thermostat; cbn [dB statMethod baro_on statP statStress statT stat_on hasP0 hasStress0 andb orb]; rewrite ke_kinetic by exact D; rewrite keB; reflexivity|].
    intros sp a I. cbn [ionic]. rewrite (same_keep rid _ _ false D OK sp a I). cbn [vB ionic dB tDampT T0]. unfold gscaleI, gzero.
    assert (Dk : is_derive (fun t => / sqrt (1 + exp (- t))) s (1/2 * (exp (- s) / (1 + exp (- s))) * / sqrt (1 + exp (- s)))).
    { assert (Sp : 0 < sqrt (1 + exp (- s))) by (apply sqrt_lt_R0; lra). auto_derive; [split; [lra|split; [lra|exact Logic.I]]|].
      match goal with |- ?a = ?b => change (@eq R a b) end. assert (Q : sqrt (1 + exp (- s)) * sqrt (1 + exp (- s)) = 1 + exp (- s)) by (apply sqrt_sqrt; lra). set (x := sqrt (1 + exp (- s))) in *. replace (exp (- s)) with (x * x - 1) by lra. replace (1 + (x * x - 1)) with (x * x) by ring. field. lra. }
    destruct (swing sp a) as [p q r]. unfold vderive. cbn [c0 c1 c2 rvscale].
    assert (G : forall z, is_derive (fun t => z * / sqrt (1 + exp (- t))) s (0 + z * / sqrt (1 + exp (- s)) * (- (1 / 2) * (1 / 1) * (3 / (1 + exp (- s)) / (1 / 2 * 3 * 2) - 1)))).
    { intros z. eapply dval; [apply dscal, Dk|]. match goal with |- ?a = ?b => change (@eq R a b) end.
      assert (Sp : 0 < sqrt (1 + exp (- s))) by (apply sqrt_lt_R0; lra). field. split; lra. }
    v3u. exact (conj (G p) (conj (G q) (G r))).
  - rewrite keB. replace (- 0) with 0 by ring. rewrite exp_0. field.
Qed.

(** *** Berendsen barostat: the pressure decays from 2 to 1 and the cell expands *)
Definition dBP : dynp := DynP Berendsen 2 1 3 (1/3) 1 1 true 1 false rid.
Definition stressB (t : R) : mat R := rmscale (- (1 + exp (- t))) rid.
Definition RB (t : R) : mat R := cube (exp (- exp (- t))).
Lemma exBP C s : statMethod dBP = Berendsen /\ hasP0 dBP = true /\ tDampP dBP <> 0 /\ B0 dBP <> 0 /\
  (forall u, rdet (RB u) <> 0 /\ (forall p, In p [eOp] -> orthogonal (cartesian (RB u) p)) /\
     mderive RB u (rmm (lattice (getVelocities dBP (RB u) C (constrainLattice (RB u) [eOp] rid (statP dBP)) (stressB u) s)) (RB u)) /\
     exists V', is_derive (fun w => rdet (RB w)) u V' /\ is_derive (fun w => pressure (stressB w)) u (- (B0 dBP * (V' / rdet (RB u))))) /\
  pressure (stressB 0) = 2.
Proof.
  split; [reflexivity|]. split; [reflexivity|]. split; [cbn; lra|]. split; [cbn; lra|]. split.
  - intros u. assert (Ez := exp_nz (- exp (- u))). assert (D : rdet (RB u) <> 0) by (apply cube_pos, Ez).
    assert (O : forall p, In p [eOp] -> orthogonal (cartesian (RB u) p)) by (intros p [<-|[]]; rewrite cart_e by exact D; unfold orthogonal; v3u; f_equal; ring).
    assert (De : is_derive (fun s => exp (- exp (- s))) u (exp (- u) * exp (- exp (- u)))) by (auto_derive; [exact Logic.I|ring]).
    assert (MD : mderive RB u (rmm (cube (exp (- u))) (RB u))).
    { unfold RB at 2. rewrite cube_mul. exact (cube_derive _ _ _ De). }
    split; [exact D|]. split; [exact O|]. split.
    + rewrite berendsen_strain; [|reflexivity|reflexivity|discriminate|exact O|cbn; lra|cbn; lra].
      replace (rmscale ((pressure (stressB u) - P0 dBP) / (tDampP dBP * B0 dBP)) rid) with (cube (exp (- u))); [exact MD|].
      unfold pressure, stressB, cube. cbn [dBP P0 tDampP B0]. v3u. f_equal; field.
    + eexists. split; [apply (det_derive _ _ _ MD)|]. cbn [dBP B0]. unfold stressB.
      apply (is_derive_ext (fun w => 1 + exp (- w))); [intros w; unfold pressure; rewrite trace_scale; replace (rtrace rid) with 3 by (v3u; ring); match goal with |- ?a = ?b => change (@eq R a b) end; field|].
      der. replace (rtrace (cube (exp (- u)))) with (3 * exp (- u)) by (unfold cube; v3u; ring). field. exact D.
  - unfold pressure, stressB. rewrite trace_scale. replace (rtrace rid) with 3 by (v3u; ring). replace (- 0) with 0 by ring. rewrite exp_0. field.
Qed.

(** *** Initial velocities *)
Lemma exI : exists v, initializeVelocities dB csPair 3 (fun _ => 1) 3 rid (constrain rid [eOp] (fun _ a _ => a) csPair false) swing = Some v.
Proof.
  assert (D : rdet rid <> 0) by (rewrite rid_det1; lra). unfold initializeVelocities. set (w := constrain _ _ _ _ _ _). destruct (Req_EM_T _ 0) as [E|]; [|eexists; reflexivity].
  exfalso. revert E. rewrite ke_kinetic by exact D. enough (E : kinetic csPair (fun sp => 1 * 3) w = 3) by (rewrite E; lra).
  transitivity (kinetic csPair (fun _ => 3) (gscaleI 1 swing)).
  - unfold kinetic. apply total_ext. intros sp a I. unfold w. rewrite sqrt_1. replace (1 / 1) with 1 by field.
    change (fun (sp0 a0 : nat) => rvscale 1 (swing sp0 a0)) with (gscaleI 1 swing). rewrite (same_keep rid swing 1 false D (swing_ok rid false D) sp a I). ring.
  - rewrite kinetic_scale, swing_ke. ring.
Qed.

Lemma exS : rdet rid <> 0 /\ space_group [eOp] /\ commensurate [eOp] (Nat.eqb 0) /\ (forall p, In p [eOp] -> orthogonal (cartesian rid p)) /\ (forall p, In p [eOp] -> cartesian (cube 2) p = cartesian rid p).
Proof.
  assert (D : rdet rid <> 0) by (rewrite rid_det1; lra). split; [exact D|]. split; [exact one_group|]. split; [|split].
  - intros p i j [<-|[]] Hi Hj. destruct i as [|[|[|i]]], j as [|[|[|j]]]; cbn; try reflexivity; try lia; intros X; exfalso; apply X; reflexivity.
  - intros p [<-|[]]. rewrite cart_e by exact D. unfold orthogonal. v3u. f_equal; ring.
  - intros p [<-|[]]. rewrite !cart_e; [reflexivity|exact D|apply cube_pos; lra].
Qed.
Lemma exD : parsed csPair /\ noPlane csPair /\ (exists sp a, In (sp, a) (atoms csPair) /\ moveScale (cons_at csPair sp a) <> 0) /\ nDOFof csPair = Some 3%Z.
Proof.
  split; [apply free_parsed, pair_free|]. split; [intros sp a I; destruct (pair_free sp a I) as [_ E]; rewrite E; discriminate|]. split; [|exact (proj1 (proj2 ext_count))].
  exists 0%nat, 0%nat. split; [left; reflexivity|cbn; lra].
Qed.
