(** Berendsen thermostat and barostat, initial velocities, storage of velocities, degrees of freedom. *)
From Coq Require Import String ZArith Reals Bool List Lia Lra Psatz FunctionalExtensionality.
From Coquelicot Require Import Coquelicot.
From Verif Require Import Base Vec3_Model Vec3_Facts Lattice_Model Coulomb_Proofs Sym_Model Sym_Spec Sym_Proofs7 Sym_Proofs8 Ions_Model Ions_Spec Ions_Proofs Ions_Proofs2 Ions_Proofs3 Ions_Proofs4 Ions_Proofs5 Ions_Proofs6 Ions_Proofs8 VdW_Proofs3 Dynamics_Model Dynamics_Spec Dynamics_Proofs Dynamics_Proofs2 Dynamics_Proofs3.
Import ListNotations.
Local Open Scope R_scope.
Set Bullet Behavior "Strict Subproofs".

(** ** Berendsen *)
Lemma berendsen_rate d cs mass nDOF free Rl sym pos am ext CL s0 (v : R -> lgrad) (acc : grad) aV t :
  statMethod d = Berendsen -> baro_on d = false -> 0 < T0 d -> tDampT d <> 0 -> (0 < nDOF)%Z -> rdet Rl <> 0 ->
  symmetric_constraints Rl sym pos am cs -> parsed cs -> orthogonal_planes cs -> velocity_ok Rl sym pos cs ext (ionic (v t)) ->
  thermostat d cs mass nDOF free Rl (constrain Rl sym am cs ext) CL s0 (v t) = Some aV ->
  gderive cs (fun s => ionic (v s)) t (fun sp a => rvadd (acc sp a) (ionic aV sp a)) ->
  is_derive (fun s => kinetic cs mass (ionic (v s))) t
    (power cs mass acc (ionic (v t)) - kinetic cs mass (ionic (v t)) * (kinetic cs mass (ionic (v t)) / (1/2 * IZR nDOF * T0 d) - 1) / tDampT d).
Proof.
  intros HM HB HT Ht HN HD HS HP HO HV. unfold thermostat. rewrite HM, HB, ke_kinetic by exact HD. intros E. injection E as E. subst aV. cbn [ionic]. intros D.
  eapply dval; [apply (kinetic_derive _ _ _ _ _ D)|]. rewrite power_add. rewrite (power_ext _ _ _ _ _ (keep_scale Rl sym pos am cs ext _ _ HS HD HP HO HV)), power_self.
  match goal with |- ?a = ?b => change (@eq R a b) end. field. repeat split; [lra|apply not_0_IZR; lia|exact Ht].
Qed.
Lemma logistic (K : R -> R) K0 tau t : 0 < K0 -> 0 < tau -> 0 <= t -> (forall s, 0 <= s <= t -> 0 < K s /\ is_derive K s (- (K s * (K s / K0 - 1) / tau))) ->
  K t = K0 / (1 + (K0 / K 0 - 1) * exp (- (t / tau))).
Proof.
  intros H0 Ht Ht0 H. set (g s := exp (s / tau) * (1 / K s - 1 / K0)).
  assert (G : g 0 = g t).
  { apply const_of_derive; [exact Ht0|]. intros s I. destruct (H s I) as [P D]. unfold g.
    assert (De : is_derive (fun s => exp (s / tau)) s (exp (s / tau) / tau)) by (auto_derive; [exact Logic.I|unfold Rdiv; ring]).
    eapply dval; [apply (dmul (fun s => exp (s / tau)) (fun s => 1 / K s - 1 / K0)); [exact De|apply dminus'; [apply (dinv1 K s _ D); lra|apply dconst]]|].
    cbv beta. match goal with |- ?a = ?b => change (@eq R a b) end. field. repeat split; lra. }
  unfold g in G. replace (exp (0 / tau)) with 1 in G by (unfold Rdiv; rewrite Rmult_0_l, exp_0; reflexivity).
  assert (P : 0 < K t) by (apply H; lra). assert (P0 : 0 < K 0) by (apply H; lra). assert (E : exp (- (t / tau)) * exp (t / tau) = 1) by (rewrite <- exp_plus; replace (- (t / tau) + t / tau) with 0 by ring; apply exp_0).
  assert (X : 1 / K t = 1 / K0 + exp (- (t / tau)) * (1 / K 0 - 1 / K0)).
  { rewrite Rmult_1_l in G. rewrite G. rewrite <- Rmult_assoc, E. ring. }
  assert (Y : 1 + (K0 / K 0 - 1) * exp (- (t / tau)) = K0 * (1 / K t)) by (rewrite X; field; split; lra).
  rewrite Y. field. split; lra.
Qed.
Theorem berendsen d cs mass nDOF free sym am ext (Rl : R -> mat R) pos s0 (v : R -> lgrad) (acc : R -> grad) t :
  statMethod d = Berendsen -> baro_on d = false -> 0 < T0 d -> 0 < tDampT d -> (0 < nDOF)%Z -> parsed cs -> orthogonal_planes cs -> 0 <= t ->
  (forall s, 0 <= s <= t -> rdet (Rl s) <> 0 /\ symmetric_constraints (Rl s) sym (pos s) am cs /\ velocity_ok (Rl s) sym (pos s) cs ext (ionic (v s)) /\
    0 < kinetic cs mass (ionic (v s)) /\ power cs mass (acc s) (ionic (v s)) = 0 /\
    exists aV P, thermostat d cs mass nDOF free (Rl s) (constrain (Rl s) sym am cs ext) (constrainLattice (Rl s) sym P (statP d)) (s0 s) (v s) = Some aV /\
      gderive cs (fun s => ionic (v s)) s (fun sp a => rvadd (acc s sp a) (ionic aV sp a))) ->
  let K s := kinetic cs mass (ionic (v s)) in let K0 := 1/2 * IZR nDOF * T0 d in
  K t = K0 / (1 + (K0 / K 0 - 1) * exp (- (t / tDampT d))).
Proof.
  intros HM HB HT Ht HN HP HO Ht0 H K K0. assert (N : 0 < IZR nDOF) by (apply IZR_lt; exact HN). apply logistic; [unfold K0; nra|exact Ht|exact Ht0|].
  intros s I. destruct (H s I) as (HD & HS & HV & Kp & Wz & aV & P & Ea & D). split; [exact Kp|].
  eapply dval; [apply (berendsen_rate d cs mass nDOF free (Rl s) sym (pos s) am ext _ (s0 s) v (acc s) aV s HM HB HT ltac:(lra) HN HD HS HP HO HV Ea D)|].
  rewrite Wz. unfold K, K0. match goal with |- ?a = ?b => change (@eq R a b) end. field. repeat split; lra.
Qed.
(** barostat: strain rate *)
Lemma berendsen_strain d Rl C sym stress s : statMethod d = Berendsen -> hasP0 d = true -> sym <> [] -> (forall p, In p sym -> orthogonal (cartesian Rl p)) -> tDampP d <> 0 -> B0 d <> 0 ->
  lattice (getVelocities d Rl C (constrainLattice Rl sym rid (statP d)) stress s) = rmscale ((pressure stress - P0 d) / (tDampP d * B0 d)) rid.
Proof.
  intros HM HP N O Ht HB. unfold getVelocities, baro_on, statP, statT. rewrite HM, HP. cbn [stat_on andb orb lattice]. unfold constrainLattice.
  rewrite trace_tensor by assumption. f_equal. unfold pressure, stressTarget, statP, statT. rewrite HM, HP. cbn [stat_on andb]. destruct stress. v3u. field. split; assumption.
Qed.
Lemma decay (f : R -> R) k t : 0 <= t -> (forall s, 0 <= s <= t -> is_derive f s (- k * f s)) -> f t = f 0 * exp (- (k * t)).
Proof.
  intros Ht H. assert (G : exp (k * 0) * f 0 = exp (k * t) * f t).
  { apply (const_of_derive (fun s => exp (k * s) * f s)); [exact Ht|]. intros s I.
    assert (De : is_derive (fun s => exp (k * s)) s (k * exp (k * s))) by (auto_derive; [exact Logic.I|ring]).
    eapply dval; [apply (dmul (fun s => exp (k * s)) f _ _ _ De (H s I))|]. match goal with |- ?a = ?b => change (@eq R a b) end. ring. }
  rewrite Rmult_0_r, exp_0, Rmult_1_l in G. rewrite G. transitivity (exp (k * t) * exp (- (k * t)) * f t); [|ring]. rewrite <- exp_plus. replace (k * t + - (k * t)) with 0 by ring. rewrite exp_0. ring.
Qed.
(** pressure of a system with bulk modulus B0 *)
Theorem berendsen_pressure d sym C (Rl : R -> mat R) stress s t : statMethod d = Berendsen -> hasP0 d = true -> sym <> [] -> tDampP d <> 0 -> B0 d <> 0 -> 0 <= t ->
  (forall u, 0 <= u <= t -> rdet (Rl u) <> 0 /\ (forall p, In p sym -> orthogonal (cartesian (Rl u) p)) /\
     mderive Rl u (rmm (lattice (getVelocities d (Rl u) C (constrainLattice (Rl u) sym rid (statP d)) (stress u) s)) (Rl u)) /\
     exists V', is_derive (fun w => rdet (Rl w)) u V' /\ is_derive (fun w => pressure (stress w)) u (- (B0 d * (V' / rdet (Rl u))))) ->
  pressure (stress t) - P0 d = (pressure (stress 0) - P0 d) * exp (- (3 / tDampP d * t)).
Proof.
  intros HM HP N Ht HB Ht0 H. apply (decay (fun u => pressure (stress u) - P0 d)); [exact Ht0|]. intros u I. destruct (H u I) as (HD & O & D & V' & DV & Dp).
  rewrite (berendsen_strain d (Rl u) C sym (stress u) s HM HP N O Ht HB) in D. assert (E := det_derive _ _ _ D).
  assert (V' = rtrace (rmscale ((pressure (stress u) - P0 d) / (tDampP d * B0 d)) rid) * rdet (Rl u)) as -> by (rewrite <- (is_derive_unique _ _ _ DV); apply is_derive_unique; exact E).
  eapply dval; [apply dminus'; [exact Dp|apply dconst]|]. match goal with |- ?a = ?b => change (@eq R a b) end. rewrite trace_scale. replace (rtrace rid) with 3 by (v3u; ring). field. repeat split; assumption.
Qed.

(** ** Temperature and pressure *)
Lemma pressure_kinetic cs mass Rl s0 v : rdet Rl <> 0 -> pressure (totalStress cs mass Rl s0 (gmat (rinv Rl) v)) = pressure s0 + 2/3 * kinetic cs mass v / rdet Rl.
Proof.
  intros HD. unfold pressure. rewrite <- !contract_id, (contract_comm _ rid), (contract_comm _ rid), stress_contract by exact HD.
  rewrite (power_ext cs mass (gmat rid v) (gscaleI 1 v)) by (intros sp a _; unfold gmat, gscaleI; destruct (v sp a); v3u; f_equal; ring). rewrite power_self. field. exact HD.
Qed.
Lemma ke_scale cs mass Rl k v : computeKE cs mass Rl (gscaleI k v) = k * k * computeKE cs mass Rl v.
Proof.
  unfold computeKE. rewrite (fold_total cs (fun sp a => 1 / 2 * mass sp * metric2 (rmm (mtrans Rl) Rl) (gscaleI k v sp a))), (fold_total cs (fun sp a => 1 / 2 * mass sp * metric2 (rmm (mtrans Rl) Rl) (v sp a))).
  rewrite !Rplus_0_l, <- total_scale. apply total_ext. intros sp a _. rewrite !metric_len. unfold gscaleI. generalize (mass sp) (v sp a). intros m [p q r]. destruct Rl. v3u. ring.
Qed.
Lemma ke_nonneg cs mass Rl v : (forall sp, 0 <= mass sp) -> 0 <= computeKE cs mass Rl v.
Proof.
  intros H. unfold computeKE. rewrite (fold_total cs (fun sp a => 1 / 2 * mass sp * metric2 (rmm (mtrans Rl) Rl) (v sp a))). rewrite Rplus_0_l. apply total_nonneg. intros sp a. rewrite metric_len.
  specialize (H sp). assert (0 <= rlen2 (rmv Rl (v sp a))) by (generalize (rmv Rl (v sp a)); intros [x y z]; v3u; nra). apply Rmult_le_pos; [lra|assumption].
Qed.
Theorem init_temperature d cs amu massU nDOF Rl sym pos am ext g v : 0 <= T0 d -> (0 < nDOF)%Z -> 0 < amu -> (forall sp, 0 < massU sp) -> rdet Rl <> 0 ->
  symmetric_constraints Rl sym pos am cs -> parsed cs -> orthogonal_planes cs ->
  initializeVelocities d cs amu massU nDOF Rl (constrain Rl sym am cs ext) g = Some v ->
  temperature nDOF (computeKE cs (fun sp => massU sp * amu) Rl v) = T0 d /\ velocity_ok Rl sym pos cs ext (gmat Rl v).
Proof.
  intros HT HN Ha Hm HD HS HP HO. unfold initializeVelocities. set (w := constrain _ _ _ _ _ _). set (KE := computeKE _ _ _ _). destruct (Req_EM_T KE 0) as [|NZ]; [discriminate|].
  assert (KP : 0 < KE) by (assert (0 <= KE) by (apply ke_nonneg; intros sp; specialize (Hm sp); nra); lra).
  assert (N : 0 < IZR nDOF) by (apply IZR_lt; exact HN). set (k := 1 / 2 * IZR nDOF * T0 d / KE).
  assert (Kk : 0 <= k) by (unfold k; apply Rle_mult_inv_pos; [apply Rmult_le_pos; nra|exact KP]).
  intros E. injection E as <-. split.
  - unfold temperature. rewrite ke_scale. fold KE. rewrite sqrt_sqrt by exact Kk. unfold k. field. split; lra.
  - destruct (sym_combined Rl sym pos am cs HS HD ext HP HO (fun sp a => rvscale (1 / sqrt (massU sp)) (g sp a))) as (A & S & _). fold w in A, S.
    assert (X : forall sp a, gmat Rl (gscaleI (sqrt k) (gmat (rinv Rl) w)) sp a = rvscale (sqrt k) (w sp a)).
    { intros sp a. unfold gmat, gscaleI. rewrite <- (back Rl (w sp a) HD) at 2. generalize (rmv (rinv Rl) (w sp a)). intros [x y z]. generalize (sqrt k). intros q. destruct Rl. v3u. f_equal; ring. }
    split.
    + apply (allowed_ext cs ext (gaxpy (sqrt k - 1) w w)); [intros sp a _; rewrite X; unfold gaxpy; destruct (w sp a); v3u; f_equal; ring|apply ok_axpy_all; assumption].
    + intros p Hp sp a b M. rewrite !X, <- (S p Hp sp a b M). generalize (mtrans (cartesian Rl p)) (w sp b) (sqrt k). intros [] [] q. v3u. f_equal; ring.
Qed.
(** ** Storage *)
Lemma store_back d Rl C CL stress s v : rdet Rl <> 0 -> statMethod d = NoseHoover -> baro_on d = true -> mtrans (lattice v) = lattice v ->
  let g := getVelocities d Rl C CL stress (setVelocities d Rl s v) in
  coincide (ionic g) (C (ionic v)) /\ lattice g = CL (lattice v) /\ (forall j, thermo g j = thermo v j) /\ (forall j, (j < chainLengthP d)%nat -> baro g j = baro v j).
Proof.
  intros HD HM HB HL. unfold getVelocities, setVelocities. rewrite HB, HM. cbn [ionic lattice thermo baro velocities s_thermo s_baro].
  split; [replace (gmat Rl (gmat (rinv Rl) (ionic v))) with (ionic v); [intros sp a; reflexivity|apply functional_extensionality; intros sp; apply functional_extensionality; intros a; unfold gmat; symmetry; apply back, HD]|]. split; [|split].
  - f_equal. rewrite <- HL at 2. revert HL. destruct (lattice v) as [a b c e f g h i j]. unfold packSym, unpackSym. v3u. cbn [app nth]. v3u. intros X. injection X as X1 X2 X3. subst. reflexivity.
  - reflexivity.
  - intros j Hj. rewrite app_nth2; cbn [packSym length Nat.add]; [|lia]. replace (S (S (S (S (S (S j))))) - 6)%nat with j by lia.
    rewrite (nth_indep _ 0 (baro v 0%nat)) by (rewrite map_length, seq_length; exact Hj). rewrite map_nth, seq_nth by exact Hj. reflexivity.
Qed.
(** the corrected velocity is the average of the accelerations at both ends *)
Lemma corrector step accelAt stat dt pos vel acc accV : let s' := verletStep step accelAt stat dt (pos, vel, acc, accV) in
  let pos' := fst (fst (fst s')) in let vel' := snd (fst (fst s')) in
  exists pre : lgrad, snd s' = stat vel' /\ snd (fst s') = accelAt pos' /\ pos' = step (laxpy (dt/2) (laxpy 1 accV acc) vel) pos /\
  (forall sp a, ionic pre sp a = rvadd (ionic vel sp a) (rvadd (rvscale (dt/2) (rvadd (ionic acc sp a) (ionic (accelAt pos') sp a))) (rvscale dt (ionic accV sp a)))) /\
  (forall sp a, ionic vel' sp a = rvadd (ionic vel sp a) (rvadd (rvscale (dt/2) (rvadd (ionic acc sp a) (ionic (accelAt pos') sp a))) (rvscale (dt/2) (rvadd (ionic accV sp a) (ionic (stat pre) sp a))))) /\
  (forall j, thermo vel' j = thermo vel j + dt/2 * (thermo acc j + thermo (accelAt pos') j) + dt/2 * (thermo accV j + thermo (stat pre) j)).
Proof.
  cbv zeta. unfold verletStep. cbn [fst snd]. replace (1 / 2 * dt) with (dt / 2) by field. set (h := laxpy (dt/2) (laxpy 1 accV acc) vel). set (pos' := step h pos). set (a' := accelAt pos').
  set (pre := laxpy (dt/2) (laxpy 1 accV a') h). exists pre. split; [reflexivity|]. split; [reflexivity|]. split; [reflexivity|]. split; [|split].
  - intros sp a. unfold pre, h, laxpy. cbn [ionic]. unfold gaxpy. destruct (ionic vel sp a), (ionic acc sp a), (ionic accV sp a), (ionic a' sp a). v3u. f_equal; field.
  - intros sp a. unfold laxpy at 1. cbn [ionic]. unfold gaxpy at 1. unfold laxpy at 1. cbn [ionic]. unfold gaxpy at 1. unfold pre at 1, h at 1, laxpy. cbn [ionic]. unfold gaxpy. fold (laxpy (dt/2) (laxpy 1 accV acc) vel). destruct (ionic vel sp a), (ionic acc sp a), (ionic accV sp a), (ionic a' sp a), (ionic (stat pre) sp a). v3u. f_equal; field.
  - intros j. unfold laxpy at 1. cbn [thermo]. unfold laxpy at 1. cbn [thermo]. unfold pre at 1, h at 1, laxpy. cbn [thermo]. field.
Qed.
