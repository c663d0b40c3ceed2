(** Concrete trajectories. *)
From Coq Require Import String ZArith Reals Bool List Lia Lra Psatz.
From Coquelicot Require Import Coquelicot.
From Verif Require Import Base SMap Vec3_Model Vec3_Facts Lattice_Model Coulomb_Proofs Sym_Model Sym_Spec Sym_Proofs Sym_Proofs2 Sym_Proofs8 Sym_Proofs9 Ions_Model Ions_Spec Ions_Proofs Ions_Proofs2 Ions_Proofs4 Ions_Proofs6 VdW_Proofs3 Dynamics_Model Dynamics_Spec Dynamics_Proofs Dynamics_Proofs2 Dynamics_Proofs3 Dynamics_Proofs4 Dynamics_Proofs5.
Import ListNotations.
Local Open Scope R_scope.
Set Bullet Behavior "Strict Subproofs".

Lemma one_group : space_group [eOp].
Proof.
  assert (C1 : composes eOp eOp eOp) by (apply composes_alg; split; [reflexivity|apply lattice_eq; unfold eOp; cbn [sg_a sg_rot]; v3_ring]).
  constructor.
  - repeat constructor.
  - intros p q [<-|[]] [<-|[]]. exists eOp. split; [left; reflexivity|exact C1].
  - exists eOp. split; [left; reflexivity|exact neutral_e].
  - intros p [<-|[]]. exists eOp, eOp. repeat split; try (left; reflexivity); try exact C1; exact neutral_e.
Qed.

Definition posPair (sp : nat) : list (vec R) := match sp with O => [V 0 0 0] | 1%nat => [V (1/2) 0 0] | _ => [] end.
Lemma cart_e Rl : rdet Rl <> 0 -> cartesian Rl eOp = rid.
Proof.
  intros D. unfold cartesian, eOp. cbn [sg_rot]. transitivity (rmm Rl (rinv Rl)); [|apply rinv_r; exact D]. f_equal. generalize Rl. intros []. unfold zid, zdiag. v3u. f_equal; ring.
Qed.
Lemma pair_in sp a : In (sp, a) (atoms csPair) -> a = 0%nat /\ (sp = 0 \/ sp = 1)%nat.
Proof. change (atoms csPair) with [(0, 0)%nat; (1, 0)%nat]. intros [E|[E|[]]]; injection E as <- <-; auto. Qed.
Lemma pair_map sp a b : atom_map (posPair sp) eOp a b -> a = 0%nat /\ b = 0%nat.
Proof.
  intros (x & y & A & B & _). destruct sp as [|[|sp]]; cbn in A, B; destruct a as [|[|a]], b as [|[|b]]; cbn in A, B; try discriminate; auto.
Qed.
Lemma pair_sym Rl : rdet Rl <> 0 -> symmetric_constraints Rl [eOp] posPair (fun _ a _ => a) csPair.
Proof.
  intros HD. constructor.
  - exact one_group.
  - intros p [<-|[]]. rewrite cart_e by exact HD. unfold orthogonal. v3u. f_equal; ring.
  - intros [|[|[|sp]]]; reflexivity.
  - intros [|[|sp]] [|[|a]] [|[|b]] x y A B _; cbn in A, B; try discriminate; auto.
  - intros sp a k Ha Hk. cbn in Hk. assert (k = 0%nat) as -> by lia. cbn [nth]. destruct (nth_error (posPair sp) a) as [x|] eqn:E; [|apply nth_error_None in E; lia].
    exists x, x. split; [exact E|split; [exact E|apply neutral_e]].
  - intros sp a b p [<-|[]] M. destruct (pair_map sp a b M) as [-> ->]. split; [tauto|split; [reflexivity|]]. destruct sp as [|[|[|sp]]]; cbn; intros [X|X]; discriminate.
  - intros g p [<-|[]] sp a b M. destruct (pair_map sp a b M) as [-> ->]. rewrite cart_e by exact HD. destruct sp as [|[|[|sp]]]; unfold normal, cons_at; cbn; v3u; f_equal; ring.
Qed.
Definition swing : grad := fun sp _ => match sp with O => V 1 0 0 | _ => V (-1) 0 0 end.
Lemma swing_ok Rl ext : rdet Rl <> 0 -> velocity_ok Rl [eOp] posPair csPair ext swing.
Proof.
  intros HD.
  split; [split; [|split]|].
  - intros sp a I. destruct (pair_in sp a I) as [-> [-> | ->]]; unfold atom_ok; cbn; (split; [intros X; exfalso; lra|split; intros _ X; discriminate]).
  - intros g _. unfold inner, total. change (atoms csPair) with [(0, 0)%nat; (1, 0)%nat]. cbn [fold_right fst snd]. unfold normal, cons_at. cbn [csPair nth free ctyp]. v3u. ring.
  - intros _ _. unfold net. rewrite !pair_total. unfold swing. cbn [c0 c1 c2]. f_equal; lra.
  - intros p [<-|[]] sp a b M. destruct (pair_map sp a b M) as [-> ->]. rewrite cart_e by exact HD. unfold swing. destruct sp; v3u; f_equal; ring.
Qed.
Lemma swing_ke : kinetic csPair (fun _ => 3) swing = 3.
Proof. unfold kinetic. rewrite pair_total. cbn [swing c0 c1 c2]. lra. Qed.
Lemma rid_det1 : rdet rid = 1. Proof. v3u. ring. Qed.

(** *** Constant temperature: the thermostat velocity grows and the forces balance the friction *)
Definition dT : dynp := DynP NoseHoover 1 1 1 1 1 1 false 0 false rid.
Definition yT : system := System dT csPair (fun _ => 3) 3 0 [eOp] (fun _ a _ => a) false rid.
Definition xT : traj := Traj (fun _ => rid) (fun t => LG swing (rdiag 0 0 0) (fun _ => t) (fun _ => 0)) (fun t _ => t^2 / 2) (fun _ _ => 0)
  (fun t => - 3 * t^2) (fun t => gscaleI t swing) (fun _ => rid) (fun _ => 0).
Lemma same_keep Rl v g ext : rdet Rl <> 0 -> velocity_ok Rl [eOp] posPair csPair ext v -> same csPair (constrain Rl [eOp] (fun _ a _ => a) csPair ext (gscaleI g v)) (gscaleI g v).
Proof. intros D H. apply (keep_scale Rl [eOp] posPair); [apply pair_sym, D|exact D|apply free_parsed, pair_free|apply free_planes, pair_free|exact H]. Qed.
Lemma zero_lattice Rl sym iso : constrainLattice Rl sym rid iso (rdiag 0 0 0) = rdiag 0 0 0.
Proof.
  unfold constrainLattice. replace (rmm (rmm rid (rmscale (1/2) (rmadd (rdiag 0 0 0) (mtrans (rdiag 0 0 0))))) rid) with (rdiag 0 0 0) by (v3u; f_equal; field).
  assert (Z : symmetrizeTensor Rl sym (rdiag 0 0 0) = rdiag 0 0 0).
  { unfold symmetrizeTensor, rmsum. assert (G : forall l, fold_left (fun acc op => rmadd acc (rmm (rmm (rotCart Rl op) (rdiag 0 0 0)) (mtrans (rotCart Rl op)))) l (rdiag 0 0 0) = rdiag 0 0 0).
    { induction l as [|p l IH]; [reflexivity|]. cbn [fold_left]. replace (rmadd (rdiag 0 0 0) (rmm (rmm (rotCart Rl p) (rdiag 0 0 0)) (mtrans (rotCart Rl p)))) with (rdiag 0 0 0); [exact IH|]. generalize (rotCart Rl p). intros []. v3u. f_equal; ring. }
    rewrite G. v3u. f_equal; ring. }
  rewrite Z. destruct iso; [|reflexivity]. v3u. f_equal; field.
Qed.
Ltac der := match goal with |- is_derive _ _ ?b => eapply dval; [auto_derive; [exact Logic.I|reflexivity]|] end; match goal with |- ?a = ?b => change (@eq R a b) end.
Lemma mconst (m : mat R) t z : z = rdiag 0 0 0 -> mderive (fun _ => m) t z.
Proof. intros ->. unfold mderive, vderive. repeat match goal with |- _ /\ _ => split end; apply dconst. Qed.
Lemma swing_power t : power csPair (fun _ => 3) (gscaleI t swing) swing = 6 * t.
Proof. rewrite power_self, swing_ke. ring. Qed.
Lemma movesT t : moves yT xT t.
Proof.
  assert (D : rdet rid <> 0) by (rewrite rid_det1; lra). constructor; cbn [yT xT dT x_R x_v x_eta x_etab x_PE x_acc x_stress x_work y_cs y_mass y_d y_sym y_map y_ext y_P y_nDOF y_free ionic lattice thermo baro chainLengthT chainLengthP].
  - eexists. split; [unfold accelV, thermostat; cbn [statMethod dT yT y_d chainLengthT Nat.eqb baro_on statP statStress statT stat_on hasP0 hasStress0 andb orb]; cbn [yT xT dT x_R x_v x_stress y_cs y_mass y_d y_sym y_map y_ext y_P y_nDOF y_free ionic lattice thermo baro]; rewrite ke_kinetic by exact D; rewrite swing_ke; reflexivity|].
    cbn [ionic lattice thermo baro]. split; [|split; [|split]].
    + intros sp a I. rewrite (same_keep rid swing (- t) false D (swing_ok rid false D) sp a I). unfold gscaleI. destruct (swing sp a) as [p q r]. cbn [c0 c1 c2]. unfold vderive; repeat match goal with |- _ /\ _ => split end; (eapply dval; [apply dconst|]); v3u; match goal with |- ?a = ?b => change (@eq R a b) end; ring.
    + rewrite zero_lattice. apply mconst. reflexivity.
    + intros j Hj. assert (j = 0%nat) as -> by lia. unfold chainAccel, dT. cbn [Nat.ltb Nat.leb Nat.add T0 tDampT]. der. field.
    + intros j Hj. apply dconst.
  - apply mconst. v3u. f_equal; ring.
  - intros j. der. field.
  - intros j. apply dconst.
  - rewrite swing_power, contract_comm, contract_zero. der. ring.
  - eapply dval; [apply dconst|]. rewrite contract_comm, contract_zero. match goal with |- ?a = ?b => change (@eq R a b) end. ring.
Qed.
Lemma exT : 0 < T0 (y_d yT) /\ tDampT (y_d yT) <> 0 /\ (0 < y_nDOF yT)%Z /\ statMethod (y_d yT) = NoseHoover /\ baro_on (y_d yT) = false /\ parsed (y_cs yT) /\ orthogonal_planes (y_cs yT) /\
  (forall t, moves yT xT t /\ rdet (x_R xT t) <> 0 /\ lattice (x_v xT t) = rdiag 0 0 0 /\
     symmetric_constraints (x_R xT t) (y_sym yT) posPair (y_map yT) (y_cs yT) /\ velocity_ok (x_R xT t) (y_sym yT) posPair (y_cs yT) (y_ext yT) (ionic (x_v xT t))) /\
  x_PE xT 1 <> x_PE xT 0.
Proof.
  repeat match goal with |- _ /\ _ => split end; cbn; try lra; try lia; try reflexivity.
  - apply free_parsed, pair_free.
  - apply free_planes, pair_free.
  - intros t. split; [apply movesT|]. split; [rewrite rid_det1; lra|]. split; [reflexivity|]. split; [apply pair_sym|apply swing_ok]; rewrite rid_det1; lra.
Qed.
