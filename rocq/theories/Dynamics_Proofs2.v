(** The extended energy is conserved. *)
From Coq Require Import String ZArith Reals Bool List Lia Lra Psatz.
From Coquelicot Require Import Coquelicot.
From Verif Require Import Base Vec3_Model Vec3_Facts Lattice_Model Coulomb_Proofs Sym_Model Sym_Spec Sym_Proofs7 Sym_Proofs8 Ions_Model Ions_Spec Ions_Proofs Ions_Proofs2 Ions_Proofs3 Ions_Proofs4 VdW_Proofs3 Dynamics_Model Dynamics_Spec Dynamics_Proofs.
Import ListNotations.
Local Open Scope R_scope.
Set Bullet Behavior "Strict Subproofs".

Lemma total_derive cs (f : R -> nat -> nat -> R) (f' : nat -> nat -> R) t : (forall sp a, In (sp, a) (atoms cs) -> is_derive (fun s => f s sp a) t (f' sp a)) ->
  is_derive (fun s => total cs (f s)) t (total cs f').
Proof.
  unfold total. induction (atoms cs) as [|[sp a] l IH]; intros H; cbn [fold_right fst snd]; [apply dconst|].
  apply dplus; [apply H; left; reflexivity|apply IH; intros sp' a' I; apply H; right; exact I].
Qed.
Lemma dsq (f : R -> R) (x a : R) : is_derive f x a -> is_derive (fun t => (f t)^2) x (2 * f x * a).
Proof.
  intros A. apply (is_derive_ext (fun t => f t * f t)); [intros s; match goal with |- ?a = ?b => change (@eq R a b) end; ring|].
  eapply dval; [apply dmul; exact A|]. cbv beta. match goal with |- ?a = ?b => change (@eq R a b) end. ring.
Qed.
Lemma kinetic_derive cs mass (v : R -> grad) (g : grad) t : gderive cs v t g -> is_derive (fun s => kinetic cs mass (v s)) t (power cs mass g (v t)).
Proof.
  intros D. unfold kinetic, power. apply (total_derive cs (fun s sp a => 1/2 * mass sp * ((c0 (v s sp a))^2 + (c1 (v s sp a))^2 + (c2 (v s sp a))^2))).
  intros sp a Ha. destruct (D sp a Ha) as (D0 & D1 & D2). eapply dval; [apply dscal, dplus; [apply dplus|]; apply dsq; [exact D0|exact D1|exact D2]|].
  cbv beta. match goal with |- ?a = ?b => change (@eq R a b) end. field.
Qed.
Lemma contract_derive (L : R -> mat R) (M' : mat R) t : mderive L t M' -> is_derive (fun s => contract (L s) (L s)) t (2 * contract (L t) M').
Proof.
  intros ((A & B & C) & (D & E & F) & (G & H & I)). unfold contract. eapply dval; [apply dplus; [apply dplus; [apply dplus; [apply dplus; [apply dplus; [apply dplus; [apply dplus; [apply dplus|]|]|]|]|]|]|]; apply dmul;
    [exact A|exact A|exact B|exact B|exact C|exact C|exact D|exact D|exact E|exact E|exact F|exact F|exact G|exact G|exact H|exact H|exact I|exact I]|].
  cbv beta. match goal with |- ?a = ?b => change (@eq R a b) end. ring.
Qed.
Lemma dminus' (f g : R -> R) (x a b : R) : is_derive f x a -> is_derive g x b -> is_derive (fun t => f t - g t) x (a - b).
Proof. intros A B. apply (is_derive_minus (V:=R_NormedModule) f g x a b A B). Qed.
Lemma det_derive (Rl : R -> mat R) (L : mat R) t : mderive Rl t (rmm L (Rl t)) -> is_derive (fun s => rdet (Rl s)) t (rtrace L * rdet (Rl t)).
Proof.
  intros ((A & B & C) & (D & E & F) & (G & H & I)).
  assert (X : forall m, rdet m = m00 m * (m11 m * m22 m - m12 m * m21 m) + m01 m * (m12 m * m20 m - m10 m * m22 m) + m02 m * (m10 m * m21 m - m11 m * m20 m)) by (intros []; v3u; ring).
  apply (is_derive_ext (fun s => m00 (Rl s) * (m11 (Rl s) * m22 (Rl s) - m12 (Rl s) * m21 (Rl s)) + m01 (Rl s) * (m12 (Rl s) * m20 (Rl s) - m10 (Rl s) * m22 (Rl s)) + m02 (Rl s) * (m10 (Rl s) * m21 (Rl s) - m11 (Rl s) * m20 (Rl s)))); [intros s; symmetry; apply X|].
  eapply dval; [apply dplus; [apply dplus|]; apply dmul;
    [exact A|apply dminus'; apply dmul; [exact E|exact I|exact F|exact H]|exact B|apply dminus'; apply dmul; [exact F|exact G|exact D|exact I]|exact C|apply dminus'; apply dmul; [exact D|exact H|exact E|exact G]]|].
  cbv beta. match goal with |- ?a = ?b => change (@eq R a b) end. destruct (Rl t), L. v3u. ring.
Qed.
Lemma power_ext cs mass x y v : same cs x y -> power cs mass x v = power cs mass y v.
Proof. intros H. apply total_ext. intros sp a Ha. rewrite (H sp a Ha). reflexivity. Qed.
Lemma power_add cs mass x y v : power cs mass (fun sp a => rvadd (x sp a) (y sp a)) v = power cs mass x v + power cs mass y v.
Proof. unfold power. rewrite <- total_plus. apply total_ext. intros sp a _. destruct (x sp a), (y sp a). v3u. ring. Qed.
Lemma power_axpy cs mass k x y v : power cs mass (gaxpy k x y) v = power cs mass y v + k * power cs mass x v.
Proof. unfold power. rewrite <- total_scale, <- total_plus. apply total_ext. intros sp a _. unfold gaxpy. destruct (x sp a), (y sp a). v3u. ring. Qed.
Lemma power_self cs mass g v : power cs mass (gscaleI g v) v = 2 * g * kinetic cs mass v.
Proof. unfold power, kinetic. rewrite <- total_scale. apply total_ext. intros sp a _. unfold gscaleI. destruct (v sp a). v3u. field. Qed.

(** ** Constant temperature *)
Section Constant.
  Variables (y : system) (x : traj) (t : R).
  Let d := y_d y.
  Let cs := y_cs y.
  Let v := x_v x t.
  Hypothesis mv : moves y x t.
  Hypothesis HD : rdet (x_R x t) <> 0.
  Hypothesis HT : 0 < T0 d.
  Hypothesis HtT : tDampT d <> 0.
  Hypothesis HN : (0 < y_nDOF y)%Z.
  Hypothesis HM : statMethod d = NoseHoover.

  Lemma wT : (1 / tDampT d)^2 <> 0. Proof. apply pow_nonzero. unfold Rdiv. rewrite Rmult_1_l. apply Rinv_neq_0_compat. exact HtT. Qed.
  Lemma nN : IZR (y_nDOF y) <> 0. Proof. apply not_0_IZR. lia. Qed.
  Lemma chainT_rate : (0 < chainLengthT d)%nat -> (forall j, (j < chainLengthT d)%nat -> is_derive (fun s => thermo (x_v x s) j) t
      (chainAccel (chainLengthT d) (1 / tDampT d * (1 / tDampT d)) (1 / tDampT d * (1 / tDampT d) * (kinetic cs (y_mass y) (ionic v) / (1/2 * IZR (y_nDOF y) * T0 d) - 1)) (IZR (y_nDOF y)) (thermo v) j)) ->
    is_derive (fun s => chain_energy (chainLengthT d) (IZR (y_nDOF y)) (T0 d) ((1 / tDampT d)^2) (thermo (x_v x s)) (x_eta x s)) t
      (2 * thermo v 0%nat * kinetic cs (y_mass y) (ionic v)).
  Proof.
    intros N D. replace (1 / tDampT d * (1 / tDampT d)) with ((1 / tDampT d)^2) in D by ring.
    eapply dval; [apply (chain_derive _ _ _ _ _ (fun s => thermo (x_v x s)) (x_eta x) t wT N D (mv_eta _ _ _ mv))|].
    cbv beta. match goal with |- ?a = ?b => change (@eq R a b) end. fold v. field. repeat split; [exact HtT|lra|exact nN].
  Qed.
End Constant.

Theorem nvt_rate y x t : moves y x t -> rdet (x_R x t) <> 0 -> 0 < T0 (y_d y) -> tDampT (y_d y) <> 0 -> (0 < y_nDOF y)%Z ->
  statMethod (y_d y) = NoseHoover -> baro_on (y_d y) = false -> lattice (x_v x t) = rdiag 0 0 0 ->
  (forall g, same (y_cs y) (constrain (x_R x t) (y_sym y) (y_map y) (y_cs y) (y_ext y) (gscaleI g (ionic (x_v x t)))) (gscaleI g (ionic (x_v x t)))) ->
  is_derive (energyT y x) t 0.
Proof.
  intros mv HD HT HtT HN HM HB HL HC. destruct (mv_acc _ _ _ mv) as (aV & Ea & Dv & _ & Dth & _). revert Ea. unfold accelV, thermostat. rewrite HM, HB. cbn [andb].
  destruct (Nat.eqb_spec (chainLengthT (y_d y)) 0) as [|N]; [discriminate|]. rewrite ke_kinetic by exact HD. intros Ea. injection Ea as Ea. subst aV. cbn [ionic thermo] in *.
  unfold energyT. eapply dval; [apply dplus; [apply dplus; [apply (mv_PE _ _ _ mv)|apply (kinetic_derive _ _ _ _ _ Dv)]|apply (chainT_rate y x t mv HT HtT HN); [lia|exact Dth]]|].
  rewrite power_add, (power_ext _ _ _ _ _ (HC _)), power_self, HL, contract_comm, contract_zero. match goal with |- ?a = ?b => change (@eq R a b) end. ring.
Qed.

(** ** Constant pressure or stress *)
Lemma half_even n : IZR (n * (n + 1) / 2) = IZR (n * (n + 1)) / 2.
Proof.
  assert (E : (n * (n + 1) = 2 * (n * (n + 1) / 2))%Z).
  { apply Z_div_exact_full_2; [lia|]. destruct (Z.Even_or_Odd n) as [(k & ->)|(k & ->)].
    - replace (2 * k * (2 * k + 1))%Z with (k * (2 * k + 1) * 2)%Z by ring. apply Z_mod_mult.
    - replace ((2 * k + 1) * (2 * k + 1 + 1))%Z with ((2 * k + 1) * (k + 1) * 2)%Z by ring. apply Z_mod_mult. }
  rewrite E at 2. rewrite mult_IZR. field.
Qed.
Theorem npt_rate y x t : moves y x t -> rdet (x_R x t) <> 0 -> 0 < T0 (y_d y) -> tDampT (y_d y) <> 0 -> tDampP (y_d y) <> 0 -> (0 < y_nDOF y)%Z ->
  statMethod (y_d y) = NoseHoover -> baro_on (y_d y) = true -> (0 < nFree (y_d y) (y_free y))%Z ->
  strain_ok (x_R x t) (y_sym y) (y_P y) (statP (y_d y)) (lattice (x_v x t)) -> y_sym y <> [] -> (forall p, In p (y_sym y) -> orthogonal (cartesian (x_R x t) p)) ->
  mtrans (y_P y) = y_P y -> rmm (y_P y) (y_P y) = y_P y -> rtrace (y_P y) <> 0 ->
  (forall g, let a := gaxpy (-1) (gmat (lattice (x_v x t)) (ionic (x_v x t))) (gscaleI g (ionic (x_v x t))) in
     same (y_cs y) (constrain (x_R x t) (y_sym y) (y_map y) (y_cs y) (y_ext y) a) a) ->
  is_derive (energyP y x (nFree (y_d y) (y_free y))) t 0.
Proof.
  intros mv HD HT HtT HtP HN HM HB HF HL Hs Ho Ps PP Pt HC. destruct (mv_acc _ _ _ mv) as (aV & Ea & Dv & DL & Dth & Db). revert Ea. unfold accelV, thermostat. rewrite HM, HB. cbn [andb].
  destruct (Nat.eqb_spec (chainLengthT (y_d y)) 0) as [|N]; [discriminate|]. destruct (Nat.eqb_spec (chainLengthP (y_d y)) 0) as [|N']; [discriminate|].
  rewrite ke_kinetic by exact HD. intros Ea. injection Ea as Ea. subst aV. cbn [ionic lattice thermo baro] in *.
  set (n := nFree (y_d y) (y_free y)) in *. set (KE := kinetic (y_cs y) (y_mass y) (ionic (x_v x t))) in *.
  unfold energyP, energyT. assert (W : (1 / tDampP (y_d y))^2 <> 0) by (apply pow_nonzero; unfold Rdiv; rewrite Rmult_1_l; apply Rinv_neq_0_compat; exact HtP).
  rewrite half_even, contract_self in Db. replace (1 / tDampP (y_d y) * (1 / tDampP (y_d y))) with ((1 / tDampP (y_d y))^2) in Db by ring.
  assert (Cb := chain_derive (chainLengthP (y_d y)) (IZR (n * (n + 1)) / 2) (T0 (y_d y)) _ _ (fun s => baro (x_v x s)) (x_etab x) t W ltac:(lia) Db (mv_etab _ _ _ mv)).
  eapply dval; [apply dplus; [apply dplus; [apply dplus; [apply dplus; [apply dplus; [apply (mv_PE _ _ _ mv)|apply (kinetic_derive _ _ _ _ _ Dv)]|apply (chainT_rate y x t mv HT HtT HN); [lia|exact Dth]]|apply (mv_work _ _ _ mv)]|apply dscal, (contract_derive _ _ _ DL)]|exact Cb]|].
  rewrite power_add, (power_ext _ _ _ _ _ (HC _)), power_axpy, power_self. rewrite (strain_projection _ _ _ _ _ _ HL Hs Ho Ps PP Pt).
  rewrite contract_sub, !contract_scale, contract_add, !contract_scale, contract_sub, stress_contract, contract_id by exact HD. cbv beta. fold KE.
  match goal with |- ?a = ?b => change (@eq R a b) end.
  assert (I1 : IZR (y_nDOF y) <> 0) by (apply not_0_IZR; lia). assert (I2 : IZR (y_nDOF y + n) <> 0) by (apply not_0_IZR; lia). assert (I3 : IZR (n * (n + 1)) <> 0) by (apply not_0_IZR; nia).
  generalize dependent (IZR (y_nDOF y + n)); intros nf NF. generalize dependent (IZR (n * (n + 1))). intros nl NL.
  intros. field. repeat split; assumption || lra.
Qed.
