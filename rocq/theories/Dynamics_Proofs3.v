(** Constraints and the conservation laws; Berendsen thermostat and barostat. *)
From Coq Require Import String ZArith Reals Bool List Lia Lra Psatz.
From Coquelicot Require Import Coquelicot.
From Verif Require Import Base Vec3_Model Vec3_Facts Lattice_Model Coulomb_Proofs Sym_Model Sym_Spec Sym_Proofs7 Sym_Proofs8 Ions_Model Ions_Spec Ions_Proofs Ions_Proofs2 Ions_Proofs3 Ions_Proofs4 Ions_Proofs5 Ions_Proofs8 VdW_Proofs3 Dynamics_Model Dynamics_Spec Dynamics_Proofs Dynamics_Proofs2.
Import ListNotations.
Local Open Scope R_scope.
Set Bullet Behavior "Strict Subproofs".

Lemma keep_scale Rl sym pos am cs ext v g : symmetric_constraints Rl sym pos am cs -> rdet Rl <> 0 -> parsed cs -> orthogonal_planes cs -> velocity_ok Rl sym pos cs ext v ->
  same cs (constrain Rl sym am cs ext (gscaleI g v)) (gscaleI g v).
Proof.
  intros HS HD HP HO [A S]. destruct (sym_combined Rl sym pos am cs HS HD ext HP HO (gscaleI g v)) as (_ & _ & X & _). apply X.
  - apply (allowed_ext cs ext (gaxpy (g - 1) v v)); [intros sp a _; unfold gaxpy, gscaleI; destruct (v sp a); v3u; f_equal; ring|apply ok_axpy_all; assumption].
  - intros p Hp sp a b M. unfold gscaleI. rewrite <- (S p Hp sp a b M). generalize (mtrans (cartesian Rl p)) (v sp b). intros [] []. v3u. f_equal; ring.
Qed.
Lemma free_parsed cs : unconstrained cs -> parsed cs.
Proof. intros U sp a H. destruct (U sp a H) as [_ E]. cbv zeta. rewrite E. split; [intros [X|X]; discriminate|discriminate]. Qed.
Lemma free_planes cs : unconstrained cs -> orthogonal_planes cs.
Proof.
  intros U g g' _. unfold inner. rewrite (total_ext cs _ (fun _ _ => 0)); [rewrite total_const; ring|]. intros sp a H. destruct (U sp a H) as [_ E]. unfold normal. rewrite E. v3u. ring.
Qed.
Lemma keep_strain Rl sym pos am cs ext v P iso L g : symmetric_constraints Rl sym pos am cs -> rdet Rl <> 0 -> unconstrained cs -> velocity_ok Rl sym pos cs ext v -> strain_ok Rl sym P iso L ->
  let a := gaxpy (-1) (gmat L v) (gscaleI g v) in same cs (constrain Rl sym am cs ext a) a.
Proof.
  intros HS HD U [A S] (_ & _ & I & _) a. destruct (sym_combined Rl sym pos am cs HS HD ext (free_parsed cs U) (free_planes cs U) a) as (_ & _ & X & _). apply X; clear X; unfold a.
  - apply ok_axpy_all.
    + split; [|split].
      * intros sp b H. destruct (U sp b H) as [N E]. split; [intros Z; congruence|split; intros _ Y; congruence].
      * intros h _. unfold inner. rewrite (total_ext cs _ (fun _ _ => 0)); [rewrite total_const; ring|]. intros sp b H. destruct (U sp b H) as [_ E]. unfold normal. rewrite E. v3u. ring.
      * intros U' E. destruct A as (_ & _ & A). specialize (A U' E). unfold net in *. injection A as A0 A1 A2. unfold gmat.
        assert (G : forall x y z, total cs (fun sp a => x * c0 (v sp a) + y * c1 (v sp a) + z * c2 (v sp a)) = 0) by (intros; rewrite !total_plus, !total_scale, A0, A1, A2; ring).
        f_equal; [rewrite <- (G (m00 L) (m01 L) (m02 L))|rewrite <- (G (m10 L) (m11 L) (m12 L))|rewrite <- (G (m20 L) (m21 L) (m22 L))]; apply total_ext; intros sp b _; destruct L, (v sp b); v3u; reflexivity.
    + apply (allowed_ext cs ext (gaxpy (g - 1) v v)); [intros sp b _; unfold gaxpy, gscaleI; destruct (v sp b); v3u; f_equal; ring|apply ok_axpy_all; assumption].
  - intros p Hp sp b c M. unfold gaxpy, gscaleI, gmat. rewrite <- (S p Hp sp b c M). assert (O := sc_orth _ _ _ _ _ HS p Hp). assert (J := I p Hp). set (Q := cartesian Rl p) in *.
    assert (K : rmm (mtrans Q) L = rmm L (mtrans Q)).
    { rewrite <- J at 1. rewrite !rmm_assoc, O. f_equal. destruct L. v3u. f_equal; ring. }
    transitivity (rvadd (rvscale g (rmv (mtrans Q) (v sp c))) (rvscale (-1) (rmv (rmm (mtrans Q) L) (v sp c)))).
    + rewrite rmv_mm. generalize (rmv L (v sp c)) (mtrans Q) (v sp c). intros [] [] []. v3u. f_equal; ring.
    + rewrite K, rmv_mm. reflexivity.
Qed.
Lemma const_of_derive (f : R -> R) a b : a <= b -> (forall t, a <= t <= b -> is_derive f t 0) -> f a = f b.
Proof. intros [L|E] H; [|rewrite E; reflexivity]. apply (eq_is_derive f a b); assumption. Qed.

Theorem nvt y x pos t0 t1 : 0 < T0 (y_d y) -> tDampT (y_d y) <> 0 -> (0 < y_nDOF y)%Z -> statMethod (y_d y) = NoseHoover -> baro_on (y_d y) = false ->
  parsed (y_cs y) -> orthogonal_planes (y_cs y) -> t0 <= t1 ->
  (forall t, t0 <= t <= t1 -> moves y x t /\ rdet (x_R x t) <> 0 /\ lattice (x_v x t) = rdiag 0 0 0 /\
     symmetric_constraints (x_R x t) (y_sym y) (pos t) (y_map y) (y_cs y) /\ velocity_ok (x_R x t) (y_sym y) (pos t) (y_cs y) (y_ext y) (ionic (x_v x t))) ->
  energyT y x t0 = energyT y x t1.
Proof.
  intros HT Ht HN HM HB HP HO Le H. apply const_of_derive; [exact Le|]. intros t I. destruct (H t I) as (mv & HD & HL & HS & HV).
  apply nvt_rate; try assumption. intros g. apply (keep_scale _ _ (pos t)); assumption.
Qed.
Theorem npt y x pos t0 t1 : 0 < T0 (y_d y) -> tDampT (y_d y) <> 0 -> tDampP (y_d y) <> 0 -> (0 < y_nDOF y)%Z -> statMethod (y_d y) = NoseHoover -> baro_on (y_d y) = true ->
  unconstrained (y_cs y) -> mtrans (y_P y) = y_P y -> rmm (y_P y) (y_P y) = y_P y -> rtrace (y_P y) <> 0 -> (0 < nFree (y_d y) (y_free y))%Z -> t0 <= t1 ->
  (forall t, t0 <= t <= t1 -> moves y x t /\ rdet (x_R x t) <> 0 /\ strain_ok (x_R x t) (y_sym y) (y_P y) (statP (y_d y)) (lattice (x_v x t)) /\
     symmetric_constraints (x_R x t) (y_sym y) (pos t) (y_map y) (y_cs y) /\ velocity_ok (x_R x t) (y_sym y) (pos t) (y_cs y) (y_ext y) (ionic (x_v x t))) ->
  energyP y x (nFree (y_d y) (y_free y)) t0 = energyP y x (nFree (y_d y) (y_free y)) t1.
Proof.
  intros HT Ht HtP HN HM HB U Ps PP' Pt HF Le H. apply const_of_derive; [exact Le|]. intros t I. destruct (H t I) as (mv & HD & HL & HS & HV).
  apply npt_rate; try assumption.
  - destruct (gr_neutral _ (sc_group _ _ _ _ _ HS)) as (e & He & _). intros E. rewrite E in He. exact He.
  - intros p Hp. apply (sc_orth _ _ _ _ _ HS p Hp).
  - intros g. apply (keep_strain _ _ (pos t) _ _ _ _ (y_P y) (statP (y_d y))); assumption.
Qed.
(** the work against a constant pressure *)
Lemma work_pressure y x t : statP (y_d y) = true -> mderive (x_R x) t (rmm (lattice (x_v x t)) (x_R x t)) ->
  is_derive (fun s => P0 (y_d y) * rdet (x_R x s)) t (- rdet (x_R x t) * contract (lattice (x_v x t)) (stressTarget (y_d y))).
Proof.
  intros S D. unfold stressTarget. rewrite S, contract_scale, contract_id. eapply dval; [apply dscal, (det_derive _ _ _ D)|]. match goal with |- ?a = ?b => change (@eq R a b) end. ring.
Qed.
(** strain rates produced by the constraint function *)
Theorem strain_of_constrain Ro fixed sym iso Rl A : rdet Ro <> 0 -> space_group sym -> commensurate sym fixed -> (forall p, In p sym -> orthogonal (cartesian Ro p)) ->
  rdet Rl <> 0 -> (forall p, In p sym -> cartesian Rl p = cartesian Ro p) ->
  let P := snd (PfreeOf Ro fixed) in strain_ok Rl sym P iso (constrainLattice Rl sym P iso A).
Proof.
  intros HD HG HC HO HDl HE P. destruct (PP Ro fixed HD) as (Ps & PPi & _). fold P in Ps, PPi.
  assert (Cm : forall p, In p sym -> rmm P (cartesian Rl p) = rmm (cartesian Rl p) P).
  { intros p Hp. rewrite HE by exact Hp. apply (PQ_comm Ro fixed sym HD HG HC Ro p); [|exact Hp]. repeat split; auto. }
  assert (Or : forall p, In p sym -> orthogonal (cartesian Rl p)) by (intros p Hp; rewrite HE by exact Hp; apply HO, Hp).
  set (S1 := rmscale (1/2) (rmadd A (mtrans A))). assert (E1 : mtrans S1 = S1) by (unfold S1; destruct A; v3u; f_equal; ring).
  assert (E2 : mtrans (rmm (rmm P S1) P) = rmm (rmm P S1) P) by (rewrite !mtrans_mm, Ps, E1, <- rmm_assoc; reflexivity).
  destruct (tensor_sym Rl sym (rmm (rmm P S1) P) HDl HG) as (T1 & _ & _ & T4).
  unfold constrainLattice. fold S1. destruct iso.
  - set (k := _ / _). split; [|split; [|split]].
    + rewrite <- Ps at 2. destruct P. v3u. reflexivity.
    + rewrite mm_sc_r, mm_sc_l, PPi, PPi. reflexivity.
    + intros p Hp. rewrite mm_sc_r, mm_sc_l. f_equal. rewrite <- Cm by exact Hp. rewrite <- rmm_assoc, orth_other by (apply Or, Hp). destruct P. v3u. f_equal; ring.
    + intros _. exists k. reflexivity.
  - split; [|split; [|split; [|discriminate]]].
    + apply T4, E2.
    + unfold symmetrizeTensor. rewrite mm_sc_r, mm_sc_l. f_equal. unfold rmsum.
      set (X := rmm (rmm P S1) P).
      assert (G : forall l a b, incl l sym -> rmm (rmm P a) P = b -> rmm (rmm P (fold_left (fun acc t => rmadd acc (rmm (rmm (rotCart Rl t) X) (mtrans (rotCart Rl t)))) l a)) P =
        fold_left (fun acc t => rmadd acc (rmm (rmm (rotCart Rl t) X) (mtrans (rotCart Rl t)))) l b).
      { induction l as [|p l IH]; intros a b Hl E; cbn [fold_left]; [exact E|]. apply IH; [intros q Hq; apply Hl; right; exact Hq|]. rewrite mm_add_r, mm_add_l, E. f_equal.
        assert (Hp : In p sym) by (apply Hl; left; reflexivity). rewrite rotCart_cartesian. assert (Y := Cm p Hp). set (Q := cartesian Rl p) in *.
        assert (Y' : rmm (mtrans Q) P = rmm P (mtrans Q)) by (apply (f_equal mtrans) in Y; rewrite !mtrans_mm, Ps in Y; exact Y).
        rewrite !rmm_assoc, Y, <- !rmm_assoc, Y', !rmm_assoc. f_equal. rewrite <- !rmm_assoc. f_equal. unfold X. rewrite <- !rmm_assoc, PPi, !rmm_assoc, PPi. reflexivity. }
      apply G; [apply incl_refl|]. destruct P. v3u. f_equal; ring.
    + intros p Hp. apply T1, Hp.
Qed.
(** the same with the number of directions in which the cell may change: one if only the pressure is controlled, else the free lattice directions *)
Theorem npt_n y x pos n t0 t1 : 0 < T0 (y_d y) -> tDampT (y_d y) <> 0 -> tDampP (y_d y) <> 0 -> (0 < y_nDOF y)%Z -> statMethod (y_d y) = NoseHoover -> baro_on (y_d y) = true ->
  unconstrained (y_cs y) -> mtrans (y_P y) = y_P y -> rmm (y_P y) (y_P y) = y_P y -> rtrace (y_P y) <> 0 ->
  n = (if hasP0 (y_d y) then 1%Z else y_free y) -> (0 < n)%Z -> t0 <= t1 ->
  (forall t, t0 <= t <= t1 -> moves y x t /\ rdet (x_R x t) <> 0 /\ strain_ok (x_R x t) (y_sym y) (y_P y) (statP (y_d y)) (lattice (x_v x t)) /\
     symmetric_constraints (x_R x t) (y_sym y) (pos t) (y_map y) (y_cs y) /\ velocity_ok (x_R x t) (y_sym y) (pos t) (y_cs y) (y_ext y) (ionic (x_v x t))) ->
  energyP y x n t0 = energyP y x n t1.
Proof.
  intros HT Ht HtP HN HM HB U Ps PP' Pt En Hn Le H.
  assert (n = nFree (y_d y) (y_free y)) as E. { rewrite En. unfold nFree, statP, statT. rewrite HM. reflexivity. }
  rewrite E in *. exact (npt y x pos t0 t1 HT Ht HtP HN HM HB U Ps PP' Pt Hn Le H).
Qed.
