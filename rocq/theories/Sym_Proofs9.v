(** Space group operations (C34), and concrete groups for C35. *)
From Coq Require Import ZArith Reals List Bool Lia Lra Permutation FunctionalExtensionality.
From Coquelicot Require Import Complex.
From Verif Require Import Base Grid_Model Grid_Spec Vec3_Model Vec3_Facts IntUtil_Model Sym_Model Sym_Spec Sym_Proofs2 Sym_Proofs7 Sym_Proofs8.
Import ListNotations.
Open Scope R_scope.

Lemma mul_real p q x : applyReal (sgo_mul p q) x = applyReal p (applyReal q x).
Proof. unfold applyReal, sgo_mul. cbn [sg_rot sg_a]. rewrite mIZR_mm, rmv_mm, rmv_add, rvadd_assoc. auto. Qed.
Lemma mul_recip p q k : applyRecip (sgo_mul p q) k = applyRecip q (applyRecip p k).
Proof. unfold applyRecip, sgo_mul. cbn [sg_rot]. rewrite mIZR_mm. apply rvm_mm. Qed.
Lemma real_recip p k x : rdot k (applyReal p x) = rdot (applyRecip p k) x + rdot k (sg_a p).
Proof. unfold applyReal, applyRecip. destruct (sg_rot p), (sg_a p), k, x. v3_unfold. ring. Qed.
Lemma mul_assoc p q r : sgo_mul p (sgo_mul q r) = sgo_mul (sgo_mul p q) r.
Proof. unfold sgo_mul. cbn [sg_rot sg_a]. rewrite zmm_assoc, mIZR_mm, rmv_mm, rmv_add, rvadd_assoc. auto. Qed.
Lemma mul_id_l p : sgo_mul (SGO zid (V 0 0 0)) p = p.
Proof. unfold sgo_mul. cbn [sg_rot sg_a]. rewrite zmm_id_l, mIZR_id, rmv_id, rvadd_0r. destruct p; auto. Qed.
Lemma mul_id_r p : sgo_mul p (SGO zid (V 0 0 0)) = p.
Proof. unfold sgo_mul. cbn [sg_rot sg_a]. rewrite zmm_id_r. destruct p as [r a]. cbn [sg_rot sg_a]. f_equal. generalize (mIZR r). intros. v3_ring. Qed.
Lemma zmscale_mm_l s a b : zmm (zmscale s a) b = zmscale s (zmm a b). Proof. v3_ring. Qed.
Lemma inv_rot_l r : (zdet r = 1 \/ zdet r = -1)%Z -> zmm (zmscale (zdet r) (zadj r)) r = zid.
Proof. intros H. rewrite zmscale_mm_l, zadj_l. destruct H as [->| ->]; reflexivity. Qed.
Lemma inv_rot_r r : (zdet r = 1 \/ zdet r = -1)%Z -> zmm r (zmscale (zdet r) (zadj r)) = zid.
Proof. intros H. rewrite zmm_scale, zadj_r. destruct H as [->| ->]; reflexivity. Qed.
Lemma inv_l p : (zdet (sg_rot p) = 1 \/ zdet (sg_rot p) = -1)%Z -> sgo_mul (sgo_inv p) p = SGO zid (V 0 0 0).
Proof.
  intros H. unfold sgo_mul, sgo_inv. cbn [sg_rot sg_a]. rewrite (inv_rot_l _ H). f_equal. generalize (rmv (mIZR (zmscale (zdet (sg_rot p)) (zadj (sg_rot p)))) (sg_a p)). intros. v3_ring.
Qed.
Lemma inv_r p : (zdet (sg_rot p) = 1 \/ zdet (sg_rot p) = -1)%Z -> sgo_mul p (sgo_inv p) = SGO zid (V 0 0 0).
Proof.
  intros H. unfold sgo_mul, sgo_inv. cbn [sg_rot sg_a]. rewrite (inv_rot_r _ H). f_equal. rewrite rmv_opp, <- rmv_mm, <- mIZR_mm, (inv_rot_r _ H), mIZR_id, rmv_id. generalize (sg_a p). intros. v3_ring.
Qed.

(** A group of two: identity and inversion about a/2 *)
Definition eOp := SGO zid (V 0 0 0).
Definition iOp (a : vec R) := SGO (zdiag (-1) (-1) (-1))%Z a.
Lemma lattice_eq x y : x = y -> lattice_equal x y.
Proof. intros ->. apply latt_refl. Qed.
Lemma neutral_e : neutral eOp.
Proof. apply neutral_alg. split; auto. apply latt_refl. Qed.
Lemma pair_group a : space_group [eOp; iOp a].
Proof.
  assert (C1 : composes eOp eOp eOp) by (apply composes_alg; split; [reflexivity|apply lattice_eq; unfold eOp; cbn [sg_a sg_rot]; v3_ring]).
  assert (C2 : composes eOp (iOp a) (iOp a)) by (apply composes_alg; split; [reflexivity|apply lattice_eq; unfold eOp, iOp; cbn [sg_a sg_rot]; v3_ring]).
  assert (C3 : composes (iOp a) eOp (iOp a)) by (apply composes_alg; split; [reflexivity|apply lattice_eq; unfold eOp, iOp; cbn [sg_a sg_rot]; v3_ring]).
  assert (C4 : composes (iOp a) (iOp a) eOp) by (apply composes_alg; split; [reflexivity|apply lattice_eq; unfold eOp, iOp; cbn [sg_a sg_rot]; v3_ring]).
  constructor.
  - repeat constructor. intros (E&_). discriminate E.
  - intros p q [<-|[<-|[]]] [<-|[<-|[]]]; eexists; (split; [|eassumption]); cbn; auto.
  - exists eOp. split; [left; auto|apply neutral_e].
  - intros p [<-|[<-|[]]]; [exists eOp, eOp|exists (iOp a), eOp]; cbn; auto 10 using neutral_e.
Qed.
Lemma pair_orth a p : In p [eOp; iOp a] -> orthogonal (cartesian rid p).
Proof.
  assert (D : rdet rid <> 0) by (v3_unfold; lra).
  assert (I : rinv rid = rid) by (rewrite <- (rmm_id_r (rinv rid)); apply rinv_l; auto).
  unfold orthogonal, cartesian. rewrite I, rmm_id_r, rmm_id_l. intros [<-|[<-|[]]]; unfold eOp, iOp; cbn [sg_rot]; v3_ring.
Qed.
Definition S211 : V3 := (2, 1, 1)%Z.
Definition half : vec R := V (1/2) 0 0.
Definition quarter : vec R := V (1/4) 0 0.
Lemma fits_rot a p : In p [eOp; iOp a] -> forall i j, (i < 3)%nat -> (j < 3)%nat -> exists q : Z, (S_at S211 i * mget (sg_rot p) i j = q * S_at S211 j)%Z.
Proof.
  intros [<-|[<-|[]]] i j Hi Hj; destruct i as [|[|[|]]]; try lia; destruct j as [|[|[|]]]; try lia;
    first [exists 0%Z; reflexivity|exists 1%Z; reflexivity|exists (-1)%Z; reflexivity].
Qed.
Lemma fits_half p : In p [eOp; iOp half] -> fits_mesh S211 p.
Proof.
  intros Hp. split; [apply (fits_rot half); auto|]. destruct Hp as [<-|[<-|[]]]; intros i Hi; destruct i as [|[|[|]]]; try lia; cbn;
    first [exists 0%Z; lra|exists 1%Z; lra].
Qed.
Lemma small_half a : small_mesh S211 [eOp; iOp a].
Proof.
  split; [cbn; lia|]. intros p g [<-|[<-|[]]] (H0&H1&H2); destruct g as [x y z]; unfold S211, v0, v1, v2, in_box, eOp, iOp in *; cbn [sg_rot fst snd c0 c1 c2] in *; v3_unfold; cbn in *; lia.
Qed.

(** A mesh that fits the rotations but not the translations *)
Definition cls_q : list SymmClass :=
  [mkClass [0%Z; 0%Z] (map (opPhase (0, 0, 0)%Z) [eOp; iOp quarter]) 2; mkClass [1%Z; 1%Z] (map (opPhase (1, 0, 0)%Z) [eOp; iOp quarter]) 2].
Lemma cls_q_ok : initSymmIndex S211 [eOp; iOp quarter] = Some cls_q.
Proof. reflexivity. Qed.
Lemma halves x : symmetrizeTilde [eOp; iOp quarter] cls_q x 1%Z = Cmult (RtoC (1/2)) (x 1%Z).
Proof.
  unfold symmetrizeTilde, cls_q. cbn [length Nat.eqb fold_left].
  set (y := symmetrize_phase_calc (mkClass [0%Z; 0%Z] _ 2) x). assert (E : y 1%Z = x 1%Z) by reflexivity. rewrite <- E. clearbody y. clear E x.
  unfold symmetrize_phase_calc. cbn [cl_index cl_phase cl_mult map combine fold_left fst snd length]. unfold setZ, csum. cbn [fold_left fst snd].
  change (Z.eqb 1 1) with true. cbn iota.
  assert (P0 : opPhase (1,0,0)%Z eOp = RtoC 1). { unfold opPhase. rewrite <- cis_0. f_equal. unfold eOp, toV. v3_unfold. cbn. ring. }
  assert (P1 : opPhase (1,0,0)%Z (iOp quarter) = (0, -1)). { unfold opPhase, iOp, quarter, toV. v3_unfold. cbn. replace (-2 * PI * (1 * (1/4) + 0 * 0 + 0 * 0)) with (- (PI / 2)) by field. unfold cis. rewrite cos_neg, sin_neg, cos_PI2, sin_PI2. auto. }
  rewrite P0, P1. change (IZR (Z.of_nat 2 * 2)) with 4. destruct (y 1%Z) as (a,b). unfold Cplus, Cmult, Cconj, RtoC. cbn [fst snd]. apply injective_projections; cbn [fst snd]; field.
Qed.
Lemma not_projection : exists S sym cls x, pos3 S /\ space_group sym /\
  (forall p, In p sym -> orthogonal (cartesian rid p)) /\
  (forall p i j, In p sym -> (i < 3)%nat -> (j < 3)%nat -> exists q : Z, (S_at S i * mget (sg_rot p) i j = q * S_at S j)%Z) /\
  small_mesh S sym /\ initSymmIndex S sym = Some cls /\
  symmetrizeTilde sym cls (symmetrizeTilde sym cls x) 1%Z <> symmetrizeTilde sym cls x 1%Z.
Proof.
  exists S211, [eOp; iOp quarter], cls_q, (fun _ => RtoC 1).
  refine (conj _ (conj (pair_group _) (conj (pair_orth _) (conj (fun p i j Hp => fits_rot _ p Hp i j) (conj (small_half _) (conj cls_q_ok _)))))).
  - cbn. lia.
  - rewrite !halves. intros E. apply (f_equal fst) in E. cbn in E. lra.
Qed.
(** one atom at the inversion centre: any force is removed *)
Lemma force_lost : exists sym pos atomMap f, space_group sym /\ distinct_positions pos /\
  (forall a k, (a < length pos)%nat -> (k < length sym)%nat -> atom_map pos (nth k sym (SGO zid (V 0 0 0))) a (atomMap a k)) /\
  total_force pos (symmetrizeForces sym atomMap f) <> total_force pos f.
Proof.
  exists [eOp; iOp (V 0 0 0)], [V 0 0 0], (fun _ _ => 0%nat), (fun _ => V 1 0 0). refine (conj (pair_group _) (conj _ (conj _ _))).
  - intros a b x y Ha Hb _. destruct a as [|[|]], b as [|[|]]; cbn in *; congruence.
  - intros a k Ha Hk. cbn in Ha, Hk. assert (a = 0%nat) by lia. subst a. exists (V 0 0 0), (V 0 0 0). repeat split; auto. apply lattice_eq. destruct k as [|[|]]; try lia; cbn [nth]; unfold eOp, iOp; cbn [sg_a sg_rot]; v3_ring.
  - unfold total_force, symmetrizeForces. cbn. unfold rvsum. cbn. v3_unfold. intros E. injection E. intros. lra.
Qed.
Lemma id_acts x : applyReal (SGO zid (V 0 0 0)) x = x.
Proof. unfold applyReal. cbn [sg_rot sg_a]. v3_ring. Qed.
Lemma inv_all p : (zdet (sg_rot p) = 1 \/ zdet (sg_rot p) = -1)%Z ->
  sgo_mul (sgo_inv p) p = SGO zid (V 0 0 0) /\ sgo_mul p (sgo_inv p) = SGO zid (V 0 0 0) /\
  (forall x, applyReal (sgo_inv p) (applyReal p x) = x /\ applyReal p (applyReal (sgo_inv p) x) = x).
Proof.
  intros H. refine (conj (inv_l p H) (conj (inv_r p H) _)). intros x. rewrite <- !mul_real, inv_l, inv_r, id_acts by auto. auto.
Qed.
Lemma rid_det : rdet rid <> 0.
Proof. v3_unfold. lra. Qed.
(** two atoms exchanged by an inversion, with opposite forces *)
Definition pos2 := [V 0 0 0; half].
Definition swap2 (a k : nat) : nat := match k with O => a | _ => match a with O => 1%nat | _ => 0%nat end end.
Definition f2 (a : nat) : vec R := match a with O => V 1 0 0 | _ => V (-1) 0 0 end.
Lemma forces_ex : space_group [eOp; iOp half] /\ distinct_positions pos2 /\
  (forall a k, (a < length pos2)%nat -> (k < length [eOp; iOp half])%nat -> atom_map pos2 (nth k [eOp; iOp half] (SGO zid (V 0 0 0))) a (swap2 a k)) /\
  (forall p, In p [eOp; iOp half] -> rmv (mtrans (mIZR (sg_rot p))) (total_force pos2 f2) = total_force pos2 f2).
Proof.
  assert (N : forall t : Z, 1/2 <> IZR t). { intros t E. assert (2 * IZR t = 1) by lra. assert (X : IZR (2 * t) = IZR 1) by (rewrite mult_IZR; lra). apply eq_IZR in X. lia. }
  refine (conj (pair_group _) (conj _ (conj _ _))).
  - intros a b x y Ha Hb (t&E). destruct t as [t0 t1 t2]. unfold half in *. destruct a as [|[|[|]]], b as [|[|[|]]]; cbn in Ha, Hb; try discriminate; auto; injection Ha as <-; injection Hb as <-; v3_unfold; injection E as E0 E1 E2; exfalso.
    + apply (N (- t0)%Z). rewrite opp_IZR. lra. + apply (N t0). lra.
  - intros a k Ha Hk. cbn in Ha, Hk. unfold atom_map, acts, half. destruct a as [|[|]]; try lia; destruct k as [|[|]]; try lia; cbn [nth swap2 nth_error pos2 half]; eexists; eexists; (split; [reflexivity|split; [reflexivity|]]); apply lattice_eq; unfold eOp, iOp, half; cbn [sg_rot sg_a]; v3_unfold; f_equal; lra.
  - assert (T : total_force pos2 f2 = V 0 0 0) by (unfold total_force; cbn; v3_unfold; f_equal; lra). rewrite T. intros p _. generalize (mtrans (mIZR (sg_rot p))). intros. v3_ring.
Qed.
