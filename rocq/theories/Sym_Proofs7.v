(** Symmetrized spin density matrices (C35). *)
From Coq Require Import ZArith Reals List Bool Lia Lra Permutation FunctionalExtensionality.
From Coquelicot Require Import Complex.
From Verif Require Import Base Grid_Model Grid_Spec Grid_Proofs Vec3_Model Vec3_Facts IntUtil_Model IntUtil_Proofs Sym_Model Sym_Spec Sym_Proofs Sym_Proofs2 Sym_Proofs3 Sym_Proofs4 Sym_Proofs5 Sym_Proofs6.
Import ListNotations.
Open Scope R_scope.

Definition wadd4 (a b : C4) : C4 := mkC4 (Cplus (up a) (up b)) (Cplus (dn a) (dn b)) (Cplus (re a) (re b)) (Cplus (im a) (im b)).
Definition ph4 (c : C) (a : C4) : C4 := mkC4 (Cmult c (up a)) (Cmult c (dn a)) (Cmult c (re a)) (Cmult c (im a)).
Definition sc4 (s : R) (a : C4) : C4 := ph4 (RtoC s) a.
Definition mk4 (s : C) (v : vec C) : C4 := accum4 zero4 (RtoC 1) s v.
Definition rot4 (O : mat R) (a : C4) : C4 := mk4 (density4 a) (cmv O (magnet4 a)).
Definition roti4 (O : mat R) (a : C4) : C4 := mk4 (density4 a) (cvm (magnet4 a) O).
Lemma half2 (z : C) : Cmult (RtoC (1/2)) (Cmult (RtoC 2) z) = z.
Proof. rewrite Cmult_assoc, <- RtoC_mult. replace (1/2*2) with 1 by field. ring. Qed.
Lemma half_two : Cmult (RtoC (1/2)) (RtoC 2) = RtoC 1.
Proof. rewrite <- RtoC_mult. f_equal. field. Qed.
Lemma half_m2 : Cmult (RtoC (1/2)) (RtoC (-2)) = RtoC (-1).
Proof. rewrite <- RtoC_mult. f_equal. field. Qed.
Lemma C4_ext a b : up a = up b -> dn a = dn b -> re a = re b -> im a = im b -> a = b.
Proof. destruct a, b. cbn. intros -> -> -> ->. auto. Qed.
Ltac cring := unfold Cminus, Cplus, Cmult, Copp, RtoC; apply injective_projections; cbn; field.
Lemma C4_pair a b : density4 a = density4 b -> magnet4 a = magnet4 b -> a = b.
Proof.
  destruct a as [[? ?] [? ?] [? ?] [? ?]], b as [[? ?] [? ?] [? ?] [? ?]]. unfold density4, magnet4, Cminus, Cplus, Cmult, Copp, RtoC. cbn. intros D M.
  injection M. injection D. intros. apply C4_ext; cbn; f_equal; lra.
Qed.
Lemma density_mk s v : density4 (mk4 s v) = s.
Proof. unfold density4, mk4, accum4, zero4. destruct s, v as [[? ?] [? ?] [? ?]]. cbn [up dn re im c0 c1 c2]. cring. Qed.
Lemma magnet_mk s v : magnet4 (mk4 s v) = v.
Proof. unfold magnet4, mk4, accum4, zero4. destruct s, v as [[? ?] [? ?] [? ?]]. cbn [up dn re im c0 c1 c2]. f_equal; cring. Qed.
Lemma density_add a b : density4 (wadd4 a b) = Cplus (density4 a) (density4 b).
Proof. unfold density4. cbn. ring. Qed.
Lemma magnet_add a b : magnet4 (wadd4 a b) = cvadd (magnet4 a) (magnet4 b).
Proof. unfold magnet4, cvadd, gvadd. cbn. f_equal; ring. Qed.
Lemma density_ph c a : density4 (ph4 c a) = Cmult c (density4 a).
Proof. unfold density4. cbn. ring. Qed.
Lemma magnet_ph c a : magnet4 (ph4 c a) = cvscale c (magnet4 a).
Proof. unfold magnet4, cvscale, vmap. cbn. f_equal; ring. Qed.
Ltac p4 := apply C4_pair; unfold rot4, roti4, sc4; rewrite ?density_mk, ?magnet_mk, ?density_add, ?magnet_add, ?density_ph, ?magnet_ph, ?density_mk, ?magnet_mk, ?density_add, ?magnet_add, ?density_ph, ?magnet_ph, ?density_mk, ?magnet_mk.
Lemma cmv_add O v w : cmv O (cvadd v w) = cvadd (cmv O v) (cmv O w).
Proof. destruct O, v, w. unfold cmv, cvadd, gvadd, gmv, gdot, mmap. cbn. f_equal; ring. Qed.
Lemma cmv_sc O c v : cmv O (cvscale c v) = cvscale c (cmv O v).
Proof. destruct O, v. unfold cmv, cvscale, vmap, gmv, gdot, mmap. cbn. f_equal; ring. Qed.
Lemma cvm_sc O c v : cvm (cvscale c v) O = cvscale c (cvm v O).
Proof. destruct O, v. unfold cvm, cvscale, vmap, gvm, gdot, mmap. cbn. f_equal; ring. Qed.
Lemma cmv_mm O P v : cmv (rmm O P) v = cmv O (cmv P v).
Proof. destruct O, P, v. unfold cmv, gmv, gdot, mmap, rmm, gmm. cbn. unfold gdot. cbn. rewrite ?RtoC_plus, ?RtoC_mult. f_equal; ring. Qed.
Lemma cmv_id v : cmv rid v = v.
Proof. destruct v. unfold cmv, gmv, gdot, mmap, rid. cbn. f_equal; ring. Qed.
Lemma cvm_mv O v : cvm v O = cmv (mtrans O) v.
Proof. destruct O, v. unfold cvm, cmv, gvm, gmv, gdot, mmap, mtrans. cbn. f_equal; ring. Qed.

(** orthogonal Cartesian rotations form a representation *)
Lemma rotCart_mm Rl p q r : rdet Rl <> 0 -> sg_rot r = zmm (sg_rot p) (sg_rot q) -> rotCart Rl r = rmm (rotCart Rl p) (rotCart Rl q).
Proof.
  intros H E. unfold rotCart. rewrite E, mIZR_mm. set (P := mIZR (sg_rot p)). set (Q := mIZR (sg_rot q)).
  rewrite <- !rmm_assoc. rewrite (rmm_assoc (rinv Rl) Rl), rinv_l, rmm_id_l by auto. auto.
Qed.
Lemma rmscale_mm s t a b : rmm (rmscale s a) (rmscale t b) = rmscale (s * t) (rmm a b).
Proof. v3_ring. Qed.
Lemma rdet_trans a : rdet (mtrans a) = rdet a.
Proof. v3_sring. Qed.
Lemma orth_det O : orthogonal O -> rdet O = 1 \/ rdet O = -1.
Proof.
  intros H. assert (E : rdet O * rdet O = 1). { rewrite <- (rdet_trans O) at 1. rewrite <- rdet_mm, H. v3_sring. }
  assert (X : (rdet O - 1) * (rdet O + 1) = 0) by lra. apply Rmult_integral in X. lra.
Qed.
Lemma mtrans_scale s a : mtrans (rmscale s a) = rmscale s (mtrans a).
Proof. reflexivity. Qed.
Lemma rmscale_1 a : rmscale 1 a = a.
Proof. v3_ring. Qed.
Lemma rotSpin_eq Rl p : orthogonal (cartesian Rl p) -> rotSpin Rl p = rmscale (rdet (cartesian Rl p)) (cartesian Rl p).
Proof. intros H. unfold rotSpin. change (rotCart Rl p) with (cartesian Rl p). f_equal. destruct (orth_det _ H) as [->| ->]; lra. Qed.
Lemma rotSpin_orth Rl p : orthogonal (cartesian Rl p) -> rmm (mtrans (rotSpin Rl p)) (rotSpin Rl p) = rid.
Proof.
  intros H. rewrite rotSpin_eq by auto. rewrite mtrans_scale, rmscale_mm. rewrite H. destruct (orth_det _ H) as [->| ->]; v3_ring.
Qed.
Lemma rotSpin_mm Rl p q r : rdet Rl <> 0 -> orthogonal (cartesian Rl p) -> orthogonal (cartesian Rl q) -> sg_rot r = zmm (sg_rot p) (sg_rot q) ->
  rotSpin Rl r = rmm (rotSpin Rl p) (rotSpin Rl q).
Proof.
  intros H Hp Hq E. unfold rotSpin. rewrite rmscale_mm, (rotCart_mm Rl p q r) by auto. f_equal. rewrite rdet_mm.
  change (rotCart Rl p) with (cartesian Rl p). change (rotCart Rl q) with (cartesian Rl q). destruct (orth_det _ Hp) as [->| ->], (orth_det _ Hq) as [->| ->]; lra.
Qed.

(** two fields related by an operation, in both directions *)
Section Related.
Variable S : V3.
Hypothesis HS : pos3 S.
Lemma rel_of_coeff a b p q : fits_mesh S p -> fits_mesh S q -> zmm (sg_rot p) (sg_rot q) = zid ->
  (forall i, inD S i -> Cmult (phase (gp S i) p) (b (act S i p)) = a i) ->
  forall u, expansion S a (rvadd (rmv (mIZR (sg_rot p)) (mesh_point S u)) (sg_a p)) = expansion S b (mesh_point S u).
Proof.
  intros Fp Fq E H u. rewrite expansion_op by auto. rewrite expansion_sum.
  rewrite <- (csm_reindex S HS (fun i => Cmult (b i) (wave S i (mesh_point S u))) p q Fq E). apply csm_ext. intros i Hi. apply in_zrange in Hi. f_equal. rewrite <- (H i Hi).
  transitivity (Cmult (Cmult (Cconj (phase (gp S i) p)) (phase (gp S i) p)) (b (act S i p))); [ring|]. rewrite phase_unit. ring.
Qed.
Lemma coeff_of_rel a b p q : fits_mesh S p -> fits_mesh S q -> zmm (sg_rot p) (sg_rot q) = zid ->
  (forall u, expansion S a (rvadd (rmv (mIZR (sg_rot p)) (mesh_point S u)) (sg_a p)) = expansion S b (mesh_point S u)) ->
  forall i, inD S i -> Cmult (phase (gp S i) p) (b (act S i p)) = a i.
Proof.
  intros Fp Fq E H.
  assert (K : forall k, inD S k -> (fun j => Cmult (a (act S j q)) (Cconj (phase (gp S (act S j q)) p))) k = b k).
  { apply dft_inj; auto. intros u. rewrite <- (H u), expansion_op by auto. rewrite expansion_sum. symmetry.
    rewrite <- (csm_reindex S HS (fun i => Cmult (Cmult (a (act S i q)) (Cconj (phase (gp S (act S i q)) p))) (wave S i (mesh_point S u))) p q Fq E). apply csm_ext. intros i Hi. apply in_zrange in Hi. rewrite act_act, E, zvm_id, row_gp by auto. auto. }
  intros i Hi. specialize (K (act S i p) (act_in _ _ _ HS)). cbn beta in K. rewrite act_act, E, zvm_id, row_gp in K by auto. rewrite <- K.
  transitivity (Cmult (Cmult (Cconj (phase (gp S i) p)) (phase (gp S i) p)) (a i)); [ring|]. rewrite phase_unit. ring.
Qed.
Lemma expansion_lin2 a b c (x y z : Z -> C) r : expansion S (fun i => Cplus (Cplus (Cmult a (x i)) (Cmult b (y i))) (Cmult c (z i))) r =
  Cplus (Cplus (Cmult a (expansion S x r)) (Cmult b (expansion S y r))) (Cmult c (expansion S z r)).
Proof. rewrite !expansion_sum. rewrite <- !csm_scale, <- !csm_plus. apply csm_ext. intros. ring. Qed.
Lemma expansion_rot O (m : Z -> vec C) r : expansionV S (fun i => cmv O (m i)) r = rotate_c O (expansionV S m r).
Proof. destruct O. unfold expansionV, rotate_c, cmv, gmv, gdot, mmap. cbn. rewrite !expansion_lin2. auto. Qed.
End Related.

Section Spin.
Variables (S : V3) (sym : list SpaceGroupOp) (Rl : mat R).
Hypothesis HS : pos3 S.
Hypothesis HG : space_group sym.
Hypothesis HF : forall p, In p sym -> fits_mesh S p.
Hypothesis HR : small_mesh S sym.
Hypothesis HL : rdet Rl <> 0.
Hypothesis HO : forall p, In p sym -> orthogonal (cartesian Rl p).
Definition rotS (p : SpaceGroupOp) := rot4 (rotSpin Rl p).
Definition rotSi (p : SpaceGroupOp) := roti4 (rotSpin Rl p).
Definition avg4 := avgW S sym C4 zero4 wadd4 sc4 rotS ph4.
Lemma roti_rot4 p a : In p sym -> rotSi p (rotS p a) = a.
Proof. intros Hp. unfold rotS, rotSi. p4; auto. rewrite cvm_mv, <- cmv_mm, rotSpin_orth, cmv_id by auto. auto. Qed.
Lemma rot_comp4 p q r a : In p sym -> In q sym -> In r sym -> composes p q r -> rotS r a = rotS p (rotS q a).
Proof.
  intros Hp Hq Hr H. apply composes_alg in H. destruct H as (E&_). unfold rotS. p4; auto. rewrite (rotSpin_mm Rl p q r) by auto. apply cmv_mm.
Qed.
Ltac w4 := intros; unfold sc4, wadd4, ph4, zero4, rotS, rotSi; try (apply C4_ext; cbn [up dn re im]; rewrite ?RtoC_plus, ?RtoC_mult; ring).
Ltac r4 := intros; unfold rotS, rotSi; p4; rewrite ?cmv_add, ?cmv_sc, ?cvm_sc; auto.
Lemma LW4 i p a : LW S C4 rotS ph4 i p a = ph4 (phase (gp S i) p) (rotS p a).
Proof. auto. Qed.
Lemma avg4_invariant x i p : In p sym -> inD S i -> ph4 (phase (gp S i) p) (rotS p (avg4 x (act S i p))) = avg4 x i.
Proof. apply (avgW_invariant S sym HS HG HF C4 zero4 wadd4 sc4 rotS ph4); try solve [w4]; try solve [r4]; auto. apply rot_comp4. Qed.
Lemma avg4_fixed x i : inD S i -> (forall p, In p sym -> ph4 (phase (gp S i) p) (rotS p (x (act S i p))) = x i) -> avg4 x i = x i.
Proof. apply (avgW_fixed S sym HS HG HF C4 zero4 wadd4 sc4 rotS rotSi ph4); try solve [w4]; try solve [r4]; auto. apply roti_rot4. apply rot_comp4. Qed.
Lemma pair_sum i x l : forall acc, let sv := fold_left (fun acc t => let '(i, p, r) := t in let '(s, v) := get4 (x i) p in (Cplus (fst acc) s, cvadd (snd acc) (cmv r v)))
    (map (fun a => (act S i a, phase (gp S i) a, rotSpin Rl a)) l) acc in
  mk4 (fst sv) (snd sv) = wadd4 (mk4 (fst acc) (snd acc)) (wsum C4 zero4 wadd4 (map (fun r => LW S C4 rotS ph4 i r (x (act S i r))) l)).
Proof.
  induction l as [|a l IH]; intros acc; cbn [map fold_left wsum].
  - cbn zeta. w4.
  - cbn zeta in *. rewrite IH. unfold get4. cbn [fst snd]. unfold LW. fold (magnet4 (x (act S i a))). 
    match goal with |- wadd4 ?A ?B = wadd4 ?C (wadd4 ?D ?B') => assert (E : A = wadd4 C D) end.
    { unfold rotS. p4; auto. rewrite cmv_sc. auto. }
    rewrite E. w4.
Qed.
Lemma step4 i x : symmetrize_rot_calc (map (rotSpin Rl) sym) (classOf S sym i) x =
  classStep C4 zero4 wadd4 sc4 SpaceGroupOp sym (act S) (LW S C4 rotS ph4) (LiW S C4 rotSi ph4) i (INR (cnt SpaceGroupOp sym (act S) i i)) x.
Proof.
  unfold symmetrize_rot_calc, classStep, scatter, clear, classOf, orbitOf. cbn [cl_index cl_phase cl_mult]. rewrite !combine_map, !fold_left_map, map_length. cbn [fst snd].
  pose proof (pair_sum i x sym (RtoC 0, V (RtoC 0) (RtoC 0) (RtoC 0))) as E. cbn zeta in E. rewrite fold_left_map in E. cbn [fst snd] in E.
  set (sv := fold_left _ _ _) in *.
  assert (E' : sc4 (/ (n SpaceGroupOp sym * INR (cnt SpaceGroupOp sym (act S) i i))) (wsum C4 zero4 wadd4 (map (fun r => LW S C4 rotS ph4 i r (x (act S i r))) sym)) =
    mk4 (Cmult (fst sv) (RtoC (1 / IZR (Z.of_nat (length sym) * Z.of_nat (cnt SpaceGroupOp sym (act S) i i))))) (cvscale (RtoC (1 / IZR (Z.of_nat (length sym) * Z.of_nat (cnt SpaceGroupOp sym (act S) i i)))) (snd sv))).
  { assert (Z0 : mk4 (RtoC 0) (V (RtoC 0) (RtoC 0) (RtoC 0)) = zero4) by (apply C4_pair; rewrite ?density_mk, ?magnet_mk; unfold density4, magnet4, zero4; cbn; f_equal; ring).
    rewrite Z0 in E. assert (E2 : forall w, wadd4 zero4 w = w) by w4. rewrite E2 in E. rewrite <- E. unfold n. rewrite mult_IZR, <- !INR_IZR_INZ. unfold Rdiv. rewrite Rmult_1_l.
    p4; auto. ring. }
  rewrite E'. set (s := Cmult (fst sv) _). set (v := cvscale _ (snd sv)). apply fold_ext. intros y p. unfold setAt, setZ, LiW, rotSi. apply functional_extensionality. intros k. destruct (Z.eqb k (act S i p)); auto.
  unfold roti4. rewrite density_mk, magnet_mk. unfold mk4, accum4, wadd4, ph4, zero4. cbn [up dn re im]. apply C4_ext; cbn [up dn re im]; unfold Cminus; ring.
Qed.
Lemma steps4 l : forall x, fold_left (fun x cl => symmetrize_rot_calc (map (rotSpin Rl) sym) cl x) (map (classOf S sym) l) x =
  steps C4 zero4 wadd4 sc4 SpaceGroupOp sym (act S) (LW S C4 rotS ph4) (LiW S C4 rotSi ph4) l x.
Proof. induction l; intros x; cbn [map fold_left steps]; auto. rewrite step4. apply IHl. Qed.
Lemma neutral_rot e : neutral e -> rotSpin Rl e = rid.
Proof.
  intros N. destruct (proj1 (neutral_alg e) N) as (N1&_). unfold rotSpin, rotCart. rewrite N1, mIZR_id, rmm_id_r, rinv_r by auto.
  v3_unfold. f_equal; field.
Qed.
Lemma symmetrize4 x k : inD S k -> symmetrizeSpin Rl sym (map (classOf S sym) (reps S sym)) x k = avg4 x k.
Proof.
  intros Hk. unfold symmetrizeSpin. destruct (Nat.eqb_spec (length sym) 1) as [E|_].
  - symmetry. apply avg4_fixed; auto. destruct (neutral_single S sym HG HF HR E) as (e&Es&N). rewrite Es. intros p [<-|[]]. destruct (proj1 (neutral_alg e) N) as (N1&N2).
    unfold act. rewrite N1, zvm_id, row_gp, neutral_phase by auto. unfold rotS. rewrite neutral_rot by auto. p4. ring. rewrite cmv_id. unfold cvscale, vmap. destruct (magnet4 (x k)). cbn. f_equal; ring.
  - rewrite steps4. apply (all_steps S sym HS HG HF C4 zero4 wadd4 sc4 rotS rotSi ph4); try solve [w4]; try solve [r4]; auto. apply roti_rot4. apply rot_comp4.
Qed.
Lemma pos_part p : In p sym -> exists q, In q sym /\ zmm (sg_rot p) (sg_rot q) = zid.
Proof. intros Hp. destruct (two_sided sym HG p Hp) as (q&Hq&E&_). eauto. Qed.
Lemma spin_of_coeff x p : In p sym -> (forall i, inD S i -> ph4 (phase (gp S i) p) (rotS p (x (act S i p))) = x i) -> spin_invariant S Rl p x.
Proof.
  intros Hp H u r r' O. destruct (pos_part p Hp) as (q&Hq&E). unfold r', r. clear r r'. split.
  - apply (rel_of_coeff S HS _ _ p q); auto. intros i Hi. cbv beta; rewrite <- (H i Hi). unfold rotS, rot4. rewrite density_ph, density_mk. auto.
  - rewrite <- expansion_rot. unfold expansionV. unfold O. rewrite <- rotSpin_eq by auto.
    f_equal; apply (rel_of_coeff S HS _ _ p q); auto; intros i Hi; cbv beta; rewrite <- (H i Hi); unfold rotS, rot4; rewrite magnet_ph, magnet_mk; unfold cvscale, vmap; cbn [c0 c1 c2]; apply Cmult_comm.
Qed.
Lemma coeff_of_spin x p : In p sym -> spin_invariant S Rl p x -> forall i, inD S i -> ph4 (phase (gp S i) p) (rotS p (x (act S i p))) = x i.
Proof.
  intros Hp H i Hi. destruct (pos_part p Hp) as (q&Hq&E). unfold rotS. apply C4_pair.
  - unfold rot4. rewrite density_ph, density_mk. apply (coeff_of_rel S HS (fun i => density4 (x i)) (fun i => density4 (x i)) p q); auto. intros u. apply (H u).
  - unfold rot4. rewrite magnet_ph, magnet_mk.
    assert (K : forall u, expansionV S (fun i => magnet4 (x i)) (rvadd (rmv (mIZR (sg_rot p)) (mesh_point S u)) (sg_a p)) = expansionV S (fun i => cmv (rotSpin Rl p) (magnet4 (x i))) (mesh_point S u)).
    { intros u. rewrite expansion_rot. rewrite rotSpin_eq by auto. apply (H u). }
    apply vec_ext; unfold cvscale, vmap; cbn [c0 c1 c2]; rewrite Cmult_comm.
    + apply (coeff_of_rel S HS (fun i => c0 (magnet4 (x i))) (fun i => c0 (cmv (rotSpin Rl p) (magnet4 (x i)))) p q); auto. intros u. apply (f_equal c0 (K u)).
    + apply (coeff_of_rel S HS (fun i => c1 (magnet4 (x i))) (fun i => c1 (cmv (rotSpin Rl p) (magnet4 (x i)))) p q); auto. intros u. apply (f_equal c1 (K u)).
    + apply (coeff_of_rel S HS (fun i => c2 (magnet4 (x i))) (fun i => c2 (cmv (rotSpin Rl p) (magnet4 (x i)))) p q); auto. intros u. apply (f_equal c2 (K u)).
Qed.
Lemma density_avg x i : density4 (avg4 x i) = avgC S sym (fun i => density4 (x i)) i.
Proof.
  unfold avg4, avgC, avgW, avg, sc4, Csc. rewrite density_ph.
  assert (G : forall l, density4 (wsum C4 zero4 wadd4 (map (fun r => LW S C4 rotS ph4 i r (x (act S i r))) l)) = csm (map (fun r => LW S C idrot Cmult i r (density4 (x (act S i r)))) l)).
  2: { rewrite G. auto. }
  induction l as [|p l IH]; cbn [map wsum].
  - unfold density4, zero4. cbn. ring.
  - rewrite density_add, IH. f_equal. unfold LW, rotS, idrot, rot4. rewrite density_ph, density_mk. auto.
Qed.
Theorem spin_sym : exists cls, initSymmIndex S sym = Some cls /\ forall x, let y := symmetrizeSpin Rl sym cls x in
  (forall p, In p sym -> spin_invariant S Rl p y) /\
  ((forall p, In p sym -> spin_invariant S Rl p x) -> forall i, (0 <= i < nr S)%Z -> y i = x i) /\
  density4 (y 0%Z) = density4 (x 0%Z).
Proof.
  exists (map (classOf S sym) (reps S sym)). split; [apply initC; auto|]. intros x y.
  assert (E : forall i, inD S i -> y i = avg4 x i) by (intros; apply symmetrize4; auto).
  refine (conj _ (conj _ _)).
  - intros p Hp. apply spin_of_coeff; auto. intros i Hi. rewrite !E by (auto; apply act_in; auto). apply avg4_invariant; auto.
  - intros H i Hi. rewrite E by auto. apply avg4_fixed; auto. intros p Hp. apply coeff_of_spin; auto.
  - rewrite E by (split; [lia|apply nr_pos; auto]). rewrite density_avg. apply avg_charge; auto.
Qed.
End Spin.
