(** Symmetrization seen on the points of the mesh (C35). *)
From Coq Require Import ZArith Reals List Bool Lia Lra Permutation FunctionalExtensionality.
From Coquelicot Require Import Complex.
From Verif Require Import Base Grid_Model Grid_Spec Grid_Proofs Vec3_Model Vec3_Facts IntUtil_Model IntUtil_Proofs Sym_Model Sym_Spec Sym_Proofs Sym_Proofs2 Sym_Proofs3 Sym_Proofs4.
Import ListNotations.
Open Scope R_scope.

Notation csm := (wsum C (RtoC 0) Cplus).
Lemma csm_perm l l' : Permutation l l' -> csm l = csm l'.
Proof. apply wsum_perm; intros; ring. Qed.
Lemma csm_scal c l : Cmult c (csm l) = csm (map (Cmult c) l).
Proof. induction l; cbn; [ring|]. rewrite <- IHl. ring. Qed.
Lemma csm_plus {A} (f g : A -> C) l : csm (map (fun a => Cplus (f a) (g a)) l) = Cplus (csm (map f l)) (csm (map g l)).
Proof. induction l; cbn; [ring|]. rewrite IHl. ring. Qed.
Lemma csm_0 {A} (l : list A) : csm (map (fun _ => RtoC 0) l) = RtoC 0.
Proof. induction l; cbn; auto. rewrite IHl. ring. Qed.
Lemma csm_swap {A B} (f : A -> B -> C) l m : csm (map (fun a => csm (map (f a) m)) l) = csm (map (fun b => csm (map (fun a => f a b) l)) m).
Proof. induction l; cbn. - symmetry. apply csm_0. - rewrite IHl, <- csm_plus. auto. Qed.
Lemma csm_ext {A} (f g : A -> C) l : (forall a, In a l -> f a = g a) -> csm (map f l) = csm (map g l).
Proof. intros H. f_equal. apply map_ext_in. auto. Qed.
Lemma csm_scale {A} c (f : A -> C) l : csm (map (fun a => Cmult c (f a)) l) = Cmult c (csm (map f l)).
Proof. rewrite csm_scal, map_map. auto. Qed.

Lemma csm_scale_r {A} c (f : A -> C) l : csm (map (fun a => Cmult (f a) c) l) = Cmult (csm (map f l)) c.
Proof. rewrite Cmult_comm, <- csm_scale. apply csm_ext. intros. ring. Qed.

Definition wave (S : V3) (i : Z) (r : vec R) : C := cis (2 * PI * rdot (vIZR (gp S i)) r).
Lemma expansion_sum S x r : expansion S x r = csm (map (fun i => Cmult (x i) (wave S i r)) (zrange 0 (nr S))).
Proof. unfold expansion, wave, gp. induction (zrange 0 (nr S)); cbn; auto. rewrite IHl. auto. Qed.

Section Real.
Variable (S : V3).
Hypothesis HS : pos3 S.
Lemma wave_op i p u : fits_mesh S p ->
  wave S i (rvadd (rmv (mIZR (sg_rot p)) (mesh_point S u)) (sg_a p)) = Cmult (Cconj (phase (gp S i) p)) (wave S (act S i p) (mesh_point S u)).
Proof.
  intros Hf. unfold wave, phase. rewrite cis_conj, <- cis_add. unfold act. destruct (gp_row S (zvm (gp S i) (sg_rot p)) HS) as (t&->).
  apply cis_shift with (k := (- (c0 t * c0 u + c1 t * c1 u + c2 t * c2 u))%Z). unfold mesh_point.
  rewrite opp_IZR, !plus_IZR, !mult_IZR. destruct S as ((a,b),c). cbn [v0 v1 v2] in *. destruct HS as (Ha&Hb&Hc).
  assert (IZR a <> 0) by (apply not_0_IZR; lia). assert (IZR b <> 0) by (apply not_0_IZR; lia). assert (IZR c <> 0) by (apply not_0_IZR; lia).
  destruct (sg_rot p), (sg_a p), (gp (a,b,c) i), t, u. v3_unfold. rewrite !plus_IZR, !mult_IZR. cbn [v0 v1 v2]. rewrite ?plus_IZR, ?mult_IZR. field. auto.
Qed.
Lemma expansion_op x p u : fits_mesh S p ->
  expansion S x (rvadd (rmv (mIZR (sg_rot p)) (mesh_point S u)) (sg_a p)) =
  csm (map (fun i => Cmult (Cmult (x i) (Cconj (phase (gp S i) p))) (wave S (act S i p) (mesh_point S u))) (zrange 0 (nr S))).
Proof. intros Hf. rewrite expansion_sum. apply csm_ext. intros i _. rewrite wave_op by auto. ring. Qed.
Lemma act_perm p q : fits_mesh S q -> zmm (sg_rot p) (sg_rot q) = zid -> Permutation (map (fun i => act S i p) (zrange 0 (nr S))) (zrange 0 (nr S)).
Proof.
  intros Hf E. apply injective_self_permutation.
  - apply zrange_NoDup.
  - intros i _. apply in_zrange. apply act_in; auto.
  - intros i j Hi Hj Eq. apply in_zrange in Hi, Hj.
    assert (B : forall i, inD S i -> act S (act S i p) q = i) by (intros k Hk; rewrite act_act, E, zvm_id, row_gp; auto).
    rewrite <- (B i Hi), <- (B j Hj). congruence.
Qed.
Lemma csm_reindex (f : Z -> C) p q : fits_mesh S q -> zmm (sg_rot p) (sg_rot q) = zid ->
  csm (map (fun i => f (act S i p)) (zrange 0 (nr S))) = csm (map f (zrange 0 (nr S))).
Proof. intros Hf E. rewrite <- (map_map (fun i => act S i p) f). apply csm_perm. apply Permutation_map. apply (act_perm p q); auto. Qed.

(** orthogonality of plane waves *)
Lemma cis_one (m n : Z) : (0 < n)%Z -> cis (2 * PI * (IZR m / IZR n)) = RtoC 1 -> (m mod n = 0)%Z.
Proof.
  intros Hn H. unfold cis, RtoC in H. assert (Hc : cos (2 * PI * (IZR m / IZR n)) = 1) by congruence. assert (Hs : sin (2 * PI * (IZR m / IZR n)) = 0) by congruence.
  apply sin_eq_0_0 in Hs. destruct Hs as (k&Hk).
  assert (E : IZR (2 * m) = IZR (k * n)).
  { assert (IZR n <> 0) by (apply not_0_IZR; lia). pose proof PI_RGT_0. rewrite !mult_IZR. apply (Rmult_eq_reg_r (PI / IZR n)); [|apply Rmult_integral_contrapositive; split; [lra|apply Rinv_neq_0_compat; auto]].
    transitivity (2 * PI * (IZR m / IZR n)); [field; auto|]. rewrite Hk. field. auto. }
  apply eq_IZR in E.
  destruct (Z.Even_or_Odd k) as [(j&Hj)|(j&Hj)]; subst k.
  - replace m with (j * n)%Z by lia. apply Z.mod_mul. lia.
  - exfalso. rewrite Hk in Hc. rewrite plus_IZR, mult_IZR in Hc. replace ((2 * IZR j + 1) * PI) with (PI + 2 * PI * IZR j) in Hc by ring.
    pose proof (f_equal fst (cis_period j PI)) as X. cbn in X. rewrite X, cos_PI in Hc. lra.
Qed.
Lemma sum_1d (m n : Z) : (0 < n)%Z ->
  csm (map (fun u => cis (2 * PI * (IZR m / IZR n) * IZR u)) (zrange 0 n)) = if (m mod n =? 0)%Z then RtoC (IZR n) else RtoC 0.
Proof.
  intros Hn. destruct (Z.eqb_spec (m mod n) 0) as [E|E].
  - apply Z.mod_divide in E; [|lia]. destruct E as (k&->).
    rewrite (csm_ext _ (fun _ => RtoC 1)).
    + assert (G : forall l : list Z, csm (map (fun _ => RtoC 1) l) = RtoC (INR (length l))).
      { induction l; cbn [map wsum length]; auto. rewrite IHl, S_INR, <- RtoC_plus. f_equal. ring. }
      rewrite G, zrange_length, INR_IZR_INZ. do 2 f_equal. lia.
    + intros u _. rewrite <- cis_0. apply cis_shift with (k := (k * u)%Z). rewrite !mult_IZR. field. apply not_0_IZR. lia.
  - set (th := 2 * PI * (IZR m / IZR n)). set (s := csm _).
    assert (P : Cmult (cis th) s = s).
    { unfold s. rewrite <- csm_scale. rewrite (csm_ext _ (fun u => cis (th * IZR (u + 1)))) by (intros u _; rewrite <- cis_add; f_equal; rewrite plus_IZR; ring).
      rewrite <- (map_map (fun u => (u + 1)%Z) (fun u => cis (th * IZR u))).
      assert (Z1 : map (fun u => (u + 1)%Z) (zrange 0 n) = zrange 1 (n + 1)).
      { unfold zrange. rewrite map_map. replace (Z.to_nat (n + 1 - 1)) with (Z.to_nat (n - 0)) by lia. apply map_ext. intros; lia. }
      rewrite Z1, (zrange_snoc 1), (zrange_cons 0 n) by lia. replace (n + 1 - 1)%Z with n by lia. cbn [map wsum]. rewrite map_app. cbn [map].
      assert (EN : cis (th * IZR n) = cis (th * IZR 0)). { apply cis_shift with (k := m). unfold th. field. apply not_0_IZR. lia. }
      replace (0 + 1)%Z with 1%Z by lia. rewrite <- EN. symmetry.
      rewrite (csm_perm (map (fun u : Z => cis (th * IZR u)) (zrange 1 n) ++ [cis (th * IZR n)]) (cis (th * IZR n) :: map (fun u : Z => cis (th * IZR u)) (zrange 1 n))) by (symmetry; apply Permutation_cons_append). auto. }
    assert (Q : Cmult (Cminus (cis th) (RtoC 1)) s = RtoC 0) by (rewrite <- (Cplus_opp_r s); rewrite <- P at 2; ring).
    destruct (Ceq_dec s (RtoC 0)) as [|Ns]; auto. exfalso. apply E. apply cis_one; auto. fold th.
    assert (W : Cminus (cis th) (RtoC 1) = RtoC 0). { transitivity (Cmult (Cmult (Cminus (cis th) (RtoC 1)) s) (Cinv s)); [field; auto|]. rewrite Q. ring. }
    rewrite <- (Cplus_0_l (RtoC 1)), <- W. ring.
Qed.
Lemma csm_app l m : csm (l ++ m) = Cplus (csm l) (csm m).
Proof. induction l; cbn; [ring|]. rewrite IHl. ring. Qed.
Lemma csm_prod {A B} (f : A * B -> C) l m : csm (map f (list_prod l m)) = csm (map (fun a => csm (map (fun b => f (a, b)) m)) l).
Proof. induction l; cbn; auto. rewrite map_app, map_map, csm_app, IHl. auto. Qed.
Definition mesh : list (Z * (Z * Z)) := list_prod (zrange 0 (v0 S)) (list_prod (zrange 0 (v1 S)) (zrange 0 (v2 S))).
Definition ofp (t : Z * (Z * Z)) : vec Z := V (fst t) (fst (snd t)) (snd (snd t)).
Lemma sum_3d (m : vec Z) : csm (map (fun t => cis (2 * PI * rdot (vIZR m) (mesh_point S (ofp t)))) mesh) =
  Cmult (if (c0 m mod v0 S =? 0)%Z then RtoC (IZR (v0 S)) else RtoC 0) (Cmult (if (c1 m mod v1 S =? 0)%Z then RtoC (IZR (v1 S)) else RtoC 0) (if (c2 m mod v2 S =? 0)%Z then RtoC (IZR (v2 S)) else RtoC 0)).
Proof.
  assert (P : (0 < v0 S /\ 0 < v1 S /\ 0 < v2 S)%Z) by (destruct S as ((a,b),c); exact HS). destruct P as (P0&P1&P2).
  assert (N0 : IZR (v0 S) <> 0) by (apply not_0_IZR; lia). assert (N1 : IZR (v1 S) <> 0) by (apply not_0_IZR; lia). assert (N2 : IZR (v2 S) <> 0) by (apply not_0_IZR; lia).
  rewrite <- (sum_1d (c0 m)), <- (sum_1d (c1 m)), <- (sum_1d (c2 m)) by auto. unfold mesh. rewrite csm_prod.
  rewrite <- csm_scale_r. apply csm_ext. intros u _. rewrite csm_prod.
  rewrite <- csm_scale_r, <- csm_scale. apply csm_ext. intros v _. rewrite <- csm_scale, <- csm_scale. apply csm_ext. intros w _.
  rewrite <- !cis_add. f_equal. unfold mesh_point, ofp, rdot, gdot, vIZR, vmap. cbn. field. auto.
Qed.
Lemma mesh_orth j k : inD S j -> inD S k -> csm (map (fun t => Cmult (Cconj (wave S k (mesh_point S (ofp t)))) (wave S j (mesh_point S (ofp t)))) mesh) =
  if (j =? k)%Z then RtoC (IZR (nr S)) else RtoC 0.
Proof.
  intros Hj Hk. rewrite (csm_ext _ (fun t => cis (2 * PI * rdot (vIZR (zvsub (gp S j) (gp S k))) (mesh_point S (ofp t))))).
  2: { intros t _. unfold wave. rewrite cis_conj, <- cis_add. f_equal. destruct (gp S j), (gp S k), (mesh_point S (ofp t)). v3_unfold. rewrite !minus_IZR. ring. }
  rewrite sum_3d. destruct (Z.eqb_spec j k) as [->|N].
  - destruct (gp S k) as [x y z]. v3_unfold. rewrite !Z.sub_diag, !Zmod_0_l. cbn. rewrite <- !RtoC_mult, <- !mult_IZR. unfold nr. do 2 f_equal. destruct S as ((a,b),c). cbn. ring.
  - assert (P : (0 < v0 S /\ 0 < v1 S /\ 0 < v2 S)%Z) by (destruct S as ((a,b),c); exact HS). destruct P as (P0&P1&P2).
    destruct (Z.eqb_spec (c0 (zvsub (gp S j) (gp S k)) mod v0 S) 0) as [E0|]; [|ring].
    destruct (Z.eqb_spec (c1 (zvsub (gp S j) (gp S k)) mod v1 S) 0) as [E1|]; [|ring].
    destruct (Z.eqb_spec (c2 (zvsub (gp S j) (gp S k)) mod v2 S) 0) as [E2|]; [|ring]. exfalso. apply N.
    rewrite <- (row_gp S j HS Hj), <- (row_gp S k HS Hk). apply row_cong; auto.
    apply Z.mod_divide in E0, E1, E2; try lia. destruct E0 as (q0&E0), E1 as (q1&E1), E2 as (q2&E2). exists (V q0 q1 q2). destruct (gp S j) as [x y z], (gp S k) as [x' y' z'].
    v3_unfold. f_equal; lia.
Qed.
Lemma dft_unique z : (forall u, expansion S z (mesh_point S u) = RtoC 0) -> forall k, inD S k -> z k = RtoC 0.
Proof.
  intros H k Hk.
  assert (E : csm (map (fun t => Cmult (Cconj (wave S k (mesh_point S (ofp t)))) (expansion S z (mesh_point S (ofp t)))) mesh) = Cmult (RtoC (IZR (nr S))) (z k)).
  { rewrite (csm_ext _ (fun t => csm (map (fun j => Cmult (z j) (Cmult (Cconj (wave S k (mesh_point S (ofp t)))) (wave S j (mesh_point S (ofp t))))) (zrange 0 (nr S))))).
    2: { intros t _. rewrite expansion_sum, <- csm_scale. apply csm_ext. intros. ring. }
    rewrite csm_swap. rewrite (csm_ext _ (fun j => if (j =? k)%Z then Cmult (RtoC (IZR (nr S))) (z k) else RtoC 0)).
    2: { intros j Hj. apply in_zrange in Hj. rewrite csm_scale, mesh_orth by auto. destruct (Z.eqb_spec j k) as [->|]; ring. }
    assert (G : forall l, NoDup l -> csm (map (fun j => if (j =? k)%Z then Cmult (RtoC (IZR (nr S))) (z k) else RtoC 0) l) = if in_dec Z.eq_dec k l then Cmult (RtoC (IZR (nr S))) (z k) else RtoC 0).
    { induction l as [|a l IH]; intros ND; cbn [map wsum]; auto. inversion ND as [|? ? Na ND']; subst. rewrite IH by auto.
      destruct (Z.eqb_spec a k) as [->|Nk].
      - destruct (in_dec Z.eq_dec k l) as [X|]; [contradiction|]. destruct (in_dec Z.eq_dec k (k :: l)) as [|X]; [ring|]. exfalso. apply X. left. auto.
      - destruct (in_dec Z.eq_dec k l) as [X|X], (in_dec Z.eq_dec k (a :: l)) as [Y|Y]; try ring.
        + exfalso. apply Y. right. auto. + exfalso. destruct Y; auto. }
    rewrite G by apply zrange_NoDup. destruct (in_dec Z.eq_dec k (zrange 0 (nr S))) as [|X]; auto. exfalso. apply X. apply in_zrange. auto. }
  assert (Z0 : Cmult (RtoC (IZR (nr S))) (z k) = RtoC 0). { rewrite <- E. transitivity (csm (map (fun _ : Z * (Z * Z) => RtoC 0) mesh)); [|apply csm_0]. apply csm_ext. intros t _. rewrite H. ring. }
  assert (NZ : RtoC (IZR (nr S)) <> RtoC 0). { intros X. apply RtoC_inj in X. apply eq_IZR in X. pose proof (nr_pos S HS). lia. }
  transitivity (Cmult (Cinv (RtoC (IZR (nr S)))) (Cmult (RtoC (IZR (nr S))) (z k))); [field; auto|]. rewrite Z0. ring.
Qed.
Lemma dft_inj y z : (forall u, expansion S y (mesh_point S u) = expansion S z (mesh_point S u)) -> forall k, inD S k -> y k = z k.
Proof.
  intros H k Hk. assert (E : Cminus (y k) (z k) = RtoC 0).
  { apply (dft_unique (fun i => Cminus (y i) (z i))); auto. intros u. transitivity (Cminus (expansion S y (mesh_point S u)) (expansion S z (mesh_point S u))).
    - rewrite !expansion_sum. assert (X : forall a b, Cminus a b = Cplus a (Cmult (RtoC (-1)) b)) by (intros; change (-1) with (Ropp 1); rewrite RtoC_opp; ring).
      rewrite X, <- csm_scale, <- csm_plus. apply csm_ext. intros. change (-1) with (Ropp 1). rewrite RtoC_opp. ring.
    - rewrite H. ring. }
  transitivity (Cplus (Cminus (y k) (z k)) (z k)); [ring|]. rewrite E. ring.
Qed.

(** coefficients of an invariant field, in both directions *)
Lemma inv_coeff_of x p q : fits_mesh S p -> fits_mesh S q -> zmm (sg_rot p) (sg_rot q) = zid ->
  (forall i, inD S i -> Cmult (phase (gp S i) p) (x (act S i p)) = x i) -> invariant S p x.
Proof.
  intros Fp Fq E H u. rewrite expansion_op by auto. rewrite expansion_sum.
  rewrite <- (csm_reindex (fun i => Cmult (x i) (wave S i (mesh_point S u))) p q Fq E). apply csm_ext. intros i Hi. apply in_zrange in Hi. f_equal. rewrite <- (H i Hi).
  transitivity (Cmult (Cmult (Cconj (phase (gp S i) p)) (phase (gp S i) p)) (x (act S i p))); [ring|]. rewrite phase_unit. ring.
Qed.
Lemma coeff_of_inv x p q : fits_mesh S p -> fits_mesh S q -> zmm (sg_rot p) (sg_rot q) = zid -> zmm (sg_rot q) (sg_rot p) = zid ->
  invariant S p x -> forall i, inD S i -> Cmult (phase (gp S i) p) (x (act S i p)) = x i.
Proof.
  intros Fp Fq E E' H.
  assert (K : forall k, inD S k -> (fun j => Cmult (x (act S j q)) (Cconj (phase (gp S (act S j q)) p))) k = x k).
  { apply dft_inj. intros u. rewrite <- (H u), expansion_op by auto. rewrite expansion_sum. symmetry.
    rewrite <- (csm_reindex (fun i => Cmult (Cmult (x (act S i q)) (Cconj (phase (gp S (act S i q)) p))) (wave S i (mesh_point S u))) p q Fq E). apply csm_ext. intros i Hi. apply in_zrange in Hi. rewrite act_act, E, zvm_id, row_gp by auto. auto. }
  intros i Hi. specialize (K (act S i p) (act_in _ _ _ HS)). cbn beta in K. rewrite act_act, E, zvm_id, row_gp in K by auto. rewrite <- K.
  transitivity (Cmult (Cmult (Cconj (phase (gp S i) p)) (phase (gp S i) p)) (x i)); [ring|]. rewrite phase_unit. ring.
Qed.
End Real.
