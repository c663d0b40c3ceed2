(** Symmetrized scalar fields on the mesh (C35). *)
From Coq Require Import ZArith Reals List Bool Lia Lra Permutation FunctionalExtensionality.
From Coquelicot Require Import Complex.
From Verif Require Import Base Grid_Model Grid_Spec Grid_Proofs Vec3_Model Vec3_Facts IntUtil_Model IntUtil_Proofs Sym_Model Sym_Spec Sym_Proofs Sym_Proofs2 Sym_Proofs3 Sym_Proofs4 Sym_Proofs5.
Import ListNotations.
Open Scope R_scope.

Lemma neutral_phase v e : neutral e -> phase v e = RtoC 1.
Proof.
  intros N. destruct (proj1 (neutral_alg e) N) as (N1&(t&Et)). rewrite <- cis_0. unfold phase.
  symmetry. apply cis_shift with (k := (c0 v * c0 t + c1 v * c1 t + c2 v * c2 t)%Z).
  destruct (sg_a e) as [a0 a1 a2], t as [t0 t1 t2], v as [g0 g1 g2]. unfold rvsub, gvsub, vIZR, vmap, rdot, gdot in *. cbn in *. injection Et as E0 E1 E2.
  rewrite !plus_IZR, !mult_IZR, <- E0, <- E1, <- E2. ring.
Qed.
Lemma op_mesh S p u : pos3 S -> fits_mesh S p -> exists u', rvadd (rmv (mIZR (sg_rot p)) (mesh_point S u)) (sg_a p) = mesh_point S u'.
Proof.
  intros H (F&G).
  destruct (F 0%nat 0%nat) as (q00&E00); try lia. destruct (F 0%nat 1%nat) as (q01&E01); try lia. destruct (F 0%nat 2%nat) as (q02&E02); try lia.
  destruct (F 1%nat 0%nat) as (q10&E10); try lia. destruct (F 1%nat 1%nat) as (q11&E11); try lia. destruct (F 1%nat 2%nat) as (q12&E12); try lia.
  destruct (F 2%nat 0%nat) as (q20&E20); try lia. destruct (F 2%nat 1%nat) as (q21&E21); try lia. destruct (F 2%nat 2%nat) as (q22&E22); try lia.
  destruct (G 0%nat) as (t0&G0); try lia. destruct (G 1%nat) as (t1&G1); try lia. destruct (G 2%nat) as (t2&G2); try lia.
  exists (V (q00 * c0 u + q01 * c1 u + q02 * c2 u + t0) (q10 * c0 u + q11 * c1 u + q12 * c2 u + t1) (q20 * c0 u + q21 * c1 u + q22 * c2 u + t2))%Z.
  assert (P : (0 < v0 S /\ 0 < v1 S /\ 0 < v2 S)%Z) by (destruct S as ((a,b),c); exact H). destruct P as (P0&P1&P2).
  assert (N0 : IZR (v0 S) <> 0) by (apply not_0_IZR; lia). assert (N1 : IZR (v1 S) <> 0) by (apply not_0_IZR; lia). assert (N2 : IZR (v2 S) <> 0) by (apply not_0_IZR; lia).
  apply (f_equal IZR) in E00, E01, E02, E10, E11, E12, E20, E21, E22. rewrite !mult_IZR in *.
  destruct (sg_rot p) as [r00 r01 r02 r10 r11 r12 r20 r21 r22], (sg_a p) as [a0 a1 a2], u as [x y z]. unfold mget, mrow, vget, row0, row1, row2, mesh_point, S_at in *. v3_unfold. cbn [fst snd c0 c1 c2] in *.
  rewrite !plus_IZR, !mult_IZR. 
  f_equal.
  - apply (Rmult_eq_reg_l (IZR (v0 S))); auto. transitivity (IZR (v0 S) * IZR r00 * (IZR x / IZR (v0 S)) + IZR (v0 S) * IZR r01 * (IZR y / IZR (v1 S)) + IZR (v0 S) * IZR r02 * (IZR z / IZR (v2 S)) + IZR (v0 S) * a0); [ring|].
    rewrite E00, E01, E02, G0. field. auto.
  - apply (Rmult_eq_reg_l (IZR (v1 S))); auto. transitivity (IZR (v1 S) * IZR r10 * (IZR x / IZR (v0 S)) + IZR (v1 S) * IZR r11 * (IZR y / IZR (v1 S)) + IZR (v1 S) * IZR r12 * (IZR z / IZR (v2 S)) + IZR (v1 S) * a1); [ring|].
    rewrite E10, E11, E12, G1. field. auto.
  - apply (Rmult_eq_reg_l (IZR (v2 S))); auto. transitivity (IZR (v2 S) * IZR r20 * (IZR x / IZR (v0 S)) + IZR (v2 S) * IZR r21 * (IZR y / IZR (v1 S)) + IZR (v2 S) * IZR r22 * (IZR z / IZR (v2 S)) + IZR (v2 S) * a2); [ring|].
    rewrite E20, E21, E22, G2. field. auto.
Qed.

Section Scalar.
Variables (S : V3) (sym : list SpaceGroupOp).
Hypothesis HS : pos3 S.
Hypothesis HG : space_group sym.
Hypothesis HF : forall p, In p sym -> fits_mesh S p.
Hypothesis HR : small_mesh S sym.
Lemma two_sided p : In p sym -> exists q, In q sym /\ zmm (sg_rot p) (sg_rot q) = zid /\ zmm (sg_rot q) (sg_rot p) = zid.
Proof.
  intros Hp. destruct (gr_inverse _ HG p Hp) as (q&e&Hq&_&N&C1&C2). apply composes_alg in C1, C2. apply neutral_alg in N. destruct C1 as (C1&_), C2 as (C2&_), N as (N&_).
  exists q. repeat split; auto; congruence.
Qed.
Lemma ext_D x y u : (forall i, inD S i -> x i = y i) -> expansion S x u = expansion S y u.
Proof. intros H. rewrite !expansion_sum. apply csm_ext. intros i Hi. apply in_zrange in Hi. rewrite H; auto. Qed.
Lemma avg_result x : forall p, In p sym -> invariant S p (avgC S sym x).
Proof.
  intros p Hp. destruct (two_sided p Hp) as (q&Hq&E&_). apply (inv_coeff_of S HS _ p q); auto.
  intros i Hi. apply avgC_invariant; auto.
Qed.
Lemma avg_keeps x : (forall p, In p sym -> invariant S p x) -> forall i, inD S i -> avgC S sym x i = x i.
Proof.
  intros H i Hi. apply avgC_fixed; auto. intros p Hp. destruct (two_sided p Hp) as (q&Hq&E&E'). apply (coeff_of_inv S HS x p q); auto.
Qed.
Lemma gp_0 : gp S 0 = V 0%Z 0%Z 0%Z.
Proof.
  unfold gp, fullG_init, toV. destruct S as ((a,b),c). destruct HS as (Ha&Hb&Hc). cbn. rewrite !Zdiv_0_l, !Zmod_0_l. rewrite !wrapS_0 by auto. auto.
Qed.
Lemma avg_charge x : avgC S sym x 0%Z = x 0%Z.
Proof.
  assert (H0 : inD S 0) by (split; [lia|apply nr_pos; auto]).
  apply avgC_fixed; auto. intros p Hp. assert (A : act S 0 p = 0%Z). { unfold act. transitivity (row S (V 0%Z 0%Z 0%Z)); [f_equal|rewrite <- gp_0; apply row_gp; auto]. rewrite gp_0. destruct (sg_rot p). v3_ring. }
  rewrite A. replace (phase (gp S 0) p) with (RtoC 1); [ring|]. rewrite gp_0, <- cis_0. unfold phase. f_equal. destruct (sg_a p). v3_unfold. ring.
Qed.
Lemma avg_expansion x u : expansion S (avgC S sym x) (mesh_point S u) =
  Cmult (RtoC (/ INR (length sym))) (csm (map (fun p => expansion S x (rvadd (rmv (mIZR (sg_rot p)) (mesh_point S u)) (sg_a p))) sym)).
Proof.
  destruct (inv_permutes_e sym HG) as (l&P&F).
  rewrite <- (csm_perm (map (fun p => expansion S x (rvadd (rmv (mIZR (sg_rot p)) (mesh_point S u)) (sg_a p))) l)) by (apply Permutation_map; auto).
  rewrite expansion_sum. transitivity (Cmult (RtoC (/ INR (length sym))) (csm (map (fun p => csm (map (fun i => Cmult (Cmult (phase (gp S i) p) (x (act S i p))) (wave S i (mesh_point S u))) (zrange 0 (nr S)))) sym))).
  - rewrite csm_swap, <- csm_scale. apply csm_ext. intros i _. unfold avgC, avgW, avg, Csc, n. rewrite csm_scale_r. unfold LW, idrot. ring.
  - f_equal. assert (Hl : forall q, In q l -> In q sym) by (intros; eapply Permutation_in; eauto). clear P.
    apply (wsum_Forall2 _ _ _ _ _ _ _ _ F). intros p q (e&N&C) Hp Hq. pose proof (proj1 (composes_alg p q e) C) as (C1&_). pose proof (proj1 (neutral_alg e) N) as (N1&_).
    assert (E : zmm (sg_rot p) (sg_rot q) = zid) by congruence. assert (Fq : fits_mesh S q) by auto.
    rewrite expansion_op by auto. rewrite <- (csm_reindex S HS (fun i => Cmult (Cmult (x i) (Cconj (phase (gp S i) q))) (wave S (act S i q) (mesh_point S u))) p q Fq E).
    apply csm_ext. intros i Hi. apply in_zrange in Hi. rewrite act_act, E, zvm_id, row_gp by auto. f_equal.
    assert (X : Cmult (phase (gp S i) p) (phase (gp S (act S i p)) q) = RtoC 1). { rewrite phase_act by auto. rewrite <- (phase_composes _ p q e C). apply neutral_phase; auto. }
    assert (Y := phase_unit (gp S (act S i p)) q). 
    transitivity (Cmult (Cmult (phase (gp S i) p) (Cmult (Cconj (phase (gp S (act S i p)) q)) (phase (gp S (act S i p)) q))) (x (act S i p))); [rewrite Y; ring|].
    transitivity (Cmult (Cmult (Cmult (phase (gp S i) p) (phase (gp S (act S i p)) q)) (Cconj (phase (gp S (act S i p)) q))) (x (act S i p))); [ring|]. rewrite X. ring.
Qed.
Theorem scalar_sym : exists cls, initSymmIndex S sym = Some cls /\ forall x, let y := symmetrizeTilde sym cls x in
  (forall p, In p sym -> invariant S p y) /\
  ((forall p, In p sym -> invariant S p x) -> forall i, (0 <= i < nr S)%Z -> y i = x i) /\
  y 0%Z = x 0%Z /\
  (forall u, expansion S y (mesh_point S u) = Cmult (RtoC (/ INR (length sym))) (csm (map (fun p => expansion S x (rvadd (rmv (mIZR (sg_rot p)) (mesh_point S u)) (sg_a p))) sym))).
Proof.
  exists (map (classOf S sym) (reps S sym)). split; [apply initC; auto|]. intros x y.
  assert (E : forall i, inD S i -> y i = avgC S sym x i) by (intros; apply symmetrizeC; auto).
  repeat split.
  - intros p Hp u. rewrite !(ext_D y (avgC S sym x)) by auto. apply avg_result; auto.
  - intros H i Hi. rewrite E by auto. apply avg_keeps; auto.
  - rewrite E; [apply avg_charge|]. split; [lia|apply nr_pos; auto].
  - intros u. rewrite (ext_D y (avgC S sym x)) by auto. apply avg_expansion.
Qed.
End Scalar.
