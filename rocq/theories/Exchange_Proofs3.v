(** The probe charge. *)
From Coq Require Import ZArith Reals List Lia Lra.
From Coquelicot Require Import Coquelicot.
From Verif Require Import Base Gauss Grid_Model Vec3_Model Vec3_Facts Lattice_Model Basis_Model Coulomb_Model WS_Model Ions_Model VdW_Model VdW_Spec VdW_Proofs VdW_Proofs2 VdW_Proofs3 VdW_Proofs4 CellMap_Spec CellMap_Proofs WS_Proofs3 Ewald_Model Ewald_Spec Ewald_Proofs Ewald_Proofs2 Ewald_Proofs3 Ewald_Proofs4 Coulomb_Proofs Coulomb_Proofs3 Coulomb_Proofs4 Exchange_Model Exchange_Spec.
Import ListNotations.
Local Open Scope R_scope.
Set Bullet Behavior "Strict Subproofs".

Section Screened.
  Variables (omega : R) (Om : 0 < omega).
  Let sigma := sqrt (1/2) / omega.
  Let zero1 : nat -> vec R := fun _ => V 0 0 0.
  Lemma sigma_ok : 0 < sigma /\ eta sigma = omega.
  Proof. assert (0 < sqrt (1/2)) by (apply sqrt_lt_R0; lra). split; [unfold sigma; apply Rdiv_lt_0_compat; lra|]. unfold eta, sigma. field. lra. Qed.
  Lemma sep_zero g : sep zero1 0 0 g = cellVec g.
  Proof. unfold sep, zero1. generalize (cellVec g). intros [x y z]. v3u. f_equal; ring. Qed.
  Lemma probe_real Rl N : let a := realSum Rl sigma 1 (fun _ => 1) zero1 N (Acc 0 zero1 rzero) in probeScreened Rl omega N = (energy a, latt a).
  Proof.
    cbv zeta. unfold probeScreened, realSum. cbn [seq fold_left].
    set (a0 := Acc 0 zero1 rzero). change (0, rzero) with (energy a0, latt a0). generalize a0. clear a0. induction (boxLoop N) as [|g l IH]; intros a; [reflexivity|].
    cbn [fold_left]. rewrite <- IH. f_equal. unfold probeTerm, realTerm. cbv zeta. rewrite sep_zero, (proj2 sigma_ok). cbn [fst snd].
    destruct (Req_EM_T _ 0) as [E|E]; [reflexivity|]. cbn [energy latt]. f_equal.
    - f_equal. unfold Rdiv. ring.
    - f_equal. f_equal. unfold Rdiv. ring.
  Qed.
  Lemma probe_derive Rl N eps : rdet Rl <> 0 ->
    is_derive (fun t => fst (probeScreened (strained Rl eps t) omega N)) 0 (contraction (snd (probeScreened Rl omega N)) eps).
  Proof.
    intros D. assert (Sep : separate Rl zero1 1 (boxLoop N)).
    { apply (distinct_separate Rl 1 zero1); [exact D| |].
      - intros c1 c2 A B _. lia.
      - intros c L. exists 0%Z, 0%Z, 0%Z. unfold zero1. v3u. f_equal; ring. }
    assert (T := real_derive 1 (fun _ => 1) sigma eps zero1 Rl zero1 N Sep).
    apply (is_derive_ext (fun t => sum2 1 (fun c2 c1 => rsum (eR (fun _ => 1) sigma (strained Rl eps t) (displaced zero1 zero1 t) c1 c2) (boxLoop N)))).
    { intros t. rewrite probe_real. cbn [fst]. rewrite realSum_E. cbn [energy]. rewrite Rplus_0_l.
      apply sum2_ext. intros c2 c1 L2 L1. apply rsum_ext. intros g _.
      assert (Z : displaced zero1 zero1 t c1 = zero1 c1) by (unfold displaced, zero1; v3u; f_equal; ring).
      unfold eR, sep. replace (displaced zero1 zero1 t c1) with (zero1 c1) by (rewrite <- Z; reflexivity).
      replace (displaced zero1 zero1 t c2) with (zero1 c2) by (unfold zero1; rewrite <- Z; reflexivity). reflexivity. }
    evar_last; [exact T|]. rewrite probe_real. cbn [snd].
    assert (P := realSum_Phi 1 (fun _ => 1) sigma eps zero1 Rl zero1 N (Acc 0 zero1 rzero)). unfold PhiA, Phi in P. cbn [force latt] in P.
    assert (W : forall f, workOf 1 f zero1 = 0) by (intros f; unfold workOf; cbn [seq]; rewrite rsum_cons', rsum_nil'; unfold zero1; destruct (f 0%nat); v3u; ring).
    rewrite !W in P. assert (C0 : contraction rzero eps = 0) by (unfold contraction, rzero; destruct eps; cbn; ring). rewrite C0 in P. lra.
  Qed.
  Lemma probe_energy Rl N box : centred_box N box -> fst (probeScreened Rl omega N) = imageEnergy Rl omega box.
  Proof.
    intros B. rewrite probe_real. cbn [fst]. rewrite realSum_E. cbn [energy]. rewrite Rplus_0_l. unfold sum2. cbn [seq].
    rewrite !rsum_cons', !rsum_nil', !Rplus_0_r. unfold imageEnergy. rewrite (rsum_perm _ _ _ (box_unique N box B)), <- rsum_scale.
    apply rsum_ext. intros g _. unfold eR. cbv zeta. rewrite sep_zero, (proj2 sigma_ok), metric2_RTR.
    destruct g as [[x y] z]. unfold cellVec. cbn [v0 v1 v2 fst snd]. set (u := rmv Rl (V (IZR x) (IZR y) (IZR z))). assert (P := rlen2_pos u). unfold test0. fold (rlen u).
    destruct (Req_EM_T (rlen2 u) 0) as [E|E], (Req_EM_T (rlen u) 0) as [E'|E'].
    - ring.
    - exfalso. apply E'. unfold rlen. rewrite E. apply sqrt_0.
    - exfalso. apply E. apply sqrt_eq_0; auto.
    - unfold Rdiv. ring.
  Qed.
  Lemma row_scale Rl k : (k < 3)%nat -> rlen (mrow (gG Rl) k) = 2 * PI * rlen (mrow (rinv Rl) k).
  Proof.
    intros K. assert (P := PI_RGT_0). replace (mrow (gG Rl) k) with (rvscale (2 * PI) (mrow (rinv Rl) k)).
    - generalize (mrow (rinv Rl) k). intros [x y z]. unfold rlen, rlen2. replace (sqrt (rdot (rvscale (2 * PI) (V x y z)) (rvscale (2 * PI) (V x y z)))) with (sqrt ((2 * PI) * (2 * PI) * rdot (V x y z) (V x y z))) by (f_equal; v3u; ring).
      rewrite sqrt_mult_alt by nra. rewrite sqrt_square by lra. reflexivity.
    - unfold gG. destruct (rinv Rl). destruct k as [|[|[|k]]]; [| | |lia]; unfold mrow; v3u; reflexivity.
  Qed.
  Lemma probe_reach Rl tr k : (k < 3)%nat -> tr k = false -> probeReach (rinv Rl) omega tr k = Nreal1 Rl sigma k.
  Proof.
    intros K T. unfold probeReach, Nreal1. rewrite T. f_equal. f_equal. unfold rowLen. rewrite row_scale by exact K. unfold sigma. field. split; [lra|apply PI_neq0].
  Qed.
  Lemma probe_cutoff Rl tr box x y z : rdet Rl <> 0 -> centred_box (probeBox Rl omega tr) box -> summed tr (x, y, z) -> ~ In (x, y, z) box ->
    erfc (omega * rlen (rmv Rl (V (IZR x) (IZR y) (IZR z)))) < / 2 ^ 59.
  Proof.
    intros D B S N. assert (N' : ~ In (x, y, z) (boxLoop (probeBox Rl omega tr))).
    { intros I. apply N. apply (Permutation.Permutation_in _ (Permutation.Permutation_sym (box_unique _ _ B))). exact I. }
    apply not_in_box in N'. destruct N' as (k & K & L).
    assert (T : tr k = false).
    { destruct (tr k) eqn:T; [exfalso|reflexivity]. destruct S as (S0 & S1 & S2). unfold probeBox, probeReach in L. destruct k as [|[|[|k]]]; [| | |lia]; cbn [v0 v1 v2 fst snd] in L; rewrite T in L; auto.
      - rewrite (S0 T) in L. cbn in L. lia.
      - rewrite (S1 T) in L. cbn in L. lia.
      - rewrite (S2 T) in L. cbn in L. lia. }
    assert (L' : (Nreal1 Rl sigma k < Z.abs (match k with O => v0 (x, y, z) | 1%nat => v1 (x, y, z) | _ => v2 (x, y, z) end))%Z).
    { rewrite <- (probe_reach Rl tr k K T). unfold probeBox in L. destruct k as [|[|[|k]]]; [| | |lia]; exact L. }
    assert (Rr := real_reach Rl sigma zero1 0 0 (x, y, z) k D (proj1 sigma_ok) K L').
    assert (Q : nSigmasPerWidth * sigma < rlen (rmv Rl (cellVec (x, y, z)))).
    { assert (Ab : Rabs (comp (rvsub (zero1 0%nat) (zero1 0%nat)) k) < 1).
      { unfold zero1. replace (rvsub (V 0 0 0) (V 0 0 0)) with (V 0 0 0) by (v3u; f_equal; ring). destruct k as [|[|k]]; cbn; rewrite Rabs_R0; lra. }
      specialize (Rr Ab). assert (P0 : 0 < 2 * PI / rowLen Rl k) by (apply Rdiv_lt_0_compat; [assert (H := PI_RGT_0); lra|apply rowLen_pos; auto]).
      rewrite distance_sep in Rr. rewrite sep_zero, metric2_RTR in Rr. fold (rlen (rmv Rl (cellVec (x, y, z)))) in Rr. lra. }
    assert (F := erfc_small _ sigma (proj1 sigma_ok) Q). rewrite <- eta_form in F by exact (proj1 sigma_ok). rewrite (proj2 sigma_ok) in F. exact F.
  Qed.
End Screened.

Lemma probeEwald_derive Rl sigma NR NG eps : 0 < sigma -> rdet Rl <> 0 ->
  is_derive (fun t => fst (probeEwald (strained Rl eps t) sigma NR NG)) 0 (contraction (snd (probeEwald Rl sigma NR NG)) eps).
Proof.
  intros Sp D. set (z := fun _ : nat => V 0 0 0 : vec R).
  assert (T := periodic_gradient Rl sigma NR NG 1 (fun _ => 1) z z rzero eps z Sp D).
  cbv zeta in T. assert (A : distinct_atoms 1 z) by (intros c1 c2 L1 L2 _; lia).
  assert (B : off_edges 1 z (fun _ => V 0 0 0)).
  { intros c L. assert (Q : off_edge (0 - 0)).
    { intros k E. assert (K : IZR (2 * k) = IZR 1) by (rewrite mult_IZR, <- E; lra). apply eq_IZR in K. lia. }
    unfold z; cbn [c0 c1 c2]. auto. }
  specialize (T A B). unfold probeEwald. cbn [fst snd].
  apply (is_derive_ext (fun t => energy (ewaldPeriodic (strained Rl eps t) sigma NR NG 1 (fun _ => 1) (displaced z z t) z rzero))).
  { intros t. f_equal. apply periodic_images. intros c L. exists 0%Z, 0%Z, 0%Z. unfold displaced, z. v3u. f_equal; ring. }
  evar_last; [exact T|].
  assert (W : forall f, workOf 1 f z = 0) by (intros f; unfold workOf; cbn [seq]; rewrite rsum_cons', rsum_nil'; unfold z; destruct (f 0%nat); v3u; ring).
  rewrite W. rewrite contraction_sub. assert (C0 : contraction rzero eps = 0) by (unfold contraction, rzero; destruct eps; cbn; ring). rewrite C0. fold z. lra.
Qed.
Lemma probeEwald_formula Rl sigma NR NG boxR boxG : 0 < sigma -> rdet Rl <> 0 -> centred_box NR boxR -> centred_box NG boxG ->
  fst (probeEwald Rl sigma NR NG) = ewaldFormula Rl sigma 1 (fun _ => 1) (fun _ => V 0 0 0) boxR boxG.
Proof.
  intros Sp D BR BG. unfold probeEwald. cbn [fst]. apply periodic_formula; auto. intros c L. split.
  - exists 0%Z, 0%Z, 0%Z. v3u. f_equal; ring.
  - cbn [c0 c1 c2]. lra.
Qed.
(** supercell *)
Lemma super_strained Rl e S t : strained (rmm Rl S) e t = rmm (strained Rl e t) S.
Proof. unfold strained. destruct Rl, e, S. v3u. f_equal; ring. Qed.
Lemma correction_derive Rl eps (E : R -> R * mat R) : rdet Rl <> 0 ->
  is_derive (fun t => fst (E t)) 0 (contraction (snd (E 0)) eps) ->
  is_derive (fun t => fst (probeCorrection (strained Rl eps t) (E t))) 0 (contraction (snd (probeCorrection Rl (E 0))) eps).
Proof.
  intros D H. unfold probeCorrection. cbn [fst snd].
  evar_last.
  { apply (is_derive_mult (fun t => - 2 * Rabs (rdet (strained Rl eps t))) (fun t => fst (E t))); [apply is_derive_scal; apply vol_derive; exact D|exact H|intros; apply Rmult_comm]. }
  cbv beta. rewrite strained_same, Coulomb_Proofs.strained_0, contraction_scale.
  replace (contraction (rmadd (snd (E 0)) (rmscale (fst (E 0)) rid)) eps) with (contraction (snd (E 0)) eps + fst (E 0) * rtrace eps).
  - unfold plus, mult; cbn. ring.
  - unfold contraction. destruct (snd (E 0)), eps. v3u. ring.
Qed.
