(** Periodic Ewald sum: reciprocal space, derivatives. *)
From Coq Require Import ZArith Reals List Bool Lia Lra Psatz.
From Coquelicot Require Import Coquelicot.
From Verif Require Import Base Gauss Grid_Model Vec3_Model Vec3_Facts Lattice_Model RealUtil Basis_Model Coulomb_Model Coulomb_Proofs Coulomb_Proofs3 WS_Model Ions_Model CellMap_Spec CellMap_Proofs
  VdW_Model VdW_Spec VdW_Proofs VdW_Proofs2 VdW_Proofs3 VdW_Proofs4 Ewald_Model Ewald_Spec Ewald_Proofs.
Import ListNotations.
Local Open Scope R_scope.
Set Bullet Behavior "Strict Subproofs".

Lemma trace_contraction e : contraction rid e = rtrace e. Proof. destruct e. unfold contraction. v3u. ring. Qed.
Lemma strained_same Rl e t : VdW_Spec.strained Rl e t = Coulomb_Spec.strained Rl e t. Proof. reflexivity. Qed.
Lemma ddot_contraction u e : Coulomb_Spec.ddot (smat_mat (Coulomb_Model.outer u)) e = contraction (Ions_Model.outer u u) e.
Proof. destruct u, e. unfold Coulomb_Spec.ddot, contraction, smat_mat, Coulomb_Model.outer, Ions_Model.outer. cbn. ring. Qed.

(** ** Volume *)
Lemma vol_loc Rl e : rdet Rl <> 0 -> locally 0 (fun t => Rabs (rdet (strained Rl e t)) = Rabs (rdet Rl) * (1 + t * rtrace e + t * t * rtrace (radj e) + t * t * t * rdet e)).
Proof.
  intros D. assert (C : continuous (fun t => 1 + t * rtrace e + t * t * rtrace (radj e) + t * t * t * rdet e) 0).
  { apply (ex_derive_continuous (K:=R_AbsRing) (V:=R_NormedModule)). auto_derive. exact Logic.I. }
  assert (L : locally 0 (fun t => 0 < 1 + t * rtrace e + t * t * rtrace (radj e) + t * t * t * rdet e)).
  { apply (C (fun y => 0 < y)). apply loc_gt. lra. }
  revert L. apply filter_imp. intros t P. rewrite strained_same. unfold Coulomb_Spec.strained. rewrite rdet_mm. fold (def1 e t). rewrite det1_poly, Rabs_mult, (Rabs_pos_eq _ (Rlt_le _ _ P)). ring.
Qed.
Lemma invvol_derive Rl e : rdet Rl <> 0 -> is_derive (fun t => 1 / Rabs (rdet (strained Rl e t))) 0 (- rtrace e * (1 / Rabs (rdet Rl))).
Proof.
  intros D. assert (P : 0 < Rabs (rdet Rl)) by (apply Rabs_pos_lt; auto).
  assert (Dd : is_derive (fun t => Rabs (rdet Rl) * (1 + t * rtrace e + t * t * rtrace (radj e) + t * t * t * rdet e)) 0 (Rabs (rdet Rl) * rtrace e)).
  { auto_derive; [exact Logic.I|]. match goal with |- ?a = ?b => change (@eq R a b) end. ring. }
  apply (is_derive_ext_loc (fun t => 1 / (Rabs (rdet Rl) * (1 + t * rtrace e + t * t * rtrace (radj e) + t * t * t * rdet e)))).
  - generalize (vol_loc Rl e D). apply filter_imp. intros t Ht. rewrite Ht. reflexivity.
  - eapply dval; [apply (dinv1 _ _ _ Dd)|]; cbv beta; rewrite ?Rmult_0_l, ?Rplus_0_r, ?Rmult_1_r; [lra|field; lra].
Qed.

(** ** Squared reciprocal lattice vectors *)
Lemma Gsq_derive Rl e w : rdet Rl <> 0 ->
  is_derive (fun t => metric2 (gGGT (strained Rl e t)) w) 0 (-2 * contraction (Ions_Model.outer (rvm w (gG Rl)) (rvm w (gG Rl))) e).
Proof.
  intros D. rewrite <- ddot_contraction. apply (is_derive_ext (fun t => rlen2 (rvm w (gG (Coulomb_Spec.strained Rl e t))))); [intros t; symmetry; apply metric_len|]. apply len2_strained. exact D.
Qed.
Lemma cellVec_0 g : cellVec g = V 0 0 0 <-> g = (0, 0, 0)%Z.
Proof.
  destruct g as [[x y] z]. unfold cellVec. cbn [v0 v1 v2 fst snd]. split; intros E; injection E as E1 E2 E3; [apply eq_IZR in E1, E2, E3|]; subst; reflexivity.
Qed.
Lemma Gsq_0 Rl g : rdet Rl <> 0 -> metric2 (gGGT Rl) (cellVec g) = 0 <-> g = (0, 0, 0)%Z.
Proof.
  intros D. rewrite metric_len. split; intros E.
  - apply cellVec_0. destruct (Req_EM_T (c0 (cellVec g)) 0), (Req_EM_T (c1 (cellVec g)) 0), (Req_EM_T (c2 (cellVec g)) 0);
      try (exfalso; assert (P := Gsq_pos Rl (cellVec g) D ltac:(intros F; rewrite F in *; cbn in *; lra)); lra).
    destruct (cellVec g); cbn in *; subst; reflexivity.
  - subst. unfold cellVec. cbn [v0 v1 v2 fst snd]. destruct (gG Rl). v3u. ring.
Qed.
Lemma Gsq_nonneg Rl w : 0 <= metric2 (gGGT Rl) w. Proof. rewrite metric_len. apply rlen2_pos. Qed.

(** ** Structure factor *)
Section SF.
  Variables (n : nat) (Zc : nat -> R).
  Definition th (pos : nat -> vec R) (g : V3) (c : nat) : R := - 2 * PI * rdot (cellVec g) (pos c).
  Definition reS pos g : R := rsum (fun c => Zc c * cos (th pos g c)) (seq 0 n).
  Definition imS pos g : R := rsum (fun c => Zc c * sin (th pos g c)) (seq 0 n).
  Lemma SF_sums pos g : structureFactor n Zc pos g = (reS pos g, imS pos g).
  Proof.
    unfold structureFactor. set (step := fun (s : R * R) (c : nat) => _). rewrite (surjective_pairing (fold_left step (seq 0 n) (0, 0))). f_equal.
    - rewrite (fold_sum step fst (fun c => Zc c * cos (th pos g c))); [cbn [fst]; unfold reS; lra|]. intros s c _. reflexivity.
    - rewrite (fold_sum step snd (fun c => Zc c * sin (th pos g c))); [cbn [snd]; unfold imS; lra|]. intros s c _. reflexivity.
  Qed.
  Lemma th_displaced pos d g c t : th (displaced pos d t) g c = th pos g c + t * (- 2 * PI * rdot (cellVec g) (d c)).
  Proof. unfold th, displaced. generalize (cellVec g) (pos c) (d c). intros u v w. destruct u, v, w. v3u. ring. Qed.
  Lemma dcos a b : is_derive (fun t => cos (a + t * b)) 0 (- sin a * b).
  Proof. auto_derive; [exact Logic.I|]. rewrite Rmult_0_l, Rplus_0_r. ring. Qed.
  Lemma dsin a b : is_derive (fun t => sin (a + t * b)) 0 (cos a * b).
  Proof. auto_derive; [exact Logic.I|]. rewrite Rmult_0_l, Rplus_0_r. ring. Qed.
  Definition reSd pos d g : R := rsum (fun c => Zc c * (- sin (th pos g c) * (- 2 * PI * rdot (cellVec g) (d c)))) (seq 0 n).
  Definition imSd pos d g : R := rsum (fun c => Zc c * (cos (th pos g c) * (- 2 * PI * rdot (cellVec g) (d c)))) (seq 0 n).
  Lemma reS_derive pos d g : is_derive (fun t => reS (displaced pos d t) g) 0 (reSd pos d g).
  Proof.
    apply (rsum_derive (seq 0 n) (fun c t => Zc c * cos (th (displaced pos d t) g c))). intros c _. apply (is_derive_ext (fun t => Zc c * cos (th pos g c + t * (- 2 * PI * rdot (cellVec g) (d c))))).
    - intros t. rewrite th_displaced. reflexivity.
    - apply dscal, dcos.
  Qed.
  Lemma imS_derive pos d g : is_derive (fun t => imS (displaced pos d t) g) 0 (imSd pos d g).
  Proof.
    apply (rsum_derive (seq 0 n) (fun c t => Zc c * sin (th (displaced pos d t) g c))). intros c _. apply (is_derive_ext (fun t => Zc c * sin (th pos g c + t * (- 2 * PI * rdot (cellVec g) (d c))))).
    - intros t. rewrite th_displaced. reflexivity.
    - apply dscal, dsin.
  Qed.
  Definition nS pos g : R := reS pos g * reS pos g + imS pos g * imS pos g.
  Definition nSd pos d g : R := 2 * (reS pos g * reSd pos d g + imS pos g * imSd pos d g).
  Lemma displaced_0 pos d : forall c, displaced pos d 0 c = pos c.
  Proof. intros c. unfold displaced. destruct (pos c), (d c). v3u. f_equal; ring. Qed.
  Lemma reS_ext p p' g : (forall c, (c < n)%nat -> p c = p' c) -> reS p g = reS p' g.
  Proof. intros H. apply rsum_ext. intros c I. apply in_seq in I. unfold th. rewrite H by lia. reflexivity. Qed.
  Lemma imS_ext p p' g : (forall c, (c < n)%nat -> p c = p' c) -> imS p g = imS p' g.
  Proof. intros H. apply rsum_ext. intros c I. apply in_seq in I. unfold th. rewrite H by lia. reflexivity. Qed.
  Lemma nS_derive pos d g : is_derive (fun t => nS (displaced pos d t) g) 0 (nSd pos d g).
  Proof.
    eapply dval; [apply dplus; [apply (dmul _ _ _ _ _ (reS_derive pos d g) (reS_derive pos d g))|apply (dmul _ _ _ _ _ (imS_derive pos d g) (imS_derive pos d g))]|].
    cbv beta. rewrite (reS_ext _ pos g), (imS_ext _ pos g) by (intros; apply displaced_0). unfold nSd. ring.
  Qed.
  (** work of the structure factor forces *)
  Lemma SF_work pos d g : rsum (fun c => Zc c * imConjMul (reS pos g, imS pos g) (phase pos g c) * (2 * PI * rdot (cellVec g) (d c))) (seq 0 n) = 1/2 * nSd pos d g.
  Proof.
    unfold nSd, imConjMul, phase, cis, reSd, imSd. cbn [fst snd]. replace (1/2 * (2 * (reS pos g * rsum (fun c => Zc c * (- sin (th pos g c) * (- 2 * PI * rdot (cellVec g) (d c)))) (seq 0 n) + imS pos g * rsum (fun c => Zc c * (cos (th pos g c) * (- 2 * PI * rdot (cellVec g) (d c)))) (seq 0 n))))
      with (reS pos g * rsum (fun c => Zc c * (- sin (th pos g c) * (- 2 * PI * rdot (cellVec g) (d c)))) (seq 0 n) + imS pos g * rsum (fun c => Zc c * (cos (th pos g c) * (- 2 * PI * rdot (cellVec g) (d c)))) (seq 0 n)) by lra.
    rewrite <- !rsum_scale, <- rsum_add. apply rsum_ext. intros c _. fold (th pos g c). ring.
  Qed.
  Lemma SF_rigid pos v g : nSd pos (fun _ => v) g = 0.
  Proof.
    unfold nSd, reSd, imSd. rewrite (rsum_ext (fun c => Zc c * (- sin (th pos g c) * (- 2 * PI * rdot (cellVec g) v))) (fun c => (2 * PI * rdot (cellVec g) v) * (Zc c * sin (th pos g c)))) by (intros; ring).
    rewrite (rsum_ext (fun c => Zc c * (cos (th pos g c) * (- 2 * PI * rdot (cellVec g) v))) (fun c => (- 2 * PI * rdot (cellVec g) v) * (Zc c * cos (th pos g c)))) by (intros; ring).
    rewrite !rsum_scale. fold (reS pos g) (imS pos g). ring.
  Qed.

  (** ** Reciprocal space terms *)
  Variables (sigma : R) (eps : mat R) (d : nat -> vec R).
  Definition eGf (Rl : mat R) (g : V3) : R := let q := metric2 (gGGT Rl) (cellVec g) in 4 * PI * exp (- (1/2) * (sigma * sigma) * q) / (q * Rabs (rdet Rl)).
  Definition eK (Rl : mat R) (pos : nat -> vec R) (g : V3) : R := if Req_EM_T (metric2 (gGGT Rl) (cellVec g)) 0 then 0 else 1/2 * eGf Rl g * nS pos g.
  Definition gK (Rl : mat R) (pos : nat -> vec R) (g : V3) : R :=
    let q := metric2 (gGGT Rl) (cellVec g) in if Req_EM_T q 0 then 0 else
    1/2 * eGf Rl g * nSd pos d g + 1/2 * nS pos g * (eGf Rl g * (sigma * sigma + 2 / q) * contraction (Ions_Model.outer (rvm (cellVec g) (gG Rl)) (rvm (cellVec g) (gG Rl))) eps - eGf Rl g * rtrace eps).
  Lemma recip_E Rl pos a g : energy (recipTerm Rl sigma n Zc pos a g) = energy a + eK Rl pos g.
  Proof. unfold recipTerm, eK. cbv zeta. destruct (Req_EM_T _ 0); [cbn [energy]; lra|]. cbn [energy]. rewrite SF_sums. unfold normC, eGf, nS. cbn [fst snd]. reflexivity. Qed.
  Lemma recip_Phi Rl pos a g : PhiA n eps d (recipTerm Rl sigma n Zc pos a g) = PhiA n eps d a + gK Rl pos g.
  Proof.
    unfold recipTerm, gK, PhiA, Phi. cbv zeta. destruct (Req_EM_T _ 0); [lra|]. cbn [force latt]. rewrite SF_sums. fold (eGf Rl g). 
    rewrite contraction_add, !contraction_scale, contraction_sub, !contraction_scale, trace_contraction.
    set (S := (reS pos g, imS pos g)).
    assert (W : forall l f, (forall c, In c l -> (c < n)%nat) -> workOf n (fold_left (fun f c => addAt rvsub f c (rvscale (eGf Rl g * Zc c * 2 * PI * imConjMul S (phase pos g c)) (cellVec g))) l f) d
        = workOf n f d - eGf Rl g * rsum (fun c => Zc c * imConjMul S (phase pos g c) * (2 * PI * rdot (cellVec g) (d c))) l).
    { clear. induction l as [|c l IH]; intros f H; cbn [fold_left]; [rewrite rsum_nil'; lra|]. rewrite IH by (intros; apply H; right; auto). rewrite work_sub by (apply H; left; auto).
      rewrite rdot_scale_l, rsum_cons'. ring. }
    rewrite W by (intros c I; apply in_seq in I; lia). unfold S. rewrite SF_work. unfold normC. cbn [fst snd]. fold (nS pos g). ring.
  Qed.
  Lemma eGf_derive Rl g : rdet Rl <> 0 -> g <> (0, 0, 0)%Z -> let q := metric2 (gGGT Rl) (cellVec g) in
    is_derive (fun t => eGf (strained Rl eps t) g) 0 (eGf Rl g * (sigma * sigma + 2 / q) * contraction (Ions_Model.outer (rvm (cellVec g) (gG Rl)) (rvm (cellVec g) (gG Rl))) eps - eGf Rl g * rtrace eps).
  Proof.
    intros D N q. assert (Q : 0 < q) by (assert (A := Gsq_nonneg Rl (cellVec g)); fold q in A; destruct (Req_EM_T q 0) as [E|E]; [apply Gsq_0 in E; [contradiction|exact D]|lra]).
    assert (V : 0 < Rabs (rdet Rl)) by (apply Rabs_pos_lt; auto).
    set (k := fun y => 4 * PI * exp (- (1/2) * (sigma * sigma) * y) * (1 / y)).
    apply (is_derive_ext (fun t => k (metric2 (gGGT (strained Rl eps t)) (cellVec g)) * (1 / Rabs (rdet (strained Rl eps t))))).
    - intros t. match goal with |- ?a = ?b => change (@eq R a b) end. unfold k, eGf. cbv zeta. unfold Rdiv. rewrite Rinv_mult. ring.
    - assert (Dk : is_derive k q (- k q * (1/2 * (sigma * sigma) + 1 / q))).
      { unfold k. auto_derive; [lra|]. field. lra. }
      assert (Dg : is_derive (fun t => k (metric2 (gGGT (strained Rl eps t)) (cellVec g))) 0 (-2 * contraction (Ions_Model.outer (rvm (cellVec g) (gG Rl)) (rvm (cellVec g) (gG Rl))) eps * (- k q * (1/2 * (sigma * sigma) + 1 / q)))).
      { apply (is_derive_comp (K:=R_AbsRing) (V:=R_NormedModule) k (fun t => metric2 (gGGT (strained Rl eps t)) (cellVec g)) 0); [|apply Gsq_derive; exact D].
        rewrite strained_same, strained_0. exact Dk. }
      eapply dval; [apply (dmul _ _ _ _ _ Dg (invvol_derive Rl eps D))|]. cbv beta. rewrite strained_same, strained_0. fold q.
      replace (eGf Rl g) with (k q * (1 / Rabs (rdet Rl))); [|unfold k, eGf; cbv zeta; fold q; unfold Rdiv; rewrite Rinv_mult; ring]. generalize (k q). intros y. field. lra.
  Qed.
  Lemma eK_derive Rl pos g : rdet Rl <> 0 -> is_derive (fun t => eK (strained Rl eps t) (displaced pos d t) g) 0 (gK Rl pos g).
  Proof.
    intros D. unfold gK. cbv zeta. destruct (Req_EM_T (metric2 (gGGT Rl) (cellVec g)) 0) as [E|E].
    - apply Gsq_0 in E; [|exact D]. apply (is_derive_ext (fun _ => 0)); [|apply dconst]. intros t. unfold eK. destruct (Req_EM_T _ 0) as [_|F]; [reflexivity|].
      exfalso. apply F. subst g. rewrite metric_len. unfold cellVec. cbn [v0 v1 v2 fst snd]. destruct (gG (strained Rl eps t)). v3u. ring.
    - assert (N : g <> (0, 0, 0)%Z) by (intros F; apply E, Gsq_0; auto).
      apply (is_derive_ext_loc (fun t => 1/2 * (eGf (strained Rl eps t) g * nS (displaced pos d t) g))).
      + generalize (det_strained Rl eps D). apply filter_imp. intros t Dt. unfold eK. rewrite strained_same. destruct (Req_EM_T _ 0) as [F|_]; [apply Gsq_0 in F; [contradiction|exact Dt]|match goal with |- ?a = ?b => change (@eq R a b) end; ring].
      + eapply dval; [apply dscal, (dmul _ _ _ _ _ (eGf_derive Rl g D N) (nS_derive pos d g))|]. cbv beta. rewrite strained_same, strained_0.
        replace (nS (displaced pos d 0) g) with (nS pos g) by (unfold nS; rewrite (reS_ext (displaced pos d 0) pos g), (imS_ext (displaced pos d 0) pos g) by (intros; apply displaced_0); reflexivity). match goal with |- ?a = ?b => change (@eq R a b) end. ring.
  Qed.
End SF.
