(** Occupations of an auxiliary Hamiltonian that rotates, and concrete matrices. *)
From Coq Require Import Reals Lra FunctionalExtensionality Bool.
From Coq Require Fin.
From Coquelicot Require Import Coquelicot.
From Verif Require Import CMat Euler_Model Smear_Model Smear_Proofs MatFun_Model MatFun_Spec MatFun_Proofs MatFun_Proofs2 MatFun_Proofs3.
Open Scope C_scope.

Lemma smear_grad_ok : forall n ty width mu (V : R -> mat n n) t dV (eps : R -> Fin.t n -> R) deps, (0 < width)%R ->
  (forall s, unitary (V s)) -> V t = mone -> mderive V t dV -> (forall i, is_derive (fun s => eps s i) t (deps i)) ->
  (forall i j, eps t i = eps t j \/ (1 / 1000000 <= Rabs (eps t i - eps t j))%R) ->
  forall dH dF, mderive (fun s => matFunc (V s) (fun i => RtoC (eps s i))) t dH -> mderive (fun s => matFunc (V s) (fun i => RtoC (smear ty width mu (eps s i)))) t dF ->
  forall G, mtr (mmul (fun i j => RtoC (smearGradFactor ty width mu (eps t i) (eps t j)) * G i j) dH) = mtr (mmul G dF).
Proof.
  intros n ty width mu V t dV eps deps Hw HU H1 HV He Hgap dH dF HH HF G.
  pose proof (matFunc_derive n V t dV HU HV (fun s i => RtoC (eps s i)) (fun i => RtoC (deps i)) (fun i => cder_R _ _ _ (He i))) as HH'.
  assert (forall i, is_derive (fun s => smear ty width mu (eps s i)) t (deps i * smearPrime ty width mu (eps t i))%R) as Hs.
  { intros i. apply (is_derive_comp (smear ty width mu) (fun s => eps s i)); [apply derivative; exact Hw|apply He]. }
  pose proof (matFunc_derive n V t dV HU HV (fun s i => RtoC (smear ty width mu (eps s i))) _ (fun i => cder_R _ _ _ (Hs i))) as HF'.
  rewrite (mderive_unique _ _ _ _ _ _ HH HH'), (mderive_unique _ _ _ _ _ _ HF HF'). clear HH HH' HF HF'.
  (* the gap condition in the form needed: equal eigenvalues contribute nothing off the diagonal *)
  rewrite H1. unfold inBasis. rewrite madj_one, !mone_l, !mone_r, !mtr_mul. apply fsum_ext; intros i. apply fsum_ext; intros j. unfold Kform, mdiag, smearGradFactor. cbv zeta.
  set (Kji := dV j i).
  destruct (Fin.eq_dec j i) as [->|Hn].
  - rewrite Rminus_eq_0, Rabs_R0. destruct (Rlt_dec 0 (1/1000000)) as [_|Hb]; [|lra]. rewrite RtoC_mult. ring.
  - rewrite !Cplus_0_r. destruct (Hgap i j) as [E|Hg].
    + rewrite E. ring.
    + destruct (Rlt_dec _ _) as [Hb|_]; [lra|]. assert (eps t i - eps t j <> 0)%R as Hx by (intros E; rewrite E, Rabs_R0 in Hg; lra).
      rewrite <- !RtoC_minus. transitivity (G i j * Kji * RtoC ((smear ty width mu (eps t i) - smear ty width mu (eps t j)) / (eps t i - eps t j) * (eps t i - eps t j))); [rewrite (RtoC_mult ((smear ty width mu (eps t i) - smear ty width mu (eps t j)) / (eps t i - eps t j)) (eps t i - eps t j)); ring|].
      replace ((smear ty width mu (eps t i) - smear ty width mu (eps t j)) / (eps t i - eps t j) * (eps t i - eps t j))%R with (smear ty width mu (eps t i) - smear ty width mu (eps t j))%R by (field; exact Hx). ring.
Qed.

(** ** two by two matrices *)
Definition m22 (a b c d : C) : mat 2 2 := fun i j => Fin.caseS' i (fun _ => C) (Fin.caseS' j (fun _ => C) a (fun _ => b)) (fun _ => Fin.caseS' j (fun _ => C) c (fun _ => d)).
Definition v2 {A} (a b : A) : Fin.t 2 -> A := fun i => Fin.caseS' i (fun _ => A) a (fun _ => b).
Lemma fin2 : forall (P : Fin.t 2 -> Prop), P Fin.F1 -> P (Fin.FS Fin.F1) -> forall i, P i.
Proof. intros P H1 H2 i. apply (Fin.caseS' i); [exact H1|]. intros p. apply (Fin.caseS' p); [exact H2|]. intros q. inversion q. Qed.
Lemma m22_mul : forall a b c d a' b' c' d', mmul (m22 a b c d) (m22 a' b' c' d') = m22 (a*a' + b*c') (a*b' + b*d') (c*a' + d*c') (c*b' + d*d').
Proof. intros. apply mat_ext. intros i j. revert j; revert i. refine (fin2 _ _ _); refine (fin2 _ _ _); unfold mmul; cbn; ring. Qed.
Lemma m22_adj : forall a b c d, madj (m22 a b c d) = m22 (Cconj a) (Cconj c) (Cconj b) (Cconj d).
Proof. intros. apply mat_ext. intros i j. revert j; revert i. refine (fin2 _ _ _); refine (fin2 _ _ _); reflexivity. Qed.
Lemma m22_one : (mone : mat 2 2) = m22 1 0 0 1.
Proof. apply mat_ext. intros i j. revert j; revert i. refine (fin2 _ _ _); refine (fin2 _ _ _); reflexivity. Qed.
Lemma m22_ext : forall a b c d a' b' c' d', a = a' -> b = b' -> c = c' -> d = d' -> m22 a b c d = m22 a' b' c' d'.
Proof. intros; subst; reflexivity. Qed.
Definition r2 : R := / sqrt 2.
Lemma r2_sq : (r2 * r2 = 1/2)%R.
Proof. unfold r2. pose proof (sqrt_lt_R0 2 ltac:(lra)). rewrite <- Rinv_mult_distr by lra. rewrite sqrt_sqrt by lra. lra. Qed.
(** A = [[2,1],[1,2]] with its eigensystem *)
Definition exA : mat 2 2 := m22 2 1 1 2.
Definition exV : mat 2 2 := m22 r2 r2 r2 (- r2)%R.
Definition exd : Fin.t 2 -> R := v2 3%R 1%R.
Ltac csimp := apply injective_projections; cbn; try ring; pose proof r2_sq; try nra.
Lemma exV_unitary : unitary exV.
Proof. split; unfold exV; rewrite m22_adj, m22_mul, m22_one; apply m22_ext; csimp. Qed.
Lemma exA_eig : eigensystem exA exV exd.
Proof.
  split; [exact exV_unitary|]. intros i k. unfold exA, exV. rewrite m22_mul. revert k; revert i. refine (fin2 _ _ _); refine (fin2 _ _ _); cbn; csimp.
Qed.
Lemma exA_pos : posDef exA.
Proof. rewrite (eig_formR _ _ _ _ exA_eig). apply eigs_posDef; [exact exV_unitary|]. refine (fin2 _ _ _); cbn; lra. Qed.
(** B = [[1,1],[1,1]] is singular *)
Definition exB : mat 2 2 := m22 1 1 1 1.
Definition exdB : Fin.t 2 -> R := v2 2%R 0%R.
Lemma exB_eig : eigensystem exB exV exdB.
Proof. split; [exact exV_unitary|]. intros i k. unfold exB, exV. rewrite m22_mul. revert k; revert i. refine (fin2 _ _ _); refine (fin2 _ _ _); cbn; csimp. Qed.
Lemma exB_semi : posSemi exB.
Proof. rewrite (eig_formR _ _ _ _ exB_eig). apply eigs_posSemi. refine (fin2 _ _ _); cbn; lra. Qed.
(** a rotating eigenbasis *)
Definition rotV (s : R) : mat 2 2 := m22 (cos s) (- sin s)%R (sin s) (cos s).
Lemma rotV_unitary : forall s, unitary (rotV s).
Proof.
  intros s. pose proof (sin2_cos2 s) as H. unfold Rsqr in H. split; unfold rotV; rewrite m22_adj, m22_mul, m22_one; apply m22_ext; apply injective_projections; cbn; lra.
Qed.
Lemma rotV_0 : rotV 0 = mone.
Proof. unfold rotV. rewrite cos_0, sin_0, m22_one. apply m22_ext; apply injective_projections; cbn; ring. Qed.
Lemma rotV_der : mderive rotV 0 (m22 0 (-1)%R 1 0).
Proof.
  intros i j. revert j; revert i. refine (fin2 _ _ _); refine (fin2 _ _ _); cbn; split; try exact (is_derive_const (K:=R_AbsRing) (V:=R_NormedModule) 0%R 0%R).
  - auto_derive; auto. rewrite sin_0. ring.
  - auto_derive; auto. rewrite cos_0. ring.
  - auto_derive; auto. rewrite cos_0. ring.
  - auto_derive; auto. rewrite sin_0. ring.
Qed.
Definition rotd (s : R) : Fin.t 2 -> R := v2 (4 + s)%R 1%R.
Lemma rotd_der : forall i, is_derive (fun s => rotd s i) 0 (v2 1%R 0%R i).
Proof. refine (fin2 _ _ _); cbn; auto_derive; auto; ring. Qed.
Lemma rot_derive : forall (f : R -> Fin.t 2 -> C) df, (forall i, cder (fun s => f s i) 0 (df i)) -> exists D, mderive (fun s => matFunc (rotV s) (f s)) 0 D.
Proof. intros f df H. eexists. apply (matFunc_derive 2 rotV 0 _ rotV_unitary rotV_der f df H). Qed.
