(** Spectral calculus for pow, invsqrt and cis. *)
From Coq Require Import Reals Lra FunctionalExtensionality Bool.
From Coq Require Fin.
From Coquelicot Require Import Coquelicot.
From Verif Require Import CMat Euler_Model MatFun_Model MatFun_Spec.
Open Scope C_scope.

(** ** matFunc *)
Lemma matFunc_ext : forall n (V : mat n n) f g, (forall i, f i = g i) -> matFunc V f = matFunc V g.
Proof. intros n V f g H. unfold matFunc. do 2 f_equal. f_equal. apply functional_extensionality. exact H. Qed.
Lemma eig_form : forall n (A V : mat n n) d, eigensystemC A V d -> A = matFunc V d.
Proof.
  intros n A V d [[H1 H2] H]. unfold matFunc. rewrite <- (mone_r _ _ A), <- H2, mmul_assoc. f_equal. rewrite mdiag_r. apply mat_ext. intros i k. rewrite H. ring.
Qed.
Lemma eig_C : forall n (A V : mat n n) d, eigensystem A V d -> eigensystemC A V (fun i => RtoC (d i)).
Proof. intros n A V d [H1 H2]. split; [exact H1|exact H2]. Qed.
Lemma eig_formR : forall n (A V : mat n n) d, eigensystem A V d -> A = matFunc V (fun i => RtoC (d i)).
Proof. intros. apply eig_form, eig_C. assumption. Qed.
Lemma form_eig : forall n (V : mat n n) d, unitary V -> eigensystemC (matFunc V d) V d.
Proof.
  intros n V d H. split; [exact H|]. intros i k. unfold matFunc. rewrite <- mmul_assoc. destruct H as [H _]. rewrite H, mone_r, mdiag_r. ring.
Qed.
Lemma matFunc_mul : forall n (V : mat n n) f g, unitary V -> mmul (matFunc V f) (matFunc V g) = matFunc V (fun i => f i * g i).
Proof.
  intros n V f g [H1 H2]. unfold matFunc. rewrite <- mdiag_mul. rewrite !mmul_assoc. rewrite <- (mmul_assoc _ _ _ _ _ (madj V) V), H1, mone_r. reflexivity.
Qed.
Lemma matFunc_adj : forall n (V : mat n n) f, madj (matFunc V f) = matFunc V (fun i => Cconj (f i)).
Proof. intros. unfold matFunc. rewrite !madj_mul, madj_adj, madj_diag, mmul_assoc. reflexivity. Qed.
Lemma matFunc_one : forall n (V : mat n n), unitary V -> matFunc V (fun _ => 1) = mone.
Proof. intros n V [H1 H2]. unfold matFunc. fold (@mone n). rewrite mone_r. exact H2. Qed.
Lemma matFunc_sub : forall n (V : mat n n) f g, msub (matFunc V f) (matFunc V g) = matFunc V (fun i => f i - g i).
Proof.
  intros n V f g. unfold matFunc. rewrite <- mmul_sub_l. f_equal. rewrite <- mmul_sub_r. f_equal. apply mat_ext. intros i j. unfold msub, mdiag. destruct (Fin.eq_dec i j); [reflexivity|ring].
Qed.
Lemma matFunc_zero : forall n (V : mat n n), matFunc V (fun _ => 0) = mzero.
Proof.
  intros. unfold matFunc. replace (mdiag (fun _ : Fin.t n => RtoC 0)) with (mzero : mat n n); [rewrite mmul_0_r, mmul_0_l; reflexivity|]. apply mat_ext. intros i j. unfold mzero, mdiag. destruct (Fin.eq_dec i j); reflexivity.
Qed.
Lemma Cmult_integral' : forall a b : C, a * b = 0 -> a <> 0 -> b = 0.
Proof. intros a b H Ha. replace b with (/ a * (a * b)) by (field; exact Ha). rewrite H. ring. Qed.
(** two eigenbases of one matrix *)
Lemma overlap_zero : forall n (V W : mat n n) a b, unitary V -> unitary W -> matFunc V a = matFunc W b -> forall i j, mmul (madj W) V i j * (a j - b i) = 0.
Proof.
  intros n V W a b HV HW E i j.
  assert (mmul (mmul (madj W) V) (mdiag a) = mmul (mdiag b) (mmul (madj W) V)) as H.
  { destruct HV as [HV _]. destruct HW as [HW _]. unfold matFunc in E. rewrite <- (mone_r _ _ (mmul _ (mdiag a))), <- HV. rewrite mmul_assoc. rewrite <- (mmul_assoc _ _ _ _ (madj W) V (mdiag a)), <- (mmul_assoc _ _ _ _ (madj W) (mmul V (mdiag a)) (madj V)), E.
    rewrite !mmul_assoc, HW, mone_l. reflexivity. }
  rewrite mdiag_l, mdiag_r in H. pose proof (f_equal (fun M => M i j) H) as Hij. cbn in Hij.
  replace (mmul (madj W) V i j * (a j - b i)) with (mmul (madj W) V i j * a j - b i * mmul (madj W) V i j) by ring. rewrite Hij. ring.
Qed.
Lemma spectral_unique : forall n (V W : mat n n) a b f g, unitary V -> unitary W -> matFunc V a = matFunc W b ->
  (forall i j, a i = b j -> f i = g j) -> matFunc V f = matFunc W g.
Proof.
  intros n V W a b f g HV HW E H.
  assert (mmul (mmul (madj W) V) (mdiag f) = mmul (mdiag g) (mmul (madj W) V)) as H'.
  { rewrite mdiag_l, mdiag_r. apply mat_ext. intros i j. pose proof (overlap_zero n V W a b HV HW E i j) as Z.
    destruct (Ceq_dec (a j) (b i)) as [Eq|Ne].
    - rewrite (H j i Eq). ring.
    - assert (mmul (madj W) V i j = 0) as ->; [|ring]. rewrite Cmult_comm in Z. apply Cmult_integral' in Z; [exact Z|]. intros Z'. apply Ne. replace (a j) with (a j - b i + b i) by ring. rewrite Z'. ring. }
  unfold matFunc. destruct HW as [HW1 HW2]. destruct HV as [HV1 HV2].
  rewrite <- (mone_l _ _ V) at 1. rewrite <- HW2. rewrite <- (mmul_assoc _ _ _ _ W (madj W) V), <- (mmul_assoc _ _ _ _ W (mmul (madj W) V)), H'.
  rewrite !mmul_assoc, <- (mmul_assoc _ _ _ _ _ V (madj V)), HV2, mone_r. reflexivity.
Qed.
Lemma same_spectrum : forall n (V W : mat n n) a b, unitary V -> unitary W -> matFunc V a = matFunc W b -> forall j, exists i, a j = b i.
Proof.
  intros n V W a b HV HW E j. destruct (Classical_Prop.classic (exists i, a j = b i)) as [H|H]; [exact H|]. exfalso.
  assert (forall i, mmul (madj W) V i j = 0) as Z.
  { intros i. pose proof (overlap_zero n V W a b HV HW E i j) as Z. rewrite Cmult_comm in Z. apply Cmult_integral' in Z; [exact Z|]. intros Z'. apply H. exists i. replace (a j) with (a j - b i + b i) by ring. rewrite Z'. ring. }
  assert (unitary (mmul (madj W) V)) as [U1 _] by (apply unitary_mul; [apply unitary_adj|]; assumption).
  pose proof (f_equal (fun M => M j j) U1) as E1. unfold mmul at 1, mone, mdiag in E1. destruct (Fin.eq_dec j j); [|contradiction].
  rewrite (fsum_ext _ _ (fun _ => 0)) in E1 by (intros; rewrite Z; ring). rewrite fsum_0 in E1. apply RtoC_inj in E1. lra.
Qed.
(** ** the loop over eigenvalues *)
Lemma overEigs_some : forall n A (f : Fin.t n -> option A) r, overEigs A f = Some r <-> (forall i, f i = Some (r i)).
Proof.
  induction n; intros A f r; cbn.
  - split; [intros _ i; inversion i|]. intros _. f_equal. apply (@functional_extensionality (Fin.t 0) A). intros i. inversion i.
  - destruct (f Fin.F1) as [a|] eqn:E1.
    + destruct (overEigs A (fun i => f (Fin.FS i))) as [g|] eqn:E2.
      * rewrite IHn in E2. split.
        -- intros H. injection H as <-. intros i. apply (Fin.caseS' i); [exact E1|]. intros p. apply E2.
        -- intros H. f_equal. apply (@functional_extensionality (Fin.t (S n)) A). intros i. apply (Fin.caseS' i); cbn.
           ++ specialize (H Fin.F1). rewrite E1 in H. injection H as <-. reflexivity.
           ++ intros p. specialize (H (Fin.FS p)). rewrite (E2 p) in H. injection H as <-. reflexivity.
      * split; [discriminate|]. intros H. exfalso. assert (overEigs A (fun i => f (Fin.FS i)) = Some (fun i => r (Fin.FS i))) by (apply IHn; intros; apply H). congruence.
    + split; [discriminate|]. intros H. specialize (H Fin.F1). congruence.
Qed.
Lemma anyOf_true : forall n (f : Fin.t n -> bool), anyOf f = true <-> exists i, f i = true.
Proof.
  induction n; intros f; cbn; [split; [discriminate|intros [i _]; inversion i]|].
  rewrite orb_true_iff, IHn. split.
  - intros [H|[i H]]; eauto.
  - intros [i H]. revert H. apply (Fin.caseS' i); [auto|]. intros p H. right. exists p. exact H.
Qed.
Lemma overEigs_none : forall n A (f : Fin.t n -> option A), (exists i, f i = None) -> overEigs A f = None.
Proof. intros n A f [i H]. destruct (overEigs A f) as [r|] eqn:E; [|reflexivity]. rewrite overEigs_some in E. rewrite E in H. discriminate. Qed.
(** a total computation of one eigenvalue *)
Definition powOut (x eig : R) : R := if Rlt_dec x 0 then (if Rle_dec eig 0 then 0%R else dpow eig x) else (if Rlt_dec eig 0 then 0%R else dpow eig x).
Definition powEigs (x eig : R) : R := if Rlt_dec x 0 then eig else (if Rlt_dec eig 0 then 0%R else eig).
Definition powSing (x eig : R) : bool := if Rlt_dec x 0 then (if Rle_dec eig 0 then true else false) else false.
Lemma powEig_some : forall x h e, (h = true \/ (0 <= x)%R \/ (0 < e)%R) -> powEig x h e = Some (RtoC (powOut x e), powEigs x e, powSing x e).
Proof.
  intros x h e H. unfold powEig, powOut, powEigs, powSing. destruct (Rlt_dec x 0); destruct (Rle_dec e 0); destruct (Rlt_dec e 0); try reflexivity; try lra; destruct h; try reflexivity; destruct H as [H|H]; try discriminate; lra.
Qed.
Lemma powMat_some : forall n x h (V : mat n n) d, (h = true \/ (0 <= x)%R \/ forall i, (0 < d i)%R) ->
  powMat x h V d = Some (matFunc V (fun i => RtoC (powOut x (d i))), (fun i => powEigs x (d i)), anyOf (fun i => powSing x (d i))).
Proof.
  intros n x h V d H. unfold powMat.
  assert (overEigs _ (fun i => powEig x h (d i)) = Some (fun i => (RtoC (powOut x (d i)), powEigs x (d i), powSing x (d i)))) as ->; [|reflexivity].
  apply overEigs_some. intros i. apply powEig_some. destruct H as [H|[H|H]]; auto.
Qed.
Lemma powMat_none : forall n x (V : mat n n) d, (x < 0)%R -> (exists i, (d i <= 0)%R) -> powMat x false V d = None.
Proof.
  intros n x V d Hx [i Hi]. unfold powMat. rewrite overEigs_none; [reflexivity|]. exists i. unfold powEig. destruct (Rlt_dec x 0); [|lra]. destruct (Rle_dec (d i) 0); [reflexivity|lra].
Qed.
(** independence of the eigensystem *)
Lemma pow_independent : forall n (A V W : mat n n) d e x h, eigensystem A V d -> eigensystem A W e ->
  match powMat x h V d, powMat x h W e with
  | Some (P, _, s), Some (Q, _, s') => P = Q /\ s = s'
  | None, None => True
  | _, _ => False
  end.
Proof.
  intros n A V W d e x h H1 H2. pose proof (eig_formR _ _ _ _ H1) as E1. pose proof (eig_formR _ _ _ _ H2) as E2. destruct H1 as [UV _]. destruct H2 as [UW _].
  assert (matFunc V (fun i => RtoC (d i)) = matFunc W (fun i => RtoC (e i))) as E by congruence.
  assert (forall j, exists i, d j = e i) as S1. { intros j. destruct (same_spectrum _ _ _ _ _ UV UW E j) as [i Hi]. exists i. apply RtoC_inj in Hi. exact Hi. }
  assert (forall j, exists i, e j = d i) as S2. { intros j. destruct (same_spectrum _ _ _ _ _ UW UV (eq_sym E) j) as [i Hi]. exists i. apply RtoC_inj in Hi. exact Hi. }
  destruct (Classical_Prop.classic (h = true \/ (0 <= x)%R \/ forall i, (0 < d i)%R)) as [Ok|Bad].
  - rewrite powMat_some by exact Ok. rewrite powMat_some.
    + split.
      * apply (spectral_unique _ _ _ _ _ _ _ UV UW E). intros i j Hij. apply RtoC_inj in Hij. rewrite Hij. reflexivity.
      * apply eq_true_iff_eq. rewrite !anyOf_true. split; intros [i Hi].
        -- destruct (S1 i) as [k Hk]. exists k. rewrite <- Hk. exact Hi.
        -- destruct (S2 i) as [k Hk]. exists k. rewrite <- Hk. exact Hi.
    + destruct Ok as [Ok|[Ok|Ok]]; auto. right; right. intros i. destruct (S2 i) as [k ->]. apply Ok.
  - assert (h = false) as -> by (destruct h; [exfalso; apply Bad; auto|reflexivity]).
    assert (x < 0)%R as Hx by (apply Rnot_le_lt; intros Hx; apply Bad; auto).
    assert (exists i, (d i <= 0)%R) as [i Hi]. { apply Classical_Prop.NNPP. intros Hn. apply Bad. right; right. intros i. apply Rnot_le_lt. intros Hi. apply Hn. exists i. exact Hi. }
    rewrite powMat_none by (try exists i; assumption). rewrite powMat_none; [exact I|exact Hx|]. destruct (S1 i) as [k Hk]. exists k. rewrite <- Hk. exact Hi.
Qed.
(** ** Positivity *)
Lemma quad_col : forall n (A V : mat n n) d k, eigensystem A V d -> quad A (fun i => V i k) = RtoC (d k).
Proof.
  intros n A V d k [[U _] H]. unfold quad. rewrite (fsum_ext _ _ (fun i => RtoC (d k) * (Cconj (V i k) * V i k))).
  - rewrite fsum_scal. pose proof (f_equal (fun M => M k k) U) as E. unfold mmul, madj, mone, mdiag in E. cbv beta in E. rewrite E. destruct (Fin.eq_dec k k); [apply Cmult_1_r|contradiction].
  - intros i. rewrite fsum_scal. change (fsum (fun j => A i j * V j k)) with (mmul A V i k). rewrite H. ring.
Qed.
Lemma col_nonzero : forall n (V : mat n n) k, unitary V -> exists i, V i k <> 0.
Proof.
  intros n V k [U _]. apply Classical_Prop.NNPP. intros H. pose proof (f_equal (fun M => M k k) U) as E. unfold mmul, madj, mone, mdiag in E. cbv beta in E. destruct (Fin.eq_dec k k); [|contradiction].
  rewrite (fsum_ext _ _ (fun _ => 0)) in E. { rewrite fsum_0 in E. apply RtoC_inj in E. lra. }
  intros i. assert (V i k = 0) as ->. { apply Classical_Prop.NNPP. intros Hi. apply H. exists i. exact Hi. } ring.
Qed.
Lemma posDef_eigs : forall n (A V : mat n n) d, posDef A -> eigensystem A V d -> forall i, (0 < d i)%R.
Proof. intros n A V d [_ H] He i. specialize (H (fun k => V k i) (col_nonzero n V i (proj1 He))). rewrite (quad_col _ _ _ _ _ He) in H. exact H. Qed.
Lemma posSemi_eigs : forall n (A V : mat n n) d, posSemi A -> eigensystem A V d -> forall i, (0 <= d i)%R.
Proof. intros n A V d [_ H] He i. specialize (H (fun k => V k i)). rewrite (quad_col _ _ _ _ _ He) in H. exact H. Qed.
(** quadratic form in the eigenbasis *)
Lemma quad_matFunc : forall n (V : mat n n) f v, quad (matFunc V f) v = fsum (fun k => f k * (Cconj (fsum (fun j => Cconj (V j k) * v j)) * fsum (fun j => Cconj (V j k) * v j))).
Proof.
  intros n V f v. unfold quad, matFunc. rewrite mdiag_r. unfold mmul, madj.
  transitivity (fsum (fun i => fsum (fun j => fsum (fun k => f k * ((Cconj (v i) * V i k) * (Cconj (V j k) * v j)))))).
  - apply fsum_ext; intros i. apply fsum_ext; intros j. rewrite <- fsum_scal_r, <- fsum_scal. apply fsum_ext; intros k. ring.
  - transitivity (fsum (fun i => fsum (fun k => f k * ((Cconj (v i) * V i k) * fsum (fun j => Cconj (V j k) * v j))))).
    + apply fsum_ext; intros i. rewrite fsum_swap. apply fsum_ext; intros k. rewrite <- !fsum_scal. apply fsum_ext; intros j. ring.
    + rewrite fsum_swap. apply fsum_ext; intros k. rewrite fsum_scal. f_equal. rewrite fsum_scal_r. f_equal. rewrite fsum_conj. apply fsum_ext; intros i. rewrite Cconj_mul, Cconj_conj. ring.
Qed.
Lemma quad_real : forall n (V : mat n n) (f : Fin.t n -> R) v, quad (matFunc V (fun i => RtoC (f i))) v =
  fsum (fun k => RtoC (f k * (Re (fsum (fun j => Cconj (V j k) * v j)) * Re (fsum (fun j => Cconj (V j k) * v j)) + Im (fsum (fun j => Cconj (V j k) * v j)) * Im (fsum (fun j => Cconj (V j k) * v j))))).
Proof. intros. rewrite quad_matFunc. apply fsum_ext. intros k. rewrite Cconj_sq, <- RtoC_mult. reflexivity. Qed.
Lemma matFunc_herm : forall n (V : mat n n) (f : Fin.t n -> R), hermitian (matFunc V (fun i => RtoC (f i))).
Proof. intros. unfold hermitian. rewrite matFunc_adj. apply matFunc_ext. intros. apply Cconj_R. Qed.
Lemma eigs_posSemi : forall n (V : mat n n) (f : Fin.t n -> R), (forall i, (0 <= f i)%R) -> posSemi (matFunc V (fun i => RtoC (f i))).
Proof.
  intros n V f H. split; [apply matFunc_herm|]. intros v. rewrite quad_real. edestruct (fsum_nonneg n) as (r & E & P & _); [|rewrite E; exact P]. intros i. cbn beta. apply Rmult_le_pos; [apply H|]. nra.
Qed.
Lemma sq_zero : forall z : C, (Re z * Re z + Im z * Im z = 0)%R -> z = 0.
Proof. intros [a b] H. unfold Re, Im in H. cbn in H. apply injective_projections; cbn; nra. Qed.
Lemma eigs_posDef : forall n (V : mat n n) (f : Fin.t n -> R), unitary V -> (forall i, (0 < f i)%R) -> posDef (matFunc V (fun i => RtoC (f i))).
Proof.
  intros n V f U H. split; [apply matFunc_herm|]. intros v [i0 Hv]. rewrite quad_real. edestruct (fsum_nonneg n) as (r & E & P & Z); [|rewrite E].
  { intros i. cbn beta. apply Rmult_le_pos; [left; apply H|]. nra. }
  cbn. destruct P as [P|P]; [exact P|]. exfalso. specialize (Z (eq_sym P)).
  assert (forall k, fsum (fun j => Cconj (V j k) * v j) = 0) as W.
  { intros k. specialize (Z k). cbn beta in Z. apply Rmult_integral in Z. destruct Z as [Z|Z]; [specialize (H k); lra|]. apply sq_zero. exact Z. }
  apply Hv. destruct U as [_ U]. pose (vm := (fun j (_ : Fin.t 1) => v j) : mat n 1).
  assert (mmul (mmul V (madj V)) vm = mzero) as E0.
  { rewrite <- mmul_assoc. replace (mmul (madj V) vm) with (mzero : mat n 1); [apply mmul_0_r|]. apply mat_ext. intros k z. unfold mmul, madj, vm, mzero. symmetry. apply W. }
  rewrite U, mone_l in E0. apply (f_equal (fun M => M i0 Fin.F1)) in E0. exact E0.
Qed.
