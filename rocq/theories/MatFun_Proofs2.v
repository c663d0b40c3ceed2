(** Laws of pow, invsqrt, cis and cisInv. *)
From Coq Require Import Reals Lra FunctionalExtensionality Bool.
From Coq Require Fin.
From Coquelicot Require Import Coquelicot.
From Verif Require Import CMat Euler_Model Euler_Proofs MatFun_Model MatFun_Spec MatFun_Proofs.
Open Scope C_scope.

Lemma dpow_pos : forall d x, (0 < d)%R -> dpow d x = Rpower d x.
Proof. intros. unfold dpow. destruct (Req_EM_T d 0); [lra|reflexivity]. Qed.
Lemma powOut_pos : forall d x, (0 < d)%R -> powOut x d = Rpower d x.
Proof. intros. unfold powOut. rewrite <- (dpow_pos d x H). destruct (Rlt_dec x 0); [destruct (Rle_dec d 0); [lra|reflexivity]|]. destruct (Rlt_dec d 0); [lra|reflexivity]. Qed.
Lemma powSing_pos : forall d x, (0 < d)%R -> powSing x d = false.
Proof. intros. unfold powSing. destruct (Rlt_dec x 0); [|reflexivity]. destruct (Rle_dec d 0); [lra|reflexivity]. Qed.
Lemma powEigs_pos : forall d x, (0 < d)%R -> powEigs x d = d.
Proof. intros. unfold powEigs. destruct (Rlt_dec x 0); [reflexivity|]. destruct (Rlt_dec d 0); [lra|reflexivity]. Qed.
Lemma anyOf_false : forall n (f : Fin.t n -> bool), (forall i, f i = false) -> anyOf f = false.
Proof. intros n f H. destruct (anyOf f) eqn:E; [|reflexivity]. apply anyOf_true in E. destruct E as [i E]. rewrite H in E. discriminate. Qed.
(** positive definite *)
Lemma pow_posDef : forall n (A V : mat n n) d x h, posDef A -> eigensystem A V d ->
  powMat x h V d = Some (matFunc V (fun i => RtoC (Rpower (d i) x)), d, false).
Proof.
  intros n A V d x h HA He. pose proof (posDef_eigs _ _ _ _ HA He) as Hd. rewrite powMat_some by auto.
  rewrite (matFunc_ext _ _ _ (fun i => RtoC (Rpower (d i) x))) by (intros; rewrite powOut_pos by apply Hd; reflexivity).
  rewrite anyOf_false by (intros; apply powSing_pos, Hd). do 2 f_equal. f_equal. apply functional_extensionality. intros. apply powEigs_pos, Hd.
Qed.
Lemma pow_group : forall n (A V : mat n n) d x y h, posDef A -> eigensystem A V d ->
  exists P Q S, powMat x h V d = Some (P, d, false) /\ powMat y h V d = Some (Q, d, false) /\ powMat (x + y) h V d = Some (S, d, false) /\
    mmul P Q = S /\ posDef P.
Proof.
  intros n A V d x y h HA He. rewrite !(pow_posDef n A V d _ h HA He). eexists _, _, _. split; [reflexivity|]. split; [reflexivity|]. split; [reflexivity|]. split.
  - rewrite matFunc_mul by apply He. apply matFunc_ext. intros i. rewrite <- RtoC_mult, <- Rpower_plus. reflexivity.
  - apply eigs_posDef; [apply He|]. intros. unfold Rpower. apply exp_pos.
Qed.
Lemma pow_one_posDef : forall n (A V : mat n n) d h, posDef A -> eigensystem A V d ->
  powMat 1 h V d = Some (A, d, false) /\ powMat 0 h V d = Some (mone, d, false).
Proof.
  intros n A V d h HA He. rewrite !(pow_posDef n A V d _ h HA He). pose proof (posDef_eigs _ _ _ _ HA He) as Hd. split; do 3 f_equal.
  - rewrite (eig_formR _ _ _ _ He) at 1. apply matFunc_ext. intros. rewrite Rpower_1 by apply Hd. reflexivity.
  - rewrite <- (matFunc_one n V) by apply He. apply matFunc_ext. intros. rewrite Rpower_O by apply Hd. reflexivity.
Qed.
Lemma invsqrt_posDef : forall n (A V : mat n n) d h, posDef A -> eigensystem A V d ->
  exists S, invsqrt h V d = Some (S, d, false) /\ posDef S /\ mmul (mmul S A) S = mone /\ mmul S A = mmul A S.
Proof.
  intros n A V d h HA He. unfold invsqrt. rewrite (pow_posDef n A V d _ h HA He). pose proof (posDef_eigs _ _ _ _ HA He) as Hd. eexists. split; [reflexivity|].
  assert (A = matFunc V (fun i => RtoC (d i))) as EA by apply (eig_formR _ _ _ _ He). split.
  - apply eigs_posDef; [apply He|]. intros. unfold Rpower. apply exp_pos.
  - rewrite EA, !matFunc_mul by apply He. split.
    + rewrite <- (matFunc_one n V) by apply He. apply matFunc_ext. intros i. rewrite <- !RtoC_mult. f_equal.
      replace (Rpower (d i) (-1/2) * d i * Rpower (d i) (-1/2))%R with (d i * (Rpower (d i) (-1/2) * Rpower (d i) (-1/2)))%R by ring. rewrite <- Rpower_plus. replace (-1/2 + -1/2)%R with (-(1))%R by field. rewrite Rpower_Ropp, Rpower_1 by apply Hd. field. specialize (Hd i). lra.
    + apply matFunc_ext. intros. ring.
Qed.
Lemma Rpower_half_neg : forall e, (0 < e)%R -> (e * (Rpower e (-1/2) * Rpower e (-1/2)) = 1)%R.
Proof. intros e He. rewrite <- Rpower_plus. replace (-1/2 + -1/2)%R with (-(1))%R by field. rewrite Rpower_Ropp, Rpower_1 by exact He. field. lra. Qed.
(** positive semi-definite, singular eigenvalues projected out *)
Lemma powOut_half : forall e, (0 <= e)%R -> (powOut (-1/2) e * e * powOut (-1/2) e = if Rle_dec e 0 then 0 else 1)%R.
Proof.
  intros e He. unfold powOut. destruct (Rlt_dec (-1/2) 0); [|lra]. destruct (Rle_dec e 0); [ring|]. rewrite dpow_pos by lra.
  transitivity (e * (Rpower e (-1/2) * Rpower e (-1/2)))%R; [ring|]. apply Rpower_half_neg. lra.
Qed.
Lemma invsqrt_posSemi : forall n (A V : mat n n) d, posSemi A -> eigensystem A V d ->
  exists S s, invsqrt true V d = Some (S, d, s) /\ posSemi S /\ let P := mmul (mmul S A) S in
    hermitian P /\ mmul P P = P /\ mmul P A = A /\ mmul A P = A /\ mmul P S = S /\ (s = false <-> posDef A).
Proof.
  intros n A V d HA He. unfold invsqrt. rewrite powMat_some by auto. pose proof (posSemi_eigs _ _ _ _ HA He) as Hd.
  assert ((fun i => powEigs (-1/2) (d i)) = d) as ->. { apply functional_extensionality. intros. unfold powEigs. destruct (Rlt_dec (-1/2) 0); [reflexivity|lra]. }
  eexists _, _. split; [reflexivity|]. assert (A = matFunc V (fun i => RtoC (d i))) as EA by apply (eig_formR _ _ _ _ He).
  set (S := matFunc V (fun i => RtoC (powOut (-1/2) (d i)))).
  assert (mmul (mmul S A) S = matFunc V (fun i => RtoC (if Rle_dec (d i) 0 then 0%R else 1%R))) as EP.
  { unfold S. rewrite EA, !matFunc_mul by apply He. apply matFunc_ext. intros i. rewrite <- !RtoC_mult, powOut_half by apply Hd. reflexivity. }
  split.
  { apply eigs_posSemi. intros i. unfold powOut. destruct (Rlt_dec (-1/2) 0); [|lra]. destruct (Rle_dec (d i) 0); [lra|]. rewrite dpow_pos by lra. left. unfold Rpower. apply exp_pos. }
  cbv zeta. rewrite EP. split; [apply matFunc_herm|]. split; [|split; [|split; [|split]]].
  - rewrite matFunc_mul by apply He. apply matFunc_ext. intros i. rewrite <- RtoC_mult. f_equal. destruct (Rle_dec (d i) 0); ring.
  - rewrite EA, matFunc_mul by apply He. apply matFunc_ext. intros i. rewrite <- RtoC_mult. f_equal. specialize (Hd i). destruct (Rle_dec (d i) 0); [|ring]. lra.
  - rewrite EA, matFunc_mul by apply He. apply matFunc_ext. intros i. rewrite <- RtoC_mult. f_equal. specialize (Hd i). destruct (Rle_dec (d i) 0); [|ring]. lra.
  - unfold S. rewrite matFunc_mul by apply He. apply matFunc_ext. intros i. rewrite <- RtoC_mult. f_equal. unfold powOut. destruct (Rlt_dec (-1/2) 0); [|lra]. destruct (Rle_dec (d i) 0); ring.
  - split.
    + intros Hs. rewrite EA. apply eigs_posDef; [apply He|]. intros i. apply Rnot_le_lt. intros Hi. assert (anyOf (fun i => powSing (-1/2) (d i)) = true) as Ht; [|congruence]. apply anyOf_true. exists i. unfold powSing. destruct (Rlt_dec (-1/2) 0); [|lra]. destruct (Rle_dec (d i) 0); [reflexivity|lra].
    + intros Hp. apply anyOf_false. intros i. apply powSing_pos. apply (posDef_eigs _ _ _ _ Hp He).
Qed.
Lemma invsqrt_unhandled : forall n (A V : mat n n) d, posSemi A -> eigensystem A V d -> (invsqrt false V d = None <-> ~ posDef A).
Proof.
  intros n A V d HA He. split.
  - intros H Hp. destruct (invsqrt_posDef n A V d false Hp He) as (S & E & _). congruence.
  - intros H. apply powMat_none; [lra|]. apply Classical_Prop.NNPP. intros Hn. apply H. rewrite (eig_formR _ _ _ _ He). apply eigs_posDef; [apply He|]. intros i. apply Rnot_le_lt. intros Hi. apply Hn. exists i. exact Hi.
Qed.
Lemma powOut_half_pos : forall e, (0 <= e)%R -> (powOut (1/2) e * powOut (1/2) e = e /\ 0 <= powOut (1/2) e)%R.
Proof.
  intros e He. unfold powOut. destruct (Rlt_dec (1/2) 0); [lra|]. destruct (Rlt_dec e 0); [lra|]. unfold dpow. destruct (Req_EM_T e 0) as [->|Hn].
  - destruct (Req_EM_T (1/2) 0); lra.
  - rewrite <- Rpower_plus. replace (1/2 + 1/2)%R with 1%R by field. rewrite Rpower_1 by lra. split; [reflexivity|]. left. unfold Rpower. apply exp_pos.
Qed.
Lemma sqrt_posSemi : forall n (A V : mat n n) d h, posSemi A -> eigensystem A V d ->
  exists S, powMat (1/2) h V d = Some (S, d, false) /\ posSemi S /\ mmul S S = A.
Proof.
  intros n A V d h HA He. pose proof (posSemi_eigs _ _ _ _ HA He) as Hd. rewrite powMat_some by (right; left; lra).
  rewrite anyOf_false by (intros; unfold powSing; destruct (Rlt_dec (1/2) 0); [lra|reflexivity]).
  assert ((fun i => powEigs (1/2) (d i)) = d) as ->. { apply functional_extensionality. intros i. unfold powEigs. destruct (Rlt_dec (1/2) 0); [lra|]. destruct (Rlt_dec (d i) 0); [specialize (Hd i); lra|reflexivity]. }
  eexists. split; [reflexivity|]. split.
  - apply eigs_posSemi. intros i. apply powOut_half_pos, Hd.
  - rewrite matFunc_mul by apply He. rewrite (eig_formR _ _ _ _ He). apply matFunc_ext. intros i. rewrite <- RtoC_mult. f_equal. apply powOut_half_pos, Hd.
Qed.
(** negative eigenvalues with a non-negative exponent: the positive part of A *)
Lemma pow_positive_part : forall n (A V : mat n n) d h, eigensystem A V d ->
  exists P e, powMat 1 h V d = Some (P, e, false) /\ posSemi P /\ posSemi (msub P A) /\ mmul P (msub P A) = mzero /\ eigensystem P V e.
Proof.
  intros n A V d h He. rewrite powMat_some by (right; left; lra). rewrite anyOf_false by (intros; unfold powSing; destruct (Rlt_dec 1 0); [lra|reflexivity]).
  assert (forall i, powOut 1 (d i) = if Rlt_dec (d i) 0 then 0%R else d i) as Ep.
  { intros i. unfold powOut. destruct (Rlt_dec 1 0); [lra|]. destruct (Rlt_dec (d i) 0); [reflexivity|]. unfold dpow. destruct (Req_EM_T (d i) 0); [destruct (Req_EM_T 1 0); lra|]. apply Rpower_1. lra. }
  eexists _, _. split; [reflexivity|]. rewrite (eig_formR _ _ _ _ He). rewrite matFunc_sub.
  split; [|split; [|split]].
  - apply eigs_posSemi. intros i. rewrite Ep. destruct (Rlt_dec (d i) 0); lra.
  - rewrite (matFunc_ext _ _ _ (fun i => RtoC (powOut 1 (d i) - d i))) by (intros; rewrite RtoC_minus; reflexivity). apply eigs_posSemi. intros i. rewrite Ep. destruct (Rlt_dec (d i) 0); lra.
  - rewrite matFunc_mul by apply He. rewrite <- (matFunc_zero n V). apply matFunc_ext. intros i. rewrite <- RtoC_minus, <- RtoC_mult. f_equal. rewrite Ep. destruct (Rlt_dec (d i) 0); ring.
  - assert ((fun i => powEigs 1 (d i)) = (fun i => powOut 1 (d i))) as ->. { apply functional_extensionality. intros i. rewrite Ep. unfold powEigs. destruct (Rlt_dec 1 0); [lra|reflexivity]. }
    apply (form_eig n V (fun i => RtoC (powOut 1 (d i)))). apply He.
Qed.
(** ** cis *)
Lemma ccis_add : forall x y, ccis x * ccis y = ccis (x + y).
Proof. intros. apply injective_projections; cbn; [rewrite cos_plus|rewrite sin_plus]; ring. Qed.
Lemma ccis_0 : ccis 0 = 1. Proof. apply injective_projections; cbn; [apply cos_0|apply sin_0]. Qed.
Lemma ccis_conj : forall x, Cconj (ccis x) = ccis (- x).
Proof. intros. apply injective_projections; cbn; [rewrite cos_neg|rewrite sin_neg]; reflexivity. Qed.
Lemma ccis_unit : forall x, ccis x * Cconj (ccis x) = 1.
Proof. intros. rewrite ccis_conj, ccis_add, Rplus_opp_r. apply ccis_0. Qed.
Lemma cis_unitary : forall n (V : mat n n) d, unitary V -> unitary (cisMat V d).
Proof.
  intros n V d H. unfold cisMat. split; rewrite matFunc_adj, matFunc_mul, <- (matFunc_one n V) by exact H; apply matFunc_ext; intros; [rewrite Cmult_comm|]; apply ccis_unit.
Qed.
Lemma cis_independent : forall n (A V W : mat n n) d e, eigensystem A V d -> eigensystem A W e -> cisMat V d = cisMat W e.
Proof.
  intros n A V W d e H1 H2. apply (spectral_unique _ _ _ (fun i => RtoC (d i)) (fun i => RtoC (e i))); [apply H1|apply H2| |].
  - rewrite <- (eig_formR _ _ _ _ H1), <- (eig_formR _ _ _ _ H2). reflexivity.
  - intros i j H. apply RtoC_inj in H. rewrite H. reflexivity.
Qed.
Lemma unit_eigs : forall n (U V : mat n n) z, unitary U -> eigensystemC U V z -> forall i, Cconj (z i) * z i = 1.
Proof.
  intros n U V z HU Hz i. pose proof (eig_form _ _ _ _ Hz) as E. destruct Hz as [HV _]. destruct HU as [HU _]. rewrite E, matFunc_adj, matFunc_mul in HU by exact HV.
  pose proof (form_eig n V (fun i => Cconj (z i) * z i) HV) as [_ F]. rewrite HU in F. destruct (col_nonzero n V i HV) as [k Hk]. specialize (F k i). rewrite mone_l in F.
  assert ((Cconj (z i) * z i - 1) * V k i = 0) as Z. { replace ((Cconj (z i) * z i - 1) * V k i) with (Cconj (z i) * z i * V k i - V k i) by ring. rewrite <- F. ring. }
  rewrite Cmult_comm in Z. apply Cmult_integral' in Z; [|exact Hk]. replace (Cconj (z i) * z i) with (Cconj (z i) * z i - 1 + 1) by ring. rewrite Z. ring.
Qed.
Lemma ccis_arg : forall z, Cconj z * z = 1 -> ccis (atan2 (Im z) (Re z)) = z.
Proof.
  intros z H. rewrite Cconj_sq in H. apply RtoC_inj in H. destruct z as [a b]. unfold Re, Im in *. cbn [fst snd] in *.
  destruct (atan2_spec b a) as [Ec Es]. { intros [-> ->]. lra. }
  unfold ccis. rewrite Ec, Es, H, sqrt_1. apply injective_projections; cbn; field.
Qed.
Lemma cis_cisInv : forall n (U V W : mat n n) z e, unitary U -> eigensystemC U V z -> eigensystem (cisInvMat V z) W e ->
  hermitian (cisInvMat V z) /\ cisMat W e = U.
Proof.
  intros n U V W z e HU Hz He. split; [apply matFunc_herm|]. rewrite (eig_form _ _ _ _ Hz).
  apply (spectral_unique _ _ _ (fun i => RtoC (e i)) (fun i => RtoC (atan2 (Im (z i)) (Re (z i))))); [apply He|apply Hz|symmetry; apply (eig_formR _ _ _ _ He)|].
  intros i j H. apply RtoC_inj in H. rewrite H. apply ccis_arg. apply (unit_eigs n U V z HU Hz).
Qed.
Lemma atan2_cis : forall x, (- PI < x <= PI)%R -> atan2 (sin x) (cos x) = x.
Proof.
  intros x Hx. unfold atan2. pose proof PI_RGT_0 as HP.
  destruct (Rlt_dec 0 (cos x)) as [Hc|Hc].
  - assert (- (PI/2) < x < PI/2)%R as Hr.
    { split; apply Rnot_le_lt; intros H.
      - assert (cos x <= 0)%R; [|lra]. rewrite <- cos_neg. apply cos_le_0; lra.
      - assert (cos x <= 0)%R; [|lra]. apply cos_le_0; lra. }
    change (sin x / cos x)%R with (tan x). apply atan_tan. lra.
  - destruct (Rlt_dec (cos x) 0) as [Hn|Hn].
    + assert (~ (- (PI/2) <= x <= PI/2)%R) as Hr. { intros H. assert (0 <= cos x)%R by (apply cos_ge_0; lra). lra. }
      destruct (Rle_dec 0 (sin x)) as [Hs|Hs].
      * assert (PI/2 < x)%R as Hb. { apply Rnot_le_lt. intros H. assert (x < - (PI/2))%R as Hl by lra. assert (sin x < 0)%R; [|lra]. apply sin_lt_0_var; lra. }
        assert (atan (sin x / cos x) = x - PI)%R as ->; [|ring]. transitivity (atan (tan (x - PI))); [|apply atan_tan; lra]. f_equal. unfold tan. rewrite sin_minus, cos_minus, sin_PI, cos_PI. field. lra.
      * assert (x < - (PI/2))%R as Hb. { apply Rnot_le_lt. intros H. assert (0 <= sin x)%R; [|lra]. apply sin_ge_0; lra. }
        assert (atan (sin x / cos x) = x + PI)%R as ->; [|ring]. transitivity (atan (tan (x + PI))); [|apply atan_tan; lra]. f_equal. unfold tan. rewrite sin_plus, cos_plus, sin_PI, cos_PI. field. lra.
    + assert (cos x = 0)%R as Hz by lra. pose proof (sin2_cos2 x) as S2. unfold Rsqr in S2. rewrite Hz in S2.
      assert (x = PI/2 \/ x = - (PI/2))%R as [E|E].
      { destruct (Rlt_dec 0 x) as [Hp|Hp].
        - left. destruct (Rtotal_order x (PI/2)) as [H|[H|H]]; [|exact H|].
          + assert (0 < cos x)%R by (apply cos_gt_0; lra). lra.
          + assert (cos x < 0)%R by (apply cos_lt_0; lra). lra.
        - right. destruct (Rtotal_order x (-(PI/2))) as [H|[H|H]]; [|exact H|].
          + assert (cos (-x) < 0)%R by (apply cos_lt_0; lra). rewrite cos_neg in *. lra.
          + assert (0 < cos x)%R by (apply cos_gt_0; lra). lra. }
      * rewrite E, sin_PI2. destruct (Rlt_dec 0 1); [reflexivity|lra].
      * rewrite E, sin_neg, sin_PI2. destruct (Rlt_dec 0 (-(1))); [lra|]. destruct (Rlt_dec (-(1)) 0); [reflexivity|lra].
Qed.
Lemma cisInv_cis : forall n (A V W : mat n n) d z, eigensystem A V d -> (forall i, (- PI < d i <= PI)%R) -> eigensystemC (cisMat V d) W z -> cisInvMat W z = A.
Proof.
  intros n A V W d z He Hd Hz. rewrite (eig_formR _ _ _ _ He).
  apply (spectral_unique _ _ _ z (fun i => ccis (d i))); [apply Hz|apply He|symmetry; apply (eig_form _ _ _ _ Hz)|].
  intros i j H. f_equal. rewrite H. unfold ccis, Re, Im. cbn [fst snd]. apply atan2_cis, Hd.
Qed.
