(** Derivatives of matrix functions along paths and the gradients. *)
From Coq Require Import Reals Lra FunctionalExtensionality Bool.
From Coq Require Fin.
From Coquelicot Require Import Coquelicot.
From Verif Require Import CMat Euler_Model MatFun_Model MatFun_Spec MatFun_Proofs MatFun_Proofs2.
Open Scope C_scope.

Definition cder (f : R -> C) (t : R) (d : C) : Prop := is_derive (fun s => Re (f s)) t (Re d) /\ is_derive (fun s => Im (f s)) t (Im d).
Lemma cder_const : forall c t, cder (fun _ => c) t 0.
Proof. intros c t. split; [exact (is_derive_const (K:=R_AbsRing) (V:=R_NormedModule) (Re c) t)|exact (is_derive_const (K:=R_AbsRing) (V:=R_NormedModule) (Im c) t)]. Qed.
Lemma cder_ext : forall f g t d, (forall s, f s = g s) -> cder f t d -> cder g t d.
Proof. intros f g t d H [H1 H2]. split; [apply (is_derive_ext (fun s => Re (f s)))|apply (is_derive_ext (fun s => Im (f s)))]; try assumption; intros; rewrite H; reflexivity. Qed.
Lemma cder_add : forall f g t d e, cder f t d -> cder g t e -> cder (fun s => f s + g s) t (d + e).
Proof. intros f g t d e [F1 F2] [G1 G2]. split; cbn; [apply (is_derive_plus (fun s => Re (f s)) (fun s => Re (g s)))|apply (is_derive_plus (fun s => Im (f s)) (fun s => Im (g s)))]; assumption. Qed.
Lemma dmulR : forall (f g : R -> R) t d e, is_derive f t d -> is_derive g t e -> is_derive (fun s => f s * g s)%R t (d * g t + f t * e)%R.
Proof.
  intros f g t d e Hf Hg. apply (is_derive_mult f g t d e Hf Hg). intros; apply Rmult_comm.
Qed.
Lemma cder_mul : forall f g t d e, cder f t d -> cder g t e -> cder (fun s => f s * g s) t (d * g t + f t * e).
Proof.
  intros f g t d e [F1 F2] [G1 G2]. split.
  - replace (Re (d * g t + f t * e)) with ((Re d * Re (g t) + Re (f t) * Re e) - (Im d * Im (g t) + Im (f t) * Im e))%R by (unfold Re, Im; cbn; ring).
    apply (is_derive_ext (fun s => Re (f s) * Re (g s) - Im (f s) * Im (g s))%R); [reflexivity|].
    apply (is_derive_minus (fun s => Re (f s) * Re (g s))%R (fun s => Im (f s) * Im (g s))%R); [apply (dmulR (fun s => Re (f s)) (fun s => Re (g s)))|apply (dmulR (fun s => Im (f s)) (fun s => Im (g s)))]; assumption.
  - replace (Im (d * g t + f t * e)) with ((Re d * Im (g t) + Re (f t) * Im e) + (Im d * Re (g t) + Im (f t) * Re e))%R by (unfold Re, Im; cbn; ring).
    apply (is_derive_ext (fun s => Re (f s) * Im (g s) + Im (f s) * Re (g s))%R); [reflexivity|].
    apply (is_derive_plus (fun s => Re (f s) * Im (g s))%R (fun s => Im (f s) * Re (g s))%R); [apply (dmulR (fun s => Re (f s)) (fun s => Im (g s)))|apply (dmulR (fun s => Im (f s)) (fun s => Re (g s)))]; assumption.
Qed.
Lemma cder_conj : forall f t d, cder f t d -> cder (fun s => Cconj (f s)) t (Cconj d).
Proof.
  intros f t d [H1 H2]. split; [exact H1|]. change (Im (Cconj d)) with (- Im d)%R. exact (is_derive_opp (fun s => Im (f s)) t (Im d) H2).
Qed.
Lemma cder_fsum : forall n (f : Fin.t n -> R -> C) t d, (forall i, cder (f i) t (d i)) -> cder (fun s => fsum (fun i => f i s)) t (fsum d).
Proof. induction n; intros f t d H; cbn; [apply cder_const|]. apply (cder_add (f Fin.F1)); [apply H|]. apply (IHn (fun i => f (Fin.FS i))). intros; apply H. Qed.
Lemma cder_unique : forall f t d e, cder f t d -> cder f t e -> d = e.
Proof. intros f t d e [H1 H2] [H3 H4]. apply is_derive_unique in H1, H2, H3, H4. apply injective_projections; [change (Re d = Re e)|change (Im d = Im e)]; congruence. Qed.
Lemma cder_R : forall f t d, is_derive f t d -> cder (fun s => RtoC (f s)) t (RtoC d).
Proof. intros f t d H. split; [exact H|]. exact (is_derive_const (K:=R_AbsRing) (V:=R_NormedModule) 0%R t). Qed.
Lemma cder_cis : forall f t d, is_derive f t d -> cder (fun s => ccis (f s)) t (Ci * ccis (f t) * RtoC d).
Proof.
  intros f t d H. split.
  - replace (Re (Ci * ccis (f t) * RtoC d)) with (scal d (- sin (f t)))%R by (change (scal d (- sin (f t)))%R with (d * (- sin (f t)))%R; cbn; ring).
    apply (is_derive_comp cos f); [apply is_derive_cos|exact H].
  - replace (Im (Ci * ccis (f t) * RtoC d)) with (scal d (cos (f t)))%R by (change (scal d (cos (f t)))%R with (d * (cos (f t)))%R; cbn; ring).
    apply (is_derive_comp sin f); [apply is_derive_sin|exact H].
Qed.
(** ** matrices *)
Lemma mderive_mul : forall n m k (P : R -> mat n m) (Q : R -> mat m k) t dP dQ, mderive P t dP -> mderive Q t dQ ->
  mderive (fun s => mmul (P s) (Q s)) t (madd (mmul dP (Q t)) (mmul (P t) dQ)).
Proof.
  intros n m k P Q t dP dQ HP HQ i j. unfold madd, mmul. rewrite <- fsum_add. apply (cder_fsum m (fun l s => P s i l * Q s l j)). intros l. apply (cder_mul (fun s => P s i l) (fun s => Q s l j)); [apply HP|apply HQ].
Qed.
Lemma mderive_adj : forall n m (P : R -> mat n m) t dP, mderive P t dP -> mderive (fun s => madj (P s)) t (madj dP).
Proof. intros n m P t dP H i j. apply (cder_conj (fun s => P s j i)). apply H. Qed.
Lemma mderive_unique : forall n m (P : R -> mat n m) t d e, mderive P t d -> mderive P t e -> d = e.
Proof. intros n m P t d e H1 H2. apply mat_ext. intros i j. apply (cder_unique (fun s => P s i j) t); [apply H1|apply H2]. Qed.
Lemma mderive_const : forall n m (A : mat n m) t, mderive (fun _ => A) t mzero.
Proof. intros n m A t i j. apply (cder_const (A i j)). Qed.
Lemma mderive_ext : forall n m (P Q : R -> mat n m) t d, (forall s, P s = Q s) -> mderive P t d -> mderive Q t d.
Proof. intros n m P Q t d E H i j. apply (cder_ext (fun s => P s i j)); [intros; rewrite E; reflexivity|apply H]. Qed.
Lemma mderive_diag : forall n (f : R -> Fin.t n -> C) t d, (forall i, cder (fun s => f s i) t (d i)) -> mderive (fun s => mdiag (f s)) t (mdiag d).
Proof. intros n f t d H i j. unfold mdiag. destruct (Fin.eq_dec i j); [apply H|apply cder_const]. Qed.
(** in the moving eigenbasis *)
Definition inBasis {n} (V X : mat n n) : mat n n := mmul (mmul V X) (madj V).
Definition Kform {n} (K : mat n n) (f df : Fin.t n -> C) : mat n n := fun i j => K i j * (f j - f i) + mdiag df i j.
Lemma matFunc_derive : forall n (V : R -> mat n n) t dV, (forall s, unitary (V s)) -> mderive V t dV ->
  forall (f : R -> Fin.t n -> C) df, (forall i, cder (fun s => f s i) t (df i)) ->
  mderive (fun s => matFunc (V s) (f s)) t (inBasis (V t) (Kform (mmul (madj (V t)) dV) (f t) df)).
Proof.
  intros n V t dV HU HV f df Hf.
  assert (mderive (fun s => matFunc (V s) (f s)) t (madd (mmul (madd (mmul dV (mdiag (f t))) (mmul (V t) (mdiag df))) (madj (V t))) (mmul (mmul (V t) (mdiag (f t))) (madj dV)))) as H.
  { unfold matFunc. apply (mderive_mul n n n (fun s => mmul (V s) (mdiag (f s))) (fun s => madj (V s))); [|apply mderive_adj; exact HV]. apply mderive_mul; [exact HV|]. apply mderive_diag. exact Hf. }
  set (K := mmul (madj (V t)) dV) in *.
  assert (madd (madj K) K = mzero) as HK.
  { assert (mderive (fun s => mmul (madj (V s)) (V s)) t (madd (madj K) K)) as H1.
    { unfold K. rewrite madj_mul, madj_adj. apply mderive_mul; [apply mderive_adj|]; exact HV. }
    apply (mderive_unique n n (fun _ => mone) t); [|apply mderive_const]. apply (mderive_ext n n (fun s => mmul (madj (V s)) (V s))); [intros s; apply HU|exact H1]. }
  assert (dV = mmul (V t) K) as EV. { unfold K. rewrite mmul_assoc. destruct (HU t) as [_ E]. rewrite E, mone_l. reflexivity. }
  assert (madj dV = mmul (madj K) (madj (V t))) as EVa by (rewrite EV, madj_mul; reflexivity).
  match goal with H : mderive _ _ ?a |- mderive _ _ ?b => replace b with a; [exact H|] end.
  rewrite EVa. rewrite EV. unfold inBasis.
  rewrite mmul_assoc. rewrite <- mmul_add_l. f_equal. rewrite <- !mmul_assoc. rewrite <- !mmul_add_r. f_equal.
  apply mat_ext. intros i j. unfold Kform. rewrite mdiag_r, mdiag_l. unfold madd at 1 2. pose proof (f_equal (fun M => M i j) HK) as E. unfold madd, mzero in E. cbv beta in E.
  replace (madj K i j) with (madj K i j + K i j - K i j) by ring. rewrite E. ring.
Qed.
Lemma tr_inBasis : forall n (V X Y : mat n n), unitary V -> mtr (mmul (inBasis V X) (inBasis V Y)) = mtr (mmul X Y).
Proof.
  intros n V X Y [H1 H2]. unfold inBasis. rewrite !mmul_assoc. rewrite <- (mmul_assoc _ _ _ _ _ (madj V) V), H1, mone_r. rewrite mtr_comm, !mmul_assoc, H1, mone_l. reflexivity.
Qed.
Lemma inBasis_back : forall n (V G : mat n n), unitary V -> inBasis V (mmul (mmul (madj V) G) V) = G.
Proof.
  intros n V G [H1 H2]. unfold inBasis. rewrite !mmul_assoc, H2, mone_l, <- mmul_assoc, H2, mone_r. reflexivity.
Qed.
(** divided differences *)
Lemma loewner : forall n (V G K : mat n n) (factor : Fin.t n -> Fin.t n -> C) f df g dg, unitary V ->
  (forall i j, i <> j -> factor i j * (f i - f j) = g i - g j) -> (forall i, factor i i * df i = dg i) ->
  mtr (mmul (gradFunc factor G V) (inBasis V (Kform K f df))) = mtr (mmul G (inBasis V (Kform K g dg))).
Proof.
  intros n V G K factor f df g dg HV H1 H2. rewrite <- (inBasis_back n V G HV) at 2. unfold gradFunc. cbv zeta. fold (inBasis V (fun i j => factor i j * mmul (mmul (madj V) G) V i j)).
  rewrite !tr_inBasis by exact HV. rewrite !mtr_mul. apply fsum_ext; intros i. apply fsum_ext; intros j. unfold Kform, mdiag.
  destruct (Fin.eq_dec j i) as [->|Hn].
  - rewrite <- H2. ring.
  - transitivity (mmul (mmul (madj V) G) V i j * (K j i * (factor i j * (f i - f j)))); [ring|]. rewrite H1 by congruence. ring.
Qed.
Lemma sqrt_grad_ok : forall n (V : R -> mat n n) t dV (d : R -> Fin.t n -> R) dd, (forall s, unitary (V s)) -> mderive V t dV ->
  (forall i, is_derive (fun s => d s i) t (dd i)) -> (forall s i, (0 < d s i)%R) ->
  forall dA dS, mderive (fun s => matFunc (V s) (fun i => RtoC (d s i))) t dA -> mderive (fun s => matFunc (V s) (fun i => RtoC (sqrt (d s i)))) t dS ->
  forall G, mtr (mmul (sqrtGrad G (V t) (d t)) dA) = mtr (mmul G dS).
Proof.
  intros n V t dV d dd HU HV Hd Hp dA dS HA HS G.
  pose proof (matFunc_derive n V t dV HU HV (fun s i => RtoC (d s i)) (fun i => RtoC (dd i)) (fun i => cder_R _ _ _ (Hd i))) as HA'.
  assert (forall i, is_derive (fun s => sqrt (d s i)) t (dd i * / (2 * sqrt (d t i)))%R) as Hs.
  { intros i. apply (is_derive_comp sqrt (fun s => d s i)); [|apply Hd]. apply is_derive_Reals. apply derivable_pt_lim_sqrt. apply Hp. }
  pose proof (matFunc_derive n V t dV HU HV (fun s i => RtoC (sqrt (d s i))) _ (fun i => cder_R _ _ _ (Hs i))) as HS'.
  rewrite (mderive_unique _ _ _ _ _ _ HA HA'), (mderive_unique _ _ _ _ _ _ HS HS'). unfold sqrtGrad. apply loewner; [apply HU| |].
  - intros i j _. pose proof (sqrt_lt_R0 _ (Hp t i)). pose proof (sqrt_lt_R0 _ (Hp t j)).
    rewrite <- !RtoC_minus, <- RtoC_inv, <- RtoC_mult by lra. f_equal. 
    rewrite <- (sqrt_sqrt (d t i)) at 2 by (left; apply Hp). rewrite <- (sqrt_sqrt (d t j)) at 2 by (left; apply Hp). field. lra.
  - intros i. pose proof (sqrt_lt_R0 _ (Hp t i)). rewrite <- RtoC_inv, <- RtoC_mult by lra. f_equal. field. lra.
Qed.
Lemma matFunc_inBasis : forall n (V : mat n n) f, matFunc V f = inBasis V (mdiag f).
Proof. reflexivity. Qed.
Lemma inBasis_mul : forall n (V X Y : mat n n), unitary V -> mmul (inBasis V X) (inBasis V Y) = inBasis V (mmul X Y).
Proof. intros n V X Y [H1 H2]. unfold inBasis. rewrite !mmul_assoc. rewrite <- (mmul_assoc _ _ _ _ _ (madj V) V), H1, mone_r. reflexivity. Qed.
Lemma cis_grad_ok : forall n (V : R -> mat n n) t dV (d : R -> Fin.t n -> R) dd, (forall s, unitary (V s)) -> mderive V t dV ->
  (forall i, is_derive (fun s => d s i) t (dd i)) ->
  (forall i j, d t i = d t j \/ (1 / 10^13 <= Rabs (d t j - d t i))%R) ->
  forall dA dU, mderive (fun s => matFunc (V s) (fun i => RtoC (d s i))) t dA -> mderive (fun s => cisMat (V s) (d s)) t dU ->
  forall G, mtr (mmul (cisGrad G (V t) (d t)) dA) = mtr (mmul G (mmul dU (madj (cisMat (V t) (d t))))).
Proof.
  intros n V t dV d dd HU HV Hd Hgap dA dU HA HUd G.
  pose proof (matFunc_derive n V t dV HU HV (fun s i => RtoC (d s i)) (fun i => RtoC (dd i)) (fun i => cder_R _ _ _ (Hd i))) as HA'.
  pose proof (matFunc_derive n V t dV HU HV (fun s i => ccis (d s i)) _ (fun i => cder_cis _ _ _ (Hd i))) as HU'.
  rewrite (mderive_unique _ _ _ _ _ _ HA HA'), (mderive_unique _ _ _ _ _ _ HUd HU'). clear HA HA' HUd HU'.
  unfold cisMat. rewrite matFunc_adj, matFunc_inBasis, inBasis_mul by apply HU. unfold cisGrad.
  rewrite <- (inBasis_back n (V t) G (HU t)) at 2. unfold gradFunc. cbv zeta.
  fold (inBasis (V t) (fun i j => cisFactor (d t i) (d t j) * mmul (mmul (madj (V t)) G) (V t) i j)).
  rewrite !tr_inBasis by apply HU. rewrite mdiag_r, !mtr_mul. apply fsum_ext; intros i. apply fsum_ext; intros j. unfold Kform, mdiag. set (Gij := mmul (mmul (madj (V t)) G) (V t) i j). set (Kji := mmul (madj (V t)) dV j i).
  unfold cisFactor. cbv zeta. destruct (Fin.eq_dec j i) as [->|Hn].
  - rewrite Rminus_eq_0, Rabs_R0. destruct (Rlt_dec 0 (1/10^13)) as [_|Hbad].
    + replace ((- (1/2) * 0)%R, 1%R) with Ci by (apply injective_projections; cbn; ring).
      transitivity (Ci * Gij * RtoC (dd i) * (ccis (d t i) * Cconj (ccis (d t i)))); [rewrite ccis_unit; ring|ring].
    + exfalso. apply Hbad. apply Rdiv_lt_0_compat; [lra|apply pow_lt; lra].
  - destruct (Hgap i j) as [E|Hg].
    + rewrite E. ring.
    + destruct (Rlt_dec _ _) as [Hb|_]; [lra|]. assert (d t j - d t i <> 0)%R as Hx. { intros E. rewrite E, Rabs_R0 in Hg. assert (0 < 1/10^13)%R by (apply Rdiv_lt_0_compat; [lra|apply pow_lt; lra]). lra. }
      assert (RtoC (d t j - d t i) <> 0) as Hx' by (intros E; apply RtoC_inj in E; contradiction).
      rewrite !Cplus_0_r. rewrite RtoC_minus in *.
      transitivity (Gij * Kji * (1 - ccis (d t j - d t i))); [field; exact Hx'|].
      unfold Rminus. rewrite <- ccis_add, ccis_conj.
      transitivity (Gij * Kji * (ccis (d t i) * ccis (- d t i) - ccis (d t j) * ccis (- d t i))); [|ring]. rewrite (ccis_add (d t i) (- d t i)), Rplus_opp_r, ccis_0. reflexivity.
Qed.
(** ** orthoMatrix *)
Lemma ortho_ok : forall n m (Cq OC : mat m n) (Linv : mat n n), choleskyInverse (mmul (madj Cq) OC) Linv ->
  let U := orthoMatrix Linv in
  mmul (mmul (madj U) (mmul (madj Cq) OC)) U = mone /\ mmul (madj (mmul Cq U)) (mmul OC U) = mone /\ exists W, mmul U W = mone /\ mmul W U = mone.
Proof.
  intros n m Cq OC Linv (L & EA & H1 & H2). cbv zeta. unfold orthoMatrix. rewrite madj_adj.
  assert (mmul (mmul Linv (mmul (madj Cq) OC)) (madj Linv) = mone) as E.
  { rewrite EA, mmul_assoc, H1, mone_l, <- madj_mul, H1. apply madj_one. }
  split; [exact E|]. split.
  - rewrite madj_mul, madj_adj. rewrite <- E, !mmul_assoc. reflexivity.
  - exists (madj L). rewrite <- !madj_mul, H1, H2. split; apply madj_one.
Qed.
Lemma sym_ok : forall n (A : mat n n), hermitian (daggerSymmetrize A) /\ (hermitian A -> daggerSymmetrize A = A) /\
  forall B, hermitian B -> mtr (mmul (daggerSymmetrize A) B) = RtoC (Re (mtr (mmul A B))).
Proof.
  intros n A. unfold daggerSymmetrize, hermitian. split; [|split].
  - rewrite madj_scal, madj_add, madj_adj, Cconj_R, madd_comm. reflexivity.
  - intros H. rewrite H. apply mat_ext. intros. unfold mscal, madd. apply injective_projections; cbn; field.
  - intros B HB. rewrite mmul_scal_l, mmul_add_l, mtr_scal, mtr_add. rewrite <- HB at 1. rewrite <- madj_mul, mtr_adj, (mtr_comm _ _ B A). destruct (mtr (mmul A B)) as [a b]. apply injective_projections; cbn; field.
Qed.
