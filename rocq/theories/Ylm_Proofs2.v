(** Gradients of spherical harmonics. *)
From Coq Require Import ZArith QArith Qreals Reals List Bool Lra Lia Qabs.
From Coquelicot Require Import Coquelicot.
From Verif Require Import Base Vec3_Model Ylm_Model Ylm_Spec Poly_Proofs Ylm_Proofs.
Import ListNotations.
Import Vec3_Model.
Open Scope R_scope.

(** rational approximation of square roots *)
Definition bigP : positive := (10 ^ 20)%positive.
Definition sqrtQ (r : Q) : Q := Qmake (Z.sqrt (Qnum r * Zpos (Qden r) * (Zpos bigP * Zpos bigP))) (Qden r * bigP).
Lemma sqrtQ_ok : forall r, (0 <= Qnum r)%Z -> Rabs (sqrt (Q2R r) - Q2R (sqrtQ r)) <= 1 / 10 ^ 20.
Proof.
  intros [n d] Hn. cbn [Qnum] in Hn. unfold sqrtQ, Q2R. cbn [Qnum Qden]. set (N := (n * Z.pos d * (Z.pos bigP * Z.pos bigP))%Z). assert (0 <= N)%Z as HN by (unfold N; apply Z.mul_nonneg_nonneg; [apply Z.mul_nonneg_nonneg; [exact Hn|lia]|lia]).
  destruct (Z.sqrt_spec N HN) as [S1 S2]. pose proof (Z.sqrt_nonneg N) as S0. set (k := Z.sqrt N) in *. clearbody k.
  rewrite Pos2Z.inj_mul, mult_IZR. assert (IZR (Z.pos bigP) = 10 ^ 20) as Eb by (change (Z.pos bigP) with 100000000000000000000%Z; ring). rewrite Eb.
  assert (1 <= IZR (Z.pos d)) as Hd by (apply IZR_le; lia). assert (0 < 10 ^ 20) as Hb by (apply pow_lt; lra).
  set (D := IZR (Z.pos d)) in *. set (B := 10 ^ 20) in *. set (s := sqrt (IZR n * / D)).
  assert (0 <= IZR n * / D) as Hq by (apply Rmult_le_pos; [apply IZR_le; exact Hn|left; apply Rinv_0_lt_compat; lra]).
  assert (0 <= s) as Hs by apply sqrt_pos. assert (s * s = IZR n * / D) as Ess by (apply sqrt_sqrt; exact Hq).
  assert (IZR N = (s * (D * B)) * (s * (D * B))) as EN.
  { unfold N. rewrite !mult_IZR. fold D. rewrite Eb. fold B. replace (s * (D * B) * (s * (D * B))) with (s * s * (D * D * (B * B))) by ring. rewrite Ess. field. lra. }
  apply IZR_le in S1. apply IZR_lt in S2. rewrite mult_IZR in S1, S2. rewrite !succ_IZR in S2. rewrite EN in S1, S2. apply IZR_le in S0.
  assert (0 < D * B) as Hdb by (apply Rmult_lt_0_compat; lra). assert (0 <= s * (D * B)) as Hsd by (apply Rmult_le_pos; lra).
  assert (IZR k <= s * (D * B)) as L1 by nra. assert (s * (D * B) < IZR k + 1) as L2 by nra.
  replace (s - IZR k * / (D * B)) with ((s * (D * B) - IZR k) * / (D * B)) by (field; split; lra).
  rewrite Rabs_right by (apply Rle_ge; apply Rmult_le_pos; [lra|left; apply Rinv_0_lt_compat; exact Hdb]).
  apply Rle_trans with (1 * / (D * B)); [apply Rmult_le_compat_r; [left; apply Rinv_0_lt_compat; exact Hdb|lra]|]. unfold Rdiv. apply Rmult_le_compat_l; [lra|]. apply Rinv_le_contravar; [exact Hb|]. nra.
Qed.
Definition rootProd (rs : list Q) : Q := fold_right Qmult 1%Q rs.
Lemma roots_ok : forall rs, (forall r, In r rs -> (0 <= r)%Q) -> fold_right (fun r p => sqrt (Q2R r) * p) 1 rs = sqrt (Q2R (rootProd rs)) /\ (0 <= rootProd rs)%Q.
Proof.
  induction rs as [|r rs IH]; intros H; cbn [fold_right rootProd]; [rewrite RMicromega.Q2R_1, sqrt_1; split; [reflexivity|discriminate]|]. fold (rootProd rs).
  destruct IH as [E P]; [intros x Hx; apply H; right; exact Hx|]. assert (0 <= r)%Q as Hr by (apply H; left; reflexivity). rewrite E, Q2R_mult. split; [|apply Qmult_le_0_compat; assumption].
  symmetry. apply sqrt_mult; rewrite <- RMicromega.Q2R_0; apply Qle_Rle; assumption.
Qed.
Definition primeTermE (t : term) : expr := EMul (EC (t_factor t * sqrtQ (rootProd (t_roots t)))) (yE (t_l t) (t_m t)).
Definition termOk (t : term) : bool :=
  forallb (fun r => Qle_bool 0 r) (t_roots t) && vars 3 (yE (t_l t) (t_m t)) && Qle_bool (pabs 3 (norm 3 (yE (t_l t) (t_m t)))) 1000 && Qle_bool (Qabs (t_factor t)) 1.
Lemma term_close t q : termOk t = true -> isUnit q -> Rabs (termVal q t - ev (primeTermE t) (vecEnv q)) <= 1 / 10 ^ 17.
Proof.
  unfold termOk. rewrite !andb_true_iff, !Qle_bool_iff, forallb_forall. intros [[[Hr Hv] Hb] Hf] U. unfold termVal, primeTermE. cbn [ev]. rewrite Q2R_mult. unfold Ylm. fold (yE (t_l t) (t_m t)). set (Y := ev (yE (t_l t) (t_m t)) (vecEnv q)).
  destruct (roots_ok (t_roots t)) as [E P]; [intros r Hi; apply Qle_bool_iff; apply Hr; exact Hi|]. rewrite E. assert (0 <= Qnum (rootProd (t_roots t)))%Z as Hn by (unfold Qle in P; cbn in P; lia).
  pose proof (sqrtQ_ok _ Hn) as S. set (s := sqrt (Q2R (rootProd (t_roots t)))) in *. set (s' := Q2R (sqrtQ (rootProd (t_roots t)))) in *. set (f := Q2R (t_factor t)).
  assert (Rabs Y <= 1000) as HY. { unfold Y. rewrite <- (norm_ok 3) by exact Hv. eapply Rle_trans; [apply pabs_ok; apply unit_env; exact U|]. apply Qle_Rle in Hb. eapply Rle_trans; [exact Hb|]. unfold Q2R. cbn. lra. }
  assert (Rabs f <= 1) as HF. { unfold f. rewrite <- Q2R_abs. apply Qle_Rle in Hf. rewrite RMicromega.Q2R_1 in Hf. exact Hf. }
  replace (f * s * Y - f * s' * Y) with (f * (s - s') * Y) by ring. rewrite !Rabs_mult. replace (1 / 10 ^ 17) with (1 * (1 / 10 ^ 20) * 1000) by field.
  apply Rmult_le_compat; [apply Rmult_le_pos; apply Rabs_pos|apply Rabs_pos| |exact HY]. apply Rmult_le_compat; [apply Rabs_pos|apply Rabs_pos|exact HF|exact S].
Qed.
Definition primeE (ts : list term) : expr := fold_left (fun e t => EAdd e (primeTermE t)) ts (EC 0).
Lemma prime_close ts q : forallb termOk ts = true -> isUnit q -> Rabs (sumTerms q ts - ev (primeE ts) (vecEnv q)) <= INR (length ts) * (1 / 10 ^ 17).
Proof.
  intros H U. unfold sumTerms, primeE. assert (forall s e, Rabs (fold_left (fun s t => s + termVal q t) ts s - ev (fold_left (fun e t => EAdd e (primeTermE t)) ts e) (vecEnv q)) <= Rabs (s - ev e (vecEnv q)) + INR (length ts) * (1 / 10 ^ 17)) as G.
  { induction ts as [|t ts IH]; intros s e; [cbn [fold_left length INR]; lra|]. cbn [forallb] in H. apply andb_true_iff in H. destruct H as [Ht Hs]. cbn [fold_left]. eapply Rle_trans; [apply IH; exact Hs|]. cbn [ev length]. rewrite S_INR.
    pose proof (term_close t q Ht U) as C. replace (s + termVal q t - (ev e (vecEnv q) + ev (primeTermE t) (vecEnv q))) with ((s - ev e (vecEnv q)) + (termVal q t - ev (primeTermE t) (vecEnv q))) by ring.
    pose proof (Rabs_triang (s - ev e (vecEnv q)) (termVal q t - ev (primeTermE t) (vecEnv q))). lra. }
  eapply Rle_trans; [apply G|]. cbn [ev]. rewrite RMicromega.Q2R_0, Rminus_0_r, Rabs_R0. lra.
Qed.
Definition primeOk (l m : Z) (v : nat) (ts : list term) : bool := forallb termOk ts && (length ts <=? 2)%nat && close 3 (19 # 1000000000000000)%Q (primeE ts) (dE v (yE l m)).
Lemma prime_check : forallb (fun p => primeOk (fst p) (snd p) 0 (primeX (fst p) (snd p)) && primeOk (fst p) (snd p) 1 (primeY (fst p) (snd p)) && primeOk (fst p) (snd p) 2 (primeZ (fst p) (snd p))) allLM = true.
Proof. vm_cast_no_check (eq_refl true). Qed.
Lemma prime_deriv l m v ts q (Q : R -> vec R) : supported l m -> primeOk l m v ts = true -> isUnit q -> (forall s i, (i < 3)%nat -> vecEnv (Q s) i = upd (vecEnv q) v s i) ->
  exists d, is_derive (fun s => Ylm l m (Q s)) (vecEnv q v) d /\ Rabs (sumTerms q ts - d) <= 2 / 10 ^ 14.
Proof.
  intros S H U HQ. unfold primeOk in H. rewrite !andb_true_iff in H. destruct H as [[Ht Hl] Hc]. apply Nat.leb_le in Hl. exists (ev (dE v (yE l m)) (vecEnv q)). split.
  - apply (is_derive_ext (fun s => ev (yE l m) (upd (vecEnv q) v s))).
    + intros s. unfold Ylm. fold (yE l m). apply (vars_lt 3); [apply ylm_vars; exact S|]. intros i Hi. symmetry. apply HQ. exact Hi.
    + rewrite (ev_ext (dE v (yE l m)) (vecEnv q) (upd (vecEnv q) v (vecEnv q v))); [apply dE_ok|]. intros i. symmetry. apply upd_self.
  - pose proof (prime_close ts q Ht U) as A. pose proof (close_ok 3 _ _ _ (vecEnv q) Hc (unit_env q U)) as B. set (w := ev (primeE ts) (vecEnv q)) in *. set (d := ev (dE v (yE l m)) (vecEnv q)) in *.
    replace (sumTerms q ts - d) with ((sumTerms q ts - w) + (w - d)) by ring. eapply Rle_trans; [apply Rabs_triang|].
    assert (INR (length ts) <= 2) as L by (apply le_INR in Hl; change (INR 2) with (1 + 1) in Hl; lra). assert (Q2R (19 # 1000000000000000) = 19 / 10 ^ 15) as E by (unfold Q2R; cbn [Qnum Qden]; field). rewrite E in B.
    assert (INR (length ts) * (1 / 10 ^ 17) <= 2 * (1 / 10 ^ 17)) by (apply Rmult_le_compat_r; [|exact L]; apply Rmult_le_pos; [lra|left; apply Rinv_0_lt_compat; apply pow_lt; lra]).
    replace (2 / 10 ^ 14) with (2 * (1 / 10 ^ 17) + 19 / 10 ^ 15 + 98 / 10 ^ 17) by field. assert (0 < 98 / 10 ^ 17) by (apply Rmult_lt_0_compat; [lra|apply Rinv_0_lt_compat; apply pow_lt; lra]). lra.
Qed.
Lemma prime_all l m : supported l m -> primeOk l m 0 (primeX l m) = true /\ primeOk l m 1 (primeY l m) = true /\ primeOk l m 2 (primeZ l m) = true.
Proof. intros S. pose proof (all_lm (fun l m => primeOk l m 0 (primeX l m) && primeOk l m 1 (primeY l m) && primeOk l m 2 (primeZ l m)) prime_check l m S) as H. cbv beta in H. rewrite !andb_true_iff in H. tauto. Qed.
Lemma ylm_gradient : forall l m x y z, supported l m -> isUnit (V x y z) -> exists dx dy dz,
  is_derive (fun t => Ylm l m (V t y z)) x dx /\ is_derive (fun t => Ylm l m (V x t z)) y dy /\ is_derive (fun t => Ylm l m (V x y t)) z dz /\
  Rabs (c0 (YlmPrime l m (V x y z)) - dx) <= 2 / 10 ^ 14 /\ Rabs (c1 (YlmPrime l m (V x y z)) - dy) <= 2 / 10 ^ 14 /\ Rabs (c2 (YlmPrime l m (V x y z)) - dz) <= 2 / 10 ^ 14.
Proof.
  intros l m x y z S U. destruct (prime_all l m S) as (HX & HY & HZ).
  destruct (prime_deriv l m 0 _ (V x y z) (fun t => V t y z) S HX U) as (dx & DX & BX); [intros s [|[|[|i]]] Hi; try reflexivity; lia|].
  destruct (prime_deriv l m 1 _ (V x y z) (fun t => V x t z) S HY U) as (dy & DY & BY); [intros s [|[|[|i]]] Hi; try reflexivity; lia|].
  destruct (prime_deriv l m 2 _ (V x y z) (fun t => V x y t) S HZ U) as (dz & DZ & BZ); [intros s [|[|[|i]]] Hi; try reflexivity; lia|].
  exists dx, dy, dz. split; [exact DX|]. split; [exact DY|]. split; [exact DZ|]. split; [exact BX|]. split; [exact BY|exact BZ].
Qed.
