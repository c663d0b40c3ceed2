From Coq Require Import ZArith Reals List Bool Lia Lra Psatz.
From Coquelicot Require Import Coquelicot.
From Verif Require Import Base Gauss LDA_Model LDA_Proofs LDA_Proofs2 GGA_Model GGA_Proofs GGA_Proofs3 WPBE_Model WPBE_Spec.
Open Scope R_scope.

Lemma cpow_is x p : 0 < x -> cpow x p = Rpower x p.
Proof. intros H. unfold cpow. destruct (Req_EM_T x 0); [lra|reflexivity]. Qed.
Lemma LB94_val c k n s : 0 < c -> nCutoff <= n * c -> 0 <= s -> LB94 c k n s = k * published (n * c) (c * sqrt s).
Proof.
  intros Hc H Hs. pose proof cutoff_pos. unfold LB94, published. destruct (Rlt_dec (n * c) nCutoff); [lra|]. cbv zeta. rewrite cpow_is by lra.
  replace (Rpower (n * c) (1 / 3) * (n * c)) with (Rpower (n * c) (4 / 3)). 2: { replace (4 / 3) with (1 / 3 + 1) by lra. rewrite Rpower_plus, Rpower_1 by lra. reflexivity. }
  replace (- (0.05)) with (-0.05) by lra. unfold Rdiv. ring.
Qed.
Lemma published_sign n g : 0 < n -> 0 <= g -> published n g <= 0 /\ published n 0 = 0.
Proof.
  intros Hn Hg. unfold published. cbv zeta. assert (P : 0 < Rpower n (4 / 3)) by apply exp_pos. assert (Q : 0 < Rpower n (1 / 3)) by apply exp_pos. split.
  - assert (X : 0 <= g / Rpower n (4 / 3)) by (apply Rmult_le_pos; [exact Hg|left; apply Rinv_0_lt_compat; exact P]). set (x := g / Rpower n (4 / 3)) in *. clearbody x.
    pose proof (arcsinh_pos x X) as AP. assert (D : 0 < 1 + 3 * 0.05 * x * arcsinh x) by (assert (0 <= x * arcsinh x) by (apply Rmult_le_pos; lra); lra).
    assert (0 <= 0.05 * Rpower n (1 / 3) * x ^ 2 / (1 + 3 * 0.05 * x * arcsinh x)). { apply Rmult_le_pos; [|left; apply Rinv_0_lt_compat; exact D]. assert (0 <= x ^ 2) by nra. apply Rmult_le_pos; lra. }
    unfold Rdiv in *. lra.
  - unfold Rdiv. rewrite Rmult_0_l. ring.
Qed.
Lemma LB94_sign c k n s : 0 < c -> 0 <= k -> LB94 c k n s <= 0 /\ LB94 c k n 0 = 0.
Proof.
  intros Hc Hk. assert (E : forall s, 0 <= s -> LB94 c k n s <= 0 /\ LB94 c k n 0 = 0).
  { intros z Hz. destruct (Rlt_dec (n * c) nCutoff) as [L|G]; [unfold LB94; destruct (Rlt_dec (n * c) nCutoff); [lra|tauto]|]. pose proof cutoff_pos.
    rewrite !LB94_val by lra. rewrite sqrt_0, Rmult_0_r. destruct (published_sign (n * c) (c * sqrt z)) as [A B]; [lra|pose proof (sqrt_pos z); nra|]. rewrite B. split; [nra|ring]. }
  destruct (Rle_dec 0 s) as [H|H]; [apply E; exact H|]. destruct (E 0 ltac:(lra)) as [_ Z]. split; [|exact Z].
  replace (LB94 c k n s) with (LB94 c k n 0); [lra|]. unfold LB94. rewrite (sqrt_neg_0 s) by lra. rewrite sqrt_0. reflexivity.
Qed.
Lemma LB94_equal k n s : 0 <= s -> LB94 2 k (n / 2) (s / 4) = LB94 1 k n s.
Proof.
  intros H. unfold LB94. replace (n / 2 * 2) with n by field. rewrite Rmult_1_r. replace (2 * sqrt (s / 4)) with (1 * sqrt s); [reflexivity|].
  replace (s / 4) with (s * / 4) by reflexivity. rewrite sqrt_mult by lra. replace (/ 4) with (/ 2 * / 2) by lra. rewrite (sqrt_square (/ 2)) by lra. field.
Qed.
Lemma arcsinh_le x : 0 < x -> arcsinh x <= x.
Proof.
  intros H. destruct (MVT_cor2 arcsinh (fun x => / sqrt (x ^ 2 + 1)) 0 x H) as (c&E&Hc). { intros c _. apply derivable_pt_lim_arcsinh. }
  rewrite arcsinh_0 in E. assert (Q : sqrt 1 <= sqrt (c ^ 2 + 1)) by (apply sqrt_le_1; nra). rewrite sqrt_1 in Q. set (w := sqrt (c ^ 2 + 1)) in *. clearbody w. assert (/ w <= / 1) by (apply Rinv_le_contravar; lra). rewrite Rinv_1 in H0. nra.
Qed.
Lemma LB94_spin : LB94 2 1 (1 / 2) (1 / 4) <> published (1 / 2) (sqrt (1 / 4)).
Proof.
  rewrite LB94_val by (try lra; pose proof (big 1 ltac:(lra)); lra). replace (sqrt (1 / 4)) with (1 / 2). 2: { replace (1 / 4) with (1 / 2 * (1 / 2)) by lra. rewrite sqrt_square; lra. }
  replace (1 / 2 * 2) with 1 by lra. replace (2 * (1 / 2)) with 1 by lra. unfold published. cbv zeta.
  assert (O : forall p, Rpower 1 p = 1) by (intros p; unfold Rpower; rewrite ln_1, Rmult_0_r; apply exp_0). rewrite !O.
  set (k := Rpower 2 (1 / 3)). assert (K0 : 0 < k) by apply exp_pos. assert (K3 : k * k * k = 2). { unfold k. rewrite <- !Rpower_plus. replace (1 / 3 + 1 / 3 + 1 / 3) with 1 by lra. apply Rpower_1. lra. }
  assert (KL : 1.25 < k) by (apply Rnot_le_lt; intros X; assert (k * k <= 1.5625) by nra; nra). assert (KU : k < 1.27) by (apply Rnot_le_lt; intros X; assert (1.6129 <= k * k) by nra; nra).
  assert (P1 : Rpower (1 / 2) (1 / 3) = / k). { unfold k. rewrite <- Rpower_Ropp. unfold Rpower. f_equal. replace (1 / 2) with (/ 2) by lra. rewrite ln_Rinv by lra. ring. }
  assert (P4 : Rpower (1 / 2) (4 / 3) = / (2 * k)). { replace (4 / 3) with (1 / 3 + 1) by lra. rewrite Rpower_plus, P1, Rpower_1 by lra. field. lra. }
  rewrite P1, P4. replace (1 / 2 / / (2 * k)) with k by (field; lra). replace (1 / 1) with 1 by field.
  assert (A1 : 0 <= arcsinh 1) by (apply arcsinh_pos; lra). assert (A2 : arcsinh k <= k) by (apply arcsinh_le; lra). assert (A3 : 0 <= arcsinh k) by (apply arcsinh_pos; lra).
  set (a := arcsinh 1) in *. set (b := arcsinh k) in *. clearbody a b. clear O P1 P4. clearbody k. intros E.
  assert (D1 : 0 < 1 + 3 * 0.05 * 1 * a) by lra. assert (KB : 0 <= k * b) by nra. assert (D2 : 0 < 1 + 3 * 0.05 * k * b) by lra.
  assert (Z : 0.05 = / 20) by lra. rewrite Z in E, D1, D2. clear Z. replace (-0.05) with (- / 20) in E by lra.
  assert (F : 1 + 3 * / 20 * k * b = k * (1 + 3 * / 20 * 1 * a)).
  { set (u := 1 + 3 * / 20 * 1 * a) in *. set (v := 1 + 3 * / 20 * k * b) in *. clearbody u v. apply (f_equal (fun z => z * (-20) * u * v)) in E. cbv beta in E.
    transitivity (1 * (- / 20 * 1 * 1 ^ 2 / u) * -20 * u * v); [field; lra|]. rewrite E. field. split; lra. }
  assert (k * b <= k * k) by nra. assert (0 <= k * a) by nra. assert (k * k < 1.27 * k) by nra. lra.
Qed.
(** the potential vanishes beyond the radius where an exponentially decaying density reaches the cutoff *)
Lemma LB94_tail N al : 0 < N -> 0 < al -> exists r0, forall r s, r0 < r -> LB94 1 1 (N * exp (- (al * r))) s = 0.
Proof.
  intros HN Ha. pose proof cutoff_pos as C. exists (ln (N / nCutoff) / al). intros r s Hr. unfold LB94. destruct (Rlt_dec (N * exp (- (al * r)) * 1) nCutoff) as [L|G]; [reflexivity|exfalso]. apply G.
  assert (X : ln (N / nCutoff) < al * r). { apply (Rmult_lt_compat_l al) in Hr; [|exact Ha]. replace (al * (ln (N / nCutoff) / al)) with (ln (N / nCutoff)) in Hr by (field; lra). exact Hr. }
  apply exp_increasing in X. rewrite exp_ln in X by (apply Rdiv_lt_0_compat; lra). rewrite exp_Ropp, Rmult_1_r. pose proof (exp_pos (al * r)) as E.
  apply (Rmult_lt_reg_r (exp (al * r))); [exact E|]. replace (N * / exp (al * r) * exp (al * r)) with N by (field; lra). apply (Rmult_lt_compat_l nCutoff) in X; [|exact C]. replace (nCutoff * (N / nCutoff)) with N in X by (field; lra). exact X.
Qed.
(** the energy of GLLB-sc is that of PBEsol and the potential is twice the energy per particle *)
Lemma GLLBsc_val c k n s : 0 < n -> fst (GLLBsc c k n s) = i_E (calcX X_PBEsol c k n s) /\ n * snd (GLLBsc c k n s) = 2 * i_E (calcX X_PBEsol c k n s).
Proof.
  intros H. unfold GLLBsc, calcX. destruct (Rlt_dec (n * c) nCutoff); cbn [fst snd i_E]; [split; ring|]. cbv zeta.
  destruct (GGA_evalX X_PBEsol _ _) as [e er es]. cbn [x_e fst snd i_E]. split; ring.
Qed.
Lemma LB94_spin_ex : exists n s, nCutoff <= n /\ 0 <= s /\ LB94 2 1 n s <> published n (sqrt s).
Proof. exists (1/2), (1/4). split; [left; apply big; lra|]. split; [lra|exact LB94_spin]. Qed.
Lemma LB94_asymptote : exists N al, 0 < N /\ 0 < al /\ ~ is_lim (fun r => r * LB94 1 1 (N * exp (- (al * r))) ((al * (N * exp (- (al * r)))) ^ 2)) p_infty (-1).
Proof.
  exists 1, 1. split; [lra|]. split; [lra|]. intros H. apply is_lim_spec in H. destruct (H (mkposreal (1/2) ltac:(lra))) as [M HM]. destruct (LB94_tail 1 1 ltac:(lra) ltac:(lra)) as [r0 Z].
  set (r := Rmax M r0 + 1). assert (M < r) by (unfold r; pose proof (Rmax_l M r0); lra). assert (R0 : r0 < r) by (unfold r; pose proof (Rmax_r M r0); lra).
  specialize (HM r H0). rewrite (Z r _ R0) in HM. cbn in HM. rewrite Rmult_0_r in HM. apply Rabs_def2 in HM. lra.
Qed.
