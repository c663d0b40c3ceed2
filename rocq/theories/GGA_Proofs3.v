From Coq Require Import ZArith Reals List Bool Lia Lra Psatz.
From Coquelicot Require Import Coquelicot.
From Verif Require Import Base Cavity_Proofs2 LDA_Model LDA_Proofs LDA_Proofs2 GGA_Model GGA_Proofs GGA_Proofs2.
Import ListNotations.
Open Scope R_scope.

Definition gammaPBE : R := (1 - ln 2) / (PI * PI).
Lemma gamma_pos : 0 < gammaPBE.
Proof.
  unfold gammaPBE. pose proof PI_RGT_0. assert (L : ln 2 < 1). { rewrite <- (ln_exp 1). apply ln_increasing; [lra|]. pose proof (exp_ineq1 1 ltac:(lra)). lra. }
  apply Rdiv_lt_0_compat; [lra|nra].
Qed.
Definition cder4 (o : cout) (a b c d : R) : R := c_rs o * a + c_zeta o * b + c_g o * c + c_t2 o * d.

Section Curve.
Context (rs z g u : R -> R) (t0 rs' z' g' u' : R) (Dr : is_derive rs t0 rs') (Dz : is_derive z t0 z') (Dg : is_derive g t0 g') (Du : is_derive u t0 u')
  (Pr : 0 < rs t0) (Pz : -1 < z t0 < 1) (Pg : 0 < g t0) (Pu : 0 <= u t0).
Lemma g3_curve : is_derive (fun t : R => g t * (g t * g t)) t0 (3 * (g t0 * g t0) * g').
Proof using Dg. eapply dis; [apply (dmul g (fun t => g t * g t)); [exact Dg|apply dmul; exact Dg]|]. ring. Qed.
Lemma g3_pos : 0 < g t0 * (g t0 * g t0).
Proof using Pg. repeat apply Rmult_lt_0_compat; exact Pg. Qed.
Lemma ec_curve v : v = C_PW_prec \/ v = C_PW -> is_derive (fun t : R => vE (LDA_eval v (rs t) (z t))) t0 (dE rs' z' (LDA_eval v (rs t0) (z t0))).
Proof using Dr Dz Pr Pz. intros V. apply (eval_curve rs z t0 rs' z' Dr Dz Pz v Pr). destruct V; subst; discriminate. Qed.
Lemma PBE_curve (be : R -> R) (beta_rs : R) : is_derive be t0 (beta_rs * rs') -> 0 < be t0 ->
  is_derive (fun t : R => c_e (GGA_PBE_correlation (be t) 0 (rs t) (z t) (g t) (u t))) t0 (cder4 (GGA_PBE_correlation (be t0) beta_rs (rs t0) (z t0) (g t0) (u t0)) rs' z' g' u').
Proof using Dr Dz Dg Du Pr Pz Pg Pu.
  intros Db Pb. assert (EC := ec_curve C_PW_prec (or_introl eq_refl)). assert (EN := ec_neg C_PW_prec (rs t0) (z t0) (or_introl eq_refl) Pr Pz).
  pose proof (H0_curve gammaPBE be (fun t => g t * (g t * g t)) u (fun t => vE (LDA_eval C_PW_prec (rs t) (z t))) t0 _ _ _ _ gamma_pos Db g3_curve Du EC Pb g3_pos Pu EN) as HC. cbv zeta beta in HC.
  apply (is_derive_ext (fun t : R => vE (LDA_eval C_PW_prec (rs t) (z t)) + h_H (PW91_H0 gammaPBE (be t) (g t * (g t * g t)) (u t) (vE (LDA_eval C_PW_prec (rs t) (z t)))))).
  { intros t. unfold GGA_PBE_correlation. destruct (LDA_eval C_PW_prec (rs t) (z t)) as [[e er] ez]. unfold vE. cbn [fst]. fold gammaPBE. destruct (PW91_H0 gammaPBE _ _ _ _). reflexivity. }
  eapply dis; [apply dadd; [exact EC|exact HC]|]. unfold GGA_PBE_correlation, cder4, dE, vE. destruct (LDA_eval C_PW_prec (rs t0) (z t0)) as [[e er] ez]. cbn [fst snd]. fold gammaPBE. destruct (PW91_H0 gammaPBE _ _ _ _) as [H hb hg ht he]. cbn [h_beta h_g3 h_t2 h_ec c_rs c_zeta c_g c_t2]. ring.
Qed.
Lemma evalC_curve v : is_derive (fun t : R => c_e (GGA_evalC v (rs t) (z t) (g t) (u t))) t0 (cder4 (GGA_evalC v (rs t0) (z t0) (g t0) (u t0)) rs' z' g' u').
Proof using Dr Dz Dg Du Pr Pz Pg Pu.
  assert (C0 : forall k, is_derive (fun _ : R => k) t0 (0 * rs')) by (intros k; rewrite Rmult_0_l; apply (is_derive_const (V := R_NormedModule))).
  destruct v; cbn [GGA_evalC].
  - apply (PBE_curve (fun _ => 0.06672455060314922) 0); [apply C0|lra].
  - apply (PBE_curve (fun _ => 0.046) 0); [apply C0|lra].
  - cbv zeta. assert (EC := ec_curve C_PW (or_intror eq_refl)). assert (EN := ec_neg C_PW (rs t0) (z t0) (or_intror eq_refl) Pr Pz).
    pose proof PI_RGT_0 as PP. assert (NU : 0 < 16 / PI * cpow (3 * PI * PI) (1 / 3)) by (apply Rmult_lt_0_compat; [apply Rdiv_lt_0_compat; lra|apply cpow_gt0; nra]).
    set (nu := 16 / PI * cpow (3 * PI * PI) (1 / 3)) in *. clearbody nu. set (sg := 100 * cpow (16 / (3 * PI * PI)) (2 / 3)). clearbody sg.
    set (be := nu * (0.002568 - -0.001667)). assert (PB : 0 < be) by (unfold be; nra). clearbody be. set (gm := be * be / (2 * 0.09)). assert (PG : 0 < gm) by (unfold gm; apply Rdiv_lt_0_compat; nra). clearbody gm.
    assert (D0 : is_derive (fun _ : R => be) t0 0) by apply (is_derive_const (V := R_NormedModule)).
    pose proof (H0_curve gm (fun _ => be) (fun t => g t * (g t * g t)) u (fun t => vE (LDA_eval C_PW (rs t) (z t))) t0 _ _ _ _ PG D0 g3_curve Du EC PB g3_pos Pu EN) as HC. cbv zeta beta in HC.
    set (c0 := 0.002568) in *. set (ca := 0.023266). set (cb := 0.000007389) in *. assert (CB : 0 < cb) by (unfold cb; lra). set (cc := 8.723). assert (CC : 0 < cc) by (unfold cc; lra). set (cd := 0.472). assert (CD : 0 < cd) by (unfold cd; lra). set (cx := -0.001667). clearbody c0 ca cb cc cd cx.
    set (Cxc := fun r : R => (c0 + r * (ca + r * cb)) / (1 + r * (cc + r * (cd + r * (10000 * cb))))).
    assert (DC : is_derive (fun t : R => nu * (Cxc (rs t) - c0 - 3 / 7 * cx)) t0 (nu * (((ca + rs t0 * (2 * cb)) * (1 + rs t0 * (cc + rs t0 * (cd + rs t0 * (10000 * cb)))) - (c0 + rs t0 * (ca + rs t0 * cb)) * (cc + rs t0 * (2 * cd + rs t0 * (3 * 10000 * cb)))) / ((1 + rs t0 * (cc + rs t0 * (cd + rs t0 * (10000 * cb)))) * (1 + rs t0 * (cc + rs t0 * (cd + rs t0 * (10000 * cb)))))) * rs')).
    { eapply dis; [apply (along (fun r : R => nu * (Cxc r - c0 - 3 / 7 * cx)) rs); [exact Dr|]|].
      - unfold Cxc. assert (0 < cd + rs t0 * (10000 * cb)) by nra. assert (0 < cc + rs t0 * (cd + rs t0 * (10000 * cb))) by nra. assert (0 < 1 + rs t0 * (cc + rs t0 * (cd + rs t0 * (10000 * cb)))) by nra.
        instantiate (1 := nu * (((ca + rs t0 * (2 * cb)) * (1 + rs t0 * (cc + rs t0 * (cd + rs t0 * (10000 * cb)))) - (c0 + rs t0 * (ca + rs t0 * cb)) * (cc + rs t0 * (2 * cd + rs t0 * (3 * 10000 * cb)))) / ((1 + rs t0 * (cc + rs t0 * (cd + rs t0 * (10000 * cb)))) * (1 + rs t0 * (cc + rs t0 * (cd + rs t0 * (10000 * cb))))))).
        auto_derive; [repeat split; lra|]. field. lra.
      - ring. }
    set (Cp := ((ca + rs t0 * (2 * cb)) * (1 + rs t0 * (cc + rs t0 * (cd + rs t0 * (10000 * cb)))) - (c0 + rs t0 * (ca + rs t0 * cb)) * (cc + rs t0 * (2 * cd + rs t0 * (3 * 10000 * cb)))) / ((1 + rs t0 * (cc + rs t0 * (cd + rs t0 * (10000 * cb)))) * (1 + rs t0 * (cc + rs t0 * (cd + rs t0 * (10000 * cb)))))) in *.
    assert (DX : is_derive (fun t : R => exp (- sg * (g t * g t * (g t * g t)) * rs t * u t)) t0 (exp (- sg * (g t0 * g t0 * (g t0 * g t0)) * rs t0 * u t0) * (- sg * (4 * (g t0 * (g t0 * g t0)) * rs t0 * u t0 * g' + g t0 * g t0 * (g t0 * g t0) * u t0 * rs' + g t0 * g t0 * (g t0 * g t0) * rs t0 * u')))).
    { eapply dis; [apply (along exp (fun t : R => - sg * (g t * g t * (g t * g t)) * rs t * u t)); [|apply is_derive_exp]|rewrite Rmult_comm; reflexivity].
      eapply dis. { apply (dmul (fun t : R => - sg * (g t * g t * (g t * g t)) * rs t) u); [|exact Du]. apply (dmul (fun t : R => - sg * (g t * g t * (g t * g t))) rs); [|exact Dr]. apply dscal. apply (dmul (fun t => g t * g t) (fun t => g t * g t)); apply dmul; exact Dg. } ring. }
    set (X := fun t : R => exp (- sg * (g t * g t * (g t * g t)) * rs t * u t)) in *.
    apply (is_derive_ext (fun t : R => vE (LDA_eval C_PW (rs t) (z t)) + nu * (Cxc (rs t) - c0 - 3 / 7 * cx) * (g t * (g t * g t)) * u t * X t + h_H (PW91_H0 gm be (g t * (g t * g t)) (u t) (vE (LDA_eval C_PW (rs t) (z t)))))).
    { intros t. unfold vE, X, Cxc. destruct (LDA_eval C_PW (rs t) (z t)) as [[e er] ez]. cbn [fst]. destruct (PW91_H0 gm _ _ _ _). reflexivity. }
    eapply dis. { apply (dadd (fun t : R => vE (LDA_eval C_PW (rs t) (z t)) + nu * (Cxc (rs t) - c0 - 3 / 7 * cx) * (g t * (g t * g t)) * u t * X t)); [|exact HC]. apply dadd; [exact EC|].
      apply (dmul (fun t : R => nu * (Cxc (rs t) - c0 - 3 / 7 * cx) * (g t * (g t * g t)) * u t) X); [|exact DX].
      apply (dmul (fun t : R => nu * (Cxc (rs t) - c0 - 3 / 7 * cx) * (g t * (g t * g t))) u); [|exact Du].
      apply (dmul (fun t : R => nu * (Cxc (rs t) - c0 - 3 / 7 * cx)) (fun t => g t * (g t * g t))); [exact DC|exact g3_curve]. }
    clear DX DC HC EC EN. change (exp (- sg * (g t0 * g t0 * (g t0 * g t0)) * rs t0 * u t0)) with (X t0). change ((c0 + rs t0 * (ca + rs t0 * cb)) / (1 + rs t0 * (cc + rs t0 * (cd + rs t0 * (10000 * cb))))) with (Cxc (rs t0)).
    unfold cder4, dE, vE. destruct (LDA_eval C_PW (rs t0) (z t0)) as [[e er] ez]. cbn [fst snd]. destruct (PW91_H0 gm _ _ _ _) as [H hb hg ht he]. cbn [h_beta h_g3 h_t2 h_ec c_rs c_zeta c_g c_t2]. generalize (X t0) (Cxc (rs t0)) Cp. intros. ring.
Qed.
End Curve.

Lemma cpow_third x : 0 < x -> cpow x (2/3) / x = cpow x (-1/3).
Proof. intros X. rewrite !cpow_pos by exact X. replace (2/3) with (-1/3 + 1) by field. rewrite Rpower_plus, Rpower_1 by exact X. field. lra. Qed.
Definition gz (y : R) : R := 0.5 * (cpow (1 + y) (2/3) + cpow (1 - y) (2/3)).
Lemma gz_pos y : -1 < y < 1 -> 0 < gz y.
Proof. intros H. unfold gz. pose proof (cpow_gt0 (1 + y) (2/3) ltac:(lra)). pose proof (cpow_gt0 (1 - y) (2/3) ltac:(lra)). lra. Qed.
Lemma gz_derive y : -1 < y < 1 -> is_derive gz y (1/3 * (cpow (1 + y) (-1/3) - cpow (1 - y) (-1/3))).
Proof.
  intros H. unfold gz. rewrite <- !cpow_third by lra. eapply dis.
  { apply dscal. apply (dadd (fun y : R => cpow (1 + y) (2/3)) (fun y : R => cpow (1 - y) (2/3))).
    - apply (along (fun x => cpow x (2/3)) (fun y : R => 1 + y)); [instantiate (1 := 1); auto_derive; [exact I|ring]|apply cpow_derive; lra].
    - apply (along (fun x => cpow x (2/3)) (fun y : R => 1 - y)); [instantiate (1 := -1); auto_derive; [exact I|ring]|apply cpow_derive; lra]. }
  replace 0.5 with (/ 2) by lra. field. lra.
Qed.
Definition kt : R := cpow (PI / 3) (1/3) / 16.
Definition t2s (n y : R) : R := kt * cpow n (-7/3) / (gz y * gz y).
Lemma kt_pos : 0 < kt.
Proof. unfold kt. pose proof PI_RGT_0. apply Rdiv_lt_0_compat; [apply cpow_gt0; lra|lra]. Qed.
Lemma t2s_pos n y : 0 < n -> -1 < y < 1 -> 0 < t2s n y.
Proof. intros N Y. unfold t2s. pose proof (gz_pos y Y). apply Rdiv_lt_0_compat; [apply Rmult_lt_0_compat; [apply kt_pos|apply cpow_gt0; exact N]|nra]. Qed.
Lemma calcC_curve v (n z S : R -> R) (t0 n' z' S' : R) : is_derive n t0 n' -> is_derive z t0 z' -> is_derive S t0 S' -> 0 < n t0 -> -1 < z t0 < 1 -> nCutoff < 1 + z t0 -> nCutoff < 1 - z t0 -> 0 <= S t0 ->
  let '(e, en, ez, es) := calcC (GGA_evalC v) (n t0) (z t0) (S t0) in
  is_derive (fun t : R => n t * fst (fst (fst (calcC (GGA_evalC v) (n t) (z t) (S t))))) t0 (en * n' + n t0 * ez * z' + es * S').
Proof.
  intros Dn Dz DS Pn Pz C1 C2 PS.
  assert (DG : is_derive (fun t : R => gz (z t)) t0 (z' * (1/3 * (cpow (1 + z t0) (-1/3) - cpow (1 - z t0) (-1/3))))) by (apply (along gz z); [exact Dz|apply gz_derive; exact Pz]).
  assert (Gp := gz_pos (z t0) Pz).
  set (gp := 1/3 * (cpow (1 + z t0) (-1/3) - cpow (1 - z t0) (-1/3))) in *.
  assert (DR : is_derive (fun t : R => rsOf (n t)) t0 (n' * (- rsOf (n t0) / (3 * n t0)))) by (apply (along rsOf n); [exact Dn|apply rs_derive; exact Pn]).
  assert (DT0 : is_derive (fun t : R => kt * cpow (n t) (-7/3)) t0 (kt * (n' * (-7/3 * cpow (n t0) (-7/3) / n t0)))) by (apply dscal; apply (along (fun x => cpow x (-7/3)) n); [exact Dn|apply cpow_derive; exact Pn]).
  assert (DT1 : is_derive (fun t : R => t2s (n t) (z t)) t0 (t2s (n t0) (z t0) * (-7/3 / n t0 * n' - 2 / gz (z t0) * (z' * gp)))).
  { eapply dis; [apply (ddiv (fun t : R => kt * cpow (n t) (-7/3)) (fun t : R => gz (z t) * gz (z t))); [exact DT0|apply dmul; exact DG|nra]|]. unfold t2s. generalize (cpow (n t0) (-7/3)). intros w. field. lra. }
  assert (DU : is_derive (fun t : R => t2s (n t) (z t) * S t) t0 (t2s (n t0) (z t0) * (-7/3 / n t0 * n' - 2 / gz (z t0) * (z' * gp)) * S t0 + t2s (n t0) (z t0) * S')) by (apply (dmul (fun t : R => t2s (n t) (z t)) S); assumption).
  assert (PU : 0 <= t2s (n t0) (z t0) * S t0) by (apply Rmult_le_pos; [left; apply t2s_pos; assumption|exact PS]).
  pose proof (evalC_curve (fun t => rsOf (n t)) z (fun t => gz (z t)) (fun t => t2s (n t) (z t) * S t) t0 _ _ _ _ DR Dz DG DU (rs_pos _ Pn) Pz Gp PU v) as EC. cbv beta in EC.
  assert (VAL : forall t, fst (fst (fst (calcC (GGA_evalC v) (n t) (z t) (S t)))) = c_e (GGA_evalC v (rsOf (n t)) (z t) (gz (z t)) (t2s (n t) (z t) * S t))).
  { intros t. unfold calcC. cbv zeta. fold (rsOf (n t)). fold (gz (z t)). fold kt. fold (t2s (n t) (z t)). destruct (GGA_evalC v (rsOf (n t)) (z t) (gz (z t)) (t2s (n t) (z t) * S t)). reflexivity. }
  assert (ED : is_derive (fun t : R => n t * fst (fst (fst (calcC (GGA_evalC v) (n t) (z t) (S t))))) t0 (n' * c_e (GGA_evalC v (rsOf (n t0)) (z t0) (gz (z t0)) (t2s (n t0) (z t0) * S t0)) + n t0 * cder4 (GGA_evalC v (rsOf (n t0)) (z t0) (gz (z t0)) (t2s (n t0) (z t0) * S t0)) (n' * (- rsOf (n t0) / (3 * n t0))) z' (z' * gp)
    (t2s (n t0) (z t0) * (-7/3 / n t0 * n' - 2 / gz (z t0) * (z' * gp)) * S t0 + t2s (n t0) (z t0) * S'))).
  { apply (is_derive_ext (fun t : R => n t * c_e (GGA_evalC v (rsOf (n t)) (z t) (gz (z t)) (t2s (n t) (z t) * S t)))); [intros t; rewrite VAL; reflexivity|]. apply (dmul n); [exact Dn|exact EC]. }
  clear EC VAL DU DT1 DT0 DR DG. unfold calcC at 1. cbv zeta. fold (rsOf (n t0)). fold (gz (z t0)). fold kt. fold (t2s (n t0) (z t0)).
  destruct (Rlt_dec nCutoff (1 + z t0)); [|lra]. destruct (Rlt_dec nCutoff (1 - z t0)); [|lra]. fold gp.
  destruct (GGA_evalC v (rsOf (n t0)) (z t0) (gz (z t0)) (t2s (n t0) (z t0) * S t0)) as [e er ez eg et]. unfold cder4 in ED. cbn [c_e c_rs c_zeta c_g c_t2] in ED.
  eapply dis; [exact ED|]. generalize (rsOf (n t0)) (t2s (n t0) (z t0)). intros rr ww. field. split; lra.
Qed.
Lemma calcC2_derive v k n0 n1 s0 s1 s2 d0 d1 e0 e1 e2 : nCutoff < n0 + n1 -> nCutoff * (n0 + n1) < 2 * n0 -> nCutoff * (n0 + n1) < 2 * n1 -> 0 <= s0 + 2 * s1 + s2 ->
  let g := calcC2 v k n0 n1 s0 s1 s2 in
  is_derive (fun t : R => j_E (calcC2 v k (n0 + t * d0) (n1 + t * d1) (s0 + t * e0) (s1 + t * e1) (s2 + t * e2))) 0
    (j_n0 g * d0 + j_n1 g * d1 + j_sigma0 g * e0 + j_sigma1 g * e1 + j_sigma2 g * e2).
Proof.
  intros PT P0 P1 PS. pose proof cutoff_pos as PC. cbv zeta.
  set (nT := fun t : R => (n0 + t * d0) + (n1 + t * d1)). set (z := fun t : R => ((n0 + t * d0) - (n1 + t * d1)) / nT t). set (S := fun t : R => (s0 + t * e0) + 2 * (s1 + t * e1) + (s2 + t * e2)).
  assert (N0 : nT 0 = n0 + n1) by (unfold nT; ring). assert (S0 : S 0 = s0 + 2 * s1 + s2) by (unfold S; ring).
  assert (DN : is_derive nT 0 (d0 + d1)) by (unfold nT; auto_derive; [exact I|ring]). assert (DS : is_derive S 0 (e0 + 2 * e1 + e2)) by (unfold S; auto_derive; [exact I|ring]).
  assert (Dz : is_derive z 0 (((d0 - d1) * nT 0 - (n0 - n1) * (d0 + d1)) / (nT 0 * nT 0))).
  { unfold z. eapply dis; [apply (ddiv (fun t : R => (n0 + t * d0) - (n1 + t * d1)) nT); [instantiate (1 := d0 - d1); auto_derive; [exact I|ring]|exact DN|lra]|]. rewrite N0. field. lra. }
  assert (Z0 : z 0 = (n0 - n1) / (n0 + n1)) by (unfold z; rewrite N0; f_equal; ring).
  assert (Q0 : 0 < n0) by nra. assert (Q1 : 0 < n1) by nra.
  assert (ZP : 1 + z 0 = 2 * n0 / (n0 + n1)) by (rewrite Z0; field; lra). assert (ZM : 1 - z 0 = 2 * n1 / (n0 + n1)) by (rewrite Z0; field; lra).
  assert (C1 : nCutoff < 1 + z 0) by (rewrite ZP; apply Rlt_div_r; lra). assert (C2 : nCutoff < 1 - z 0) by (rewrite ZM; apply Rlt_div_r; lra).
  pose proof (calcC_curve v nT z S 0 _ _ _ DN Dz DS ltac:(rewrite N0; lra) ltac:(lra) C1 C2 ltac:(rewrite S0; lra)) as CC. rewrite N0, S0, Z0 in CC.
  assert (LOC : locally 0 (fun t : R => k * (nT t * fst (fst (fst (calcC (GGA_evalC v) (nT t) (z t) (S t))))) = j_E (calcC2 v k (n0 + t * d0) (n1 + t * d1) (s0 + t * e0) (s1 + t * e1) (s2 + t * e2)))).
  { assert (L : locally 0 (fun t : R => nCutoff < nT t < n0 + n1 + 1)) by (apply (loc_between nT 0 (d0 + d1)); [exact DN|lra]).
    revert L. apply filter_imp. intros t Ht. unfold calcC2. fold (nT t). destruct (Rlt_dec (nT t) nCutoff); [lra|]. fold (z t). fold (S t). cbv zeta. destruct (calcC (GGA_evalC v) (nT t) (z t) (S t)) as [[[e en] ez] es]. reflexivity. }
  apply (is_derive_ext_loc _ _ _ _ LOC). clear LOC. unfold calcC2. destruct (Rlt_dec (n0 + n1) nCutoff); [lra|]. cbv zeta.
  destruct (calcC (GGA_evalC v) (n0 + n1) ((n0 - n1) / (n0 + n1)) (s0 + 2 * s1 + s2)) as [[[e en] ez] es]. cbn [j_n0 j_n1 j_sigma0 j_sigma1 j_sigma2].
  eapply dis; [apply dscal; exact CC|]. field. lra.
Qed.
Lemma ez_0 v n S : 0 < n -> snd (fst (calcC (GGA_evalC v) n 0 S)) = 0.
Proof.
  intros Pn. assert (G0 : (if Rlt_dec nCutoff (1 + 0) then cpow (1 + 0) (-1/3) else 0) - (if Rlt_dec nCutoff (1 - 0) then cpow (1 - 0) (-1/3) else 0) = 0) by (rewrite Rplus_0_r, Rminus_0_r; ring).
  assert (L0 : forall w r, w = C_PW_prec \/ w = C_PW -> snd (LDA_eval w r 0) = 0).
  { intros w r V. destruct V as [->| ->]; cbn [LDA_eval]; rewrite interp3_value; cbn [snd]; rewrite (proj2 fz_0), (proj1 fz_0); ring. }
  unfold calcC. cbv zeta. rewrite G0. generalize (cpow (4 * PI / 3 * n) (-1 / 3)). intros r. generalize (0.5 * (cpow (1 + 0) (2 / 3) + cpow (1 - 0) (2 / 3))). intros g.
  assert (E : forall t2, c_zeta (GGA_evalC v r 0 g t2) = 0).
  { intros t2. destruct v; cbn [GGA_evalC]; cbv zeta; unfold GGA_PBE_correlation;
      [pose proof (L0 C_PW_prec r (or_introl eq_refl)) as L|pose proof (L0 C_PW_prec r (or_introl eq_refl)) as L|pose proof (L0 C_PW r (or_intror eq_refl)) as L];
      destruct (LDA_eval _ r 0) as [[e er] ez]; cbn [snd] in L; subst ez; destruct (PW91_H0 _ _ _ _ _); cbn [c_zeta]; ring. }
  match goal with |- context[GGA_evalC v r 0 g ?t] => specialize (E t); destruct (GGA_evalC v r 0 g t) as [e er ez eg et] end. cbn [c_zeta] in E. subst ez. cbn [fst snd]. ring.
Qed.
Lemma calcC1_derive v k n s d e : nCutoff < n -> 0 <= s ->
  is_derive (fun t : R => i_E (calcC1 v k (n + t * d) (s + t * e))) 0 (i_n (calcC1 v k n s) * d + i_sigma (calcC1 v k n s) * e).
Proof.
  intros PT PS. pose proof cutoff_pos as PC. assert (P1 : nCutoff < 1). { unfold nCutoff. apply Rlt_le_trans with (/ 1); [apply Rinv_lt_contravar; lra|lra]. }
  assert (DN : is_derive (fun t : R => n + t * d) 0 d) by (auto_derive; [exact I|ring]). assert (DS : is_derive (fun t : R => s + t * e) 0 e) by (auto_derive; [exact I|ring]).
  assert (Dz : is_derive (fun _ : R => 0) 0 0) by apply (is_derive_const (V := R_NormedModule)).
  pose proof (calcC_curve v (fun t : R => n + t * d) (fun _ => 0) (fun t : R => s + t * e) 0 _ _ _ DN Dz DS ltac:(lra) ltac:(lra) ltac:(lra) ltac:(lra) ltac:(lra)) as CC. cbv beta in CC.
  replace (n + 0 * d) with n in CC by ring. replace (s + 0 * e) with s in CC by ring.
  assert (LOC : locally 0 (fun t : R => k * ((n + t * d) * fst (fst (fst (calcC (GGA_evalC v) (n + t * d) 0 (s + t * e))))) = i_E (calcC1 v k (n + t * d) (s + t * e)))).
  { assert (L : locally 0 (fun t : R => nCutoff < n + t * d < n + 1)) by (apply (loc_between (fun t : R => n + t * d) 0 d); [exact DN|lra]).
    revert L. apply filter_imp. intros t Ht. unfold calcC1. destruct (Rlt_dec (n + t * d) nCutoff); [lra|]. cbv zeta. destruct (calcC (GGA_evalC v) (n + t * d) 0 (s + t * e)) as [[[ee en] ez] es]. reflexivity. }
  apply (is_derive_ext_loc _ _ _ _ LOC). clear LOC. unfold calcC1. destruct (Rlt_dec n nCutoff); [lra|]. cbv zeta. pose proof (ez_0 v n s ltac:(lra)) as EZ.
  destruct (calcC (GGA_evalC v) n 0 s) as [[[ee en] ez] es]. cbn [fst snd] in EZ. subst ez. cbn [i_n i_sigma]. eapply dis; [apply dscal; exact CC|]. ring.
Qed.
(** ** bounds and limits *)
Lemma PBE_corr_bounds v rs y g t2 : v = C_PBE \/ v = C_PBEsol -> 0 < rs -> -1 < y < 1 -> 0 < g -> 0 <= t2 -> vE (LDA_eval C_PW_prec rs y) <= c_e (GGA_evalC v rs y g t2) < 0.
Proof.
  intros V Hr Hy Hg Ht. pose proof (ec_neg C_PW_prec rs y (or_introl eq_refl) Hr Hy) as EN.
  assert (G : forall be, 0 < be -> vE (LDA_eval C_PW_prec rs y) <= c_e (GGA_PBE_correlation be 0 rs y g t2) < 0).
  { intros be Hb. unfold GGA_PBE_correlation, vE in *. destruct (LDA_eval C_PW_prec rs y) as [[e er] ez]. cbn [fst] in *. fold gammaPBE. pose proof gamma_pos as GP. set (gm := gammaPBE) in *. clearbody gm.
    assert (G3 : 0 < g * (g * g)) by (repeat apply Rmult_lt_0_compat; exact Hg). set (g3 := g * (g * g)) in *. clearbody g3. unfold PW91_H0. cbv zeta. cbn [c_e].
    assert (P4 : 0 < gm * g3) by nra. set (x := e / (gm * g3)). assert (X0 : x < 0) by (unfold x, Rdiv; assert (0 < / (gm * g3)) by (apply Rinv_0_lt_compat; exact P4); nra). assert (XE : gm * g3 * x = e) by (unfold x; field; split; lra).
    assert (E1 : 1 < exp (- x)) by (rewrite <- exp_0; apply exp_increasing; lra). assert (LE : ln (exp (- x)) = - x) by apply ln_exp. clearbody x. set (E := exp (- x)) in *. clearbody E.
    set (AB := 1 / (E - 1)). assert (PAB : 0 < AB) by (unfold AB; apply Rdiv_lt_0_compat; lra). assert (EAB : AB * (E - 1) = 1) by (unfold AB; field; lra). clearbody AB.
    set (b := be / gm). assert (Pb : 0 < b) by (unfold b; apply Rdiv_lt_0_compat; lra). clearbody b. set (q := b * AB * t2). assert (Q0 : 0 <= q) by (unfold q; apply Rmult_le_pos; [nra|exact Ht]).
    set (fr := (1 + q) / (1 + q * (1 + q))). assert (DEN : 0 < 1 + q * (1 + q)) by nra. assert (FE : fr * (1 + q * (1 + q)) = 1 + q) by (unfold fr; field; lra). assert (F0 : 0 < fr) by (unfold fr; apply Rdiv_lt_0_compat; lra). clearbody fr.
    assert (QF : q * fr < 1) by nra. assert (BT : b * t2 = q * (E - 1)) by (unfold q; replace (b * AB * t2 * (E - 1)) with (b * t2 * (AB * (E - 1))) by ring; rewrite EAB; ring).
    assert (L1 : 1 <= 1 + b * t2 * fr) by (assert (0 <= b * t2) by nra; nra). assert (L2 : 1 + b * t2 * fr < E) by (rewrite BT; replace (q * (E - 1) * fr) with (q * fr * (E - 1)) by ring; nra).
    set (L := 1 + b * t2 * fr) in *. assert (M1 : 0 <= ln L) by (rewrite <- ln_1; destruct L1 as [L1|<-]; [left; apply ln_increasing; lra|lra]). assert (M2 : ln L < - x) by (rewrite <- LE; apply ln_increasing; lra).
    cbn [h_H]. split; nra. }
  destruct V as [->| ->]; cbn [GGA_evalC]; apply G; lra.
Qed.
Definition lda_of (v : cVariant) : evalVariant := match v with C_PW91 => C_PW | _ => C_PW_prec end.
Lemma calcC_uniform v k n : i_E (calcC1 v k n 0) = fst (calc1_eval (lda_of v) k n).
Proof.
  unfold calcC1, calc1_eval. destruct (Rlt_dec n nCutoff); [reflexivity|]. cbv zeta. unfold calcC. cbv zeta. fold (rsOf n). rewrite Rmult_0_r.
  destruct v; cbn [GGA_evalC lda_of]; cbv zeta; unfold GGA_PBE_correlation; destruct (LDA_eval _ (rsOf n) 0) as [[e er] ez]; unfold PW91_H0; cbv zeta; cbn [i_E fst]; rewrite ?Rmult_0_r, ?Rmult_0_l, ?Rplus_0_r, ln_1, ?Rmult_0_r, ?Rplus_0_r; reflexivity.
Qed.
Lemma calcC_equal v k n s : 0 < n -> j_E (calcC2 v k (n / 2) (n / 2) (s / 4) (s / 4) (s / 4)) = i_E (calcC1 v k n s) /\
  j_n0 (calcC2 v k (n / 2) (n / 2) (s / 4) (s / 4) (s / 4)) = i_n (calcC1 v k n s) /\ j_n1 (calcC2 v k (n / 2) (n / 2) (s / 4) (s / 4) (s / 4)) = i_n (calcC1 v k n s).
Proof.
  intros Pn. unfold calcC2, calcC1. cbv zeta. replace (n / 2 + n / 2) with n by field. destruct (Rlt_dec n nCutoff) as [L|L]; [auto|].
  replace ((n / 2 - n / 2) / n) with 0 by (field; lra). replace (s / 4 + 2 * (s / 4) + s / 4) with s by field. pose proof (ez_0 v n s Pn) as EZ.
  destruct (calcC (GGA_evalC v) n 0 s) as [[[e en] ez] es]. cbn [fst snd] in EZ. subst ez. cbn [j_E j_n0 j_n1 i_E i_n]. repeat split; ring.
Qed.
Lemma big n : 1 / 10 <= n -> nCutoff < n.
Proof. intros H. apply Rlt_le_trans with (1 / 10); [|exact H]. unfold nCutoff. replace (1 / 10) with (/ 10) by field. apply Rinv_lt_contravar; lra. Qed.
