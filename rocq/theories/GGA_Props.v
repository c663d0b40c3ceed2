(** C107, C108: gradient-corrected functionals.  Only theorems closed by [exact], examples and assumptions. *)
From Coq Require Import ZArith Reals List Bool Lra.
From Coquelicot Require Import Coquelicot.
From Verif Require Import Base LDA_Model LDA_Proofs LDA_Proofs2 GGA_Model GGA_Proofs GGA_Proofs2 GGA_Proofs3.
Open Scope R_scope.

(** potentials of exchange and kinetic functionals: derivative of the energy density along every direction of both spin densities and the three gradient contractions *)
Theorem C107_spin_potentials : forall v k n0 n1 s0 s1 s2 d0 d1 e0 e1 e2, n0 * 2 <> nCutoff -> n1 * 2 <> nCutoff -> okSigma v s0 -> okSigma v s2 ->
  let g := calcX2 v k n0 n1 s0 s1 s2 in
  is_derive (fun t : R => j_E (calcX2 v k (n0 + t * d0) (n1 + t * d1) (s0 + t * e0) (s1 + t * e1) (s2 + t * e2))) 0
    (j_n0 g * d0 + j_n1 g * d1 + j_sigma0 g * e0 + j_sigma1 g * e1 + j_sigma2 g * e2).
Proof. exact calcX2_derive. Qed.
Print Assumptions C107_spin_potentials.
Theorem C107_unpolarized_potentials : forall v k n s d e, n <> nCutoff -> okSigma v s ->
  is_derive (fun t : R => i_E (calcX1 v k (n + t * d) (s + t * e))) 0 (i_n (calcX1 v k n s) * d + i_sigma (calcX1 v k n s) * e).
Proof. exact calcX1_derive. Qed.
Print Assumptions C107_unpolarized_potentials.
Example C107_example : 1 * 2 <> nCutoff /\ 3 * 2 <> nCutoff /\ okSigma X_PW91 2 /\ okSigma X_PBE 0.
Proof. pose proof (big 2 ltac:(lra)). pose proof (big 6 ltac:(lra)). cbn [okSigma]. repeat split; lra. Qed.

(** without a gradient the local functionals are recovered *)
Theorem C107_uniform : forall k n, nCutoff <= n -> i_E (calcX1 X_PBE k n 0) = fst (LDA_calc1 X_Slater k n) /\ i_E (calcX1 X_PBEsol k n 0) = fst (LDA_calc1 X_Slater k n) /\
  i_E (calcX1 X_PW91 k n 0) = fst (LDA_calc1 X_Slater k n) /\ i_E (calcX1 KE_PW91 k n 0) = fst (LDA_calc1 KE_TF k n).
Proof. exact calcX_uniform. Qed.
Print Assumptions C107_uniform.
(** the von Weizsacker energy density is |grad n|^2 / (8 n) *)
Theorem C107_weizsacker : forall k n s, nCutoff <= n -> i_E (calcX1 KE_VW k n s) = k * (s / (8 * n)).
Proof. exact VW_val. Qed.
Print Assumptions C107_weizsacker.
(** exchange of PBE and PBEsol lies between 1 and 1.804 times local exchange and grows with the gradient *)
Theorem C107_bounds : forall v rs s, (v = X_PBE \/ v = X_PBEsol) -> 0 < rs -> 0 <= s ->
  1.804 * fst (slaterExchange rs) < x_e (GGA_evalX v rs s) <= fst (slaterExchange rs) /\ x_s2 (GGA_evalX v rs s) < 0.
Proof. exact PBE_bounds. Qed.
Print Assumptions C107_bounds.
(** one and two spin channels agree for an unpolarized density *)
Theorem C107_equal_spins : forall v k n s, j_E (calcX2 v k (n / 2) (n / 2) (s / 4) (s / 4) (s / 4)) = i_E (calcX1 v k n s) /\
  j_n0 (calcX2 v k (n / 2) (n / 2) (s / 4) (s / 4) (s / 4)) = i_n (calcX1 v k n s) /\ j_n1 (calcX2 v k (n / 2) (n / 2) (s / 4) (s / 4) (s / 4)) = i_n (calcX1 v k n s).
Proof. exact calcX_equal. Qed.
Print Assumptions C107_equal_spins.
Example C107_limits_example : nCutoff <= 1 /\ i_E (calcX1 KE_VW 1 2 8) = 1 / 2 /\ 0 < 2 /\ 0 <= 5.
Proof. pose proof (big 1 ltac:(lra)). pose proof (big 2 ltac:(lra)). split; [lra|]. split; [|lra]. rewrite VW_val by lra. field. Qed.

(** potentials of correlation functionals, away from full polarization *)
Theorem C108_spin_potentials : forall v k n0 n1 s0 s1 s2 d0 d1 e0 e1 e2, nCutoff < n0 + n1 -> nCutoff * (n0 + n1) < 2 * n0 -> nCutoff * (n0 + n1) < 2 * n1 -> 0 <= s0 + 2 * s1 + s2 ->
  let g := calcC2 v k n0 n1 s0 s1 s2 in
  is_derive (fun t : R => j_E (calcC2 v k (n0 + t * d0) (n1 + t * d1) (s0 + t * e0) (s1 + t * e1) (s2 + t * e2))) 0
    (j_n0 g * d0 + j_n1 g * d1 + j_sigma0 g * e0 + j_sigma1 g * e1 + j_sigma2 g * e2).
Proof. exact calcC2_derive. Qed.
Print Assumptions C108_spin_potentials.
Theorem C108_unpolarized_potentials : forall v k n s d e, nCutoff < n -> 0 <= s ->
  is_derive (fun t : R => i_E (calcC1 v k (n + t * d) (s + t * e))) 0 (i_n (calcC1 v k n s) * d + i_sigma (calcC1 v k n s) * e).
Proof. exact calcC1_derive. Qed.
Print Assumptions C108_unpolarized_potentials.
(** the gradient correction as a function of its four arguments, with the derivative used by the revised TPSS functional too *)
Theorem C108_H0 : forall (gamma : R) (be g3 u ec : R -> R) (t0 be' g3' u' ec' : R), 0 < gamma -> is_derive be t0 be' -> is_derive g3 t0 g3' -> is_derive u t0 u' -> is_derive ec t0 ec' ->
  0 < be t0 -> 0 < g3 t0 -> 0 <= u t0 -> ec t0 < 0 -> let o := PW91_H0 gamma (be t0) (g3 t0) (u t0) (ec t0) in
  is_derive (fun t : R => h_H (PW91_H0 gamma (be t) (g3 t) (u t) (ec t))) t0 (h_beta o * be' + h_g3 o * g3' + h_t2 o * u' + h_ec o * ec').
Proof. exact H0_curve. Qed.
Print Assumptions C108_H0.
Example C108_example : nCutoff < 1 + 2 /\ nCutoff * (1 + 2) < 2 * 1 /\ nCutoff * (1 + 2) < 2 * 2 /\ 0 <= 1 + 2 * (-1) + 1.
Proof. pose proof (big (1/2) ltac:(lra)) as B. assert (nCutoff < 1/2) by exact B. repeat split; lra. Qed.

(** the uniform energy that the gradient correction divides by is negative, so that no denominator vanishes *)
Theorem C108_uniform_negative : forall v rs y, v = C_PW_prec \/ v = C_PW -> 0 < rs -> -1 < y < 1 -> fst (fst (LDA_eval v rs y)) < 0.
Proof. exact ec_neg. Qed.
Print Assumptions C108_uniform_negative.
(** correlation of PBE and PBEsol stays between local correlation and zero *)
Theorem C108_bounds : forall v rs y g t2, v = C_PBE \/ v = C_PBEsol -> 0 < rs -> -1 < y < 1 -> 0 < g -> 0 <= t2 ->
  fst (fst (LDA_eval C_PW_prec rs y)) <= c_e (GGA_evalC v rs y g t2) < 0.
Proof. exact PBE_corr_bounds. Qed.
Print Assumptions C108_bounds.
Theorem C108_uniform : forall v k n, i_E (calcC1 v k n 0) = fst (calc1_eval (lda_of v) k n).
Proof. exact calcC_uniform. Qed.
Print Assumptions C108_uniform.
Theorem C108_equal_spins : forall v k n s, 0 < n -> j_E (calcC2 v k (n / 2) (n / 2) (s / 4) (s / 4) (s / 4)) = i_E (calcC1 v k n s) /\
  j_n0 (calcC2 v k (n / 2) (n / 2) (s / 4) (s / 4) (s / 4)) = i_n (calcC1 v k n s) /\ j_n1 (calcC2 v k (n / 2) (n / 2) (s / 4) (s / 4) (s / 4)) = i_n (calcC1 v k n s).
Proof. exact calcC_equal. Qed.
Print Assumptions C108_equal_spins.
Example C108_limits_example : 0 < 2 /\ -1 < 1/2 < 1 /\ 0 < 3/4 /\ 0 <= 7 /\ c_e (GGA_evalC C_PBE 2 (1/2) (3/4) 7) < 0.
Proof. repeat split; try lra. apply (PBE_corr_bounds C_PBE 2 (1/2) (3/4) 7); auto; lra. Qed.
