(** C49: local density functionals.  Only theorems closed by [exact], examples and assumptions. *)
From Coq Require Import ZArith Reals List Bool Lra.
From Coquelicot Require Import Coquelicot.
From Verif Require Import Base LDA_Model LDA_Proofs LDA_Proofs2.
Open Scope R_scope.

(** both spin potentials at once, for every functional: derivative of the energy density along every direction of the
    two spin densities (Perdew-Zunger away from rs = 1) *)
Theorem C49_spin_potentials : forall v s n0 n1 d0 d1, 0 < n0 -> 0 < n1 -> nCutoff < n0 + n1 -> (v = LDA_of C_PZ -> rsOf (n0 + n1) <> 1) ->
  let '(g0, g1) := snd (LDA_calc2 v s n0 n1) in
  is_derive (fun t : R => fst (LDA_calc2 v s (n0 + t * d0) (n1 + t * d1))) 0 (g0 * d0 + g1 * d1).
Proof. exact lda_derive2. Qed.
Print Assumptions C49_spin_potentials.
Theorem C49_unpolarized_potential : forall v s n, nCutoff < n -> (v = LDA_of C_PZ -> rsOf n <> 1) ->
  is_derive (fun n : R => fst (LDA_calc1 v s n)) n (snd (LDA_calc1 v s n)).
Proof. exact lda_derive1. Qed.
Print Assumptions C49_unpolarized_potential.
(** the low and high density branches of Perdew-Zunger correlation do not meet at rs = 1: no derivative there *)
Theorem C49_PZ_refuted : nCutoff < nPZ /\ forall l, ~ is_derive (fun n : R => fst (LDA_calc1 (LDA_of C_PZ) 1 n)) nPZ l.
Proof. exact PZ_jump. Qed.
Print Assumptions C49_PZ_refuted.
Example C49_potential_ex : snd (LDA_calc1 KE_TF 1 1) = 0.3 / 1 * cpow (3 * PI * PI) (2/3) * 5 / 3 /\ nCutoff < 1 + 2.
Proof.
  split; [|unfold nCutoff; assert (0 < / 10 ^ 16) by (apply Rinv_0_lt_compat; lra); apply Rlt_trans with (/ 1); [apply Rinv_lt_contravar; lra|lra]].
  cbn. rewrite !Rmult_1_r, Rmult_1_l. rewrite cpow_1. lra.
Qed.

Theorem C49_spin_exchange : forall v s n0 n1,
  LDA_calc2 v s n1 n0 = (fst (LDA_calc2 v s n0 n1), (snd (snd (LDA_calc2 v s n0 n1)), fst (snd (LDA_calc2 v s n0 n1)))).
Proof. exact lda_swap. Qed.
Print Assumptions C49_spin_exchange.
Theorem C49_equal_spins : forall v s n, 0 <= n -> fst (LDA_calc2 v s (n/2) (n/2)) = fst (LDA_calc1 v s n) /\
  fst (snd (LDA_calc2 v s (n/2) (n/2))) = snd (LDA_calc1 v s n) /\ snd (snd (LDA_calc2 v s (n/2) (n/2))) = snd (LDA_calc1 v s n).
Proof. exact lda_unpolarized. Qed.
Print Assumptions C49_equal_spins.
(** fully polarized: value and rs derivative are those of the ferromagnetic fit *)
Theorem C49_full_polarization : forall r, fst (LDA_eval C_PZ r 1) = eval_C_PZ false r /\ fst (LDA_eval C_PW r 1) = eval_C_PW Ferro false r /\
  fst (LDA_eval C_PW_prec r 1) = eval_C_PW Ferro true r /\ fst (LDA_eval C_VWN r 1) = eval_C_VWN Ferro r.
Proof. exact eval_ferro. Qed.
Print Assumptions C49_full_polarization.
(** the spin interpolation function: f_zeta is its derivative, it is even, 0 <= f, f(0) = 0, f(1) = 1, and the default
    stiffness factor is f''(0) *)
Theorem C49_interpolation : (forall z, -1 < z < 1 -> is_derive (fun z : R => fst (spinInterpolation z)) z (snd (spinInterpolation z)) /\ 0 <= fst (spinInterpolation z)) /\
  (forall z, fst (spinInterpolation (- z)) = fst (spinInterpolation z)) /\ fst (spinInterpolation 0) = 0 /\ fst (spinInterpolation 1) = 1 /\
  is_derive (fun z : R => snd (spinInterpolation z)) 0 fDblPrime0_default.
Proof. exact (conj (fun z H => conj (fz_derive z H) (fz_nonneg z H)) (conj (fun z => proj1 (fz_even z)) (conj (proj1 fz_0) (conj fz_1 fz_second)))). Qed.
Print Assumptions C49_interpolation.
Theorem C49_PW_negative : forall s prec rs, 0 < rs -> fst (eval_C_PW s prec rs) < 0.
Proof. exact PW_negative. Qed.
Print Assumptions C49_PW_negative.
Example C49_spin_ex : fst (snd (LDA_calc2 X_Slater 1 1 0)) < 0 /\ snd (snd (LDA_calc2 X_Slater 1 1 0)) = 0.
Proof.
  cbn. unfold cpow at 4. destruct (Req_EM_T (0 * 2) 0); [|lra]. split; [|lra].
  assert (0 < cpow (1 * 2) (1/3)) by (apply cpow_gt0; lra). assert (0 < cpow (3 / PI) (1/3)) by (apply cpow_gt0; apply Rdiv_lt_0_compat; [lra|apply PI_RGT_0]).
  assert (0 < cpow (1 * 2) (1/3) * cpow (3 / PI) (1/3)) by (apply Rmult_lt_0_compat; assumption). lra.
Qed.
