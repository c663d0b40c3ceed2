From Coq Require Import ZArith Reals List Bool Lia Lra Psatz.
From Coquelicot Require Import Coquelicot.
From Verif Require Import Base Cavity_Proofs2 LDA_Model LDA_Proofs LDA_Proofs2 GGA_Model.
Import ListNotations.
Open Scope R_scope.
Ltac req := match goal with |- ?a = ?b => change (@eq R a b) end.
Lemma half_is : 0.5 = / 2. Proof. lra. Qed.

(** functions of one variable along a curve *)
Lemma along (F : R -> R) (c : R -> R) (t0 c' F' : R) : is_derive c t0 c' -> is_derive F (c t0) F' -> is_derive (fun t : R => F (c t)) t0 (c' * F').
Proof. intros Dc DF. apply (is_derive_comp (V := R_NormedModule) F c); [exact DF|exact Dc]. Qed.
Lemma dmul (f g : R -> R) (x f' g' : R) : is_derive f x f' -> is_derive g x g' -> is_derive (fun t : R => f t * g t) x (f' * g x + f x * g').
Proof. intros A B. apply (is_derive_mult (K := R_AbsRing)); [exact A|exact B|apply Rmult_comm]. Qed.
Lemma dadd (f g : R -> R) (x f' g' : R) : is_derive f x f' -> is_derive g x g' -> is_derive (fun t : R => f t + g t) x (f' + g').
Proof. intros A B. apply (is_derive_plus (V := R_NormedModule)); [exact A|exact B]. Qed.
Lemma dscal (k : R) (f : R -> R) (x f' : R) : is_derive f x f' -> is_derive (fun t : R => k * f t) x (k * f').
Proof. intros A. apply is_derive_scal. exact A. Qed.
Lemma ddiv (f g : R -> R) (x f' g' : R) : is_derive f x f' -> is_derive g x g' -> g x <> 0 -> is_derive (fun t : R => f t / g t) x ((f' * g x - f x * g') / (g x * g x)).
Proof. intros A B N. evar_last. { apply (is_derive_div f g); [exact A|exact B|exact N]. } req. field. exact N. Qed.
Lemma dis (f : R -> R) (x f' f'' : R) : is_derive f x f' -> f' = f'' -> is_derive f x f''.
Proof. intros A <-. exact A. Qed.

Lemma slater_derive rs : 0 < rs -> is_derive (fun r : R => fst (slaterExchange r)) rs (snd (slaterExchange rs)).
Proof.
  intros H. unfold slaterExchange. cbn [fst snd]. generalize (0.75 * cpow (1.5 / PI) (2 / 3)). intros K.
  auto_derive; [lra|]. field. lra.
Qed.
Lemma sq_derive rs : 0 < rs -> is_derive (fun r : R => cpow (1 / r) 2) rs (-2 * cpow (1 / rs) 2 / rs).
Proof.
  intros H. assert (0 < 1 / rs) by (apply Rdiv_lt_0_compat; lra). apply dis with (- / (rs * rs) * (2 * cpow (1 / rs) 2 / (1 / rs))).
  - apply (along (fun x => cpow x 2) (fun r => 1 / r)); [auto_derive; [lra|field; lra]|apply cpow_derive; exact H0].
  - field. lra.
Qed.
Lemma TF_derive' rs : 0 < rs -> is_derive (fun r : R => fst (TFKinetic r)) rs (snd (TFKinetic rs)).
Proof.
  intros H. unfold TFKinetic. cbn [fst snd]. generalize (9 / 20 * cpow (1.5 * PI * PI) (1 / 3)). intros K. eapply dis; [apply dscal, sq_derive; exact H|]. field. lra.
Qed.
Lemma arcsinh_pos x : 0 <= x -> 0 <= arcsinh x.
Proof. intros [H|<-]; [rewrite <- arcsinh_0; left; apply arcsinh_lt; exact H|rewrite arcsinh_0; lra]. Qed.
Lemma enh_den s P Q U : 0 <= P -> 0 <= Q -> 0 <= U -> 0 < 1 + P * sqrt s * arcsinh (Q * sqrt s) + U * s * s.
Proof.
  intros HP HQ HU. assert (S := sqrt_pos s). assert (0 <= arcsinh (Q * sqrt s)) by (apply arcsinh_pos; nra). assert (0 <= P * sqrt s * arcsinh (Q * sqrt s)) by (apply Rmult_le_pos; nra).
  assert (0 <= s * s) by nra. assert (0 <= U * s * s) by nra. lra.
Qed.
Lemma asinhTerm_derive P Q s : 0 < s -> is_derive (fun s : R => P * sqrt s * arcsinh (Q * sqrt s)) s (0.5 * (P * sqrt s * arcsinh (Q * sqrt s) / s + (P * Q) / sqrt (1 + (Q * Q) * s))).
Proof.
  intros H. assert (S0 : 0 < sqrt s) by (apply sqrt_lt_R0; exact H). assert (SS : sqrt s * sqrt s = s) by (apply sqrt_sqrt; lra).
  assert (DS : is_derive (fun s : R => sqrt s) s (/ (2 * sqrt s))) by (auto_derive; [exact H|field; lra]).
  eapply dis. { apply dmul; [apply dscal; exact DS|]. apply (along arcsinh (fun s => Q * sqrt s)); [apply dscal; exact DS|]. apply is_derive_Reals. apply derivable_pt_lim_arcsinh. }
  replace ((Q * sqrt s) ^ 2 + 1) with (1 + Q * Q * s) by (rewrite <- SS at 1; ring). rewrite half_is.
  assert (0 < sqrt (1 + Q * Q * s)) by (apply sqrt_lt_R0; nra). revert H0. generalize (sqrt (1 + Q * Q * s)) (arcsinh (Q * sqrt s)). intros w a Hw. rewrite <- SS at 5. field. split; lra.
Qed.
Lemma enh_derive P Q R S T U s : 0 <= P -> 0 <= Q -> 0 <= U -> 0 < s -> is_derive (fun s : Rdefinitions.R => fst (PW91_Enhancement s P Q R S T U)) s (snd (PW91_Enhancement s P Q R S T U)).
Proof.
  intros HP HQ HU H. unfold PW91_Enhancement. cbv zeta. cbn [fst snd]. destruct (Req_EM_T s 0) as [Z|_]; [lra|].
  pose proof (asinhTerm_derive P Q s H) as DA. pose proof (enh_den s P Q U HP HQ HU) as DN. cbv beta in DN.
  set (a := fun s => P * sqrt s * arcsinh (Q * sqrt s)) in *. change (0 < 1 + a s + U * s * s) in DN.
  change (is_derive (fun s : Rdefinitions.R => (1 + a s + s * (R - S * exp (- T * s))) / (1 + a s + U * s * s)) s
    (((0.5 * (a s / s + P * Q / sqrt (1 + Q * Q * s)) + (R - S * exp (- T * s)) - s * (- T * (S * exp (- T * s)))) * (1 + a s + U * s * s) - (1 + a s + s * (R - S * exp (- T * s))) * (0.5 * (a s / s + P * Q / sqrt (1 + Q * Q * s)) + 2 * U * s)) / ((1 + a s + U * s * s) * (1 + a s + U * s * s)))).
  change (P * sqrt s * arcsinh (Q * sqrt s)) with (a s) in DA. revert DA. generalize (0.5 * (a s / s + P * Q / sqrt (1 + Q * Q * s))). intros a' DA.
  apply (ddiv (fun s => 1 + a s + s * (R - S * exp (- T * s))) (fun s => 1 + a s + U * s * s)); [| |lra].
  - apply dis with (0 + a' + (R - S * exp (- T * s) - s * (- T * (S * exp (- T * s))))); [|ring].
    apply dadd; [apply dadd; [apply (is_derive_const (V := R_NormedModule))|exact DA]|]. auto_derive; [exact I|ring].
  - apply dis with (0 + a' + 2 * U * s); [|ring]. apply dadd; [apply dadd; [apply (is_derive_const (V := R_NormedModule))|exact DA]|]. auto_derive; [exact I|ring].
Qed.

Definition okSigma (v : xVariant) (s : R) : Prop := match v with X_PW91 | KE_PW91 => 0 < s | _ => 0 <= s end.
Lemma evalX_curve v (rs s : R -> R) t0 rs' s' : is_derive rs t0 rs' -> is_derive s t0 s' -> 0 < rs t0 -> okSigma v (s t0) ->
  is_derive (fun t : R => x_e (GGA_evalX v (rs t) (s t))) t0 (x_rs (GGA_evalX v (rs t0) (s t0)) * rs' + x_s2 (GGA_evalX v (rs t0) (s t0)) * s').
Proof.
  intros Dr Ds Pr Ps.
  assert (SL : is_derive (fun t : R => fst (slaterExchange (rs t))) t0 (rs' * snd (slaterExchange (rs t0)))) by (apply (along (fun r => fst (slaterExchange r)) rs); [exact Dr|apply slater_derive; exact Pr]).
  assert (TF : is_derive (fun t : R => fst (TFKinetic (rs t))) t0 (rs' * snd (TFKinetic (rs t0)))) by (apply (along (fun r => fst (TFKinetic r)) rs); [exact Dr|apply TF_derive'; exact Pr]).
  assert (PBE : forall k m, 0 < k -> 0 < m -> 0 <= s t0 -> is_derive (fun t : R => x_e (GGA_PBE_exchange k m (rs t) (s t))) t0 (x_rs (GGA_PBE_exchange k m (rs t0) (s t0)) * rs' + x_s2 (GGA_PBE_exchange k m (rs t0) (s t0)) * s')).
  { intros k m Hk Hm Hs. unfold GGA_PBE_exchange. assert (0 < k / m) by (apply Rdiv_lt_0_compat; lra). set (q := k / m) in *. clearbody q.
    assert (DF : is_derive (fun t : R => 1 + k + k * q * (-1 / (q + s t))) t0 (k * q * (-1 / (q + s t0)) * (-1 / (q + s t0)) * s')).
    { eapply dis. { auto_derive; [|reflexivity]. split; [eexists; exact Ds|]. split; [lra|exact I]. }
      replace (Derive (fun x : R => s x) t0) with s' by (symmetry; apply is_derive_unique; exact Ds). field. lra. }
    apply (is_derive_ext (fun t : R => fst (slaterExchange (rs t)) * (1 + k + k * q * (-1 / (q + s t))))). { intros t. destruct (slaterExchange (rs t)). reflexivity. }
    eapply dis; [apply dmul; [exact SL|exact DF]|]. cbv beta. destruct (slaterExchange (rs t0)) as [e e']. cbn [fst snd x_rs x_s2]. ring. }
  assert (ENH : forall P Q R S T U, 0 <= P -> 0 <= Q -> 0 <= U -> 0 < s t0 -> is_derive (fun t : Rdefinitions.R => fst (PW91_Enhancement (s t) P Q R S T U)) t0 (s' * snd (PW91_Enhancement (s t0) P Q R S T U))).
  { intros P Q R S T U HP HQ HU Hs. apply (along (fun s => fst (PW91_Enhancement s P Q R S T U)) s); [exact Ds|apply enh_derive; auto]. }
  destruct v; cbn [okSigma] in Ps; cbn [GGA_evalX].
  - apply PBE; lra.
  - apply PBE; lra.
  - specialize (ENH 0.19645 7.7956 0.2743 0.1508 100 0.004 ltac:(lra) ltac:(lra) ltac:(lra) Ps).
    apply (is_derive_ext (fun t : R => fst (slaterExchange (rs t)) * fst (PW91_Enhancement (s t) 0.19645 7.7956 0.2743 0.1508 100 0.004))). { intros t. destruct (slaterExchange (rs t)), (PW91_Enhancement (s t) _ _ _ _ _ _). reflexivity. }
    eapply dis; [apply dmul; [exact SL|exact ENH]|]. cbv beta. destruct (slaterExchange (rs t0)) as [e e'], (PW91_Enhancement (s t0) _ _ _ _ _ _) as [F F']. cbn [fst snd x_rs x_s2]. ring.
  - cbn [x_e x_rs x_s2]. generalize (1 * 3 / 4 * cpow (1.5 * PI * PI) (1 / 3)). intros K.
    assert (DQ : is_derive (fun t : R => cpow (1 / rs t) 2) t0 (rs' * (-2 * cpow (1 / rs t0) 2 / rs t0))) by (apply (along (fun r => cpow (1 / r) 2) rs); [exact Dr|apply sq_derive; exact Pr]).
    eapply dis; [apply dmul; [apply dscal; exact DQ|exact Ds]|]. cbv beta. generalize (cpow (1 / rs t0) 2). intros q. field. lra.
  - specialize (ENH 0.093907 76.320 0.26608 0.0809615 100 0.000057767 ltac:(lra) ltac:(lra) ltac:(lra) Ps).
    apply (is_derive_ext (fun t : R => fst (TFKinetic (rs t)) * fst (PW91_Enhancement (s t) 0.093907 76.320 0.26608 0.0809615 100 0.000057767))). { intros t. destruct (TFKinetic (rs t)), (PW91_Enhancement (s t) _ _ _ _ _ _). reflexivity. }
    eapply dis; [apply dmul; [exact TF|exact ENH]|]. cbv beta. destruct (TFKinetic (rs t0)) as [e e'], (PW91_Enhancement (s t0) _ _ _ _ _ _) as [F F']. cbn [fst snd x_rs x_s2]. ring.
Qed.

Definition pre (c : R) : R := (0.25 * c * c) * cpow (3 * PI * PI) (-2/3).
Lemma pre_pos c : 0 < c -> 0 < pre c.
Proof. intros H. unfold pre. pose proof PI_RGT_0. apply Rmult_lt_0_compat; [nra|apply cpow_gt0; nra]. Qed.
Lemma calcX_val v c k n sigma : ~ n * c < nCutoff -> i_E (calcX v c k n sigma) = k * (n * x_e (GGA_evalX v (rsOf (n * c)) (cpow (n * c) (-8/3) * pre c * sigma))).
Proof.
  intros H. unfold calcX. destruct (Rlt_dec (n * c) nCutoff); [tauto|]. cbv zeta. fold (rsOf (n * c)). fold (pre c). destruct (GGA_evalX v (rsOf (n * c)) (cpow (n * c) (-8/3) * pre c * sigma)). reflexivity.
Qed.
Lemma calcX_derive v c k n sigma d ds : 0 < c -> n * c <> nCutoff -> okSigma v sigma ->
  is_derive (fun t : R => i_E (calcX v c k (n + t * d) (sigma + t * ds))) 0 (i_n (calcX v c k n sigma) * d + i_sigma (calcX v c k n sigma) * ds).
Proof.
  intros Hc Hn Hs. pose proof cutoff_pos as PC.
  assert (DN : is_derive (fun t : R => (n + t * d) * c) 0 (d * c)) by (auto_derive; [exact I|ring]).
  destruct (Rtotal_order (n * c) nCutoff) as [L|[E|G]]; [|contradiction|].
  - unfold calcX at 2 3. destruct (Rlt_dec (n * c) nCutoff); [|lra]. cbn [i_n i_sigma].
    apply (is_derive_ext_loc (fun _ => 0)). 2: { replace (0 * d + 0 * ds) with 0 by ring. apply (is_derive_const (V := R_NormedModule)). }
    assert (LO : locally 0 (fun t : R => n * c - 1 < (n + t * d) * c < nCutoff)) by (apply (loc_between (fun t : R => (n + t * d) * c) 0 (d * c)); [exact DN|rewrite Rmult_0_l, Rplus_0_r; lra]).
    revert LO. apply filter_imp. intros t Ht. unfold calcX. destruct (Rlt_dec ((n + t * d) * c) nCutoff); [reflexivity|lra].
  - assert (LO : locally 0 (fun t : R => nCutoff < (n + t * d) * c < n * c + 1)) by (apply (loc_between (fun t : R => (n + t * d) * c) 0 (d * c)); [exact DN|rewrite Rmult_0_l, Rplus_0_r; lra]).
    assert (Pn : 0 < n) by nra.
    set (rs := fun t : R => rsOf ((n + t * d) * c)). set (s := fun t : R => cpow ((n + t * d) * c) (-8/3) * pre c * (sigma + t * ds)).
    apply (is_derive_ext_loc (fun t : R => k * ((n + t * d) * x_e (GGA_evalX v (rs t) (s t))))).
    { revert LO. apply filter_imp. intros t Ht. rewrite calcX_val by lra. reflexivity. }
    assert (N0 : (n + 0 * d) * c = n * c) by ring. assert (NN : 0 < (n + 0 * d) * c) by (rewrite N0; lra).
    assert (Dr : is_derive rs 0 (d * c * (- rsOf ((n + 0 * d) * c) / (3 * ((n + 0 * d) * c))))) by (apply (along rsOf (fun t => (n + t * d) * c)); [exact DN|apply rs_derive; exact NN]).
    assert (Ds : is_derive s 0 (d * c * ((-8/3) * cpow ((n + 0 * d) * c) (-8/3) / ((n + 0 * d) * c)) * pre c * (sigma + 0 * ds) + cpow ((n + 0 * d) * c) (-8/3) * pre c * ds)).
    { apply (dmul (fun t : R => cpow ((n + t * d) * c) (-8/3) * pre c) (fun t : R => sigma + t * ds)).
      - apply dis with (d * c * ((-8/3) * cpow ((n + 0 * d) * c) (-8/3) / ((n + 0 * d) * c)) * pre c + cpow ((n + 0 * d) * c) (-8/3) * 0); [|ring].
        apply (dmul (fun t : R => cpow ((n + t * d) * c) (-8/3)) (fun _ => pre c)); [apply (along (fun x => cpow x (-8/3)) (fun t => (n + t * d) * c)); [exact DN|apply cpow_derive; exact NN]|apply (is_derive_const (V := R_NormedModule))].
      - auto_derive; [exact I|ring]. }
    assert (S0 : okSigma v (s 0)). { unfold s. replace (sigma + 0 * ds) with sigma by ring. assert (0 < cpow ((n + 0 * d) * c) (-8/3) * pre c) by (apply Rmult_lt_0_compat; [apply cpow_gt0; exact NN|apply pre_pos; exact Hc]). destruct v; cbn [okSigma] in *; first [apply Rmult_lt_0_compat; lra|apply Rmult_le_pos; lra]. }
    assert (R0 : 0 < rs 0) by (apply rs_pos; exact NN).
    pose proof (evalX_curve v rs s 0 _ _ Dr Ds R0 S0) as EC. cbv beta in EC.
    assert (ED : is_derive (fun t : R => k * ((n + t * d) * x_e (GGA_evalX v (rs t) (s t)))) 0 (k * (d * x_e (GGA_evalX v (rs 0) (s 0)) + (n + 0 * d) * (x_rs (GGA_evalX v (rs 0) (s 0)) * (d * c * (- rsOf ((n + 0 * d) * c) / (3 * ((n + 0 * d) * c)))) +
      x_s2 (GGA_evalX v (rs 0) (s 0)) * (d * c * ((-8/3) * cpow ((n + 0 * d) * c) (-8/3) / ((n + 0 * d) * c)) * pre c * (sigma + 0 * ds) + cpow ((n + 0 * d) * c) (-8/3) * pre c * ds))))).
    { apply dscal. apply (dmul (fun t : R => n + t * d) (fun t : R => x_e (GGA_evalX v (rs t) (s t)))); [auto_derive; [exact I|ring]|exact EC]. }
    eapply dis; [exact ED|]. clear ED EC Dr Ds. unfold calcX. destruct (Rlt_dec (n * c) nCutoff); [lra|]. cbv zeta. fold (rsOf (n * c)). fold (pre c).
    unfold rs, s. rewrite !N0. replace (sigma + 0 * ds) with sigma by ring. replace (n + 0 * d) with n by ring.
    destruct (GGA_evalX v (rsOf (n * c)) (cpow (n * c) (-8/3) * pre c * sigma)) as [e er es]. cbn [x_e x_rs x_s2 i_n i_sigma]. generalize (rsOf (n * c)) (cpow (n * c) (-8/3)) (pre c). intros r q w. field. split; lra.
Qed.
Lemma calcX2_derive v k n0 n1 s0 s1 s2 d0 d1 e0 e1 e2 : n0 * 2 <> nCutoff -> n1 * 2 <> nCutoff -> okSigma v s0 -> okSigma v s2 ->
  let g := calcX2 v k n0 n1 s0 s1 s2 in
  is_derive (fun t : R => j_E (calcX2 v k (n0 + t * d0) (n1 + t * d1) (s0 + t * e0) (s1 + t * e1) (s2 + t * e2))) 0
    (j_n0 g * d0 + j_n1 g * d1 + j_sigma0 g * e0 + j_sigma1 g * e1 + j_sigma2 g * e2).
Proof.
  intros H0 H1 S0 S2 g. unfold g, calcX2. cbn [j_E j_n0 j_n1 j_sigma0 j_sigma1 j_sigma2].
  eapply dis; [apply dadd; apply calcX_derive; auto; lra|]. ring.
Qed.
Lemma calcX1_derive v k n s d e : n <> nCutoff -> okSigma v s ->
  is_derive (fun t : R => i_E (calcX1 v k (n + t * d) (s + t * e))) 0 (i_n (calcX1 v k n s) * d + i_sigma (calcX1 v k n s) * e).
Proof. intros H S. apply calcX_derive; [lra|lra|exact S]. Qed.
(** an unpolarized density split into equal spins *)
Lemma calcX_equal v k n s : j_E (calcX2 v k (n / 2) (n / 2) (s / 4) (s / 4) (s / 4)) = i_E (calcX1 v k n s) /\
  j_n0 (calcX2 v k (n / 2) (n / 2) (s / 4) (s / 4) (s / 4)) = i_n (calcX1 v k n s) /\ j_n1 (calcX2 v k (n / 2) (n / 2) (s / 4) (s / 4) (s / 4)) = i_n (calcX1 v k n s).
Proof.
  unfold calcX2, calcX1, calcX. cbn [j_E j_n0 j_n1]. replace (n / 2 * 2) with n by field. replace (n * 1) with n by ring. destruct (Rlt_dec n nCutoff) as [L|L]; cbn [i_E i_n]; [split; [ring|split; reflexivity]|].
  cbv zeta. replace (cpow n (-8 / 3) * (0.25 * 2 * 2 * cpow (3 * PI * PI) (-2 / 3)) * (s / 4)) with (cpow n (-8 / 3) * (0.25 * 1 * 1 * cpow (3 * PI * PI) (-2 / 3)) * s) by field.
  destruct (GGA_evalX v _ _) as [e er es]. cbn [i_E i_n]. pose proof cutoff_pos. assert (N : n <> 0) by lra. split; [field|split; field; exact N].
Qed.

(** constants *)
Lemma cpow_mul x y p : 0 < x -> 0 < y -> cpow (x * y) p = cpow x p * cpow y p.
Proof. intros X Y. rewrite !cpow_pos by nra. apply eq_sym, Rpower_mult_distr; assumption. Qed.
Lemma cpow_two x : 0 < x -> cpow x 2 = x * x.
Proof. intros X. rewrite cpow_pos by exact X. replace 2 with (INR 2) by (cbn; ring). rewrite Rpower_pow by exact X. ring. Qed.
Lemma exps a b : 0 < a -> 0 < b -> ln a = ln b -> a = b.
Proof. intros A B E. apply ln_inv; assumption. Qed.
Lemma ln_cpow x p : 0 < x -> ln (cpow x p) = p * ln x.
Proof. intros X. rewrite cpow_pos by exact X. unfold Rpower. apply ln_exp. Qed.
Ltac lnx := repeat first [rewrite ln_cpow by auto | rewrite ln_mult by auto | rewrite ln_Rinv by auto].
Ltac pos := repeat first [lra | assumption | apply PI_RGT_0 | apply cpow_gt0 | apply Rmult_lt_0_compat | apply Rinv_0_lt_compat].

Lemma slater_const n : 0 < n -> fst (slaterExchange (rsOf n)) = -0.75 * cpow (3 / PI) (1/3) * cpow n (1/3).
Proof.
  intros H. pose proof PI_RGT_0 as P. unfold slaterExchange, rsOf. cbn [fst].
  assert (E : / cpow (4 * PI / 3 * n) (-1/3) * cpow (1.5 / PI) (2/3) = cpow (3 / PI) (1/3) * cpow n (1/3)).
  { unfold Rdiv. replace 1.5 with (3 * / 2) by lra. apply exps; [pos|pos|].
    assert (P1 : 0 < PI * / 3) by pos. repeat first [rewrite ln_mult by pos | rewrite ln_Rinv by pos | rewrite ln_cpow by pos].
    replace 4 with (2 * 2) by lra. rewrite ln_mult by lra. field. }
  set (a := cpow (4 * PI / 3 * n) (-1/3)) in *. assert (0 < a) by (unfold a; apply cpow_gt0; unfold Rdiv; pos). set (q := cpow (1.5 / PI) (2/3)) in *. transitivity (- (3/4) * (/ a * q)); [replace 0.75 with (3/4) by lra; field; lra|]. rewrite E. replace (-0.75) with (- (3/4)) by lra. ring.
Qed.
Lemma TF_const n : 0 < n -> fst (TFKinetic (rsOf n)) = 0.3 * cpow (3 * PI * PI) (2/3) * cpow n (2/3).
Proof.
  intros H. pose proof PI_RGT_0 as P. unfold TFKinetic, rsOf. cbn [fst].
  assert (E : cpow (1.5 * PI * PI) (1/3) * cpow (1 / cpow (4 * PI / 3 * n) (-1/3)) 2 = 2 * / 3 * (cpow (3 * PI * PI) (2/3) * cpow n (2/3))).
  { unfold Rdiv. replace 1.5 with (3 * / 2) by lra. apply exps; [pos|pos|].
    repeat first [rewrite ln_mult by pos | rewrite ln_Rinv by pos | rewrite ln_cpow by pos | rewrite ln_1]. replace 4 with (2 * 2) by lra. rewrite ln_mult by lra. field. }
  rewrite Rmult_assoc, E. lra.
Qed.
Lemma VW_val k n s : nCutoff <= n -> i_E (calcX1 KE_VW k n s) = k * (s / (8 * n)).
Proof.
  intros H0. pose proof cutoff_pos as PC. assert (H : 0 < n) by lra. pose proof PI_RGT_0 as P. unfold calcX1. rewrite calcX_val by lra. rewrite Rmult_1_r. cbn [GGA_evalX x_e]. unfold pre, rsOf.
  assert (E : cpow (1.5 * PI * PI) (1/3) * cpow (1 / cpow (4 * PI / 3 * n) (-1/3)) 2 * (cpow n (-8/3) * cpow (3 * PI * PI) (-2/3)) = 2 * / 3 * / (n * n)).
  { unfold Rdiv. replace 1.5 with (3 * / 2) by lra. apply exps; [pos|pos|].
    repeat first [rewrite ln_mult by pos | rewrite ln_Rinv by pos | rewrite ln_cpow by pos | rewrite ln_1]. replace 4 with (2 * 2) by lra. rewrite ln_mult by lra. field. }
  f_equal. transitivity (n * (3 / 16 * (cpow (1.5 * PI * PI) (1/3) * cpow (1 / cpow (4 * PI / 3 * n) (-1/3)) 2 * (cpow n (-8/3) * cpow (3 * PI * PI) (-2/3))) * s)).
  - replace 0.25 with (/ 4) by lra. field.
  - rewrite E. field. lra.
Qed.
Lemma enh_0 P Q R S T U : fst (PW91_Enhancement 0 P Q R S T U) = 1.
Proof. unfold PW91_Enhancement. cbv zeta. cbn [fst]. rewrite sqrt_0, !Rmult_0_r, !Rmult_0_l. field. Qed.
(** no gradient: the local functionals *)
Lemma calcX_uniform k n : nCutoff <= n -> i_E (calcX1 X_PBE k n 0) = fst (LDA_calc1 X_Slater k n) /\ i_E (calcX1 X_PBEsol k n 0) = fst (LDA_calc1 X_Slater k n) /\
  i_E (calcX1 X_PW91 k n 0) = fst (LDA_calc1 X_Slater k n) /\ i_E (calcX1 KE_PW91 k n 0) = fst (LDA_calc1 KE_TF k n).
Proof.
  intros H. pose proof cutoff_pos. assert (Hn : 0 < n) by lra. unfold calcX1. rewrite !calcX_val by lra. rewrite !Rmult_1_r, Rmult_0_r. cbn [LDA_calc1]. unfold Slater_spin, TF_spin. cbn [fst]. rewrite !Rmult_1_r.
  pose proof (slater_const n Hn) as SL. pose proof (TF_const n Hn) as TF. cbn [GGA_evalX]. unfold GGA_PBE_exchange.
  destruct (slaterExchange (rsOf n)) as [e e'], (TFKinetic (rsOf n)) as [t t']. cbn [fst] in SL, TF.
  pose proof (enh_0 0.19645 7.7956 0.2743 0.1508 100 0.004) as E1. pose proof (enh_0 0.093907 76.320 0.26608 0.0809615 100 0.000057767) as E2.
  destruct (PW91_Enhancement 0 0.19645 _ _ _ _ _) as [F F'], (PW91_Enhancement 0 0.093907 _ _ _ _ _) as [F2 F2']. cbn [fst] in E1, E2. cbn [x_e]. rewrite E1, E2, SL, TF. clear.
  generalize (cpow (3 / PI) (1/3)) (cpow (3 * PI * PI) (2/3)) (cpow n (1/3)) (cpow n (2/3)). intros a b x y.
  repeat split; field; repeat split; lra.
Qed.
(** bounds of the enhancement factor *)
Lemma PBE_bounds v rs s : (v = X_PBE \/ v = X_PBEsol) -> 0 < rs -> 0 <= s -> 1.804 * fst (slaterExchange rs) < x_e (GGA_evalX v rs s) <= fst (slaterExchange rs) /\ x_s2 (GGA_evalX v rs s) < 0.
Proof.
  intros V Hr Hs. assert (SL : fst (slaterExchange rs) < 0).
  { unfold slaterExchange. cbn [fst]. assert (0 < cpow (1.5 / PI) (2/3)) by (apply cpow_gt0; apply Rdiv_lt_0_compat; [lra|apply PI_RGT_0]). assert (0 < / rs) by (apply Rinv_0_lt_compat; lra). unfold Rdiv. nra. }
  assert (G : forall m, 0 < m -> 1.804 * fst (slaterExchange rs) < x_e (GGA_PBE_exchange 0.804 m rs s) <= fst (slaterExchange rs) /\ x_s2 (GGA_PBE_exchange 0.804 m rs s) < 0).
  { intros m Hm. unfold GGA_PBE_exchange. destruct (slaterExchange rs) as [e e']. cbn [fst] in SL |- *. cbn [x_e x_s2]. assert (0 < 0.804 / m) by (apply Rdiv_lt_0_compat; lra). set (q := 0.804 / m) in *. clearbody q.
    set (fr := -1 / (q + s)). assert (F1 : fr * (q + s) = -1) by (unfold fr; field; lra). assert (F2 : fr < 0) by nra. assert (F3 : - 1 <= q * fr < 0) by nra. clearbody fr.
    split; [split; nra|]. assert (0 < q * fr * fr) by nra. nra. }
  destruct V as [->| ->]; cbn [GGA_evalX]; apply G; lra.
Qed.
