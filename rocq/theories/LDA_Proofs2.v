(** Local density functionals: grid point level. *)
From Coq Require Import ZArith Reals List Bool Lia Lra Psatz.
From Coquelicot Require Import Coquelicot.
From Verif Require Import Base Spline_Proofs NLPCM_Proofs Cavity_Proofs2 FMT_Proofs2 LDA_Model LDA_Proofs.
Import ListNotations.
Open Scope R_scope.
Local Lemma half_is : 0.5 = / 2. Proof. lra. Qed.
Ltac req := match goal with |- ?a = ?b => change (@eq R a b) end.

Lemma rs_pos n : 0 < n -> 0 < rsOf n.
Proof. intros H. unfold rsOf. apply cpow_gt0. pose proof PI_RGT_0. apply Rmult_lt_0_compat; [lra|exact H]. Qed.
Lemma rs_derive n : 0 < n -> is_derive rsOf n (- rsOf n / (3 * n)).
Proof.
  intros H. unfold rsOf. pose proof PI_RGT_0. assert (0 < 4 * PI / 3) by lra. set (k := 4 * PI / 3) in *. clearbody k.
  evar_last. { apply (is_derive_comp (V := R_NormedModule) (fun x : R => cpow x (-1/3)) (fun n : R => k * n)); [apply cpow_derive; nra|]. instantiate (1 := k). auto_derive; [auto|ring]. }
  unfold scal; cbn. unfold mult; cbn. generalize (cpow (k * n) (-1/3)). intros. req. field. lra.
Qed.
Lemma cutoff_pos : 0 < nCutoff. Proof. unfold nCutoff. apply Rinv_0_lt_compat. lra. Qed.

Definition okPZ v n := v = LDA_of C_PZ -> rsOf n <> 1.
(** ** nCount = 2 *)
Lemma calc2_eval_derive v s n0 n1 d0 d1 : 0 < n0 -> 0 < n1 -> nCutoff < n0 + n1 -> (v = C_PZ -> rsOf (n0 + n1) <> 1) ->
  let '(g0, g1) := snd (calc2_eval v s n0 n1) in
  is_derive (fun t : R => fst (calc2_eval v s (n0 + t * d0) (n1 + t * d1))) 0 (g0 * d0 + g1 * d1).
Proof.
  intros P0 P1 PT NZ. pose proof cutoff_pos as PC.
  set (nT := fun t : R => (n0 + t * d0) + (n1 + t * d1)). set (z := fun t : R => ((n0 + t * d0) - (n1 + t * d1)) / nT t).
  assert (N0 : nT 0 = n0 + n1) by (unfold nT; ring).
  assert (DN : is_derive nT 0 (d0 + d1)) by (unfold nT; auto_derive; auto; ring).
  assert (Drs : is_derive (fun t : R => rsOf (nT t)) 0 ((d0 + d1) * (- rsOf (nT 0) / (3 * nT 0)))).
  { apply (is_derive_comp (V := R_NormedModule) rsOf nT); [apply rs_derive; lra|exact DN]. }
  assert (Dz : is_derive z 0 (((d0 - d1) * nT 0 - (n0 - n1) * (d0 + d1)) / (nT 0 * nT 0))).
  { unfold z. evar_last. { apply (is_derive_div (fun t : R => (n0 + t * d0) - (n1 + t * d1)) nT); [instantiate (1 := d0 - d1); auto_derive; [auto|ring]|exact DN|lra]. }
    cbv beta. rewrite N0. field. lra. }
  assert (Z0 : z 0 = (n0 - n1) / (n0 + n1)) by (unfold z; rewrite N0; f_equal; ring).
  assert (Pz : -1 < z 0 < 1). { rewrite Z0. split; [apply Rlt_div_r; lra|apply Rlt_div_l; lra]. }
  assert (PR0 : 0 < rsOf (nT 0)) by (apply rs_pos; lra). assert (NZ0 : v = C_PZ -> rsOf (nT 0) <> 1) by (rewrite N0; exact NZ).
  pose proof (eval_curve (fun t : R => rsOf (nT t)) z 0 _ _ Drs Dz Pz v PR0 NZ0) as EC. cbv beta in EC.
  assert (ED : is_derive (fun t : R => s * (nT t * vE (LDA_eval v (rsOf (nT t)) (z t)))) 0
    (s * ((d0 + d1) * vE (LDA_eval v (rsOf (nT 0)) (z 0)) + nT 0 * dE ((d0 + d1) * (- rsOf (nT 0) / (3 * nT 0))) (((d0 - d1) * nT 0 - (n0 - n1) * (d0 + d1)) / (nT 0 * nT 0)) (LDA_eval v (rsOf (nT 0)) (z 0))))).
  { apply is_derive_scal. apply (is_derive_mult (K := R_AbsRing)); [exact DN|exact EC|apply Rmult_comm]. }
  clear EC Drs Dz. rewrite Z0, N0 in ED. unfold calc2_eval at 1. destruct (Rlt_dec (n0 + n1) nCutoff); [lra|].
  assert (LOC : locally 0 (fun t : R => s * (nT t * vE (LDA_eval v (rsOf (nT t)) (z t))) = fst (calc2_eval v s (n0 + t * d0) (n1 + t * d1)))).
  { assert (L : locally 0 (fun t : R => nCutoff < nT t < n0 + n1 + 1)) by (apply (loc_between nT 0 (d0 + d1)); [exact DN|lra]).
    revert L. apply filter_imp. intros t Ht. unfold calc2_eval. fold (nT t). destruct (Rlt_dec (nT t) nCutoff); [lra|]. fold (z t).
    destruct (LDA_eval v (rsOf (nT t)) (z t)) as [[e er] ez]. reflexivity. }
  destruct (LDA_eval v (rsOf (n0 + n1)) ((n0 - n1) / (n0 + n1))) as [[e er] ez]. cbn [snd].
  apply (is_derive_ext_loc _ _ _ _ LOC). evar_last; [exact ED|]. unfold vE, dE. cbn [fst snd].
  generalize (rsOf (n0 + n1)). intros r. req. field. lra.
Qed.
Lemma calc1_eval_derive v s n : nCutoff < n -> (v = C_PZ -> rsOf n <> 1) -> is_derive (fun n : R => fst (calc1_eval v s n)) n (snd (calc1_eval v s n)).
Proof.
  intros PT NZ. pose proof cutoff_pos as PC.
  assert (Pz : -1 < (fun _ : R => 0) n < 1) by lra.
  assert (Dz : is_derive (fun _ : R => 0) n 0) by (apply (is_derive_const (V := R_NormedModule) 0 n)).
  assert (PR0 : 0 < rsOf n) by (apply rs_pos; lra).
  pose proof (eval_curve rsOf (fun _ => 0) n _ _ (rs_derive n ltac:(lra)) Dz Pz v PR0 NZ) as EC. cbv beta in EC.
  assert (ED : is_derive (fun n : R => s * (n * vE (LDA_eval v (rsOf n) 0))) n
    (s * (1 * vE (LDA_eval v (rsOf n) 0) + n * dE (- rsOf n / (3 * n)) 0 (LDA_eval v (rsOf n) 0)))).
  { apply is_derive_scal. apply (is_derive_mult (K := R_AbsRing)); [apply (is_derive_id (K := R_AbsRing))|exact EC|apply Rmult_comm]. }
  assert (LOC : locally n (fun n : R => s * (n * vE (LDA_eval v (rsOf n) 0)) = fst (calc1_eval v s n))).
  { apply (filter_imp (fun y => nCutoff < y < n + 1)); [|apply near; lra]. intros y Hy. unfold calc1_eval. destruct (Rlt_dec y nCutoff); [lra|].
    destruct (LDA_eval v (rsOf y) 0) as [[e er] ez]. reflexivity. }
  apply (is_derive_ext_loc _ _ _ _ LOC). evar_last; [exact ED|]. clear ED EC LOC. unfold calc1_eval. destruct (Rlt_dec n nCutoff); [lra|].
  assert (Ez : snd (LDA_eval v (rsOf n) 0) = 0).
  { destruct v; cbn [LDA_eval]; rewrite ?interp2_value, ?interp3_value; cbn [snd]; rewrite ?(proj2 fz_0), ?(proj1 fz_0); try ring.
    unfold eval_XC_Teter. pose proof (proj2 fz_0) as F. unfold fz' in F. destruct (spinInterpolation 0) as [f f']. cbn [snd] in F |- *. rewrite F. unfold Rdiv. ring. }
  destruct (LDA_eval v (rsOf n) 0) as [[e er] ez]. unfold vE, dE. cbn [fst snd] in Ez |- *. subst ez. generalize (rsOf n). intros r. req. field. lra.
Qed.
Lemma TF_derive c s n : 0 < c -> 0 < n -> is_derive (fun n : R => fst (TF_spin c s n)) n (snd (TF_spin c s n)).
Proof.
  intros Hc H. unfold TF_spin. cbn [fst snd]. set (k := 0.3 / c * cpow (3 * PI * PI) (2/3)). clearbody k.
  assert (D : is_derive (fun n : R => cpow (n * c) (2/3)) n (c * (2/3 * cpow (n * c) (2/3) / (n * c)))).
  { apply (is_derive_comp (V := R_NormedModule) (fun x : R => cpow x (2/3)) (fun n : R => n * c)); [apply cpow_derive; nra|]. auto_derive; [auto|ring]. }
  evar_last. { apply is_derive_scal. apply (is_derive_mult (K := R_AbsRing)); [apply is_derive_scal; exact D| |apply Rmult_comm]. instantiate (1 := c). auto_derive; [auto|ring]. }
  unfold plus, mult; cbn. generalize (cpow (n * c) (2/3)). intros. req. field. lra.
Qed.
Lemma Slater_derive c s n : 0 < c -> 0 < n -> is_derive (fun n : R => fst (Slater_spin c s n)) n (snd (Slater_spin c s n)).
Proof.
  intros Hc H. unfold Slater_spin. cbn [fst snd]. set (k := -0.75 / c * cpow (3 / PI) (1/3)). clearbody k.
  assert (D : is_derive (fun n : R => cpow (n * c) (1/3)) n (c * (1/3 * cpow (n * c) (1/3) / (n * c)))).
  { apply (is_derive_comp (V := R_NormedModule) (fun x : R => cpow x (1/3)) (fun n : R => n * c)); [apply cpow_derive; nra|]. auto_derive; [auto|ring]. }
  evar_last. { apply is_derive_scal. apply (is_derive_mult (K := R_AbsRing)); [apply is_derive_scal; exact D| |apply Rmult_comm]. instantiate (1 := c). auto_derive; [auto|ring]. }
  unfold plus, mult; cbn. generalize (cpow (n * c) (1/3)). intros. req. field. lra.
Qed.
Lemma both_derive (f : R -> R * R) n0 n1 d0 d1 : is_derive (fun n : R => fst (f n)) n0 (snd (f n0)) -> is_derive (fun n : R => fst (f n)) n1 (snd (f n1)) ->
  let '(g0, g1) := snd (bothSpins f n0 n1) in is_derive (fun t : R => fst (bothSpins f (n0 + t * d0) (n1 + t * d1))) 0 (g0 * d0 + g1 * d1).
Proof.
  intros A B. unfold bothSpins at 1.
  assert (C : forall n d, is_derive (fun n : R => fst (f n)) n (snd (f n)) -> is_derive (fun t : R => fst (f (n + t * d))) 0 (d * snd (f n))).
  { intros n d D. apply (is_derive_comp (V := R_NormedModule) (fun n : R => fst (f n)) (fun t : R => n + t * d)); [cbv beta; rewrite Rmult_0_l, Rplus_0_r; exact D|]. auto_derive; [auto|ring]. }
  apply (C n0 d0) in A. apply (C n1 d1) in B. destruct (f n0) as [e0 g0], (f n1) as [e1 g1]. cbn [snd] in *.
  apply (is_derive_ext (fun t : R => fst (f (n0 + t * d0)) + fst (f (n1 + t * d1)))).
  { intros t. unfold bothSpins. destruct (f (n0 + t * d0)), (f (n1 + t * d1)). reflexivity. }
  evar_last. { apply (is_derive_plus (V := R_NormedModule)); [exact A|exact B]. } unfold plus; cbn. req. ring.
Qed.
Lemma lda_derive2 v s n0 n1 d0 d1 : 0 < n0 -> 0 < n1 -> nCutoff < n0 + n1 -> okPZ v (n0 + n1) ->
  let '(g0, g1) := snd (LDA_calc2 v s n0 n1) in
  is_derive (fun t : R => fst (LDA_calc2 v s (n0 + t * d0) (n1 + t * d1))) 0 (g0 * d0 + g1 * d1).
Proof.
  intros A B C D. destruct v as [| |v]; cbn [LDA_calc2].
  - apply both_derive; apply Slater_derive; lra.
  - apply both_derive; apply TF_derive; lra.
  - apply calc2_eval_derive; try assumption. intros ->. apply D. reflexivity.
Qed.
Lemma lda_derive1 v s n : nCutoff < n -> okPZ v n -> is_derive (fun n : R => fst (LDA_calc1 v s n)) n (snd (LDA_calc1 v s n)).
Proof.
  intros A B. pose proof cutoff_pos. destruct v as [| |v]; cbn [LDA_calc1].
  - apply Slater_derive; lra.
  - apply TF_derive; lra.
  - apply calc1_eval_derive; [assumption|]. intros ->. apply B. reflexivity.
Qed.

(** ** spin symmetry *)
Lemma p3 (a b c a' b' c' : R) : a = a' -> b = b' -> c = c' -> (a, b, c) = (a', b', c').
Proof. congruence. Qed.
Lemma eval_even v r z : LDA_eval v r (- z) = (fst (fst (LDA_eval v r z)), snd (fst (LDA_eval v r z)), - snd (LDA_eval v r z)).
Proof.
  destruct (fz_even z) as [E1 E2].
  destruct v; cbn [LDA_eval]; rewrite ?interp2_value, ?interp3_value; cbn [fst snd]; rewrite ?E1, ?E2; try (apply p3; ring).
  unfold eval_XC_Teter. unfold fz, fz' in E1, E2. destruct (spinInterpolation (-z)) as [a a'], (spinInterpolation z) as [b b']. cbn [fst snd] in *. subst.
  f_equal. unfold Rdiv. ring.
Qed.
Lemma lda_swap v s n0 n1 : LDA_calc2 v s n1 n0 = (fst (LDA_calc2 v s n0 n1), (snd (snd (LDA_calc2 v s n0 n1)), fst (snd (LDA_calc2 v s n0 n1)))).
Proof.
  assert (B : forall f, bothSpins f n1 n0 = (fst (bothSpins f n0 n1), (snd (snd (bothSpins f n0 n1)), fst (snd (bothSpins f n0 n1))))).
  { intros f. unfold bothSpins. destruct (f n0), (f n1). cbn. f_equal. ring. }
  destruct v as [| |v]; cbn [LDA_calc2]; [apply B|apply B|]. unfold calc2_eval. rewrite (Rplus_comm n1 n0).
  destruct (Rlt_dec (n0 + n1) nCutoff); [reflexivity|].
  replace ((n1 - n0) / (n0 + n1)) with (- ((n0 - n1) / (n0 + n1))) by (unfold Rdiv; ring). rewrite eval_even.
  destruct (LDA_eval v (rsOf (n0 + n1)) ((n0 - n1) / (n0 + n1))) as [[e er] ez]. cbn [fst snd]. f_equal. f_equal; ring.
Qed.
(** ** equal spins: the unpolarized calculation *)
Lemma lda_unpolarized v s n : 0 <= n -> fst (LDA_calc2 v s (n/2) (n/2)) = fst (LDA_calc1 v s n) /\
  fst (snd (LDA_calc2 v s (n/2) (n/2))) = snd (LDA_calc1 v s n) /\ snd (snd (LDA_calc2 v s (n/2) (n/2))) = snd (LDA_calc1 v s n).
Proof.
  intros Hn. destruct v as [| |v]; cbn [LDA_calc2 LDA_calc1].
  - unfold bothSpins, Slater_spin. cbn [fst snd]. replace (n / 2 * 2) with n by field. rewrite Rmult_1_r. repeat split; lra.
  - unfold bothSpins, TF_spin. cbn [fst snd]. replace (n / 2 * 2) with n by field. rewrite Rmult_1_r. repeat split; lra.
  - unfold calc2_eval, calc1_eval. replace (n / 2 + n / 2) with n by field. replace ((n / 2 - n / 2) / n) with 0 by (unfold Rdiv; ring).
    destruct (Rlt_dec n nCutoff); [repeat split|].
    assert (Ez : snd (LDA_eval v (rsOf n) 0) = 0).
    { pose proof (eval_even v (rsOf n) 0) as E. rewrite Ropp_0 in E. apply (f_equal snd) in E. cbn in E. lra. }
    destruct (LDA_eval v (rsOf n) 0) as [[e er] ez]. cbn [fst snd] in *. subst ez. repeat split; ring.
Qed.
(** ** full polarization: the ferromagnetic functor *)
Lemma eval_ferro r : fst (LDA_eval C_PZ r 1) = eval_C_PZ false r /\ fst (LDA_eval C_PW r 1) = eval_C_PW Ferro false r /\
  fst (LDA_eval C_PW_prec r 1) = eval_C_PW Ferro true r /\ fst (LDA_eval C_VWN r 1) = eval_C_VWN Ferro r.
Proof.
  assert (P : forall a b : R * R, fst a = fst b -> snd a = snd b -> a = b) by (intros [] []; cbn; congruence).
  repeat split; cbn [LDA_eval]; rewrite ?interp2_value, ?interp3_value, fz_1; apply P; cbn [fst snd]; ring.
Qed.
(** ** negative correlation energy of Perdew-Wang *)
Lemma PW_negative s prec rs : 0 < rs -> fst (eval_C_PW s prec rs) < 0.
Proof.
  intros H. unfold eval_C_PW.
  assert (G : forall A al b1 b2 b3 b4, 0 < A -> 0 < al -> 0 < b1 -> 0 < b2 -> 0 < b3 -> 0 < b4 -> fst (PW_formula A al b1 b2 b3 b4 rs) < 0).
  { intros A al b1 b2 b3 b4 HA Ha H1 H2 H3 H4. unfold PW_formula. cbn [fst]. assert (S : 0 < sqrt rs) by (apply sqrt_lt_R0; lra). set (x := sqrt rs) in *. clearbody x.
    assert (P : 0 < b1 + x * (b2 + x * (b3 + x * b4))) by (assert (0 < b3 + x * b4) by nra; assert (0 < b2 + x * (b3 + x * b4)) by nra; nra).
    assert (PD : 0 < (2 * A) * x * (b1 + x * (b2 + x * (b3 + x * b4)))) by (apply Rmult_lt_0_compat; [nra|exact P]).
    assert (PI : 0 < 1 / ((2 * A) * x * (b1 + x * (b2 + x * (b3 + x * b4))))) by (apply Rdiv_lt_0_compat; lra).
    assert (0 < ln (1 + 1 / ((2 * A) * x * (b1 + x * (b2 + x * (b3 + x * b4)))))) by (rewrite <- ln_1; apply ln_increasing; lra).
    assert (0 < al * rs) by (apply Rmult_lt_0_compat; lra). assert (0 < (2 * A) * (1 + al * rs)) by (apply Rmult_lt_0_compat; lra). nra. }
  apply G; destruct s, prec; cbn; lra.
Qed.
(** ** the two branches of Perdew-Zunger do not meet at rs = 1 *)
Definition nPZ : R := 3 / (4 * PI).
Lemma rs_nPZ : rsOf nPZ = 1.
Proof. unfold rsOf, nPZ. pose proof PI_RGT_0. replace (4 * PI / 3 * (3 / (4 * PI))) with 1 by (field; lra). apply cpow_1. Qed.
Lemma PZ_jump : nCutoff < nPZ /\ forall l, ~ is_derive (fun n : R => fst (LDA_calc1 (LDA_of C_PZ) 1 n)) nPZ l.
Proof.
  pose proof PI_RGT_0 as PP. pose proof PI_4 as P4.
  assert (PN : nCutoff < nPZ). { unfold nCutoff, nPZ. apply Rlt_trans with (/ 10). { apply Rinv_lt_contravar; lra. } apply Rlt_div_r; lra. }
  split; [exact PN|]. intros l D. pose proof cutoff_pos.
  (* walk to the left of nPZ, i.e. rs > 1 *)
  set (h := fun t : R => fst (LDA_calc1 (LDA_of C_PZ) 1 (nPZ + t))).
  assert (Dh : is_derive h 0 (1 * l)).
  { unfold h. apply (is_derive_comp (V := R_NormedModule) (fun n : R => fst (LDA_calc1 (LDA_of C_PZ) 1 n)) (fun t : R => nPZ + t)); [rewrite Rplus_0_r; exact D|]. auto_derive; [auto|ring]. }
  set (g := fun t : R => (nPZ + t) * ((-0.1423) * (1 / (1 + 1.0529 * sqrt (rsOf (nPZ + t)) + 0.3334 * rsOf (nPZ + t))))).
  (* to the right of nPZ rs < 1: use the high density branch *)
  set (k := fun t : R => (nPZ + - t) * ((0.0311 + 0.0020 * rsOf (nPZ + - t)) * ln (rsOf (nPZ + - t)) + -0.0480 + -0.0116 * rsOf (nPZ + - t))).
  assert (Dm : is_derive (fun t : R => h (- t)) 0 (- (1 * l))).
  { evar_last. { apply (is_derive_comp (V := R_NormedModule) h (fun t : R => - t)). { rewrite Ropp_0. exact Dh. } instantiate (1 := -1). auto_derive; [auto|ring]. } unfold scal; cbn. unfold mult; cbn. req. ring. }
  assert (RS : forall n, 0 < n -> (n < nPZ -> 1 < rsOf n) /\ (nPZ < n -> rsOf n < 1)).
  { intros n Hn. rewrite <- rs_nPZ.
    assert (M : forall a b, 0 < a -> a < b -> rsOf b < rsOf a).
    { intros a b Ha Hab. unfold rsOf. rewrite !cpow_pos by (apply Rmult_lt_0_compat; lra). unfold Rpower. apply exp_increasing.
      assert (ln (4 * PI / 3 * a) < ln (4 * PI / 3 * b)); [|lra]. apply ln_increasing; [apply Rmult_lt_0_compat; lra|]. apply Rmult_lt_compat_l; lra. }
    split; intros L; apply M; lra. }
  assert (CR : ex_derive rsOf nPZ) by (eexists; apply rs_derive; lra).
  assert (E1 := left_agree (fun t : R => h (- t)) k _ Dm). cbv beta in E1. rewrite Ropp_0 in E1.
  assert (E : h 0 = k 0).
  { apply E1.
    - apply (ex_derive_continuous (V := R_NormedModule)). unfold k. pose proof (rs_pos nPZ ltac:(lra)) as RP. auto_derive.
      replace (nPZ + - 0) with nPZ by ring. repeat split; auto.
    - exists 1. split; [lra|]. intros t Ht. unfold h, k, LDA_calc1, calc1_eval. change (nPZ + - t) with (nPZ + - t). destruct (Rlt_dec (nPZ + - t) nCutoff); [lra|].
      cbn [LDA_eval]. rewrite interp2_value. rewrite (proj1 fz_0). cbn [fst snd]. unfold eval_C_PZ.
      destruct (Rlt_dec (rsOf (nPZ + - t)) 1) as [|N]; [|exfalso; apply N; apply RS; lra]. cbn [fst snd]. ring. }
  revert E. unfold h, k, LDA_calc1, calc1_eval. rewrite Ropp_0, Rplus_0_r. destruct (Rlt_dec nPZ nCutoff); [lra|]. rewrite rs_nPZ.
  cbn [LDA_eval]. rewrite interp2_value, (proj1 fz_0). cbn [fst snd]. unfold eval_C_PZ. destruct (Rlt_dec 1 1); [lra|]. cbn [fst snd]. rewrite sqrt_1, ln_1. intros E.
  assert (P0 : 0 < nPZ) by lra. clear - E P0.
  assert (F : -0.1423 * (1 / (1 + 1.0529 * 1 + 0.3334 * 1)) = -0.0480 + -0.0116).
  { apply (Rmult_eq_reg_l nPZ); [|lra]. lra. }
  lra.
Qed.
