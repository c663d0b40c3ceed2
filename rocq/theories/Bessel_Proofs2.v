(** Truncation error of the series for small arguments. *)
From Coq Require Import Reals List Lra Lia AltSeries.
From Coquelicot Require Import Coquelicot.
From Verif Require Import RealUtil Bessel_Model Bessel_Spec Bessel_Proofs.
Import ListNotations.
Local Open Scope R_scope.

Fixpoint u (l : nat) (y : R) (k : nat) : R := match k with O => 1 | S k => u l y k * (y / ((2 * INR k + 2) * (2 * INR k + 3 + 2 * INR l))) end.
Lemma step_INR k : INR (2 * k + 2) = 2 * INR k + 2. Proof. rewrite plus_INR, mult_INR. cbn [INR]. ring. Qed.
Lemma series_fold l y t n : fold_left (besselStep l y) (seq 0 n) (t, t) = (t * ((-1) ^ n * u l y n), t * sum_f_R0 (tg_alt (u l y)) n).
Proof.
  induction n as [|n IH]; [cbn [seq fold_left sum_f_R0 u pow]; unfold tg_alt; cbn [u pow]; f_equal; ring|].
  rewrite seq_S, fold_left_app, IH. cbn [fold_left Nat.add]. unfold besselStep. cbn [fst snd sum_f_R0]. rewrite step_INR. pose proof (pos_INR n). pose proof (pos_INR l).
  assert (t * ((-1) ^ n * u l y n) * (- y / ((2 * INR n + 2) * (2 * INR n + 2 + 2 * INR l + 1))) = t * ((-1) ^ S n * u l y (S n))) as E.
  { cbn [pow u]. field. split; lra. }
  rewrite E. f_equal. unfold tg_alt. ring.
Qed.
Lemma lead_ok l x : besselLead l x = x ^ l / oddFact (S l).
Proof.
  unfold besselLead. induction l as [|l IH]; [cbn [seq fold_left pow oddFact INR]; field|]. rewrite seq_S, fold_left_app. cbn [fold_left Nat.add]. rewrite IH. replace (INR (2 * l + 3)) with (2 * INR l + 3) by (rewrite plus_INR, mult_INR; cbn [INR]; ring).
  change (oddFact (S (S l))) with ((2 * INR (S l) + 1) * oddFact (S l)). rewrite S_INR. cbn [pow]. pose proof (oddFact_pos (S l)). pose proof (pos_INR l). field. repeat split; lra.
Qed.
Lemma u_closed l x k : u l (x * x) k = x ^ (2 * k) * oddFact (S l) / (evenFact k * oddFact (l + k + 1)).
Proof.
  induction k as [|k IH].
  - cbn [u Nat.mul pow]. replace (l + 0 + 1)%nat with (S l) by lia. unfold evenFact. cbn [pow fact]. change (INR 1) with 1. pose proof (oddFact_pos (S l)). cbn [Nat.add pow]. field. lra.
  - cbn [u]. rewrite IH, evenFact_S. replace (l + S k + 1)%nat with (S (l + k + 1)) by lia. replace (2 * S k)%nat with (S (S (2 * k))) by lia. cbn [pow oddFact]. fold (oddFact (l + k + 1)).
    pose proof (oddFact_pos (l + k + 1)). pose proof (evenFact_pos k). pose proof (pos_INR k). pose proof (pos_INR l). rewrite !plus_INR. cbn [INR]. field. repeat split; lra.
Qed.
Lemma term_ok l x k : (-1) ^ k * x ^ (2 * k + l) / (2 ^ k * INR (fact k) * oddFact (l + k + 1)) = besselLead l x * tg_alt (u l (x * x)) k.
Proof.
  unfold tg_alt. rewrite u_closed, lead_ok, pow_add. fold (evenFact k). pose proof (oddFact_pos (S l)). pose proof (oddFact_pos (l + k + 1)). pose proof (evenFact_pos k). field. repeat split; lra.
Qed.
Section Small.
  Variables (l : nat) (y : R).
  Hypothesis Hy : 0 <= y <= 3.
  Lemma ratio_le k : 0 <= y / ((2 * INR k + 2) * (2 * INR k + 3 + 2 * INR l)) <= 1 / 2.
  Proof.
    pose proof (pos_INR k). pose proof (pos_INR l). assert (6 <= (2 * INR k + 2) * (2 * INR k + 3 + 2 * INR l)) as B by nra. split; [apply Rdiv_le_0_compat; lra|]. apply Rle_div_l; lra.
  Qed.
  Lemma u_nonneg k : 0 <= u l y k. Proof. induction k; cbn [u]; [lra|]. apply Rmult_le_pos; [exact IHk|apply ratio_le]. Qed.
  Lemma u_geom k : u l y k <= (1 / 2) ^ k.
  Proof. induction k; cbn [u pow]; [lra|]. rewrite (Rmult_comm (1 / 2)). apply Rmult_le_compat; try apply ratio_le; [apply u_nonneg|exact IHk]. Qed.
  Lemma u_decr : Un_decreasing (u l y).
  Proof. intros k. cbn [u]. pose proof (ratio_le k). pose proof (u_nonneg k). nra. Qed.
  Lemma u_cv : Un_cv (u l y) 0.
  Proof.
    intros eps He. destruct (pow_lt_1_zero (1 / 2) ltac:(rewrite Rabs_pos_eq; lra) eps He) as [N H]. exists N. intros n Hn. specialize (H n Hn). rewrite Rabs_pos_eq in H by (apply pow_le; lra).
    unfold R_dist. rewrite Rminus_0_r, Rabs_pos_eq by apply u_nonneg. pose proof (u_geom n). lra.
  Qed.
  Lemma sum_exists : exists s, Un_cv (fun N => sum_f_R0 (tg_alt (u l y)) N) s /\ 
    u l y 8 - u l y 9 <= s - sum_f_R0 (tg_alt (u l y)) 7 <= u l y 8.
  Proof.
    destruct (alternated_series _ u_decr u_cv) as [s Hs]. exists s. split; [exact Hs|].
    pose proof (alternated_series_ineq _ s 4 u_decr u_cv Hs) as [A B].
    assert (sum_f_R0 (tg_alt (u l y)) (2 * 4) = sum_f_R0 (tg_alt (u l y)) 7 + u l y 8) as E8 by (change (sum_f_R0 (tg_alt (u l y)) (2 * 4)) with (sum_f_R0 (tg_alt (u l y)) 7 + (-1) ^ 8 * u l y 8); ring).
    assert (sum_f_R0 (tg_alt (u l y)) (S (2 * 4)) = sum_f_R0 (tg_alt (u l y)) (2 * 4) - u l y 9) as E9 by (change (sum_f_R0 (tg_alt (u l y)) (S (2 * 4))) with (sum_f_R0 (tg_alt (u l y)) (2 * 4) + (-1) ^ 9 * u l y 9); ring).
    lra.
  Qed.
End Small.
Lemma series_value l x : besselSeries l x = besselLead l x * sum_f_R0 (tg_alt (u l (x * x))) 7.
Proof. unfold besselSeries. rewrite series_fold. reflexivity. Qed.
Lemma small_sum l x : x * x <= 3 -> exists s, sphBessel l x (besselLead l x * s) /\ u l (x * x) 8 - u l (x * x) 9 <= s - sum_f_R0 (tg_alt (u l (x * x))) 7 <= u l (x * x) 8.
Proof.
  intros H. destruct (sum_exists l (x * x) ltac:(split; [nra|exact H])) as [s [A B]]. exists s. split; [|exact B]. unfold sphBessel.
  eapply is_series_ext; [intros k; symmetry; exact (term_ok l x k)|]. apply (is_series_scal (besselLead l x) (tg_alt (u l (x * x))) s). apply is_series_Reals. exact A.
Qed.
Lemma u_mono l y z k : 0 <= y <= z -> 0 <= u l y k <= u l z k.
Proof.
  intros H. induction k as [|k IH]; cbn [u]; [lra|]. pose proof (pos_INR k). pose proof (pos_INR l). assert (0 < (2 * INR k + 2) * (2 * INR k + 3 + 2 * INR l)) as P by (apply Rmult_lt_0_compat; lra).
  assert (0 <= y / ((2 * INR k + 2) * (2 * INR k + 3 + 2 * INR l)) <= z / ((2 * INR k + 2) * (2 * INR k + 3 + 2 * INR l))) as [A B] by (split; [apply Rdiv_le_0_compat; lra|apply Rmult_le_compat_r; [left; apply Rinv_0_lt_compat; exact P|lra]]).
  split; [apply Rmult_le_pos; tauto|apply Rmult_le_compat; tauto].
Qed.
Lemma u8_bound l : (l <= 6)%nat -> u l ((1 + 0.1 * INR l) * (1 + 0.1 * INR l)) 8 <= 4 / 10 ^ 15.
Proof.
  intros H. destruct l as [|[|[|[|[|[|[|l]]]]]]]; [| | | | | | |lia]; cbn [u INR]; lra.
Qed.
Lemma small_error l x : (l <= 6)%nat -> Rabs x <= 1 + 0.1 * INR l -> exists v, sphBessel l x v /\ Rabs (besselSeries l x - v) <= 4 / 10 ^ 15 * (Rabs x ^ l / oddFact (S l)).
Proof.
  intros Hl Hx. assert (INR l <= 6) as L6 by (apply le_INR in Hl; cbn in Hl; lra). pose proof (pos_INR l). assert (x * x <= (1 + 0.1 * INR l) * (1 + 0.1 * INR l)) as X2 by (apply Rabs_le_between in Hx; nra).
  destruct (small_sum l x ltac:(nra)) as [s [A B]]. exists (besselLead l x * s). split; [exact A|]. rewrite series_value.
  replace (besselLead l x * sum_f_R0 (tg_alt (u l (x * x))) 7 - besselLead l x * s) with (besselLead l x * - (s - sum_f_R0 (tg_alt (u l (x * x))) 7)) by ring.
  rewrite Rabs_mult, Rabs_Ropp, lead_ok. pose proof (oddFact_pos (S l)) as P. assert (Rabs (x ^ l / oddFact (S l)) = Rabs x ^ l / oddFact (S l)) as -> by (unfold Rdiv; rewrite Rabs_mult, <- RPow_abs, (Rabs_pos_eq (/ _)); [reflexivity|left; apply Rinv_0_lt_compat; exact P]).
  rewrite Rmult_comm. apply Rmult_le_compat_r; [apply Rdiv_le_0_compat; [apply pow_le, Rabs_pos|exact P]|].
  pose proof (u_decr l (x * x) ltac:(split; nra) 8%nat) as D. pose proof (u_mono l _ _ 8 (conj (Rle_0_sqr x) X2)) as M. pose proof (u8_bound l Hl). unfold Rsqr in M. rewrite Rabs_pos_eq; lra.
Qed.
(** the truncation error at the crossover of l = 0 *)
Lemma crossover_error : exists v, sphBessel 0 1 v /\ bessel_jl 0 1 < v * (1 - 3 / 10 ^ 15).
Proof.
  destruct (small_sum 0 1 ltac:(lra)) as [s [A B]]. exists (besselLead 0 1 * s). split; [exact A|]. unfold bessel_jl. destruct (Rlt_dec _ _) as [C|_]; [rewrite Rabs_R1 in C; cbn [INR] in C; lra|]. rewrite series_value, lead_ok.
  assert (oddFact 1 = 1) as -> by (cbn [oddFact INR]; ring). cbn [pow]. rewrite (Rmult_1_l 1) in *. replace (1 / 1) with 1 by field. rewrite !Rmult_1_l.
  assert (u 0 1 8 > 281 / 10 ^ 17) as U8 by (cbn [u INR]; lra). assert (u 0 1 8 < 282 / 10 ^ 17) as U8' by (cbn [u INR]; lra). assert (u 0 1 9 < 1 / 10 ^ 17) as U9 by (change (u 0 1 9) with (u 0 1 8 * (1 / ((2 * INR 8 + 2) * (2 * INR 8 + 3 + 2 * INR 0)))); replace (1 / ((2 * INR 8 + 2) * (2 * INR 8 + 3 + 2 * INR 0))) with (1 / 342) by (cbn [INR]; lra); lra).
  assert (sum_f_R0 (tg_alt (u 0 1)) 7 < 85 / 100) as S7 by (unfold tg_alt; cbn [sum_f_R0 pow u INR]; lra).
  set (S := sum_f_R0 _ 7) in *. assert (s <= S + u 0 1 8) by lra. lra.
Qed.
