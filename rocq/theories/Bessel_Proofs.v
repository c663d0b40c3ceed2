(** Spherical Bessel functions: closed forms and truncated series. *)
From Coq Require Import Reals List Lra Lia AltSeries.
From Coquelicot Require Import Coquelicot.
From Verif Require Import RealUtil Bessel_Model Bessel_Spec.
Import ListNotations.
Local Open Scope R_scope.

Lemma oddFact_pos n : 0 < oddFact n. Proof. induction n; cbn [oddFact]; [lra|]. pose proof (pos_INR n). apply Rmult_lt_0_compat; [lra|exact IHn]. Qed.
Definition evenFact (k : nat) : R := 2 ^ k * INR (fact k).
Lemma evenFact_S k : evenFact (S k) = (2 * INR k + 2) * evenFact k.
Proof. unfold evenFact. rewrite fact_simpl, mult_INR, S_INR. cbn [pow]. ring. Qed.
Lemma evenFact_pos k : 0 < evenFact k. Proof. unfold evenFact. apply Rmult_lt_0_compat; [apply pow_lt; lra|apply lt_0_INR, lt_O_fact]. Qed.
(** ** x j_(n-1) *)
Definition cterm (n : nat) (x : R) (k : nat) : R := (-1) ^ k * x ^ (2 * k + n) / (evenFact k * oddFact (n + k)).
Lemma series_eq (a : nat -> R) (v w : R) : v = w -> is_series a v -> is_series a w. Proof. intros ->. exact (fun H => H). Qed.
Lemma rec_zero n x : x <> 0 -> (2 * INR n + 1) / x * cterm (S n) x 0 - cterm n x 0 = 0.
Proof.
  intros N. unfold cterm, evenFact. cbn [pow fact Nat.mul Nat.add]. rewrite !Nat.add_0_r. cbn [oddFact]. pose proof (oddFact_pos n). pose proof (pos_INR n). cbn [INR]. field. repeat split; try lra; try exact N.
Qed.
Lemma rec_succ n x k : x <> 0 -> (2 * INR n + 1) / x * cterm (S n) x (S k) - cterm n x (S k) = cterm (S (S n)) x k.
Proof.
  intros N. unfold cterm. rewrite evenFact_S. replace (S n + S k)%nat with (S (S (n + k))) by lia. replace (n + S k)%nat with (S (n + k)) by lia. replace (S (S n) + k)%nat with (S (S (n + k))) by lia.
  replace (2 * S k + S n)%nat with (S (S (S (2 * k + n)))) by lia. replace (2 * S k + n)%nat with (S (S (2 * k + n))) by lia. replace (2 * k + S (S n))%nat with (S (S (2 * k + n))) by lia.
  cbn [oddFact pow]. rewrite !S_INR, plus_INR. pose proof (oddFact_pos (n + k)). pose proof (evenFact_pos k). pose proof (pos_INR n). pose proof (pos_INR k). field. repeat split; try exact N; nra.
Qed.
Lemma series_rec n x (u v : R) : x <> 0 -> is_series (cterm n x) u -> is_series (cterm (S n) x) v -> is_series (cterm (S (S n)) x) ((2 * INR n + 1) / x * v - u).
Proof.
  intros N HS HT. pose proof (is_series_minus _ _ _ _ (is_series_scal ((2 * INR n + 1) / x) _ _ HT) HS) as D.
  change (is_series (fun k => (2 * INR n + 1) / x * cterm (S n) x k - cterm n x k) ((2 * INR n + 1) / x * v - u)) in D.
  set (d := fun k => (2 * INR n + 1) / x * cterm (S n) x k - cterm n x k) in D. assert (is_series (fun k => d (S k)) ((2 * INR n + 1) / x * v - u)) as E.
  { apply is_series_incr_1. eapply series_eq; [|exact D]. change ((2 * INR n + 1) / x * v - u = ((2 * INR n + 1) / x * v - u) + d 0%nat). unfold d. rewrite rec_zero by exact N. ring. }
  eapply is_series_ext; [|exact E]. intros k. exact (rec_succ n x k N).
Qed.
Lemma fact2 k : INR (fact (2 * k)) = evenFact k * oddFact k.
Proof.
  induction k as [|k IH]; [unfold evenFact; cbn; ring|]. rewrite evenFact_S. cbn [oddFact]. replace (2 * S k)%nat with (S (S (2 * k))) by lia. rewrite !fact_simpl, !mult_INR, IH, !S_INR, mult_INR. cbn [INR]. ring.
Qed.
Lemma cos_series x : is_series (cterm 0 x) (cos x).
Proof.
  apply is_series_Reals. unfold cos. destruct (exist_cos (Rsqr x)) as [a Ha]. intros eps He. destruct (Ha eps He) as [N HN]. exists N. intros n Hn. specialize (HN n Hn). replace (sum_f_R0 (cterm 0 x) n) with (sum_f_R0 (fun i => cos_n i * Rsqr x ^ i) n); [exact HN|].
  apply sum_eq. intros i _. unfold cterm, cos_n. rewrite fact2, Nat.add_0_r, <- pow_Rsqr. cbn [Nat.add]. pose proof (oddFact_pos i). pose proof (evenFact_pos i). field. lra.
Qed.
Lemma sin_series x : is_series (cterm 1 x) (sin x).
Proof.
  apply is_series_Reals. unfold sin. destruct (exist_sin (Rsqr x)) as [a Ha]. intros eps He.
  destruct (Req_dec x 0) as [-> |N].
  - exists 0%nat. intros n _. rewrite Rmult_0_l. replace (sum_f_R0 (cterm 1 0) n) with 0; [unfold R_dist; rewrite Rminus_0_r, Rabs_R0; exact He|]. symmetry. apply sum_eq_R0. intros i _. unfold cterm. rewrite pow_ne_zero by lia. unfold Rdiv. ring.
  - assert (0 < eps / Rabs x) as He' by (apply Rdiv_lt_0_compat; [exact He|apply Rabs_pos_lt; exact N]). destruct (Ha _ He') as [M HM]. exists M. intros n Hn. specialize (HM n Hn).
    replace (sum_f_R0 (cterm 1 x) n) with (x * sum_f_R0 (fun i => sin_n i * Rsqr x ^ i) n).
    + unfold R_dist in *. rewrite <- Rmult_minus_distr_l, Rabs_mult. apply (Rmult_lt_compat_l (Rabs x)) in HM; [|apply Rabs_pos_lt; exact N]. replace (Rabs x * (eps / Rabs x)) with eps in HM by (field; apply Rabs_no_R0; exact N). exact HM.
    + rewrite scal_sum. apply sum_eq. intros i _. unfold cterm, sin_n. replace (2 * i + 1)%nat with (S (2 * i)) by lia. rewrite <- (pow_Rsqr x i). cbn [pow]. rewrite fact_simpl, mult_INR, fact2, S_INR, mult_INR.
      replace (1 + i)%nat with (S i) by lia. cbn [oddFact INR]. pose proof (oddFact_pos i). pose proof (evenFact_pos i). pose proof (pos_INR i). field. repeat split; lra.
Qed.

(** ** closed forms *)
Lemma closed_term l x k : x <> 0 -> (-1) ^ k * x ^ (2 * k + l) / (2 ^ k * INR (fact k) * oddFact (l + k + 1)) = 1 / x * cterm (S l) x k.
Proof.
  intros N. unfold cterm. fold (evenFact k). replace (l + k + 1)%nat with (S l + k)%nat by lia. replace (2 * k + S l)%nat with (S (2 * k + l)) by lia. cbn [pow]. pose proof (oddFact_pos (S l + k)). pose proof (evenFact_pos k). field. repeat split; try exact N; lra.
Qed.
Lemma from_cterm l x (v : R) : x <> 0 -> is_series (cterm (S l) x) (x * v) -> sphBessel l x v.
Proof.
  intros N H. unfold sphBessel. eapply is_series_ext; [|eapply series_eq; [|exact (is_series_scal (1 / x) _ _ H)]].
  - intros k. symmetry. exact (closed_term l x k N).
  - change (1 / x * (x * v) = v). field. exact N.
Qed.
Lemma closed_ok l x : (l <= 6)%nat -> x <> 0 -> sphBessel l x (besselClosed l x).
Proof.
  intros Hl N. pose proof (cos_series x) as H0. pose proof (sin_series x) as H1.
  pose proof (series_rec 0 x _ _ N H0 H1) as H2. pose proof (series_rec 1 x _ _ N H1 H2) as H3. pose proof (series_rec 2 x _ _ N H2 H3) as H4. pose proof (series_rec 3 x _ _ N H3 H4) as H5. pose proof (series_rec 4 x _ _ N H4 H5) as H6. pose proof (series_rec 5 x _ _ N H5 H6) as H7.
  apply from_cterm; [exact N|]. destruct l as [|[|[|[|[|[|[|l]]]]]]]; [| | | | | | |lia]; cbn [besselClosed].
  - eapply series_eq; [|exact H1]. field. exact N.
  - eapply series_eq; [|exact H2]. cbn [INR]. field. exact N.
  - eapply series_eq; [|exact H3]. cbn [INR]. field. exact N.
  - eapply series_eq; [|exact H4]. cbn [INR]. field. exact N.
  - eapply series_eq; [|exact H5]. cbn [INR]. field. exact N.
  - eapply series_eq; [|exact H6]. cbn [INR]. field. exact N.
  - eapply series_eq; [|exact H7]. cbn [INR]. field. exact N.
Qed.
