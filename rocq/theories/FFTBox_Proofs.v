(** Lemmas for FFTBox: number theory part. *)
From Coq Require Import ZArith List Lia Bool Znumtheory Zpow_facts.
From Verif Require Import Base Grid_Model FFTBox_Model FFTBox_Spec.
Import ListNotations.
Open Scope Z_scope.

Lemma gcd_loop_spec fuel x y : 0 <= x -> 0 <= y < Z.of_nat fuel -> gcd_loop fuel x y = Some (Z.gcd x y).
Proof.
  revert x y. induction fuel as [|f IH]; intros x y Hx Hy; [lia|]. cbn [gcd_loop].
  destruct (Z.eqb_spec y 0) as [->|Hn].
  - rewrite Z.gcd_0_r, Z.abs_eq by lia. reflexivity.
  - rewrite Z.rem_mod_nonneg by lia. pose proof (Z.mod_pos_bound x y ltac:(lia)).
    rewrite IH by lia. f_equal. rewrite Z.gcd_comm. rewrite Z.gcd_mod by lia. apply Z.gcd_comm.
Qed.

Lemma strip_spec fuel p n : 2 <= p -> 0 < n <= Z.of_nat fuel ->
  exists k m, strip fuel p n = Some m /\ 0 <= k /\ 0 < m /\ n = p^k * m /\ ~ (p | m).
Proof.
  intros Hp. revert n. induction fuel as [|f IH]; intros n Hn; [lia|]. cbn [strip].
  rewrite Z.rem_mod_nonneg by lia. destruct (Z.eqb_spec (n mod p) 0) as [E|E].
  - rewrite Z.quot_div_nonneg by lia.
    assert (Hd : n = p * (n/p)) by (apply Z_div_exact_full_2; lia).
    assert (0 < n/p) by nia. assert (n/p < n) by nia.
    destruct (IH (n/p)) as (k&m&H1&H2&H3&H4&H5); [lia|].
    exists (k+1), m. split; [exact H1|]. split; [lia|]. split; [lia|]. split; [|exact H5].
    rewrite Z.pow_add_r, Z.pow_1_r by lia. rewrite Hd, H4 at 1. ring.
  - exists 0, n. split; [reflexivity|]. split; [lia|]. split; [lia|]. split; [rewrite Z.pow_0_r; lia|].
    intros D. apply E. apply Z.mod_divide; [lia|exact D].
Qed.

Lemma prime_5 : prime 5.
Proof.
  constructor; [lia|]. intros n Hn. assert (n = 1 \/ n = 2 \/ n = 3 \/ n = 4) as [->|[->|[->| ->]]] by lia;
  apply Zgcd_1_rel_prime; reflexivity.
Qed.
Lemma prime_7 : prime 7.
Proof.
  constructor; [lia|]. intros n Hn.
  assert (n = 1 \/ n = 2 \/ n = 3 \/ n = 4 \/ n=5 \/ n=6) as [->|[->|[->|[->|[->| ->]]]]] by lia;
  apply Zgcd_1_rel_prime; reflexivity.
Qed.

Lemma drop_prime p a m x : prime p -> 0 <= a -> ~ (p | m) -> (m | p^a * x) -> (m | x).
Proof.
  intros Hp Ha Hm Hd. apply Gauss with (p^a); auto. destruct (Z.eq_dec a 0) as [->|Hn].
  - apply rel_prime_sym, rel_prime_1.
  - apply rel_prime_Zpower_r; [lia|]. apply rel_prime_sym, prime_rel_prime; auto.
Qed.

Lemma fftSuitable_spec fuel n : 0 < n <= Z.of_nat fuel ->
  exists b, fftSuitable fuel n = Some b /\ (b = true <-> smooth n).
Proof.
  intros Hn. unfold fftSuitable. cbn [fold_left].
  destruct (strip_spec fuel 2 n) as (a&m1&E1&Ha&P1&D1&N1); [lia|lia|]. rewrite E1.
  assert (0 < 2^a) by (apply Z.pow_pos_nonneg; lia).
  destruct (strip_spec fuel 3 m1) as (b&m2&E2&Hb&P2&D2&N2); [lia|nia|]. rewrite E2.
  assert (0 < 3^b) by (apply Z.pow_pos_nonneg; lia).
  destruct (strip_spec fuel 5 m2) as (c&m3&E3&Hc&P3&D3&N3); [lia|nia|]. rewrite E3.
  assert (0 < 5^c) by (apply Z.pow_pos_nonneg; lia).
  destruct (strip_spec fuel 7 m3) as (d&m4&E4&Hd&P4&D4&N4); [lia|nia|]. rewrite E4.
  cbn [option_map]. eexists. split; [reflexivity|]. rewrite Z.eqb_eq. split.
  - intros ->. exists a, b, c, d. repeat (split; [lia|]). rewrite D1, D2, D3, D4. ring.
  - intros (a'&b'&c'&d'&Pa&Pb&Pc&Pd&E).
    assert (M : (m4 | n)) by (exists (2^a*3^b*5^c*7^d); rewrite D1, D2, D3, D4; ring).
    rewrite E in M.
    replace (2^a'*3^b'*5^c'*7^d') with (2^a'*(3^b'*(5^c'*(7^d'*1)))) in M by ring.
    assert (~(5|m4)). { intros D. apply N3. rewrite D4. apply Z.divide_mul_r; auto. }
    assert (~(3|m4)). { intros D. apply N2. rewrite D3, D4. do 2 apply Z.divide_mul_r; auto. }
    assert (~(2|m4)). { intros D. apply N1. rewrite D2, D3, D4. do 3 apply Z.divide_mul_r; auto. }
    apply drop_prime in M; auto using prime_2. apply drop_prime in M; auto using prime_3.
    apply drop_prime in M; auto using prime_5. apply drop_prime in M; auto using prime_7.
    apply Z.divide_1_r_nonneg in M; lia.
Qed.

Lemma fftSuitable_zero fuel : fftSuitable fuel 0 = None.
Proof.
  assert (H : forall f p, p <> 0 -> strip f p 0 = None).
  { induction f; intros p Hp; cbn [strip]; [reflexivity|]. rewrite Z.rem_0_l by auto. rewrite Z.eqb_refl, Z.quot_0_l by auto. auto. }
  unfold fftSuitable. cbn [fold_left]. rewrite H by lia. reflexivity.
Qed.

Lemma smooth_pos n : smooth n -> 0 < n.
Proof.
  intros (a&b&c&d&?&?&?&?&->).
  assert (0 < 2^a) by (apply Z.pow_pos_nonneg; lia). assert (0 < 3^b) by (apply Z.pow_pos_nonneg; lia).
  assert (0 < 5^c) by (apply Z.pow_pos_nonneg; lia). assert (0 < 7^d) by (apply Z.pow_pos_nonneg; lia).
  repeat apply Z.mul_pos_pos; auto.
Qed.
Lemma smooth_mul m n : smooth m -> smooth n -> smooth (m*n).
Proof.
  intros (a&b&c&d&?&?&?&?&->) (a'&b'&c'&d'&?&?&?&?&->). exists (a+a'), (b+b'), (c+c'), (d+d').
  repeat (split; [lia|]). rewrite !Z.pow_add_r by lia. ring.
Qed.
Lemma smooth_1 : smooth 1.
Proof. exists 0,0,0,0. repeat (split; [lia|]). reflexivity. Qed.
Lemma smooth_pow2 k : 0 <= k -> smooth (2^k).
Proof. intros. exists k,0,0,0. repeat (split; [lia|]). rewrite !Z.pow_0_r. ring. Qed.

(** The scale search: from an even positive start it ends at a smooth even number. *)
Lemma grow_spec T : smooth T -> forall fuel ffuel s, 0 < s -> Z.even s = true -> s <= T -> Z.even T = true ->
  T - s < Z.of_nat fuel -> T <= Z.of_nat ffuel ->
  exists r, grow fuel ffuel s = Some r /\ s <= r <= T /\ Z.even r = true /\ smooth r.
Proof.
  intros HT. induction fuel as [|f IH]; intros ffuel s Hs Hev HsT HTe Hf Hff; [lia|]. cbn [grow].
  destruct (fftSuitable_spec ffuel s) as (b&E&Hb); [lia|]. rewrite E. destruct b.
  - exists s. split; [reflexivity|]. split; [lia|]. split; [auto|]. tauto.
  - assert (s <> T). { intros ->. assert (false = true) by tauto. discriminate. }
    apply Z.even_spec in Hev as Hev'. apply Z.even_spec in HTe as HTe'. destruct Hev' as [s' Es], HTe' as [T' ET].
    destruct (IH ffuel (s+2)) as (r&H1&H2&H3&H4); try lia; try assumption.
    { apply Z.even_spec. exists (s'+1). lia. }
    exists r. split; [exact H1|]. split; [lia|]. auto.
Qed.
