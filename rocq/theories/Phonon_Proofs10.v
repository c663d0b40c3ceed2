From Coq Require Import ZArith Reals List Bool Arith Lra Lia.
From Coquelicot Require Import Coquelicot.
From Verif Require Import Base Vec3_Model ExCompute_Spec ExCompute_Proofs Radial_Proofs2 Phonon_Model Phonon_Spec Phonon_Proofs9.
Import ListNotations.
Open Scope R_scope.

Definition xnum (i : Z) : Z := match i with 3%Z => 949107912342758524526189684047851 | 2%Z => 741531185599394439863864773280788 | _ => 405845151377397166906606412076961 end%Z.
Definition wnum (i : Z) : Z := match i with 3%Z => 129484966168869693270611432679082 | 2%Z => 279705391489276667901467771423780 | _ => 381830050505118944950369775488975 end%Z.
Definition znum (k : nat) : Z := (2 * (wnum 3 * xnum 3 ^ Z.of_nat k + wnum 2 * xnum 2 ^ Z.of_nat k + wnum 1 * xnum 1 ^ Z.of_nat k))%Z.
Definition rule (k : nat) : R := sumR (dimRange 3 true) (fun i => gweight 1 true i * abscissa 1 0 true i ^ k).
Lemma ten33 : 10 ^ 33 = IZR (10 ^ 33). Proof. rewrite (pow_IZR 10 33). reflexivity. Qed.
Lemma rule_even k : rule (2 * S k) = IZR (znum (2 * S k)) / IZR ((10 ^ 33) ^ Z.of_nat (S (2 * S k))).
Proof.
  unfold rule. rewrite range3, !sumR_cons. change (sumR [] ?f) with 0. unfold gweight, abscissa, gaussX, gaussW. cbn [Z.abs]. change (0 <? -3)%Z with false. change (0 <? -2)%Z with false. change (0 <? -1)%Z with false. change (0 <? 0)%Z with false.
  change (0 <? 1)%Z with true. change (0 <? 2)%Z with true. change (0 <? 3)%Z with true. cbv iota. rewrite ten33.
  assert (D : IZR (10 ^ 33) <> 0) by (apply not_0_IZR; discriminate). set (d := (10 ^ 33)%Z) in *.
  assert (E : forall a : Z, (0 + 1 * (IZR a / IZR d) * -1) ^ (2 * S k) = IZR (a ^ Z.of_nat (2 * S k)) / IZR (d ^ Z.of_nat (2 * S k)) /\ (0 + 1 * (IZR a / IZR d) * 1) ^ (2 * S k) = IZR (a ^ Z.of_nat (2 * S k)) / IZR (d ^ Z.of_nat (2 * S k))).
  { intros a. rewrite <- !pow_IZR. set (n := S k). replace (0 + 1 * (IZR a / IZR d) * -1) with (- (IZR a / IZR d)) by (field; exact D). replace (0 + 1 * (IZR a / IZR d) * 1) with (IZR a / IZR d) by (field; exact D).
    assert (Q : (- (IZR a / IZR d)) ^ (2 * n) = (IZR a / IZR d) ^ (2 * n)) by (rewrite !pow_mult; f_equal; ring). rewrite Q. unfold Rdiv. rewrite Rpow_mult_distr, pow_inv. tauto. }
  assert (Z0 : (0 + 1 * 0 * -1) ^ (2 * S k) = 0) by (replace (0 + 1 * 0 * -1) with 0 by ring; apply pow_i; lia). rewrite Z0.
  rewrite !(proj1 (E _)), !(proj2 (E _)). unfold znum, xnum, wnum. rewrite mult_IZR, !plus_IZR, !mult_IZR.
  replace (Z.of_nat (S (2 * S k))) with (Z.succ (Z.of_nat (2 * S k))) by lia. rewrite Z.pow_succ_r by lia. rewrite mult_IZR.
  assert (DK : IZR (d ^ Z.of_nat (2 * S k)) <> 0) by (rewrite <- pow_IZR; apply pow_nonzero; exact D). set (dk := IZR (d ^ Z.of_nat (2 * S k))) in *. clearbody dk. clear E Z0.
  generalize (IZR (949107912342758524526189684047851 ^ Z.of_nat (2 * S k))) (IZR (741531185599394439863864773280788 ^ Z.of_nat (2 * S k))) (IZR (405845151377397166906606412076961 ^ Z.of_nat (2 * S k))). intros p3 p2 p1.
  generalize (IZR 129484966168869693270611432679082) (IZR 279705391489276667901467771423780) (IZR 381830050505118944950369775488975) (IZR 417959183673469387755102040816327). intros w3 w2 w1 w0. generalize dependent (IZR d). intros dd D. field. split; assumption.
Qed.
Lemma rule_odd k : rule (2 * k + 1) = 0.
Proof.
  unfold rule. rewrite range3, !sumR_cons. change (sumR [] ?f) with 0.
  assert (O : forall i, (0 < i)%Z -> abscissa 1 0 true (- i) ^ (2 * k + 1) = - abscissa 1 0 true i ^ (2 * k + 1)).
  { intros i Hi. replace (abscissa 1 0 true (- i)) with (- abscissa 1 0 true i). 2: { unfold abscissa, gaussX. rewrite Z.abs_opp. destruct (Z.ltb_spec 0 i); [|lia]. destruct (Z.ltb_spec 0 (- i)); [lia|]. ring. }
    rewrite !pow_add, !pow_1, !pow_mult. replace ((- abscissa 1 0 true i) ^ 2) with (abscissa 1 0 true i ^ 2) by ring. ring. }
  assert (Z0 : abscissa 1 0 true 0 ^ (2 * k + 1) = 0). { unfold abscissa, gaussX. cbn [Z.abs]. change (0 <? 0)%Z with false. cbv iota. replace (0 + 1 * 0 * -1) with 0 by ring. apply pow_i. lia. }
  rewrite Z0. pose proof (O 3%Z ltac:(lia)) as O3. pose proof (O 2%Z ltac:(lia)) as O2. pose proof (O 1%Z ltac:(lia)) as O1. change (- (3))%Z with (-3)%Z in O3. change (- (2))%Z with (-2)%Z in O2. change (- (1))%Z with (-1)%Z in O1. rewrite O3, O2, O1. unfold gweight, gaussW. cbn [Z.abs]. ring.
Qed.
Lemma mono_int k : RInt (fun x => x ^ k) (-1) 1 = (1 - (-1) ^ S k) / INR (S k).
Proof.
  rewrite (int_by (fun x => / INR (S k) * x ^ S k)).
  - rewrite pow1. toR. field. apply not_0_INR. lia.
  - intros x. auto_derive; [exact I|]. change (pred (S k)) with k. rewrite Rmult_1_l, <- Rmult_assoc. toR. change (match k with 0%nat => 1 | S _ => INR k + 1 end) with (INR (S k)). field. apply not_0_INR. lia.
  - intros x. apply (@ex_derive_continuous R_AbsRing R_NormedModule). auto_derive. exact I.
Qed.
Definition evenOK (k : nat) : bool := (Z.abs (znum k * Z.of_nat (S k) - 2 * (10 ^ 33) ^ Z.of_nat (S k)) * 10 ^ 32 <=? (10 ^ 33) ^ Z.of_nat (S k) * Z.of_nat (S k))%Z.
Lemma even_all : forallb evenOK [2;4;6;8;10;12]%nat = true. Proof. vm_compute. reflexivity. Qed.
Lemma even_bound k : evenOK (2 * S k) = true -> Rabs (rule (2 * S k) - RInt (fun x => x ^ (2 * S k)) (-1) 1) <= / 10 ^ 32.
Proof.
  intros H. rewrite mono_int, rule_even. unfold evenOK in H. set (n := (2 * S k)%nat) in *. assert (N1 : (-1) ^ S n = -1) by (unfold n; cbn [pow]; rewrite pow_mult; replace ((-1) ^ 2) with 1 by ring; rewrite pow1; ring). rewrite N1.
  apply Z.leb_le in H. set (q := ((10 ^ 33) ^ Z.of_nat (S n))%Z) in *. assert (Q : (0 < q)%Z) by (apply Z.pow_pos_nonneg; lia). apply IZR_le in H. rewrite !mult_IZR, <- INR_IZR_INZ, abs_IZR, minus_IZR, !mult_IZR, <- INR_IZR_INZ in H.
  replace (10 ^ 32) with (IZR (10 ^ 32)) by (rewrite (pow_IZR 10 32); reflexivity). assert (T : 0 < IZR (10 ^ 32)) by (apply IZR_lt; reflexivity). set (t := IZR (10 ^ 32)) in *. apply IZR_lt in Q. assert (M : 0 < INR (S n)) by (apply lt_0_INR; lia).
  set (m := INR (S n)) in *. set (u := IZR q) in *. set (z := IZR (znum n)) in *. clearbody t u z m. replace (z / u - (1 - -1) / m) with ((z * m - 2 * u) / (u * m)) by (field; split; lra).
  assert (UM : 0 < u * m) by nra. unfold Rdiv. rewrite Rabs_mult, Rabs_inv, (Rabs_pos_eq (u * m)) by lra. apply (Rmult_le_reg_r (u * m * t)); [nra|]. replace (Rabs (z * m - 2 * u) * / (u * m) * (u * m * t)) with (Rabs (z * m - 2 * u) * t) by (field; lra). replace (/ t * (u * m * t)) with (u * m) by (field; lra). exact H.
Qed.
(** the seven-point rule integrates polynomials of degree up to 13 *)
Lemma rule_exact : forall k, (k <= 13)%nat -> Rabs (rule k - RInt (fun x => x ^ k) (-1) 1) <= / 10 ^ 32.
Proof.
  intros k H. assert (P : 0 < / 10 ^ 32) by (apply Rinv_0_lt_compat, pow_lt; lra). destruct (Nat.Even_or_Odd k) as [[j E]|[j E]].
  - destruct j as [|j].
    + subst k. rewrite mono_int. change (rule (2 * 0)) with (sumR (dimRange 3 true) (fun i => gweight 1 true i * 1)). rewrite range3, !sumR_cons. change (sumR [] ?f) with 0. unfold gweight, gaussW. cbn [Z.abs]. rewrite ten33. change (2 * 0)%nat with 0%nat. rewrite !pow_1. change (INR 1) with 1.
      replace (10 ^ 32) with (IZR (10 ^ 32)) by (rewrite (pow_IZR 10 32); reflexivity). apply Rabs_le. split; lra.
    + subst k. apply even_bound. pose proof even_all as A. rewrite forallb_forall in A. apply A. assert (j = 0 \/ j = 1 \/ j = 2 \/ j = 3 \/ j = 4 \/ j = 5)%nat as C by lia. cbn [In]. lia.
  - subst k. rewrite rule_odd, mono_int. replace ((-1) ^ S (2 * j + 1)) with 1. 2: { replace (S (2 * j + 1)) with (2 * (j + 1))%nat by lia. rewrite pow_mult. replace ((-1) ^ 2) with 1 by ring. symmetry. apply pow1. }
    replace (0 - (1 - 1) / INR (S (2 * j + 1))) with 0 by (unfold Rdiv; ring). rewrite Rabs_R0. lra.
Qed.

Lemma rule_ex : (12 <= 13)%nat /\ RInt (fun x => x ^ 0) (-1) 1 = 2.
Proof.
  split; [lia|]. rewrite (RInt_ext _ (fun _ => 1)) by (intros; reflexivity). rewrite (RInt_const (V := R_CompleteNormedModule)).
  unfold scal. simpl. unfold mult. simpl. ring.
Qed.
