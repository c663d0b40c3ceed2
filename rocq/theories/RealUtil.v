(** Facts about floor, rounding and the circle distance on the reals. *)
From Coq Require Import ZArith Reals List Lia Lra Bool.
From Verif Require Import Base Vec3_Model Lattice_Model.
Open Scope R_scope.

Lemma rfloor_bounds x : IZR (rfloor x) <= x < IZR (rfloor x) + 1.
Proof. unfold rfloor. destruct (base_Int_part x). lra. Qed.
Lemma rfloor_unique x n : IZR n <= x < IZR n + 1 -> rfloor x = n.
Proof.
  intros H. pose proof (rfloor_bounds x) as B.
  assert (IZR (rfloor x) < IZR (n+1)) by (rewrite plus_IZR; lra).
  assert (IZR n < IZR (rfloor x + 1)) by (rewrite plus_IZR; lra).
  apply lt_IZR in H0, H1. lia.
Qed.
Lemma rfloor_IZR n : rfloor (IZR n) = n.
Proof. apply rfloor_unique. lra. Qed.
Lemma rfloor_add x n : rfloor (x + IZR n) = (rfloor x + n)%Z.
Proof. apply rfloor_unique. rewrite plus_IZR. pose proof (rfloor_bounds x). lra. Qed.
Lemma rfloor_le x y : x <= y -> (rfloor x <= rfloor y)%Z.
Proof.
  intros H. pose proof (rfloor_bounds x). pose proof (rfloor_bounds y).
  assert (IZR (rfloor x) < IZR (rfloor y + 1)) by (rewrite plus_IZR; lra). apply lt_IZR in H2. lia.
Qed.
Lemma rfloor_ge x n : IZR n <= x -> (n <= rfloor x)%Z.
Proof. intros H. rewrite <- (rfloor_IZR n). apply rfloor_le; auto. Qed.
Lemma rfloor_lt x n : x < IZR n -> (rfloor x < n)%Z.
Proof. intros H. apply lt_IZR. pose proof (rfloor_bounds x). lra. Qed.
Lemma frac_bounds x : 0 <= frac x < 1.
Proof. unfold frac. pose proof (rfloor_bounds x). lra. Qed.

(** ** The chord distance on the circle *)
Lemma circ1_sin a b : circ1 a b = 4 * (sin (PI * (a - b)) * sin (PI * (a - b))).
Proof.
  unfold circ1.
  assert (E : cos (2*PI*a) * cos (2*PI*b) + sin (2*PI*a) * sin (2*PI*b) = 1 - 2 * (sin (PI*(a-b)) * sin (PI*(a-b)))).
  { rewrite <- cos_minus. replace (2*PI*a - 2*PI*b) with (2 * (PI*(a-b))) by ring. rewrite cos_2a_sin. ring. }
  pose proof (sin2_cos2 (2*PI*a)) as A. pose proof (sin2_cos2 (2*PI*b)) as B. unfold Rsqr in *. nra.
Qed.
Lemma sin_pi_int_sq x n : sin (PI * (x + IZR n)) * sin (PI * (x + IZR n)) = sin (PI*x) * sin (PI*x).
Proof.
  assert (H : forall m : nat, forall y, sin (y + INR m * PI) * sin (y + INR m * PI) = sin y * sin y).
  { induction m as [|m IH]; intros y.
    - cbn. replace (y + 0*PI) with y by ring. reflexivity.
    - rewrite S_INR. replace (y + (INR m + 1)*PI) with ((y + INR m*PI) + PI) by ring. rewrite neg_sin.
      rewrite <- (IH y). ring. }
  destruct (Z_le_gt_dec 0 n).
  - replace (PI*(x + IZR n)) with (PI*x + INR (Z.to_nat n) * PI).
    + apply H.
    + rewrite INR_IZR_INZ, Z2Nat.id by lia. ring.
  - rewrite <- (H (Z.to_nat (-n)) (PI*(x+IZR n))). rewrite INR_IZR_INZ, Z2Nat.id by lia. rewrite opp_IZR.
    replace (PI * (x + IZR n) + - IZR n * PI) with (PI * x) by ring. reflexivity.
Qed.
Lemma circ1_shift a b n : circ1 (a + IZR n) b = circ1 a b.
Proof. rewrite !circ1_sin. replace (a + IZR n - b) with ((a - b) + IZR n) by ring. rewrite sin_pi_int_sq. reflexivity. Qed.
Lemma circ1_frac a b : circ1 (frac a) b = circ1 a b.
Proof. unfold frac. unfold Rminus at 1. rewrite <- opp_IZR. apply circ1_shift. Qed.
Lemma circ1_pos a b : 0 <= circ1 a b.
Proof. unfold circ1. apply Rplus_le_le_0_compat; apply Rle_0_sqr. Qed.

Lemma sin_lower d : 0 <= d <= 1/2 -> d <= 2 * sin (PI*d).
Proof.
  intros H. assert (P2 : 2 < PI) by (pose proof PI2_1; lra). pose proof PI_4 as P4.
  set (a := PI*d). assert (Ha : 0 <= a <= 2) by (unfold a; nra). assert (HaPI : a <= PI) by (unfold a; nra).
  destruct (SIN a) as (L&_); [lra|lra|]. unfold sin_lb, sin_approx, sin_term in L. cbn in L.
  assert (a / 3 <= sin a).
  { eapply Rle_trans; [|exact L]. clear L.
    assert (Q : 0 <= a*a <= 4) by nra.
    match goal with |- _ <= ?x => replace x with (a * (1 - (a*a)/6 + (a*a)*(a*a)/120 - (a*a)*(a*a)*(a*a)/5040)) by field end.
    set (q := a*a) in *. clearbody q.
    assert (1/3 <= 1 - q/6 + q*q/120 - q*q*q/5040).
    { assert (0 <= q*q/120 - q*q*q/5040). { replace (q*q/120 - q*q*q/5040) with (q*q*(42-q)/5040) by field. apply Rmult_le_pos; [|lra]. apply Rmult_le_pos; [nra|lra]. } lra. }
    replace (a/3) with (a*(1/3)) by field. apply Rmult_le_compat_l; lra. }
  unfold a in *. nra.
Qed.
Lemma sin_sq_lower d : -(1/2) <= d <= 1/2 -> d*d <= 4 * (sin (PI*d) * sin (PI*d)).
Proof.
  intros H. destruct (Rle_dec 0 d).
  - pose proof (sin_lower d). nra.
  - pose proof (sin_lower (-d)). replace (PI * - d) with (-(PI*d)) in H0 by ring. rewrite sin_neg in H0. nra.
Qed.
Lemma circ1_near a b eps : 0 <= eps -> circ1 a b < eps*eps -> exists n, Rabs (a - b - IZR n) < eps.
Proof.
  intros He H. exists (rfloor (a - b + 1/2)). set (n := rfloor _). pose proof (rfloor_bounds (a-b+1/2)) as B. fold n in B.
  rewrite circ1_sin in H. pose proof (sin_sq_lower (a - b - IZR n)) as S.
  rewrite <- (sin_pi_int_sq (a-b-IZR n) n) in S. replace (a - b - IZR n + IZR n) with (a-b) in S by ring.
  assert (Q : (a-b-IZR n)*(a-b-IZR n) < eps*eps) by (apply Rle_lt_trans with (2 := H); apply S; lra).
  apply Rsqr_lt_abs_0 in Q. rewrite (Rabs_right eps) in Q by lra. exact Q.
Qed.
Lemma circ1_far a b n eps : Rabs (a - b - IZR n) <= eps -> circ1 a b <= (2*PI*eps)*(2*PI*eps).
Proof.
  intros H. pose proof PI_RGT_0 as P. rewrite circ1_sin.
  replace (a-b) with ((a-b-IZR n) + IZR n) by ring. rewrite sin_pi_int_sq. set (d := a-b-IZR n) in *. clearbody d.
  assert (A : Rabs (sin (PI*d)) <= Rabs (PI*d)).
  { assert (K : forall x, 0 <= x -> sin x <= x). { intros x [Hx|<-]; [left; apply sin_lt_x; auto|rewrite sin_0; lra]. }
    assert (K2 : forall x, 0 <= x -> - x <= sin x).
    { intros x Hx. destruct (Rle_dec x 1).
      - pose proof (sin_ge_0 x). pose proof PI2_1. assert (0 <= sin x) by (apply H0; lra). lra.
      - pose proof (SIN_bound x). lra. }
    destruct (Rle_dec 0 (PI*d)).
    - rewrite (Rabs_right (PI*d)) by lra. apply Rabs_le. split; [apply K2|apply K]; auto.
    - rewrite <- (Rabs_Ropp (sin _)), <- sin_neg, <- (Rabs_Ropp (PI*d)). rewrite (Rabs_right (-(PI*d))) by lra.
      apply Rabs_le. split; [apply K2|apply K]; lra. }
  rewrite Rabs_mult, (Rabs_right PI) in A by lra.
  assert (B : sin (PI*d) * sin (PI*d) = Rabs (sin (PI*d)) * Rabs (sin (PI*d))) by (rewrite <- Rabs_mult, Rabs_right; [reflexivity|nra]).
  rewrite B. pose proof (Rabs_pos (sin (PI*d))). pose proof (Rabs_pos d).
  assert (Rabs (sin (PI*d)) <= PI*eps) by nra. nra.
Qed.
