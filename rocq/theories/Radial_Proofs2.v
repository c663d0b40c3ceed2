From Coq Require Import Reals List Bool Arith Lra Lia.
From Coquelicot Require Import Coquelicot.
From Verif Require Import Bessel_Model Radial_Model Radial_Spec Radial_Proofs.
From Verif Require Bessel_Proofs3.
Import ListNotations.
Local Open Scope R_scope.

Lemma int_by (F f : R -> R) a b : (forall x, is_derive F x (f x)) -> (forall x, continuous f x) -> RInt f a b = F b - F a.
Proof.
  intros D C. apply is_RInt_unique. apply (is_RInt_derive F f a b); intros; [apply D|apply C].
Qed.
Ltac toR := match goal with |- ?a = ?b => change (@eq R a b) end.
Lemma cubic_int p a b : RInt (fun x => x ^ 2 * cval p x) a b = interval a b (cval p a) (cval p b) (cder p a) (cder p b).
Proof.
  transitivity ((k0 p * b ^ 3 / 3 + k1 p * b ^ 4 / 4 + k2 p * b ^ 5 / 5 + k3 p * b ^ 6 / 6) - (k0 p * a ^ 3 / 3 + k1 p * a ^ 4 / 4 + k2 p * a ^ 5 / 5 + k3 p * a ^ 6 / 6)).
  - apply (int_by (fun x => k0 p * x ^ 3 / 3 + k1 p * x ^ 4 / 4 + k2 p * x ^ 5 / 5 + k3 p * x ^ 6 / 6)).
    + intros x. unfold cval. auto_derive; [exact I|]. simpl. field.
    + intros x. apply (@ex_derive_continuous R_AbsRing R_NormedModule). unfold cval. auto_derive. exact I.
  - toR. unfold interval, cval, cder. field.
Qed.
Lemma tangent_int y m a : RInt (fun x => x ^ 2 * (y + m * (x - a))) 0 a = (1/3) * (a * a * a) * (y - 0.25 * a * m).
Proof.
  transitivity ((y * a ^ 3 / 3 + m * (a ^ 4 / 4 - a * a ^ 3 / 3)) - (y * 0 ^ 3 / 3 + m * (0 ^ 4 / 4 - a * 0 ^ 3 / 3))).
  - apply (int_by (fun x => y * x ^ 3 / 3 + m * (x ^ 4 / 4 - a * x ^ 3 / 3))).
    + intros x. auto_derive; [exact I|]. simpl. field.
    + intros x. apply (@ex_derive_continuous R_AbsRing R_NormedModule). auto_derive. exact I.
  - toR. replace 0.25 with (/ 4) by lra. field.
Qed.
Lemma curvature_left p a b : b <> a -> let g := 1 / (b - a) in g * (2 * cder p a + cder p b) = 3 * g * g * (cval p b - cval p a) - cder2 p a / 2.
Proof. intros N g. unfold g, cval, cder, cder2. field. lra. Qed.
Lemma curvature_right p a b : b <> a -> let g := 1 / (b - a) in g * (cder p a + 2 * cder p b) = 3 * g * g * (cval p b - cval p a) + cder2 p b / 2.
Proof. intros N g. unfold g, cval, cder, cder2. field. lra. Qed.

Section Spline.
Context (n : nat) (r : arr) (N2 : (2 <= n)%nat) (G : grid n r).
Lemma gne i : (S i < n)%nat -> r (S i) <> r i.
Proof using N2 G. intros H. destruct G as [_ L]. specialize (L i H). lra. Qed.
Definition knot (s : nat -> cubic) (i : nat) : R := if (i <? n - 1)%nat then cder (s i) (r i) else cder (s (n - 2)%nat) (r (n - 1)%nat).
Lemma knot_left s i : (S i < n)%nat -> knot s i = cder (s i) (r i).
Proof using N2. intros H. unfold knot. assert (E : (i <? n - 1)%nat = true) by (apply Nat.ltb_lt; lia). rewrite E. reflexivity. Qed.
Lemma knot_right f s i : natural_spline n r f s -> (S i < n)%nat -> knot s (S i) = cder (s i) (r (S i)).
Proof using N2.
  intros S1 H. unfold knot. destruct (Nat.ltb_spec (S i) (n - 1)) as [L|L].
  - symmetry. apply (ns_der _ _ _ _ S1). lia.
  - replace (n - 2)%nat with i by lia. replace (n - 1)%nat with (S i) by lia. reflexivity.
Qed.
Lemma spline_rows f s : natural_spline n r f s -> forall i, (i < n)%nat -> row n r (knot s) i = rrow n r f i.
Proof using N2 G.
  intros S1 i Hi.
  assert (Rt : forall k, (S k < n)%nat -> h r k * (knot s k + 2 * knot s (S k)) = rhs r f k + cder2 (s k) (r (S k)) / 2).
  { intros k Hk. rewrite knot_left, (knot_right f) by auto. unfold h, rhs. rewrite <- (ns_left _ _ _ _ S1 k Hk), <- (ns_right _ _ _ _ S1 k Hk). apply curvature_right. apply gne; auto. }
  assert (Lf : forall k, (S k < n)%nat -> h r k * (2 * knot s k + knot s (S k)) = rhs r f k - cder2 (s k) (r k) / 2).
  { intros k Hk. rewrite knot_left, (knot_right f) by auto. unfold h, rhs. rewrite <- (ns_left _ _ _ _ S1 k Hk), <- (ns_right _ _ _ _ S1 k Hk). apply curvature_left. apply gne; auto. }
  unfold row, rrow, pick. destruct (Nat.ltb_spec 0 i) as [A|A], (Nat.ltb_spec i (n - 1)) as [B|B].
  - destruct i as [|i]; [lia|]. replace (S i - 1)%nat with i by lia. rewrite Rt, Lf by lia. rewrite (ns_der2 _ _ _ _ S1 i) by lia. lra.
  - destruct i as [|i]; [lia|]. replace (S i - 1)%nat with i by lia. rewrite Rt by lia. pose proof (ns_last _ _ _ _ S1) as E. replace (n - 2)%nat with i in E by lia. replace (n - 1)%nat with (S i) in E by lia. rewrite E. lra.
  - assert (i = 0)%nat by lia. subst i. rewrite Lf by lia. rewrite (ns_first _ _ _ _ S1). lra.
  - lia.
Qed.
Lemma spline_slopes f s : natural_spline n r f s -> forall i, (i < n)%nat -> knot s i = slopes n r f i.
Proof using N2 G. intros S1. apply (slopes_unique n r N2 G). apply spline_rows. exact S1. Qed.
Theorem exact_quad f s : natural_spline n r f s -> total n (fun j => f j * (r j * r j * weight n r j)) = spline_integral n r f s.
Proof using N2 G.
  intros S1. rewrite (quad_spline n r N2 G), (integrate_val n r N2 G). unfold spline_integral, before. f_equal.
  - rewrite tangent_int. rewrite <- (spline_slopes f s S1 0) by lia. rewrite knot_left by lia. reflexivity.
  - apply total_ext. intros i Hi. rewrite cubic_int, (ns_left _ _ _ _ S1), (ns_right _ _ _ _ S1) by lia.
    rewrite <- (spline_slopes f s S1 i), <- (spline_slopes f s S1 (S i)) by lia. rewrite knot_left, (knot_right f) by (auto; lia). reflexivity.
Qed.
Definition hermite (a b y0 y1 m0 m1 : R) : cubic :=
  let g := 1 / (b - a) in let A := 3 * g * g * (y1 - y0) - g * (2 * m0 + m1) in let B := - 2 * g * g * g * (y1 - y0) + g * g * (m0 + m1) in
  Cub (y0 - m0 * a + A * a ^ 2 - B * a ^ 3) (m0 - 2 * A * a + 3 * B * a ^ 2) (A - 3 * B * a) B.
Lemma hermite_val a b y0 y1 m0 m1 : b <> a -> let p := hermite a b y0 y1 m0 m1 in cval p a = y0 /\ cval p b = y1 /\ cder p a = m0 /\ cder p b = m1.
Proof using Type. intros N p. unfold p, hermite, cval, cder. cbn [k0 k1 k2 k3]. repeat split; field; lra. Qed.
Theorem spline_exists f : exists s, natural_spline n r f s.
Proof using N2 G.
  set (X := slopes n r f). exists (fun i => hermite (r i) (r (S i)) (f i) (f (S i)) (X i) (X (S i))).
  assert (Rw := slopes_rows n r N2 G f). fold X in Rw.
  assert (Rt : forall k, (S k < n)%nat -> h r k * (X k + 2 * X (S k)) = rhs r f k + cder2 (hermite (r k) (r (S k)) (f k) (f (S k)) (X k) (X (S k))) (r (S k)) / 2).
  { intros k Hk. destruct (hermite_val (r k) (r (S k)) (f k) (f (S k)) (X k) (X (S k)) (gne k Hk)) as (E1 & E2 & E3 & E4). pose proof (curvature_right (hermite (r k) (r (S k)) (f k) (f (S k)) (X k) (X (S k))) _ _ (gne k Hk)) as C. cbv zeta in C. rewrite E1, E2, E3, E4 in C. exact C. }
  assert (Lf : forall k, (S k < n)%nat -> h r k * (2 * X k + X (S k)) = rhs r f k - cder2 (hermite (r k) (r (S k)) (f k) (f (S k)) (X k) (X (S k))) (r k) / 2).
  { intros k Hk. destruct (hermite_val (r k) (r (S k)) (f k) (f (S k)) (X k) (X (S k)) (gne k Hk)) as (E1 & E2 & E3 & E4). pose proof (curvature_left (hermite (r k) (r (S k)) (f k) (f (S k)) (X k) (X (S k))) _ _ (gne k Hk)) as C. cbv zeta in C. rewrite E1, E2, E3, E4 in C. exact C. }
  constructor.
  - intros i Hi. apply (hermite_val _ _ _ _ _ _ (gne i Hi)).
  - intros i Hi. apply (hermite_val _ _ _ _ _ _ (gne i Hi)).
  - intros i Hi. destruct (hermite_val (r i) (r (S i)) (f i) (f (S i)) (X i) (X (S i)) (gne i ltac:(lia))) as (_ & _ & _ & ->).
    destruct (hermite_val (r (S i)) (r (S (S i))) (f (S i)) (f (S (S i))) (X (S i)) (X (S (S i))) (gne (S i) ltac:(lia))) as (_ & _ & -> & _). reflexivity.
  - intros i Hi. pose proof (Rw (S i) ltac:(lia)) as E. unfold row, rrow, pick in E. change (0 <? S i)%nat with true in E. assert (E1 : (S i <? n - 1)%nat = true) by (apply Nat.ltb_lt; lia). rewrite E1 in E.
    replace (S i - 1)%nat with i in E by lia. rewrite Rt, Lf in E by lia. lra.
  - pose proof (Rw 0%nat ltac:(lia)) as E. unfold row, rrow in E. change (0 <? 0)%nat with false in E. assert (E1 : (0 <? n - 1)%nat = true) by (apply Nat.ltb_lt; lia). rewrite E1 in E. unfold pick in E. rewrite Lf in E by lia. lra.
  - pose proof (Rw (n - 1)%nat ltac:(lia)) as E. unfold row, rrow in E. assert (E0 : (0 <? n - 1)%nat = true) by (apply Nat.ltb_lt; lia). assert (E1 : (n - 1 <? n - 1)%nat = false) by (apply Nat.ltb_ge; lia). rewrite E0, E1 in E. unfold pick in E.
    replace (n - 1)%nat with (S (n - 2)) in * by lia. replace (S (n - 2) - 1)%nat with (n - 2)%nat in E by lia. rewrite Rt in E by lia. lra.
Qed.
Theorem exact_linear a b : total n (fun j => (a + b * r j) * (r j * r j * weight n r j)) = a * r (n - 1)%nat ^ 3 / 3 + b * r (n - 1)%nat ^ 4 / 4.
Proof using N2 G.
  assert (S1 : natural_spline n r (fun j => a + b * r j) (fun _ => Cub a b 0 0)) by (constructor; intros; unfold cval, cder, cder2; cbn [k0 k1 k2 k3]; ring).
  rewrite (exact_quad _ _ S1). unfold spline_integral. rewrite tangent_int. unfold cder. cbn [k0 k1 k2 k3].
  assert (T : forall m, total m (fun i => RInt (fun x => x ^ 2 * cval (Cub a b 0 0) x) (r i) (r (S i))) = (a * r m ^ 3 / 3 + b * r m ^ 4 / 4) - (a * r 0%nat ^ 3 / 3 + b * r 0%nat ^ 4 / 4)).
  { induction m as [|m IH]; cbn [total]; [ring|]. rewrite IH, cubic_int. unfold interval, cval, cder. cbn [k0 k1 k2 k3]. field. }
  rewrite T. replace 0.25 with (/ 4) by lra. field.
Qed.
End Spline.

Lemma forallb_grid n r : forallb (fun i => if Rlt_dec (r i) (r (S i)) then true else false) (seq 0 (n - 1)) = true <-> (forall i, (S i < n)%nat -> r i < r (S i)).
Proof.
  rewrite forallb_forall. split.
  - intros H i Hi. specialize (H i). destruct (Rlt_dec (r i) (r (S i))); auto. exfalso. assert (false = true); [|discriminate]. apply H. apply in_seq. lia.
  - intros H i Hi. apply in_seq in Hi. destruct (Rlt_dec (r i) (r (S i))) as [L|L]; auto. exfalso. apply L, H. lia.
Qed.
Lemma init_grid n r r' dr : initWeights n r = Some (r', dr) -> (2 <= n)%nat /\ grid n r' /\ dr = weight n r'.
Proof.
  unfold initWeights. destruct (Nat.leb_spec 2 n) as [N2|]; [|discriminate]. destruct (Rle_dec 0 (r 0%nat)) as [P|]; [|discriminate]. cbn [andb].
  destruct (forallb _ _) eqn:F; [|discriminate]. pose proof (proj1 (forallb_grid n r) F) as L. intros E. injection E as E1 E2. split; [exact N2|]. split; [|congruence].
  rewrite <- E1. clear E1 E2. destruct (Req_EM_T (r 0%nat) 0) as [Z|Z].
  - pose proof (L 0%nat ltac:(lia)) as L0. rewrite Z in L0. assert (Q : 0 < / 10 ^ 6 < 1) by lra. split.
    + unfold upd. cbn. nra.
    + intros i Hi. unfold upd. cbn [Nat.eqb]. destruct i as [|i]; cbn [Nat.eqb]; [nra|]. apply L. lia.
  - split; [lra|exact L].
Qed.
Lemma init_defined n r : (2 <= n)%nat -> 0 <= r 0%nat -> (forall i, (S i < n)%nat -> r i < r (S i)) ->
  exists r' dr, initWeights n r = Some (r', dr) /\ (0 < r 0%nat -> r' = r) /\ (forall i, (0 < i)%nat -> r' i = r i) /\ 0 <= r' 0%nat - r 0%nat <= / 10 ^ 6 * r 1%nat.
Proof.
  intros N2 P L. unfold initWeights. assert (E : (2 <=? n)%nat = true) by (apply Nat.leb_le; auto). rewrite E. destruct (Rle_dec 0 (r 0%nat)); [|lra].
  rewrite (proj2 (forallb_grid n r) L). cbn [andb]. eexists. eexists. split; [reflexivity|]. assert (R1 : 0 < r 1%nat) by (pose proof (L 0%nat ltac:(lia)); lra). assert (Q : 0 < / 10 ^ 6 < 1) by lra.
  destruct (Req_EM_T (r 0%nat) 0) as [Z|Z].
  - split; [lra|]. split; [intros i Hi; unfold upd; destruct (Nat.eqb_spec i 0); [lia|reflexivity]|]. unfold upd. cbn [Nat.eqb]. rewrite Z. split; nra.
  - split; [auto|]. split; [auto|]. split; nra.
Qed.
Lemma init_exact n r r' dr f s : initWeights n r = Some (r', dr) -> natural_spline n r' f s -> total n (fun j => f j * (r' j * r' j * dr j)) = spline_integral n r' f s.
Proof. intros I S1. destruct (init_grid n r r' dr I) as (N2 & G & ->). apply exact_quad; auto. Qed.
Lemma init_exists n r r' dr f : initWeights n r = Some (r', dr) -> exists s, natural_spline n r' f s.
Proof. intros I. destruct (init_grid n r r' dr I) as (N2 & G & _). apply spline_exists; auto. Qed.
Lemma init_linear n r r' dr a b : initWeights n r = Some (r', dr) -> total n (fun j => (a + b * r' j) * (r' j * r' j * dr j)) = a * r' (n - 1)%nat ^ 3 / 3 + b * r' (n - 1)%nat ^ 4 / 4.
Proof. intros I. destruct (init_grid n r r' dr I) as (N2 & G & ->). apply exact_linear; auto. Qed.
Lemma init_pivots n r r' dr y i : initWeights n r = Some (r', dr) -> (i < n)%nat -> 0 < r' i /\ 0 < t_b (eliminate n (assemble n r' y)) i.
Proof.
  intros I H. destruct (init_grid n r r' dr I) as (N2 & G & _). split; [|apply pivots; auto]. destruct G as [G0 G1]. induction i as [|i IH]; [exact G0|]. specialize (IH ltac:(lia)). specialize (G1 i H). lra.
Qed.

(** Simpson's rule *)
Lemma cubic_simpson p a g : RInt (cval p) a (a + 2 * g) = g / 3 * (cval p a + 4 * cval p (a + g) + cval p (a + 2 * g)).
Proof.
  set (b := a + 2 * g). transitivity ((k0 p * b + k1 p * b ^ 2 / 2 + k2 p * b ^ 3 / 3 + k3 p * b ^ 4 / 4) - (k0 p * a + k1 p * a ^ 2 / 2 + k2 p * a ^ 3 / 3 + k3 p * a ^ 4 / 4)).
  - apply (int_by (fun x => k0 p * x + k1 p * x ^ 2 / 2 + k2 p * x ^ 3 / 3 + k3 p * x ^ 4 / 4)).
    + intros x. unfold cval. auto_derive; [exact I|]. simpl. field.
    + intros x. apply (@ex_derive_continuous R_AbsRing R_NormedModule). unfold cval. auto_derive. exact I.
  - toR. unfold b, cval. field.
Qed.
Lemma fold_total (g : nat -> R) m : fold_left (fun s i => s + g i) (seq 0 m) 0 = total m g.
Proof. induction m as [|m IH]; [reflexivity|]. rewrite seq_S, fold_left_app, IH. reflexivity. Qed.
Lemma simpson_total (g : nat -> R) N : total (2 * N + 1) (fun i => g i * simpson N i) = (if (N =? 0)%nat then g 0%nat else total N (fun k => g (2 * k)%nat + 4 * g (2 * k + 1)%nat + g (2 * k + 2)%nat)).
Proof.
  destruct (Nat.eqb_spec N 0) as [->|NZ].
  { cbn. unfold simpson. cbn. ring. }
  (* all nodes but the last *)
  assert (P : forall M, (M < N)%nat -> total (2 * M + 1) (fun i => g i * simpson N i) = total M (fun k => g (2 * k)%nat + 4 * g (2 * k + 1)%nat + g (2 * k + 2)%nat) + (if (M =? 0)%nat then g 0%nat else g (2 * M)%nat)).
  { induction M as [|M IH]; intros HM.
    - cbn. unfold simpson. cbn. ring.
    - replace (2 * S M + 1)%nat with (S (S (2 * M + 1))) by lia. cbn [total]. rewrite IH by lia.
      assert (S1 : simpson N (2 * M + 1) = 4). { unfold simpson. destruct (Nat.eqb_spec (2 * M + 1) 0); [lia|]. destruct (Nat.eqb_spec (2 * M + 1) (2 * N)); [lia|]. cbn [orb]. replace ((2 * M + 1) mod 2)%nat with 1%nat by (rewrite Nat.add_comm, Nat.mul_comm, Nat.mod_add by lia; reflexivity). cbn. ring. }
      assert (S2 : simpson N (S (2 * M + 1)) = 2). { unfold simpson. destruct (Nat.eqb_spec (S (2 * M + 1)) (2 * N)); [lia|]. cbn [Nat.eqb orb]. replace (S (2 * M + 1)) with (0 + (M + 1) * 2)%nat by lia. rewrite Nat.mod_add by lia. cbn. ring. }
      rewrite S1, S2. change (S M =? 0)%nat with false. replace (2 * S M)%nat with (2 * M + 2)%nat by lia. replace (S (2 * M + 1)) with (2 * M + 2)%nat by lia.
      destruct (Nat.eqb_spec M 0) as [EM|]; [rewrite EM|]; cbn [Nat.mul Nat.add total]; ring. }
  destruct N as [|M]; [lia|]. replace (2 * S M + 1)%nat with (S (S (2 * M + 1))) by lia. cbn [total]. rewrite (P M) by lia.
  assert (S1 : simpson (S M) (2 * M + 1) = 4). { unfold simpson. destruct (Nat.eqb_spec (2 * M + 1) 0); [lia|]. destruct (Nat.eqb_spec (2 * M + 1) (2 * S M)); [lia|]. cbn [orb]. replace ((2 * M + 1) mod 2)%nat with 1%nat by (rewrite Nat.add_comm, Nat.mul_comm, Nat.mod_add by lia; reflexivity). cbn. ring. }
  assert (S2 : simpson (S M) (S (2 * M + 1)) = 1). { unfold simpson. destruct (Nat.eqb_spec (S (2 * M + 1)) (2 * S M)); [|lia]. rewrite orb_true_r. reflexivity. }
  rewrite S1, S2. replace (S (2 * M + 1)) with (2 * M + 2)%nat by lia. destruct (Nat.eqb_spec M 0) as [EM|]; [rewrite EM|]; cbn [Nat.mul Nat.add total]; ring.
Qed.
Lemma transform_total n r dr f l G : (1 <= n)%nat -> let N := ((n - 1) / 2)%nat in
  transform n r dr f l G = 4 * PI / 3 * total (2 * N + 1) (fun i => f i * bessel_jl l (G * r i) * (dr i * r i * r i) * simpson N i).
Proof. intros H N. destruct n as [|n]; [lia|]. unfold transform. fold N. cbv zeta. rewrite fold_total. reflexivity. Qed.
Lemma log_defined n r u0 g : (forall i, (i < n)%nat -> r i = exp (u0 + INR i * g)) -> logGrid n r g = Some (fun i => r i * g).
Proof.
  intros H. unfold logGrid. assert (F : forallb (fun i => if Rlt_dec (/ 10 ^ 6) (Rabs (ln (r i / r (i - 1)%nat) - g)) then false else true) (seq 1 (n - 1)) = true); [|rewrite F; reflexivity].
  apply forallb_forall. intros i Hi. apply in_seq in Hi. destruct i as [|i]; [lia|]. replace (S i - 1)%nat with i by lia. rewrite (H (S i)), (H i) by lia.
  unfold Rdiv. rewrite <- exp_Ropp, <- exp_plus, ln_exp, S_INR. replace (u0 + (INR i + 1) * g + - (u0 + INR i * g) - g) with 0 by ring. rewrite Rabs_R0. destruct (Rlt_dec (/ 10 ^ 6) 0); [lra|reflexivity].
Qed.
Lemma log_simpson n r dr f l G u0 g p : (3 <= n)%nat -> (forall i, (i < n)%nat -> r i = exp (u0 + INR i * g)) -> logGrid n r g = Some dr ->
  let N := ((n - 1) / 2)%nat in
  (forall k i, (k < N)%nat -> (2 * k <= i <= 2 * k + 2)%nat -> cval (p k) (u0 + INR i * g) = r i ^ 3 * (f i * bessel_jl l (G * r i))) ->
  transform n r dr f l G = 4 * PI * total N (fun k => RInt (cval (p k)) (u0 + INR (2 * k) * g) (u0 + INR (2 * k + 2) * g)).
Proof.
  intros N3 H L N P. rewrite transform_total by lia. fold N. rewrite simpson_total. assert (NZ : (N <> 0)%nat). { unfold N. intros Z. apply Nat.div_small_iff in Z; lia. }
  destruct (Nat.eqb_spec N 0); [lia|]. rewrite (log_defined n r u0 g H) in L. injection L as <-.
  replace (4 * PI / 3 * total N _) with (4 * PI * (/ 3 * total N (fun k => f (2 * k)%nat * bessel_jl l (G * r (2 * k)%nat) * (r (2 * k)%nat * g * r (2 * k)%nat * r (2 * k)%nat) +
    4 * (f (2 * k + 1)%nat * bessel_jl l (G * r (2 * k + 1)%nat) * (r (2 * k + 1)%nat * g * r (2 * k + 1)%nat * r (2 * k + 1)%nat)) +
    f (2 * k + 2)%nat * bessel_jl l (G * r (2 * k + 2)%nat) * (r (2 * k + 2)%nat * g * r (2 * k + 2)%nat * r (2 * k + 2)%nat)))) by field.
  f_equal. rewrite <- total_scal. apply total_ext. intros k Hk.
  replace (u0 + INR (2 * k + 2) * g) with (u0 + INR (2 * k) * g + 2 * g) by (rewrite (plus_INR (2 * k) 2); cbn [INR]; ring). rewrite cubic_simpson.
  replace (u0 + INR (2 * k) * g + g) with (u0 + INR (2 * k + 1) * g) by (rewrite (plus_INR (2 * k) 1); cbn [INR]; ring).
  replace (u0 + INR (2 * k) * g + 2 * g) with (u0 + INR (2 * k + 2) * g) by (rewrite (plus_INR (2 * k) 2); cbn [INR]; ring).
  rewrite !(P k) by lia. field.
Qed.
Lemma even_last n r dr f f' l G : Nat.even n = true -> (forall i, (i < n - 1)%nat -> f i = f' i) -> transform n r dr f l G = transform n r dr f' l G.
Proof.
  intros E H. destruct n as [|n]; [reflexivity|]. rewrite !transform_total by lia. f_equal. apply total_ext. intros i Hi. rewrite (H i); [reflexivity|].
  apply Nat.even_spec in E. destruct E as [m E]. assert ((S n - 1) / 2 = m - 1)%nat. { replace (S n - 1)%nat with (1 + (m - 1) * 2)%nat by lia. rewrite Nat.div_add by lia. reflexivity. } lia.
Qed.

(** Three samples *)
Definition r3 : arr := fun i => INR (S i).
Lemma r3_init : initWeights 3 r3 = Some (r3, weight 3 r3).
Proof.
  destruct (init_defined 3 r3) as (r' & dr & E & E1 & _); [lia|cbn; lra|intros i Hi; unfold r3; apply lt_INR; lia|].
  destruct (init_grid _ _ _ _ E) as (_ & _ & ->). rewrite (E1 ltac:(cbn; lra)) in E. exact E.
Qed.
Lemma r3_grid : grid 3 r3.
Proof. split; [cbn; lra|intros i Hi; unfold r3; apply lt_INR; lia]. Qed.
Definition spline3 (i : nat) : cubic := match i with 0%nat => hermite 1 2 0 1 (3/2) 0 | _ => hermite 2 3 1 0 0 (-3/2) end.
Lemma spline3_ok : natural_spline 3 r3 (unit 1) spline3.
Proof.
  constructor; intros; repeat (match goal with i : nat |- _ => destruct i as [|i]; try lia end); unfold spline3, hermite, cval, cder, cder2, unit, upd, r3; cbn; field.
Qed.
Lemma w3 : r3 1%nat * r3 1%nat * weight 3 r3 1 = 613 / 120.
Proof.
  pose proof (exact_quad 3 r3 ltac:(lia) r3_grid _ _ spline3_ok) as E. cbn [total] in E. unfold spline_integral in E. rewrite tangent_int in E. cbn [total Nat.sub] in E. rewrite !cubic_int in E.
  unfold unit, upd in E. cbn [Nat.eqb] in E. replace (r3 1%nat * r3 1%nat * weight 3 r3 1) with (0 + 0 * (r3 0%nat * r3 0%nat * weight 3 r3 0) + 1 * (r3 1%nat * r3 1%nat * weight 3 r3 1) + 0 * (r3 2%nat * r3 2%nat * weight 3 r3 2)) by ring. rewrite E.
  assert (A0 : r3 0%nat = 1) by (cbn; ring). assert (A1 : r3 1%nat = 2) by (cbn; ring). assert (A2 : r3 2%nat = 3) by (cbn; ring). rewrite A0, A1, A2.
  unfold spline3, hermite, interval, cval, cder. cbn [k0 k1 k2 k3]. replace 0.25 with (/ 4) by lra. field.
Qed.
Lemma transform_refuted : exists n r dr, initWeights n r = Some (r, dr) /\ Nat.odd n = true /\
  4 * PI * total n (fun j => 1 * (r j * r j * dr j)) = 4 * PI * (r (n - 1)%nat ^ 3 / 3) /\
  transform n r dr (fun _ => 1) 0 0 < (1 - 9 / 100) * (4 * PI * (r (n - 1)%nat ^ 3 / 3)).
Proof.
  exists 3%nat, r3, (weight 3 r3). split; [exact r3_init|]. split; [reflexivity|].
  pose proof (exact_linear 3 r3 ltac:(lia) r3_grid 1 0) as E. cbn [Nat.sub] in E. 
  assert (A2 : r3 2%nat = 3) by (cbn; ring). cbn [Nat.sub]. rewrite A2 in *.
  assert (T : total 3 (fun j => 1 * (r3 j * r3 j * weight 3 r3 j)) = 9).
  { transitivity (1 * 3 ^ 3 / 3 + 0 * 3 ^ 4 / 4); [|field]. rewrite <- E. apply total_ext. intros; ring. }
  split; [rewrite T; field|]. rewrite transform_total by lia. change ((3 - 1) / 2)%nat with 1%nat. rewrite simpson_total. cbn [Nat.eqb total Nat.mul Nat.add].
  assert (J : forall i, bessel_jl 0 (0 * r3 i) = 1) by (intros i; rewrite Rmult_0_l, Bessel_Proofs3.at_zero; reflexivity). rewrite !J.
  pose proof w3 as W. cbn [total] in T.
  replace (4 * PI / 3 * _) with (4 * PI / 3 * ((0 + 1 * (r3 0%nat * r3 0%nat * weight 3 r3 0) + 1 * (r3 1%nat * r3 1%nat * weight 3 r3 1) + 1 * (r3 2%nat * r3 2%nat * weight 3 r3 2)) + 3 * (r3 1%nat * r3 1%nat * weight 3 r3 1))) by ring.
  rewrite T, W. pose proof PI_RGT_0. nra.
Qed.
