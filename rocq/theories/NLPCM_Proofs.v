(** Nonlinear PCM: loops and bisection, ionic screening. *)
From Coq Require Import ZArith Reals List Bool Lia Lra Psatz Ranalysis5.
From Coquelicot Require Import Coquelicot.
From Verif Require Import Base Vec3_Model Vec3_Facts Gauss Spline_Proofs Cavity_Proofs2 NLPCM_Model.
Import ListNotations.
Open Scope R_scope.
Ltac req := match goal with |- ?a = ?b => change (@eq R a b) end.

(** ** loops *)
Lemma ltb_t a b : ltb a b = true <-> a < b. Proof. unfold ltb. destruct (Rlt_dec a b); split; auto; try discriminate; lra. Qed.
Lemma ltb_f a b : ltb a b = false <-> b <= a. Proof. unfold ltb. destruct (Rlt_dec a b); split; auto; try discriminate; try lra. Qed.
Lemma while_done {A} n (c : A -> bool) s a b : whileF n c s a = Some b -> c b = false.
Proof. revert a. induction n as [|n IH]; intros a; cbn; [discriminate|]. destruct (c a) eqn:E; [apply IH|]. intros H. injection H as <-. exact E. Qed.
Lemma while_inv {A} (P : A -> Prop) n c s a b : (forall a, P a -> c a = true -> P (s a)) -> P a -> whileF n c s a = Some b -> P b.
Proof. intros HI. revert a. induction n as [|n IH]; intros a; cbn; [discriminate|]. destruct (c a) eqn:E; intros Pa; [apply IH; auto|]. intros H. injection H as <-. exact Pa. Qed.
Lemma iter_r {A} (s : A -> A) k a : Nat.iter (S k) s a = Nat.iter k s (s a).
Proof. induction k as [|k IH]; [reflexivity|]. change (s (Nat.iter (S k) s a) = s (Nat.iter k s (s a))). rewrite IH. reflexivity. Qed.
Lemma while_term {A} (c : A -> bool) s k : forall a, c (Nat.iter k s a) = false -> exists N b, forall n, (N <= n)%nat -> whileF n c s a = Some b.
Proof.
  induction k as [|k IH]; intros a H.
  - exists 1%nat, a. intros [|n] Hn; [lia|]. cbn in *. rewrite H. reflexivity.
  - destruct (c a) eqn:E.
    + replace (Nat.iter (S k) s a) with (Nat.iter k s (s a)) in H by (symmetry; apply iter_r).
      destruct (IH _ H) as (N & b & HN). exists (S N), b. intros [|n] Hn; [lia|]. cbn. rewrite E. apply HN. lia.
    + exists 1%nat, a. intros [|n] Hn; [lia|]. cbn in *. rewrite E. reflexivity.
Qed.
(** powers of 1/2 become small *)
Lemma half_pow_small w d : 0 < d -> exists k, w * (/2) ^ k <= d.
Proof.
  intros Hd. destruct (Rle_dec w 0) as [L|L]. { exists 0%nat. cbn. lra. }
  assert (A : Rabs (/2) < 1) by (rewrite Rabs_pos_eq; lra).
  destruct (pow_lt_1_zero (/2) A (d / w)) as [N HN]; [apply Rdiv_lt_0_compat; lra|].
  exists N. specialize (HN N (le_n _)). rewrite Rabs_pos_eq in HN by (apply pow_le; lra).
  apply (Rmult_lt_compat_l w) in HN; [|lra]. replace (w * (d / w)) with d in HN by (field; lra). lra.
Qed.

Section Bisect.
  Variables (h : R -> R) (tgt dm : R).
  Let cond (st : R * R * R) := let '(lo, hi, _) := st in ltb dm (hi - lo).
  Let step (st : R * R * R) := let '(lo, hi, m) := st in let '(lo', hi') := if ltb (h m) tgt then (m, hi) else (lo, m) in (lo', hi', 0.5 * (hi' + lo')).
  Definition bracket (lo0 hi0 : R) (st : R * R * R) : Prop :=
    let '(lo, hi, m) := st in lo0 <= lo /\ lo <= hi /\ hi <= hi0 /\ m = 0.5 * (hi + lo) /\ h lo <= tgt <= h hi.
  Lemma bracket_step lo0 hi0 st : bracket lo0 hi0 st -> bracket lo0 hi0 (step st).
  Proof.
    destruct st as [[lo hi] m]. cbn. intros (A & B & C & D & E). destruct (ltb (h m) tgt) eqn:L; cbn; repeat split; try lra.
    - apply ltb_t in L. lra.
    - apply ltb_f in L. lra.
  Qed.
  Lemma width_step lo hi : snd (fst (step (lo, hi, 0.5 * (hi + lo)))) - fst (fst (step (lo, hi, 0.5 * (hi + lo)))) = (hi - lo) * / 2.
  Proof. unfold step. destruct (ltb _ tgt); cbn; lra. Qed.
  Lemma iter_bracket lo hi k : bracket lo hi (lo, hi, 0.5 * (hi + lo)) ->
    bracket lo hi (Nat.iter k step (lo, hi, 0.5 * (hi + lo))) /\
    snd (fst (Nat.iter k step (lo, hi, 0.5 * (hi + lo)))) - fst (fst (Nat.iter k step (lo, hi, 0.5 * (hi + lo)))) = (hi - lo) * (/2) ^ k.
  Proof.
    intros B. induction k as [|k [IH1 IH2]]; [split; [exact B|cbn; ring]|].
    change (Nat.iter (S k) step (lo, hi, 0.5 * (hi + lo))) with (step (Nat.iter k step (lo, hi, 0.5 * (hi + lo)))).
    split; [apply bracket_step; exact IH1|].
    destruct (Nat.iter k step (lo, hi, 0.5 * (hi + lo))) as [[l r] m]. destruct IH1 as (_ & _ & _ & -> & _).
    rewrite width_step. cbn [fst snd] in IH2. rewrite IH2. cbn [pow]. ring.
  Qed.
  Lemma bisect_correct lo hi : 0 < dm -> lo <= hi -> h lo <= tgt <= h hi ->
    exists N lo' hi' m', (forall n, (N <= n)%nat -> bisect n h tgt dm lo hi (0.5 * (hi + lo)) = Some (lo', hi', m')) /\
      lo <= lo' /\ lo' <= hi' /\ hi' <= hi /\ m' = 0.5 * (hi' + lo') /\ h lo' <= tgt <= h hi' /\ hi' - lo' <= dm.
  Proof.
    intros Hd Hl Hh. assert (B : bracket lo hi (lo, hi, 0.5 * (hi + lo))) by (cbn; repeat split; lra).
    destruct (half_pow_small (hi - lo) dm Hd) as [k Hk].
    destruct (iter_bracket lo hi k B) as [B1 B2].
    destruct (while_term cond step k (lo, hi, 0.5 * (hi + lo))) as (N & [[lo' hi'] m'] & HN).
    { unfold cond. destruct (Nat.iter k step (lo, hi, 0.5 * (hi + lo))) as [[l r] m]. cbn [fst snd] in B2. apply ltb_f. lra. }
    exists N, lo', hi', m'. split; [intros n Hn; exact (HN n Hn)|].
    specialize (HN N (le_n _)). pose proof (while_inv (bracket lo hi) _ _ _ _ _ (fun a P _ => bracket_step lo hi a P) B HN) as (P1 & P2 & P3 & P4 & P5).
    apply while_done in HN. unfold cond in HN. apply ltb_f in HN. auto 10.
  Qed.
End Bisect.

(** intermediate value *)
Lemma ivt (h : R -> R) a b t : a <= b -> (forall x, a <= x <= b -> continuous h x) -> h a <= t <= h b -> exists x, a <= x <= b /\ h x = t.
Proof.
  intros Hab C [H1 H2]. destruct (Req_dec (h a) t) as [E1|N1]; [exists a; split; [lra|auto]|].
  destruct (Req_dec (h b) t) as [E2|N2]; [exists b; split; [lra|auto]|].
  assert (Lt : a < b). { destruct (Req_dec a b) as [->|]; lra. }
  destruct (Ranalysis5.IVT_interv (fun x => h x - t) a b) as [z [Hz E]].
  - intros x Hx. apply continuity_pt_minus; [apply continuity_pt_filterlim; apply C; lra|apply continuity_pt_const; intros ? ?; reflexivity].
  - exact Lt.
  - lra.
  - lra.
  - exists z. split; [lra|lra].
Qed.
(** monotone from the derivative on an interval *)
Lemma mono_strict (f f' : R -> R) a b : a < b -> (forall x, a <= x <= b -> is_derive f x (f' x)) -> (forall x, a < x < b -> 0 < f' x) -> f a < f b.
Proof.
  intros Hab D P. destruct (MVT_cor2 f f' a b Hab) as (c & E & Hc).
  { intros c Hc. apply is_derive_Reals. apply D. lra. }
  specialize (P c Hc). nra.
Qed.
Lemma mono_weak (f f' : R -> R) a b : a <= b -> (forall x, a <= x <= b -> is_derive f x (f' x)) -> (forall x, a < x < b -> 0 <= f' x) -> f a <= f b.
Proof.
  intros Hab D P. destruct (Req_dec a b) as [->|N]; [lra|]. destruct (MVT_cor2 f f' a b ltac:(lra)) as (c & E & Hc).
  { intros c Hc. apply is_derive_Reals. apply D. lra. }
  specialize (P c Hc). nra.
Qed.

(** ** Screening *)
Section Scr.
  Variables xp xm : R.
  Hypothesis Hp : 0 <= xp.
  Hypothesis Hm : 0 <= xm.
  Hypothesis H0 : 0 < x0 xp xm.
  Hypothesis H1 : x0 xp xm < 1.
  Notation X0 := (x0 xp xm).
  Notation fx x := (snd (fHS xp xm x)).
  Notation rf := (rootFunc xp xm).
  Lemma fHS_derive x : x < 1 -> is_derive (fun x : R => fst (fHS xp xm x)) x (fx x).
  Proof. intros Hx. unfold fHS. cbn [fst snd]. auto_derive; [repeat split; lra|]. field. repeat split; lra. Qed.
  Definition fxx x := (4 / X0) * (3 / (1 - x) - 2 / (1 - X0)) * (1 / (1 - x)) ^ 3.
  Lemma fx_derive x : x < 1 -> is_derive (fun x : R => fx x) x (fxx x).
  Proof. intros Hx. unfold fHS, fxx. cbn [fst snd]. auto_derive; [repeat split; lra|]. field. repeat split; lra. Qed.
  Lemma fxx_pos x : X0 <= 1/3 -> 0 < x < 1 -> 0 < fxx x.
  Proof.
    intros Hs Hx. unfold fxx. apply Rmult_lt_0_compat; [apply Rmult_lt_0_compat|].
    - apply Rdiv_lt_0_compat; lra.
    - assert (3 < 3 / (1 - x)). { apply (Rmult_lt_reg_r (1 - x)); [lra|]. replace (3 / (1 - x) * (1 - x)) with 3 by (field; lra). lra. }
      assert (2 / (1 - X0) <= 3). { apply (Rmult_le_reg_r (1 - X0)); [lra|]. replace (2 / (1 - X0) * (1 - X0)) with 2 by (field; lra). lra. }
      lra.
    - apply pow_lt. apply Rdiv_lt_0_compat; lra.
  Qed.
  Definition rf_x x V := 1 + fxx x * (xp * xp * exp (- V - fx x * xp) + xm * xm * exp (V - fx x * xm)).
  Lemma rf_derive x V : x < 1 -> is_derive (fun x : R => rf x V) x (rf_x x V).
  Proof.
    intros Hx. unfold rootFunc, rf_x. pose proof (fx_derive x Hx) as D.
    assert (A : is_derive (fun x : R => exp (- V - fx x * xp)) x (- fxx x * xp * exp (- V - fx x * xp))).
    { evar_last. apply (is_derive_comp exp (fun x => - V - fx x * xp)); [apply is_derive_exp|].
      apply (is_derive_minus (V := R_NormedModule)); [apply @is_derive_const|]. apply (is_derive_scal_l (V := R_NormedModule)). exact D.
      unfold scal, minus, plus, opp, zero; cbn. unfold mult; cbn. ring. }
    assert (B : is_derive (fun x : R => exp (V - fx x * xm)) x (- fxx x * xm * exp (V - fx x * xm))).
    { evar_last. apply (is_derive_comp exp (fun x => V - fx x * xm)); [apply is_derive_exp|].
      apply (is_derive_minus (V := R_NormedModule)); [apply @is_derive_const|]. apply (is_derive_scal_l (V := R_NormedModule)). exact D.
      unfold scal, minus, plus, opp, zero; cbn. unfold mult; cbn. ring. }
    evar_last. apply (is_derive_minus (V := R_NormedModule)); [apply @is_derive_id|].
    apply (is_derive_plus (V := R_NormedModule)); apply is_derive_scal; [exact A|exact B].
    unfold minus, plus, opp, one; cbn. ring.
  Qed.
  Lemma rf_cont x V : x < 1 -> continuous (fun x : R => rf x V) x.
  Proof. intros Hx. apply (ex_derive_continuous (V := R_NormedModule)). exists (rf_x x V). apply rf_derive; auto. Qed.
  (** for packing fractions up to 1/3 the root function is strictly increasing *)
  Lemma rf_incr V a b : X0 <= 1/3 -> 0 <= a < b -> b < 1 -> rf a V < rf b V.
  Proof.
    intros Hs Hab Hb. apply (mono_strict (fun x => rf x V) (fun x => rf_x x V)); [lra|intros x Hx; apply rf_derive; lra|].
    intros x Hx. unfold rf_x. assert (F := fxx_pos x Hs ltac:(lra)).
    pose proof (exp_pos (- V - fx x * xp)). pose proof (exp_pos (V - fx x * xm)).
    assert (0 <= xp * xp * exp (- V - fx x * xp)) by (apply Rmult_le_pos; [nra|lra]).
    assert (0 <= xm * xm * exp (V - fx x * xm)) by (apply Rmult_le_pos; [nra|lra]). nra.
  Qed.
  Lemma fx_le0 x : x <= X0 -> fx x <= 0.
  Proof.
    intros Hx. unfold fHS. cbn [snd].
    replace (2 / X0 * 2 * ((x - X0) * (1 / (1 - x)) * (1 / (1 - X0))) * (1 / (1 - x) * (1 / (1 - x))) * 1)
       with (- ((4 / X0) * (X0 - x) * (1 / (1 - X0)) * (1 / (1 - x)) ^ 3)) by (field; repeat split; lra).
    assert (0 <= 4 / X0) by (left; apply Rdiv_lt_0_compat; lra). assert (0 < 1 / (1 - X0)) by (apply Rdiv_lt_0_compat; lra).
    assert (0 < (1 / (1 - x)) ^ 3) by (apply pow_lt; apply Rdiv_lt_0_compat; lra).
    assert (0 <= 4 / X0 * (X0 - x) * (1 / (1 - X0)) * (1 / (1 - x)) ^ 3); [|lra].
    apply Rmult_le_pos; [|lra]. apply Rmult_le_pos; [|lra]. apply Rmult_le_pos; lra.
  Qed.
  Lemma root_low V x : 0 < x <= X0 -> x <= xp * exp (- V) + xm * exp V -> rf x V <= 0.
  Proof.
    intros Hx Hc. unfold rootFunc. cbv zeta. pose proof (fx_le0 x ltac:(lra)) as F.
    assert (exp (- V) <= exp (- V - fx x * xp)). { destruct (Req_dec (- V) (- V - fx x * xp)) as [<-|N]; [lra|]. left. apply exp_increasing. nra. }
    assert (exp V <= exp (V - fx x * xm)). { destruct (Req_dec V (V - fx x * xm)) as [<-|N]; [lra|]. left. apply exp_increasing. nra. }
    nra.
  Qed.
  Lemma exp_neg_le y : 0 < y -> y * exp (- y) <= 1.
  Proof. intros Hy. rewrite exp_Ropp. pose proof (exp_ge_1p y). apply (Rmult_le_reg_r (exp y)); [apply exp_pos|]. rewrite Rmult_assoc, Rinv_l by (pose proof (exp_pos y); lra). lra. Qed.
  Lemma root_high V x : (1 + X0) / 2 <= x < 1 -> 1 / 2 <= x -> (exp V + exp (- V)) * X0 * (1 - x) <= 1 -> 0 <= rf x V.
  Proof.
    intros Hx Hh Hk. unfold rootFunc. cbv zeta.
    assert (F : 2 / (X0 * (1 - x)) <= fx x).
    { unfold fHS. cbn [snd].
      replace (2 / X0 * 2 * ((x - X0) * (1 / (1 - x)) * (1 / (1 - X0))) * (1 / (1 - x) * (1 / (1 - x))) * 1)
       with (2 / (X0 * (1 - x)) * (2 * (x - X0) / (1 - X0)) * (1 / (1 - x)) ^ 2) by (field; repeat split; lra).
      assert (A : 0 < 2 / (X0 * (1 - x))) by (apply Rdiv_lt_0_compat; [lra|nra]).
      assert (B : 1 <= 2 * (x - X0) / (1 - X0)). { apply (Rmult_le_reg_r (1 - X0)); [lra|]. replace (2 * (x - X0) / (1 - X0) * (1 - X0)) with (2 * (x - X0)) by (field; lra). lra. }
      assert (C : 1 <= (1 / (1 - x)) ^ 2).
      { assert (1 <= 1 / (1 - x)). { apply (Rmult_le_reg_r (1 - x)); [lra|]. replace (1 / (1 - x) * (1 - x)) with 1 by (field; lra). lra. } simpl. nra. }
      assert (2 / (X0 * (1 - x)) <= 2 / (X0 * (1 - x)) * (2 * (x - X0) / (1 - X0))) by nra. nra. }
    assert (FP : 0 < fx x). { assert (0 < 2 / (X0 * (1 - x))) by (apply Rdiv_lt_0_compat; [lra|nra]). lra. }
    assert (T : forall q W, 0 <= q -> q * exp (W - fx x * q) <= exp W / fx x).
    { intros q W Hq. destruct (Req_dec q 0) as [->|N].
      - rewrite Rmult_0_l. left. apply Rdiv_lt_0_compat; [apply exp_pos|lra].
      - replace (W - fx x * q) with (W + - (fx x * q)) by ring. rewrite exp_plus.
        pose proof (exp_neg_le (fx x * q) ltac:(nra)) as G. pose proof (exp_pos W).
        apply (Rmult_le_reg_r (fx x)); [lra|]. replace (exp W / fx x * fx x) with (exp W) by (field; lra). nra. }
    pose proof (T xp (- V) Hp). pose proof (T xm V Hm).
    assert ((exp V + exp (- V)) / fx x <= x).
    { apply (Rmult_le_reg_r (fx x)); [lra|]. replace ((exp V + exp (- V)) / fx x * fx x) with (exp V + exp (- V)) by (field; lra).
      assert (2 <= fx x * (X0 * (1 - x))). { apply (Rmult_le_compat_r (X0 * (1 - x))) in F; [|nra]. replace (2 / (X0 * (1 - x)) * (X0 * (1 - x))) with 2 in F by (field; split; lra). lra. }
      pose proof (exp_pos V). pose proof (exp_pos (- V)).
      assert (0 < X0 * (1 - x)) by nra.
      apply (Rmult_le_reg_r (X0 * (1 - x))); [lra|]. nra. }
    unfold Rdiv in *. lra.
  Qed.

  (** the bisection brackets a root in (0,1), for every potential *)
  Lemma xV_correct V : exists N x xs, (forall n, (N <= n)%nat -> x_from_V xp xm n V = Some x) /\ 0 < x < 1 /\ 0 < xs < 1 /\ rf xs V = 0 /\ Rabs (x - xs) <= / 10 ^ 13.
  Proof.
    assert (I1 : forall k, Nat.iter k (fun x => x * 0.5) X0 = X0 * (/2) ^ k).
    { induction k as [|k IH]; [cbn; ring|]. change (Nat.iter (S k) (fun x => x * 0.5) X0) with (Nat.iter k (fun x => x * 0.5) X0 * 0.5). rewrite IH. cbn [pow]. lra. }
    set (c := xp * exp (- V) + xm * exp V).
    assert (CP : 0 < c). { unfold c, x0 in *. pose proof (exp_pos V). pose proof (exp_pos (- V)). destruct (Req_dec xp 0) as [E|N]; nra. }
    destruct (half_pow_small X0 c CP) as [k1 Hk1].
    assert (P0 : forall k, 0 < X0 * (/2) ^ k <= X0).
    { intros k. assert (0 < (/2) ^ k) by (apply pow_lt; lra). assert ((/2) ^ k <= 1) by (replace 1 with (1 ^ k) by apply pow1; apply pow_incr; lra). split; nra. }
    destruct (while_term (fun x => ltb 0 (rf x V)) (fun x => x * 0.5) k1 X0) as (N1 & lo & HN1).
    { rewrite I1. apply ltb_f. apply root_low; [apply P0|exact Hk1]. }
    assert (L1 : 0 < lo <= X0).
    { assert (ST : forall a, 0 < a <= X0 -> ltb 0 (rf a V) = true -> 0 < a * 0.5 <= X0) by (intros a P _; lra).
      exact (while_inv (fun x => 0 < x <= X0) N1 _ _ _ _ ST (conj H0 (Rle_refl _)) (HN1 N1 (le_n _))). }
    assert (L2 : rf lo V <= 0). { pose proof (while_done _ _ _ _ _ (HN1 N1 (le_n _))) as D. apply ltb_f in D. exact D. }
    assert (I2 : forall k, 1 - Nat.iter k (fun x => 0.5 * (1 + x)) lo = (1 - lo) * (/2) ^ k).
    { induction k as [|k IH]; [cbn; ring|]. change (Nat.iter (S k) (fun x => 0.5 * (1 + x)) lo) with (0.5 * (1 + Nat.iter k (fun x => 0.5 * (1 + x)) lo)). cbn [pow]. lra. }
    set (K := (exp V + exp (- V)) * X0). assert (KP : 0 < K). { unfold K. pose proof (exp_pos V). pose proof (exp_pos (- V)). nra. }
    destruct (half_pow_small (1 - lo) (Rmin ((1 - X0) / 2) (Rmin (1/2) (/ K)))) as [k2 Hk2].
    { repeat apply Rmin_glb_lt; try lra. apply Rinv_0_lt_compat. exact KP. }
    assert (P2 : forall k, 0 < (/2)^k) by (intros; apply pow_lt; lra).
    destruct (while_term (fun x => ltb (rf x V) 0) (fun x => 0.5 * (1 + x)) k2 lo) as (N2 & hi & HN2).
    { specialize (I2 k2). set (z := Nat.iter k2 (fun x => 0.5 * (1 + x)) lo) in *. rewrite <- I2 in Hk2.
      pose proof (Rmin_l ((1 - X0) / 2) (Rmin (1/2) (/ K))). pose proof (Rmin_r ((1 - X0) / 2) (Rmin (1/2) (/ K))).
      pose proof (Rmin_l (1/2) (/ K)). pose proof (Rmin_r (1/2) (/ K)). specialize (P2 k2).
      apply ltb_f. apply root_high; [split; [lra|nra]|lra|].
      fold K. apply Rle_trans with (K * / K); [apply Rmult_le_compat_l; lra|]. rewrite Rinv_r; lra. }
    assert (L3 : lo <= hi < 1).
    { assert (ST : forall a, lo <= a < 1 -> ltb (rf a V) 0 = true -> lo <= 0.5 * (1 + a) < 1) by (intros a P _; lra).
      assert (S0 : lo <= lo < 1) by lra.
      exact (while_inv (fun x => lo <= x < 1) N2 _ _ _ _ ST S0 (HN2 N2 (le_n _))). }
    assert (L4 : 0 <= rf hi V). { pose proof (while_done _ _ _ _ _ (HN2 N2 (le_n _))) as D. apply ltb_f in D. exact D. }
    assert (T13 : 0 < / 10 ^ 13) by (apply Rinv_0_lt_compat, pow_lt; lra).
    destruct (bisect_correct (fun x => rf x V) 0 (0.5 * (hi + lo) * / 10 ^ 13) lo hi) as (N3 & lo' & hi' & m & HN3 & B1 & B2 & B3 & B4 & B5 & B6); [nra|lra|lra|].
    destruct (ivt (fun x => rf x V) lo' hi' 0) as (xs & Hxs & E); [lra|intros x Hx; apply rf_cont; lra|lra|].
    exists (Nat.max N1 (Nat.max N2 N3)), m, xs. split.
    { intros n Hn. unfold x_from_V. rewrite HN1, HN2 by lia. cbv zeta. rewrite HN3 by lia. reflexivity. }
    repeat split; try lra.
    apply Rabs_le. assert (0.5 * (hi + lo) * / 10 ^ 13 <= / 10 ^ 13) by nra. lra.
  Qed.
  Lemma root_unique V a b : X0 <= 1/3 -> 0 < a < 1 -> 0 < b < 1 -> rf a V = 0 -> rf b V = 0 -> a = b.
  Proof.
    intros Hs Ha Hb Ea Eb. destruct (Rtotal_order a b) as [L|[E|L]]; auto.
    - pose proof (rf_incr V a b Hs ltac:(lra) ltac:(lra)). lra.
    - pose proof (rf_incr V b a Hs ltac:(lra) ltac:(lra)). lra.
  Qed.

  (** the ionic energy is minimal over x at the self-consistent packing fraction *)
  Definition ae x := exp (- (fx x * xm)).
  Definition be x := exp (- (fx x * xp)).
  Lemma energy_split V x : ionEnergy xp xm V x = exp V * ae x + exp (- V) * be x + (fx x * x - fst (fHS xp xm x) - 2).
  Proof. unfold ionEnergy, ae, be. destruct (fHS xp xm x) as [f f_x]. cbn [fst snd]. unfold Rminus. rewrite !exp_plus. ring. Qed.
  Lemma energy_derive V x : x < 1 -> is_derive (fun x : R => ionEnergy xp xm V x) x (fxx x * rf x V).
  Proof.
    intros Hx. apply (is_derive_ext (fun x : R => exp (V - fx x * xm) + exp (- V - fx x * xp) + fx x * x - fst (fHS xp xm x) - 2)).
    { intros t. unfold ionEnergy. destruct (fHS xp xm t) as [f f_x]. reflexivity. }
    pose proof (fx_derive x Hx) as D. pose proof (fHS_derive x Hx) as DF.
    assert (A : is_derive (fun x : R => exp (- V - fx x * xp)) x (- fxx x * xp * exp (- V - fx x * xp))).
    { evar_last. apply (is_derive_comp exp (fun x => - V - fx x * xp)); [apply is_derive_exp|].
      apply (is_derive_minus (V := R_NormedModule)); [apply @is_derive_const|]. apply (is_derive_scal_l (V := R_NormedModule)). exact D.
      unfold scal, minus, plus, opp, zero; cbn. unfold mult; cbn. ring. }
    assert (B : is_derive (fun x : R => exp (V - fx x * xm)) x (- fxx x * xm * exp (V - fx x * xm))).
    { evar_last. apply (is_derive_comp exp (fun x => V - fx x * xm)); [apply is_derive_exp|].
      apply (is_derive_minus (V := R_NormedModule)); [apply @is_derive_const|]. apply (is_derive_scal_l (V := R_NormedModule)). exact D.
      unfold scal, minus, plus, opp, zero; cbn. unfold mult; cbn. ring. }
    assert (C : is_derive (fun x : R => fx x * x) x (fxx x * x + fx x)).
    { evar_last. apply (is_derive_mult (K := R_AbsRing)); [exact D|apply @is_derive_id|apply Rmult_comm]. unfold plus, mult, one; cbn. ring. }
    evar_last. apply (is_derive_minus (V := R_NormedModule)); [|apply @is_derive_const].
    apply (is_derive_minus (V := R_NormedModule)); [|exact DF]. apply (is_derive_plus (V := R_NormedModule)); [|exact C].
    apply (is_derive_plus (V := R_NormedModule)); [exact B|exact A].
    unfold rootFunc, minus, plus, opp, zero. cbn -[fHS]. ring.
  Qed.
  Lemma energy_min V x xs : X0 <= 1/3 -> 0 < x < 1 -> 0 < xs < 1 -> rf xs V = 0 -> ionEnergy xp xm V xs <= ionEnergy xp xm V x.
  Proof.
    intros Hs Hx Hxs E. destruct (Rle_dec xs x) as [L|L].
    - apply (mono_weak (fun x => ionEnergy xp xm V x) (fun x => fxx x * rf x V)); [lra|intros t Ht; apply energy_derive; lra|].
      intros t Ht. pose proof (rf_incr V xs t Hs ltac:(lra) ltac:(lra)). pose proof (fxx_pos t Hs ltac:(lra)). nra.
    - assert (- ionEnergy xp xm V x <= - ionEnergy xp xm V xs); [|lra].
      apply (mono_weak (fun x => - ionEnergy xp xm V x) (fun x => - (fxx x * rf x V))); [lra| |].
      + intros t Ht. apply (is_derive_opp (V := R_NormedModule)). apply energy_derive. lra.
      + intros t Ht. pose proof (rf_incr V t xs Hs ltac:(lra) ltac:(lra)). pose proof (fxx_pos t Hs ltac:(lra)). nra.
  Qed.

  (** the self-consistent packing fraction is continuous in the potential *)
  Variable XS : R -> R.
  Hypothesis HXS : forall V, 0 < XS V < 1 /\ rf (XS V) V = 0.
  Lemma rfV_cont x V : continuous (fun V : R => rf x V) V.
  Proof.
    unfold rootFunc. cbv zeta. apply (ex_derive_continuous (V := R_NormedModule)). auto_derive. auto.
  Qed.
  Lemma XS_cont V : X0 <= 1/3 -> continuous XS V.
  Proof.
    intros Hs. destruct (HXS V) as [B E]. apply filterlim_locally. intros eps.
    set (d := Rmin (eps / 2) (Rmin (XS V / 2) ((1 - XS V) / 2))).
    pose proof (cond_pos eps) as EP.
    assert (DP : 0 < d) by (unfold d; repeat apply Rmin_glb_lt; lra).
    assert (D1 : d <= eps / 2) by apply Rmin_l. assert (D2 : d <= XS V / 2) by (unfold d; eapply Rle_trans; [apply Rmin_r|apply Rmin_l]).
    assert (D3 : d <= (1 - XS V) / 2) by (unfold d; eapply Rle_trans; [apply Rmin_r|apply Rmin_r]).
    assert (A1 : rf (XS V - d) V < 0). { rewrite <- E. apply rf_incr; lra. }
    assert (A2 : 0 < rf (XS V + d) V). { rewrite <- E. apply rf_incr; lra. }
    assert (F1 : locally V (fun W => rf (XS V - d) W < 0)).
    { apply (rfV_cont (XS V - d) V (fun y => y < 0)). exists (mkposreal (- rf (XS V - d) V) ltac:(lra)). intros y Hy.
      unfold ball in Hy. cbn in Hy. unfold AbsRing_ball, abs, minus, plus, opp in Hy. cbn in Hy. apply Rabs_def2 in Hy. lra. }
    assert (F2 : locally V (fun W => 0 < rf (XS V + d) W)).
    { apply (rfV_cont (XS V + d) V (fun y => 0 < y)). exists (mkposreal (rf (XS V + d) V) A2). intros y Hy.
      unfold ball in Hy. cbn in Hy. unfold AbsRing_ball, abs, minus, plus, opp in Hy. cbn in Hy. apply Rabs_def2 in Hy. lra. }
    generalize (filter_and _ _ F1 F2). apply filter_imp. intros W [G1 G2]. destruct (HXS W) as [BW EW].
    unfold ball. cbn. unfold AbsRing_ball, abs, minus, plus, opp. cbn.
    apply Rabs_def1.
    - destruct (Rlt_dec (XS W) (XS V + d)) as [|N]; [lra|]. exfalso.
      assert (rf (XS V + d) W <= rf (XS W) W). { destruct (Req_dec (XS V + d) (XS W)) as [->|]; [lra|]. left. apply rf_incr; lra. } lra.
    - destruct (Rlt_dec (XS V - d) (XS W)) as [|N]; [lra|]. exfalso.
      assert (rf (XS W) W <= rf (XS V - d) W). { destruct (Req_dec (XS V - d) (XS W)) as [->|]; [lra|]. left. apply rf_incr; lra. } lra.
  Qed.
  (** a remainder that is o(h) *)
  Lemma little_o (r : R -> R) : (forall e, 0 < e -> exists d, 0 < d /\ forall h, Rabs h < d -> Rabs (r h) <= e * Rabs h) -> is_derive r 0 0.
  Proof.
    intros H. apply is_derive_Reals. intros eps He. destruct (H (eps / 2) ltac:(lra)) as (d & Hd & Hr).
    exists (mkposreal d Hd). cbn. intros h Hh Hlt. replace (0 + h) with h by ring.
    assert (R0 : r 0 = 0). { pose proof (Hr 0) as Z. rewrite Rabs_R0 in Z. specialize (Z Hd). rewrite Rmult_0_r in Z.
      pose proof (Rabs_pos (r 0)). destruct (Req_dec (r 0) 0) as [|N]; auto. apply Rabs_pos_lt in N. lra. }
    rewrite R0. replace ((r h - 0) / h - 0) with (r h / h) by (field; auto). unfold Rdiv. rewrite Rabs_mult, Rabs_Rinv by auto.
    pose proof (Rabs_pos_lt h Hh). apply (Rmult_lt_reg_r (Rabs h)); [lra|]. rewrite Rmult_assoc, Rinv_l by lra.
    specialize (Hr h Hlt). nra.
  Qed.
  Lemma exp_lip h : Rabs h <= 1 -> Rabs (exp h - 1) <= 3 * Rabs h.
  Proof.
    intros Hh. apply Rabs_le_between in Hh. pose proof (exp_le_3) as E3.
    destruct (Req_dec h 0) as [->|N]. { rewrite exp_0, Rminus_eq_0, Rabs_R0. lra. }
    destruct (MVT_gen exp 0 h exp) as (c & Hc & E).
    - intros x _. apply is_derive_exp.
    - intros x _. apply derivable_continuous_pt. apply derivable_pt_exp.
    - rewrite exp_0, Rminus_0_r in E. rewrite E, Rabs_mult. apply Rmult_le_compat_r; [apply Rabs_pos|].
      rewrite Rabs_pos_eq by (left; apply exp_pos). apply Rle_trans with (exp 1); [|exact E3].
      assert (c <= 1). { unfold Rmin, Rmax in Hc. destruct (Rle_dec 0 h); lra. }
      destruct (Req_dec c 1) as [->|]; [lra|]. left. apply exp_increasing. lra.
  Qed.
  Lemma ion_derive V : X0 <= 1/3 ->
    is_derive (fun V : R => ionEnergy xp xm V (XS V)) V (exp (V - fx (XS V) * xm) - exp (- V - fx (XS V) * xp)).
  Proof.
    intros Hs. destruct (HXS V) as [BV EV].
    set (Phi := fun V : R => ionEnergy xp xm V (XS V)).
    set (D := fun h x : R => exp V * (exp h - 1) * ae x + exp (- V) * (exp (- h) - 1) * be x).
    assert (ED : forall h x, ionEnergy xp xm (V + h) x - ionEnergy xp xm V x = D h x).
    { intros h x. rewrite !energy_split. unfold D. replace (- (V + h)) with (- V + - h) by ring. rewrite !exp_plus. ring. }
    set (r := fun h : R => Phi (V + h) - Phi V - D h (XS V)).
    assert (RB : forall h, Rabs h <= 1 -> Rabs (r h) <= 3 * Rabs h * (exp V * Rabs (ae (XS (V + h)) - ae (XS V)) + exp (- V) * Rabs (be (XS (V + h)) - be (XS V)))).
    { intros h Hh. destruct (HXS (V + h)) as [Bh Eh].
      pose proof (energy_min (V + h) (XS V) (XS (V + h)) Hs BV Bh Eh) as U1.
      pose proof (energy_min V (XS (V + h)) (XS V) Hs Bh BV EV) as U2.
      assert (U : D h (XS (V + h)) - D h (XS V) <= r h <= 0). { unfold r, Phi. rewrite <- !ED. lra. }
      assert (UU : Rabs (r h) <= Rabs (D h (XS (V + h)) - D h (XS V))). { rewrite (Rabs_left1 (r h)) by lra. rewrite Rabs_left1 by lra. lra. }
      apply Rle_trans with (1 := UU).
      replace (D h (XS (V + h)) - D h (XS V)) with (exp V * (exp h - 1) * (ae (XS (V + h)) - ae (XS V)) + exp (- V) * (exp (- h) - 1) * (be (XS (V + h)) - be (XS V))) by (unfold D; ring).
      apply Rle_trans with (1 := Rabs_triang _ _). rewrite !Rabs_mult. rewrite !(Rabs_pos_eq (exp _)) by (left; apply exp_pos).
      pose proof (exp_lip h Hh) as L1. pose proof (exp_lip (- h)) as L2. rewrite Rabs_Ropp in L2. specialize (L2 Hh).
      pose proof (exp_pos V). pose proof (exp_pos (- V)).
      pose proof (Rabs_pos (ae (XS (V + h)) - ae (XS V))). pose proof (Rabs_pos (be (XS (V + h)) - be (XS V))).
      replace (3 * Rabs h * (exp V * Rabs (ae (XS (V + h)) - ae (XS V)) + exp (- V) * Rabs (be (XS (V + h)) - be (XS V))))
        with (exp V * (3 * Rabs h) * Rabs (ae (XS (V + h)) - ae (XS V)) + exp (- V) * (3 * Rabs h) * Rabs (be (XS (V + h)) - be (XS V))) by ring.
      apply Rplus_le_compat; (apply Rmult_le_compat_r; [apply Rabs_pos|]); (apply Rmult_le_compat_l; [lra|assumption]). }
    assert (CA : forall q, continuous (fun W : R => exp (- (fx (XS W) * q))) V).
    { intros q. apply (continuous_comp XS (fun x => exp (- (fx x * q)))); [apply XS_cont; auto|].
      apply (ex_derive_continuous (V := R_NormedModule)). eexists. apply (is_derive_comp (V := R_NormedModule) exp (fun x => - (fx x * q))); [apply is_derive_exp|].
      apply (is_derive_opp (V := R_NormedModule)). apply (is_derive_scal_l (V := R_NormedModule)). apply fx_derive. lra. }
    assert (RD : is_derive r 0 0).
    { apply little_o. intros e He.
      set (e1 := e / (3 * (exp V + exp (- V)))).
      pose proof (exp_pos V) as EP1. pose proof (exp_pos (- V)) as EP2.
      assert (E1 : 0 < e1) by (unfold e1; apply Rdiv_lt_0_compat; lra).
      assert (CC : forall q, exists d, 0 < d /\ forall h, Rabs h < d -> Rabs (exp (- (fx (XS (V + h)) * q)) - exp (- (fx (XS V) * q))) <= e1).
      { intros q. specialize (CA q). destruct (proj1 (filterlim_locally _ _) CA (mkposreal e1 E1)) as [d Hd].
        exists d. split; [apply cond_pos|]. intros h Hh. left. apply (Hd (V + h)). unfold ball. cbn. unfold AbsRing_ball, abs, minus, plus, opp. cbn.
        replace (V + h + - V) with h by ring. exact Hh. }
      destruct (CC xm) as (d1 & Hd1 & G1). destruct (CC xp) as (d2 & Hd2 & G2).
      exists (Rmin 1 (Rmin d1 d2)). split; [repeat apply Rmin_glb_lt; lra|]. intros h Hh.
      pose proof (Rmin_l 1 (Rmin d1 d2)). pose proof (Rmin_r 1 (Rmin d1 d2)). pose proof (Rmin_l d1 d2). pose proof (Rmin_r d1 d2).
      apply Rle_trans with (1 := RB h ltac:(lra)).
      specialize (G1 h ltac:(lra)). specialize (G2 h ltac:(lra)). fold (ae (XS (V + h))) (ae (XS V)) in G1. fold (be (XS (V + h))) (be (XS V)) in G2.
      apply Rle_trans with (3 * Rabs h * (exp V * e1 + exp (- V) * e1)).
      - apply Rmult_le_compat_l; [pose proof (Rabs_pos h); lra|]. apply Rplus_le_compat; apply Rmult_le_compat_l; lra.
      - right. unfold e1. field. lra. }
    assert (DD : is_derive (fun h : R => D h (XS V)) 0 (exp V * ae (XS V) - exp (- V) * be (XS V))).
    { unfold D. auto_derive; auto. rewrite Ropp_0, exp_0. ring. }
    assert (PD : is_derive (fun h : R => Phi (V + h)) 0 (exp V * ae (XS V) - exp (- V) * be (XS V))).
    { apply (is_derive_ext (fun h : R => Phi V + D h (XS V) + r h)); [intros h; unfold r; req; ring|].
      evar_last. apply (is_derive_plus (V := R_NormedModule)); [|exact RD]. apply (is_derive_plus (V := R_NormedModule)); [apply @is_derive_const|exact DD].
      unfold plus, zero; cbn. req. ring. }
    apply (is_derive_ext (fun W : R => Phi (V + (W - V)))). { intros t. unfold Phi. f_equal; [|f_equal]; ring. }
    evar_last. apply (is_derive_comp (fun h : R => Phi (V + h)) (fun W : R => W - V)).
    - replace (V - V) with 0 by ring. exact PD.
    - instantiate (1 := 1). auto_derive; auto.
    - unfold scal; cbn. unfold mult; cbn. unfold ae, be. rewrite Rmult_1_l. unfold Rminus. rewrite !exp_plus. reflexivity.
  Qed.
End Scr.
