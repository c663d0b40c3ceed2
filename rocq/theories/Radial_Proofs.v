From Coq Require Import Reals List Bool Arith Lra Lia.
From Coquelicot Require Import Coquelicot.
From Verif Require Import Bessel_Model Radial_Model Radial_Spec.
Import ListNotations.
Local Open Scope R_scope.

Lemma total_ext n f g : (forall i, (i < n)%nat -> f i = g i) -> total n f = total n g.
Proof. induction n as [|n IH]; intros H; [reflexivity|]. cbn [total]. rewrite IH, H by (intros; try apply H; lia). reflexivity. Qed.
Lemma total_lin n f g a c : total n (fun i => a * f i + c * g i) = a * total n f + c * total n g.
Proof. induction n as [|n IH]; cbn [total]; [ring|]. rewrite IH. ring. Qed.
Lemma total_scal n f c : total n (fun i => c * f i) = c * total n f.
Proof. induction n as [|n IH]; cbn [total]; [ring|]. rewrite IH. ring. Qed.
Lemma total_plus n f g : total n (fun i => f i + g i) = total n f + total n g.
Proof. induction n as [|n IH]; cbn [total]; [ring|]. rewrite IH. ring. Qed.
Lemma total_zero n f : (forall i, (i < n)%nat -> f i = 0) -> total n f = 0.
Proof. induction n as [|n IH]; intros H; [reflexivity|]. cbn [total]. rewrite IH, H by (intros; try apply H; lia). ring. Qed.
Lemma total_swap n m f : total n (fun i => total m (fun j => f i j)) = total m (fun j => total n (fun i => f i j)).
Proof. induction n as [|n IH]; cbn [total]; [symmetry; apply total_zero; auto|]. rewrite IH, total_plus. reflexivity. Qed.
Lemma total_unit n f i : (i < n)%nat -> total n (fun j => f j * unit j i) = f i.
Proof.
  induction n as [|n IH]; intros H; [lia|]. cbn [total]. destruct (Nat.eq_dec i n) as [->|N].
  - rewrite total_zero; [unfold unit, upd; rewrite Nat.eqb_refl; ring|]. intros j Hj. unfold unit, upd. destruct (Nat.eqb_spec n j); [lia|ring].
  - rewrite IH by lia. unfold unit, upd. destruct (Nat.eqb_spec i n); [lia|ring].
Qed.

Section Solve.
Context (n : nat) (r : arr) (N2 : (2 <= n)%nat) (G : grid n r).
Definition h (i : nat) : R := 1 / (r (S i) - r i).
Definition rhs (y : arr) (i : nat) : R := 3 * h i * h i * (y (S i) - y i).
Lemma hpos i : (S i < n)%nat -> 0 < h i.
Proof using N2 G. intros H. unfold h. destruct G as [_ L]. specialize (L i H). apply Rdiv_lt_0_compat; lra. Qed.
Definition lower (k i : nat) : bool := (0 <? i)%nat && (i <=? k)%nat.
Definition pick (b : bool) (x : R) : R := if b then x else 0.

Lemma assemble_val y k : let t := fold_left (assembleStep r y) (seq 0 k) (Tri (fun _ => 0) (fun _ => 0) (fun _ => 0) (fun _ => 0)) in
  forall i, t_a t i = pick (lower k i) (h (i - 1)) /\ t_b t i = pick (lower k i) (2 * h (i - 1)) + pick (i <? k)%nat (2 * h i) /\
  t_c t i = pick (i <? k)%nat (h i) /\ t_d t i = pick (lower k i) (rhs y (i - 1)) + pick (i <? k)%nat (rhs y i).
Proof using N2 G.
  induction k as [|k IH]; cbv zeta.
  - cbn [seq fold_left t_a t_b t_c t_d]. intros i. unfold lower, pick. destruct i as [|i]; cbn; repeat split; try lra; ring.
  - rewrite seq_S, fold_left_app. cbn [fold_left Nat.add]. set (t := fold_left _ _ _) in *. cbv zeta in IH. intros i.
    unfold assembleStep. cbn [t_a t_b t_c t_d]. unfold addTo, upd. fold (h k). fold (rhs y k).
    assert (L : lower (S k) i = lower k i || (i =? S k)%nat). { unfold lower. destruct (Nat.ltb_spec 0 i), (Nat.leb_spec i (S k)), (Nat.leb_spec i k), (Nat.eqb_spec i (S k)); cbn; auto; lia. }
    assert (M : (i <? S k)%nat = ((i <? k) || (i =? k))%nat). { destruct (Nat.ltb_spec i (S k)), (Nat.ltb_spec i k), (Nat.eqb_spec i k); cbn; auto; lia. }
    rewrite L, M. destruct (IH i) as (Ha & Hb & Hc & Hd). destruct (Nat.eqb_spec i (S k)) as [Ei|Ni].
    + subst i. assert (L0 : lower k (S k) = false) by (unfold lower; destruct (Nat.leb_spec (S k) k); [lia|apply andb_false_r]).
      assert (E1 : (S k <? k)%nat = false) by (apply Nat.ltb_ge; lia). assert (E2 : (S k =? k)%nat = false) by (apply Nat.eqb_neq; lia).
      rewrite L0 in Ha, Hb, Hd. rewrite E1 in Hb, Hc, Hd. rewrite L0, E1, E2. unfold pick in *. cbn [orb] in *. rewrite Ha, Hb, Hd, Hc. replace (S k - 1)%nat with k by lia.
      repeat split; ring.
    + rewrite orb_false_r. destruct (Nat.eqb_spec i k) as [Ei|Nk].
      * subst i. assert (E1 : (k <? k)%nat = false) by (apply Nat.ltb_ge; lia). rewrite E1 in Hb, Hc, Hd. rewrite E1.
        rewrite Ha, Hb, Hc, Hd. cbn [orb]. unfold pick. repeat split; destruct (lower k k); ring.
      * rewrite orb_false_r. auto.
Qed.
Lemma assembled y i : (i < n)%nat -> t_a (assemble n r y) i = pick (0 <? i)%nat (h (i - 1)) /\
  t_b (assemble n r y) i = pick (0 <? i)%nat (2 * h (i - 1)) + pick (i <? n - 1)%nat (2 * h i) /\
  t_c (assemble n r y) i = pick (i <? n - 1)%nat (h i) /\ t_d (assemble n r y) i = pick (0 <? i)%nat (rhs y (i - 1)) + pick (i <? n - 1)%nat (rhs y i).
Proof using N2 G.
  intros H. destruct (assemble_val y (n - 1) i) as (Ha & Hb & Hc & Hd). unfold assemble.
  assert (L : lower (n - 1) i = (0 <? i)%nat) by (unfold lower; destruct (Nat.leb_spec i (n - 1)); [apply andb_true_r|lia]).
  rewrite L in *. auto.
Qed.

(** elimination *)
Fixpoint bp (t : tri) (i : nat) : R := match i with O => t_b t 0%nat | S k => t_b t (S k) - t_a t (S k) / bp t k * t_c t k end.
Fixpoint dp (t : tri) (i : nat) : R := match i with O => t_d t 0%nat | S k => t_d t (S k) - t_a t (S k) / bp t k * dp t k end.
Lemma eliminate_val t k : let e := fold_left eliminateStep (seq 1 k) t in
  t_c e = t_c t /\ t_a e = t_a t /\ forall i, t_b e i = (if (i <=? k)%nat then bp t i else t_b t i) /\ t_d e i = (if (i <=? k)%nat then dp t i else t_d t i).
Proof using N2 G.
  induction k as [|k IH]; cbv zeta.
  - cbn. repeat split; destruct i; reflexivity.
  - rewrite seq_S, fold_left_app. cbn [fold_left]. replace (1 + k)%nat with (S k) by lia. set (e := fold_left _ _ _) in *. cbv zeta in IH. destruct IH as (Hc & Ha & H).
    unfold eliminateStep. cbn [t_a t_b t_c t_d]. replace (S k - 1)%nat with k by lia. split; [exact Hc|]. split; [exact Ha|]. intros i. unfold upd.
    destruct (H k) as [Hbk Hdk]. rewrite Nat.leb_refl in Hbk, Hdk. destruct (H (S k)) as [Hb1 Hd1]. assert (E : (S k <=? k)%nat = false) by (apply Nat.leb_gt; lia). rewrite E in Hb1, Hd1.
    destruct (Nat.eqb_spec i (S k)) as [->|Ni].
    + rewrite Nat.leb_refl, Ha, Hc, Hbk, Hdk, Hb1, Hd1. cbn [bp dp]. auto.
    + destruct (H i) as [-> ->]. assert (E2 : (i <=? S k)%nat = (i <=? k)%nat) by (destruct (Nat.leb_spec i (S k)), (Nat.leb_spec i k); auto; lia). rewrite E2. auto.
Qed.
Lemma bp_pos y i : (i < n)%nat -> let t := assemble n r y in 0 < bp t i /\ ((S i < n)%nat -> 2 * h i <= bp t i).
Proof using N2 G.
  intros Hi t. induction i as [|i IH].
  - cbn [bp]. destruct (assembled y 0 Hi) as (_ & Hb & _ & _). fold t in Hb. rewrite Hb. change (0 <? 0)%nat with false.
    assert (E : (0 <? n - 1)%nat = true) by (apply Nat.ltb_lt; lia). rewrite E. unfold pick. pose proof (hpos 0 ltac:(lia)). split; [lra|]. intros _. lra.
  - destruct (IH ltac:(lia)) as [P Q]. specialize (Q Hi). pose proof (hpos i Hi) as Hp. cbn [bp]. destruct (assembled y (S i) Hi) as (Ha & Hb & _ & _). destruct (assembled y i ltac:(lia)) as (_ & _ & Hc & _). fold t in Ha, Hb, Hc.
    rewrite Ha, Hb, Hc. assert (E : (i <? n - 1)%nat = true) by (apply Nat.ltb_lt; lia). rewrite E. change (0 <? S i)%nat with true. replace (S i - 1)%nat with i by lia. unfold pick at 1 2 4 5.
    assert (F : h i / bp t i * h i <= / 2 * h i). { apply Rmult_le_compat_r; [lra|]. apply (Rmult_le_reg_r (bp t i)); [lra|]. unfold Rdiv. rewrite Rmult_assoc, Rinv_l by lra. lra. }
    unfold pick. destruct (Nat.ltb_spec (S i) (n - 1)) as [L|L].
    + pose proof (hpos (S i) ltac:(lia)). split; [|intros _]; lra.
    + split; [lra|]. intros; lia.
Qed.
(** back substitution *)
Lemma substitute_val t m : (m < n)%nat -> let X := fold_left (fun yp i => upd yp i ((t_d t i - t_c t i * yp (S i)) / t_b t i)) (rev (seq (n - 1 - m) m)) (upd (fun _ => 0) (n - 1) (t_d t (n - 1)%nat / t_b t (n - 1)%nat)) in
  X (n - 1)%nat = t_d t (n - 1)%nat / t_b t (n - 1)%nat /\ forall i, (n - 1 - m <= i)%nat -> (i < n - 1)%nat -> X i = (t_d t i - t_c t i * X (S i)) / t_b t i.
Proof using N2 G.
  induction m as [|m IH]; intros Hm; cbv zeta.
  - cbn. split; [unfold upd; rewrite Nat.eqb_refl; reflexivity|]. intros; lia.
  - specialize (IH ltac:(lia)). cbv zeta in IH. replace (seq (n - 1 - S m) (S m)) with ((n - 1 - S m)%nat :: seq (n - 1 - m) m) by (cbn [seq]; f_equal; f_equal; lia).
    cbn [rev]. rewrite fold_left_app. cbn [fold_left]. set (X := fold_left _ (rev (seq (n - 1 - m) m)) _) in *. destruct IH as [I1 I2]. set (k := (n - 1 - S m)%nat). unfold upd at 1. split.
    + assert (E : (n - 1 =? k)%nat = false) by (apply Nat.eqb_neq; unfold k; lia). rewrite E. exact I1.
    + intros i Hi Hi2. unfold upd. destruct (Nat.eqb_spec i k) as [->|Ni].
      * assert (E : (S k =? k)%nat = false) by (apply Nat.eqb_neq; lia). rewrite E. reflexivity.
      * assert (E : (S i =? k)%nat = false) by (apply Nat.eqb_neq; unfold k in *; lia). rewrite E. apply I2; unfold k in *; lia.
Qed.

(** The equations for the slopes. *)
Definition row (X : arr) (i : nat) : R := pick (0 <? i)%nat (h (i - 1) * (X (i - 1)%nat + 2 * X i)) + pick (i <? n - 1)%nat (h i * (2 * X i + X (S i))).
Definition rrow (y : arr) (i : nat) : R := pick (0 <? i)%nat (rhs y (i - 1)) + pick (i <? n - 1)%nat (rhs y i).
Lemma slopes_elim y : let t := assemble n r y in let X := slopes n r y in
  X (n - 1)%nat = dp t (n - 1) / bp t (n - 1) /\ forall i, (i < n - 1)%nat -> X i = (dp t i - t_c t i * X (S i)) / bp t i.
Proof using N2 G.
  cbv zeta. unfold slopes, substitute. set (t := assemble n r y). unfold eliminate. destruct (eliminate_val t (n - 1)) as (Hc & _ & H). set (e := fold_left eliminateStep (seq 1 (n - 1)) t) in *.
  pose proof (substitute_val e (n - 1) ltac:(lia)) as S1. cbv zeta in S1. rewrite Nat.sub_diag in S1. set (X := fold_left (fun yp i => upd yp i _) _ _) in *. destruct S1 as [S1 S2].
  destruct (H (n - 1)%nat) as [B D]. rewrite Nat.leb_refl in B, D. split; [rewrite S1, B, D; reflexivity|]. intros i Hi. rewrite (S2 i) by lia.
  destruct (H i) as [-> ->]. assert (E : (i <=? n - 1)%nat = true) by (apply Nat.leb_le; lia). rewrite E, Hc. reflexivity.
Qed.
Lemma elim_iff y (X : arr) : let t := assemble n r y in (forall i, (i < n)%nat -> row X i = rrow y i) <->
  (bp t (n - 1) * X (n - 1)%nat = dp t (n - 1) /\ forall i, (i < n - 1)%nat -> bp t i * X i + t_c t i * X (S i) = dp t i).
Proof using N2 G.
  intros t.
  assert (R : forall i, (i < n)%nat -> row X i = pick (0 <? i)%nat (t_a t i * X (i - 1)%nat) + t_b t i * X i + t_c t i * X (S i)).
  { intros i Hi. destruct (assembled y i Hi) as (Ha & Hb & Hc & _). fold t in Ha, Hb, Hc. rewrite Ha, Hb, Hc. unfold row, pick. destruct (0 <? i)%nat, (i <? n - 1)%nat; ring. }
  assert (Cl : t_c t (n - 1)%nat = 0). { destruct (assembled y (n - 1) ltac:(lia)) as (_ & _ & Hc & _). fold t in Hc. rewrite Hc. unfold pick. assert (E : (n - 1 <? n - 1)%nat = false) by (apply Nat.ltb_ge; lia). rewrite E. reflexivity. }
  assert (D : forall i, (i < n)%nat -> rrow y i = t_d t i). { intros i Hi. destruct (assembled y i Hi) as (_ & _ & _ & Hd). fold t in Hd. rewrite Hd. reflexivity. }
  split.
  - intros H. assert (P : forall i, (i < n)%nat -> bp t i * X i + t_c t i * X (S i) = dp t i).
    { induction i as [|i IH]; intros Hi.
      - pose proof (H 0%nat Hi) as E. rewrite R, D in E by auto. unfold pick in E. cbn [Nat.ltb Nat.leb] in E. cbn [bp dp]. lra.
      - specialize (IH ltac:(lia)). pose proof (H (S i) Hi) as E. rewrite R, D in E by auto. change (0 <? S i)%nat with true in E. unfold pick in E. replace (S i - 1)%nat with i in E by lia. cbn [bp dp]. rewrite <- IH, <- E.
        destruct (bp_pos y i ltac:(lia)) as [Bp _]. fold t in Bp. field. lra. }
    split; [|intros; apply P; lia]. pose proof (P (n - 1)%nat ltac:(lia)) as E. rewrite Cl in E. lra.
  - intros [H1 H2] i Hi. rewrite R, D by auto. assert (P : forall i, (i < n)%nat -> bp t i * X i + t_c t i * X (S i) = dp t i).
    { intros k Hk. destruct (Nat.eq_dec k (n - 1)) as [->|Nk]; [rewrite Cl; lra|apply H2; lia]. }
    destruct i as [|i]; [pose proof (P 0%nat Hi) as E; cbn [bp dp] in E; unfold pick; cbn [Nat.ltb Nat.leb]; lra|].
    change (0 <? S i)%nat with true. unfold pick. replace (S i - 1)%nat with i by lia. pose proof (P (S i) Hi) as E. pose proof (P i ltac:(lia)) as E0. cbn [bp dp] in E. rewrite <- E0 in E.
    destruct (bp_pos y i ltac:(lia)) as [Bp _]. fold t in Bp.
    replace (t_d t (S i) - t_a t (S i) / bp t i * (bp t i * X i + t_c t i * X (S i))) with (t_d t (S i) - t_a t (S i) * X i - t_a t (S i) / bp t i * t_c t i * X (S i)) in E by (field; lra). lra.
Qed.
Lemma slopes_rows y i : (i < n)%nat -> row (slopes n r y) i = rrow y i.
Proof using N2 G.
  revert i. apply (elim_iff y). destruct (slopes_elim y) as [E1 E2]. cbv zeta in E1, E2. split.
  - rewrite E1. destruct (bp_pos y (n - 1) ltac:(lia)) as [P _]. field. lra.
  - intros i Hi. rewrite (E2 i Hi) at 1. destruct (bp_pos y i ltac:(lia)) as [P _]. field. lra.
Qed.
Lemma slopes_unique y X : (forall i, (i < n)%nat -> row X i = rrow y i) -> forall i, (i < n)%nat -> X i = slopes n r y i.
Proof using N2 G.
  intros H. apply (elim_iff y) in H. destruct H as [H1 H2]. destruct (slopes_elim y) as [E1 E2]. cbv zeta in E1, E2. set (t := assemble n r y) in *.
  assert (P : forall k i, (k < n)%nat -> (i = n - 1 - k)%nat -> X i = slopes n r y i).
  { induction k as [|k IH]; intros i Hk ->.
    - rewrite Nat.sub_0_r, E1, <- H1. destruct (bp_pos y (n - 1) ltac:(lia)) as [P _]. fold t in P. field. lra.
    - set (i := (n - 1 - S k)%nat). rewrite (E2 i) by (unfold i; lia). rewrite <- (H2 i) by (unfold i; lia). rewrite (IH (S i)) by (unfold i; lia).
      destruct (bp_pos y i ltac:(unfold i; lia)) as [P _]. fold t in P. field. lra. }
  intros i Hi. apply (P (n - 1 - i)%nat); lia.
Qed.
Lemma slopes_ext y z : (forall i, (i < n)%nat -> y i = z i) -> forall i, (i < n)%nat -> slopes n r y i = slopes n r z i.
Proof using N2 G.
  intros H. apply slopes_unique. intros i Hi. rewrite slopes_rows by auto. unfold rrow, rhs, pick.
  destruct (Nat.ltb_spec 0 i) as [A|A], (Nat.ltb_spec i (n - 1)) as [B|B]; rewrite ?(H i), ?(H (S i)), ?(H (S (i - 1))), ?(H (i - 1)%nat) by lia; reflexivity.
Qed.
Lemma slopes_sum (f : arr) i : (i < n)%nat -> total n (fun j => f j * slopes n r (unit j) i) = slopes n r f i.
Proof using N2 G.
  revert i. apply slopes_unique. intros i Hi.
  transitivity (total n (fun j => f j * row (slopes n r (unit j)) i)).
  - unfold row, pick. destruct (0 <? i)%nat, (i <? n - 1)%nat; [| | |rewrite total_zero; [ring|intros; ring]];
    rewrite ?Rplus_0_l, ?Rplus_0_r; rewrite <- ?total_scal, <- ?total_plus; rewrite <- ?total_scal, <- ?total_plus; rewrite <- ?total_scal, <- ?total_plus; apply total_ext; intros; ring.
  - transitivity (total n (fun j => f j * rrow (unit j) i)); [apply total_ext; intros j Hj; rewrite slopes_rows by auto; reflexivity|].
    assert (Q : forall k, (S k < n)%nat -> total n (fun j => f j * rhs (unit j) k) = rhs f k).
    { intros k Hk. unfold rhs. rewrite <- (total_unit n f (S k)) by lia. rewrite <- (total_unit n f k) by lia. unfold Rminus. rewrite <- Ropp_mult_distr_l_reverse || idtac.
      replace (total n (fun j => f j * unit j (S k)) + - total n (fun j => f j * unit j k)) with (total n (fun j => 1 * (f j * unit j (S k)) + (-1) * (f j * unit j k))) by (rewrite total_lin; ring).
      rewrite <- total_scal. apply total_ext. intros; ring. }
    unfold rrow, pick. destruct (Nat.ltb_spec 0 i) as [A|A], (Nat.ltb_spec i (n - 1)) as [B|B].
    + rewrite <- (Q (i - 1)%nat), <- (Q i) by lia. rewrite <- total_plus. apply total_ext. intros; ring.
    + rewrite <- (Q (i - 1)%nat) by lia. rewrite Rplus_0_r. apply total_ext. intros; ring.
    + rewrite <- (Q i) by lia. rewrite Rplus_0_l. apply total_ext. intros; ring.
    + lia.
Qed.
Lemma pivots y i : (i < n)%nat -> 0 < t_b (eliminate n (assemble n r y)) i.
Proof using N2 G.
  intros Hi. unfold eliminate. destruct (eliminate_val (assemble n r y) (n - 1)) as (_ & _ & H). destruct (H i) as [-> _].
  assert (E : (i <=? n - 1)%nat = true) by (apply Nat.leb_le; lia). rewrite E. apply (bp_pos y i Hi).
Qed.

(** the integral *)
Definition before (y yp : arr) : R := (1/3) * (r 0%nat * r 0%nat * r 0%nat) * (y 0%nat - 0.25 * r 0%nat * yp 0%nat).
Lemma integrate_val y yp : integrate n r y yp = before y yp + total (n - 1) (fun i => interval (r i) (r (S i)) (y i) (y (S i)) (yp i) (yp (S i))).
Proof using N2 G.
  unfold integrate. cbv zeta. fold (before y yp). generalize (n - 1)%nat as m. intros m.
  assert (E : fold_left (fun (st : R * R * R * R) i => let '(r0, y0, yp0, wj) := st in (r (S i), y (S i), yp (S i), wj + interval r0 (r (S i)) y0 (y (S i)) yp0 (yp (S i)))) (seq 0 m) (r 0%nat, y 0%nat, yp 0%nat, before y yp)
    = (r m, y m, yp m, before y yp + total m (fun i => interval (r i) (r (S i)) (y i) (y (S i)) (yp i) (yp (S i))))).
  { induction m as [|m IH]; [cbn; rewrite Rplus_0_r; reflexivity|]. rewrite seq_S, fold_left_app, IH. cbn [fold_left Nat.add total]. f_equal. ring. }
  rewrite E. reflexivity.
Qed.
Lemma quad_spline (f : arr) : total n (fun j => f j * (r j * r j * weight n r j)) = integrate n r f (slopes n r f).
Proof using N2 G.
  assert (Rp : forall j, (j < n)%nat -> 0 < r j). { destruct G as [G0 G1]. induction j as [|j IH]; intros Hj; [exact G0|]. specialize (IH ltac:(lia)). specialize (G1 j Hj). lra. }
  transitivity (total n (fun j => f j * integrate n r (unit j) (slopes n r (unit j)))).
  { apply total_ext. intros j Hj. unfold weight. cbv zeta. specialize (Rp j Hj). field. lra. }
  rewrite (total_ext n _ (fun j => f j * before (unit j) (slopes n r (unit j)) + total (n - 1) (fun i => f j * interval (r i) (r (S i)) (unit j i) (unit j (S i)) (slopes n r (unit j) i) (slopes n r (unit j) (S i))))).
  2:{ intros j _. rewrite integrate_val, total_scal. ring. }
  rewrite total_plus, integrate_val, total_swap. f_equal.
  - unfold before. rewrite <- (slopes_sum f 0) by lia. rewrite <- (total_unit n f 0) by lia. set (u := (1/3) * (r 0%nat * r 0%nat * r 0%nat)). set (qq := 0.25).
    transitivity (u * total n (fun j => f j * unit j 0%nat) + (u * - qq * r 0%nat) * total n (fun j => f j * slopes n r (unit j) 0%nat)); [|ring].
    rewrite <- total_lin. apply total_ext. intros; ring.
  - apply total_ext. intros i Hi. rewrite <- (slopes_sum f i), <- (slopes_sum f (S i)) by lia. rewrite <- (total_unit n f i) at 1 by lia. rewrite <- (total_unit n f (S i)) at 1 by lia.
    assert (IL : forall a b p q, interval (r i) (r (S i)) a b p q = interval (r i) (r (S i)) 1 0 0 0 * a + interval (r i) (r (S i)) 0 1 0 0 * b + interval (r i) (r (S i)) 0 0 1 0 * p + interval (r i) (r (S i)) 0 0 0 1 * q) by (intros; unfold interval; ring).
    rewrite (IL (total _ _)). rewrite <- !total_scal, <- !total_plus. apply total_ext. intros j _. rewrite IL. ring.
Qed.
End Solve.
