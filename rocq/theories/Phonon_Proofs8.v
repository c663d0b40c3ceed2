From Coq Require Import ZArith Reals List Bool Arith Lra Lia FunctionalExtensionality.
From Coquelicot Require Import Coquelicot.
From Verif Require Import Base Vec3_Model ExCompute_Spec ExCompute_Proofs Phonon_Model Phonon_Spec Phonon_Proofs Phonon_Proofs2 Phonon_Proofs3.
Import ListNotations.
Import Vec3_Model.
Open Scope R_scope.

(** ** Free energies *)
Definition modeA (T omega : R) : R := 1/2 * omega + T * ln (1 - exp (- omega / T)).
Definition modeE (T omega : R) : R := 1/2 * omega + omega * exp (- omega / T) / (1 - exp (- omega / T)).
Definition vplus (a b : vib) : vib := Vib (ZPE a + ZPE b) (Evib a + Evib b) (Avib a + Avib b).
Lemma vib_list : forall T w l a, fold_left (vibAdd T w) l a =
  vplus a (Vib (w * sumR (filter positive l) (fun e => 1/2 * sqrt e)) (w * sumR (filter positive l) (fun e => modeE T (sqrt e))) (w * sumR (filter positive l) (fun e => modeA T (sqrt e)))).
Proof.
  intros T w. induction l as [|e l IH]; intros a; cbn [fold_left filter].
  - unfold vplus. destruct a as [za ea aa]. cbn. f_equal; ring.
  - rewrite IH. unfold vibAdd, positive. destruct (Rle_dec e 0) as [H|H], (Rlt_dec 0 e) as [H'|H']; try lra; fold positive.
    + unfold vplus. destruct a as [za ea aa]. reflexivity.
    + rewrite !sumR_cons. unfold vplus. destruct a as [za ea aa]. cbn [ZPE Evib Avib]. unfold modeE, modeA. f_equal; ring.
Qed.
Lemma vib_all : forall T pts, vibAll T pts = Vib (sumModes pts (fun o => 1/2 * o)) (sumModes pts (modeE T)) (sumModes pts (modeA T)).
Proof.
  intros T pts. unfold vibAll.
  assert (forall a, fold_left (fun a p => fold_left (vibAdd T (fst p)) (snd p) a) pts a = vplus a (Vib (sumModes pts (fun o => 1/2 * o)) (sumModes pts (modeE T)) (sumModes pts (modeA T)))) as H.
  { induction pts as [|p pts IH]; intros a; cbn [fold_left].
    - unfold vplus, sumModes. destruct a as [za ea aa]. cbn. f_equal; ring.
    - rewrite IH, vib_list. unfold sumModes. rewrite !sumR_cons. unfold vplus. destruct a as [za ea aa]. cbn [ZPE Evib Avib]. f_equal; ring. }
  rewrite H. unfold vplus. cbn [ZPE Evib Avib]. f_equal; ring.
Qed.
Lemma sumModes_ext : forall pts f g, (forall o, 0 < o -> f o = g o) -> sumModes pts f = sumModes pts g.
Proof.
  intros pts f g H. unfold sumModes. apply sumR_ext. intros p _. f_equal. apply sumR_ext. intros e He. apply filter_In in He. destruct He as [_ He]. unfold positive in He. destruct (Rlt_dec 0 e); [|discriminate].
  apply H, sqrt_lt_R0. assumption.
Qed.
Lemma exp_neg_lt1 : forall T o, 0 < T -> 0 < o -> 0 < exp (- o / T) < 1.
Proof.
  intros T o HT Ho. split; [apply exp_pos|]. rewrite <- exp_0. apply exp_increasing. apply (Rmult_lt_reg_r T); [exact HT|]. replace (- o / T * T) with (- o) by (field; lra). lra.
Qed.
Lemma partition_mode : forall T o Z, 0 < T -> 0 < o -> partition o T Z -> modeA T o = - T * ln Z.
Proof.
  intros T o Z HT Ho HZ. destruct (exp_neg_lt1 T o HT Ho) as [Q0 Q1]. set (q := exp (- o / T)) in *.
  assert (is_series (fun n => exp (- o / (2 * T)) * q ^ n) (exp (- o / (2 * T)) * / (1 - q))) as G.
  { apply (is_series_scal_l (exp (- o / (2 * T))) (fun n => q ^ n)). apply is_series_geom. rewrite Rabs_pos_eq; lra. }
  assert (Z = exp (- o / (2 * T)) * / (1 - q)) as EZ.
  { rewrite <- (is_series_unique _ _ HZ), <- (is_series_unique _ _ G). apply Series_ext. intros n. unfold q.
    assert (forall y n, exp y ^ n = exp (INR n * y)) as EP.
    { clear. intros y n. induction n as [|n IH]; [cbn [pow INR]; rewrite Rmult_0_l, exp_0; reflexivity|]. cbn [pow]. rewrite IH, <- exp_plus, S_INR. f_equal. ring. }
    rewrite EP, <- exp_plus. f_equal. field. lra. }
  rewrite EZ. rewrite ln_mult; [|apply exp_pos|apply Rinv_0_lt_compat; lra]. rewrite ln_exp, ln_Rinv by lra. unfold modeA. fold q. field. lra.
Qed.
Lemma mode_derive : forall T o, 0 < T -> 0 < o -> is_derive (fun t => modeA t o) T (- (modeE T o - modeA T o) / T).
Proof.
  intros T o HT Ho. destruct (exp_neg_lt1 T o HT Ho) as [Q0 Q1]. unfold modeA, modeE. auto_derive.
  - change (- o * / T) with (- o / T). split; [lra|split; [lra|exact I]].
  - change (- o * / T) with (- o / T). change (1 + - exp (- o / T)) with (1 - exp (- o / T)). set (q := exp (- o / T)) in *. field. split; lra.
Qed.
Lemma sumModes_derive : forall pts (f : R -> R -> R) (f' : R -> R) T, (forall o, 0 < o -> is_derive (fun t => f t o) T (f' o)) -> is_derive (fun t => sumModes pts (f t)) T (sumModes pts f').
Proof.
  intros pts f f' T H. unfold sumModes.
  assert (forall (l : list R), (forall e, In e l -> 0 < e) -> is_derive (fun t => sumR l (fun e => f t (sqrt e))) T (sumR l (fun e => f' (sqrt e)))) as H1.
  { induction l as [|e l IH]; intros Hl; [exact (is_derive_const (K := R_AbsRing) (V := R_NormedModule) 0 T)|].
    apply (is_derive_ext (fun t => f t (sqrt e) + sumR l (fun e => f t (sqrt e)))); [intros; rewrite sumR_cons; reflexivity|]. rewrite sumR_cons.
    apply (is_derive_plus (K := R_AbsRing) (V := R_NormedModule)); [apply H, sqrt_lt_R0, Hl; left; reflexivity|apply IH; intros; apply Hl; right; assumption]. }
  induction pts as [|p pts IH]; [exact (is_derive_const (K := R_AbsRing) (V := R_NormedModule) 0 T)|].
  apply (is_derive_ext (fun t => fst p * sumR (filter positive (snd p)) (fun e => f t (sqrt e)) + sumR pts (fun p => fst p * sumR (filter positive (snd p)) (fun e => f t (sqrt e))))); [intros; rewrite sumR_cons; reflexivity|]. rewrite sumR_cons.
  apply (is_derive_plus (K := R_AbsRing) (V := R_NormedModule)); [|exact IH].
  apply (is_derive_scal (fun t => sumR (filter positive (snd p)) (fun e => f t (sqrt e)))). apply H1. intros e He. apply filter_In in He. destruct He as [_ He]. unfold positive in He. destruct (Rlt_dec 0 e); [assumption|discriminate].
Qed.
Lemma sumModes_lin : forall pts f g a, sumModes pts (fun o => a * (f o - g o)) = a * (sumModes pts f - sumModes pts g).
Proof.
  intros pts f g a. unfold sumModes. rewrite <- sum_minus, <- sum_scal_r. apply sumR_ext. intros p _. rewrite <- Rmult_minus_distr_l, <- sum_minus. rewrite (sum_scal_r _ _ a). ring.
Qed.
Lemma sumModes_le : forall pts f g, (forall p, In p pts -> 0 <= fst p) -> (forall o, 0 < o -> f o <= g o) -> sumModes pts f <= sumModes pts g.
Proof.
  intros pts f g Hw H. assert (forall A (l : list A) f g, (forall x, In x l -> f x <= g x) -> sumR l f <= sumR l g) as L.
  { clear. intros A l f g. induction l as [|x l IH]; intros H; [cbn; lra|]. rewrite !sumR_cons. pose proof (H x (or_introl eq_refl)). pose proof (IH (fun y Hy => H y (or_intror Hy))). lra. }
  unfold sumModes. apply L. intros p Hp. apply Rmult_le_compat_l; [apply Hw, Hp|]. apply L. intros e He. apply filter_In in He. destruct He as [_ He]. unfold positive in He. destruct (Rlt_dec 0 e); [|discriminate]. apply H, sqrt_lt_R0. assumption.
Qed.
Lemma vib_partition : forall T pts Z, 0 < T -> (forall o, 0 < o -> partition o T (Z o)) -> Avib (vibAll T pts) = sumModes pts (fun o => - T * ln (Z o)).
Proof. intros T pts Z HT HZ. rewrite vib_all. cbn [Avib]. apply sumModes_ext. intros o Ho. apply partition_mode; [assumption..|apply HZ, Ho]. Qed.
Lemma vib_derive : forall T pts, 0 < T -> is_derive (fun t => Avib (vibAll t pts)) T (- (Evib (vibAll T pts) - Avib (vibAll T pts)) / T).
Proof.
  intros T pts HT. apply (is_derive_ext (fun t => sumModes pts (modeA t))); [intros; rewrite vib_all; reflexivity|]. rewrite vib_all. cbn [Evib Avib].
  replace (- (sumModes pts (modeE T) - sumModes pts (modeA T)) / T) with (sumModes pts (fun o => (- / T) * (modeE T o - modeA T o))) by (rewrite sumModes_lin; field; lra).
  apply sumModes_derive. intros o Ho. replace (- / T * (modeE T o - modeA T o)) with (- (modeE T o - modeA T o) / T) by (field; lra). apply mode_derive; assumption.
Qed.
Lemma vib_bounds : forall T pts, 0 < T -> (forall p, In p pts -> 0 <= fst p) -> Avib (vibAll T pts) <= ZPE (vibAll T pts) <= Evib (vibAll T pts).
Proof.
  intros T pts HT Hw. rewrite vib_all. cbn [Avib ZPE Evib]. split; apply sumModes_le; try assumption; intros o Ho; destruct (exp_neg_lt1 T o HT Ho) as [Q0 Q1]; unfold modeA, modeE.
  - assert (ln (1 - exp (- o / T)) <= 0); [|nra]. rewrite <- ln_1. apply ln_le; lra.
  - assert (0 <= o * exp (- o / T) / (1 - exp (- o / T))); [|lra]. apply Rdiv_le_0_compat; [|lra]. apply Rmult_le_pos; lra.
Qed.
Lemma vib_zpe : forall T pts, ZPE (vibAll T pts) = sumModes pts (fun o => 1/2 * o).
Proof. intros. rewrite vib_all. reflexivity. Qed.

(** ** Imaginary frequencies *)
Definition low (p : R * vec R * list R) : R := nth 0 (snd p) 0.
Definition scanOk (pts : list (R * vec R * list R)) (st : R * R * Z) : Prop :=
  let '(k, o, i) := st in
  0 <= k /\ (forall p, In p pts -> low p <= 0 -> fst (fst p) <= k) /\ (k = 0 \/ exists p, In p pts /\ low p <= 0 /\ k = fst (fst p)) /\
  o <= 0 /\ (forall p, In p pts -> o <= low p) /\ ((i = (-1)%Z /\ o = 0) \/ exists n p, i = Z.of_nat n /\ nth_error pts n = Some p /\ o = low p /\ o < 0).
Lemma scan_step : forall pts st p, scanOk pts st -> scanOk (pts ++ [p]) (imagStep st (length pts) p).
Proof.
  intros pts [[k o] i] p (H1 & H2 & H3 & H4 & H5 & H6). unfold imagStep. fold (low p).
  assert (forall n q, nth_error pts n = Some q -> nth_error (pts ++ [p]) n = Some q) as NE by (intros n q E; rewrite nth_error_app1; [exact E|apply nth_error_Some; congruence]).
  assert (nth_error (pts ++ [p]) (length pts) = Some p) as NL by (rewrite nth_error_app2, Nat.sub_diag by lia; reflexivity).
  destruct (Rle_dec (low p) 0) as [L|L].
  - pose proof (Rmax_l k (fst (fst p))). pose proof (Rmax_r k (fst (fst p))).
    assert (forall q, In q (pts ++ [p]) -> low q <= 0 -> fst (fst q) <= Rmax k (fst (fst p))) as A2.
    { intros q Hq Lq. apply in_app_iff in Hq. destruct Hq as [Hq|[<-|[]]]; [specialize (H2 q Hq Lq); lra|lra]. }
    assert (Rmax k (fst (fst p)) = 0 \/ exists q, In q (pts ++ [p]) /\ low q <= 0 /\ Rmax k (fst (fst p)) = fst (fst q)) as A3.
    { unfold Rmax. destruct (Rle_dec k (fst (fst p))); [right; exists p; split; [apply in_app_iff; right; left; reflexivity|auto]|]. destruct H3 as [H3|(q & Q1 & Q2 & Q3)]; [left; exact H3|right; exists q; split; [apply in_app_iff; left; exact Q1|auto]]. }
    destruct (Rlt_dec (low p) o) as [L'|L']; (split; [lra|]; split; [exact A2|]; split; [exact A3|]).
    + split; [lra|]. split; [intros q Hq; apply in_app_iff in Hq; destruct Hq as [Hq|[<-|[]]]; [specialize (H5 q Hq); lra|lra]|]. right. exists (length pts), p. repeat split; try assumption. lra.
    + split; [exact H4|]. split; [intros q Hq; apply in_app_iff in Hq; destruct Hq as [Hq|[<-|[]]]; [apply H5, Hq|lra]|].
      destruct H6 as [H6|(n & q & Q1 & Q2 & Q3)]; [left; exact H6|right; exists n, q; split; [exact Q1|split; [apply NE, Q2|exact Q3]]].
  - split; [exact H1|]. split; [intros q Hq Lq; apply in_app_iff in Hq; destruct Hq as [Hq|[<-|[]]]; [apply H2; assumption|lra]|].
    split; [destruct H3 as [H3|(q & Q1 & Q2)]; [left; exact H3|right; exists q; split; [apply in_app_iff; left; exact Q1|exact Q2]]|].
    split; [exact H4|]. split; [intros q Hq; apply in_app_iff in Hq; destruct Hq as [Hq|[<-|[]]]; [apply H5, Hq|lra]|].
    destruct H6 as [H6|(n & q & Q1 & Q2 & Q3)]; [left; exact H6|right; exists n, q; split; [exact Q1|split; [apply NE, Q2|exact Q3]]].
Qed.
Lemma scan_ok : forall pts, scanOk pts (imagScan pts).
Proof.
  intros pts. induction pts as [|p pts IH] using rev_ind.
  - cbn. repeat split; try lra; try (intros; contradiction); left; auto; lra.
  - unfold imagScan. rewrite app_length. cbn [length]. rewrite Nat.add_1_r, seq_S. cbn [Nat.add].
    assert (forall A B (a a' : list A) (b b' : list B), length a = length b -> combine (a ++ a') (b ++ b') = combine a b ++ combine a' b') as CA.
    { clear. intros A B a. induction a as [|x a IH]; intros a' [|y b] b' H; try discriminate; [reflexivity|]. cbn. f_equal. apply IH. injection H as H. exact H. }
    rewrite CA by (rewrite seq_length; reflexivity). rewrite fold_left_app. cbn [combine fold_left fst snd]. apply scan_step. exact IH.
Qed.
Lemma warning_found : forall pts q, (forall p, In p pts -> 0 < fst (fst p)) -> In q pts -> low q < 0 ->
  exists km om p, imagWarning pts = Strongest km om (snd (fst p)) /\ In p pts /\ om = sqrt (- low p) /\ (forall p', In p' pts -> low p <= low p') /\ (forall p', In p' pts -> low p' <= 0 -> sqrt (fst (fst p')) <= km).
Proof.
  intros pts q Hk Hq Lq. unfold imagWarning. pose proof (scan_ok pts) as S. destruct (imagScan pts) as [[k o] i]. destruct S as (H1 & H2 & H3 & H4 & H5 & H6).
  pose proof (H2 q Hq (Rlt_le _ _ Lq)) as Kq. pose proof (Hk q Hq). pose proof (H5 q Hq).
  destruct (Req_EM_T k 0); [lra|]. destruct H6 as [[_ H6]|(n' & p & -> & Hn & -> & Ho)]; [lra|].
  assert ((Z.of_nat n' <? 0)%Z = false) as -> by (apply Z.ltb_ge; lia). rewrite Nat2Z.id, Hn. exists (sqrt k), (sqrt (- low p)), p. split; [reflexivity|]. split; [apply (nth_error_In _ _ Hn)|]. split; [reflexivity|]. split; [exact H5|].
  intros p' Hp' Lp'. apply sqrt_le_1_alt. apply H2; assumption.
Qed.
Lemma warning_none : forall pts, (forall p, In p pts -> 0 < low p) -> imagWarning pts = NoWarning.
Proof.
  intros pts H. unfold imagWarning. pose proof (scan_ok pts) as S. destruct (imagScan pts) as [[k o] i]. destruct S as (H1 & H2 & H3 & _). destruct (Req_EM_T k 0) as [|N]; [reflexivity|]. destruct H3 as [H3|(p & Q1 & Q2 & _)]; [contradiction|]. specialize (H p Q1). lra.
Qed.
(** a lowest eigenvalue of exactly zero: entry -1 of the quadrature is read *)
Lemma warning_zero : imagWarning [(1, V (1/2) 0 0, [0; 1; 2])] = OutOfRange.
Proof.
  unfold imagWarning, imagScan. cbn [length seq combine fold_left fst snd]. unfold imagStep. cbn [nth snd fst]. destruct (Rle_dec 0 0); [|lra]. destruct (Rlt_dec 0 0); [lra|].
  destruct (Req_EM_T (Rmax 0 1) 0) as [E|E]; [|reflexivity]. rewrite Rmax_right in E by lra. lra.
Qed.
