(** Forms of the smearing and chemical potential results used in the property statements. *)
From Coq Require Import Reals List ZArith Lra Lia.
From Coquelicot Require Import Coquelicot.
From Verif Require Import Gauss Smear_Model Smear_Spec Smear_Proofs Smear_Proofs2.
Import ListNotations.
Open Scope R_scope.

Lemma cap_capacity states : cap states = capacity (map (fun q => (ks_weight q, length (ks_eps q))) states).
Proof. unfold cap, capacity. rewrite sumL_Rsum, map_map. reflexivity. Qed.
Lemma capSpin_capacity s states : capSpin states s = capacity (map (fun q => (ks_weight q, length (ks_eps q))) (filter (fun q => if Req_EM_T (ks_spin q) s then true else false) states)).
Proof.
  unfold capSpin, capacity. rewrite sumL_Rsum. induction states as [|q l IH]; [reflexivity|]. cbn [map Rsum filter]. rewrite IH.
  destruct (Req_EM_T (ks_spin q) s); cbn [map Rsum fst snd]; lra.
Qed.

Lemma range_decr ty width mu : ty = SmearingFermi \/ ty = SmearingGauss -> 0 < width ->
  (forall e, 0 < smear ty width mu e < 1) /\ (forall e e', e < e' -> smear ty width mu e' < smear ty width mu e).
Proof.
  intros Ht Hw. split; intros; rewrite !smear_sm; [apply sm_range; auto|apply sm_decr; auto; apply xof_lt; auto].
Qed.
Lemma symmetric ty width mu d : ty <> SmearingCold -> 0 < width -> smear ty width mu (mu - d) + smear ty width mu (mu + d) = 1.
Proof.
  intros Ht Hw. rewrite !smear_sm. replace (xof width mu (mu - d)) with (- xof width mu (mu + d)) by (unfold xof; field; lra).
  rewrite sm_sym by auto. ring.
Qed.
Lemma limits ty width mu d : 0 < width -> 0 < d -> exists X, forall e, (mu + X <= e -> Rabs (smear ty width mu e) < d) /\ (e <= mu - X -> Rabs (smear ty width mu e - 1) < d).
Proof.
  intros Hw Hd. destruct (sm_lim_hi ty d Hd) as (X&HX&A). destruct (sm_lim_lo ty d Hd) as (Y&HY&B).
  exists (2 * width * Rmax X Y). assert (M1 := Rmax_l X Y). assert (M2 := Rmax_r X Y). intros e. split; intros H; rewrite smear_sm; [apply A|apply B]; unfold xof;
  apply Rmult_le_reg_r with (2*width); try lra; unfold Rdiv; rewrite Rmult_assoc, Rinv_l by lra; nra.
Qed.
Lemma mp1_out : smear SmearingMP1 1 0 2 < 0 /\ 1 < smear SmearingMP1 1 0 (-2).
Proof.
  assert (N := mp1_negative). rewrite !smear_sm. replace (xof 1 0 2) with 1 by (unfold xof; field). replace (xof 1 0 (-2)) with (-(1)) by (unfold xof; field).
  rewrite sm_sym by discriminate. lra.
Qed.
Lemma mp1_rises : exists e, 2 < e /\ smear SmearingMP1 1 0 2 < smear SmearingMP1 1 0 e.
Proof.
  destruct mp1_out as (N&_). destruct (limits SmearingMP1 1 0 (- smear SmearingMP1 1 0 2) ltac:(lra) ltac:(lra)) as (X&H).
  exists (Rmax 3 X). assert (M1 := Rmax_l 3 X). assert (M2 := Rmax_r 3 X). destruct (H (Rmax 3 X)) as (A&_). split; [lra|]. specialize (A ltac:(lra)).
  apply Rabs_def2 in A. lra.
Qed.
Lemma cold_out : exists e, 1 < smear SmearingCold 1 0 e.
Proof. exists (0 + 2*1*(-1 - sqrt (1/2))). rewrite smear_sm, xof_at by lra. apply cold_above. Qed.
Lemma cold_rises : exists e e', e < e' /\ smear SmearingCold 1 0 e < smear SmearingCold 1 0 e'.
Proof.
  destruct cold_out as (e'&H'). destruct (limits SmearingCold 1 0 (smear SmearingCold 1 0 e' - 1) ltac:(lra) ltac:(lra)) as (X&H).
  exists (Rmin (e' - 1) (- X)), e'. assert (M1 := Rmin_l (e' - 1) (-X)). assert (M2 := Rmin_r (e' - 1) (-X)). split; [lra|].
  destruct (H (Rmin (e' - 1) (-X))) as (_&A). specialize (A ltac:(lra)). apply Rabs_def2 in A. lra.
Qed.
Lemma cold_pos width mu e : 0 < smear SmearingCold width mu e.
Proof. rewrite smear_sm. apply sm_cold_pos. Qed.
Lemma cold_asym : exists d, smear SmearingCold 1 0 (0 - d) + smear SmearingCold 1 0 (0 + d) > 1.
Proof. destruct cold_out as (e&H). exists (-e). assert (P := cold_pos 1 0 (0 + - e)). replace (0 - - e) with e by ring. lra. Qed.
Lemma gradFactor ty width mu eI eJ : 0 < width -> exists c, Rmin eI eJ <= c <= Rmax eI eJ /\ smearGradFactor ty width mu eI eJ = smearPrime ty width mu c.
Proof.
  intros Hw. unfold smearGradFactor. destruct (Rlt_dec _ _) as [L|L].
  - exists eI. split; auto. split; [apply Rmin_l|apply Rmax_l].
  - destruct (MVT_gen (smear ty width mu) eJ eI (smearPrime ty width mu)) as (c&Hc&E).
    + intros z _. apply derivative; auto.
    + intros z _. apply continuity_pt_filterlim. apply (ex_derive_continuous (V:=R_NormedModule) (smear ty width mu) z). eexists; apply derivative; auto.
    + exists c. rewrite Rmin_comm, Rmax_comm. split; auto. rewrite E.
      assert (eI - eJ <> 0) by (intros Z; rewrite Z, Rabs_R0 in L; lra). field. auto.
Qed.
Lemma findMu_ok ty width states B Minitial n : 0 < width -> List.Forall (fun q => 0 <= ks_weight q) states ->
  0 <= n <= capacity (map (fun q => (ks_weight q, length (ks_eps q))) states) ->
  exists fuel mu, (forall fuel', (fuel <= fuel')%nat -> findMu ty width states (Some B) Minitial fuel' n = Some mu) /\
    bracketed (fun m => Nof ty width states m B) width n (-1/10) 0 mu.
Proof.
  intros Hw Hp Hn. rewrite <- cap_capacity in Hn. destruct (findMu_fixedB_term ty width states B Minitial n Hw Hp Hn) as (fuel&mu&E).
  exists fuel, mu. split; [intros f Hf; apply (findMu_mono _ _ _ _ _ fuel); auto|eapply findMu_fixedB_res; eauto].
Qed.
Lemma findMu_unpolarized ty width states n : 0 < width -> List.Forall (fun q => 0 <= ks_weight q) states -> List.Forall (fun q => ks_spin q = 0) states ->
  0 <= n <= capacity (map (fun q => (ks_weight q, length (ks_eps q))) states) ->
  exists fuel mu, (forall fuel', (fuel <= fuel')%nat -> findMu ty width states None 0 fuel' n = Some mu) /\
    bracketed (fun m => Nof ty width states m 0) width n (-1/10) 0 mu.
Proof.
  intros Hw Hp Hs Hn. rewrite <- cap_capacity in Hn. destruct (findMu_spinless ty width states n Hw Hp Hs Hn) as (fuel&mu&E&H).
  exists fuel, mu. split; [intros f Hf; apply (findMu_mono _ _ _ _ _ fuel); auto|auto].
Qed.
Lemma findMu_value ty width states B n mu : 0 < width -> List.Forall (fun q => 0 <= ks_weight q) states ->
  bracketed (fun m => Nof ty width states m B) width n (-1/10) 0 mu ->
  exists lo1 hi1, (lo1 = -1/10 \/ lo1 < -1/10 /\ n + valueTol n <= Nof ty width states ((lo1 + 0) / 2) B) /\
    (hi1 = 0 \/ 0 < hi1 /\ Nof ty width states ((lo1 + hi1) / 2) B <= n - valueTol n) /\ lo1 <= mu <= hi1 /\
    Rabs (Nof ty width states mu B - n) < valueTol n +
       capacity (map (fun q => (ks_weight q, length (ks_eps q))) states) / width * (Rmax (1/10^10 * width) (1/10^14 * Rmax (Rabs lo1) (Rabs hi1)) / 2).
Proof.
  intros Hw Hp H. rewrite <- cap_capacity. apply (bracketed_accurate (cap states / width) (fun m => Nof ty width states m B)); auto.
  - apply Rmult_le_pos; [apply cap_nonneg; auto|left; apply Rinv_0_lt_compat; auto].
  - apply N_lip; auto.
Qed.
Lemma fixedM ty width states Minitial mu : 0 < width -> List.Forall (fun q => 0 <= ks_weight q) states ->
  List.Forall (fun q => ks_spin q = 1 \/ ks_spin q = -1 \/ ks_spin q = 0) states ->
  - capacity (map (fun q => (ks_weight q, length (ks_eps q))) (filter (fun q => if Req_EM_T (ks_spin q) (-1) then true else false) states)) <= Minitial
    <= capacity (map (fun q => (ks_weight q, length (ks_eps q))) (filter (fun q => if Req_EM_T (ks_spin q) 1 then true else false) states)) ->
  exists fuel B, (forall fuel', (fuel <= fuel')%nat -> nElectronsCalc ty width states None Minitial fuel' mu = Some (Nof ty width states mu B, B)) /\
    bracketed (Mof ty width states mu) width Minitial (-1/10) (1/10) B /\
    exists lo1 hi1, lo1 <= B <= hi1 /\
      Rabs (Mof ty width states mu B - Minitial) < valueTol Minitial +
       capacity (map (fun q => (ks_weight q, length (ks_eps q))) states) / width * (Rmax (1/10^10 * width) (1/10^14 * Rmax (Rabs lo1) (Rabs hi1)) / 2).
Proof.
  intros Hw Hp Hs Hm. rewrite <- !capSpin_capacity in Hm. destruct (fixedM_inner ty width states Minitial mu Hw Hp Hs Hm) as (fuel&N&B&E&->&H).
  exists fuel, B. split; [intros f Hf; apply (nElectronsCalc_mono _ _ _ _ _ fuel); auto|]. split; auto.
  rewrite <- cap_capacity.
  assert (P : 0 <= cap states / width) by (apply Rmult_le_pos; [apply cap_nonneg; auto|left; apply Rinv_0_lt_compat; auto]).
  assert (L : lipschitz (cap states / width) (Mof ty width states mu)).
  { apply M_lip; auto. rewrite Forall_forall in *. intros q Hq. destruct (Hs q Hq) as [Z|[Z|Z]]; rewrite Z; unfold Rabs; destruct (Rcase_abs _); lra. }
  destruct (bracketed_accurate _ _ _ _ _ _ _ P L H) as (lo1&hi1&_&_&A&C). exists lo1, hi1. auto.
Qed.
Lemma overfull' ty width states B Minitial n fuel : ty = SmearingFermi \/ ty = SmearingGauss -> List.Forall (fun q => 0 <= ks_weight q) states ->
  capacity (map (fun q => (ks_weight q, length (ks_eps q))) states) + valueTol n <= n -> findMu ty width states (Some B) Minitial fuel n = None.
Proof. intros Ht Hp Hn. rewrite <- cap_capacity in Hn. apply overfull; auto. Qed.
