(** Scalar equations of state: proofs. *)
From Coq Require Import ZArith Reals List Bool Lia Lra Psatz.
From Coquelicot Require Import Coquelicot.
From Verif Require Import Base Spline_Proofs Cavity_Proofs2 LDA_Model LDA_Proofs EOS_Model EOS_Spec.
Open Scope R_scope.
Ltac req := match goal with |- ?a = ?b => change (@eq R a b) end.

Definition ahs (T Vhs N : R) : R := T * (1 / (1 - Vhs * N) * (1 / (1 - Vhs * N))) * (Vhs * N) * (4 - 3 * (Vhs * N)).
Definition ahs' (T Vhs N : R) : R := let den := 1 / (1 - Vhs * N) in T * Vhs * (den * den * den) * 2 * (2 - Vhs * N).
Lemma ahs_val T N Vhs : Vhs * N < 1 -> getAhs T N Vhs = Some (ahs T Vhs N, ahs' T Vhs N).
Proof. intros H. unfold getAhs. destruct (Rle_dec 1 (Vhs * N)); [lra|]. reflexivity. Qed.
Lemma ahs_derive T N Vhs : Vhs * N < 1 -> is_derive (ahs T Vhs) N (ahs' T Vhs N).
Proof. intros H. unfold ahs, ahs'. auto_derive; [repeat split; lra|]. field. lra. Qed.
Lemma lin_loc a b c : a * b < c -> locally b (fun y : R => a * y < c).
Proof.
  intros H. apply (filter_imp (fun y => a * b - 1 < a * y < c)); [intros; lra|].
  apply (loc_between (fun y : R => a * y) b a); [auto_derive; auto; ring|lra].
Qed.
Lemma getAhs_exact T N Vhs : Vhs * N < 1 -> exact_at (fun N => getAhs T N Vhs) N.
Proof.
  intros H. exists (ahs T Vhs), (ahs' T Vhs N). split; [apply ahs_val; exact H|]. split; [|apply ahs_derive; exact H].
  generalize (lin_loc Vhs N 1 H). apply filter_imp. intros y Hy. eexists. apply ahs_val. exact Hy.
Qed.
(** the Carnahan-Starling compressibility factor: 1 + N A'/T = (1+n+n^2-n^3)/(1-n)^3 *)
Lemma carnahan_starling T N Vhs A A' : T <> 0 -> getAhs T N Vhs = Some (A, A') ->
  1 + N * A' / T = (1 + (Vhs * N) + (Vhs * N) ^ 2 - (Vhs * N) ^ 3) / (1 - Vhs * N) ^ 3.
Proof. intros HT. unfold getAhs. destruct (Rle_dec 1 (Vhs * N)); [discriminate|]. intros E. injection E as <- <-. field. split; lra. Qed.

Lemma vp_gen A4 d0 d1 beta q nc n : 0 < d0 -> 0 < d1 -> 0 < nc -> 0 < n ->
  is_derive (fun n : R => - nc * exp (- A4 * cpow (n / nc) q * (n / nc)) * (1 / (d0 * (1 + d0 * (n / nc) * (1 + d0 * (n / nc))) + n / nc * d1 * cpow (n / nc) (beta - 1)))) n
   (let x := n / nc in let den := 1 / (d0 * (1 + d0 * x * (1 + d0 * x)) + x * d1 * cpow x (beta - 1)) in
    exp (- A4 * cpow x q * x) * (A4 * cpow x q * (q + 1) * den - (- den * den * (d0 * d0 * (1 + d0 * x * 2) + beta * d1 * cpow x (beta - 1))))).
Proof.
  intros Hd0 Hd1 Hc Hn. cbv zeta.
  assert (Px : 0 < n / nc) by (apply Rdiv_lt_0_compat; assumption).
  assert (PW : forall y, is_derive (fun n : R => cpow (n / nc) y) n (/ nc * (y * cpow (n / nc) y / (n / nc)))).
  { intros y. apply (is_derive_comp (V := R_NormedModule) (fun x : R => cpow x y) (fun n : R => n / nc)); [apply cpow_derive; exact Px|]. auto_derive; auto. field. lra. }
  pose proof (PW (beta - 1)) as W1. pose proof (PW q) as W2.
  assert (P1 : 0 < cpow (n / nc) (beta - 1)) by (apply cpow_gt0; exact Px).
  set (w1 := fun n : R => cpow (n / nc) (beta - 1)) in *. set (w2 := fun n : R => cpow (n / nc) q) in *.
  change (0 < w1 n) in P1. fold (w1 n) (w2 n).
  apply (is_derive_ext (fun n : R => - nc * exp (- A4 * w2 n * (n / nc)) * (1 / (d0 * (1 + d0 * (n / nc) * (1 + d0 * (n / nc))) + n / nc * d1 * w1 n)))); [reflexivity|].
  change (cpow (n / nc) q) with (w2 n) in W2. change (cpow (n / nc) (beta - 1)) with (w1 n) in W1. clearbody w1 w2. clear PW.
  assert (PD : 0 < d0 * (1 + d0 * (n / nc) * (1 + d0 * (n / nc))) + n / nc * d1 * w1 n).
  { assert (0 < d0 * (n / nc)) by (apply Rmult_lt_0_compat; lra). assert (0 < n / nc * d1 * w1 n) by (apply Rmult_lt_0_compat; [apply Rmult_lt_0_compat; lra|exact P1]).
    assert (0 < d0 * (n / nc) * (1 + d0 * (n / nc))) by (apply Rmult_lt_0_compat; lra). assert (0 < d0 * (1 + d0 * (n / nc) * (1 + d0 * (n / nc)))) by (apply Rmult_lt_0_compat; lra). lra. }
  evar_last. { auto_derive; [|reflexivity]. repeat split; try (eexists; eassumption). apply Rgt_not_eq. exact PD. }
  repeat match goal with |- context[Derive ?u n] =>
    first [replace (Derive u n) with (/ nc * (q * w2 n / (n / nc))) by (symmetry; apply is_derive_unique; exact W2)
          | replace (Derive u n) with (/ nc * ((beta - 1) * w1 n / (n / nc))) by (symmetry; apply is_derive_unique; exact W1)] end.
  change (n * / nc) with (n / nc). generalize (exp (- A4 * w2 n * (n / nc))). intros ex.
  set (x := n / nc) in *. clearbody x. clear W1 W2.
  revert PD. generalize dependent (w1 n). generalize dependent (w2 n). clear w1 w2 Hn. intros p2 p1 Q1 PD.
  req. field. repeat split; try lra.
Qed.
Lemma vp_derive nc n : 0 < nc -> 0 < n -> is_derive (fun n : R => fst (getVPphiInt nc n)) n (snd (getVPphiInt nc n)).
Proof.
  intros Hc Hn. unfold getVPphiInt. cbn [fst snd]. replace 6.7 with (5.7 + 1) by lra. apply vp_gen; lra.
Qed.

Definition ja_ok (p : JA) : Prop := ja_lambda p * ja_b p <> 0 /\ ja_prefacVW1 p = - ja_T p * ja_alpha p / (ja_lambda p * ja_b p) /\
  0 < ja_C1 p /\ 0 < ja_dnHB p /\ 0 < ja_nc p.
Definition ja_v (p : JA) (Vhs N : R) : R :=
  ja_prefacHB p / (ja_C1 p + exp (((N - ja_nHB p) / ja_dnHB p) ^ 2)) +
  (ja_prefacVW1 p * ln (1 - ja_lambda p * ja_b p * N) + (ja_VPzi p * fst (getVPphiInt (ja_nc p) N) - N) * ja_prefacVW2 p) - ahs (ja_T p) Vhs N.
Lemma ja_val p N Vhs : 0 <= N -> ja_lambda p * ja_b p * N < 1 -> Vhs * N < 1 -> exists g, JA_calc p N Vhs = Some (ja_v p Vhs N, g).
Proof.
  intros HN HG HV. unfold JA_calc, ja_v. destruct (Rlt_dec N 0); [lra|]. destruct (Rle_dec _ 0); [lra|].
  destruct (getVPphiInt (ja_nc p) N) as [a a']. rewrite ahs_val by exact HV. eexists. reflexivity.
Qed.
Lemma JA_exact_gen p N Vhs : ja_ok p -> 0 < N -> ja_lambda p * ja_b p * N < 1 -> Vhs * N < 1 -> exact_at (fun N => JA_calc p N Vhs) N.
Proof.
  intros (B & V1 & C1 & Dn & Nc) HN HG HV. destruct (ja_val p N Vhs ltac:(lra) HG HV) as [g Hg].
  exists (ja_v p Vhs), g. split; [exact Hg|]. split.
  - assert (L0 : locally N (fun y : R => 0 < y < N + 1)) by (apply near; lra).
    generalize (filter_and _ _ L0 (filter_and _ _ (lin_loc _ _ _ HG) (lin_loc _ _ _ HV))). apply filter_imp. intros y (A & A1 & A2). apply ja_val; lra.
  - pose proof (vp_derive _ _ Nc HN) as DV. pose proof (ahs_derive (ja_T p) N Vhs HV) as DA.
    unfold JA_calc in Hg. destruct (Rlt_dec N 0); [lra|]. destruct (Rle_dec _ 0); [lra|]. rewrite ahs_val in Hg by exact HV.
    unfold ja_v. destruct (getVPphiInt (ja_nc p) N) as [a a'] eqn:EV. cbn [snd] in DV. injection Hg as _ <-.
    assert (DHB : is_derive (fun N : R => ja_prefacHB p / (ja_C1 p + exp (((N - ja_nHB p) / ja_dnHB p) ^ 2))) N
      (- (ja_prefacHB p / (ja_C1 p + exp (((N - ja_nHB p) / ja_dnHB p) ^ 2))) * (exp (((N - ja_nHB p) / ja_dnHB p) ^ 2) * 2 * (N - ja_nHB p) / ja_dnHB p ^ 2) / (ja_C1 p + exp (((N - ja_nHB p) / ja_dnHB p) ^ 2)))).
    { pose proof (exp_pos (((N - ja_nHB p) / ja_dnHB p) ^ 2)).
      assert (DG : is_derive (fun N : R => exp (((N - ja_nHB p) / ja_dnHB p) ^ 2)) N (exp (((N - ja_nHB p) / ja_dnHB p) ^ 2) * 2 * (N - ja_nHB p) / ja_dnHB p ^ 2)).
      { evar_last. { apply (is_derive_comp exp (fun N : R => ((N - ja_nHB p) / ja_dnHB p) ^ 2)); [apply is_derive_exp|]. instantiate (1 := 2 * (N - ja_nHB p) / ja_dnHB p ^ 2). auto_derive; auto. field. lra. }
        unfold scal; cbn -[exp]. unfold mult; cbn -[exp]. generalize (exp ((N - ja_nHB p) / ja_dnHB p * ((N - ja_nHB p) / ja_dnHB p * 1))). intros. req. field. lra. }
      set (gs := fun N : R => exp (((N - ja_nHB p) / ja_dnHB p) ^ 2)) in *. fold (gs N) in *. apply (is_derive_ext (fun N : R => ja_prefacHB p / (ja_C1 p + gs N))); [reflexivity|].
      clearbody gs. evar_last. { apply (is_derive_div (fun _ : R => ja_prefacHB p) (fun N : R => ja_C1 p + gs N)).
        - apply (is_derive_const (V := R_NormedModule)).
        - apply (is_derive_plus (V := R_NormedModule)); [apply (is_derive_const (V := R_NormedModule))|exact DG].
        - lra. }
      unfold plus, zero; cbn -[pow]. generalize (gs N * 2 * (N - ja_nHB p) / ja_dnHB p ^ 2). intros. req. field. lra. }
    assert (DL : is_derive (fun N : R => ja_prefacVW1 p * ln (1 - ja_lambda p * ja_b p * N)) N (ja_T p * ja_alpha p / (1 - ja_lambda p * ja_b p * N))).
    { rewrite V1. assert (ja_lambda p <> 0 /\ ja_b p <> 0) as [NL NB] by (split; intros E; apply B; rewrite E; ring). auto_derive; [lra|]. field. repeat split; try assumption. lra. }
    apply (is_derive_minus (V := R_NormedModule)); [|exact DA]. apply (is_derive_plus (V := R_NormedModule)); [exact DHB|].
    apply (is_derive_plus (V := R_NormedModule)); [exact DL|].
    evar_last. { apply (is_derive_scal_l (V := R_NormedModule) (fun N : R => ja_VPzi p * fst (getVPphiInt (ja_nc p) N) - N)).
      apply (is_derive_minus (V := R_NormedModule)); [apply is_derive_scal; exact DV|apply (is_derive_id (K := R_AbsRing))]. }
    unfold scal, minus, plus, opp, one; cbn. unfold mult; cbn. req. ring.
Qed.

(** the parameters set by the constructor, for temperatures up to the Boyle temperature *)
Lemma units_pos : 0 < Joule /\ 0 < Kelvin /\ 0 < meter /\ 0 < mol /\ 0 < liter.
Proof.
  assert (J : 0 < Joule) by (unfold Joule; apply Rdiv_lt_0_compat; lra).
  assert (M : 0 < meter) by (unfold meter, Angstrom; lra).
  repeat split; [exact J|unfold Kelvin; apply Rmult_lt_0_compat; lra|exact M|unfold mol; lra|].
  unfold liter. apply Rdiv_lt_0_compat; [apply pow_lt; exact M|lra].
Qed.
Lemma vB_pos : 0 < ja_vB.
Proof. destruct units_pos as (_ & _ & M & O & _). unfold ja_vB. apply Rdiv_lt_0_compat; [|exact O]. apply Rmult_lt_0_compat; [lra|apply pow_lt; exact M]. Qed.
Lemma ja_b_pos T : 0 < T <= ja_TB -> 0 < ja_b (JA_init T).
Proof.
  intros [H0 H1]. unfold JA_init. cbn [ja_b]. apply Rmult_lt_0_compat; [exact vB_pos|].
  assert (TP : 0 < ja_TB) by lra. assert (HT : 1.016 * T / ja_TB <= 1 + 0.016).
  { unfold Rdiv. apply Rmult_le_reg_r with ja_TB; [exact TP|]. rewrite Rmult_assoc, Rinv_l by lra. lra. }
  assert (E1 : exp (1.016 * T / ja_TB) <= exp (1 + 0.016)). { destruct HT as [L|E]; [left; apply exp_increasing; exact L|right; rewrite E; reflexivity]. }
  rewrite exp_plus in E1. pose proof exp_le_3. pose proof (exp_pos 1). 
  assert (E2 : exp 0.016 <= 1.1). { apply Rle_trans with (exp (ln 1.1)); [|rewrite exp_ln by lra; lra]. left. apply exp_increasing.
    assert (L : 1 - / 1.1 <= ln 1.1). { assert (K := exp_ineq1_le (ln (/ 1.1))). rewrite exp_ln in K by lra. rewrite ln_Rinv in K by lra. lra. } lra. }
  pose proof (exp_pos 0.016). assert (exp 1 * exp 0.016 <= 3 * 1.1) by (apply Rmult_le_compat; lra).
  pose proof (exp_pos (-21.4 * (T / ja_TB + 0.0445) ^ 3)). lra.
Qed.
Lemma ja_init_ok T : ja_b (JA_init T) <> 0 -> ja_ok (JA_init T).
Proof.
  intros H. unfold ja_ok. destruct units_pos as (_ & _ & M & O & L).
  split; [apply Rmult_integral_contrapositive_currified; [unfold JA_init; cbn [ja_lambda]; lra|exact H]|].
  split; [reflexivity|]. unfold JA_init; cbn [ja_C1 ja_dnHB ja_nc].
  split; [lra|]. assert (0 < mol / meter ^ 3) by (apply Rdiv_lt_0_compat; [exact O|apply pow_lt; exact M]). assert (0 < mol / liter) by (apply Rdiv_lt_0_compat; assumption).
  unfold Rdiv in *. split; nra.
Qed.
Lemma JA_exact T N Vhs : ja_b (JA_init T) <> 0 -> 0 < N -> ja_lambda (JA_init T) * ja_b (JA_init T) * N < 1 -> Vhs * N < 1 -> exact_at (fun N => JA_calc (JA_init T) N Vhs) N.
Proof. intros. apply JA_exact_gen; try assumption. apply ja_init_ok. assumption. Qed.

(** ** Tao-Mason *)
Definition tm_v (p : TM) (Vhs N : R) : R :=
  N * tm_prefacQuad p + tm_prefacPole p * (- ln (1 - tm_lambda p * tm_b p * N)) + tm_prefacVap p * atan (sqrt 1.8 * tm_b p * tm_b p * N * N) - ahs (tm_T p) Vhs N.
Lemma tm_val p N Vhs : 0 <= N -> tm_lambda p * tm_b p * N < 1 -> Vhs * N < 1 -> exists g, TM_calc p N Vhs = Some (tm_v p Vhs N, g).
Proof.
  intros HN HG HV. unfold TM_calc, tm_v. destruct (Rlt_dec N 0); [lra|]. destruct (Rle_dec _ 0); [lra|].
  rewrite ahs_val by exact HV. eexists. reflexivity.
Qed.
Lemma TM_exact p N Vhs : 0 < N -> tm_lambda p * tm_b p * N < 1 -> Vhs * N < 1 -> exact_at (fun N => TM_calc p N Vhs) N.
Proof.
  intros HN HG HV. destruct (tm_val p N Vhs ltac:(lra) HG HV) as [g Hg].
  exists (tm_v p Vhs), g. split; [exact Hg|]. split.
  - assert (L0 : locally N (fun y : R => 0 < y < N + 1)) by (apply near; lra).
    generalize (filter_and _ _ L0 (filter_and _ _ (lin_loc _ _ _ HG) (lin_loc _ _ _ HV))). apply filter_imp. intros y (A & A1 & A2). apply tm_val; lra.
  - pose proof (ahs_derive (tm_T p) N Vhs HV) as DA.
    unfold TM_calc in Hg. destruct (Rlt_dec N 0); [lra|]. destruct (Rle_dec _ 0); [lra|]. rewrite ahs_val in Hg by exact HV.
    injection Hg as <-. unfold tm_v. apply (is_derive_minus (V := R_NormedModule)); [|exact DA]. generalize (sqrt 1.8). intros s.
    apply (is_derive_plus (V := R_NormedModule)).
    + auto_derive; [lra|]. req. field. lra.
    + auto_derive; [auto|]. req. field. set (u := s * tm_b p * tm_b p * N * N). assert (0 <= u * u) by apply Rle_0_sqr. unfold u in *. nra.
Qed.
(** ** hard sphere volume from the exclusion volume *)
Lemma vdw_volume b : 0 < b -> hsVolume (vdwRadius b) = b / 4.
Proof.
  intros H. unfold hsVolume, vdwRadius. pose proof PI_RGT_0. assert (0 < 3 * b / (16 * PI)) by (apply Rdiv_lt_0_compat; lra).
  pose proof (cbrt_cube _ H1) as E. replace (cpow (3 * b / (16 * PI)) (1 / 3) ^ 3) with (cpow (3 * b / (16 * PI)) (1/3) * cpow (3 * b / (16 * PI)) (1/3) * cpow (3 * b / (16 * PI)) (1/3)) by ring.
  rewrite E. field. lra.
Qed.
(** ** uniform fluid: the potential is the derivative of the free energy density *)
Lemma uniform_exact eos nPos N0 : 0 < nPos -> exact_at eos (N0 * (1 / nPos)) -> exact_at (computeUniform eos nPos) N0.
Proof.
  intros HP (v & g & E & L & D). set (k := 1 / nPos) in *.
  exists (fun N : R => N * k * v (N * k)), ((v (N0 * k) + N0 * k * g) * k). unfold computeUniform. fold k. split; [rewrite E; reflexivity|].
  assert (DK : is_derive (fun N : R => N * k) N0 k) by (auto_derive; auto; ring). split.
  - assert (C : continuous (fun N : R => N * k) N0) by (apply (ex_derive_continuous (V := R_NormedModule)); eexists; exact DK).
    specialize (C _ L). unfold filtermap in C. revert C. apply filter_imp. intros y [gy Hy]. rewrite Hy. eexists. reflexivity.
  - evar_last. { apply (is_derive_mult (K := R_AbsRing) (fun N : R => N * k) (fun N : R => v (N * k))); [exact DK| |apply Rmult_comm].
      apply (is_derive_comp (V := R_NormedModule) v (fun N : R => N * k)); [exact D|exact DK]. }
    unfold plus, mult, scal; cbn. unfold mult; cbn. req. ring.
Qed.
