From Coq Require Import ZArith Reals List Bool Lia Lra Psatz.
From Coquelicot Require Import Coquelicot.
From Verif Require Import Base Cavity_Proofs2 Gauss LDA_Model LDA_Proofs LDA_Proofs2 GGA_Model GGA_Proofs WPBE_Model WPBE_Spec WPBE_Proofs.
Open Scope R_scope.

(** scaling of s *)
Definition sOf (x : R) : R := x - ln (1 + exp (x - sMax)).
Lemma sOf_derive x : is_derive sOf x (1 / (1 + exp (x - sMax))).
Proof.
  unfold sOf. pose proof (exp_pos (x - sMax)). generalize sMax H. intros m Hm. auto_derive; [replace (x + - m) with (x - m) by ring; repeat split; lra|]. replace (x + - m) with (x - m) by ring. field. lra.
Qed.
Lemma exp_big : 2 < exp 1. Proof. pose proof (exp_ineq1 1 ltac:(lra)). lra. Qed.
Lemma sOf_pos x : 1 < x -> 0 < sOf x.
Proof.
  intros H. unfold sOf. apply Rlt_Rminus. rewrite <- (ln_exp x) at 2. pose proof (exp_pos (x - sMax)). apply ln_increasing; [lra|].
  assert (E : exp (x - sMax) < exp (x - 1)) by (apply exp_increasing; unfold sMax; lra). assert (F : exp x = exp (x - 1) * exp 1) by (rewrite <- exp_plus; f_equal; ring). pose proof exp_big.
  assert (X : exp 0 < exp (x - 1)) by (apply exp_increasing; lra). rewrite exp_0 in X. nra.
Qed.
Lemma scale_pos u : 0 < u -> 0 < fst (scaleS u).
Proof.
  intros H. unfold scaleS. destruct (Rlt_dec 225 u); [cbn; unfold sMax; lra|]. destruct (Rlt_dec 1 u); cbn; [|exact H].
  fold (sOf (sqrt u)). assert (0 < sOf (sqrt u)) by (apply sOf_pos; rewrite <- sqrt_1; apply sqrt_lt_1; lra). nra.
Qed.
Lemma scale_curve (u : R -> R) (t u' : R) : is_derive u t u' -> 0 < u t -> u t <> 1 -> u t <> 225 -> is_derive (fun t : R => fst (scaleS (u t))) t (snd (scaleS (u t)) * u').
Proof.
  intros D P N1 N2. destruct (Rtotal_order (u t) 225) as [L|[E|G]]; [|contradiction|].
  - destruct (Rtotal_order (u t) 1) as [L1|[E|G1]]; [|contradiction|].
    + apply (is_derive_ext_loc u).
      { generalize (loc_between u t u' 0 1 D ltac:(lra)). apply filter_imp. intros x Hx. unfold scaleS. destruct (Rlt_dec 225 (u x)); [lra|]. destruct (Rlt_dec 1 (u x)); [lra|reflexivity]. }
      unfold scaleS. destruct (Rlt_dec 225 (u t)); [lra|]. destruct (Rlt_dec 1 (u t)); [lra|]. cbn [snd]. rewrite Rmult_1_l. exact D.
    + apply (is_derive_ext_loc (fun t : R => sOf (sqrt (u t)) * sOf (sqrt (u t)))).
      { generalize (loc_between u t u' 1 225 D ltac:(lra)). apply filter_imp. intros x Hx. unfold scaleS. destruct (Rlt_dec 225 (u x)); [lra|]. destruct (Rlt_dec 1 (u x)); [reflexivity|lra]. }
      unfold scaleS. destruct (Rlt_dec 225 (u t)); [lra|]. destruct (Rlt_dec 1 (u t)); [|lra]. cbn [snd]. fold (sOf (sqrt (u t))).
      assert (S0 : 0 < sqrt (u t)) by (apply sqrt_lt_R0; exact P).
      assert (DS : is_derive (fun t : R => sOf (sqrt (u t))) t (u' * / (2 * sqrt (u t)) * (1 / (1 + exp (sqrt (u t) - sMax))))).
      { apply (along sOf (fun t => sqrt (u t))); [|apply sOf_derive]. apply (along sqrt u); [exact D|]. apply is_derive_Reals, derivable_pt_lim_sqrt. exact P. }
      eapply dis; [apply dmul; exact DS|]. cbv beta. pose proof (exp_pos (sqrt (u t) - sMax)). field. split; lra.
  - apply (is_derive_ext_loc (fun _ => sMax * sMax)).
    { generalize (loc_between u t u' 225 (u t + 1) D ltac:(lra)). apply filter_imp. intros x Hx. unfold scaleS. destruct (Rlt_dec 225 (u x)); [reflexivity|lra]. }
    unfold scaleS. destruct (Rlt_dec 225 (u t)); [|lra]. cbn [snd]. rewrite Rmult_0_l. apply dconst.
Qed.

(** the function h *)
Lemma holeH_pos s : 0 < s -> 0 < fst (holeH s).
Proof.
  intros H. unfold holeH. cbn [fst]. pose proof (sqrt_pos s). assert (0 < s * s) by nra. apply Rmult_lt_0_compat; [apply Rmult_lt_0_compat; [lra|nra]|].
  apply Rdiv_lt_0_compat; [lra|]. assert (0 <= s * s * (0.187440 + sqrt s * 0.00120824 + s * 0.0347188)) by (apply Rmult_le_pos; nra). lra.
Qed.
Definition hGen (a1 a2 a3 a4 a5 s : R) : R := s * s * (a1 + s * a2) * (1 / (1 + s * s * (a3 + sqrt s * a4 + s * a5))).
Lemma hGen_derive a1 a2 a3 a4 a5 s : 0 <= a3 -> 0 <= a4 -> 0 <= a5 -> 0 < s ->
  let i := 1 / (1 + s * s * (a3 + sqrt s * a4 + s * a5)) in
  is_derive (hGen a1 a2 a3 a4 a5) s ((s * (2 * a1 + s * (3 * a2)) - s * s * (a1 + s * a2) * i * (s * (2 * a3 + sqrt s * (5 / 2 * a4) + s * (3 * a5)))) * i).
Proof.
  intros H3 H4 H5 H i. assert (S0 : 0 < sqrt s) by (apply sqrt_lt_R0; exact H). assert (SS : sqrt s * sqrt s = s) by (apply sqrt_sqrt; lra).
  assert (PD : 0 < 1 + s * s * (a3 + sqrt s * a4 + s * a5)). { assert (0 <= a3 + sqrt s * a4 + s * a5) by (assert (0 <= sqrt s * a4) by (apply Rmult_le_pos; lra); assert (0 <= s * a5) by (apply Rmult_le_pos; lra); lra). assert (0 <= s * s * (a3 + sqrt s * a4 + s * a5)) by (apply Rmult_le_pos; nra). lra. }
  assert (DD : is_derive (fun s : R => 1 + s * s * (a3 + sqrt s * a4 + s * a5)) s (s * (2 * a3 + sqrt s * (5 / 2 * a4) + s * (3 * a5)))).
  { auto_derive; [exact H|]. revert S0 SS. generalize (sqrt s). intros r S0 <-. field. lra. }
  unfold hGen. eapply dis. { apply (dmul (fun s => s * s * (a1 + s * a2)) (fun s => 1 / (1 + s * s * (a3 + sqrt s * a4 + s * a5)))); [auto_derive; [exact I|reflexivity]|]. apply inv_derive; [exact DD|exact PD]. }
  cbv beta. fold i. ring.
Qed.
Lemma holeH_derive s : 0 < s -> is_derive (fun s : R => fst (holeH s)) s (snd (holeH s)).
Proof.
  intros H. pose proof (hGen_derive 0.00979681 0.0410834 0.187440 0.00120824 0.0347188 s ltac:(lra) ltac:(lra) ltac:(lra) H) as D. unfold holeH. cbv zeta in D |- *. cbn [fst snd].
  replace 2.5 with (5 / 2) by lra. exact D.
Qed.

(** the function g *)
Lemma expErfc_derive (k : R) (h : R -> R) (t h' : R) : 0 < k -> is_derive h t h' -> 0 < h t ->
  is_derive (fun t : R => exp (k * h t) * erfc (sqrt (k * h t))) t ((exp (k * h t) * erfc (sqrt (k * h t)) - 1 / sqrt PI / sqrt (k * h t)) * k * h').
Proof.
  intros Hk D P. assert (U : 0 < k * h t) by nra. assert (S0 : 0 < sqrt (k * h t)) by (apply sqrt_lt_R0; exact U).
  assert (Du : is_derive (fun t : R => k * h t) t (k * h')) by (apply dscal; exact D).
  eapply dis. { apply (dmul (fun t => exp (k * h t)) (fun t => erfc (sqrt (k * h t)))).
    - apply (along exp (fun t => k * h t)); [exact Du|]. apply is_derive_Reals, derivable_pt_lim_exp.
    - apply (along erfc (fun t => sqrt (k * h t))); [|apply is_derive_erfc]. apply (along sqrt (fun t => k * h t)); [exact Du|]. apply is_derive_Reals, derivable_pt_lim_sqrt. exact U. }
  cbv beta. unfold gauss. rewrite sqrt_sqrt by lra.
  assert (EE : exp (k * h t) * exp (- (k * h t)) = 1) by (rewrite <- exp_plus, Rplus_opp_r; apply exp_0).
  assert (E2 : exp (- (k * h t)) = / exp (k * h t)) by apply exp_Ropp. rewrite E2. pose proof (exp_pos (k * h t)) as EP. assert (sqrt PI <> 0) by (apply Rgt_not_eq, sqrt_lt_R0, PI_RGT_0).
  revert EP S0. generalize (exp (k * h t)) (sqrt (k * h t)) (erfc (sqrt (k * h t))). intros e r c EP S0. field. repeat split; lra.
Qed.
Lemma holeG_h h f : 0 < h -> exists d, g_h (holeG h f) = Some d.
Proof.
  intros H. unfold holeG. cbn [g_h]. destruct (Req_EM_T (sqrt (2.25 / hA * h)) 0) as [E|N].
  - exfalso. assert (0 < sqrt (2.25 / hA * h)) by (apply sqrt_lt_R0, Rmult_lt_0_compat; [unfold hA; lra|exact H]). lra.
  - eexists. reflexivity.
Qed.
Lemma gcore (c0 c1 c2 c3 r D : R) (h f E : R -> R) (t h' f' E' : R) : is_derive h t h' -> is_derive f t f' -> is_derive E t E' -> 0 < D + h t ->
  is_derive (fun t : R => - (D + h t) * (c0 * f t + (D + h t) * (c1 + (D + h t) * (c2 + sqrt (D + h t) * c3 * (r * E t - 1))))) t
   (- (c0 * f t + (D + h t) * (2 * c1 + (D + h t) * (3 * c2 + sqrt (D + h t) * c3 * (r * (7 / 2 * E t) - 7 / 2)))) * h' + - (D + h t) * (D + h t) * (D + h t) * sqrt (D + h t) * c3 * r * E' + - (D + h t) * c0 * f').
Proof.
  intros Dh Df DE P. assert (Dp : is_derive (fun t : R => D + h t) t h') by (eapply dis; [apply dadd; [apply dconst|exact Dh]|ring]).
  set (p := fun t : R => D + h t) in *. assert (Dr : is_derive (fun t : R => sqrt (p t)) t (h' * / (2 * sqrt (p t)))). { apply (along sqrt p); [exact Dp|]. apply is_derive_Reals, derivable_pt_lim_sqrt. exact P. }
  assert (S0 : 0 < sqrt (p t)) by (apply sqrt_lt_R0; exact P). assert (SS : sqrt (p t) * sqrt (p t) = p t) by (apply sqrt_sqrt; unfold p in *; lra).
  change (D + h t) with (p t). set (q := fun t : R => sqrt (p t)) in *. change (sqrt (p t)) with (q t) in *.
  apply (is_derive_ext (fun t : R => (0 - p t) * (c0 * f t + p t * (c1 + p t * (c2 + q t * c3 * (r * E t - 1)))))). { intros x. unfold q, p. req. ring. }
  clear Dh. clearbody p q. eapply dis; [der|]. cbv beta. rewrite <- SS. revert S0. generalize (q t) (f t) (E t). clear. intros q f E S0. field. lra.
Qed.
Lemma holeG_curve (h f : R -> R) (t h' f' d : R) : is_derive h t h' -> is_derive f t f' -> 0 < h t -> g_h (holeG (h t) (f t)) = Some d ->
  is_derive (fun t : R => g_val (holeG (h t) (f t))) t (d * h' + g_f (holeG (h t) (f t)) * f').
Proof.
  intros Dh Df P E. unfold holeG in *. cbn [g_val g_h g_f] in *. assert (K : 0 < 2.25 / hA) by (unfold hA; lra). set (k := 2.25 / hA) in *. clearbody k.
  destruct (Req_EM_T (sqrt (k * h t)) 0) as [Z|N]; [discriminate|]. cbn [option_map] in E. injection E as <-.
  pose proof (expErfc_derive k h t h' K Dh P) as DE. assert (PD : 0 < hD + h t) by (unfold hD; lra).
  pose proof (gcore 0.2 (4 / 15 * hB) (8 / 15 * hA) (0.8 * sqrt PI) (sqrt hA) hD h f (fun t => exp (k * h t) * erfc (sqrt (k * h t))) t h' f' _ Dh Df DE PD) as G. cbv beta in G.
  eapply dis; [exact G|]. replace 3.5 with (7 / 2) by lra. replace 1.6 with (24 / 15) by lra. replace 0.2 with (/ 5) by lra. replace 0.8 with (4 / 5) by lra.
  generalize (1 / sqrt PI / sqrt (k * h t)). generalize (exp (k * h t) * erfc (sqrt (k * h t))) (sqrt (hD + h t)) (hD + h t) (sqrt PI) (sqrt hA) (f t) hA hB. intros. field.
Qed.

(** the integral over the hole *)
Lemma holeI_val s2 B : o_I (holeI s2 B) =
  let h := fst (holeH s2) in let f := fst (holeF s2 h (snd (holeH s2))) in let g := g_val (holeG h f) in
  (-0.000205484) * ei (integralErfcGaussian1 (0.006601306 + h) B) + (-0.109465240) * ei (integralErfcGaussian1 (0.259931140 + h) B) + (-0.064078780) * ei (integralErfcGaussian2 (0.520352224 + h) B) +
  (-0.008181735) * ei (integralErfcGaussian2 (0.118551043 + h) B) + (-0.000110666) * ei (integralErfcGaussian3 (0.046003777 + h) B) +
  (hB * ei (integralErfcGaussian1 (hD + h) B) + f * ei (integralErfcGaussian3 (hD + h) B) + g * ei (integralErfcGaussian5 (hD + h) B)).
Proof. unfold holeI. destruct (holeH s2) as [h h']. reflexivity. Qed.
Lemma holeI_curve (s B : R -> R) (t s' B' d : R) : is_derive s t s' -> is_derive B t B' -> 0 < s t -> 0 < B t -> o_s2 (holeI (s t) (B t)) = Some d ->
  is_derive (fun t : R => o_I (holeI (s t) (B t))) t (d * s' + o_B (holeI (s t) (B t)) * B').
Proof.
  intros Ds DB Ps PB E. set (h := fun t : R => fst (holeH (s t))).
  assert (Dh : is_derive h t (s' * snd (holeH (s t)))) by (apply (along (fun s => fst (holeH s)) s); [exact Ds|apply holeH_derive; exact Ps]).
  assert (Ph : 0 < h t) by (apply holeH_pos; exact Ps).
  set (f := fun t : R => hC - 0.5 * h t - 1 / 27 * s t).
  assert (Df : is_derive f t (0 - 0.5 * (s' * snd (holeH (s t))) - 1 / 27 * s')) by (unfold f; apply dsub; [apply dsub; [apply dconst|apply dscal; exact Dh]|apply dscal; exact Ds]).
  destruct (holeG_h (h t) (f t) Ph) as [gd Hgd]. pose proof (holeG_curve h f t _ _ gd Dh Df Ph Hgd) as Dg. set (g := fun t : R => g_val (holeG (h t) (f t))) in *.
  assert (Dc : forall c : R, is_derive (fun t : R => c + h t) t (s' * snd (holeH (s t)))) by (intros c; eapply dis; [apply dadd; [apply dconst|exact Dh]|ring]).
  assert (C1 := fun c (Hc : 0 < c) => curve1 (fun t => c + h t) B t _ _ (Dc c) DB ltac:(cbv beta; lra)). assert (C2 := fun c (Hc : 0 < c) => curve2 (fun t => c + h t) B t _ _ (Dc c) DB ltac:(cbv beta; lra) PB).
  assert (C3 := fun c (Hc : 0 < c) => curve3 (fun t => c + h t) B t _ _ (Dc c) DB ltac:(cbv beta; lra)). assert (C5 := fun c (Hc : 0 < c) => curve5 (fun t => c + h t) B t _ _ (Dc c) DB ltac:(cbv beta; lra)). cbv beta in C1, C2, C3, C5.
  assert (PD : 0 < hD) by (unfold hD; lra).
  assert (F1 := C1 0.006601306 ltac:(lra)). assert (F2 := C1 0.259931140 ltac:(lra)). assert (F3 := C2 0.520352224 ltac:(lra)). assert (F4 := C2 0.118551043 ltac:(lra)). assert (F5 := C3 0.046003777 ltac:(lra)).
  assert (T1 := C1 hD PD). assert (T2 := C3 hD PD). assert (T3 := C5 hD PD). clear C1 C2 C3 C5 Dc.
  apply (is_derive_ext (fun t : R => (-0.000205484) * ei (integralErfcGaussian1 (0.006601306 + h t) (B t)) + (-0.109465240) * ei (integralErfcGaussian1 (0.259931140 + h t) (B t)) + (-0.064078780) * ei (integralErfcGaussian2 (0.520352224 + h t) (B t)) +
    (-0.008181735) * ei (integralErfcGaussian2 (0.118551043 + h t) (B t)) + (-0.000110666) * ei (integralErfcGaussian3 (0.046003777 + h t) (B t)) +
    (hB * ei (integralErfcGaussian1 (hD + h t) (B t)) + f t * ei (integralErfcGaussian3 (hD + h t) (B t)) + g t * ei (integralErfcGaussian5 (hD + h t) (B t))))).
  { intros x. rewrite holeI_val. reflexivity. }
  eapply dis.
  { apply (dadd (fun t => (-0.000205484) * ei (integralErfcGaussian1 (0.006601306 + h t) (B t)) + (-0.109465240) * ei (integralErfcGaussian1 (0.259931140 + h t) (B t)) + (-0.064078780) * ei (integralErfcGaussian2 (0.520352224 + h t) (B t)) +
        (-0.008181735) * ei (integralErfcGaussian2 (0.118551043 + h t) (B t)) + (-0.000110666) * ei (integralErfcGaussian3 (0.046003777 + h t) (B t)))
      (fun t => hB * ei (integralErfcGaussian1 (hD + h t) (B t)) + f t * ei (integralErfcGaussian3 (hD + h t) (B t)) + g t * ei (integralErfcGaussian5 (hD + h t) (B t)))).
    - apply dadd; [apply dadd; [apply dadd; [apply dadd|]|]|]; apply dscal; [exact F1|exact F2|exact F3|exact F4|exact F5].
    - apply (dadd (fun t => hB * ei (integralErfcGaussian1 (hD + h t) (B t)) + f t * ei (integralErfcGaussian3 (hD + h t) (B t))) (fun t => g t * ei (integralErfcGaussian5 (hD + h t) (B t)))).
      + apply (dadd (fun t => hB * ei (integralErfcGaussian1 (hD + h t) (B t))) (fun t => f t * ei (integralErfcGaussian3 (hD + h t) (B t)))); [apply dscal; exact T1|apply (dmul f (fun t => ei (integralErfcGaussian3 (hD + h t) (B t)))); [exact Df|exact T2]].
      + apply (dmul g (fun t => ei (integralErfcGaussian5 (hD + h t) (B t)))); [exact Dg|exact T3]. }
  cbv beta. clear F1 F2 F3 F4 F5 T1 T2 T3 Dg Df Dh.
  unfold holeI in E |- *. change (g t) with (g_val (holeG (h t) (f t))). revert E. unfold f, h in *. destruct (holeH (s t)) as [hv hs] eqn:EH. cbn [fst snd] in *. unfold holeF.
  destruct (holeG hv (hC - 0.5 * hv - 1 / 27 * s t)) as [gv gh gf]. cbn [g_h g_val g_f] in *. subst gh. cbn [option_map].
  destruct (integralErfcGaussian1 (0.006601306 + hv) (B t)) as [u1 u1A u1B]. destruct (integralErfcGaussian1 (0.259931140 + hv) (B t)) as [u2 u2A u2B]. destruct (integralErfcGaussian2 (0.520352224 + hv) (B t)) as [u3 u3A u3B].
  destruct (integralErfcGaussian2 (0.118551043 + hv) (B t)) as [u4 u4A u4B]. destruct (integralErfcGaussian3 (0.046003777 + hv) (B t)) as [u5 u5A u5B].
  destruct (integralErfcGaussian1 (hD + hv) (B t)) as [v1 v1A v1B]. destruct (integralErfcGaussian3 (hD + hv) (B t)) as [v2 v2A v2B]. destruct (integralErfcGaussian5 (hD + hv) (B t)) as [v3 v3A v3B].
  cbn [o_s2 o_B o_I ei ei_A ei_B option_map]. intros E. injection E as <-. replace (-0.5) with (- (0.5)) by lra. generalize 0.5 (-0.000205484) (-0.109465240) (-0.064078780) (-0.008181735) (-0.000110666) hB. intros. field.
Qed.
Lemma holeI_s2 s B : 0 < s -> exists d, o_s2 (holeI s B) = Some d.
Proof.
  intros H. pose proof (holeH_pos s H) as P. unfold holeI. destruct (holeH s) as [h h']. cbn [fst] in P. unfold holeF. destruct (holeG_h h (hC - 0.5 * h - 1 / 27 * s) P) as [d E].
  destruct (holeG h (hC - 0.5 * h - 1 / 27 * s)) as [gv gh gf]. cbn [g_h] in E. subst gh. eexists. reflexivity.
Qed.
Lemma prefac_pos : 0 < erfcArgPrefac.
Proof. unfold erfcArgPrefac, omega. pose proof PI_RGT_0. apply Rmult_lt_0_compat; [lra|apply cpow_gt0, Rdiv_lt_0_compat; lra]. Qed.
Lemma wPBE_val rs u : wo_e (GGA_X_wPBE_SR rs u) = (-8 / 9) * fst (slaterExchange rs) * o_I (holeI (fst (scaleS u)) (erfcArgPrefac * rs)).
Proof. unfold GGA_X_wPBE_SR. destruct (slaterExchange rs), (scaleS u). cbn [fst]. destruct (holeI r1 (erfcArgPrefac * rs)). reflexivity. Qed.
Lemma wPBE_curve (rs u : R -> R) (t rs' u' : R) : is_derive rs t rs' -> is_derive u t u' -> 0 < rs t -> 0 < u t -> u t <> 1 -> u t <> 225 ->
  exists d, wo_s2 (GGA_X_wPBE_SR (rs t) (u t)) = Some d /\ is_derive (fun t : R => wo_e (GGA_X_wPBE_SR (rs t) (u t))) t (wo_rs (GGA_X_wPBE_SR (rs t) (u t)) * rs' + d * u').
Proof.
  intros Dr Du Pr Pu N1 N2. pose proof prefac_pos as PP. pose proof (scale_curve u t u' Du Pu N1 N2) as Ds. pose proof (scale_pos (u t) Pu) as Ps.
  assert (DB : is_derive (fun t : R => erfcArgPrefac * rs t) t (erfcArgPrefac * rs')) by (apply dscal; exact Dr).
  assert (PB : 0 < erfcArgPrefac * rs t) by nra. destruct (holeI_s2 (fst (scaleS (u t))) (erfcArgPrefac * rs t) Ps) as [d E].
  pose proof (holeI_curve (fun t => fst (scaleS (u t))) (fun t => erfcArgPrefac * rs t) t _ _ d Ds DB Ps PB E) as DI. cbv beta in DI.
  assert (SL : is_derive (fun t : R => fst (slaterExchange (rs t))) t (rs' * snd (slaterExchange (rs t)))) by (apply (along (fun r => fst (slaterExchange r)) rs); [exact Dr|apply slater_derive; exact Pr]).
  exists ((-8 / 9) * fst (slaterExchange (rs t)) * d * snd (scaleS (u t))). split.
  - revert E. unfold GGA_X_wPBE_SR. destruct (slaterExchange (rs t)), (scaleS (u t)). cbn [fst snd]. destruct (holeI r1 (erfcArgPrefac * rs t)) as [oi os ob]. cbn [o_s2]. intros ->. reflexivity.
  - apply (is_derive_ext (fun t : R => (-8 / 9) * fst (slaterExchange (rs t)) * o_I (holeI (fst (scaleS (u t))) (erfcArgPrefac * rs t)))). { intros x. symmetry. apply wPBE_val. }
    eapply dis. { apply (dmul (fun t => (-8 / 9) * fst (slaterExchange (rs t))) (fun t => o_I (holeI (fst (scaleS (u t))) (erfcArgPrefac * rs t)))); [apply dscal; exact SL|exact DI]. }
    cbv beta. clear DI Ds SL. unfold GGA_X_wPBE_SR. destruct (slaterExchange (rs t)), (scaleS (u t)). cbn [fst snd] in *. destruct (holeI r1 (erfcArgPrefac * rs t)) as [oi os ob]. cbn [wo_rs o_I o_B]. field.
Qed.
(** without a gradient the derivative is not finite *)
Lemma wPBE_uniform rs : wo_s2 (GGA_X_wPBE_SR rs 0) = None.
Proof.
  unfold GGA_X_wPBE_SR. destruct (slaterExchange rs) as [e e']. unfold scaleS. destruct (Rlt_dec 225 0); [lra|]. destruct (Rlt_dec 1 0); [lra|].
  unfold holeI. assert (H : holeH 0 = (0, 0)) by (unfold holeH; cbv zeta; f_equal; ring). rewrite H. unfold holeF, holeG. cbv zeta.
  destruct (Req_EM_T (sqrt (2.25 / hA * 0)) 0) as [E|N]; [reflexivity|]. exfalso. apply N. rewrite Rmult_0_r. apply sqrt_0.
Qed.
(** the scaling is not continuous at 1 and at 225 *)
Lemma scale_jump1 x : 1 < x <= 225 -> sqrt (fst (scaleS x)) < sqrt x - exp (1 - sMax) / 2.
Proof.
  intros H. unfold scaleS. destruct (Rlt_dec 225 x); [lra|]. destruct (Rlt_dec 1 x); [|lra]. cbn [fst]. fold (sOf (sqrt x)). assert (S1 : 1 < sqrt x) by (rewrite <- sqrt_1; apply sqrt_lt_1; lra).
  rewrite sqrt_square by (left; apply sOf_pos; exact S1). unfold sOf. assert (E : exp (1 - sMax) < exp (sqrt x - sMax)) by (apply exp_increasing; lra). pose proof (exp_pos (1 - sMax)) as EP.
  assert (L : ln (1 + exp (1 - sMax)) < ln (1 + exp (sqrt x - sMax))) by (apply ln_increasing; lra).
  assert (Q : exp (1 - sMax) <= exp 0) by (left; apply exp_increasing; unfold sMax; lra). rewrite exp_0 in Q. set (e := exp (1 - sMax)) in *. clearbody e.
  assert (M : e / 2 <= ln (1 + e)). { apply Rnot_lt_le. intros X. apply exp_increasing in X. rewrite exp_ln in X by lra. assert (exp (e / 2) <= 1 + e). { assert (Y := exp_ineq1_le (- (e / 2))). rewrite exp_Ropp in Y. pose proof (exp_pos (e / 2)). assert (Z : exp (e / 2) * (1 + - (e / 2)) <= 1) by (apply (Rmult_le_compat_l (exp (e / 2))) in Y; [rewrite Rinv_r in Y; lra|lra]). nra. } lra. }
  lra.
Qed.
Lemma wPBE_uniform_ex : exists rs, 0 < rs /\ forall d, wo_s2 (GGA_X_wPBE_SR rs 0) <> Some d.
Proof. exists 1. split; [lra|]. intros d. rewrite wPBE_uniform. discriminate. Qed.
Lemma scale_discontinuous : exists x, 0 < x /\ ~ continuity_pt (fun u => fst (scaleS u)) x.
Proof.
  exists 1. split; [lra|]. intros C. set (e := exp (1 - sMax)) in *. assert (E0 : 0 < e) by apply exp_pos.
  assert (E1 : e < 1). { unfold e. rewrite <- exp_0 at 2. apply exp_increasing. unfold sMax. lra. }
  destruct (C (e / 8) ltac:(lra)) as (de&Hd&HC). set (a := Rmin (de / 2) (e / 4)). assert (A1 : a <= de / 2) by apply Rmin_l. assert (A2 : a <= e / 4) by apply Rmin_r. assert (A3 : 0 < a) by (apply Rmin_glb_lt; lra).
  specialize (HC (1 + a)). cbv beta in HC. assert (F1 : fst (scaleS 1) = 1). { unfold scaleS. destruct (Rlt_dec 225 1); [lra|]. destruct (Rlt_dec 1 1); [lra|reflexivity]. }
  rewrite F1 in HC. assert (X : Rabs (fst (scaleS (1 + a)) - 1) < e / 8).
  { apply HC. split; [split; [exact I|lra]|]. unfold dist, R_met, R_dist. cbn. replace (1 + a - 1) with a by ring. rewrite Rabs_pos_eq; lra. }
  apply Rabs_def2 in X. pose proof (scale_jump1 (1 + a) ltac:(lra)) as J. fold e in J. pose proof (scale_pos (1 + a) ltac:(lra)) as P.
  assert (S1 : sqrt (1 + a) <= 1 + a / 2). { apply Rsqr_incr_0_var; [|lra]. unfold Rsqr. rewrite sqrt_sqrt by lra. nra. }
  set (y := fst (scaleS (1 + a))) in *. clearbody y. assert (SY : sqrt y * sqrt y = y) by (apply sqrt_sqrt; lra). pose proof (sqrt_pos y). assert (sqrt y < 1 - e / 4) by lra. nra.
Qed.
