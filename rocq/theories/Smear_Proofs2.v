(** Proofs about the chemical potential search. *)
From Coq Require Import Reals List ZArith Lra Lia.
From Coquelicot Require Import Coquelicot.
From Verif Require Import Gauss Smear_Model Smear_Spec Smear_Proofs.
Import ListNotations.
Open Scope R_scope.

(** ** sums *)
Lemma fold_plus {A} (f : A -> R) l : forall a, fold_left (fun acc x => acc + f x) l a = a + Rsum (map f l).
Proof. induction l as [|x l IH]; intros a; cbn; [lra|]. rewrite IH. lra. Qed.
Lemma sumL_Rsum {A} (f : A -> R) l : sumL f l = Rsum (map f l).
Proof. unfold sumL. rewrite fold_plus. lra. Qed.
Lemma sumL_cons {A} (f : A -> R) x l : sumL f (x :: l) = f x + sumL f l.
Proof. rewrite !sumL_Rsum. reflexivity. Qed.
Lemma sumL_ext {A} (f g : A -> R) l : (forall x, In x l -> f x = g x) -> sumL f l = sumL g l.
Proof. intros H. rewrite !sumL_Rsum. induction l as [|x l IH]; cbn; auto. rewrite H by (left; auto). rewrite IH; auto. intros; apply H; right; auto. Qed.
Lemma sumL_const {A} c (l : list A) : sumL (fun _ => c) l = c * INR (length l).
Proof. rewrite sumL_Rsum. induction l as [|x l IH]; [cbn; lra|]. cbn [map Rsum length]. rewrite IH, S_INR. lra. Qed.

(** ** Lipschitz sums *)
Lemma lip_sum {A} (f : R -> A -> R) (K : A -> R) l :
  (forall x, In x l -> lipschitz (K x) (fun t => f t x)) -> lipschitz (sumL K l) (fun t => sumL (f t) l).
Proof.
  intros H a b. induction l as [|x l IH].
  - unfold sumL; cbn. rewrite Rminus_0_r, Rabs_R0. lra.
  - rewrite !sumL_cons. assert (Hx := H x (or_introl eq_refl) a b). cbn in Hx. specialize (IH (fun y Hy => H y (or_intror Hy))).
    replace (f a x + sumL (f a) l - (f b x + sumL (f b) l)) with ((f a x - f b x) + (sumL (f a) l - sumL (f b) l)) by ring.
    eapply Rle_trans; [apply Rabs_triang|]. lra.
Qed.
Lemma lip_ext L F G : (forall x, F x = G x) -> lipschitz L F -> lipschitz L G.
Proof. intros E H a b. rewrite <- !E. apply H. Qed.

(** ** limits along a direction *)
Definition tends (s : R) (F : R -> R) (l : R) : Prop := forall e, 0 < e -> exists X, 0 < X /\ forall x, X <= s * x -> Rabs (F x - l) < e.
Lemma tends_const s c : tends s (fun _ => c) c.
Proof. intros e He. exists 1. split; [lra|]. intros. rewrite Rminus_eq_0, Rabs_R0. auto. Qed.
Lemma tends_plus s F G a b : tends s F a -> tends s G b -> tends s (fun x => F x + G x) (a + b).
Proof.
  intros HF HG e He. destruct (HF (e/2)) as (X&HX&A); [lra|]. destruct (HG (e/2)) as (Y&HY&B); [lra|].
  exists (Rmax X Y). assert (M1 := Rmax_l X Y). assert (M2 := Rmax_r X Y). split; [lra|]. intros x Hx.
  specialize (A x ltac:(lra)). specialize (B x ltac:(lra)). replace (F x + G x - (a + b)) with ((F x - a) + (G x - b)) by ring.
  eapply Rle_lt_trans; [apply Rabs_triang|]. lra.
Qed.
Lemma tends_scal s c F a : tends s F a -> tends s (fun x => c * F x) (c * a).
Proof.
  intros HF e He. assert (Pc : 0 < Rabs c + 1) by (assert (H := Rabs_pos c); lra).
  destruct (HF (e / (Rabs c + 1))) as (X&HX&A); [apply Rdiv_lt_0_compat; auto|]. exists X. split; auto. intros x Hx. specialize (A x Hx).
  rewrite <- Rmult_minus_distr_l, Rabs_mult. apply Rmult_lt_compat_r with (r := Rabs c + 1) in A; auto.
  unfold Rdiv in A. rewrite Rmult_assoc, Rinv_l, Rmult_1_r in A by lra. assert (H := Rabs_pos (F x - a)). assert (H2 := Rabs_pos c). nra.
Qed.
Lemma tends_ext s F G a : (forall x, F x = G x) -> tends s F a -> tends s G a.
Proof. intros E H e He. destruct (H e He) as (X&HX&A). exists X. split; auto. intros x Hx. rewrite <- E. auto. Qed.
Lemma tends_sum {A} s (f : R -> A -> R) (l0 : A -> R) l : (forall x, In x l -> tends s (fun t => f t x) (l0 x)) -> tends s (fun t => sumL (f t) l) (sumL l0 l).
Proof.
  intros H. induction l as [|x l IH].
  - apply (tends_ext s (fun _ => 0)); [intros; reflexivity|apply tends_const].
  - rewrite sumL_cons. apply (tends_ext s (fun t => f t x + sumL (f t) l)). { intros; rewrite sumL_cons; auto. }
    apply tends_plus; [apply H; left; auto|apply IH; intros; apply H; right; auto].
Qed.
(** the filling of one level when the effective chemical potential moves as a + s*t*b *)
Lemma tends_smear ty width a b e : 0 < width -> b = 1 \/ b = -1 -> tends b (fun t => smear ty width (a + t * b) e) 1 /\ tends (-b) (fun t => smear ty width (a + t * b) e) 0.
Proof.
  intros Hw Hb. split; intros d Hd.
  - destruct (sm_lim_lo ty d Hd) as (X&HX&A). exists (Rmax 1 (2 * width * X + e - a)). assert (M1 := Rmax_l 1 (2 * width * X + e - a)). assert (M2 := Rmax_r 1 (2 * width * X + e - a)).
    split; [lra|]. intros t Ht. rewrite smear_sm. apply A. unfold xof. apply Rmult_le_reg_r with (2*width); [lra|].
    unfold Rdiv. rewrite Rmult_assoc, Rinv_l by lra. lra.
  - destruct (sm_lim_hi ty d Hd) as (X&HX&A). exists (Rmax 1 (2 * width * X - e + a)). assert (M1 := Rmax_l 1 (2 * width * X - e + a)). assert (M2 := Rmax_r 1 (2 * width * X - e + a)).
    split; [lra|]. intros t Ht. rewrite Rminus_0_r, smear_sm. apply A. unfold xof. apply Rmult_le_reg_r with (2*width); [lra|].
    unfold Rdiv. rewrite Rmult_assoc, Rinv_l by lra. lra.
Qed.

(** ** fuel is irrelevant *)
Section Mono.
  Variables (calc calc' : R -> option R).
  Hypothesis ext : forall x v, calc x = Some v -> calc' x = Some v.
  Lemma lowerBracket_mono target tol hi fuel : forall fuel' lo r, (fuel <= fuel')%nat -> lowerBracket calc fuel target tol lo hi = Some r -> lowerBracket calc' fuel' target tol lo hi = Some r.
  Proof.
    induction fuel as [|fuel IH]; intros fuel' lo r Hf H; [discriminate|]. destruct fuel' as [|fuel']; [lia|]. cbn in *.
    destruct (calc lo) eqn:E; [|discriminate]. rewrite (ext _ _ E). destruct (Rle_dec _ _); auto. apply IH; auto. lia.
  Qed.
  Lemma upperBracket_mono target tol lo fuel : forall fuel' hi r, (fuel <= fuel')%nat -> upperBracket calc fuel target tol lo hi = Some r -> upperBracket calc' fuel' target tol lo hi = Some r.
  Proof.
    induction fuel as [|fuel IH]; intros fuel' hi r Hf H; [discriminate|]. destruct fuel' as [|fuel']; [lia|]. cbn in *.
    destruct (calc hi) eqn:E; [|discriminate]. rewrite (ext _ _ E). destruct (Rle_dec _ _); auto. apply IH; auto. lia.
  Qed.
  Lemma bisect_mono target xTol fuel : forall fuel' lo hi r, (fuel <= fuel')%nat -> bisect calc fuel target xTol lo hi = Some r -> bisect calc' fuel' target xTol lo hi = Some r.
  Proof.
    induction fuel as [|fuel IH]; intros fuel' lo hi r Hf H; [discriminate|]. destruct fuel' as [|fuel']; [lia|]. cbn in *.
    destruct (Rle_dec _ _); auto. destruct (calc _) eqn:E; [|discriminate]. rewrite (ext _ _ E). destruct (Rlt_dec _ _); apply IH; auto; lia.
  Qed.
  Lemma search_mono width target lo0 hi0 fuel fuel' r : (fuel <= fuel')%nat ->
    search width calc fuel target lo0 hi0 = Some r -> search width calc' fuel' target lo0 hi0 = Some r.
  Proof.
    unfold search. intros Hf H. set (tol := Rmax _ _) in *.
    destruct (lowerBracket calc fuel target tol lo0 hi0) as [lo|] eqn:E1; [|discriminate]. rewrite (lowerBracket_mono _ _ _ _ _ _ _ Hf E1).
    destruct (upperBracket calc fuel target tol lo hi0) as [hi|] eqn:E2; [|discriminate]. rewrite (upperBracket_mono _ _ _ _ _ _ _ Hf E2).
    eapply bisect_mono; eauto.
  Qed.
End Mono.

(** ** The three loops *)
Section Generic.
  Variables (calc : R -> option R).

  Lemma lowerBracket_res fuel target tol hi : forall lo r, lo < hi -> lowerBracket calc fuel target tol lo hi = Some r ->
    r < hi /\ (exists v, calc r = Some v /\ v < target + tol) /\ (r = lo \/ r < lo /\ exists v, calc ((r + hi)/2) = Some v /\ target + tol <= v).
  Proof.
    induction fuel as [|fuel IH]; intros lo r Hlo H; [discriminate|]. cbn in H. destruct (calc lo) as [v|] eqn:E; [|discriminate].
    destruct (Rle_dec _ _) as [L|L].
    - apply IH in H; [|lra]. destruct H as (H1&H2&H3). split; [auto|]. split; [auto|]. right. destruct H3 as [->|(H3&H4)].
      + split; [lra|]. exists v. split; auto. replace ((lo - (hi - lo) + hi)/2) with lo by field. auto.
      + split; [lra|auto].
    - inversion H; subst r; clear H. split; auto. split; [exists v; split; auto; lra|auto].
  Qed.
  Lemma upperBracket_res fuel target tol lo : forall hi r, lo < hi -> upperBracket calc fuel target tol lo hi = Some r ->
    lo < r /\ (exists v, calc r = Some v /\ target - tol < v) /\ (r = hi \/ hi < r /\ exists v, calc ((lo + r)/2) = Some v /\ v <= target - tol).
  Proof.
    induction fuel as [|fuel IH]; intros hi r Hlo H; [discriminate|]. cbn in H. destruct (calc hi) as [v|] eqn:E; [|discriminate].
    destruct (Rle_dec _ _) as [L|L].
    - apply IH in H; [|lra]. destruct H as (H1&H2&H3). split; [auto|]. split; [auto|]. right. destruct H3 as [->|(H3&H4)].
      + split; [lra|]. exists v. split; auto. replace ((lo + (hi + (hi - lo)))/2) with hi by field. auto.
      + split; [lra|auto].
    - inversion H; subst r; clear H. split; auto. split; [exists v; split; auto; lra|auto].
  Qed.
  Lemma bisect_res fuel target xTol (P Q : R -> Prop) : 
    (forall x v, calc x = Some v -> v <= target -> P x) -> (forall x v, calc x = Some v -> target < v -> Q x) ->
    forall lo hi r, lo < hi -> P lo -> Q hi -> bisect calc fuel target xTol lo hi = Some r ->
    exists a b, lo <= a /\ a < b /\ b <= hi /\ r = (a + b)/2 /\ P a /\ Q b /\ b - a < xTol.
  Proof.
    intros HP HQ. induction fuel as [|fuel IH]; intros lo hi r Hlt Hlo Hhi H; [discriminate|]. cbn in H.
    destruct (Rle_dec _ _) as [L|L].
    - destruct (calc (1/2 * (lo + hi))) as [v|] eqn:E; [|discriminate]. destruct (Rlt_dec _ _) as [G|G].
      + apply IH in H; [|lra|auto|eapply HQ; eauto]. destruct H as (a&b&H1&H2&H3&H4). exists a, b. repeat split; try tauto; lra.
      + apply IH in H; [|lra|eapply HP; eauto; lra|auto]. destruct H as (a&b&H1&H2&H3&H4). exists a, b. repeat split; try tauto; lra.
    - inversion H; subst r; clear H. exists lo, hi. repeat split; auto; try lra.
  Qed.
  Lemma search_res width fuel target lo0 hi0 r : lo0 < hi0 -> search width calc fuel target lo0 hi0 = Some r ->
    (forall F : R -> R, (forall x v, calc x = Some v -> v = F x) -> bracketed F width target lo0 hi0 r).
  Proof.
    intros Hlt H F HF. unfold search in H. change (Rmax absTol (relTol * Rabs target)) with (valueTol target) in H.
    destruct (lowerBracket calc fuel target (valueTol target) lo0 hi0) as [lo|] eqn:E1; [|discriminate].
    destruct (upperBracket calc fuel target (valueTol target) lo hi0) as [hi|] eqn:E2; [|discriminate].
    apply lowerBracket_res in E1; auto. destruct E1 as (A1&(v1&A2&A3)&A4).
    apply upperBracket_res in E2; auto. destruct E2 as (B1&(v2&B2&B3)&B4).
    assert (T : 0 < valueTol target) by (unfold valueTol; eapply Rlt_le_trans; [|apply Rmax_l]; lra).
    apply (bisect_res fuel target _ (fun x => F x < target + valueTol target) (fun x => target - valueTol target < F x)) in H.
    - destruct H as (a&b&H1&H2&H3&H4&H5&H6&H7). exists a, b, lo, hi. repeat split; auto; try lra.
      + destruct A4 as [->|(A4&v&A5&A6)]; [left; auto|right]. split; auto. apply HF in A5. subst v. auto.
      + destruct B4 as [->|(B4&v&B5&B6)]; [left; auto|right]. split; auto. apply HF in B5. subst v. auto.
    - intros x v Hv L. apply HF in Hv. subst v. lra.
    - intros x v Hv L. apply HF in Hv. subst v. lra.
    - auto.
    - apply HF in A2. subst v1. auto.
    - apply HF in B2. subst v2. auto.
  Qed.

  (** ** termination, when calc is total *)
  Variable F : R -> R.
  Hypothesis total : forall x, calc x = Some (F x).
  Lemma nat_above (x : R) : exists n : nat, x <= INR n.
  Proof. destruct (Rle_dec 0 x) as [H|H]; [|exists 0%nat; cbn; lra]. destruct (archimed x) as (A&_). exists (Z.to_nat (up x)). rewrite INR_IZR_INZ, Z2Nat.id; [lra|]. apply le_IZR. lra. Qed.
  Lemma lowerBracket_term target tol hi X : (forall x, X <= - x -> F x < target + tol) -> forall n lo, lo < hi -> X - (- lo) <= INR n * (hi - lo) ->
    exists r, lowerBracket calc (S n) target tol lo hi = Some r.
  Proof.
    intros HX. induction n as [|n IH]; intros lo Hlt Hn.
    - cbn. rewrite total. destruct (Rle_dec _ _) as [L|L]; [|eauto]. cbn in Hn. specialize (HX lo ltac:(lra)). lra.
    - cbn [lowerBracket]. rewrite total. destruct (Rle_dec _ _) as [L|L]; [|eauto]. apply IH; [lra|]. rewrite S_INR in Hn. assert (P := pos_INR n). nra.
  Qed.
  Lemma upperBracket_term target tol lo X : (forall x, X <= x -> target - tol < F x) -> forall n hi, lo < hi -> X - hi <= INR n * (hi - lo) ->
    exists r, upperBracket calc (S n) target tol lo hi = Some r.
  Proof.
    intros HX. induction n as [|n IH]; intros hi Hlt Hn.
    - cbn. rewrite total. destruct (Rle_dec _ _) as [L|L]; [|eauto]. cbn in Hn. specialize (HX hi ltac:(lra)). lra.
    - cbn [upperBracket]. rewrite total. destruct (Rle_dec _ _) as [L|L]; [|eauto]. apply IH; [lra|]. rewrite S_INR in Hn. assert (P := pos_INR n). nra.
  Qed.
  Lemma bisect_term target xTol : 0 < xTol -> forall n lo hi, (hi - lo) < xTol * 2 ^ n -> exists r, bisect calc (S n) target xTol lo hi = Some r.
  Proof.
    intros HT. induction n as [|n IH]; intros lo hi Hn.
    - cbn in *. destruct (Rle_dec _ _); [lra|eauto].
    - cbn [bisect]. destruct (Rle_dec _ _); [|eauto]. rewrite total. cbn [pow] in Hn. destruct (Rlt_dec _ _); apply IH; lra.
  Qed.
  Lemma pow2_above x : exists n, x < 2 ^ n.
  Proof. destruct (nat_above x) as (n&Hn). exists n. apply Rle_lt_trans with (INR n); auto. clear. induction n as [|n IH]; [cbn; lra|]. rewrite S_INR. cbn [pow]. assert (1 <= 2^n) by (apply pow_R1_Rle; lra). lra. Qed.
  Lemma search_term width target lo0 hi0 X : 0 < width -> lo0 < hi0 -> (forall x, X <= - x -> F x < target + valueTol target) -> (forall x, X <= x -> target - valueTol target < F x) ->
    exists fuel r, search width calc fuel target lo0 hi0 = Some r.
  Proof.
    intros Hw Hlt HL HU. destruct (nat_above ((X + lo0) / (hi0 - lo0))) as (n1&H1).
    assert (P0 : 0 < hi0 - lo0) by lra.
    assert (N1 : X - (- lo0) <= INR n1 * (hi0 - lo0)).
    { apply Rmult_le_compat_r with (r := hi0 - lo0) in H1; [|lra]. unfold Rdiv in H1. rewrite Rmult_assoc, Rinv_l in H1 by lra. lra. }
    destruct (lowerBracket_term target (valueTol target) hi0 X HL n1 lo0 Hlt N1) as (lo&E1).
    assert (Q := lowerBracket_res _ _ _ _ _ _ Hlt E1). destruct Q as (Q&_).
    destruct (nat_above ((X - hi0) / (hi0 - lo))) as (n2&H2).
    assert (N2 : X - hi0 <= INR n2 * (hi0 - lo)).
    { apply Rmult_le_compat_r with (r := hi0 - lo) in H2; [|lra]. unfold Rdiv in H2. rewrite Rmult_assoc, Rinv_l in H2 by lra. lra. }
    destruct (upperBracket_term target (valueTol target) lo X HU n2 hi0 Q N2) as (hi&E2).
    set (xTol := Rmax (absTol * width) (relTol * Rmax (Rabs lo) (Rabs hi))).
    assert (PT : 0 < xTol) by (unfold xTol; eapply Rlt_le_trans; [|apply Rmax_l]; unfold absTol; lra).
    destruct (pow2_above ((hi - lo) / xTol)) as (n3&H3).
    assert (N3 : hi - lo < xTol * 2 ^ n3).
    { apply Rmult_lt_compat_r with (r := xTol) in H3; [|lra]. unfold Rdiv in H3. rewrite Rmult_assoc, Rinv_l in H3 by lra. lra. }
    destruct (bisect_term target xTol PT n3 lo hi N3) as (r&E3).
    exists (S n1 + S n2 + S n3)%nat, r. unfold search. change (Rmax absTol (relTol * Rabs target)) with (valueTol target).
    rewrite (lowerBracket_mono _ _ (fun _ _ H => H) _ _ _ (S n1) (S n1 + S n2 + S n3)%nat _ _ ltac:(lia) E1).
    rewrite (upperBracket_mono _ _ (fun _ _ H => H) _ _ _ (S n2) (S n1 + S n2 + S n3)%nat _ _ ltac:(lia) E2). fold xTol.
    apply (bisect_mono _ _ (fun _ _ H => H) _ _ (S n3)); [lia|auto].
  Qed.
End Generic.

(** a bracketed result of a Lipschitz function has nearly the target value *)
Lemma bracketed_accurate L F width target lo0 hi0 r : 0 <= L -> lipschitz L F -> bracketed F width target lo0 hi0 r ->
  exists lo1 hi1, (lo1 = lo0 \/ lo1 < lo0 /\ target + valueTol target <= F ((lo1 + hi0) / 2)) /\
    (hi1 = hi0 \/ hi0 < hi1 /\ F ((lo1 + hi1) / 2) <= target - valueTol target) /\ lo1 <= r <= hi1 /\
    Rabs (F r - target) < valueTol target + L * (Rmax (1/10^10 * width) (1/10^14 * Rmax (Rabs lo1) (Rabs hi1)) / 2).
Proof.
  intros HL Lip (lo&hi&lo1&hi1&H1&H2&H3&H4&H5&H6&H7&H8&H9). exists lo1, hi1. repeat split; auto; try lra.
  set (W := Rmax _ _) in *. assert (A := Lip r lo). assert (B := Lip r hi).
  replace (Rabs (r - lo)) with ((hi - lo)/2) in A by (rewrite Rabs_pos_eq; subst r; lra).
  replace (Rabs (r - hi)) with ((hi - lo)/2) in B by (rewrite Rabs_left1; subst r; lra).
  apply Rabs_le_between in A. apply Rabs_le_between in B. assert (L * ((hi-lo)/2) <= L * (W/2)) by (apply Rmult_le_compat_l; lra).
  apply Rabs_def1; lra.
Qed.

(** ** the electron number and magnetization *)
Section States.
  Variables (ty : SmearingType) (width : R) (states : list kstate).
  Hypothesis Hw : 0 < width.
  Hypothesis Hpos : List.Forall (fun q => 0 <= ks_weight q) states.
  Definition cap : R := sumL (fun q => ks_weight q * INR (length (ks_eps q))) states.
  Lemma cap_nonneg : 0 <= cap.
  Proof.
    unfold cap. induction states as [|q l IH]; [unfold sumL; cbn; lra|]. rewrite sumL_cons. inversion Hpos; subst. specialize (IH H2).
    assert (P := pos_INR (length (ks_eps q))). nra.
  Qed.
  Lemma N_lip Bz : lipschitz (cap / width) (fun mu => Nof ty width states mu Bz).
  Proof.
    replace (cap / width) with (sumL (fun q => sumL (fun _ => ks_weight q * / width) (ks_eps q)) states).
    - unfold Nof. apply (lip_sum (fun mu q => sumL (fun e => ks_weight q * smear ty width (muEff mu Bz q) e) (ks_eps q))). intros q Hq.
      apply (lip_sum (fun mu e => ks_weight q * smear ty width (muEff mu Bz q) e)). intros e _ a b.
      rewrite <- Rmult_minus_distr_l, Rabs_mult. rewrite Forall_forall in Hpos. rewrite (Rabs_pos_eq (ks_weight q)) by (apply Hpos; auto).
      rewrite Rmult_assoc. apply Rmult_le_compat_l; [apply Hpos; auto|]. eapply Rle_trans; [apply smear_lipschitz; auto|].
      unfold muEff. replace (a + Bz * ks_spin q - (b + Bz * ks_spin q)) with (a - b) by ring. lra.
    - unfold cap, Rdiv. induction states as [|q l IH]; [unfold sumL; cbn; lra|]. rewrite !sumL_cons. inversion Hpos; subst. rewrite IH, sumL_const by auto. ring.
  Qed.
  Lemma M_lip mu : List.Forall (fun q => Rabs (ks_spin q) <= 1) states -> lipschitz (cap / width) (fun Bz => Mof ty width states mu Bz).
  Proof.
    intros Hs. replace (cap / width) with (sumL (fun q => sumL (fun _ => ks_weight q * / width) (ks_eps q)) states).
    - unfold Mof. apply (lip_sum (fun Bz q => sumL (fun e => ks_spin q * (ks_weight q * smear ty width (muEff mu Bz q) e)) (ks_eps q))). intros q Hq.
      apply (lip_sum (fun Bz e => ks_spin q * (ks_weight q * smear ty width (muEff mu Bz q) e))). intros e _ a b.
      rewrite <- !Rmult_minus_distr_l, !Rabs_mult. rewrite Forall_forall in Hpos, Hs. rewrite (Rabs_pos_eq (ks_weight q)) by (apply Hpos; auto).
      specialize (Hs q Hq). specialize (Hpos q Hq). assert (S0 := Rabs_pos (ks_spin q)).
      assert (K := smear_lipschitz ty width (muEff mu a q) (muEff mu b q) e Hw). unfold muEff in *.
      replace (mu + a * ks_spin q - (mu + b * ks_spin q)) with ((a - b) * ks_spin q) in K by ring. rewrite Rabs_mult in K.
      set (d := Rabs (smear _ _ _ _ - _)) in *. assert (D0 : 0 <= d) by apply Rabs_pos. assert (AB := Rabs_pos (a - b)). assert (I : 0 < / width) by (apply Rinv_0_lt_compat; auto).
      clearbody d. set (s := Rabs (ks_spin q)) in *. set (x := Rabs (a - b)) in *. clearbody s x. set (i := / width) in *. clearbody i. set (w := ks_weight q) in *. clearbody w.
      assert (d <= i * x). { eapply Rle_trans; [apply K|]. apply Rmult_le_compat_l; [lra|]. nra. }
      assert (w * d <= w * (i * x)) by (apply Rmult_le_compat_l; auto). assert (0 <= w * d) by (apply Rmult_le_pos; auto). nra.
    - unfold cap, Rdiv. clear Hs. induction states as [|q l IH]; [unfold sumL; cbn; lra|]. rewrite !sumL_cons. inversion Hpos; subst. rewrite IH, sumL_const by auto. ring.
  Qed.
  Lemma N_tends Bz : tends (1) (fun mu => Nof ty width states mu Bz) cap /\ tends (-1) (fun mu => Nof ty width states mu Bz) 0.
  Proof.
    split.
    - replace cap with (sumL (fun q => sumL (fun _ => ks_weight q * 1) (ks_eps q)) states).
      + unfold Nof. apply (tends_sum 1 (fun mu q => sumL (fun e => ks_weight q * smear ty width (muEff mu Bz q) e) (ks_eps q))). intros q _.
        apply (tends_sum 1 (fun mu e => ks_weight q * smear ty width (muEff mu Bz q) e)). intros e _. apply tends_scal. unfold muEff.
        apply (tends_ext _ (fun t => smear ty width (Bz * ks_spin q + t * 1) e)). { intros; f_equal; ring. } apply tends_smear; auto.
      + apply sumL_ext. intros q _. rewrite sumL_const. ring.
    - replace 0 with (sumL (fun q => sumL (fun _ => ks_weight q * 0) (ks_eps q)) states).
      + unfold Nof. apply (tends_sum (-1) (fun mu q => sumL (fun e => ks_weight q * smear ty width (muEff mu Bz q) e) (ks_eps q))). intros q _.
        apply (tends_sum (-1) (fun mu e => ks_weight q * smear ty width (muEff mu Bz q) e)). intros e _. apply tends_scal. unfold muEff.
        apply (tends_ext _ (fun t => smear ty width (Bz * ks_spin q + t * 1) e)). { intros; f_equal; ring. } apply (tends_smear ty width (Bz * ks_spin q) 1 e); auto.
      + rewrite (sumL_ext _ (fun _ => 0)); [rewrite sumL_const; ring|]. intros q _. rewrite sumL_const. ring.
  Qed.
  (** capacities of the two spin channels *)
  Definition capSpin (s : R) : R := sumL (fun q => if Req_EM_T (ks_spin q) s then ks_weight q * INR (length (ks_eps q)) else 0) states.
  Lemma M_tends mu : List.Forall (fun q => ks_spin q = 1 \/ ks_spin q = -1 \/ ks_spin q = 0) states ->
    tends 1 (fun Bz => Mof ty width states mu Bz) (capSpin 1) /\ tends (-1) (fun Bz => Mof ty width states mu Bz) (- capSpin (-1)).
  Proof.
    intros Hs. rewrite Forall_forall in Hs. split.
    - unfold capSpin, Mof. apply (tends_sum 1 (fun Bz q => sumL (fun e => ks_spin q * (ks_weight q * smear ty width (muEff mu Bz q) e)) (ks_eps q))). intros q Hq.
      destruct (Hs q Hq) as [S|[S|S]]; rewrite S; destruct (Req_EM_T _ _) as [Z|Z]; try lra.
      + replace (ks_weight q * INR (length (ks_eps q))) with (sumL (fun _ => 1 * (ks_weight q * 1)) (ks_eps q)) by (rewrite sumL_const; ring).
        apply (tends_sum 1 (fun Bz e => 1 * (ks_weight q * smear ty width (muEff mu Bz q) e))). intros e _. unfold muEff. rewrite S. do 2 apply tends_scal.
        apply tends_smear; auto.
      + replace 0 with (sumL (fun _ => -1 * (ks_weight q * 0)) (ks_eps q)) by (rewrite sumL_const; ring).
        apply (tends_sum 1 (fun Bz e => -1 * (ks_weight q * smear ty width (muEff mu Bz q) e))). intros e _. unfold muEff. rewrite S. do 2 apply tends_scal.
        replace 1 with (- -1) by ring. apply tends_smear; auto.
      + apply (tends_ext _ (fun _ => 0)); [|apply tends_const]. intros Bz. rewrite (sumL_ext _ (fun _ => 0)); [rewrite sumL_const; ring|]. intros; ring.
    - replace (- capSpin (-1)) with (sumL (fun q => if Req_EM_T (ks_spin q) (-1) then - (ks_weight q * INR (length (ks_eps q))) else 0) states).
      + unfold Mof. apply (tends_sum (-1) (fun Bz q => sumL (fun e => ks_spin q * (ks_weight q * smear ty width (muEff mu Bz q) e)) (ks_eps q))). intros q Hq.
        destruct (Hs q Hq) as [S|[S|S]]; rewrite S; destruct (Req_EM_T _ _) as [Z|Z]; try lra.
        * replace 0 with (sumL (fun _ => 1 * (ks_weight q * 0)) (ks_eps q)) by (rewrite sumL_const; ring).
          apply (tends_sum (-1) (fun Bz e => 1 * (ks_weight q * smear ty width (muEff mu Bz q) e))). intros e _. unfold muEff. rewrite S. do 2 apply tends_scal.
          apply (tends_smear ty width mu 1 e); auto.
        * replace (- (ks_weight q * INR (length (ks_eps q)))) with (sumL (fun _ => -1 * (ks_weight q * 1)) (ks_eps q)) by (rewrite sumL_const; ring).
          apply (tends_sum (-1) (fun Bz e => -1 * (ks_weight q * smear ty width (muEff mu Bz q) e))). intros e _. unfold muEff. rewrite S. do 2 apply tends_scal.
          apply tends_smear; auto.
        * apply (tends_ext _ (fun _ => 0)); [|apply tends_const]. intros Bz. rewrite (sumL_ext _ (fun _ => 0)); [rewrite sumL_const; ring|]. intros; ring.
      + unfold capSpin. clear Hpos Hs. induction states as [|q l IH]; [unfold sumL; cbn; lra|]. rewrite !sumL_cons. rewrite IH. destruct (Req_EM_T _ _); ring.
  Qed.
End States.

Lemma valueTol_pos t : 0 < valueTol t.
Proof. unfold valueTol. eapply Rlt_le_trans; [|apply Rmax_l]. lra. Qed.
Lemma tends_search F width target lo0 hi0 a b : 0 < width -> lo0 < hi0 -> tends 1 F b -> tends (-1) F a -> a <= target <= b ->
  exists fuel r, search width (fun x => Some (F x)) fuel target lo0 hi0 = Some r.
Proof.
  intros Hw Hl Tb Ta Hab. assert (T := valueTol_pos target). destruct (Tb _ T) as (X&HX&A). destruct (Ta _ T) as (Y&HY&B).
  apply (search_term _ F (fun _ => eq_refl) width target lo0 hi0 (Rmax X Y)); auto; assert (M1 := Rmax_l X Y); assert (M2 := Rmax_r X Y); intros x Hx.
  - specialize (B x ltac:(lra)). apply Rabs_def2 in B. lra.
  - specialize (A x ltac:(lra)). apply Rabs_def2 in A. lra.
Qed.

Lemma findMu_fixedB_term ty width states B Minitial n : 0 < width -> List.Forall (fun q => 0 <= ks_weight q) states -> 0 <= n <= cap states ->
  exists fuel mu, findMu ty width states (Some B) Minitial fuel n = Some mu.
Proof.
  intros Hw Hp Hn. destruct (N_tends ty width states Hw B) as (T1&T2).
  destruct (tends_search _ width n (-1/10) 0 _ _ Hw ltac:(lra) T1 T2 Hn) as (fuel&r&E). exists fuel, r. exact E.
Qed.
Lemma nElectronsCalc_mono ty width states Bz Minitial fuel fuel' mu v : (fuel <= fuel')%nat ->
  nElectronsCalc ty width states Bz Minitial fuel mu = Some v -> nElectronsCalc ty width states Bz Minitial fuel' mu = Some v.
Proof.
  intros Hf. unfold nElectronsCalc. destruct Bz; auto. destruct (search _ _ fuel _ _ _) as [B|] eqn:E; [|discriminate].
  rewrite (search_mono _ _ (fun _ _ H => H) _ _ _ _ _ fuel' _ Hf E). auto.
Qed.
Lemma findMu_mono ty width states Bz Minitial fuel fuel' n mu : (fuel <= fuel')%nat ->
  findMu ty width states Bz Minitial fuel n = Some mu -> findMu ty width states Bz Minitial fuel' n = Some mu.
Proof.
  intros Hf H. unfold findMu in *. refine (search_mono _ _ _ _ _ _ _ _ _ _ Hf H).
  intros x v. destruct (nElectronsCalc ty width states Bz Minitial fuel x) as [p|] eqn:E; [|discriminate].
  rewrite (nElectronsCalc_mono _ _ _ _ _ _ _ _ _ Hf E). auto.
Qed.
Lemma findMu_fixedB_res ty width states B Minitial n fuel mu : findMu ty width states (Some B) Minitial fuel n = Some mu ->
  bracketed (fun m => Nof ty width states m B) width n (-1/10) 0 mu.
Proof. intros H. unfold findMu in H. eapply search_res; [|exact H|]; [lra|]. intros x v Hv. cbn in Hv. congruence. Qed.
Lemma fixedM_inner ty width states Minitial mu : 0 < width -> List.Forall (fun q => 0 <= ks_weight q) states ->
  List.Forall (fun q => ks_spin q = 1 \/ ks_spin q = -1 \/ ks_spin q = 0) states -> - capSpin states (-1) <= Minitial <= capSpin states 1 ->
  exists fuel N B, nElectronsCalc ty width states None Minitial fuel mu = Some (N, B) /\ N = Nof ty width states mu B /\
    bracketed (Mof ty width states mu) width Minitial (-1/10) (1/10) B.
Proof.
  intros Hw Hp Hs Hm. destruct (M_tends ty width states Hw mu Hs) as (T1&T2).
  destruct (tends_search _ width Minitial (-1/10) (1/10) _ _ Hw ltac:(lra) T1 T2 Hm) as (fuel&B&E).
  exists fuel, (Nof ty width states mu B), B. unfold nElectronsCalc. rewrite E. split; auto. split; auto.
  eapply search_res; [|exact E|]; [lra|]. intros x v Hv. congruence.
Qed.
Lemma fixedM_res ty width states Minitial n fuel mu : findMu ty width states None Minitial fuel n = Some mu ->
  exists lo hi lo1 hi1 Blo Bhi,
    lo1 <= lo /\ lo <= hi /\ hi <= hi1 /\ mu = (lo + hi)/2 /\
    hi - lo < Rmax (1/10^10 * width) (1/10^14 * Rmax (Rabs lo1) (Rabs hi1)) /\
    bracketed (Mof ty width states lo) width Minitial (-1/10) (1/10) Blo /\
    bracketed (Mof ty width states hi) width Minitial (-1/10) (1/10) Bhi /\
    Nof ty width states lo Blo < n + valueTol n /\ n - valueTol n < Nof ty width states hi Bhi.
Proof.
  intros H. unfold findMu in H.
  set (F := fun m => match nElectronsCalc ty width states None Minitial fuel m with Some p => fst p | None => 0 end).
  unfold search in H. change (Rmax absTol (relTol * Rabs n)) with (valueTol n) in H. set (calc := fun m => option_map fst (nElectronsCalc ty width states None Minitial fuel m)) in H.
  destruct (lowerBracket calc fuel n (valueTol n) (-1/10) 0) as [lo|] eqn:E1; [|discriminate].
  destruct (upperBracket calc fuel n (valueTol n) lo 0) as [hi|] eqn:E2; [|discriminate].
  apply lowerBracket_res in E1; [|lra]. destruct E1 as (A1&(v1&A2&A3)&A4).
  apply upperBracket_res in E2; auto. destruct E2 as (B1&(v2&B2&B3)&B4). assert (T := valueTol_pos n).
  assert (K : forall x v, calc x = Some v -> exists B, v = Nof ty width states x B /\ bracketed (Mof ty width states x) width Minitial (-1/10) (1/10) B).
  { intros x v. unfold calc, nElectronsCalc. destruct (search _ _ fuel Minitial _ _) as [B|] eqn:E; [|discriminate]. cbn. intros Q; inversion Q; subst v. exists B. split; auto.
    eapply search_res; [|exact E|]; [lra|]. intros y v Hv. congruence. }
  apply (bisect_res calc fuel n _ 
    (fun x => exists B, bracketed (Mof ty width states x) width Minitial (-1/10) (1/10) B /\ Nof ty width states x B < n + valueTol n)
    (fun x => exists B, bracketed (Mof ty width states x) width Minitial (-1/10) (1/10) B /\ n - valueTol n < Nof ty width states x B)) in H.
  - destruct H as (a&b&H1&H2&H3&H4&(Ba&H5&H5')&(Bb&H6&H6')&H7). exists a, b, lo, hi, Ba, Bb. split; [auto|]. split; [lra|]. split; [auto|]. split; [auto|].
    split; [exact H7|]. auto.
  - intros x v Hv L. destruct (K _ _ Hv) as (B&Q1&Q2). exists B. split; auto. lra.
  - intros x v Hv L. destruct (K _ _ Hv) as (B&Q1&Q2). exists B. split; auto. lra.
  - auto.
  - destruct (K _ _ A2) as (B&Q1&Q2). exists B. split; auto. lra.
  - destruct (K _ _ B2) as (B&Q1&Q2). exists B. split; auto. lra.
Qed.
(** unpolarized: the field has no effect *)
Lemma spinless_N ty width states mu B B' : List.Forall (fun q => ks_spin q = 0) states -> Nof ty width states mu B = Nof ty width states mu B'.
Proof.
  intros H. rewrite Forall_forall in H. unfold Nof. apply sumL_ext. intros q Hq. apply sumL_ext. intros e _. unfold muEff. rewrite (H q Hq). do 2 f_equal. ring.
Qed.
Lemma spinless_M ty width states mu B : List.Forall (fun q => ks_spin q = 0) states -> Mof ty width states mu B = 0.
Proof.
  intros H. rewrite Forall_forall in H. unfold Mof. rewrite (sumL_ext _ (fun _ => 0)); [rewrite sumL_const; ring|]. intros q Hq.
  rewrite (sumL_ext _ (fun _ => 0)); [rewrite sumL_const; ring|]. intros e _. rewrite (H q Hq). ring.
Qed.
Lemma findMu_spinless ty width states n : 0 < width -> List.Forall (fun q => 0 <= ks_weight q) states -> List.Forall (fun q => ks_spin q = 0) states -> 0 <= n <= cap states ->
  exists fuel mu, findMu ty width states None 0 fuel n = Some mu /\ bracketed (fun m => Nof ty width states m 0) width n (-1/10) 0 mu.
Proof.
  intros Hw Hp Hs Hn.
  destruct (tends_search (fun _ => 0) width 0 (-1/10) (1/10) 0 0 Hw ltac:(lra) (tends_const _ _) (tends_const _ _) ltac:(lra)) as (f1&B0&E1).
  destruct (N_tends ty width states Hw 0) as (T1&T2).
  destruct (tends_search _ width n (-1/10) 0 _ _ Hw ltac:(lra) T1 T2 Hn) as (f2&r&E2).
  exists (f1 + f2)%nat, r. split.
  - unfold findMu. refine (search_mono _ _ _ _ _ _ _ f2 _ _ _ E2); [|lia]. intros x v Hv. unfold nElectronsCalc.
    rewrite (search_mono (fun _ => Some 0) (fun B => Some (Mof ty width states x B)) ltac:(intros y u Hu; cbn beta; rewrite (spinless_M ty width states x y Hs); exact Hu) _ _ _ _ f1 (f1 + f2) B0 ltac:(lia) E1).
    cbn. rewrite (spinless_N _ _ _ _ B0 0) by auto. auto.
  - eapply search_res; [|exact E2|]; [lra|]. intros y v Hv. congruence.
Qed.
(** no result when the bands cannot hold the electrons *)
Lemma N_below ty width states mu B : ty = SmearingFermi \/ ty = SmearingGauss -> List.Forall (fun q => 0 <= ks_weight q) states -> Nof ty width states mu B <= cap states.
Proof.
  intros Ht Hp. unfold Nof, cap. induction states as [|q l IH]; [unfold sumL; cbn; lra|]. rewrite !sumL_cons. inversion Hp; subst. apply Rplus_le_compat; auto.
  rewrite <- sumL_const. generalize (ks_eps q). intros es. induction es as [|e es IHe]; [unfold sumL; cbn; lra|]. rewrite !sumL_cons.
  assert (R := sm_range ty (xof width (muEff mu B q) e) Ht). rewrite <- smear_sm in R. nra.
Qed.
Lemma overfull ty width states B Minitial n fuel : ty = SmearingFermi \/ ty = SmearingGauss -> List.Forall (fun q => 0 <= ks_weight q) states ->
  cap states + valueTol n <= n -> findMu ty width states (Some B) Minitial fuel n = None.
Proof.
  intros Ht Hp Hn. unfold findMu, search. change (Rmax absTol (relTol * Rabs n)) with (valueTol n). destruct (lowerBracket _ _ _ _ _ _) as [lo|]; auto.
  match goal with |- match ?u with _ => _ end = None => replace u with (@None R); auto end. symmetry.
  unfold nElectronsCalc. generalize 0. induction fuel as [|fuel IH]; intros hi; auto. cbn [upperBracket option_map fst].
  assert (K := N_below ty width states hi B Ht Hp). destruct (Rle_dec _ _) as [L|L]; [apply IH|lra].
Qed.
