(** Proofs for C39: the spline is piecewise polynomial with matching derivatives. *)
From Coq Require Import ZArith Reals List Bool Lia Lra.
From Coquelicot Require Import Coquelicot.
From Verif Require Import Base Lattice_Model KPoints_Model RealUtil Spline_Model Spline_Spec.
Import ListNotations.
Open Scope R_scope.

Definition cf (coeff : list R) (i : Z) : R := nth (Z.to_nat i) coeff 0.

Lemma rd_in coeff i : (0 <= i < Z.of_nat (List.length coeff))%Z -> rd coeff i = Some (cf coeff i).
Proof.
  intros H. unfold rd, cf. destruct (i <? 0)%Z eqn:E; [apply Z.ltb_lt in E; lia|].
  apply nth_error_nth'. lia.
Qed.
Lemma rd_out coeff i : (i < 0 \/ Z.of_nat (List.length coeff) <= i)%Z -> rd coeff i = None.
Proof.
  intros H. unfold rd. destruct (i <? 0)%Z eqn:E; [reflexivity|]. apply Z.ltb_ge in E. apply nth_error_None. lia.
Qed.

Definition six (coeff : list R) (j : Z) : list R := [cf coeff j; cf coeff (j+1); cf coeff (j+2); cf coeff (j+3); cf coeff (j+4); cf coeff (j+5)].
Lemma load6 coeff j : (0 <= j)%Z -> (j + 5 < Z.of_nat (List.length coeff))%Z -> load 6 coeff j = Some (six coeff j).
Proof.
  intros H0 H. cbn [load]. unfold six.
  replace (j + 1 + 1)%Z with (j+2)%Z by lia. replace (j + 2 + 1)%Z with (j+3)%Z by lia.
  replace (j + 3 + 1)%Z with (j+4)%Z by lia. replace (j + 4 + 1)%Z with (j+5)%Z by lia.
  rewrite !rd_in by lia. reflexivity.
Qed.
Lemma load6_some coeff j c : load 6 coeff j = Some c -> (0 <= j)%Z /\ (j + 5 < Z.of_nat (List.length coeff))%Z.
Proof.
  intros H. cbn [load] in H.
  destruct (Z_lt_le_dec j 0); [rewrite rd_out in H by lia; discriminate|].
  replace (j + 1 + 1 + 1 + 1 + 1)%Z with (j+5)%Z in H by lia.
  destruct (Z_lt_le_dec (j+5) (Z.of_nat (List.length coeff))); [lia|].
  rewrite (rd_out coeff (j+5)) in H by lia.
  destruct (rd coeff j), (rd coeff (j+1)), (rd coeff (j+1+1)), (rd coeff (j+1+1+1)), (rd coeff (j+1+1+1+1)); discriminate.
Qed.

(** power coefficients of the piece starting at j, and the pieces of the k-th derivative *)
Definition pw (c : list R) : list R :=
  match c with
  | [c0; c1; c2; c3; c4; c5] =>
    [ (c0 + 26*c1 + 66*c2 + 26*c3 + c4) / 66;
      5 * (- c0 - 10*c1 + 10*c3 + c4) / 66;
      10 * (c0 + 2*c1 - 6*c2 + 2*c3 + c4) / 66;
      10 * (- c0 + 2*c1 - 2*c3 + c4) / 66;
      5 * (c0 - 4*c1 + 6*c2 - 4*c3 + c4) / 66;
      (- c0 + 5*c1 - 10*c2 + 10*c3 - 5*c4 + c5) / 66 ]
  | _ => []
  end.
Definition P (k : nat) (a : list R) (t : R) : R :=
  match a with
  | [a0; a1; a2; a3; a4; a5] =>
    match k with
    | 0%nat => a0 + t*(a1 + t*(a2 + t*(a3 + t*(a4 + t*a5))))
    | 1%nat => a1 + t*(2*a2 + t*(3*a3 + t*(4*a4 + t*(5*a5))))
    | 2%nat => 2*a2 + t*(6*a3 + t*(12*a4 + t*(20*a5)))
    | 3%nat => 6*a3 + t*(24*a4 + t*(60*a5))
    | 4%nat => 24*a4 + t*(120*a5)
    | _ => 120*a5
    end
  | _ => 0
  end.
Definition piece (coeff : list R) (k : nat) (j : Z) (x : R) : R := P k (pw (six coeff j)) (x - IZR j).
Definition F (coeff : list R) (k : nat) (x : R) : R := piece coeff k (rtrunc x) x.

Lemma rtrunc_pos x : 0 <= x -> rtrunc x = rfloor x.
Proof. intros H. unfold rtrunc. destruct (Rle_dec 0 x); [reflexivity|lra]. Qed.
Lemma rtrunc_unique x n : (0 <= n)%Z -> IZR n <= x < IZR n + 1 -> rtrunc x = n.
Proof. intros Hn H. apply IZR_le in Hn. rewrite rtrunc_pos by lra. apply rfloor_unique; auto. Qed.
Lemma rtrunc_dom L x : 0 <= x < IZR (L - 5) -> (0 <= rtrunc x)%Z /\ (rtrunc x + 5 < L)%Z.
Proof.
  intros H. rewrite rtrunc_pos by lra. split; [apply rfloor_ge; lra|].
  assert (rfloor x < L - 5)%Z by (apply rfloor_lt; lra). lia.
Qed.

Notation len l := (Z.of_nat (List.length l)).
Lemma value_F coeff x : 0 <= x < IZR (len coeff - 5) -> value coeff x = Some (F coeff 0 x).
Proof.
  intros H. destruct (rtrunc_dom _ _ H). unfold value, getBernsteinCoeffs. rewrite load6 by lia.
  f_equal. unfold F, piece, six, bernstein, pw, P. cbn [lower hd]. field.
Qed.
Lemma deriv_F coeff x : 0 <= x < IZR (len coeff - 5) -> deriv coeff x = Some (F coeff 1 x).
Proof.
  intros H. destruct (rtrunc_dom _ _ H). unfold deriv, getBernsteinCoeffs. rewrite load6 by lia.
  f_equal. unfold F, piece, six, bernstein, pw, P. cbn [lower diffs hd]. field.
Qed.
Lemma value_dom coeff x v : value coeff x = Some v -> (0 <= rtrunc x)%Z /\ (rtrunc x + 5 < len coeff)%Z.
Proof.
  intros H. unfold value, getBernsteinCoeffs in H. destruct (load 6 coeff (rtrunc x)) eqn:E; [|discriminate].
  apply load6_some in E. exact E.
Qed.

(** ** derivative of a piece *)
Lemma P_derive k a t : (k <= 4)%nat -> is_derive (P k a) t (P (S k) a t).
Proof.
  intros Hk.
  destruct a as [|a0 [|a1 [|a2 [|a3 [|a4 [|a5 [|? ?]]]]]]]; try (cbn [P]; apply is_derive_ext with (f := fun _ => 0); [reflexivity|]; apply @is_derive_const).
  destruct k as [|[|[|[|[|k]]]]]; [..|lia]; unfold P; auto_derive; auto; ring.
Qed.
Lemma piece_derive coeff k j x : (k <= 4)%nat -> is_derive (piece coeff k j) x (piece coeff (S k) j x).
Proof.
  intros Hk. unfold piece.
  pose proof (P_derive k (pw (six coeff j)) (x - IZR j) Hk) as D.
  replace (P (S k) (pw (six coeff j)) (x - IZR j)) with (1 * P (S k) (pw (six coeff j)) (x - IZR j)) by ring.
  apply (is_derive_comp (P k (pw (six coeff j))) (fun x => x - IZR j)); [exact D|].
  auto_derive; auto; ring.
Qed.
Lemma piece_match coeff k j : (k <= 4)%nat -> piece coeff k j (IZR (j+1)) = piece coeff k (j+1) (IZR (j+1)).
Proof.
  intros Hk. unfold piece. rewrite plus_IZR.
  replace (IZR j + 1 - IZR j) with 1 by ring. replace (IZR j + 1 - (IZR j + 1)) with 0 by ring.
  unfold six. replace (j + 1 + 1)%Z with (j+2)%Z by lia. replace (j + 1 + 2)%Z with (j+3)%Z by lia.
  replace (j + 1 + 3)%Z with (j+4)%Z by lia. replace (j + 1 + 4)%Z with (j+5)%Z by lia. replace (j + 1 + 5)%Z with (j+6)%Z by lia.
  destruct k as [|[|[|[|[|k]]]]]; [..|lia]; cbn [pw P]; field.
Qed.

(** ** gluing at a point *)
Lemma glue_derive (f p q : R -> R) (x0 d del : R) : 0 < del ->
  (forall x, x0 - del < x < x0 -> f x = p x) -> (forall x, x0 <= x < x0 + del -> f x = q x) -> p x0 = q x0 ->
  is_derive p x0 d -> is_derive q x0 d -> is_derive f x0 d.
Proof.
  intros Hd HL HR E Dp Dq. apply is_derive_Reals in Dp, Dq. apply is_derive_Reals.
  intros eps He. destruct (Dp eps He) as [d1 H1]. destruct (Dq eps He) as [d2 H2].
  assert (Hm : 0 < Rmin del (Rmin d1 d2)).
  { apply Rmin_glb_lt; auto. apply Rmin_glb_lt; [apply cond_pos|apply cond_pos]. }
  exists (mkposreal _ Hm). intros h Hh Hlt. cbn in Hlt.
  assert (A1 := Rmin_l del (Rmin d1 d2)). assert (A2 := Rmin_r del (Rmin d1 d2)).
  assert (A3 := Rmin_l d1 d2). assert (A4 := Rmin_r d1 d2).
  assert (f x0 = q x0) as E0 by (apply HR; lra).
  unfold Rabs in Hlt. destruct (Rcase_abs h).
  - rewrite (HL (x0 + h)) by lra. rewrite E0, <- E. apply H1; auto. unfold Rabs. destruct (Rcase_abs h); lra.
  - rewrite (HR (x0 + h)) by lra. rewrite E0. apply H2; auto. unfold Rabs. destruct (Rcase_abs h); lra.
Qed.
Lemma glue_cont (f p q : R -> R) (x0 del : R) : 0 < del ->
  (forall x, x0 - del < x < x0 -> f x = p x) -> (forall x, x0 <= x < x0 + del -> f x = q x) -> p x0 = q x0 ->
  continuous p x0 -> continuous q x0 -> continuous f x0.
Proof.
  intros Hd HL HR E Cp Cq. apply filterlim_locally. intros eps.
  destruct (proj1 (filterlim_locally _ _) Cp eps) as [d1 H1]. destruct (proj1 (filterlim_locally _ _) Cq eps) as [d2 H2].
  assert (Hm : 0 < Rmin del (Rmin d1 d2)).
  { apply Rmin_glb_lt; auto. apply Rmin_glb_lt; [apply cond_pos|apply cond_pos]. }
  exists (mkposreal _ Hm). intros y Hy.
  assert (A1 := Rmin_l del (Rmin d1 d2)). assert (A2 := Rmin_r del (Rmin d1 d2)).
  assert (A3 := Rmin_l d1 d2). assert (A4 := Rmin_r d1 d2).
  assert (f x0 = q x0) as E0 by (apply HR; lra).
  assert (B : Rabs (y - x0) < Rmin del (Rmin d1 d2)) by exact Hy.
  destruct (Rlt_dec y x0).
  - rewrite (HL y) by (unfold Rabs in B; destruct (Rcase_abs (y-x0)); lra). rewrite E0, <- E. apply H1.
    change (Rabs (y - x0) < d1). lra.
  - rewrite (HR y) by (unfold Rabs in B; destruct (Rcase_abs (y-x0)); lra). rewrite E0. apply H2.
    change (Rabs (y - x0) < d2). lra.
Qed.

(** neighbourhood of a point: the pieces to its left and right *)
Lemma F_local coeff k x : (k <= 4)%nat -> 0 < x -> exists del jl jr, 0 < del /\ jr = rtrunc x /\
  (forall y, x - del < y < x -> F coeff k y = piece coeff k jl y) /\ (forall y, x <= y < x + del -> F coeff k y = piece coeff k jr y) /\
  (forall m, (m <= 4)%nat -> piece coeff m jl x = piece coeff m jr x).
Proof.
  intros Hk Hx. pose proof (rfloor_bounds x) as B. assert (R0 : (0 <= rfloor x)%Z) by (apply rfloor_ge; lra).
  rewrite rtrunc_pos by lra.
  destruct (Req_dec x (IZR (rfloor x))) as [E|E].
  - exists 1, (rfloor x - 1)%Z, (rfloor x).
    assert (R1 : (1 <= rfloor x)%Z). { assert (0 < rfloor x)%Z; [apply lt_IZR; lra|lia]. }
    refine (conj _ (conj _ (conj _ (conj _ _)))); [lra|reflexivity| | |].
    + intros y Hy. unfold F. f_equal. apply rtrunc_unique; [lia|]. rewrite minus_IZR. lra.
    + intros y Hy. unfold F. f_equal. apply rtrunc_unique; [lia|]. lra.
    + intros m Hm. pose proof (piece_match coeff m (rfloor x - 1) Hm) as M.
      replace (rfloor x - 1 + 1)%Z with (rfloor x) in M by lia. rewrite <- E in M. exact M.
  - exists (Rmin (x - IZR (rfloor x)) (IZR (rfloor x) + 1 - x)), (rfloor x), (rfloor x).
    assert (A1 := Rmin_l (x - IZR (rfloor x)) (IZR (rfloor x) + 1 - x)). assert (A2 := Rmin_r (x - IZR (rfloor x)) (IZR (rfloor x) + 1 - x)).
    refine (conj _ (conj _ (conj _ (conj _ _)))); [apply Rmin_glb_lt; lra|reflexivity| | |reflexivity].
    + intros y Hy. unfold F. f_equal. apply rtrunc_unique; [lia|]. lra.
    + intros y Hy. unfold F. f_equal. apply rtrunc_unique; [lia|]. lra.
Qed.
Lemma F_derive coeff k x : (k <= 3)%nat -> 0 < x -> is_derive (F coeff k) x (F coeff (S k) x).
Proof.
  intros Hk Hx. destruct (F_local coeff k x) as (del & jl & jr & Hd & Ej & HL & HR & HM); [lia|auto|].
  eapply glue_derive; [exact Hd|exact HL|exact HR|apply HM; lia| |].
  - replace (F coeff (S k) x) with (piece coeff (S k) jl x).
    + apply piece_derive; lia.
    + rewrite HM by lia. unfold F. rewrite Ej. reflexivity.
  - unfold F at 1. rewrite <- Ej. apply piece_derive; lia.
Qed.
Lemma F_cont coeff k x : (k <= 4)%nat -> 0 < x -> continuous (F coeff k) x.
Proof.
  intros Hk Hx. destruct (F_local coeff k x Hk Hx) as (del & jl & jr & Hd & Ej & HL & HR & HM).
  eapply glue_cont; [exact Hd|exact HL|exact HR|apply HM; lia| |].
  - apply @ex_derive_continuous. eexists. apply piece_derive; lia.
  - apply @ex_derive_continuous. eexists. apply piece_derive; lia.
Qed.

Lemma near a b x : a < x < b -> locally x (fun y => a < y < b).
Proof.
  intros H. assert (Hm : 0 < Rmin (x - a) (b - x)) by (apply Rmin_glb_lt; lra).
  exists (mkposreal _ Hm). intros y Hy. assert (B : Rabs (y - x) < Rmin (x - a) (b - x)) by exact Hy.
  assert (A1 := Rmin_l (x - a) (b - x)). assert (A2 := Rmin_r (x - a) (b - x)).
  unfold Rabs in B. destruct (Rcase_abs (y - x)); lra.
Qed.
Lemma Derive_n_F coeff k : (k <= 4)%nat -> forall x, 0 < x < IZR (len coeff - 5) -> Derive_n (total (value coeff)) k x = F coeff k x.
Proof.
  induction k as [|k IH]; intros Hk x Hx.
  - cbn. unfold total. rewrite value_F by lra. reflexivity.
  - cbn [Derive_n]. rewrite (Derive_ext_loc _ (F coeff k)).
    + apply is_derive_unique, F_derive; [lia|lra].
    + apply (filter_imp (fun y => 0 < y < IZR (len coeff - 5))); [|apply near; auto]. intros y Hy. apply IH; [lia|auto].
Qed.
Lemma spline_smooth coeff : smooth_on 4 (total (value coeff)) 0 (IZR (len coeff - 5)).
Proof.
  intros k x Hk Hx. split.
  - destruct k as [|k]; [exact I|]. cbn [ex_derive_n].
    apply (ex_derive_ext_loc (F coeff k)).
    + apply (filter_imp (fun y => 0 < y < IZR (len coeff - 5))); [|apply near; auto]. intros y Hy. symmetry. apply Derive_n_F; [lia|auto].
    + eexists. apply F_derive; [lia|lra].
  - apply (continuous_ext_loc _ (F coeff k)).
    + apply (filter_imp (fun y => 0 < y < IZR (len coeff - 5))); [|apply near; auto]. intros y Hy. symmetry. apply Derive_n_F; [lia|auto].
    + apply F_cont; [lia|lra].
Qed.
Lemma spline_deriv coeff x : 0 < x < IZR (len coeff - 5) -> exists v d,
  value coeff x = Some v /\ deriv coeff x = Some d /\ is_derive (total (value coeff)) x d.
Proof.
  intros H. exists (F coeff 0 x), (F coeff 1 x). rewrite value_F, deriv_F by lra. refine (conj eq_refl (conj eq_refl _)).
  apply (is_derive_ext_loc (F coeff 0)).
  - apply (filter_imp (fun y => 0 < y < IZR (len coeff - 5))); [|apply near; auto]. intros y Hy. unfold total. rewrite value_F by lra. reflexivity.
  - apply F_derive; [lia|lra].
Qed.

(** ** tables outside their range *)
Lemma radial_ok coeff dGinv G : (5 <= len coeff)%Z -> 0 <= dGinv -> 0 <= G ->
  exists v d, radialValue coeff dGinv G = Some v /\ radialDeriv coeff dGinv G = Some d.
Proof.
  intros HL H1 H2. unfold radialValue, radialDeriv. destruct (Rle_dec _ _); [eauto|].
  assert (0 <= G * dGinv) by (apply Rmult_le_pos; auto).
  rewrite value_F, deriv_F by lra. eauto.
Qed.
Lemma screened_bad : exists coeff n t, (len coeff = n + 4)%Z /\ 0 <= t < IZR n /\ screenedValue coeff n t = None.
Proof.
  exists (repeat 0 7), 3%Z, 2.5. split; [reflexivity|]. split; [lra|].
  unfold screenedValue. destruct (Rle_dec 3 2.5); [lra|].
  unfold value, getBernsteinCoeffs. rewrite (rtrunc_unique 2.5 2) by (try lia; lra).
  reflexivity.
Qed.
