(** Proofs for C40: the boundary rows and the interpolation property. *)
From Coq Require Import ZArith Reals List Bool Lia Lra.
From Coquelicot Require Import Coquelicot.
From Verif Require Import Base Lattice_Model KPoints_Model RealUtil Spline_Model Spline_Spec Spline_Proofs Spline_Proofs2.
Import ListNotations.
Open Scope R_scope.

(** the coefficients extended at both ends *)
Definition ext (odd : bool) (N : Z) (x : Z -> R) (i : Z) : R :=
  if (i =? -1)%Z then sgn odd * x 1%Z else if (i =? -2)%Z then sgn odd * x 2%Z
  else if (i =? N)%Z then 1 * x (N-3)%Z + -3 * x (N-2)%Z + 3 * x (N-1)%Z
  else if (i =? N+1)%Z then 3 * x (N-3)%Z + -8 * x (N-2)%Z + 6 * x (N-1)%Z else x i.

Definition dl (m i m' i' : Z) (v : R) : R := if ((m' =? m) && (i' =? i))%Z%bool then v else 0.
Lemma addb_band s m i v m' i' : band (addb s m i v) m' i' = band s m' i' + dl m i m' i' v.
Proof. unfold addb, setb, dl. cbn [band]. beq; subst; ring. Qed.
Lemma addb_rhs s m i v : rhs (addb s m i v) = rhs s.
Proof. reflexivity. Qed.
Lemma idx_ext (x : Z -> R) a b : a = b -> x a = x b.
Proof. congruence. Qed.
Ltac canonx x := repeat match goal with |- context [x ?a] =>
  match a with 0%Z => fail 1 | 1%Z => fail 1 | 2%Z => fail 1 | 3%Z => fail 1 | _ =>
  first [replace (x a) with (x 0%Z) by (apply idx_ext; lia) | replace (x a) with (x 1%Z) by (apply idx_ext; lia)
       | replace (x a) with (x 2%Z) by (apply idx_ext; lia) | replace (x a) with (x 3%Z) by (apply idx_ext; lia)] end end.
Ltac canonN x N := repeat match goal with |- context [x ?a] =>
  match a with (N-1)%Z => fail 1 | (N-2)%Z => fail 1 | (N-3)%Z => fail 1 | (N-4)%Z => fail 1 | _ =>
  first [replace (x a) with (x (N-1)%Z) by (apply idx_ext; lia) | replace (x a) with (x (N-2)%Z) by (apply idx_ext; lia)
       | replace (x a) with (x (N-3)%Z) by (apply idx_ext; lia) | replace (x a) with (x (N-4)%Z) by (apply idx_ext; lia)] end end.
Section Rows.
Variables (samples : list R) (odd : bool) (N : Z).
Hypothesis HN : (3 <= N)%Z.
Let s0 := pentBC N odd (pentInit samples odd).
Lemma rhs0 r : rhs s0 r = if (odd && (r =? 0)%Z)%bool then 0 else nth (Z.to_nat r) samples 0.
Proof. unfold s0, pentBC. rewrite !addb_rhs. reflexivity. Qed.
Lemma band0 m i : band s0 m i = (if (m =? 0)%Z then 1 else if (Z.abs m =? 1)%Z then off1 else off2)
  + dl 0 1 m i (sgn odd * off2) + dl 1 0 m i (sgn odd * off1) + dl 2 0 m i (sgn odd * off2)
  + dl (-1) (N-3) m i (off2 * 1) + dl 0 (N-2) m i (off2 * -3) + dl 1 (N-2) m i (off2 * 3)
  + dl (-2) (N-3) m i (off1 * 1 + off2 * 3) + dl (-1) (N-2) m i (off1 * -3 + off2 * -8) + dl 0 (N-1) m i (off1 * 3 + off2 * 6).
Proof. unfold s0, pentBC. rewrite !addb_band. reflexivity. Qed.
Lemma cases r : (0 <= r < N)%Z ->
  (r = 0 \/ (r = 1 /\ N = 3) \/ (r = 1 /\ 4 <= N) \/ (2 <= r < N-2) \/ (r = N-2 /\ 4 <= N) \/ r = N-1)%Z.
Proof. lia. Qed.
Ltac ev r := 
  repeat match goal with |- context [ent (band s0) N 0 ?r ?j] =>
    first [rewrite (ent_low (band s0) N 0 r j) by lia | rewrite (ent_high (band s0) N 0 r j) by lia | rewrite (ent_in (band s0) N 0 r j) by lia] end;
  rewrite ?band0; unfold dl; zmin; zdec; zabs; zdec; unfold off1, off2.
Lemma dom0 r : (0 <= r < N)%Z -> dom (band s0) N 0 r.
Proof.
  intros Hr. unfold dom. assert (G : sgn odd = 1 \/ sgn odd = -1) by (destruct odd; cbn; auto).
  destruct (cases r Hr) as [->|[[-> E]|[[-> E]|[E|[[-> E]| ->]]]]].
  - destruct (Z.eq_dec N 3); [|destruct (Z.eq_dec N 4)]; ev 0%Z; destruct G as [-> | ->]; unfold Rabs; repeat destruct Rcase_abs; lra.
  - ev 0%Z; destruct G as [-> | ->]; unfold Rabs; repeat destruct Rcase_abs; lra.
  - destruct (Z.eq_dec N 4); ev 0%Z; destruct G as [-> | ->]; unfold Rabs; repeat destruct Rcase_abs; lra.
  - ev 0%Z; unfold Rabs; repeat destruct Rcase_abs; lra.
  - destruct (Z.eq_dec N 4); ev 0%Z; unfold Rabs; repeat destruct Rcase_abs; lra.
  - destruct (Z.eq_dec N 4); ev 0%Z; unfold Rabs; repeat destruct Rcase_abs; lra.
Qed.

Lemma row0 x r : (0 <= r < N)%Z -> rowsum (band s0) N 0 r x =
  off2 * ext odd N x (r-2) + off1 * ext odd N x (r-1) + ext odd N x r + off1 * ext odd N x (r+1) + off2 * ext odd N x (r+2).
Proof.
  intros Hr. unfold rowsum, ext.
  destruct (cases r Hr) as [->|[[-> E]|[[-> E]|[E|[[-> E]| ->]]]]].
  - destruct (Z.eq_dec N 3); [|destruct (Z.eq_dec N 4)]; ev 0%Z; canonx x; field.
  - ev 0%Z; canonx x; field.
  - destruct (Z.eq_dec N 4); ev 0%Z; canonx x; field.
  - ev 0%Z; field.
  - destruct (Z.eq_dec N 4); ev 0%Z; canonN x N; field.
  - destruct (Z.eq_dec N 4); ev 0%Z; canonN x N; field.
Qed.

Definition sol : Z -> R := rhs (pentReverse N (pentForward N s0)).
Lemma sol_ok r : (0 <= r < N)%Z ->
  off2 * ext odd N sol (r-2) + off1 * ext odd N sol (r-1) + ext odd N sol r + off1 * ext odd N sol (r+1) + off2 * ext odd N sol (r+2)
  = if (odd && (r =? 0)%Z)%bool then 0 else nth (Z.to_nat r) samples 0.
Proof.
  intros Hr. rewrite <- row0 by lia. rewrite <- rhs0.
  destruct (forward_ok N s0 ltac:(lia) dom0) as [F1 F2]. apply F2; [|lia].
  apply reverse_ok; [lia|exact F1].
Qed.
End Rows.

(** ** the coefficient list *)
Section Coeff.
Variables (samples : list R) (odd : bool).
Let N := Z.of_nat (List.length samples).
Hypothesis HN : (3 <= N)%Z.
Let x := sol samples odd N.
Definition coeffs : list R := [sgn odd * x 2%Z; sgn odd * x 1%Z] ++ map x (zrange 0 N)
          ++ [1 * x (N-3)%Z + -3 * x (N-2)%Z + 3 * x (N-1)%Z; 3 * x (N-3)%Z + -8 * x (N-2)%Z + 6 * x (N-1)%Z].
Lemma getCoeff_eq : getCoeff samples odd = Some coeffs.
Proof. unfold getCoeff. fold N. replace (N <? 3)%Z with false by (symmetry; apply Z.ltb_ge; lia). reflexivity. Qed.
Lemma coeffs_len : len coeffs = (N + 4)%Z.
Proof. unfold coeffs. rewrite !app_length, map_length, zrange_length. cbn [List.length]. lia. Qed.
Lemma cf_ext k : (0 <= k < N + 4)%Z -> cf coeffs k = ext odd N x (k-2).
Proof.
  intros Hk. unfold cf, coeffs, ext.
  destruct (Z.eq_dec k 0) as [->|N0]; [zdec; reflexivity|].
  destruct (Z.eq_dec k 1) as [->|N1]; [zdec; reflexivity|].
  rewrite app_nth2 by (cbn [List.length]; lia). cbn [List.length].
  destruct (Z_lt_le_dec k (N+2)).
  - rewrite app_nth1 by (rewrite map_length, zrange_length; lia).
    rewrite (nth_indep _ 0 (x 0%Z)) by (rewrite map_length, zrange_length; lia).
    rewrite map_nth. zdec. apply idx_ext. unfold zrange.
    rewrite (nth_indep _ 0%Z ((fun k => (0 + Z.of_nat k)%Z) 0%nat)) by (rewrite map_length, seq_length; lia).
    rewrite (map_nth (fun k => (0 + Z.of_nat k)%Z)). rewrite seq_nth by lia. lia.
  - rewrite app_nth2 by (rewrite map_length, zrange_length; lia). rewrite map_length, zrange_length.
    assert (k = N+2 \/ k = N+3)%Z as [->| ->] by lia.
    + replace (Z.to_nat (N+2) - 2 - Z.to_nat (N-0))%nat with 0%nat by lia. zdec. reflexivity.
    + replace (Z.to_nat (N+3) - 2 - Z.to_nat (N-0))%nat with 1%nat by lia. zdec. reflexivity.
Qed.
Definition sample (r : Z) : R := if (odd && (r =? 0)%Z)%bool then 0 else nth (Z.to_nat r) samples 0.
Lemma at_sample r : (0 <= r < N - 1)%Z -> value coeffs (IZR r) = Some (sample r).
Proof.
  intros Hr. rewrite value_F.
  2:{ rewrite coeffs_len. split; [apply IZR_le; lia|apply IZR_lt; lia]. }
  f_equal. unfold F, piece. rewrite (rtrunc_unique (IZR r) r) by (try lia; lra). unfold six. rewrite !cf_ext by lia.
  unfold sample. rewrite <- (sol_ok samples odd N HN r) by lia. fold x.
  replace (r + 1 - 2)%Z with (r-1)%Z by lia. replace (r + 2 - 2)%Z with r by lia. replace (r + 3 - 2)%Z with (r+1)%Z by lia.
  replace (r + 4 - 2)%Z with (r+2)%Z by lia. cbn [pw P]. unfold off1, off2. field.
Qed.
Lemma last_none : value coeffs (IZR (N-1)) = None.
Proof.
  destruct (value coeffs (IZR (N-1))) as [v|] eqn:E; [|reflexivity]. apply value_dom in E.
  rewrite (rtrunc_unique _ (N-1)) in E by (try lia; lra). rewrite coeffs_len in E. lia.
Qed.
(** one-sided limits of F *)
Lemma lim_left k : (k <= 4)%nat -> tends_left (Derive_n (total (value coeffs)) k) (IZR (N-1)) (piece coeffs k (N-2) (IZR (N-1))).
Proof.
  intros Hk eps He.
  assert (C : continuous (piece coeffs k (N-2)) (IZR (N-1))).
  { apply @ex_derive_continuous. eexists. apply piece_derive; lia. }
  destruct (proj1 (filterlim_locally _ _) C (mkposreal _ He)) as [d Hd].
  exists (Rmin d 1). split; [apply Rmin_glb_lt; [apply cond_pos|lra]|].
  intros y Hy. assert (A1 := Rmin_l d 1). assert (A2 := Rmin_r d 1).
  assert (HZ : IZR (N-1) = IZR (N-2) + 1) by (rewrite !minus_IZR; ring).
  assert (0 <= IZR (N-2)) by (apply IZR_le; lia). assert (1 <= IZR (N-2)) by (apply IZR_le; lia).
  rewrite Derive_n_F; [|lia|rewrite coeffs_len; replace (N+4-5)%Z with (N-1)%Z by lia; lra].
  unfold F. rewrite (rtrunc_unique y (N-2)) by (try lia; lra).
  apply (Hd y). change (Rabs (y - IZR (N-1)) < d). unfold Rabs. destruct (Rcase_abs _); lra.
Qed.
Lemma lim_right k : (k <= 4)%nat -> tends_right (Derive_n (total (value coeffs)) k) 0 (piece coeffs k 0 0).
Proof.
  intros Hk eps He.
  assert (C : continuous (piece coeffs k 0) 0).
  { apply @ex_derive_continuous. eexists. apply piece_derive; lia. }
  destruct (proj1 (filterlim_locally _ _) C (mkposreal _ He)) as [d Hd].
  exists (Rmin d 1). split; [apply Rmin_glb_lt; [apply cond_pos|lra]|].
  intros y Hy. assert (A1 := Rmin_l d 1). assert (A2 := Rmin_r d 1).
  assert (2 <= IZR (N-1)) by (apply IZR_le; lia).
  rewrite Derive_n_F; [|lia|rewrite coeffs_len; replace (N+4-5)%Z with (N-1)%Z by lia; lra].
  unfold F. rewrite (rtrunc_unique y 0) by (try lia; lra).
  apply (Hd y). change (Rabs (y - 0) < d). unfold Rabs. destruct (Rcase_abs _); lra.
Qed.
Lemma right_piece k : piece coeffs k (N-2) (IZR (N-1)) = P k (pw (six coeffs (N-2))) 1.
Proof. unfold piece. f_equal. rewrite !minus_IZR. ring. Qed.
Lemma right_limits : tends_left (total (value coeffs)) (IZR (N-1)) (sample (N-1)) /\
  tends_left (Derive_n (total (value coeffs)) 3) (IZR (N-1)) 0 /\ tends_left (Derive_n (total (value coeffs)) 4) (IZR (N-1)) 0.
Proof.
  assert (E : six coeffs (N-2) = [ext odd N x (N-1-3); ext odd N x (N-1-2); ext odd N x (N-1-1); ext odd N x (N-1); ext odd N x (N-1+1); ext odd N x (N-1+2)]).
  { unfold six. rewrite !cf_ext by lia. repeat (f_equal; try lia). }
  pose proof (sol_ok samples odd N HN (N-1) ltac:(lia)) as S. fold x in S.
  refine (conj _ (conj _ _)).
  - replace (sample (N-1)) with (piece coeffs 0 (N-2) (IZR (N-1))).
    + exact (lim_left 0 ltac:(lia)).
    + rewrite right_piece, E. unfold sample. rewrite <- S. cbn [pw P]. unfold off1, off2. field.
  - replace 0 with (piece coeffs 3 (N-2) (IZR (N-1))); [exact (lim_left 3 ltac:(lia))|].
    rewrite right_piece, E. cbn [pw P]. unfold ext. 
    destruct (Z.eq_dec N 3); zdec; canonN x N; field.
  - replace 0 with (piece coeffs 4 (N-2) (IZR (N-1))); [exact (lim_left 4 ltac:(lia))|].
    rewrite right_piece, E. cbn [pw P]. unfold ext.
    destruct (Z.eq_dec N 3); zdec; canonN x N; field.
Qed.
Lemma left_piece k : piece coeffs k 0 0 = P k (pw (six coeffs 0)) 0.
Proof. unfold piece. f_equal. ring. Qed.
Lemma left_limits k : (k <= 4)%nat -> Nat.even k = odd -> tends_right (Derive_n (total (value coeffs)) k) 0 0.
Proof.
  intros Hk Ho. pose proof (lim_right k Hk) as L. rewrite left_piece in L.
  replace (P k (pw (six coeffs 0)) 0) with 0 in L; [exact L|].
  unfold six. rewrite !cf_ext by lia.
  pose proof (sol_ok samples odd N HN 0 ltac:(lia)) as S. fold x in S. unfold ext in *.
  change (0 - 2)%Z with (-2)%Z in *. change (0 - 1)%Z with (-1)%Z in *. change (0 + 1)%Z with 1%Z in *. change (0 + 2)%Z with 2%Z in *. change (0 + 3)%Z with 3%Z in *. change (0 + 4)%Z with 4%Z in *.
  change (1 - 2)%Z with (-1)%Z. change (2 - 2)%Z with 0%Z. change (3-2)%Z with 1%Z. change (4-2)%Z with 2%Z.
  revert S. zdec. intros S. unfold off1, off2 in S.
  clear L. revert S Ho. generalize x. generalize odd. intros o y S Ho. clear - Hk S Ho.
  destruct o; cbn [sgn andb] in *; destruct k as [|[|[|[|[|k]]]]]; try discriminate; try lia; cbn [pw P]; lra.
Qed.
End Coeff.

Lemma interpolates samples odd : (3 <= Z.of_nat (List.length samples))%Z -> (odd = true -> nth 0 samples 0 = 0) ->
  exists coeff, getCoeff samples odd = Some coeff /\
  (forall i, (i + 1 < List.length samples)%nat -> value coeff (INR i) = Some (nth i samples 0)) /\
  tends_left (total (value coeff)) (INR (List.length samples - 1)) (nth (List.length samples - 1) samples 0).
Proof.
  intros HN Ho. exists (coeffs samples odd). split; [apply getCoeff_eq; auto|].
  assert (Q : forall i, sample samples odd (Z.of_nat i) = nth i samples 0).
  { intros i. unfold sample. rewrite Nat2Z.id. destruct odd; cbn [andb]; [|reflexivity].
    destruct (Z.eqb_spec (Z.of_nat i) 0); [|reflexivity]. replace i with 0%nat by lia. rewrite Ho by auto. reflexivity. }
  split.
  - intros i Hi. rewrite INR_IZR_INZ. rewrite at_sample by (auto; lia). rewrite Q. reflexivity.
  - destruct (right_limits samples odd HN) as [L _].
    rewrite INR_IZR_INZ. replace (Z.of_nat (List.length samples - 1)) with (Z.of_nat (List.length samples) - 1)%Z by lia.
    replace (nth (List.length samples - 1) samples 0) with (sample samples odd (Z.of_nat (List.length samples) - 1)); [exact L|].
    rewrite <- Q. f_equal. lia.
Qed.
Lemma odd_interpolates samples : (3 <= Z.of_nat (List.length samples))%Z -> exists coeff, getCoeff samples true = Some coeff /\
  value coeff 0 = Some 0 /\ (forall i, (1 <= i)%nat -> (i + 1 < List.length samples)%nat -> value coeff (INR i) = Some (nth i samples 0)).
Proof.
  intros HN. exists (coeffs samples true). split; [apply getCoeff_eq; auto|]. split.
  - rewrite (at_sample samples true HN 0) by lia. reflexivity.
  - intros i H1 Hi. rewrite INR_IZR_INZ. rewrite at_sample by (auto; lia). unfold sample. rewrite Nat2Z.id.
    replace (Z.of_nat i =? 0)%Z with false by (symmetry; apply Z.eqb_neq; lia). reflexivity.
Qed.
Lemma boundary samples odd : (3 <= Z.of_nat (List.length samples))%Z -> exists coeff, getCoeff samples odd = Some coeff /\
  (forall k, (k <= 4)%nat -> Nat.even k = odd -> tends_right (Derive_n (total (value coeff)) k) 0 0) /\
  tends_left (Derive_n (total (value coeff)) 3) (INR (List.length samples - 1)) 0 /\ tends_left (Derive_n (total (value coeff)) 4) (INR (List.length samples - 1)) 0.
Proof.
  intros HN. exists (coeffs samples odd). split; [apply getCoeff_eq; auto|]. split; [intros; apply left_limits; auto|].
  rewrite INR_IZR_INZ. replace (Z.of_nat (List.length samples - 1)) with (Z.of_nat (List.length samples) - 1)%Z by lia.
  apply right_limits; auto.
Qed.
Lemma last_sample_bad : exists samples coeff, (5 <= List.length samples)%nat /\ getCoeff samples false = Some coeff /\
  value coeff (INR (List.length samples - 1)) <> Some (nth (List.length samples - 1) samples 0).
Proof.
  exists [1;2;3;4;5], (coeffs [1;2;3;4;5] false). split; [cbn; lia|]. split; [apply getCoeff_eq; cbn; lia|].
  rewrite INR_IZR_INZ. change (Z.of_nat (List.length [1;2;3;4;5] - 1)) with (Z.of_nat (List.length [1;2;3;4;5]) - 1)%Z.
  rewrite last_none by (cbn; lia). discriminate.
Qed.
Lemma few_samples : exists samples, samples <> [] /\ getCoeff samples false = None.
Proof. exists [1;2]. split; [discriminate|reflexivity]. Qed.
