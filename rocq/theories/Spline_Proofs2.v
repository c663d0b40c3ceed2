(** Proofs for C40: the pentadiagonal solve. *)
From Coq Require Import ZArith Reals List Bool Lia Lra.
From Verif Require Import Base Spline_Model.
Import ListNotations.
Open Scope R_scope.

(** decide integer comparisons *)
Ltac zdec1 :=
  match goal with
  | |- context [(?a =? ?b)%Z] =>
    first [replace (a =? b)%Z with true by (symmetry; apply Z.eqb_eq; lia) | replace (a =? b)%Z with false by (symmetry; apply Z.eqb_neq; lia)]
  | |- context [(?a <? ?b)%Z] =>
    first [replace (a <? b)%Z with true by (symmetry; apply Z.ltb_lt; lia) | replace (a <? b)%Z with false by (symmetry; apply Z.ltb_ge; lia)]
  | |- context [(?a <=? ?b)%Z] =>
    first [replace (a <=? b)%Z with true by (symmetry; apply Z.leb_le; lia) | replace (a <=? b)%Z with false by (symmetry; apply Z.leb_gt; lia)]
  end.
Ltac zdec := repeat (zdec1; cbn [andb orb]).

Definition ent (b : Z -> Z -> R) (N k r j : Z) : R :=
  if ((0 <=? j) && (j <? N) && (Z.abs (j - r) <=? 2) && ((k <=? j) || (r <=? j)))%Z%bool then b (j - r)%Z (Z.min r j) else 0.
Definition rowsum (b : Z -> Z -> R) (N k r : Z) (c : Z -> R) : R :=
  ent b N k r (r-2) * c (r-2)%Z + ent b N k r (r-1) * c (r-1)%Z + ent b N k r r * c r + ent b N k r (r+1) * c (r+1)%Z + ent b N k r (r+2) * c (r+2)%Z.
Definition dom (b : Z -> Z -> R) (N k r : Z) : Prop :=
  Rabs (ent b N k r (r-2)) + Rabs (ent b N k r (r-1)) + Rabs (ent b N k r (r+1)) + Rabs (ent b N k r (r+2)) < Rabs (ent b N k r r).

(** ** one column of the forward sweep *)
Definition stepF (N i : Z) (s : pent) : pent := fold_left (pentElim N i) [1; 2]%Z s.
Lemma zr12 : zrange 1 2 = [1%Z]. Proof. reflexivity. Qed.
Lemma zr11 : zrange 1 1 = []. Proof. reflexivity. Qed.
Lemma zr13 : zrange 1 3 = [1; 2]%Z. Proof. reflexivity. Qed.
Lemma zr23 : zrange 2 3 = [2%Z]. Proof. reflexivity. Qed.
Ltac beq := repeat (match goal with
  | |- context [(?a =? ?b)%Z] => destruct (Z.eqb_spec a b); try (exfalso; lia); cbn [andb orb]
  | |- context [(?a <? ?b)%Z] => destruct (Z.ltb_spec a b); try (exfalso; lia); cbn [andb orb]
  | |- context [(?a <=? ?b)%Z] => destruct (Z.leb_spec a b); try (exfalso; lia); cbn [andb orb]
  end).
Lemma stepF_band N i s m' i' : (0 <= i)%Z -> band (stepF N i s) m' i' =
  let r1 := band s (-1) i / band s 0 i in let r2 := band s (-2) i / band s 0 i in
  if ((m' =? 0) && (i' =? i+1) && (i+1 <? N))%Z%bool then band s 0 (i+1) - r1 * band s 1 i
  else if ((m' =? 1) && (i' =? i+1) && (i+2 <? N))%Z%bool then band s 1 (i+1) - r1 * band s 2 i
  else if ((m' =? -1) && (i' =? i+1) && (i+2 <? N))%Z%bool then band s (-1) (i+1) - r2 * band s 1 i
  else if ((m' =? 0) && (i' =? i+2) && (i+2 <? N))%Z%bool then band s 0 (i+2) - r2 * band s 2 i
  else band s m' i'.
Proof.
  intros Hi. cbv zeta. unfold stepF. cbn [fold_left]. unfold pentElim at 2.
  destruct (Z.ltb_spec (i+1) N) as [H1|H1].
  2:{ unfold pentElim. destruct (Z.ltb_spec (i+2) N); [lia|]. rewrite !Bool.andb_false_r. reflexivity. }
  rewrite zr11, zr13. cbn [fold_left]. unfold pentElim.
  rewrite zr12, zr23. cbn [fold_left].
  change (1 - 1)%Z with 0%Z. change (2 - 1)%Z with 1%Z. change (1-2)%Z with (-1)%Z. change (2-2)%Z with 0%Z. change (- (1))%Z with (-1)%Z. change (- (2))%Z with (-2)%Z.
  destruct (Z.ltb_spec (i+2) N) as [H2|H2];
  unfold addb, setb, setx; cbn [band rhs]; rewrite ?Bool.andb_true_r, ?Bool.andb_false_r;
  cbn [band rhs]; beq; subst; cbn [band rhs]; beq; subst; unfold Rminus; ring.
Qed.
Lemma stepF_rhs N i s r : (0 <= i)%Z -> rhs (stepF N i s) r =
  let r1 := band s (-1) i / band s 0 i in let r2 := band s (-2) i / band s 0 i in
  if ((r =? i+1) && (i+1 <? N))%Z%bool then rhs s r - r1 * rhs s i
  else if ((r =? i+2) && (i+2 <? N))%Z%bool then rhs s r - r2 * rhs s i
  else rhs s r.
Proof.
  intros Hi. cbv zeta. unfold stepF. cbn [fold_left]. unfold pentElim at 2.
  destruct (Z.ltb_spec (i+1) N) as [H1|H1].
  2:{ unfold pentElim. destruct (Z.ltb_spec (i+2) N); [lia|]. rewrite !Bool.andb_false_r. reflexivity. }
  rewrite zr11, zr13. cbn [fold_left]. unfold pentElim.
  rewrite zr12, zr23. cbn [fold_left].
  change (1 - 1)%Z with 0%Z. change (2 - 1)%Z with 1%Z. change (1-2)%Z with (-1)%Z. change (2-2)%Z with 0%Z. change (- (1))%Z with (-1)%Z. change (- (2))%Z with (-2)%Z.
  destruct (Z.ltb_spec (i+2) N) as [H2|H2];
  unfold addb, setb, setx; cbn [band rhs]; rewrite ?Bool.andb_true_r, ?Bool.andb_false_r;
  cbn [band rhs]; beq; subst; cbn [band rhs]; beq; subst; unfold Rminus; ring.
Qed.

(** entries after one column: rows other than i+1, i+2 are unchanged *)
Lemma ent_other N i s r j : (0 <= i < N)%Z -> (r <> i+1)%Z -> (r <> i+2)%Z -> ent (band (stepF N i s)) N (i+1) r j = ent (band s) N i r j.
Proof.
  intros Hi H1 H2. unfold ent.
  destruct (Z.leb_spec 0 j), (Z.ltb_spec j N), (Z.leb_spec (Z.abs (j-r)) 2); cbn [andb]; try reflexivity.
  assert (X : ((i+1 <=? j) || (r <=? j) = (i <=? j) || (r <=? j))%Z%bool).
  { destruct (Z.leb_spec (i+1) j), (Z.leb_spec r j), (Z.leb_spec i j); cbn; try reflexivity; lia. }
  rewrite X. destruct ((i <=? j) || (r <=? j))%Z%bool eqn:E; [|reflexivity].
  apply Bool.orb_true_iff in E. rewrite !Z.leb_le in E.
  rewrite stepF_band by lia. cbv zeta.
  assert (Q : (j - r = 0 \/ j - r = 1 \/ j - r = 2 \/ j - r = -1 \/ j - r = -2)%Z) by lia.
  beq; try reflexivity; exfalso; lia.
Qed.
Ltac zmin := repeat match goal with |- context [Z.min ?a ?b] => first [replace (Z.min a b) with a by lia | replace (Z.min a b) with b by lia] end.
Ltac zabs := repeat match goal with |- context [Z.abs ?a] => first [replace (Z.abs a) with a by lia | replace (Z.abs a) with (- a)%Z by lia] end.

Lemma row_i N i b c : (0 <= i < N)%Z -> rowsum b N i i c =
  b 0%Z i * c i + (if (i+1 <? N)%Z then b 1%Z i else 0) * c (i+1)%Z + (if (i+2 <? N)%Z then b 2%Z i else 0) * c (i+2)%Z.
Proof.
  intros Hi. unfold rowsum, ent. zabs. zdec. rewrite ?Bool.andb_false_r. zmin.
  replace (i - i)%Z with 0%Z by lia. replace (i+1-i)%Z with 1%Z by lia. replace (i+2-i)%Z with 2%Z by lia.
  beq; ring.
Qed.
Lemma ent_in b N k r j : (0 <= j < N)%Z -> (Z.abs (j-r) <= 2)%Z -> (k <= j \/ r <= j)%Z -> ent b N k r j = b (j-r)%Z (Z.min r j).
Proof.
  intros H1 H2 H3. unfold ent. zdec.
  destruct H3; [replace (k <=? j)%Z with true by (symmetry; apply Z.leb_le; lia)|replace (r <=? j)%Z with true by (symmetry; apply Z.leb_le; lia); rewrite Bool.orb_true_r]; reflexivity.
Qed.
Lemma ent_high b N k r j : (N <= j)%Z -> ent b N k r j = 0.
Proof. intros H. unfold ent. replace (j <? N)%Z with false by (symmetry; apply Z.ltb_ge; lia). rewrite Bool.andb_false_r. reflexivity. Qed.
Lemma ent_low b N k r j : (j < 0 \/ (j < k /\ j < r))%Z -> ent b N k r j = 0.
Proof.
  intros H. unfold ent. destruct (Z.leb_spec 0 j); [|reflexivity].
  replace (k <=? j)%Z with false by (symmetry; apply Z.leb_gt; lia). replace (r <=? j)%Z with false by (symmetry; apply Z.leb_gt; lia).
  rewrite Bool.andb_false_r. reflexivity.
Qed.
(** rows i+1 and i+2 are reduced by multiples of row i *)
Definition rot (s : pent) (i m : Z) : R := band s (- m) i / band s 0 i.
Ltac isconst z := match z with (-2)%Z => idtac | (-1)%Z => idtac | 0%Z => idtac | 1%Z => idtac | 2%Z => idtac end.
Ltac canon s i := repeat match goal with
  | |- context [band s ?a ?b] => tryif isconst a then fail else
      first [replace (band s a b) with (band s (-2) b) by (f_equal; lia) | replace (band s a b) with (band s (-1) b) by (f_equal; lia) | replace (band s a b) with (band s 0 b) by (f_equal; lia)
            | replace (band s a b) with (band s 1 b) by (f_equal; lia) | replace (band s a b) with (band s 2 b) by (f_equal; lia)]
  end; repeat match goal with
  | |- context [band s ?a ?b] => match b with i => fail 1 | (i+1)%Z => fail 1 | (i+2)%Z => fail 1 | (i+3)%Z => fail 1 | _ =>
      first [replace (band s a b) with (band s a i) by (f_equal; lia) | replace (band s a b) with (band s a (i+1)) by (f_equal; lia) | replace (band s a b) with (band s a (i+2)) by (f_equal; lia) | replace (band s a b) with (band s a (i+3)) by (f_equal; lia)] end
  end.
Lemma ent_row1 N i s : (0 <= i)%Z -> (i+1 < N)%Z -> band s 0 i <> 0 -> forall j, (i-1 <= j <= i+3)%Z ->
  ent (band (stepF N i s)) N (i+1) (i+1) j = ent (band s) N i (i+1) j - rot s i 1 * ent (band s) N i i j.
Proof.
  intros H0 H1 Hb j Hj. assert (D : (j = i-1 \/ j = i \/ j = i+1 \/ j = i+2 \/ j = i+3)%Z) by lia.
  unfold ent, rot.
  destruct D as [->|[->|[->|[->| ->]]]]; beq; rewrite ?stepF_band by lia; cbv zeta; beq; canon s i; try ring; change (- (1))%Z with (-1)%Z; try field; auto.
Qed.
Lemma ent_row2 N i s : (0 <= i)%Z -> (i+2 < N)%Z -> band s 0 i <> 0 -> forall j, (i <= j <= i+4)%Z ->
  ent (band (stepF N i s)) N (i+1) (i+2) j = ent (band s) N i (i+2) j - rot s i 2 * ent (band s) N i i j.
Proof.
  intros H0 H1 Hb j Hj. assert (D : (j = i \/ j = i+1 \/ j = i+2 \/ j = i+3 \/ j = i+4)%Z) by lia.
  unfold ent, rot.
  destruct D as [->|[->|[->|[->| ->]]]]; beq; rewrite ?stepF_band by lia; cbv zeta; beq; try ring; canon s i; try ring; change (- (2))%Z with (-2)%Z; try field; auto.
Qed.
Lemma ent_far b N k r j : (2 < Z.abs (j-r))%Z -> ent b N k r j = 0.
Proof. intros H. unfold ent. replace (Z.abs (j-r) <=? 2)%Z with false by (symmetry; apply Z.leb_gt; lia). rewrite Bool.andb_false_r. reflexivity. Qed.
Ltac fix_j := repeat match goal with
  | |- context [(?i + ?a - ?b)%Z] => first [replace (i + a - b)%Z with (i-1)%Z by lia | replace (i + a - b)%Z with i by lia | replace (i + a - b)%Z with (i+1)%Z by lia]
  | |- context [(?i + ?a + ?b)%Z] => first [replace (i + a + b)%Z with (i+2)%Z by lia | replace (i + a + b)%Z with (i+3)%Z by lia | replace (i + a + b)%Z with (i+4)%Z by lia] end.
Lemma rowsum1 N i s c : (0 <= i)%Z -> (i+1 < N)%Z -> band s 0 i <> 0 ->
  rowsum (band (stepF N i s)) N (i+1) (i+1) c = rowsum (band s) N i (i+1) c - rot s i 1 * rowsum (band s) N i i c.
Proof.
  intros H0 H1 Hb. unfold rowsum. fix_j.
  rewrite !ent_row1 by (auto; lia). rewrite (ent_low (band s) N i i (i-2)), (ent_low (band s) N i i (i-1)), (ent_far (band s) N i i (i+3)) by lia. ring.
Qed.
Lemma rowsum2 N i s c : (0 <= i)%Z -> (i+2 < N)%Z -> band s 0 i <> 0 ->
  rowsum (band (stepF N i s)) N (i+1) (i+2) c = rowsum (band s) N i (i+2) c - rot s i 2 * rowsum (band s) N i i c.
Proof.
  intros H0 H1 Hb. unfold rowsum. fix_j.
  rewrite !ent_row2 by (auto; lia). rewrite (ent_low (band s) N i i (i-2)), (ent_low (band s) N i i (i-1)), (ent_far (band s) N i i (i+3)), (ent_far (band s) N i i (i+4)) by lia. ring.
Qed.
Lemma rowsum_other N i s r c : (0 <= i < N)%Z -> (r <> i+1)%Z -> (r <> i+2)%Z -> rowsum (band (stepF N i s)) N (i+1) r c = rowsum (band s) N i r c.
Proof. intros. unfold rowsum. rewrite !ent_other by auto. reflexivity. Qed.

Definition sat (s : pent) (N k : Z) (c : Z -> R) : Prop := forall r, (0 <= r < N)%Z -> rowsum (band s) N k r c = rhs s r.
Lemma dom_diag b N k r : dom b N k r -> ent b N k r r <> 0.
Proof. unfold dom. intros H E. rewrite E, Rabs_R0 in H. pose proof (Rabs_pos (ent b N k r (r-2))). pose proof (Rabs_pos (ent b N k r (r-1))). pose proof (Rabs_pos (ent b N k r (r+1))). pose proof (Rabs_pos (ent b N k r (r+2))). lra. Qed.
Lemma ent_diag b N k r : (0 <= r < N)%Z -> ent b N k r r = b 0%Z r.
Proof. intros H. rewrite ent_in by lia. f_equal; lia. Qed.
Lemma step_sat N i s c : (0 <= i < N)%Z -> band s 0 i <> 0 -> sat (stepF N i s) N (i+1) c -> sat s N i c.
Proof.
  intros Hi Hb H.
  assert (Ri : rowsum (band s) N i i c = rhs s i).
  { pose proof (H i Hi) as Q. rewrite rowsum_other in Q by lia. rewrite Q. rewrite stepF_rhs by lia. cbv zeta. beq; reflexivity. }
  intros r Hr. pose proof (H r Hr) as Q. rewrite stepF_rhs in Q by lia. cbv zeta in Q.
  destruct (Z.eq_dec r (i+1)) as [->|N1].
  { rewrite rowsum1 in Q by (auto; lia). rewrite Z.eqb_refl in Q. replace (i+1 <? N)%Z with true in Q by (symmetry; apply Z.ltb_lt; lia). cbn [andb] in Q.
    unfold rot in Q. rewrite Ri in Q. change (- (1))%Z with (-1)%Z in Q. lra. }
  destruct (Z.eq_dec r (i+2)) as [->|N2].
  { rewrite rowsum2 in Q by (auto; lia). replace (i+2 =? i+1)%Z with false in Q by (symmetry; apply Z.eqb_neq; lia).
    rewrite Z.eqb_refl in Q. replace (i+2 <? N)%Z with true in Q by (symmetry; apply Z.ltb_lt; lia). cbn [andb] in Q.
    unfold rot in Q. rewrite Ri in Q. change (- (2))%Z with (-2)%Z in Q. lra. }
  rewrite rowsum_other in Q by lia.
  replace (r =? i+1)%Z with false in Q by (symmetry; apply Z.eqb_neq; lia). replace (r =? i+2)%Z with false in Q by (symmetry; apply Z.eqb_neq; lia).
  exact Q.
Qed.
Lemma rot_bound a00 a01 a02 a10 : Rabs a01 + Rabs a02 < Rabs a00 -> Rabs (a10 / a00) * Rabs a01 + Rabs (a10 / a00) * Rabs a02 <= Rabs a10.
Proof.
  intros H. pose proof (Rabs_pos a01). pose proof (Rabs_pos a02). pose proof (Rabs_pos a10).
  assert (a00 <> 0). { intros E. rewrite E, Rabs_R0 in H. lra. }
  unfold Rdiv. rewrite Rabs_mult, Rabs_inv. 
  assert (0 < Rabs a00) by lra. 
  apply Rmult_le_reg_r with (Rabs a00); auto.
  replace ((Rabs a10 * / Rabs a00 * Rabs a01 + Rabs a10 * / Rabs a00 * Rabs a02) * Rabs a00) with (Rabs a10 * (Rabs a01 + Rabs a02)) by (field; lra).
  apply Rmult_le_compat_l; lra.
Qed.
Lemma tri a r b : Rabs (a - r * b) <= Rabs a + Rabs r * Rabs b.
Proof. rewrite <- Rabs_mult. replace (a - r*b) with (a + - (r*b)) by ring. eapply Rle_trans; [apply Rabs_triang|]. rewrite Rabs_Ropp. lra. Qed.
Lemma tri2 a r b : Rabs a - Rabs r * Rabs b <= Rabs (a - r * b).
Proof. rewrite <- Rabs_mult. apply Rabs_triang_inv. Qed.
Lemma step_dom N i s : (0 <= i < N)%Z -> (forall r, (0 <= r < N)%Z -> dom (band s) N i r) -> forall r, (0 <= r < N)%Z -> dom (band (stepF N i s)) N (i+1) r.
Proof.
  intros Hi H r Hr.
  pose proof (H i Hi) as Di. pose proof (dom_diag _ _ _ _ Di) as Hb. rewrite ent_diag in Hb by lia.
  assert (B : Rabs (ent (band s) N i i (i+1)) + Rabs (ent (band s) N i i (i+2)) < Rabs (band s 0 i)).
  { unfold dom in Di. rewrite ent_diag in Di by lia. pose proof (Rabs_pos (ent (band s) N i i (i-2))). pose proof (Rabs_pos (ent (band s) N i i (i-1))). lra. }
  destruct (Z.eq_dec r (i+1)) as [->|N1].
  { pose proof (H (i+1)%Z Hr) as D1. unfold dom in *. revert D1. fix_j. intros D1.
    rewrite !ent_row1 by (auto; lia). rewrite (ent_low (band s) N i i (i-1)), (ent_far (band s) N i i (i+3)) by lia.
    rewrite (ent_low (band s) N i (i+1) (i-1)) in * by lia.
    rewrite !(ent_diag _ _ _ i) by lia.
    assert (E1 : ent (band s) N i (i+1) i = band s (-1) i) by (rewrite ent_in by lia; f_equal; lia).
    rewrite E1 in *.
    replace (band s (-1) i - rot s i 1 * band s 0 i) with 0 by (unfold rot; change (- (1))%Z with (-1)%Z; field; auto).
    rewrite !Rmult_0_r. rewrite ?Rminus_0_r, ?Rabs_R0.
    pose proof (rot_bound _ _ _ (band s (-1) i) B) as RB. change (band s (-1) i / band s 0 i) with (rot s i 1) in RB.
    pose proof (tri (ent (band s) N i (i+1) (i+2)) (rot s i 1) (ent (band s) N i i (i+2))).
    pose proof (tri2 (ent (band s) N i (i+1) (i+1)) (rot s i 1) (ent (band s) N i i (i+1))).
    rewrite Rabs_R0 in D1. lra. }
  destruct (Z.eq_dec r (i+2)) as [->|N2].
  { pose proof (H (i+2)%Z Hr) as D1. unfold dom in *. revert D1. fix_j. intros D1.
    rewrite !ent_row2 by (auto; lia). rewrite (ent_far (band s) N i i (i+3)), (ent_far (band s) N i i (i+4)) by lia.
    rewrite !(ent_diag _ _ _ i) by lia.
    assert (E1 : ent (band s) N i (i+2) i = band s (-2) i) by (rewrite ent_in by lia; f_equal; lia).
    rewrite E1 in *.
    replace (band s (-2) i - rot s i 2 * band s 0 i) with 0 by (unfold rot; change (- (2))%Z with (-2)%Z; field; auto).
    rewrite !Rmult_0_r. rewrite ?Rminus_0_r, ?Rabs_R0.
    pose proof (rot_bound _ _ _ (band s (-2) i) B) as RB. change (band s (-2) i / band s 0 i) with (rot s i 2) in RB.
    pose proof (tri (ent (band s) N i (i+2) (i+1)) (rot s i 2) (ent (band s) N i i (i+1))).
    pose proof (tri2 (ent (band s) N i (i+2) (i+2)) (rot s i 2) (ent (band s) N i i (i+2))).
    lra. }
  specialize (H r Hr). unfold dom in *. rewrite !ent_other by auto. exact H.
Qed.

Lemma forward_inv N s : (forall r, (0 <= r < N)%Z -> dom (band s) N 0 r) -> forall n : nat, (Z.of_nat n <= N)%Z ->
  let t := fold_left (fun s i => stepF N i s) (zrange 0 (Z.of_nat n)) s in
  (forall r, (0 <= r < N)%Z -> dom (band t) N (Z.of_nat n) r) /\ (forall c, sat t N (Z.of_nat n) c -> sat s N 0 c).
Proof.
  intros H. induction n as [|n IH]; intros Hn; cbv zeta.
  - rewrite zrange_nil by lia. cbn [fold_left]. auto.
  - destruct IH as [I1 I2]; [lia|]. rewrite zrange_snoc by lia.
    replace (Z.of_nat (S n) - 1)%Z with (Z.of_nat n) by lia. rewrite fold_left_app. cbn [fold_left].
    replace (Z.of_nat (S n)) with (Z.of_nat n + 1)%Z by lia.
    split.
    + apply step_dom; [lia|exact I1].
    + intros c Hc. apply I2. eapply step_sat; [| |exact Hc]; [lia|].
      pose proof (dom_diag _ _ _ _ (I1 (Z.of_nat n) ltac:(lia))) as X. rewrite ent_diag in X by lia. exact X.
Qed.
Lemma fold_ext (A B : Type) (f g : A -> B -> A) l a : (forall a b, f a b = g a b) -> fold_left f l a = fold_left g l a.
Proof. intros H. revert a. induction l as [|b l IH]; intros a; cbn; [reflexivity|]. rewrite H. apply IH. Qed.
Lemma forward_ok N s : (0 <= N)%Z -> (forall r, (0 <= r < N)%Z -> dom (band s) N 0 r) ->
  (forall r, (0 <= r < N)%Z -> band (pentForward N s) 0 r <> 0) /\ (forall c, sat (pentForward N s) N N c -> sat s N 0 c).
Proof.
  intros HN H. pose proof (forward_inv N s H (Z.to_nat N) ltac:(lia)) as X. cbv zeta in X. rewrite Z2Nat.id in X by lia.
  destruct X as [X1 X2]. split; [|exact X2].
  intros r Hr. pose proof (dom_diag _ _ _ _ (X1 r Hr)) as D. rewrite ent_diag in D by lia. exact D.
Qed.

(** ** reverse sweep *)
Lemma back_step N t i : (0 <= i < N)%Z -> band (pentBack N t i) = band t /\
  rhs (pentBack N t i) i = (rhs t i - (if (i+1 <? N)%Z then band t 1 i * rhs t (i+1) else 0) - (if (i+2 <? N)%Z then band t 2 i * rhs t (i+2) else 0)) * (1 / band t 0 i) /\
  (forall r, r <> i -> rhs (pentBack N t i) r = rhs t r).
Proof.
  intros Hi. unfold pentBack. cbn [fold_left]. split; [|split].
  - beq; reflexivity.
  - unfold setx. beq; cbn [rhs band]; beq; ring.
  - intros r Hr. unfold setx. beq; cbn [rhs band]; beq; reflexivity.
Qed.
Lemma row_upper N b r c : (0 <= r < N)%Z -> rowsum b N N r c =
  b 0%Z r * c r + (if (r+1 <? N)%Z then b 1%Z r * c (r+1)%Z else 0) + (if (r+2 <? N)%Z then b 2%Z r * c (r+2)%Z else 0).
Proof.
  intros H. unfold rowsum. rewrite (ent_low _ _ _ _ (r-2)), (ent_low _ _ _ _ (r-1)) by lia. rewrite ent_diag by lia.
  destruct (Z.ltb_spec (r+1) N); [rewrite (ent_in b N N r (r+1)) by lia|rewrite (ent_high b N N r (r+1)) by lia];
  (destruct (Z.ltb_spec (r+2) N); [rewrite (ent_in b N N r (r+2)) by lia|rewrite (ent_high b N N r (r+2)) by lia]);
  zmin; repeat match goal with |- context [(?a + ?b - ?a)%Z] => replace (a + b - a)%Z with b by lia end; ring.
Qed.
Lemma reverse_inv N s : (forall r, (0 <= r < N)%Z -> band s 0 r <> 0) -> forall n : nat, (Z.of_nat n <= N)%Z ->
  let i := (N - Z.of_nat n)%Z in let t := fold_left (pentBack N) (rev (zrange i N)) s in
  band t = band s /\ (forall r, (r < i)%Z -> rhs t r = rhs s r) /\ (forall r, (i <= r < N)%Z -> rowsum (band s) N N r (rhs t) = rhs s r).
Proof.
  intros Hb. induction n as [|n IH]; intros Hn; cbv zeta.
  - rewrite zrange_nil by lia. cbn. repeat split; auto. intros; lia.
  - specialize (IH ltac:(lia)). cbv zeta in IH. destruct IH as (I1 & I2 & I3).
    set (i := (N - Z.of_nat (S n))%Z) in *. replace (N - Z.of_nat n)%Z with (i+1)%Z in * by lia.
    rewrite (zrange_cons i) by lia. cbn [rev]. rewrite fold_left_app. cbn [fold_left].
    set (t := fold_left (pentBack N) (rev (zrange (i+1) N)) s) in *.
    destruct (back_step N t i ltac:(lia)) as (B1 & B2 & B3).
    split; [congruence|]. split.
    + intros r Hr. rewrite B3 by lia. apply I2. lia.
    + intros r Hr. rewrite row_upper by lia. destruct (Z.eq_dec r i) as [->|Nr].
      * rewrite B2. rewrite !B3 by lia. rewrite I1, (I2 i) by lia. assert (band s 0 i <> 0) by (apply Hb; lia).
        destruct (i+1 <? N)%Z, (i+2 <? N)%Z; field; auto.
      * rewrite !B3 by lia. rewrite <- (I3 r) by lia. rewrite row_upper by lia. reflexivity.
Qed.
Lemma reverse_ok N s : (0 <= N)%Z -> (forall r, (0 <= r < N)%Z -> band s 0 r <> 0) -> sat s N N (rhs (pentReverse N s)).
Proof.
  intros HN Hb r Hr. pose proof (reverse_inv N s Hb (Z.to_nat N) ltac:(lia)) as X. cbv zeta in X.
  rewrite Z2Nat.id in X by lia. replace (N - N)%Z with 0%Z in X by lia. apply X. lia.
Qed.
