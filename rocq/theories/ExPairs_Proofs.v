(** Division of the bands among processes. *)
From Coq Require Import ZArith Reals List Bool Arith Lia.
From Verif Require Import Base Vec3_Model ExPairs_Model ExPairs_Spec.
Import ListNotations.

Definition flat (B : nat) (cost : list nat) := flat_map (fun c => repeat c B) cost.
Lemma flat_length : forall B cost, length (flat B cost) = (length cost * B)%nat.
Proof. intros B cost; induction cost as [|c l IH]; cbn; [reflexivity|]. unfold flat in *; cbn. rewrite app_length, repeat_length, IH. reflexivity. Qed.
Lemma flat_nth : forall B cost i, (0 < B)%nat -> nth i (flat B cost) 0%nat = nth (i / B) cost 0%nat.
Proof.
  intros B cost; induction cost as [|c l IH]; intros i HB.
  - cbn. destruct i; destruct (_ / _)%nat; reflexivity.
  - unfold flat in *; cbn [flat_map]. destruct (Nat.lt_ge_cases i B) as [H|H].
    + rewrite app_nth1 by (rewrite repeat_length; exact H). rewrite (Nat.div_small i B H). cbn.
      clear -H. revert i H; induction B; intros i H; [lia|]. destruct i; cbn; [reflexivity|]. apply IHB; lia.
    + rewrite app_nth2 by (rewrite repeat_length; exact H). rewrite repeat_length, (IH (i - B)%nat HB).
      replace (i / B)%nat with (S ((i - B) / B))%nat; [reflexivity|].
      transitivity ((((i - B) + 1 * B) / B)%nat); [rewrite Nat.div_add by lia; rewrite Nat.add_comm; reflexivity | f_equal; lia].
Qed.
Definition csum (l : list nat) (k : nat) := list_sum (firstn k l).
Lemma cumul_gen : forall l acc, acc <> [] ->
  fold_left (fun l c => l ++ [last l 0 + c])%nat l acc = acc ++ map (fun k => (last acc 0 + csum l (S k))%nat) (seq 0 (length l)).
Proof.
  induction l as [|c l IH]; intros acc H; cbn [fold_left length seq map].
  - rewrite app_nil_r; reflexivity.
  - rewrite IH by (destruct acc; discriminate). rewrite <- app_assoc. f_equal. cbn [app].
    rewrite last_last. f_equal.
    + unfold csum; cbn. lia.
    + rewrite <- seq_shift, map_map. apply map_ext. intros k. unfold csum. cbn [firstn list_sum fold_right]. unfold list_sum; cbn. lia.
Qed.
Lemma cumul_spec : forall B cost, jCostPrev B cost = map (csum (flat B cost)) (seq 0 (S (length (flat B cost)))).
Proof.
  intros. unfold jCostPrev. fold (flat B cost). rewrite cumul_gen by discriminate. cbn [seq map app last]. f_equal.
  rewrite <- seq_shift, map_map. apply map_ext. intros; cbn. reflexivity.
Qed.
Lemma cumul_length : forall B cost, length (jCostPrev B cost) = S (length cost * B).
Proof. intros. rewrite cumul_spec, map_length, seq_length, flat_length. reflexivity. Qed.
Lemma cumul_nth : forall B cost k, (k <= length cost * B)%nat -> nth k (jCostPrev B cost) 0%nat = csum (flat B cost) k.
Proof.
  intros B cost k H. rewrite cumul_spec.
  rewrite (nth_indep _ 0%nat (csum (flat B cost) 0%nat)) by (rewrite map_length, seq_length, flat_length; lia).
  rewrite map_nth, seq_nth by (rewrite flat_length; lia). reflexivity.
Qed.
Lemma cumul_last : forall B cost, last (jCostPrev B cost) 0%nat = csum (flat B cost) (length cost * B).
Proof.
  intros. rewrite cumul_spec, flat_length, seq_S, map_app. cbn [map]. rewrite last_last. reflexivity.
Qed.
Lemma csum_S : forall l k, (k < length l)%nat -> csum l (S k) = (csum l k + nth k l 0)%nat.
Proof.
  intros l k; revert l; induction k; intros l H; destruct l as [|x l]; cbn in H; try lia.
  - unfold csum; cbn; lia.
  - specialize (IHk l ltac:(lia)). unfold csum in *. cbn [firstn nth] in *. unfold list_sum in *; cbn [fold_right] in *. rewrite IHk. lia.
Qed.
Lemma lb_le_len : forall l x, (lowerBound l x <= length l)%nat.
Proof. induction l; intros; cbn; [lia|]. destruct (_ <=? _)%nat; [lia|]. specialize (IHl x); lia. Qed.
Lemma lb_before : forall l x k, (k < lowerBound l x)%nat -> (nth k l 0 < x)%nat.
Proof.
  induction l as [|y l IH]; intros x k H; cbn in H; [lia|]. destruct (x <=? y)%nat eqn:E; [lia|].
  apply Nat.leb_gt in E. destruct k; cbn; [exact E|]. apply IH; lia.
Qed.
Lemma lb_at : forall l x, (lowerBound l x < length l)%nat -> (x <= nth (lowerBound l x) l 0)%nat.
Proof.
  induction l as [|y l IH]; intros x H; cbn in *; [lia|]. destruct (x <=? y)%nat eqn:E; cbn.
  - apply Nat.leb_le; exact E.
  - apply IH; lia.
Qed.
Lemma lb_mono : forall l x y, (x <= y)%nat -> (lowerBound l x <= lowerBound l y)%nat.
Proof.
  induction l as [|z l IH]; intros x y H; cbn; [lia|]. destruct (x <=? z)%nat eqn:E; [lia|].
  apply Nat.leb_gt in E. destruct (y <=? z)%nat eqn:F; [apply Nat.leb_le in F; lia|]. specialize (IH x y H); lia.
Qed.

Section Div.
Variables (P B : nat) (cost : list nat).
Hypothesis HP : (0 < P)%nat.
Hypothesis HB : (0 < B)%nat.
Hypothesis Hc : forall c, In c cost -> (0 < c)%nat.
Let n := (length cost * B)%nat.
Let p := jCostPrev B cost.
Let s := startIndex P B cost.
Let T := csum (flat B cost) n.

Lemma flat_pos : forall i, (i < n)%nat -> (0 < nth i (flat B cost) 0)%nat.
Proof.
  intros i H. rewrite flat_nth by exact HB. apply Hc, nth_In. apply Nat.div_lt_upper_bound; [lia|]. unfold n in H; lia.
Qed.
Lemma csum_lt : forall a b, (a < b)%nat -> (b <= n)%nat -> (csum (flat B cost) a < csum (flat B cost) b)%nat.
Proof.
  intros a b; induction b; intros H1 H2; [lia|].
  rewrite csum_S by (rewrite flat_length; fold n; lia). pose proof (flat_pos b ltac:(lia)).
  destruct (Nat.eq_dec a b) as [->|]; [lia|]. specialize (IHb ltac:(lia) ltac:(lia)). lia.
Qed.
Lemma target_le : forall j, (j <= P)%nat -> (j * T / P <= T)%nat.
Proof. intros. apply Nat.div_le_upper_bound; [lia|]. apply Nat.mul_le_mono_r; assumption. Qed.
Lemma s_unfold : forall j, s j = lowerBound p (j * T / P).
Proof. intros. unfold s, startIndex. cbv zeta. fold p. unfold p at 2. rewrite cumul_last. reflexivity. Qed.
Lemma p_nth : forall k, (k <= n)%nat -> nth k p 0%nat = csum (flat B cost) k.
Proof. intros. apply cumul_nth. exact H. Qed.
Lemma s_le : forall j, (j <= P)%nat -> (s j <= n)%nat.
Proof.
  intros j Hj. rewrite s_unfold. destruct (Nat.le_gt_cases (lowerBound p (j * T / P)) n) as [H|H]; [exact H|].
  apply (lb_before p _ n) in H. rewrite p_nth in H by lia. fold T in H. pose proof (target_le j Hj). lia.
Qed.
Lemma s_0 : s 0 = 0%nat.
Proof. rewrite s_unfold. cbn. rewrite Nat.div_0_l by lia. unfold p. rewrite cumul_spec. cbn. reflexivity. Qed.
Lemma s_P : s P = n.
Proof.
  pose proof (s_le P (Nat.le_refl _)) as H. rewrite s_unfold in *. rewrite Nat.mul_comm, Nat.div_mul in * by lia.
  pose proof (lb_at p T) as H2. assert (length p = S n) as L by apply cumul_length. rewrite L in H2. specialize (H2 ltac:(lia)).
  rewrite p_nth in H2 by exact H. destruct (Nat.eq_dec (lowerBound p T) n) as [E|E]; [exact E|exfalso].
  pose proof (csum_lt (lowerBound p T) n ltac:(lia) (Nat.le_refl _)) as H3. fold T in H3. lia.
Qed.
Lemma s_mono : forall j, (s j <= s (S j))%nat.
Proof.
  intros. rewrite !s_unfold. apply lb_mono. apply Nat.div_le_mono; [lia|]. apply Nat.mul_le_mono_r; lia.
Qed.
Lemma s_cost_lo : forall j, (j <= P)%nat -> (j * T / P <= csum (flat B cost) (s j))%nat.
Proof.
  intros j Hj. pose proof (s_le j Hj) as H. rewrite <- p_nth by exact H. rewrite s_unfold. apply lb_at.
  rewrite <- s_unfold. unfold p; rewrite cumul_length. fold n; lia.
Qed.
Lemma s_cost_hi : forall j m, (j <= P)%nat -> (forall c, In c cost -> (c <= m)%nat) -> (0 < m)%nat ->
  (csum (flat B cost) (s j) < j * T / P + m)%nat.
Proof.
  intros j m Hj Hm Hm0. pose proof (s_le j Hj) as H. destruct (s j) as [|k] eqn:E.
  - change (csum (flat B cost) 0) with 0%nat. apply Nat.lt_le_trans with m; [exact Hm0|apply Nat.le_add_l].
  - rewrite csum_S by (rewrite flat_length; fold n; lia).
    assert (csum (flat B cost) k < j * T / P)%nat as H1.
    { rewrite <- p_nth by lia. apply lb_before. rewrite <- s_unfold, E. lia. }
    assert (nth k (flat B cost) 0 <= m)%nat as H2.
    { rewrite flat_nth by exact HB. apply Hm, nth_In, Nat.div_lt_upper_bound; [lia|]. unfold n in H; lia. }
    lia.
Qed.

Definition pt (i : nat) : nat * nat := (i / B, i mod B)%nat.
Lemma bands_seq : forall q b0 b1, (b0 <= b1)%nat -> (b1 <= B)%nat -> bandsOf q b0 b1 = map pt (seq (q * B + b0) (b1 - b0)).
Proof.
  intros q b0 b1 H0 H1. unfold bandsOf.
  assert (forall len a, (a + len <= B)%nat -> map (pair q) (seq a len) = map pt (seq (q * B + a) len)) as G.
  { induction len as [|len IH]; intros a Ha; cbn; [reflexivity|]. f_equal.
    - unfold pt. rewrite (Nat.add_comm (q*B)), Nat.div_add, Nat.mod_add, Nat.div_small, Nat.mod_small by lia. reflexivity.
    - rewrite IH by lia. replace (q * B + S a)%nat with (S (q * B + a)) by lia. reflexivity. }
  apply G. lia.
Qed.
Definition bandsLS (l : LocalState) := bandsOf (ls_iq l) (ls_bStart l) (ls_bStop l).
Lemma local_step : forall d iq b0 b1, localStates B iq b0 (iq + S d) b1 = LS iq b0 B :: localStates B (S iq) 0 (S iq + d) b1.
Proof.
  intros. unfold localStates. cbv zeta. replace (iq + S d - iq + (if (b1 =? 0)%nat then 0 else 1))%nat with (S (S iq + d - S iq + (if (b1 =? 0)%nat then 0 else 1)))%nat by lia.
  cbn [seq map]. rewrite Nat.add_0_r, Nat.eqb_refl.
  replace (iq =? iq + S d)%nat with false by (symmetry; apply Nat.eqb_neq; lia). f_equal.
  rewrite <- seq_shift, map_map. apply map_ext. intros a.
  replace (iq + S a =? iq)%nat with false by (symmetry; apply Nat.eqb_neq; lia).
  replace (iq + S a)%nat with (S iq + a)%nat by lia. replace (iq + S d)%nat with (S iq + d)%nat by lia.
  destruct (S iq + a =? S iq)%nat; reflexivity.
Qed.
Lemma local_bands : forall d iq b0 b1, (b0 < B)%nat -> (b1 < B)%nat -> (d = 0%nat -> b0 <= b1)%nat ->
  flat_map bandsLS (localStates B iq b0 (iq + d) b1) = map pt (seq (iq * B + b0) (d * B + b1 - b0)).
Proof.
  induction d as [|d IH]; intros iq b0 b1 H0 H1 H2.
  - specialize (H2 eq_refl). rewrite Nat.add_0_r. unfold localStates; cbv zeta. rewrite Nat.sub_diag. destruct (b1 =? 0)%nat eqn:E.
    + apply Nat.eqb_eq in E. subst b1. cbn. reflexivity.
    + cbn [Nat.add seq map flat_map]. rewrite Nat.add_0_r, !Nat.eqb_refl. rewrite app_nil_r. unfold bandsLS; cbn [ls_iq ls_bStart ls_bStop].
      rewrite bands_seq by lia. cbn. reflexivity.
  - rewrite local_step. cbn [flat_map]. rewrite IH by lia. unfold bandsLS at 1; cbn [ls_iq ls_bStart ls_bStop].
    rewrite bands_seq by lia. rewrite <- map_app. f_equal.
    replace (S d * B + b1 - b0)%nat with ((B - b0) + (d * B + b1 - 0))%nat by (cbn [Nat.mul]; lia).
    rewrite seq_app. f_equal. f_equal; cbn [Nat.mul]; lia.
Qed.
Lemma states_bands : forall j, (j < P)%nat -> flat_map bandsLS (statesOf P B cost j) = map pt (seq (s j) (s (S j) - s j)).
Proof.
  intros j Hj. unfold statesOf, bStart, iqStart. fold s. pose proof (s_mono j) as M.
  assert (forall i, i - i / B * B = i mod B)%nat as Mo by (intros; rewrite Nat.mod_eq by lia; lia).
  rewrite !Mo.
  pose proof (Nat.div_le_mono (s j) (s (S j)) B ltac:(lia) M) as D.
  pose proof (Nat.div_mod (s j) B ltac:(lia)) as E0. pose proof (Nat.div_mod (s (S j)) B ltac:(lia)) as E1.
  replace (s (S j) / B)%nat with (s j / B + (s (S j) / B - s j / B))%nat by lia.
  rewrite local_bands.
  - rewrite Nat.mul_sub_distr_r. rewrite (Nat.mul_comm B) in E0, E1. rewrite <- E0.
    f_equal. f_equal. clear -E0 E1 M D. assert (s j / B * B <= s (S j) / B * B)%nat by (apply Nat.mul_le_mono_r; exact D). lia.
  - apply Nat.mod_upper_bound; lia.
  - apply Nat.mod_upper_bound; lia.
  - intros H. assert (s j / B = s (S j) / B)%nat as Q by lia. rewrite Q in E0. lia.
Qed.
Lemma concat_seq : forall m, (m <= P)%nat -> flat_map (fun j => flat_map bandsLS (statesOf P B cost j)) (seq 0 m) = map pt (seq 0 (s m)).
Proof.
  induction m as [|m IH]; intros H.
  - rewrite s_0. reflexivity.
  - rewrite seq_S, flat_map_app, IH by lia. cbn [flat_map Nat.add]. rewrite app_nil_r, states_bands by lia.
    rewrite <- map_app. f_equal. pose proof (s_mono m). replace (s (S m)) with (s m + (s (S m) - s m))%nat at 2 by lia.
    rewrite seq_app. reflexivity.
Qed.
Lemma all_seq : forall Q, allBands Q B = map pt (seq 0 (Q * B)).
Proof.
  induction Q as [|Q IH]; [reflexivity|]. unfold allBands in *. rewrite seq_S, flat_map_app, IH. cbn [flat_map Nat.add]. rewrite app_nil_r.
  rewrite bands_seq by lia. rewrite <- map_app. f_equal. rewrite (Nat.mul_comm (S Q)), Nat.mul_succ_r, (Nat.mul_comm B Q), seq_app. f_equal. f_equal; lia.
Qed.
Lemma partition : flat_map (fun j => flat_map bandsLS (statesOf P B cost j)) (seq 0 P) = allBands (length cost) B.
Proof. rewrite concat_seq by lia. rewrite s_P, all_seq. reflexivity. Qed.

Lemma costs_seq : forall len a, (a + len <= n)%nat ->
  (list_sum (map (fun x => nth (fst x) cost 0%nat) (map pt (seq a len))) + csum (flat B cost) a = csum (flat B cost) (a + len))%nat.
Proof.
  induction len as [|len IH]; intros a H; cbn [seq map]; [rewrite Nat.add_0_r; reflexivity|].
  specialize (IH (S a) ltac:(lia)). replace (a + S len)%nat with (S a + len)%nat by lia. rewrite <- IH.
  rewrite (csum_S _ a) by (rewrite flat_length; fold n; lia). rewrite flat_nth by exact HB. unfold list_sum; cbn [fold_right]. unfold pt at 1; cbn [fst]. lia.
Qed.
Lemma total_cost : T = (B * list_sum cost)%nat.
Proof.
  unfold T, n, csum. rewrite <- flat_length, firstn_all. clear. unfold flat. induction cost as [|c l IH]; [cbn; lia|].
  cbn [flat_map]. rewrite list_sum_app, IH. assert (list_sum (repeat c B) = B * c)%nat as R.
  { clear. induction B as [|b Hb]; [reflexivity|]. cbn [repeat]. change (list_sum (c :: repeat c b)) with (c + list_sum (repeat c b))%nat. rewrite Hb. cbn [Nat.mul]. reflexivity. }
  rewrite R. change (list_sum (c :: l)) with (c + list_sum l)%nat. rewrite Nat.mul_add_distr_l. reflexivity.
Qed.
Lemma balance : forall j m, (j < P)%nat -> (forall c, In c cost -> (c <= m)%nat) -> (0 < m)%nat ->
  (P * list_sum (map (fun x => nth (fst x) cost 0) (flat_map bandsLS (statesOf P B cost j))) < B * list_sum cost + P * m)%nat.
Proof.
  intros j m Hj Hm Hm0. rewrite states_bands by exact Hj. pose proof (s_mono j) as M. pose proof (s_le (S j) Hj) as L.
  pose proof (costs_seq (s (S j) - s j) (s j) ltac:(lia)) as C. replace (s j + (s (S j) - s j))%nat with (s (S j)) in C by lia.
  set (X := list_sum _) in *. rewrite <- total_cost.
  pose proof (s_cost_lo j ltac:(lia)) as A1. pose proof (s_cost_hi (S j) m Hj Hm Hm0) as A2.
  pose proof (Nat.mul_div_le (S j * T) P ltac:(lia)) as B1. pose proof (Nat.mul_succ_div_gt (j * T) P ltac:(lia)) as B2.
  cbn [Nat.mul] in B1. set (u := (j * T / P)%nat) in *. set (v := (S j * T / P)%nat) in *.
  cbn [Nat.mul] in *. fold v in B1. nia.
Qed.
Lemma ranges : forall j l, (j < P)%nat -> In l (statesOf P B cost j) -> (ls_iq l < length cost /\ ls_bStart l <= ls_bStop l /\ ls_bStop l <= B)%nat.
Proof.
  intros j l Hj Hl. unfold statesOf, localStates in Hl; cbv zeta in Hl. apply in_map_iff in Hl. destruct Hl as [a [El Ha]]. apply in_seq in Ha. subst l. cbn [ls_iq ls_bStart ls_bStop].
  unfold bStart, iqStart in *. change (startIndex P B cost) with s in Ha |- *. pose proof (s_mono j) as M. pose proof (s_le (S j) Hj) as L.
  assert (forall i, i - i / B * B = i mod B)%nat as Mo by (intros; rewrite Nat.mod_eq by lia; lia). rewrite !Mo in *.
  pose proof (Nat.div_le_mono (s j) (s (S j)) B ltac:(lia) M) as D.
  pose proof (Nat.div_mod (s j) B ltac:(lia)) as E0. pose proof (Nat.div_mod (s (S j)) B ltac:(lia)) as E1.
  pose proof (Nat.mod_upper_bound (s j) B ltac:(lia)) as U0. pose proof (Nat.mod_upper_bound (s (S j)) B ltac:(lia)) as U1.
  set (q0 := (s j / B)%nat) in *. set (q1 := (s (S j) / B)%nat) in *. set (r0 := (s j mod B)%nat) in *. set (r1 := (s (S j) mod B)%nat) in *.
  assert (q1 <= length cost /\ (r1 <> 0 -> q1 < length cost))%nat as [Q1 Q2].
  { unfold n in L. split.
    - destruct (Nat.le_gt_cases q1 (length cost)); [assumption|exfalso]. assert (B * (length cost + 1) <= B * q1)%nat by (apply Nat.mul_le_mono_l; lia). nia.
    - intros R. destruct (Nat.lt_ge_cases q1 (length cost)); [assumption|exfalso]. assert (B * length cost <= B * q1)%nat by (apply Nat.mul_le_mono_l; lia). nia. }
  repeat split.
  - destruct (r1 =? 0)%nat eqn:Z; [apply Nat.eqb_eq in Z; lia|]. apply Nat.eqb_neq in Z. specialize (Q2 Z). lia.
  - destruct (q0 + a =? q0)%nat eqn:Z0; destruct (q0 + a =? q1)%nat eqn:Z1; try lia.
  - destruct (q0 + a =? q1)%nat; lia.
Qed.
End Div.
