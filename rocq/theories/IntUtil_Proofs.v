(** Lemmas for the integer helpers and error collection. *)
From Coq Require Import ZArith List Lia Bool.
From Verif Require Import Base Grid_Model FFTBox_Model FFTBox_Proofs IntUtil_Model.
Import ListNotations.
Open Scope Z_scope.

Lemma to_int16_id x : -32768 <= x < 32768 -> to_int16 x = x.
Proof. intros. unfold to_int16. change (2^15) with 32768. change (2^16) with 65536. rewrite Z.mod_small by lia. lia. Qed.
Lemma to_uint16_id x : 0 <= x < 65536 -> to_uint16 x = x.
Proof. intros. unfold to_uint16. apply Z.mod_small. change (2^16) with 65536. lia. Qed.

Lemma rem_bounds x y : 0 < y -> - y < Z.rem x y < y.
Proof.
  intros Hy. destruct (Z.le_gt_cases 0 x).
  - pose proof (Z.rem_bound_pos x y ltac:(lia) ltac:(lia)). lia.
  - pose proof (Z.rem_bound_pos (-x) y ltac:(lia) ltac:(lia)) as H0. rewrite Z.rem_opp_l in H0 by lia. lia.
Qed.
Lemma rem_as_mod x y : 0 < y -> (if Z.rem x y <? 0 then y + Z.rem x y else Z.rem x y) = x mod y.
Proof.
  intros Hy. pose proof (Z.quot_rem x y ltac:(lia)) as E. pose proof (rem_bounds x y Hy).
  destruct (Z.ltb_spec (Z.rem x y) 0) as [N|N].
  - apply Z.mod_unique with (Z.quot x y - 1); [left; lia|lia].
  - apply Z.mod_unique with (Z.quot x y); [left; lia|lia].
Qed.
Lemma positiveRemainder_ok x y : -32768 <= x < 32768 -> 0 < y < 65536 -> positiveRemainder x y = Some (x mod y).
Proof.
  intros Hx Hy. unfold positiveRemainder. rewrite (to_int16_id x), (to_uint16_id y) by lia.
  destruct (Z.eqb_spec y 0); [lia|]. f_equal. rewrite <- rem_as_mod by lia.
  assert (R : -32768 <= Z.rem x y < 32768).
  { destruct (Z.le_gt_cases 0 x).
    - pose proof (Z.rem_le x y ltac:(lia) ltac:(lia)). pose proof (Z.rem_nonneg x y ltac:(lia) ltac:(lia)). lia.
    - pose proof (Z.rem_nonpos x y ltac:(lia) ltac:(lia)).
      pose proof (Z.rem_le (-x) y ltac:(lia) ltac:(lia)). rewrite Z.rem_opp_l in H1 by lia. lia. }
  pose proof (rem_bounds x y ltac:(lia)) as B.
  rewrite to_int16_id by lia. destruct (Z.ltb_spec (Z.rem x y) 0); apply to_uint16_id; lia.
Qed.

Lemma ceildiv_least num den q : 0 < den -> - den < num -> (num <= q*den <-> ceildiv num den <= q).
Proof.
  intros Hd Hn. unfold ceildiv. rewrite Z.quot_div_nonneg by lia. split; intros H.
  - enough ((num+den-1)/den < q+1) by lia. apply Z.div_lt_upper_bound; [lia|]. lia.
  - pose proof (Z.div_mod (num+den-1) den ltac:(lia)). pose proof (Z.mod_pos_bound (num+den-1) den Hd). nia.
Qed.
Lemma floorMultiple_spec num den : 0 < den -> 0 <= num ->
  (den | floorMultiple num den) /\ floorMultiple num den <= num /\ forall m, (den | m) -> m <= num -> m <= floorMultiple num den.
Proof.
  intros Hd Hn. unfold floorMultiple. rewrite Z.quot_div_nonneg by lia. split; [exists (num/den); reflexivity|].
  split; [rewrite Z.mul_comm; apply Z.mul_div_le; lia|]. intros m [q ->] H.
  apply Z.mul_le_mono_nonneg_r; [lia|]. apply Z.div_le_lower_bound; lia.
Qed.

Lemma gcd_rem x y : y <> 0 -> Z.gcd y (Z.rem x y) = Z.gcd x y.
Proof.
  intros Hy. pose proof (Z.quot_rem x y Hy) as E. rewrite (Z.gcd_comm x y).
  replace x with (Z.rem x y + Z.quot x y * y) at 2 by lia. symmetry. apply Z.gcd_add_mult_diag_r.
Qed.
Lemma gcd_loop_signed fuel x y : Z.abs y < Z.of_nat fuel -> exists g, gcd_loop fuel x y = Some g /\ Z.abs g = Z.gcd x y.
Proof.
  revert x y. induction fuel as [|f IH]; intros x y Hy; [lia|]. cbn [gcd_loop].
  destruct (Z.eqb_spec y 0) as [->|N]; [exists x; split; [reflexivity|now rewrite Z.gcd_0_r]|].
  destruct (IH y (Z.rem x y)) as (g&E&G).
  - pose proof (Z.rem_bound_abs x y N). lia.
  - exists g. split; [exact E|]. rewrite G. apply gcd_rem; auto.
Qed.
Lemma gcdReduce_signed a b c : (a,b,c) <> (0,0,0) -> exists N, forall fuel, (N <= fuel)%nat ->
  exists g a' b' c', gcdReduce fuel (a,b,c) = Some (a',b',c') /\ a = g*a' /\ b = g*b' /\ c = g*c' /\
    Z.abs g = Z.gcd (Z.gcd a b) c /\ Z.gcd (Z.gcd a' b') c' = 1.
Proof.
  intros Hz. exists (Z.to_nat (Z.abs b + Z.abs c + 1)). intros fuel Hf. unfold gcdReduce.
  destruct (gcd_loop_signed fuel a b) as (g1&E1&G1); [lia|]. rewrite E1.
  destruct (gcd_loop_signed fuel g1 c) as (g&E2&G2); [lia|]. rewrite E2.
  assert (G : Z.abs g = Z.gcd (Z.gcd a b) c) by (rewrite G2, <- G1; now rewrite Z.gcd_abs_l).
  assert (Da : (g | a)) by (apply Z.divide_abs_l; rewrite G; eapply Z.divide_trans; [apply Z.gcd_divide_l|apply Z.gcd_divide_l]).
  assert (Db : (g | b)) by (apply Z.divide_abs_l; rewrite G; eapply Z.divide_trans; [apply Z.gcd_divide_l|apply Z.gcd_divide_r]).
  assert (Dc : (g | c)) by (apply Z.divide_abs_l; rewrite G; apply Z.gcd_divide_r).
  assert (Ng : g <> 0).
  { intros ->. apply Z.divide_0_l in Da. apply Z.divide_0_l in Db. apply Z.divide_0_l in Dc. subst. auto. }
  destruct (Z.eqb_spec g 0); [contradiction|].
  destruct Da as [x ->], Db as [y ->], Dc as [z ->]. rewrite !Z.quot_mul by auto.
  exists g, x, y, z. split; [reflexivity|]. split; [ring|]. split; [ring|]. split; [ring|]. split; [auto|].
  rewrite Z.gcd_mul_mono_r in G.
  assert (GG : Z.abs g = Z.gcd (Z.gcd x y) z * Z.abs g).
  { rewrite <- Z.gcd_mul_mono_r. rewrite <- (Z.gcd_abs_l (Z.gcd x y * g)), Z.abs_mul, (Z.abs_eq (Z.gcd x y)) by apply Z.gcd_nonneg. exact G. }
  assert (0 < Z.abs g) by lia. nia.
Qed.

Lemma wrappedIndex_mod i S : (forall k, 0 <= get i k < 2 * get S k) ->
  wrappedIndex i S = v2 i mod v2 S + v2 S * (v1 i mod v1 S + v1 S * (v0 i mod v0 S)).
Proof.
  intros H. assert (W : forall a s, 0 <= a < 2*s -> wrap_once a s = a mod s).
  { intros a s Ha. unfold wrap_once. destruct (Z.leb_spec s a).
    - apply Z.mod_unique with 1; lia.
    - symmetry. apply Z.mod_small. lia. }
  destruct i as [[a b] c], S as [[x y] z]. pose proof (H 0%nat). pose proof (H 1%nat). pose proof (H 2%nat). cbn in *.
  unfold wrappedIndex. cbn. now rewrite !W by auto.
Qed.

(** Error collection *)
Lemma write_at_length b off s : (off + length s <= length b)%nat -> length (write_at b off s) = length b.
Proof. intros. unfold write_at. rewrite !app_length, firstn_length, skipn_length. lia. Qed.
Lemma write_at_prefix P R s : (length s <= length R)%nat -> write_at (P ++ R) (length P) s = P ++ s ++ skipn (length s) R.
Proof.
  intros. unfold write_at. rewrite firstn_app, Nat.sub_diag, firstn_all. cbn [firstn]. rewrite app_nil_r. f_equal. f_equal.
  rewrite skipn_app, skipn_all2 by lia. cbn [app]. f_equal. lia.
Qed.
Lemma slice_prefix P s R : slice (P ++ s ++ R) (length P) (length s) = s.
Proof.
  unfold slice. rewrite skipn_app, skipn_all, Nat.sub_diag. cbn [skipn app].
  rewrite firstn_app, firstn_all, Nat.sub_diag. cbn. apply app_nil_r.
Qed.
(** All buffers share the prefix written so far; the rest has the same length everywhere. *)
Definition shared (bufs : list (list Z)) (P : list Z) (rest : nat) := Forall (fun b => exists R, b = P ++ R /\ length R = rest) bufs.

Lemma nth_combine_seq {A} (l : list A) d : forall k i, (i < length l)%nat -> nth i (combine (seq k (length l)) l) (0%nat,d) = ((k+i)%nat, nth i l d).
Proof.
  induction l as [|x l IH]; intros k i Hi; cbn in *; [lia|]. destruct i; [f_equal; lia|]. rewrite IH by lia. f_equal. lia.
Qed.

Lemma in_combine_seq {A} (l : list A) k p : In p (combine (seq k (length l)) l) -> In (snd p) l.
Proof. destruct p. apply in_combine_r. Qed.

Lemma check_round_shared bufs P s rest j : shared bufs P rest -> (length s <= rest)%nat -> (j < length bufs)%nat ->
  exists bufs', check_round (bufs, length P) (j, s) = (bufs', length (P ++ s)) /\ shared bufs' (P++s) (rest - length s) /\ length bufs' = length bufs.
Proof.
  intros Hs Hl Hj. unfold check_round.
  set (g := fun ib : nat * list Z => if Nat.eqb (fst ib) j then write_at (snd ib) (length P) s else snd ib).
  set (bufs1 := map g (combine (seq 0 (length bufs)) bufs)).
  assert (L1 : length bufs1 = length bufs) by (subst bufs1; rewrite map_length, combine_length, seq_length; lia).
  assert (S1 : shared bufs1 P rest).
  { apply Forall_forall. intros b Hb. apply in_map_iff in Hb as (p&<-&Hp). apply in_combine_seq in Hp as Hi.
    unfold shared in Hs. rewrite Forall_forall in Hs. destruct (Hs _ Hi) as (R&E&LR). unfold g. destruct (Nat.eqb (fst p) j).
    - rewrite E, write_at_prefix by lia. exists (s ++ skipn (length s) R). split; [reflexivity|].
      rewrite app_length, skipn_length. lia.
    - exists R. auto. }
  assert (Nj : exists R, nth j bufs1 [] = P ++ s ++ R).
  { assert (Enth : nth j bufs1 [] = g (j, nth j bufs [])).
    { subst bufs1. rewrite nth_indep with (d' := g (0%nat,[])) by (rewrite map_length, combine_length, seq_length; lia).
      rewrite map_nth. rewrite nth_combine_seq by auto. reflexivity. }
    rewrite Enth. unfold g. cbn [fst snd]. rewrite Nat.eqb_refl.
    unfold shared in Hs. rewrite Forall_forall in Hs. destruct (Hs (nth j bufs [])) as (R&E&LR); [apply nth_In; auto|].
    rewrite E, write_at_prefix by lia. eexists. reflexivity. }
  destruct Nj as [Rj Ej]. rewrite Ej, slice_prefix.
  eexists. split; [rewrite app_length; reflexivity|]. split; [|rewrite map_length; auto].
  apply Forall_forall. intros b Hb. apply in_map_iff in Hb as (b1&<-&Hb1). unfold shared in S1. rewrite Forall_forall in S1.
  destruct (S1 _ Hb1) as (R&E&LR). rewrite E, write_at_prefix by lia. exists (skipn (length s) R). split; [now rewrite app_assoc|].
  rewrite skipn_length. lia.
Qed.

Lemma check_fold msgs : forall k bufs P rest, shared bufs P rest -> (k + length msgs <= length bufs)%nat ->
  (fold_right (fun s n => (length s + n)%nat) 0%nat msgs <= rest)%nat ->
  exists bufs', fst (fold_left check_round (combine (seq k (length msgs)) msgs) (bufs, length P)) = bufs' /\
    shared bufs' (P ++ concat msgs) (rest - fold_right (fun s n => (length s + n)%nat) 0%nat msgs) /\ length bufs' = length bufs.
Proof.
  induction msgs as [|s msgs IH]; intros k bufs P rest Hs Hk Hr; cbn [length seq combine fold_left fold_right concat] in *.
  - exists bufs. split; [reflexivity|]. rewrite app_nil_r, Nat.sub_0_r. auto.
  - destruct (check_round_shared bufs P s rest k Hs) as (b1&E1&S1&L1); [lia|lia|]. rewrite E1.
    destruct (IH (S k) b1 (P++s) (rest - length s)%nat S1) as (b2&E2&S2&L2); [lia|lia|].
    exists b2. split; [exact E2|]. split; [|lia]. rewrite <- app_assoc in S2. replace (rest - (length s + _))%nat with
      (rest - length s - fold_right (fun s n => (length s + n)%nat) 0%nat msgs)%nat by lia. exact S2.
Qed.

Lemma total_length (msgs : list (list Z)) : fold_right (fun s n => (length s + n)%nat) 0%nat msgs = length (concat msgs).
Proof. induction msgs; cbn; [reflexivity|]. rewrite app_length. lia. Qed.

Lemma c_str_id s : Forall (fun c => c <> 0) s -> c_str s = s.
Proof.
  induction s as [|c s IH]; intros H; [reflexivity|]. inversion H; subst. cbn. destruct (Z.eqb_spec c 0); [contradiction|]. now rewrite IH.
Qed.

Lemma checkErrors_spec msgs : Forall (Forall (fun c => c <> 0)) msgs ->
  checkErrors msgs = if forallb (fun s => match s with [] => true | _ => false end) msgs
                     then map (fun _ => Continues) msgs
                     else map (fun _ => Stops (concat msgs ++ [10])) msgs.
Proof.
  intros Hc. unfold checkErrors. rewrite total_length.
  assert (E : Nat.eqb (length (concat msgs)) 0 = forallb (fun s => match s with [] => true | _ => false end) msgs).
  { clear. induction msgs as [|[|c s] l IH]; [reflexivity|exact IH|reflexivity]. }
  rewrite E. destruct (forallb _ msgs) eqn:F; [reflexivity|].
  set (n := length (concat msgs)). set (bufs := map (fun _ : list Z => repeat 32 n) msgs).
  destruct (check_fold msgs 0 bufs [] n) as (b&Eb&Sb&Lb).
  - apply Forall_forall. intros x Hx. apply in_map_iff in Hx as (?&<-&_). exists (repeat 32 n). split; [reflexivity|apply repeat_length].
  - subst bufs. rewrite map_length. lia.
  - rewrite total_length. subst n. lia.
  - cbn [length] in Eb. destruct (fold_left check_round _ _) as [b' off]. cbn [fst] in Eb. subst b'.
    assert (Lb' : length b = length msgs) by (rewrite Lb; subst bufs; apply map_length).
    rewrite total_length in Sb. fold n in Sb. rewrite Nat.sub_diag in Sb. cbn [app] in Sb.
    assert (Ab : b = repeat (concat msgs) (length msgs)).
    { rewrite <- Lb'. apply Forall_eq_repeat. eapply Forall_impl; [|exact Sb]. cbv beta. intros x (R&->&LR).
      destruct R; [now rewrite app_nil_r|discriminate]. }
    rewrite Ab. assert (Cs : c_str (concat msgs ++ [10]) = concat msgs ++ [10]).
    { apply c_str_id, Forall_app. split; [|constructor; [lia|constructor]]. apply Forall_forall. intros c Hin.
      apply in_concat in Hin as (s&Hs&Hc'). rewrite Forall_forall in Hc. specialize (Hc s Hs). rewrite Forall_forall in Hc. auto. }
    clear - Cs. assert (G : forall X k, map (fun b => Stops (c_str (b ++ [10]))) (repeat X k) = repeat (Stops (c_str (X ++ [10]))) k).
    { induction k; cbn; [reflexivity|]. now rewrite IHk. }
    rewrite G, Cs. generalize (Stops (concat msgs ++ [10])). intros r. clear. induction msgs; cbn; [reflexivity|]. now rewrite IHmsgs.
Qed.
