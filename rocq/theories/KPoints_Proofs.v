(** Proofs about k-point folding and spin expansion. *)
From Coq Require Import ZArith Reals List Lia Lra Bool.
From Verif Require Import Base Vec3_Model Vec3_Facts Lattice_Model RealUtil KPoints_Model KPoints_Spec.
Import ListNotations.
Open Scope R_scope.

Lemma fold_plus_total l a : fold_left Rplus l a = a + total l.
Proof. revert a. induction l as [|x l IH]; intros a; cbn; [ring|]. rewrite IH. ring. Qed.
Lemma sumR_total l : sumR l = total l.
Proof. unfold sumR. rewrite fold_plus_total. ring. Qed.
Lemma total_app a b : total (a ++ b) = total a + total b.
Proof. induction a; cbn; [ring|]. rewrite IHa. ring. Qed.
Lemma total_const {A} (l : list A) (f : A -> R) c : (forall x, In x l -> f x = c) -> total (map f l) = INR (List.length l) * c.
Proof.
  induction l as [|x l IH]; intros H; [cbn; ring|]. cbn [map total List.length]. rewrite S_INR, IH by (intros; apply H; right; auto).
  rewrite (H x) by (left; auto). ring.
Qed.
Lemma total_scale {A} (l : list A) (f : A -> R) c : total (map (fun x => f x * c) l) = total (map f l) * c.
Proof. induction l; cbn; [ring|]. rewrite IHl. ring. Qed.

Lemma cong1_refl x : cong1 x x. Proof. exists 0%Z. ring. Qed.
Lemma cong1_sym x y : cong1 x y -> cong1 y x.
Proof. intros (n&H). exists (-n)%Z. rewrite opp_IZR. lra. Qed.
Lemma cong1_trans x y z : cong1 x y -> cong1 y z -> cong1 x z.
Proof. intros (n&H) (m&H'). exists (n+m)%Z. rewrite plus_IZR. lra. Qed.
Lemma congV_refl x : congV x x. Proof. repeat split; apply cong1_refl. Qed.
Lemma congV_sym x y : congV x y -> congV y x.
Proof. intros (A&B&C). repeat split; apply cong1_sym; auto. Qed.
Lemma congV_trans x y z : congV x y -> congV y z -> congV x z.
Proof. intros (A&B&C) (A'&B'&C'). repeat split; eapply cong1_trans; eauto. Qed.

Lemma fmodPositive_1 x : 0 <= fmodPositive x 1 < 1 /\ cong1 (fmodPositive x 1) x.
Proof.
  assert (E : exists n : Z, fmodPositive x 1 = x + IZR n /\ 0 <= fmodPositive x 1 < 1).
  { unfold fmodPositive, rfmod, rtrunc. rewrite Rabs_R1. replace (x/1) with x by field.
    destruct (Rle_dec 0 x) as [h|h].
    - pose proof (rfloor_bounds x). destruct (Rlt_dec _ _); [lra|]. exists (- rfloor x)%Z. rewrite opp_IZR. lra.
    - pose proof (rfloor_bounds (-x)). rewrite opp_IZR. destruct (Rlt_dec _ _).
      + exists (rfloor (-x) + 1)%Z. rewrite plus_IZR. lra.
      + exists (rfloor (-x))%Z. lra. }
  destruct E as (n&E&B). split; auto. exists n. rewrite E. ring.
Qed.

(** ** One coordinate of a folded point *)
Lemma fold1_cong n x i : cong1 (fold1 n x i) ((x + IZR i) / IZR n).
Proof. unfold fold1. destruct (Rlt_dec _ _); [exists (-1)%Z; ring|apply cong1_refl]. Qed.
Lemma fold1_spec n x i : (0 < n)%Z -> 0 <= x < 1 -> (0 <= i < n)%Z ->
  centred (fold1 n x i) /\ cong1 (IZR n * fold1 n x i) x.
Proof.
  intros Hn Hx Hi. assert (0 < IZR n) by (apply IZR_lt; lia).
  assert (B : 0 <= (x + IZR i)/IZR n < 1).
  { assert (0 <= IZR i) by (apply IZR_le; lia). assert (IZR i <= IZR n - 1) by (rewrite <- minus_IZR; apply IZR_le; lia). split.
    - apply Rmult_le_pos; [lra|]. left; apply Rinv_0_lt_compat; auto.
    - apply Rmult_lt_reg_r with (IZR n); auto. unfold Rdiv. rewrite Rmult_assoc, Rinv_l by lra. lra. }
  unfold centred, fold1. destruct (Rlt_dec _ _); (split; [lra|]).
  - exists (i - n)%Z. rewrite minus_IZR. field. lra.
  - exists i. field. lra.
Qed.
Lemma fold1_inj n x i j : (0 < n)%Z -> (0 <= i < n)%Z -> (0 <= j < n)%Z -> cong1 (fold1 n x i) (fold1 n x j) -> i = j.
Proof.
  intros Hn Hi Hj H. assert (0 < IZR n) by (apply IZR_lt; lia).
  assert (C : cong1 ((x + IZR i)/IZR n) ((x + IZR j)/IZR n)).
  { eapply cong1_trans; [apply cong1_sym, fold1_cong|]. eapply cong1_trans; [exact H|apply fold1_cong]. }
  destruct C as (m&C). assert (E : IZR (i - j) = IZR (m*n)).
  { rewrite minus_IZR, mult_IZR, <- C. field. lra. }
  apply eq_IZR in E. assert (m = 0)%Z by (clear -E Hi Hj Hn; nia). subst m. lia.
Qed.
Lemma fold1_complete n x y : (0 < n)%Z -> 0 <= x < 1 -> cong1 (IZR n * y) x -> exists i, (0 <= i < n)%Z /\ cong1 (fold1 n x i) y.
Proof.
  intros Hn Hx (m&H). assert (0 < IZR n) by (apply IZR_lt; lia).
  exists (m mod n)%Z. split; [apply Z.mod_pos_bound; auto|]. eapply cong1_trans; [apply fold1_cong|].
  exists (- (m / n))%Z. rewrite opp_IZR. assert (E : IZR m = IZR n * IZR (m/n) + IZR (m mod n)).
  { rewrite <- mult_IZR, <- plus_IZR. f_equal. apply Z.div_mod. lia. }
  assert (y = (x + IZR m)/IZR n) by (field_simplify_eq; [lra|lra]).
  rewrite H1, E. field. lra.
Qed.

(** ** The block of points generated from one k-point *)
Definition trips (n : vec Z) : list (Z*Z*Z) :=
  flat_map (fun i0 => flat_map (fun i1 => map (fun i2 => (i0,i1,i2)) (zrange 0 (c2 n))) (zrange 0 (c1 n))) (zrange 0 (c0 n)).
Definition fold_pt (n : vec Z) (q : qnum) (t : Z*Z*Z) : qnum :=
  let '(i0,i1,i2) := t in
  QN (V (fold1 (c0 n) (c0 (q_k q)) i0) (fold1 (c1 n) (c1 (q_k q)) i1) (fold1 (c2 n) (c2 (q_k q)) i2))
    (q_spin q) (q_w q / IZR (c0 n * c1 n * c2 n)).
Lemma fold_one_map n q : fold_one n q = map (fold_pt n q) (trips n).
Proof.
  unfold fold_one, trips. rewrite !flat_map_concat_map, concat_map, map_map. f_equal. apply map_ext. intros i0.
  rewrite !flat_map_concat_map, concat_map, map_map. f_equal. apply map_ext. intros i1. rewrite map_map. reflexivity.
Qed.
Lemma in_trips n t : In t (trips n) <-> (0 <= fst (fst t) < c0 n)%Z /\ (0 <= snd (fst t) < c1 n)%Z /\ (0 <= snd t < c2 n)%Z.
Proof.
  unfold trips. destruct t as [[a b] c]. cbn. rewrite in_flat_map. split.
  - intros (i0&H0&H). apply in_flat_map in H as (i1&H1&H). apply in_map_iff in H as (i2&E&H2). injection E as -> -> ->.
    apply in_zrange in H0, H1, H2. lia.
  - intros (H0&H1&H2). exists a. split; [apply in_zrange; lia|]. apply in_flat_map. exists b. split; [apply in_zrange; lia|].
    apply in_map_iff. exists c. split; auto. apply in_zrange; lia.
Qed.
Lemma NoDup_trips n : NoDup (trips n).
Proof.
  unfold trips. apply NoDup_flat_map.
  - apply zrange_NoDup.
  - intros i0 _. apply NoDup_flat_map.
    + apply zrange_NoDup.
    + intros i1 _. apply FinFun.Injective_map_NoDup; [|apply zrange_NoDup]. intros x y E. injection E; auto.
    + intros a a' b _ _ H H'. apply in_map_iff in H as (?&<-&_), H' as (?&E&_). injection E; auto.
  - intros a a' b _ _ H H'. apply in_flat_map in H as (?&_&H), H' as (?&_&H').
    apply in_map_iff in H as (?&<-&_), H' as (?&E&_). injection E; auto.
Qed.
Lemma flat_map_length_const {A B} (f : A -> list B) l c : (forall x, In x l -> List.length (f x) = c) ->
  List.length (flat_map f l) = (List.length l * c)%nat.
Proof. induction l; intros H; cbn; auto. rewrite app_length, IHl by (intros; apply H; right; auto). rewrite H by (left; auto). lia. Qed.
Lemma length_trips n : (0 <= c0 n)%Z -> (0 <= c1 n)%Z -> (0 <= c2 n)%Z -> Z.of_nat (List.length (trips n)) = (c0 n * c1 n * c2 n)%Z.
Proof.
  intros H0 H1 H2. unfold trips. rewrite (flat_map_length_const _ _ (Z.to_nat (c1 n) * Z.to_nat (c2 n))).
  - rewrite zrange_length, Z.sub_0_r. nia.
  - intros i0 _. rewrite (flat_map_length_const _ _ (Z.to_nat (c2 n))).
    + rewrite zrange_length, Z.sub_0_r. reflexivity.
    + intros i1 _. rewrite map_length, zrange_length, Z.sub_0_r. reflexivity.
Qed.
Lemma map_ordpairs {A B} (P : B -> B -> Prop) (f : A -> B) l : NoDup l -> (forall x y, In x l -> In y l -> x <> y -> P (f x) (f y)) ->
  ForallOrdPairs P (map f l).
Proof.
  induction l as [|x l IH]; intros Hn H; cbn; constructor; inversion Hn; subst.
  - apply Forall_forall. intros y Hy. apply in_map_iff in Hy as (z&<-&Hz). apply H; [left; auto|right; auto|]. intros ->; contradiction.
  - apply IH; auto. intros; apply H; auto; right; auto.
Qed.

Definition positive (n : vec Z) : Prop := (0 < c0 n)%Z /\ (0 < c1 n)%Z /\ (0 < c2 n)%Z.
Definition unit_k (q : qnum) : Prop := 0 <= c0 (q_k q) < 1 /\ 0 <= c1 (q_k q) < 1 /\ 0 <= c2 (q_k q) < 1.

Lemma fold_one_folded n q : positive n -> unit_k q -> folded n q (fold_one n q).
Proof.
  intros (H0&H1&H2) (U0&U1&U2). rewrite fold_one_map.
  assert (EL : Z.of_nat (List.length (trips n)) = (c0 n * c1 n * c2 n)%Z) by (apply length_trips; lia).
  assert (P : (0 < c0 n * c1 n * c2 n)%Z) by nia.
  constructor.
  - rewrite map_length. exact EL.
  - rewrite map_map. rewrite (total_const _ _ (q_w q / IZR (c0 n * c1 n * c2 n))).
    + rewrite INR_IZR_INZ, EL. field. apply not_0_IZR. lia.
    + intros [[a b] c] _. reflexivity.
  - intros p p' Hp Hp'. apply in_map_iff in Hp as ([[a b] c]&<-&_), Hp' as ([[a' b'] c']&<-&_). reflexivity.
  - intros p Hp. apply in_map_iff in Hp as ([[a b] c]&<-&_). reflexivity.
  - intros p Hp. apply in_map_iff in Hp as ([[a b] c]&<-&Ht). apply in_trips in Ht. cbn in Ht. cbn.
    destruct Ht as (Ta&Tb&Tc). repeat split; apply fold1_spec; auto.
  - intros p Hp. apply in_map_iff in Hp as ([[a b] c]&<-&Ht). apply in_trips in Ht. cbn in Ht.
    destruct Ht as (Ta&Tb&Tc). repeat split; cbn; apply fold1_spec; auto.
  - intros k (K0&K1&K2). cbn in *.
    destruct (fold1_complete (c0 n) (c0 (q_k q)) (c0 k)) as (a&Ha&Ca); auto.
    destruct (fold1_complete (c1 n) (c1 (q_k q)) (c1 k)) as (b&Hb&Cb); auto.
    destruct (fold1_complete (c2 n) (c2 (q_k q)) (c2 k)) as (c&Hc&Cc); auto.
    exists (fold_pt n q (a,b,c)). split; [apply in_map, in_trips; cbn; auto|]. repeat split; cbn; auto.
  - apply map_ordpairs; [apply NoDup_trips|]. intros [[a b] c] [[a' b'] c'] Ht Ht' Hne (C0&C1&C2). cbn in *.
    apply in_trips in Ht, Ht'. cbn in *. destruct Ht as (Ta&Tb&Tc), Ht' as (Ta'&Tb'&Tc').
    apply fold1_inj in C0; auto. apply fold1_inj in C1; auto. apply fold1_inj in C2; auto. subst. apply Hne; reflexivity.
Qed.
Lemma folded_cong n q q' b : q_spin q = q_spin q' -> q_w q = q_w q' -> congV (q_k q) (q_k q') -> folded n q b -> folded n q' b.
Proof.
  intros Es Ew C [A1 A2 A3 A4 A5 A6 A7 A8]. constructor; auto.
  - congruence.
  - intros p Hp. rewrite (A4 p Hp); auto.
  - intros p Hp. eapply congV_trans; [apply A6; auto|auto].
  - intros k Hk. apply A7. eapply congV_trans; [exact Hk|apply congV_sym; auto].
Qed.
Lemma fold_regular n q : positive n -> folded n q (fold_one n (regularize q)).
Proof.
  intros Hn. apply folded_cong with (regularize q); try reflexivity.
  - repeat split; cbn; apply fmodPositive_1.
  - apply fold_one_folded; auto. repeat split; cbn; apply fmodPositive_1.
Qed.

Lemma kpointsFold_spec n qs out : positive n -> kpointsFold n qs = Some out ->
  exists blocks, out = concat blocks /\ Forall2 (folded n) qs blocks.
Proof.
  intros Hn. unfold kpointsFold. destruct (Rlt_dec _ _); [discriminate|]. intros H. injection H as <-.
  exists (map (fun q => fold_one n (regularize q)) qs). split.
  - rewrite flat_map_concat_map, map_map. reflexivity.
  - induction qs; cbn; constructor; auto. apply fold_regular; auto.
    (* induction hypothesis not needed beyond the structure *)
    clear -Hn. induction qs; cbn; constructor; auto. apply fold_regular; auto.
Qed.
Lemma kpointsFold_accepts n qs : kpointsFold n qs = None <-> 1/1000000000000 < Rabs (total (map q_w qs) - 1).
Proof.
  unfold kpointsFold. rewrite sumR_total. destruct (Rlt_dec _ _); split; intros; try lra; auto; discriminate.
Qed.
Lemma folded_totals n qs blocks : Forall2 (folded n) qs blocks ->
  Z.of_nat (List.length (concat blocks)) = (c0 n * c1 n * c2 n * Z.of_nat (List.length qs))%Z /\
  total (map q_w (concat blocks)) = total (map q_w qs).
Proof.
  induction 1 as [|q b qs bs F _ (IH1&IH2)]; [cbn; split; [lia|reflexivity]|]. cbn [concat]. rewrite app_length, map_app, total_app. destruct F. split.
  - cbn [List.length]. nia.
  - cbn. rewrite IH2, fd_weight. reflexivity.
Qed.
Lemma timesV_cong n a b : congV a b -> congV (timesV n a) (timesV n b).
Proof.
  intros ((x&X)&(y&Y)&(z&Z0)). repeat split; cbn.
  - exists (c0 n * x)%Z. rewrite mult_IZR, <- X. ring.
  - exists (c1 n * y)%Z. rewrite mult_IZR, <- Y. ring.
  - exists (c2 n * z)%Z. rewrite mult_IZR, <- Z0. ring.
Qed.
Lemma ordpairs_app {A} (P : A -> A -> Prop) l l' : ForallOrdPairs P l -> ForallOrdPairs P l' ->
  (forall x y, In x l -> In y l' -> P x y) -> ForallOrdPairs P (l ++ l').
Proof.
  induction 1 as [|x l Hx Hl IH]; intros Hl' H; cbn; auto. constructor.
  - apply Forall_app. split; auto. apply Forall_forall. intros; apply H; auto; left; auto.
  - apply IH; auto. intros; apply H; auto; right; auto.
Qed.
Lemma folded_distinct n qs blocks : Forall2 (folded n) qs blocks ->
  ForallOrdPairs (fun p p' => ~ congV (q_k p) (q_k p')) qs ->
  ForallOrdPairs (fun p p' => ~ congV (q_k p) (q_k p')) (concat blocks).
Proof.
  induction 1 as [|q b qs bs F Fs IH]; intros D; cbn; [constructor|]. inversion D as [|? ? Dq Ds]; subst.
  apply ordpairs_app; [apply F|apply IH; auto|]. intros x y Hx Hy C.
  apply in_concat in Hy as (b'&Hb'&Hy). clear IH D Ds. induction Fs as [|q' b0 qs bs F' Fs IHf]; [contradiction|].
  inversion Dq as [|? ? Dq' Dqs]; subst. destruct Hb' as [<-|Hb']; [|apply IHf; auto].
  apply Dq'. eapply congV_trans; [apply congV_sym, (fd_multiple _ _ _ F); eauto|].
  eapply congV_trans; [apply timesV_cong; exact C|]. apply (fd_multiple _ _ _ F'); auto.
Qed.

(** ** Spin expansion *)
Lemma expandSpins_spec st qs : let out := expandSpins st qs in
  List.length out = (channels st * List.length qs)%nat /\
  total (map q_w out) = per_kpoint st * total (map q_w qs) /\
  (st <> SpinZ -> out = map (fun q => QN (q_k q) (q_spin q) (q_w q * per_kpoint st)) qs) /\
  (st = SpinZ -> out = map (fun q => QN (q_k q) 1 (q_w q)) qs ++ map (fun q => QN (q_k q) (-1) (q_w q)) qs).
Proof.
  cbn zeta. unfold expandSpins. set (up := map _ qs).
  assert (U : total (map q_w up) = IZR (spinWeight st) * total (map q_w qs)).
  { unfold up. rewrite map_map. cbn. rewrite (total_scale qs q_w). ring. }
  assert (L : List.length up = List.length qs) by (unfold up; apply map_length).
  destruct st; cbn [channels per_kpoint spinWeight] in *.
  - split; [lia|]. split; [rewrite U; cbn; ring|]. split; [reflexivity|discriminate].
  - assert (E : map (fun q => QN (q_k q) 1 (q_w q)) up = map (fun q => QN (q_k q) 1 (q_w q)) qs).
    { unfold up. rewrite map_map. apply map_ext. intros q. cbn. f_equal. ring. }
    rewrite E. split; [rewrite app_length, !map_length; lia|]. split; [|split; [congruence|reflexivity]].
    rewrite map_app, total_app, !map_map. cbn. change (fun x : qnum => q_w x) with q_w. ring.
  - split; [lia|]. split; [rewrite U; cbn; ring|]. split; [reflexivity|discriminate].
  - split; [lia|]. split; [rewrite U; cbn; ring|]. split; [reflexivity|discriminate].
Qed.
