From Coq Require Import ZArith List Lia Permutation Bool.
From Verif Require Import Base WorkDiv_Model.
Import ListNotations.
Open Scope Z_scope.

Definition bound (n p i : Z) : Z := (n * i) / p.

Lemma bound_mono n p i j : 0 <= n -> 0 < p -> i <= j -> bound n p i <= bound n p j.
Proof. intros. unfold bound. apply Z.div_le_mono; nia. Qed.

Lemma bound_0 n p : 0 < p -> bound n p 0 = 0.
Proof. intros. unfold bound. rewrite Z.mul_0_r. apply Z.div_0_l. lia. Qed.

Lemma bound_p n p : 0 < p -> bound n p p = n.
Proof. intros. unfold bound. apply Z.div_mul. lia. Qed.

Lemma stopArr_length n p : 0 < p -> length (stopArr n p) = Z.to_nat p.
Proof. intros. unfold stopArr. rewrite map_length, zrange_length. f_equal; lia. Qed.

Lemma td_stop_eq n p i : 0 < p -> 0 <= i < p -> td_stop (stopArr n p) i = bound n p (i+1).
Proof.
  intros Hp Hi. unfold td_stop, stopArr, bound.
  rewrite nth_indep with (d' := (fun iProc => n * (iProc + 1) / p) 0)
    by (rewrite map_length, zrange_length; lia).
  rewrite (map_nth (fun iProc => n * (iProc + 1) / p)), nth_zrange by lia.
  reflexivity.
Qed.

Lemma td_start_eq n p i : 0 < p -> 0 <= i < p -> td_start (stopArr n p) i = bound n p i.
Proof.
  intros Hp Hi. unfold td_start. destruct (Z.eqb_spec i 0).
  - subst. symmetry. apply bound_0; auto.
  - change (td_stop (stopArr n p) (i-1) = bound n p i). rewrite td_stop_eq by lia. f_equal; lia.
Qed.

Lemma td_partition n p : 0 <= n -> 0 < p ->
  concat (map (fun i => zrange (td_start (stopArr n p) i) (td_stop (stopArr n p) i)) (zrange 0 p))
  = zrange 0 n.
Proof.
  intros Hn Hp.
  transitivity (concat (map (fun i => zrange (bound n p i) (bound n p (i+1))) (zrange 0 p))).
  - f_equal. apply map_ext_in. intros i Hi. apply in_zrange in Hi.
    rewrite td_start_eq, td_stop_eq by lia. reflexivity.
  - rewrite concat_map_zrange; [|lia|intros; apply bound_mono; lia].
    rewrite bound_0, bound_p by lia. reflexivity.
Qed.

Lemma div_load n p i : 0 <= n -> 0 < p ->
  n / p <= bound n p (i+1) - bound n p i <= (n + p - 1) / p.
Proof.
  intros Hn Hp. unfold bound.
  pose proof (Z.div_mod n p ltac:(lia)). pose proof (Z.mod_pos_bound n p Hp).
  pose proof (Z.div_mod (n*i) p ltac:(lia)). pose proof (Z.mod_pos_bound (n*i) p Hp).
  pose proof (Z.div_mod (n*(i+1)) p ltac:(lia)). pose proof (Z.mod_pos_bound (n*(i+1)) p Hp).
  pose proof (Z.div_mod (n+p-1) p ltac:(lia)). pose proof (Z.mod_pos_bound (n+p-1) p Hp).
  set (q := n/p) in *. set (r := n mod p) in *.
  set (q1 := n*i/p) in *. set (q2 := n*(i+1)/p) in *. set (q3 := (n+p-1)/p) in *.
  assert (p * (q2 - q1) > n - p) by nia.
  assert (p * (q2 - q1) < n + p) by nia.
  split; nia.
Qed.

Lemma upper_bound_spec arr q :
  0 <= upper_bound arr q <= Z.of_nat (length arr) /\
  (forall k, 0 <= k < upper_bound arr q -> nth (Z.to_nat k) arr 0 <= q) /\
  (upper_bound arr q < Z.of_nat (length arr) -> q < nth (Z.to_nat (upper_bound arr q)) arr 0).
Proof.
  induction arr as [|s arr IH]; cbn [upper_bound length].
  - repeat split; intros; lia.
  - destruct (Z.ltb_spec q s).
    + repeat split; intros; try lia. cbn. lia.
    + destruct IH as (H1 & H2 & H3). repeat split; try lia.
      * intros k Hk. destruct (Z.eq_dec k 0) as [->|]; [cbn; lia|].
        replace (Z.to_nat k) with (S (Z.to_nat (k-1))) by lia. cbn. apply H2. lia.
      * intros Hk. replace (Z.to_nat (1 + upper_bound arr q)) with (S (Z.to_nat (upper_bound arr q))) by lia.
        cbn. apply H3. lia.
Qed.

Lemma td_whose_in n p q : 0 <= n -> 0 < p -> 0 <= q < n ->
  0 <= td_whose (stopArr n p) q < p /\
  td_start (stopArr n p) (td_whose (stopArr n p) q) <= q < td_stop (stopArr n p) (td_whose (stopArr n p) q).
Proof.
  intros Hn Hp Hq. unfold td_whose. rewrite stopArr_length by lia.
  destruct (Z.ltb_spec 1 (Z.of_nat (Z.to_nat p))).
  - destruct (upper_bound_spec (stopArr n p) q) as (H1 & H2 & H3).
    rewrite stopArr_length in * by lia. rewrite Z2Nat.id in * by lia.
    set (u := upper_bound (stopArr n p) q) in *.
    assert (Hu: u < p).
    { assert (u <> p); [|lia]. intro E.
      specialize (H2 (p-1)). change (nth (Z.to_nat (p-1)) (stopArr n p) 0) with (td_stop (stopArr n p) (p-1)) in H2.
      rewrite td_stop_eq in H2 by lia. replace (p-1+1) with p in H2 by lia. rewrite bound_p in H2 by lia. lia. }
    split; [lia|]. split.
    + unfold td_start. destruct (Z.eqb_spec u 0); [lia|]. apply H2. lia.
    + apply H3. lia.
  - assert (p = 1) by lia. subst p. split; [lia|].
    rewrite td_start_eq, td_stop_eq by lia. rewrite bound_0 by lia.
    change (0+1) with 1. rewrite bound_p by lia. lia.
Qed.

Lemma td_owner_unique n p q i : 0 <= n -> 0 < p -> 0 <= q < n -> 0 <= i < p ->
  (td_isMine (stopArr n p) i q = true <-> i = td_whose (stopArr n p) q).
Proof.
  intros Hn Hp Hq Hi. destruct (td_whose_in n p q Hn Hp Hq) as (Hw1 & Hw2).
  set (w := td_whose (stopArr n p) q) in *. unfold td_isMine. rewrite andb_true_iff, Z.leb_le, Z.ltb_lt.
  rewrite td_start_eq, td_stop_eq in * by lia.
  split.
  - intros H. destruct (Z.lt_trichotomy i w) as [L|[E|L]]; auto; exfalso.
    + assert (bound n p (i+1) <= bound n p w) by (apply bound_mono; lia). lia.
    + assert (bound n p (w+1) <= bound n p i) by (apply bound_mono; lia). lia.
  - intros ->. lia.
Qed.

Lemma td_whose_out n p q : 0 <= n -> 1 < p -> n <= q -> td_whose (stopArr n p) q = p.
Proof.
  intros Hn Hp Hq. unfold td_whose. rewrite stopArr_length by lia.
  destruct (Z.ltb_spec 1 (Z.of_nat (Z.to_nat p))); [|lia].
  destruct (upper_bound_spec (stopArr n p) q) as (H1 & H2 & H3).
  rewrite stopArr_length in * by lia. rewrite Z2Nat.id in * by lia.
  set (u := upper_bound (stopArr n p) q) in *.
  destruct (Z.eq_dec u p); auto. specialize (H3 ltac:(lia)).
  change (nth (Z.to_nat u) (stopArr n p) 0) with (td_stop (stopArr n p) u) in H3.
  rewrite td_stop_eq in H3 by lia.
  assert (bound n p (u+1) <= bound n p p) by (apply bound_mono; lia). rewrite bound_p in * by lia. lia.
Qed.

(** Process groups *)
Lemma procGroup_range G p i : 0 < G -> 0 < p -> 0 <= i < p -> 0 <= procGroup G p i < G.
Proof.
  intros. unfold procGroup. split; [apply Z.div_pos; nia|apply Z.div_lt_upper_bound; nia].
Qed.

Lemma procGroup_mono G p i j : 0 < G -> 0 < p -> i <= j -> procGroup G p i <= procGroup G p j.
Proof. intros. unfold procGroup. apply Z.div_le_mono; nia. Qed.

Definition ceilb (p G g : Z) : Z := (g * p + G - 1) / G.

Lemma procGroup_iff G p i g : 0 < G -> 0 < p ->
  (procGroup G p i = g <-> ceilb p G g <= i < ceilb p G (g+1)).
Proof.
  intros HG Hp. unfold procGroup, ceilb.
  pose proof (Z.div_mod (i*G) p ltac:(lia)). pose proof (Z.mod_pos_bound (i*G) p Hp).
  pose proof (Z.div_mod (g*p+G-1) G ltac:(lia)). pose proof (Z.mod_pos_bound (g*p+G-1) G HG).
  pose proof (Z.div_mod ((g+1)*p+G-1) G ltac:(lia)). pose proof (Z.mod_pos_bound ((g+1)*p+G-1) G HG).
  set (q := i*G/p) in *. set (c0 := (g*p+G-1)/G) in *. set (c1 := ((g+1)*p+G-1)/G) in *.
  split.
  - intros <-. split; nia.
  - intros [A B]. assert (g * p <= i * G) by nia. assert (i * G < (g+1)*p) by nia. nia.
Qed.

Lemma ceilb_load p G g : 0 < G -> 0 < p -> p / G <= ceilb p G (g+1) - ceilb p G g <= (p + G - 1) / G.
Proof.
  intros HG Hp. unfold ceilb.
  pose proof (Z.div_mod p G ltac:(lia)). pose proof (Z.mod_pos_bound p G HG).
  pose proof (Z.div_mod (p+G-1) G ltac:(lia)). pose proof (Z.mod_pos_bound (p+G-1) G HG).
  pose proof (Z.div_mod (g*p+G-1) G ltac:(lia)). pose proof (Z.mod_pos_bound (g*p+G-1) G HG).
  pose proof (Z.div_mod ((g+1)*p+G-1) G ltac:(lia)). pose proof (Z.mod_pos_bound ((g+1)*p+G-1) G HG).
  set (c0 := (g*p+G-1)/G) in *. set (c1 := ((g+1)*p+G-1)/G) in *. set (a := p/G) in *. set (b := (p+G-1)/G) in *.
  assert (G*(c1-c0) > p - G) by nia. assert (G*(c1-c0) < p + G) by nia. split; nia.
Qed.

Lemma filter_range_length a b P n :
  0 <= a <= b -> b <= n -> (forall i, 0 <= i < n -> (P i = true <-> a <= i < b)) ->
  Z.of_nat (length (filter P (zrange 0 n))) = b - a.
Proof.
  intros Hab Hbn HP.
  rewrite <- (zrange_app 0 a n) by lia. rewrite <- (zrange_app a b n) by lia.
  rewrite !filter_app, !app_length.
  assert (F0: forall l, (forall x, In x l -> P x = false) -> filter P l = []).
  { induction l; cbn; auto. intros H. rewrite (H a0) by auto. apply IHl. auto. }
  assert (F1: forall l, (forall x, In x l -> P x = true) -> filter P l = l).
  { induction l; cbn; auto. intros H. rewrite (H a0) by auto. f_equal. apply IHl. auto. }
  rewrite (F0 (zrange 0 a)), (F0 (zrange b n)), (F1 (zrange a b)).
  - cbn. rewrite zrange_length. lia.
  - intros x Hx. apply in_zrange in Hx. apply HP; lia.
  - intros x Hx. apply in_zrange in Hx. apply not_true_is_false. rewrite HP; lia.
  - intros x Hx. apply in_zrange in Hx. apply not_true_is_false. rewrite HP; lia.
Qed.

Lemma procGroup_balanced G p g : 0 < G -> 0 < p -> 0 <= g < G ->
  p / G <= Z.of_nat (length (filter (fun i => procGroup G p i =? g) (zrange 0 p))) <= (p + G - 1) / G.
Proof.
  intros HG Hp Hg. rewrite (filter_range_length (ceilb p G g) (ceilb p G (g+1))).
  - apply ceilb_load; auto.
  - unfold ceilb. split; [apply Z.div_pos; nia|apply Z.div_le_mono; nia].
  - unfold ceilb. transitivity ((G * p + G - 1)/G); [apply Z.div_le_mono; nia|].
    assert ((G*p+G-1)/G < p+1); [|lia]. apply Z.div_lt_upper_bound; lia.
  - intros i Hi. rewrite Z.eqb_eq. apply procGroup_iff; auto.
Qed.

Lemma coresOf_sum_gen n s k : 0 <= k -> 0 < s -> s <= n ->
  fold_right Z.add 0 (map (coresOf n s) (zrange 0 k)) = bound n s k.
Proof.
  intros Hk Hs Hn. pattern k. apply natlike_ind; auto.
  - rewrite zrange_nil by lia. cbn. symmetry. apply bound_0. lia.
  - intros x Hx IH. unfold Z.succ. rewrite (zrange_snoc 0 (x+1)) by lia. replace (x+1-1) with x by lia.
    rewrite map_app, fold_right_app. cbn.
    assert (E: forall l a, fold_right Z.add a l = fold_right Z.add 0 l + a).
    { clear. induction l; cbn; intros; [lia|]. rewrite IHl. lia. }
    rewrite E, IH. unfold coresOf. fold (bound n s (x+1)) (bound n s x).
    pose proof (div_load n s x ltac:(lia) Hs).
    assert (1 <= n/s) by (apply Z.div_le_lower_bound; lia). lia.
Qed.

(** Threads *)
Lemma thread_i1_eq nT n t : 0 < n -> thread_i1 nT n t = bound n nT t.
Proof. intros. unfold thread_i1, bound. destruct (Z.ltb_spec 0 n); [f_equal; lia|lia]. Qed.
Lemma thread_i2_eq nT n t : 0 < n -> thread_i2 nT n t = bound n nT (t+1).
Proof. intros. unfold thread_i2, bound. destruct (Z.ltb_spec 0 n); [f_equal; lia|lia]. Qed.

Lemma thread_partition nT n : 0 < nT -> 0 < n ->
  concat (thread_iterations nT n) = zrange 0 n.
Proof.
  intros HT Hn. unfold thread_iterations.
  transitivity (concat (map (fun i => zrange (bound n nT i) (bound n nT (i+1))) (zrange 0 nT))).
  - f_equal. apply map_ext. intros i. rewrite thread_i1_eq, thread_i2_eq by lia. reflexivity.
  - rewrite concat_map_zrange; [|lia|intros; apply bound_mono; lia].
    rewrite bound_0, bound_p by lia. reflexivity.
Qed.

Lemma run_iterations_spec {A} (body : Z -> A -> A) sched mem :
  NoDup sched -> forall j,
  run_iterations body sched mem j = if in_dec Z.eq_dec j sched then body j (mem j) else mem j.
Proof.
  revert mem. induction sched as [|i s IH]; intros mem Hnd j.
  - reflexivity.
  - inversion_clear Hnd. unfold run_iterations in *. cbn [fold_left]. rewrite IH by auto.
    destruct (in_dec Z.eq_dec j (i :: s)) as [Hin|Hin].
    + destruct (Z.eqb_spec j i) as [->|Hne].
      * destruct (in_dec Z.eq_dec i s); tauto.
      * destruct Hin; [congruence|]. destruct (in_dec Z.eq_dec j s); tauto.
    + destruct (Z.eqb_spec j i) as [->|Hne]; [exfalso; apply Hin; cbn; auto|].
      destruct (in_dec Z.eq_dec j s); [exfalso; apply Hin; cbn; auto|reflexivity].
Qed.

Lemma threaded_loop_serial {A} nT n (body : Z -> A -> A) sched mem : 0 < nT -> 0 < n ->
  interleave (thread_iterations nT n) sched ->
  Permutation sched (zrange 0 n) /\
  forall j, run_iterations body sched mem j = run_iterations body (zrange 0 n) mem j.
Proof.
  intros HT Hn Hs. apply interleave_perm in Hs. rewrite thread_partition in Hs by auto.
  split; [symmetry; auto|]. intros j.
  assert (NoDup sched) by (eapply Permutation_NoDup; [eauto|apply zrange_NoDup]).
  rewrite !run_iterations_spec by (auto using zrange_NoDup).
  destruct (in_dec Z.eq_dec j sched) as [i|i], (in_dec Z.eq_dec j (zrange 0 n)) as [i'|i']; auto; exfalso.
  - apply i'. eapply Permutation_in; [symmetry; eauto|auto].
  - apply i. eapply Permutation_in; eauto.
Qed.

(** Reductions over a commutative monoid *)
Section Reduce.
  Context {A : Type} (zero : A) (add : A -> A -> A).
  Hypothesis add_comm : forall a b, add a b = add b a.
  Hypothesis add_assoc : forall a b c, add a (add b c) = add (add a b) c.
  Hypothesis add_0_l : forall a, add zero a = a.

  Definition msum {B} (g : B -> A) (l : list B) : A := fold_left (fun acc i => add acc (g i)) l zero.

  Lemma fold_add_acc {B} (g : B -> A) l a :
    fold_left (fun acc i => add acc (g i)) l a = add a (msum g l).
  Proof.
    unfold msum. revert a. induction l as [|b l IH]; intros a; cbn.
    - rewrite add_comm, add_0_l. reflexivity.
    - rewrite IH, (IH (add zero (g b))). rewrite add_0_l. symmetry. apply add_assoc.
  Qed.

  Lemma msum_cons {B} (g : B -> A) b l : msum g (b :: l) = add (g b) (msum g l).
  Proof. unfold msum at 1. cbn. rewrite fold_add_acc, add_0_l. reflexivity. Qed.

  Lemma msum_app {B} (g : B -> A) l1 l2 : msum g (l1 ++ l2) = add (msum g l1) (msum g l2).
  Proof.
    induction l1; cbn [app].
    - unfold msum at 2. cbn. rewrite add_0_l. reflexivity.
    - rewrite !msum_cons, IHl1. apply add_assoc.
  Qed.

  Lemma msum_perm {B} (g : B -> A) l1 l2 : Permutation l1 l2 -> msum g l1 = msum g l2.
  Proof.
    induction 1; auto.
    - rewrite !msum_cons. congruence.
    - rewrite !msum_cons, !add_assoc. f_equal. apply add_comm.
    - congruence.
  Qed.

  Lemma msum_concat {B} (g : B -> A) (ls : list (list B)) : msum g (concat ls) = msum (msum g) ls.
  Proof.
    induction ls; cbn [concat]; auto. rewrite msum_app, msum_cons, IHls. reflexivity.
  Qed.

  Lemma msum_map {B C} (g : C -> A) (h : B -> C) l : msum g (map h l) = msum (fun b => g (h b)) l.
  Proof. induction l; cbn [map]; auto. rewrite !msum_cons, IHl. reflexivity. Qed.

  Lemma threaded_reduce_serial nT n f order : 0 < nT -> 0 < n ->
    Permutation order (zrange 0 nT) ->
    threaded_reduce zero add nT n f order = fold_left (fun acc i => add acc (f i)) (zrange 0 n) zero.
  Proof.
    intros HT Hn Hp. unfold threaded_reduce.
    change (msum (fun t => partial_sum zero add f (thread_i1 nT n t) (thread_i2 nT n t)) order = msum f (zrange 0 n)).
    rewrite (msum_perm _ _ _ Hp). rewrite <- (thread_partition nT n) by auto.
    rewrite msum_concat. unfold thread_iterations. rewrite msum_map. reflexivity.
  Qed.
End Reduce.

Lemma coresOf_bounds n s i : 0 <= n -> 0 < s -> 0 <= i < s -> 1 <= coresOf n s i /\ coresOf n s i <= Z.max 1 ((n + s - 1) / s).
Proof.
  intros Hn Hs Hi. unfold coresOf. split; [apply Z.le_max_l|].
  assert ((n * (i + 1)) / s - (n * i) / s <= (n + s - 1) / s); [|lia].
  assert (E1 := Z.div_mod (n*(i+1)) s ltac:(lia)). assert (B1 := Z.mod_pos_bound (n*(i+1)) s Hs).
  assert (E2 := Z.div_mod (n*i) s ltac:(lia)). assert (B2 := Z.mod_pos_bound (n*i) s Hs).
  apply Z.div_le_lower_bound; [lia|]. nia.
Qed.
