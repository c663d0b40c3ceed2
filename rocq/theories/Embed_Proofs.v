(** Classes of boundary points, scatter and gather. *)
From Coq Require Import ZArith Reals List Bool Lia Lra Permutation Sorted.
From Verif Require Import Base Vec3_Model WS_Model Embed_Model Embed_Spec CellMap_Spec CellMap_Proofs.
Import ListNotations.
Local Open Scope R_scope.
#[local] Opaque rsum.

Lemma lsum_rsum f l : lsum f l = rsum f l.
Proof. induction l as [|a l IH]; [rewrite rsum_nil; reflexivity|]. rewrite rsum_cons, <- IH. reflexivity. Qed.

(** ** averaging over a class *)
Definition avg (c : list Z) (x : Z -> R) : R := rsum x c / INR (length c).
Definition avgOn (c : list Z) (x : Z -> R) : Z -> R := fold_left (fun y p => upd y p (avg c x)) c x.
Lemma upd_fold v c : forall (x : Z -> R) p, fold_left (fun y q => upd y q v) c x p = if in_dec Z.eq_dec p c then v else x p.
Proof.
  induction c as [|a c IH]; intros x p; cbn [fold_left]; [reflexivity|]. rewrite IH. destruct (in_dec Z.eq_dec p c) as [I|I], (in_dec Z.eq_dec p (a :: c)) as [J|J]; auto.
  { destruct J. right; auto. } { destruct J as [->|J]; [|destruct (I J)]. unfold upd. rewrite Z.eqb_refl. reflexivity. }
  { unfold upd. destruct (Z.eqb_spec p a) as [->|]; [destruct J; left; auto|reflexivity]. }
Qed.
Lemma avgOn_val c x p : avgOn c x p = if in_dec Z.eq_dec p c then avg c x else x p.
Proof. apply upd_fold. Qed.
Lemma avg_ext c x y : (forall p, In p c -> x p = y p) -> avg c x = avg c y.
Proof. intros H. unfold avg. rewrite (rsum_ext x y); auto. Qed.
Definition averaged (L : list (list Z)) (x y : Z -> R) : Prop :=
  (forall c p, In c L -> In p c -> y p = avg c x) /\ (forall p, (forall c, In c L -> ~ In p c) -> y p = x p).
Lemma avg_all : forall L x, NoDup (concat L) -> averaged L x (fold_left (fun x c => avgOn c x) L x).
Proof.
  induction L as [|c L IH]; intros x ND; [split; [intros c p []|auto]|]. cbn [concat] in ND. cbn [fold_left].
  assert (NL : NoDup (concat L)) by (clear - ND; induction c; cbn in ND; [auto|apply NoDup_cons_iff in ND; tauto]).
  assert (DJ : forall p c', In p c -> In c' L -> In p c' -> False).
  { intros p c' I J K. assert (X : In p (concat L)) by (apply in_concat; eauto). clear - ND I X. induction c as [|a c IHc]; [destruct I|]. cbn in ND. apply NoDup_cons_iff in ND. destruct ND as [N ND].
    destruct I as [->|I]; [apply N; apply in_app_iff; auto|auto]. }
  destruct (IH (avgOn c x) NL) as [A B]. split.
  { intros c' p [<-|I] J.
    { rewrite B by (intros c' I K; exact (DJ p c' J I K)). rewrite avgOn_val. destruct (in_dec Z.eq_dec p c); [reflexivity|contradiction]. }
    { rewrite (A c' p I J). apply avg_ext. intros q K. rewrite avgOn_val. destruct (in_dec Z.eq_dec q c) as [Q|]; [destruct (DJ q c' Q I K)|reflexivity]. } }
  { intros p N. rewrite B by (intros c' I; apply N; right; auto). rewrite avgOn_val. destruct (in_dec Z.eq_dec p c) as [Q|]; [destruct (N c (or_introl eq_refl) Q)|reflexivity]. }
Qed.
Lemma averaged_ext L L' x y y' : (forall c, In c L <-> In c L') -> averaged L x y -> averaged L' x y' -> forall p, (exists c, In c L /\ In p c) \/ (forall c, In c L -> ~ In p c) -> y p = y' p.
Proof.
  intros E [A B] [A' B'] p [(c & I & J)|N]; [rewrite (A c p I J), (A' c p (proj1 (E c) I) J); reflexivity|]. rewrite B, B'; auto. intros c I. apply N, E, I.
Qed.

(** ** chunks of the index array *)
Lemma nth_chunk : forall (ls : list (list Z)) n i j, Forall (fun c => length c = n) ls -> (j < n)%nat -> nth (n * i + j) (concat ls) 0%Z = nth j (nth i ls []) 0%Z.
Proof.
  induction ls as [|c ls IH]; intros n i j F J; cbn [concat]. { destruct i; destruct (n * _ + j)%nat, j; reflexivity. }
  inversion F as [|? ? L F']; subst. destruct i as [|i]. { rewrite Nat.mul_0_r. cbn [nth]. rewrite app_nth1 by lia. reflexivity. }
  cbn [nth]. rewrite app_nth2 by nia. rewrite <- (IH (length c) i j F' J). f_equal. nia.
Qed.
Lemma fold_sum (f : nat -> R) l a : fold_left (fun s j => s + f j) l a = a + rsum f l.
Proof. revert a. induction l as [|b l IH]; intros a; cbn [fold_left]; [rewrite rsum_nil; ring|]. rewrite IH, rsum_cons. ring. Qed.
Lemma map_nth_seq (c : list Z) : map (fun j => nth j c 0%Z) (seq 0 (length c)) = c.
Proof. induction c as [|a c IH]; [reflexivity|]. cbn [length seq map nth]. rewrite <- seq_shift, map_map. cbn [nth]. rewrite IH. reflexivity. Qed.
Lemma fold_left_map {A B C} (f : A -> B -> A) (g : C -> B) l a : fold_left f (map g l) a = fold_left (fun a c => f a (g c)) l a.
Proof. revert a. induction l as [|c l IH]; intros a; [reflexivity|]. cbn [map fold_left]. apply IH. Qed.
Lemma fold_left_ext {A B} (f g : A -> B -> A) l a : (forall a b, In b l -> f a b = g a b) -> fold_left f l a = fold_left g l a.
Proof. revert a. induction l as [|c l IH]; intros a H; [reflexivity|]. cbn [fold_left]. rewrite (H a c) by (left; auto). apply IH. intros. apply H. right; auto. Qed.
Lemma calc_chunk ls n x i : Forall (fun c => length c = n) ls -> (i < length ls)%nat -> symmetrize_calc n (concat ls) x i = avgOn (nth i ls []) x.
Proof.
  intros F I. unfold symmetrize_calc. set (c := nth i ls []). assert (L : length c = n). { rewrite Forall_forall in F. apply F, nth_In, I. }
  set (v := fold_left _ _ 0 * _). assert (V : v = avg c x).
  { unfold v, avg. rewrite fold_sum, Rplus_0_l. rewrite L. unfold Rdiv. rewrite Rmult_1_l. f_equal. rewrite <- (map_nth_seq c), rsum_map, L. apply rsum_ext. intros j J. apply in_seq in J. rewrite nth_chunk by (auto; lia). reflexivity. }
  unfold avgOn. clearbody v. subst v. set (v := avg c x). clearbody v. rewrite <- (map_nth_seq c). rewrite fold_left_map, L. apply fold_left_ext. intros y j J. apply in_seq in J. rewrite nth_chunk by (auto; lia). reflexivity.
Qed.
Lemma concat_length ls n : Forall (fun c : list Z => length c = n) ls -> length (concat ls) = (length ls * n)%nat.
Proof. induction 1 as [|c ls L F IH]; [reflexivity|]. cbn [concat length]. rewrite app_length, IH, L. lia. Qed.
Lemma nth_seq_fold (ls : list (list Z)) (x : Z -> R) : fold_left (fun x i => avgOn (nth i ls []) x) (seq 0 (length ls)) x = fold_left (fun x c => avgOn c x) ls x.
Proof.
  revert x. induction ls as [|c ls IH]; intros x; [reflexivity|]. cbn [length seq fold_left nth]. rewrite <- seq_shift, fold_left_map. cbn [nth]. apply IH.
Qed.
Definition ofSize (m : list (Z * Z)) (n : nat) : list (list Z) := filter (fun c => Nat.eqb (length c) n) (map snd (groups m)).
Lemma symmEquiv_concat m n : symmEquiv m n = concat (ofSize m n).
Proof. unfold symmEquiv, ofSize. induction (groups m) as [|[k g] l IH]; [reflexivity|]. cbn [flat_map map filter snd]. rewrite IH. destruct (Nat.eqb (length g) n); reflexivity. Qed.
Lemma ofSize_len m n : Forall (fun c => length c = n) (ofSize m n).
Proof. apply Forall_forall. intros c I. unfold ofSize in I. apply filter_In in I. apply Nat.eqb_eq. tauto. Qed.
Lemma fold_flat {A B C} (f : A -> B -> A) (g : C -> list B) l a : fold_left f (flat_map g l) a = fold_left (fun a c => fold_left f (g c) a) l a.
Proof. revert a. induction l as [|c l IH]; intros a; [reflexivity|]. cbn [flat_map fold_left]. rewrite fold_left_app. apply IH. Qed.
Definition bigClasses (m : list (Z * Z)) : list (list Z) := flat_map (ofSize m) (seq 2 (maxCount m - 1)).
Lemma symmetrize_classes m x : m <> [] -> boundarySymmetrize m x = Some (fold_left (fun x c => avgOn c x) (bigClasses m) x).
Proof.
  intros N. unfold boundarySymmetrize. destruct m as [|p m]; [congruence|]. f_equal. unfold bigClasses. rewrite fold_flat. apply fold_left_ext. intros y n I. apply in_seq in I.
  rewrite symmEquiv_concat. assert (F := ofSize_len (p :: m) n). rewrite (concat_length _ n F), Nat.div_mul by lia. rewrite <- nth_seq_fold. apply fold_left_ext. intros z i J. apply in_seq in J. apply calc_chunk; [auto|lia].
Qed.
Lemma maxCount_ge m c : In c (map snd (groups m)) -> (length c <= maxCount m)%nat.
Proof.
  unfold maxCount. intros I. assert (J : In (length c) (map (fun g : Z * list Z => length (snd g)) (groups m))). { rewrite <- (map_map snd (@length Z)). apply in_map. auto. }
  revert J. generalize (map (fun g : Z * list Z => length (snd g)) (groups m)). intros l.
  assert (M : forall l a, (a <= fold_left Nat.max l a)%nat). { induction l0 as [|b l0 IH]; intros a; cbn [fold_left]; [lia|]. specialize (IH (Nat.max a b)). lia. }
  generalize 0%nat. induction l as [|b l IH]; intros a J; [destruct J|]. cbn [fold_left]. destruct J as [->|J]; [|auto]. specialize (M l (Nat.max a (length c))). lia.
Qed.
Lemma big_in m c : In c (bigClasses m) <-> In c (map snd (groups m)) /\ (2 <= length c)%nat.
Proof.
  unfold bigClasses. rewrite in_flat_map. split.
  { intros (n & I & J). apply in_seq in I. unfold ofSize in J. apply filter_In in J. destruct J as [J E]. apply Nat.eqb_eq in E. split; [auto|lia]. }
  { intros [I L]. exists (length c). assert (X := maxCount_ge m c I). split; [apply in_seq; lia|]. unfold ofSize. apply filter_In. split; [auto|apply Nat.eqb_refl]. }
Qed.
Lemma nodup_app_iff {T} (a b : list T) : NoDup (a ++ b) <-> NoDup a /\ NoDup b /\ forall x, In x a -> ~ In x b.
Proof.
  induction a as [|x a IH]; cbn [app]. { split; [intros H; split; [constructor|split; [auto|intros x []]]|tauto]. }
  rewrite !NoDup_cons_iff, IH, in_app_iff. split. { intros (N & A & B & D). repeat split; try tauto. intros y [<-|I]; [tauto|auto]. }
  { intros ((N & A) & B & D). repeat split; auto. { intros [I|I]; [auto|apply (D x); [left; auto|auto]]. } intros y I. apply D. right; auto. }
Qed.
Lemma nodup_concat_filter (p : list Z -> bool) ls : NoDup (concat ls) -> NoDup (concat (filter p ls)).
Proof.
  induction ls as [|c ls IH]; intros H; [constructor|]. cbn [concat] in H. apply nodup_app_iff in H. destruct H as (A & B & D). cbn [filter]. destruct (p c); [|auto]. cbn [concat]. apply nodup_app_iff.
  repeat split; auto. intros x I J. apply in_concat in J. destruct J as (d & J & K). apply filter_In in J. apply (D x I). apply in_concat. exists d. tauto.
Qed.
Lemma big_nodup m : NoDup (concat (map snd (groups m))) -> NoDup (concat (bigClasses m)).
Proof.
  intros H. unfold bigClasses. generalize (maxCount m - 1)%nat as k. generalize 2%nat as a. intros a k. revert a. induction k as [|k IH]; intros a; [constructor|]. cbn [seq flat_map]. rewrite concat_app. apply nodup_app_iff.
  split; [apply nodup_concat_filter; auto|]. split; [apply IH|]. intros x I J. apply in_concat in I. apply in_concat in J. destruct I as (c & I & Xc), J as (d & J & Xd).
  unfold ofSize in I. apply filter_In in I. destruct I as [I L]. apply Nat.eqb_eq in L. apply in_flat_map in J. destruct J as (n & Sn & J). apply in_seq in Sn. unfold ofSize in J. apply filter_In in J. destruct J as [J Ld]. apply Nat.eqb_eq in Ld.
  assert (c = d); [|subst; lia]. clear - H I J Xc Xd. induction (map snd (groups m)) as [|e l IH]; [destruct I|]. cbn [concat] in H. apply nodup_app_iff in H. destruct H as (A & B & D). destruct I as [->|I], J as [->|J]; auto.
  { destruct (D x Xc). apply in_concat; eauto. } { destruct (D x Xd). apply in_concat; eauto. }
Qed.

(** ** multimap and its groups *)
Lemma minsert_perm p m : Permutation (minsert p m) (p :: m).
Proof. induction m as [|q m IH]; [apply Permutation_refl|]. cbn [minsert]. destruct (fst p <? fst q)%Z; [apply Permutation_refl|]. rewrite IH. apply perm_swap. Qed.
Lemma map_perm order : Permutation (boundaryMapOf order) order.
Proof.
  unfold boundaryMapOf. rewrite <- (app_nil_r order) at 2. generalize (@nil (Z * Z)) as m. induction order as [|p l IH]; intros m; [apply Permutation_refl|]. cbn [fold_left app]. rewrite IH, minsert_perm.
  apply Permutation_sym, Permutation_middle.
Qed.
Definition keysorted := StronglySorted (fun p q : Z * Z => (fst p <= fst q)%Z).
Lemma minsert_sorted p m : keysorted m -> keysorted (minsert p m).
Proof.
  unfold keysorted. induction m as [|q m IH]; intros H; cbn [minsert]. { repeat constructor. }
  inversion H as [|? ? H1 H2]; subst. destruct (Z.ltb_spec (fst p) (fst q)). { constructor; [auto|]. constructor; [lia|]. rewrite Forall_forall in *. intros r I. specialize (H2 r I). lia. }
  constructor; [auto|]. rewrite Forall_forall in *. intros r I. apply (Permutation_in _ (minsert_perm p m)) in I. destruct I as [<-|I]; [lia|auto].
Qed.
Lemma map_sorted order : keysorted (boundaryMapOf order).
Proof.
  unfold boundaryMapOf. assert (G : forall l m, keysorted m -> keysorted (fold_left (fun m p => minsert p m) l m)). { induction l as [|p l IH]; intros m H; [auto|]. cbn [fold_left]. apply IH, minsert_sorted, H. }
  apply G. constructor.
Qed.
Lemma groups_concat m : concat (map snd (groups m)) = map snd m.
Proof.
  induction m as [|[k i] m IH]; [reflexivity|]. cbn [groups map snd]. rewrite <- IH. destruct (groups m) as [|[k' g] r]; [reflexivity|]. destruct (k =? k')%Z; reflexivity.
Qed.
Lemma groups_head k i m : exists g r, groups ((k, i) :: m) = (k, g) :: r.
Proof. cbn [groups]. destruct (groups m) as [|[k' g] r]; [eauto|]. destruct (k =? k')%Z; eauto. Qed.
Lemma groups_keys m : forall k g, In (k, g) (groups m) -> exists i, In (k, i) m.
Proof.
  induction m as [|[k i] m IH]; intros k0 g I; [destruct I|]. cbn [groups] in I. destruct (groups m) as [|[k' g'] r].
  { destruct I as [E|[]]. injection E as <- <-. exists i. left; auto. }
  { destruct (Z.eqb_spec k k') as [<-|N].
    { destruct I as [E|I]. { injection E as <- <-. exists i. left; auto. } destruct (IH k0 g) as (j & J); [right; auto|]. exists j. right; auto. }
    { destruct I as [E|I]. { injection E as <- <-. exists i. left; auto. } destruct (IH k0 g I) as (j & J). exists j. right; auto. } }
Qed.
Lemma groups_sorted m : keysorted m -> StronglySorted (fun a b : Z * list Z => (fst a < fst b)%Z) (groups m).
Proof.
  induction m as [|[k i] m IH]; intros S; [constructor|]. inversion S as [|? ? S1 S2]; subst. specialize (IH S1). assert (K := groups_keys m). rewrite Forall_forall in S2.
  assert (Le : forall k1 g1, In (k1, g1) (groups m) -> (k <= k1)%Z). { intros k1 g1 I. destruct (K k1 g1 I) as (j & J). exact (S2 _ J). }
  cbn [groups]. destruct (groups m) as [|[k' g'] r]; [repeat constructor|]. inversion IH as [|? ? I1 I2]; subst. destruct (Z.eqb_spec k k') as [->|N].
  { constructor; [auto|exact I2]. }
  { constructor; [auto|]. rewrite Forall_forall in *. intros [k1 g1] J. assert (L := Le k' g' (or_introl eq_refl)). cbn [fst]. destruct J as [E|J]; [injection E as <- <-; lia|]. specialize (I2 _ J). cbn in I2. lia. }
Qed.
Lemma groups_in m : keysorted m -> forall k g, In (k, g) (groups m) -> g <> [] /\ forall p, In p g <-> In (k, p) m.
Proof.
  induction m as [|[k i] m IH]; intros S k0 g I; [destruct I|]. inversion S as [|? ? S1 S2]; subst. assert (GS := groups_sorted m S1). specialize (IH S1). assert (K := groups_keys m). rewrite Forall_forall in S2.
  assert (Q : forall (a b : Z) (x y : Z), (a, x) = (b, y) <-> a = b /\ x = y) by (intros; split; [intros E; injection E; auto|intros [-> ->]; auto]).
  cbn [groups] in I. destruct (groups m) as [|[k' g'] r] eqn:G.
  { assert (M : m = []). { destruct m as [|[a b] m']; [auto|]. destruct (groups_head a b m') as (g0 & r0 & E0). rewrite E0 in G. discriminate. } subst m.
    destruct I as [E|[]]. injection E as <- <-. split; [discriminate|]. intros p. cbn. rewrite Q. tauto. }
  assert (Lk : (k <= k')%Z). { destruct (K k' g' (or_introl eq_refl)) as (j & J). exact (S2 _ J). }
  inversion GS as [|? ? I1 I2]; subst. rewrite Forall_forall in I2. assert (H0 : In (k', g') ((k', g') :: r)) by (left; auto).
  destruct (Z.eqb_spec k k') as [<-|N].
  { destruct I as [E|I].
    { injection E as <- <-. split; [discriminate|]. intros p. cbn [In]. rewrite (proj2 (IH k g' H0) p), Q. tauto. }
    { assert (L := I2 _ I). cbn in L. destruct (IH k0 g (or_intror I)) as [A B]. split; [auto|]. intros p. rewrite B. cbn [In]. rewrite Q. split; [auto|]. intros [[E _]|]; [lia|auto]. } }
  { destruct I as [E|I].
    { injection E as <- <-. split; [discriminate|]. intros p. cbn [In]. rewrite Q. split; [intros [<-|[]]; auto|]. intros [[_ <-]|J]; [auto|exfalso].
      assert (X : exists g, In (k, g) (groups m)).
      { clear - J. induction m as [|[a b] m IHm]; [destruct J|]. cbn [groups]. destruct J as [E|J].
        { injection E as -> ->. destruct (groups m) as [|[k' g] r]; [exists [p]; left; auto|]. destruct (Z.eqb_spec k k') as [<-|]; [exists (p :: g)|exists [p]]; left; auto. }
        destruct (IHm J) as (g & I). destruct (groups m) as [|[k' g'] r]; [destruct I|]. destruct (Z.eqb_spec a k') as [->|].
        { destruct I as [E|I]; [injection E as -> ->; eexists; left; reflexivity|exists g; right; auto]. } { exists g. right. auto. } }
      rewrite G in X. destruct X as (g & [E|X]); [injection E as E1 _; lia|]. specialize (I2 _ X). cbn in I2. lia. }
    { assert (Lt : (k < k0)%Z). { destruct I as [E|I]; [injection E as <- _; lia|]. specialize (I2 _ I). cbn in I2. lia. }
      destruct (IH k0 g I) as [A B]. split; [auto|]. intros p. rewrite B. cbn [In]. rewrite Q. split; [auto|]. intros [[E _]|]; [lia|auto]. } }
Qed.
Lemma groups_of m k p : In (k, p) m -> exists g, In (k, g) (groups m).
Proof.
  induction m as [|[a b] m IHm]; intros J; [destruct J|]. cbn [groups]. destruct J as [E|J].
  { injection E as -> ->. destruct (groups m) as [|[k' g] r]; [exists [p]; left; auto|]. destruct (Z.eqb_spec k k') as [<-|]; [exists (p :: g)|exists [p]]; left; auto. }
  destruct (IHm J) as (g & I). destruct (groups m) as [|[k' g'] r]; [destruct I|]. destruct (Z.eqb_spec a k') as [->|].
  { destruct I as [E|I]; [injection E as -> ->; eexists; left; reflexivity|exists g; right; auto]. } { exists g. right. auto. }
Qed.
(** ** the whole symmetrization *)
Definition classOf (order : list (Z * Z)) (k : Z) (g : list Z) : Prop := g <> [] /\ NoDup g /\ forall p, In p g <-> In (k, p) order.
Lemma symm_all order x : order <> [] -> NoDup (map snd order) -> exists y, boundarySymmetrize (boundaryMapOf order) x = Some y /\
  (forall k g p, classOf order k g -> In p g -> y p = avg g x) /\ (forall p, ~ In p (map snd order) -> y p = x p) /\ (forall k p, In (k, p) order -> exists g, classOf order k g).
Proof.
  intros N ND. set (m := boundaryMapOf order). assert (Pm := map_perm order). fold m in Pm. assert (Sm := map_sorted order). fold m in Sm.
  assert (Nm : m <> []). { intros E. rewrite E in Pm. apply Permutation_nil in Pm. auto. }
  assert (NDm : NoDup (map snd m)). { eapply Permutation_NoDup; [apply Permutation_map; apply Permutation_sym; exact Pm|auto]. }
  assert (ND2 : NoDup (concat (map snd (groups m)))) by (rewrite groups_concat; auto).
  rewrite symmetrize_classes by auto. eexists. split; [reflexivity|]. destruct (avg_all (bigClasses m) x (big_nodup m ND2)) as [A B]. set (y := fold_left _ _ _) in *. clearbody y.
  assert (GI := groups_in m Sm).
  assert (NG : forall c, In c (map snd (groups m)) -> NoDup c). { clear - ND2. induction (map snd (groups m)) as [|c l IH]; [intros c []|]. cbn [concat] in ND2. apply nodup_app_iff in ND2. intros d [<-|I]; [tauto|apply IH; tauto]. }
  assert (InM : forall k p, In (k, p) m <-> In (k, p) order). { intros k p. split; apply Permutation_in; [auto|apply Permutation_sym; auto]. }
  assert (Cl : forall k g, In (k, g) (groups m) -> classOf order k g). { intros k g I. destruct (GI k g I) as [G1 G2]. split; [auto|]. split; [apply NG; apply in_map_iff; exists (k, g); auto|]. intros p. rewrite G2. apply InM. }
  split; [|split].
  { intros k g p (G1 & G2 & G3) I. assert (J : In (k, p) m) by (apply InM, G3, I). destruct (groups_of m k p J) as (g' & Ig). destruct (Cl k g' Ig) as (H1 & H2 & H3).
    assert (Pg : Permutation g g') by (apply NoDup_Permutation; auto; intros q; rewrite G3, H3; tauto).
    assert (Eg : avg g x = avg g' x) by (unfold avg; rewrite (rsum_perm _ _ _ Pg), (Permutation_length Pg); reflexivity). rewrite Eg.
    assert (Ip : In p g') by (apply H3, InM, J). assert (Sn : In g' (map snd (groups m))) by (apply in_map_iff; exists (k, g'); auto).
    destruct (le_lt_dec 2 (length g')) as [L|L]. { apply A; [apply big_in; auto|auto]. }
    rewrite B. { destruct g' as [|q [|q' g'']]; [destruct Ip| |cbn in L; lia]. destruct Ip as [->|[]]. unfold avg. cbn [length INR]. rewrite rsum_cons, rsum_nil. field. }
    intros c I2 J2. apply big_in in I2. destruct I2 as [I2 L2]. assert (c = g'); [|subst; lia].
    clear - ND2 I2 J2 Sn Ip. induction (map snd (groups m)) as [|e l IH]; [destruct I2|]. cbn [concat] in ND2. apply nodup_app_iff in ND2. destruct ND2 as (A & B & D). destruct I2 as [->|I2], Sn as [->|Sn]; auto.
    { destruct (D p J2). apply in_concat; eauto. } { destruct (D p Ip). apply in_concat; eauto. } }
  { intros p H. apply B. intros c I J. apply H. apply big_in in I. destruct I as [I _]. apply (Permutation_in _ (Permutation_map snd Pm)). rewrite <- groups_concat. apply in_concat. eauto. }
  { intros k p I. apply InM in I. destruct (groups_of m k p I) as (g & J). exists g. auto. }
Qed.
(** ** index arrays, scatter *)
Lemma collect_map {A} (f : Z -> option A) (g : Z -> A) l : (forall i, In i l -> f i = Some (g i)) -> collect (map f l) = Some (map g l).
Proof. induction l as [|a l IH]; intros H; [reflexivity|]. cbn [map collect]. rewrite (H a) by (left; auto). rewrite IH by (intros; apply H; right; auto). reflexivity. Qed.
Lemma nth_zrange (g : Z -> Z) n i : (0 <= i < n)%Z -> nth (Z.to_nat i) (map g (zrange 0 n)) 0%Z = g i.
Proof.
  intros H. unfold zrange. rewrite map_map. rewrite (nth_indep _ 0%Z (g (0 + Z.of_nat 0)%Z)) by (rewrite map_length, seq_length; lia).
  rewrite (map_nth (fun k => g (0 + Z.of_nat k)%Z) (seq 0 (Z.to_nat (n - 0))) 0%nat (Z.to_nat i)). rewrite seq_nth by lia. f_equal. lia.
Qed.
Lemma scatter_val e n x p : (forall i j, (0 <= i < n)%Z -> (0 <= j < n)%Z -> e i = e j -> i = j) ->
  (forall i, (0 <= i < n)%Z -> p = e i -> scatter e n x (fun _ => 0) p = x i) /\ ((forall i, (0 <= i < n)%Z -> p <> e i) -> scatter e n x (fun _ => 0) p = 0).
Proof.
  intros Inj. unfold scatter. assert (G : forall l y, (forall i, In i l -> (0 <= i < n)%Z) -> NoDup l ->
    (forall i, In i l -> p = e i -> fold_left (fun y i => upd y (e i) (y (e i) + x i)) l y p = y p + x i) /\ ((forall i, In i l -> p <> e i) -> fold_left (fun y i => upd y (e i) (y (e i) + x i)) l y p = y p)).
  { induction l as [|a l IH]; intros y R ND; [split; [intros i []|auto]|]. apply NoDup_cons_iff in ND. destruct ND as [NI ND]. cbn [fold_left].
    destruct (IH (upd y (e a) (y (e a) + x a))) as [A B]; [intros; apply R; right; auto|auto|]. split.
    { intros i [<-|I] E. { rewrite B. { unfold upd. rewrite E, Z.eqb_refl. reflexivity. } intros j J E2. assert (a = j) by (apply Inj; [apply R; left; auto|apply R; right; auto|congruence]). subst j. auto. }
      rewrite (A i I E). unfold upd. destruct (Z.eqb_spec p (e a)) as [E2|]; [|reflexivity]. assert (a = i) by (apply Inj; [apply R; left; auto|apply R; right; auto|congruence]). subst i. contradiction. }
    { intros H. rewrite B by (intros; apply H; right; auto). unfold upd. destruct (Z.eqb_spec p (e a)) as [E2|]; [|reflexivity]. destruct (H a (or_introl eq_refl) E2). } }
  assert (ND : NoDup (zrange 0 n)). { unfold zrange. apply FinFun.Injective_map_NoDup; [|apply seq_NoDup]. intros a b H. lia. }
  destruct (G (zrange 0 n) (fun _ => 0) (fun i I => proj1 (in_zrange 0 n i) I) ND) as [A B]. split.
  { intros i I E. rewrite (A i); [ring|apply in_zrange; auto|auto]. } { intros H. apply B. intros i I. apply in_zrange in I. auto. }
Qed.
