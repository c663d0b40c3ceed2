(** Proofs about reduceKmesh: orbits, weights and the returned map. *)
From Coq Require Import ZArith Reals List Lia Lra Bool.
From Verif Require Import Base WorkDiv_Model WorkDiv_Proofs Vec3_Model Vec3_Facts KPoints_Model KPoints_Spec KPoints_Proofs KPoints_Proofs2.
Import ListNotations.
Open Scope Z_scope.

(** ** congruence is respected by integer matrices *)
Lemma cong1_lin (x y z x' y' z' : R) (a b c : Z) : cong1 x x' -> cong1 y y' -> cong1 z z' ->
  cong1 (x * IZR a + y * IZR b + z * IZR c)%R (x' * IZR a + y' * IZR b + z' * IZR c)%R.
Proof.
  intros (i&Hi) (j&Hj) (k&Hk). exists (i*a + j*b + k*c)%Z. rewrite !plus_IZR, !mult_IZR, <- Hi, <- Hj, <- Hk. ring.
Qed.
Lemma congV_rvm a b m : congV a b -> congV (rvm a (mIZR m)) (rvm b (mIZR m)).
Proof.
  intros (H0&H1&H2). destruct a as [a0 a1 a2], b as [b0 b1 b2], m; cbn in *.
  repeat split; cbn; apply cong1_lin; auto.
Qed.
Lemma congV_opp a b : congV a b -> congV (rvopp a) (rvopp b).
Proof.
  intros (H0&H1&H2). destruct a as [a0 a1 a2], b as [b0 b1 b2]; cbn in *.
  repeat split; cbn; [destruct H0 as (i&Hi)|destruct H1 as (i&Hi)|destruct H2 as (i&Hi)]; exists (-i)%Z; rewrite opp_IZR, <- Hi; ring.
Qed.
Lemma rvopp_opp v : rvopp (rvopp v) = v. Proof. v3_ring. Qed.
Lemma rvscale_m1 v : rvscale (-1)%R v = rvopp v. Proof. v3_ring. Qed.

Lemma related_refl sym inv k : In zid sym -> related sym inv k k.
Proof. intros H. exists zid. split; auto. left. rewrite mIZR_id, rvm_id. apply congV_refl. Qed.
Lemma related_trans sym inv a b c : closed_under_products sym -> related sym inv a b -> related sym inv b c -> related sym inv a c.
Proof.
  intros Hp (r1&I1&H1) (r2&I2&H2). exists (zmm r1 r2). split; [apply Hp; auto|]. rewrite mIZR_mm, !rvm_mm.
  destruct H1 as [H1|(Hi&H1)], H2 as [H2|(Hi'&H2)].
  - left. eapply congV_trans; [apply congV_rvm; apply H1|auto].
  - right. split; auto. eapply congV_trans; [|apply H2]. apply congV_rvm. rewrite rvm_opp. apply congV_opp; auto.
  - right. split; auto. eapply congV_trans; [apply congV_rvm; apply H1|auto].
  - left. eapply congV_trans; [|apply H2]. apply congV_rvm. apply congV_opp in H1. rewrite <- rvm_opp, rvopp_opp in H1. auto.
Qed.
Lemma related_sym sym inv a b : is_group sym -> related sym inv a b -> related sym inv b a.
Proof.
  intros (_&_&Hinv) (r1&I1&H1). destruct (Hinv r1 I1) as (r2&I2&E&_). exists r2. split; auto.
  assert (X : forall v, rvm (rvm v (mIZR r1)) (mIZR r2) = v) by (intros v; rewrite <- rvm_mm, <- mIZR_mm, E, mIZR_id, rvm_id; auto).
  destruct H1 as [H1|(Hi&H1)].
  - left. apply congV_sym. apply (congV_rvm _ _ r2) in H1. rewrite X in H1. auto.
  - right. split; auto. apply congV_sym. rewrite rvm_opp. apply (congV_rvm _ _ r2) in H1. rewrite X in H1.
    apply congV_opp in H1. rewrite rvopp_opp in H1. auto.
Qed.

Lemma mat_eqb_eq a b : mat_eqb a b = true <-> a = b.
Proof.
  unfold mat_eqb. rewrite !andb_true_iff, !Z.eqb_eq. destruct a, b; cbn. split.
  - intros [[[[[[[[? ?] ?] ?] ?] ?] ?] ?] ?]. subst. reflexivity.
  - intros E. inversion E; subst. tauto.
Qed.
Lemma kimage_neg neg rot k : kimage neg rot k = rvm (if neg then rvopp k else k) (mIZR rot).
Proof. unfold kimage. destruct neg; auto. rewrite rvscale_m1. auto. Qed.
Lemma rvm_minusI v m : rvm v (mIZR (zmm minusI m)) = rvm (rvopp v) (mIZR m).
Proof. rewrite mIZR_mm, rvm_mm. f_equal. unfold minusI. v3_ring. Qed.

Lemma image_related sym inv k k' : closed_under_products sym ->
  (exists neg rot, In neg (invertList sym inv) /\ In rot sym /\ congV (kimage neg rot k) k') <-> related sym inv k k'.
Proof.
  intros Hc. split.
  - intros (neg&rot&Hn&Hr&H). exists rot. split; auto. rewrite kimage_neg in H. destruct neg; auto. right. split; auto.
    unfold invertList in Hn. destruct inv; auto. cbn in Hn. destruct Hn as [?|[]]; discriminate.
  - intros (rot&Hr&[H|(Hi&H)]).
    + exists false, rot. rewrite kimage_neg. split; auto. unfold invertList. destruct inv; cbn; auto. destruct (existsb _ _); cbn; auto.
    + subst inv. unfold invertList. destruct (existsb _ _) eqn:E.
      * apply existsb_exists in E as (m&Im&Em). apply mat_eqb_eq in Em. subst m. exists false, (zmm minusI rot). rewrite kimage_neg.
        split; [cbn; auto|]. split; [apply Hc; auto|]. rewrite rvm_minusI. auto.
      * exists true, rot. rewrite kimage_neg. cbn; auto.
Qed.

Section Orbits.
  Variable find : vec R -> option nat.
  Variable sym : list (mat Z).
  Variable useInv : bool.
  Variable qs : list qnum.
  Notation n := (List.length qs).
  Hypothesis small : Z.of_nat n < 2^32.
  Hypothesis smallSym : Z.of_nat (List.length sym) < 2^31.
  Hypothesis group : is_group sym.
  Hypothesis distinct : forall i j a b, nth_error qs i = Some a -> nth_error qs j = Some b -> congV (q_k a) (q_k b) -> i = j.
  (** the lookup decides congruence to mesh points on all images *)
  Hypothesis find_some : forall q neg rot d, In q qs -> In rot sym -> find (kimage neg rot (q_k q)) = Some d ->
    exists q', nth_error qs d = Some q' /\ congV (kimage neg rot (q_k q)) (q_k q').
  Hypothesis find_none : forall q neg rot q', In q qs -> In rot sym -> find (kimage neg rot (q_k q)) = None -> In q' qs ->
    ~ congV (kimage neg rot (q_k q)) (q_k q').

  Lemma dest_iff q neg rot d q' : In q qs -> In rot sym -> nth_error qs d = Some q' ->
    (find (kimage neg rot (q_k q)) = Some d <-> congV (kimage neg rot (q_k q)) (q_k q')).
  Proof.
    intros Hq Hr Hd. split.
    - intros H. apply find_some in H as (q2&E2&C); auto. rewrite Hd in E2. injection E2 as ->. auto.
    - intros H. destruct (find _) as [d2|] eqn:E.
      + apply find_some in E as (q2&E2&C); auto. f_equal. eapply distinct; eauto. eapply congV_trans; [apply congV_sym|]; eauto.
      + exfalso. apply (find_none q neg rot q' Hq Hr E); auto. eapply nth_error_In; eauto.
  Qed.

  Notation trips := (kmap_trips sym useInv 0 (Z.of_nat n)).
  Definition ent (d : nat) : Z := lmin (hits find sym qs d trips).
  Definition rel (i j : nat) : Prop := exists a b, nth_error qs i = Some a /\ nth_error qs j = Some b /\ related sym useInv (q_k a) (q_k b).

  Lemma in_kmap_trips s neg i : In (s,neg,i) trips <-> 0 <= s < Z.of_nat n /\ In neg (invertList sym useInv) /\ 0 <= i < Z.of_nat (List.length sym).
  Proof.
    unfold kmap_trips. rewrite in_flat_map. split.
    - intros (x&Hx&H). apply in_flat_map in H as (y&Hy&H). apply in_map_iff in H as (z&Hz&H). injection Hz as -> -> ->.
      rewrite in_zrange in *. auto.
    - intros (Hs&Hn&Hi). exists s. rewrite in_zrange. split; auto. apply in_flat_map. exists neg. split; auto. apply in_map_iff. exists i.
      rewrite in_zrange. auto.
  Qed.
  Lemma nth_error_lt {A} (l : list A) i : 0 <= i < Z.of_nat (List.length l) -> exists a, nth_error l (Z.to_nat i) = Some a.
  Proof. intros H. destruct (nth_error l (Z.to_nat i)) eqn:E; eauto. apply nth_error_None in E. lia. Qed.

  Lemma in_hits d e qd : nth_error qs d = Some qd ->
    (In e (hits find sym qs d trips) <-> exists s neg i a rot, e = kmapPack (Z.of_nat s) neg i /\ nth_error qs s = Some a /\
      nth_error sym (Z.to_nat i) = Some rot /\ 0 <= i < Z.of_nat (List.length sym) /\
      In neg (invertList sym useInv) /\ congV (kimage neg rot (q_k a)) (q_k qd)).
  Proof.
    intros Hd. unfold hits. rewrite in_map_iff. split.
    - intros (((s,neg),i)&<-&H). apply filter_In in H as (H&F). apply in_kmap_trips in H as (Hs&Hn&Hi).
      destruct (nth_error_lt qs s Hs) as (a&Ea). destruct (nth_error_lt sym i Hi) as (rot&Er). cbn in F. rewrite Ea, Er in F.
      destruct (find _) as [d2|] eqn:E; [|discriminate]. apply Nat.eqb_eq in F. subst d2.
      exists (Z.to_nat s), neg, i, a, rot. rewrite Z2Nat.id by lia. repeat (split; [solve [auto]|]).
      eapply dest_iff; eauto; eapply nth_error_In; eauto.
    - intros (s&neg&i&a&rot&->&Ea&Er&Hi&Hn&C). exists (Z.of_nat s,neg,i). split; auto. apply filter_In.
      assert (s < n)%nat by (apply nth_error_Some; congruence).
      split; [apply in_kmap_trips; repeat split; auto; lia|]. unfold dest. rewrite Nat2Z.id, Ea, Er.
      replace (find (kimage neg rot (q_k a))) with (Some d); [apply Nat.eqb_refl|].
      symmetry. eapply dest_iff; eauto; eapply nth_error_In; eauto.
  Qed.
  Lemma rel_hit s d qd : nth_error qs d = Some qd -> rel s d -> exists e, In e (hits find sym qs d trips) /\ exists neg i, 0 <= i < Z.of_nat (List.length sym) /\ e = kmapPack (Z.of_nat s) neg i.
  Proof.
    intros Hd (a&b&Ha&Hb&H). rewrite Hd in Hb. injection Hb as <-. apply image_related in H as (neg&rot&Hn&Hr&C); [|apply group].
    apply In_nth_error in Hr as (i&Ei). assert (i < List.length sym)%nat by (apply nth_error_Some; congruence).
    exists (kmapPack (Z.of_nat s) neg (Z.of_nat i)). split.
    - apply (in_hits _ _ qd Hd). exists s, neg, (Z.of_nat i), a, rot. rewrite Nat2Z.id. repeat (split; [first [assumption|reflexivity|lia]|]). exact C.
    - exists neg, (Z.of_nat i). split; auto. lia.
  Qed.

  Lemma ent_spec d qd : nth_error qs d = Some qd ->
    exists s neg i a rot, ent d = kmapPack (Z.of_nat s) neg i /\ nth_error qs s = Some a /\
      nth_error sym (Z.to_nat i) = Some rot /\ 0 <= i < Z.of_nat (List.length sym) /\ In neg (invertList sym useInv) /\
      congV (kimage neg rot (q_k a)) (q_k qd) /\ rel s d /\ (forall s', rel s' d -> (s <= s')%nat).
  Proof.
    intros Hd. destruct (rel_hit d d qd Hd) as (e0&He0&neg0&i0&Hi0&E0).
    { exists qd, qd. repeat split; auto. apply related_refl. apply group. }
    assert (Hlt : (d < n)%nat) by (apply nth_error_Some; congruence).
    assert (Hin : In (ent d) (hits find sym qs d trips)).
    { destruct (lmin_in (hits find sym qs d trips)) as [H|H]; auto. exfalso. apply lmin_le in He0. rewrite H in He0. subst e0.
      unfold kmapPack, kmapNone in He0. change (2^64) with (2^32*2^32) in He0. change (2^32) with (2*2^31) in *. set (P := 2^31) in *.
      assert (HP : 1 < P) by reflexivity. clearbody P.
      assert (Z.of_nat d * (2*P) <= (2*P-2)*(2*P)) by (apply Z.mul_le_mono_nonneg_r; lia). destruct neg0; lia. }
    pose proof Hin as Hin'. apply (in_hits _ _ qd Hd) in Hin as (s&neg&i&a&rot&E&Ea&Er&Hi&Hn&C).
    exists s, neg, i, a, rot. repeat (split; [assumption|]). split.
    - exists a, qd. split; [auto|split; [auto|]]. apply image_related; [apply group|]. exists neg, rot. split; [auto|split; [|exact C]]. eapply nth_error_In; eauto.
    - intros s' Hs'. destruct (rel_hit s' d qd Hd Hs') as (e'&He'&neg'&i'&Hi'&E'). apply lmin_le in He'. fold (ent d) in He'. rewrite E, E' in He'.
      apply pack_src_le in He'; lia.
  Qed.
  Lemma rel_trans i j k : rel i j -> rel j k -> rel i k.
  Proof.
    intros (a&b&Ha&Hb&H) (b'&c&Hb'&Hc&H'). rewrite Hb in Hb'. injection Hb' as <-. exists a, c. repeat split; auto.
    eapply related_trans; eauto. apply group.
  Qed.
  Lemma rel_sym i j : rel i j -> rel j i.
  Proof. intros (a&b&Ha&Hb&H). exists b, a. repeat split; auto. apply related_sym; auto. Qed.

  Definition src (d : nat) : nat := Z.to_nat (srcOf (ent d)).
  Lemma src_spec d : (d < n)%nat -> srcOf (ent d) = Z.of_nat (src d) /\ rel (src d) d /\ (forall s', rel s' d -> (src d <= s')%nat).
  Proof.
    intros H. destruct (nth_error_lt qs (Z.of_nat d)) as (qd&Hd); [lia|]. rewrite Nat2Z.id in Hd.
    destruct (ent_spec d qd Hd) as (s&neg&i&a&rot&E&Ea&Er&Hi&Hn&C&Hrel&Hmin).
    assert (S : srcOf (ent d) = Z.of_nat s). { unfold srcOf. rewrite E, pack_unpack by lia. reflexivity. }
    unfold src. rewrite S, Nat2Z.id. auto.
  Qed.
  Lemma rel_lt i j : rel i j -> (i < n)%nat /\ (j < n)%nat.
  Proof. intros (a&b&Ha&Hb&_). split; apply nth_error_Some; congruence. Qed.
  Lemma src_eq i j : rel i j -> src i = src j.
  Proof.
    intros H. destruct (rel_lt _ _ H) as (Hi&Hj). destruct (src_spec i Hi) as (_&R1&M1), (src_spec j Hj) as (_&R2&M2).
    apply Nat.le_antisymm; [apply M1|apply M2]; eapply rel_trans; eauto. apply rel_sym; auto.
  Qed.
  Lemma src_src d : (d < n)%nat -> src (src d) = src d.
  Proof. intros H. apply src_eq. apply src_spec; auto. Qed.

  (** ** the reduced mesh *)
  Definition km : list Z := map ent (seq 0 n).
  Lemma in_sources s : In s (sources qs km) <-> exists d, (d < n)%nat /\ s = Z.of_nat (src d).
  Proof.
    unfold sources, km. rewrite filter_In, in_zrange, existsb_exists. split.
    - intros (Hs&e&He&E). apply in_map_iff in He as (d&<-&Hd). apply in_seq in Hd. exists d. split; [lia|]. apply Z.eqb_eq in E.
      rewrite <- E. apply src_spec. lia.
    - intros (d&Hd&->). destruct (src_spec d Hd) as (E&Hr&_). apply rel_lt in Hr. split; [lia|]. exists (ent d). split.
      + apply in_map. apply in_seq. lia.
      + rewrite E. apply Z.eqb_refl.
  Qed.
  Lemma NoDup_sources : NoDup (sources qs km).
  Proof. apply NoDup_filter. apply zrange_NoDup. Qed.
  Lemma km_ok : forallb (fun e => (srcOf e <? Z.of_nat n)) km = true.
  Proof.
    apply forallb_forall. intros e He. apply in_map_iff in He as (d&<-&Hd). apply in_seq in Hd.
    destruct (src_spec d ltac:(lia)) as (E&Hr&_). apply rel_lt in Hr. rewrite E. apply Z.ltb_lt. lia.
  Qed.

  Definition q0 : qnum := QN (V 0 0 0)%R 0 0%R.
  Definition W (d : nat) : R := q_w (nth d qs q0).
  Definition ind (b : bool) : R := if b then 1%R else 0%R.
  Lemma total_filter {A} (f : A -> R) p l : total (map f (filter p l)) = total (map (fun x => ind (p x) * f x)%R l).
  Proof. induction l as [|x l IH]; cbn; auto. destruct (p x); cbn [map total ind]; rewrite IH; ring. Qed.
  Lemma total_plus {A} (f g : A -> R) l : total (map (fun x => f x + g x)%R l) = (total (map f l) + total (map g l))%R.
  Proof. induction l as [|x l IH]; cbn; [ring|]. rewrite IH. ring. Qed.
  Lemma total_ext {A} (f g : A -> R) l : (forall x, In x l -> f x = g x) -> total (map f l) = total (map g l).
  Proof. intros H. f_equal. apply map_ext_in. auto. Qed.
  Lemma total_zero {A} (f : A -> R) l : (forall x, In x l -> f x = 0%R) -> total (map f l) = 0%R.
  Proof. induction l as [|x l IH]; intros H; cbn; auto. rewrite (H x) by (cbn; auto). rewrite IH by (intros; apply H; cbn; auto). ring. Qed.
  Lemma total_single {A} (f : A -> R) l x : NoDup l -> In x l -> (forall y, In y l -> y <> x -> f y = 0%R) -> total (map f l) = f x.
  Proof.
    induction l as [|y l IH]; intros Hn Hi Hz; [destruct Hi|]. inversion Hn; subst. cbn. destruct Hi as [->|Hi].
    - rewrite total_zero; [ring|]. intros z Hz'. apply Hz; cbn; auto. congruence.
    - rewrite (Hz y) by (cbn; auto; congruence). rewrite IH; auto; [ring|]. intros z Hz' Hne. apply Hz; cbn; auto.
  Qed.
  Lemma total_swap {A B} (f : A -> B -> R) la lb :
    total (map (fun a => total (map (f a) lb)) la) = total (map (fun b => total (map (fun a => f a b) la)) lb).
  Proof.
    induction la as [|a la IH]; cbn.
    - symmetry. apply total_zero. auto.
    - rewrite IH, <- total_plus. reflexivity.
  Qed.

  Lemma combine_seq_map (f : nat -> Z) s k : combine (seq s k) (map f (seq s k)) = map (fun d => (d, f d)) (seq s k).
  Proof. revert s. induction k; intros s; cbn; auto. f_equal. apply IHk. Qed.
  Lemma collect_w s q : (s < n)%nat -> src s = s -> nth_error qs s = Some q ->
    q_w (collect qs km (Z.of_nat s) q) = total (map (fun d => ind (Nat.eqb (src d) s) * W d)%R (seq 0 n)).
  Proof.
    intros Hs Hss Hq. cbn [q_w collect]. rewrite fold_plus_total. unfold km at 1 2. rewrite map_length, seq_length, combine_seq_map.
    assert (E : q_w q = total (map (fun d => ind (Nat.eqb d s) * W d)%R (seq 0 n))).
    { rewrite (total_single _ _ s); [|apply seq_NoDup|apply in_seq; lia|].
      - rewrite Nat.eqb_refl. cbn. unfold W. rewrite (nth_error_nth _ _ _ Hq). ring.
      - intros y _ Hy. apply Nat.eqb_neq in Hy. rewrite Hy. cbn. ring. }
    rewrite E. rewrite total_filter, map_map, <- total_plus. apply total_ext. intros d Hd. apply in_seq in Hd. cbn [fst snd].
    destruct (src_spec d ltac:(lia)) as (Ed&_&_). rewrite Ed.
    assert (B1 : (Z.of_nat (src d) =? Z.of_nat s)%Z = Nat.eqb (src d) s).
    { destruct (Nat.eqb_spec (src d) s); [subst; apply Z.eqb_refl|apply Z.eqb_neq; lia]. }
    assert (B2 : (Z.of_nat d =? Z.of_nat s)%Z = Nat.eqb d s).
    { destruct (Nat.eqb_spec d s); [subst; apply Z.eqb_refl|apply Z.eqb_neq; lia]. }
    rewrite B1, B2. destruct (nth_error_lt qs (Z.of_nat d)) as (qd&Hqd); [lia|]. rewrite Nat2Z.id in Hqd. rewrite Hqd.
    unfold W. rewrite (nth_error_nth _ _ _ Hqd). destruct (Nat.eqb_spec d s).
    - subst d. rewrite Hss, Nat.eqb_refl. cbn. ring.
    - destruct (Nat.eqb (src d) s); cbn; ring.
  Qed.

  Definition redQ (s : Z) : qnum := collect qs km s (nth (Z.to_nat s) qs q0).
  Definition qRed : list qnum := map redQ (sources qs km).
  Lemma qRed_eq : flat_map (fun s => match nth_error qs (Z.to_nat s) with Some q => [collect qs km s q] | None => [] end) (sources qs km) = qRed.
  Proof.
    unfold qRed. assert (H : forall s, In s (sources qs km) -> 0 <= s < Z.of_nat n).
    { intros s Hs. unfold sources in Hs. apply filter_In in Hs as (Hs&_). apply in_zrange in Hs. auto. }
    induction (sources qs km) as [|s l IH]; cbn; auto. destruct (nth_error_lt qs s) as (q&Hq); [apply H; cbn; auto|].
    rewrite Hq. unfold redQ at 1. rewrite (nth_error_nth _ _ _ Hq). cbn. f_equal. apply IH. intros; apply H; cbn; auto.
  Qed.

  Lemma average_g (g : nat -> R) :
    total (map (fun s => g (Z.to_nat s) * q_w (redQ s))%R (sources qs km)) = total (map (fun d => g (src d) * W d)%R (seq 0 n)).
  Proof.
    rewrite (total_ext _ (fun s => total (map (fun d => ind (Nat.eqb (src d) (Z.to_nat s)) * (g (src d) * W d))%R (seq 0 n)))).
    - rewrite total_swap. apply total_ext. intros d Hd. apply in_seq in Hd.
      rewrite (total_single _ _ (Z.of_nat (src d))); [|apply NoDup_sources|apply in_sources; exists d; split; auto; lia|].
      + rewrite Nat2Z.id, Nat.eqb_refl. cbn. ring.
      + intros s Hs Hne. apply in_sources in Hs as (d'&Hd'&->). rewrite Nat2Z.id. destruct (Nat.eqb_spec (src d) (src d')).
        * exfalso. apply Hne. congruence.
        * cbn. ring.
    - intros s Hs. apply in_sources in Hs as (d'&Hd'&->). rewrite Nat2Z.id. unfold redQ. rewrite Nat2Z.id.
      destruct (src_spec d' Hd') as (_&Hr&_). apply rel_lt in Hr as (Hlt&_). 
      rewrite collect_w; [|auto|apply src_src; auto|apply nth_error_nth'; auto].
      rewrite Rmult_comm, <- total_scale. apply total_ext. intros d _. destruct (Nat.eqb_spec (src d) (src d')) as [->|_]; cbn; ring.
  Qed.

  Lemma map_nth_seq {A} (f : qnum -> A) : map f qs = map (fun d => f (nth d qs q0)) (seq 0 n).
  Proof.
    rewrite <- (map_map (fun d => nth d qs q0) f). f_equal.
    clear. induction qs as [|q l IH]; cbn; auto. f_equal. rewrite <- seq_shift, map_map. exact IH.
  Qed.
  Lemma average f : (forall k k', related sym useInv k k' -> f k = f k') ->
    total (map (fun q => q_w q * f (q_k q))%R qRed) = total (map (fun q => q_w q * f (q_k q))%R qs).
  Proof.
    intros Hf. unfold qRed. rewrite map_map.
    rewrite (total_ext _ (fun s => f (q_k (nth (Z.to_nat s) qs q0)) * q_w (redQ s))%R).
    - rewrite (average_g (fun d => f (q_k (nth d qs q0)))). rewrite (map_nth_seq (fun q => q_w q * f (q_k q))%R). apply total_ext. intros d Hd. apply in_seq in Hd. unfold W.
      destruct (src_spec d ltac:(lia)) as (_&(a&b&Ha&Hb&Hr)&_). rewrite (nth_error_nth _ _ _ Ha), (nth_error_nth _ _ _ Hb), (Hf _ _ Hr). ring.
    - intros s _. cbn [redQ collect q_k]. unfold redQ. cbn [collect q_k q_w]. ring.
  Qed.

  Lemma covers q : In q qs -> exists r, In r qRed /\ related sym useInv (q_k r) (q_k q).
  Proof.
    intros Hq. apply In_nth_error in Hq as (d&Hd). assert (Hlt : (d < n)%nat) by (apply nth_error_Some; congruence).
    exists (redQ (Z.of_nat (src d))). split.
    - apply in_map. apply in_sources. eauto.
    - destruct (src_spec d Hlt) as (_&(a&b&Ha&Hb&Hr)&_). rewrite Hd in Hb. injection Hb as <-. unfold redQ. cbn [collect q_k].
      rewrite Nat2Z.id, (nth_error_nth _ _ _ Ha). auto.
  Qed.
  Lemma one_per_orbit : ForallOrdPairs (fun r r' => ~ related sym useInv (q_k r) (q_k r')) qRed.
  Proof.
    apply map_ordpairs; [apply NoDup_sources|]. intros x y Hx Hy Hne Hr. apply in_sources in Hx as (d&Hd&->), Hy as (d'&Hd'&->). apply Hne.
    f_equal. unfold redQ in Hr. cbn [collect q_k] in Hr. rewrite !Nat2Z.id in Hr.
    destruct (src_spec d Hd) as (_&R1&_), (src_spec d' Hd') as (_&R2&_). apply rel_lt in R1 as (L1&_), R2 as (L2&_).
    rewrite <- (src_src d), <- (src_src d') by auto. apply src_eq. exists (nth (src d) qs q0), (nth (src d') qs q0).
    repeat split; auto; apply nth_error_nth'; auto.
  Qed.
  Lemma from_mesh r : In r qRed -> exists q, In q qs /\ q_k r = q_k q /\ q_spin r = q_spin q.
  Proof.
    intros H. apply in_map_iff in H as (s&<-&Hs). exists (nth (Z.to_nat s) qs q0). split; [|split; reflexivity]. apply nth_In.
    unfold sources in Hs. apply filter_In in Hs as (Hs&_). apply in_zrange in Hs. lia.
  Qed.

  Lemma indexOf_nth s l : In s l -> nth_error l (indexOf s l) = Some s.
  Proof. induction l as [|x l IH]; intros H; [destruct H|]. cbn. destruct (Z.eqb_spec x s); [subst; auto|]. destruct H; [congruence|]. cbn. auto. Qed.

  Definition km' : list Z := map (fun e => let '(s,neg,iSym) := kmapUnpack e in kmapPack (Z.of_nat (indexOf s (sources qs km))) neg iSym) km.
  Lemma reduceKmesh_eq nProcs : 0 < nProcs -> reduceKmesh find sym useInv qs nProcs = Some (qRed,km').
  Proof.
    intros H. unfold reduceKmesh. rewrite kmap_all_eq by auto. change (map _ (seq 0 n)) with km. unfold reduceKmesh_of. rewrite km_ok.
    cbv zeta. rewrite qRed_eq. reflexivity.
  Qed.
  Lemma km'_spec d q : nth_error qs d = Some q ->
    exists e ir neg i r rot, nth_error km' d = Some e /\ kmapUnpack e = (Z.of_nat ir,neg,i) /\ nth_error qRed ir = Some r /\
      nth_error sym (Z.to_nat i) = Some rot /\ (neg = true -> useInv = true) /\ congV (rvm (if neg then rvopp (q_k r) else q_k r) (mIZR rot)) (q_k q).
  Proof.
    intros Hd. assert (Hlt : (d < n)%nat) by (apply nth_error_Some; congruence).
    destruct (ent_spec d q Hd) as (s&neg&i&a&rot&E&Ea&Er&Hi&Hn&C&Hrel&_).
    destruct (src_spec d Hlt) as (S&_&_). assert (Es : src d = s). { unfold srcOf in S. rewrite E, pack_unpack in S by lia. cbn in S. lia. }
    exists (kmapPack (Z.of_nat (indexOf (Z.of_nat s) (sources qs km))) neg i), (indexOf (Z.of_nat s) (sources qs km)), neg, i, (redQ (Z.of_nat s)), rot.
    split.
    - unfold km', km. rewrite map_map. rewrite nth_error_map. rewrite (nth_error_nth' _ 0%nat) by (rewrite seq_length; auto). rewrite seq_nth by auto.
      cbn [option_map Nat.add]. rewrite E, pack_unpack by lia. reflexivity.
    - split; [apply pack_unpack; lia|]. split.
      + unfold qRed. rewrite nth_error_map, indexOf_nth; [reflexivity|]. apply in_sources. exists d. split; [auto|congruence].
      + split; auto. split.
        * intros ->. unfold invertList in Hn. destruct useInv; auto. cbn in Hn. destruct Hn as [?|[]]; discriminate.
        * unfold redQ. cbn [collect q_k]. rewrite Nat2Z.id, (nth_error_nth _ _ _ Ea). rewrite kimage_neg in C. auto.
  Qed.
  Lemma length_km' : List.length km' = n.
  Proof. unfold km', km. rewrite !map_length, seq_length. auto. Qed.
End Orbits.

Lemma reduceKmesh_correct find sym inv qs nProcs :
  Z.of_nat (List.length qs) < 2^32 -> Z.of_nat (List.length sym) < 2^31 -> is_group sym -> distinct_mesh qs ->
  exact_lookup sym qs find -> 0 < nProcs ->
  exists red m, reduceKmesh find sym inv qs nProcs = Some (red,m) /\ kmesh_reduction sym inv qs red kmapUnpack m.
Proof.
  intros Hn Hs G D X Hp. exists (qRed find sym inv qs), (km' find sym inv qs).
  assert (F1 : forall q neg rot d, In q qs -> In rot sym -> find (kimage neg rot (q_k q)) = Some d ->
    exists q', nth_error qs d = Some q' /\ congV (kimage neg rot (q_k q)) (q_k q')).
  { intros q neg rot d Hq Hr E. specialize (X q neg rot Hq Hr). rewrite kimage_neg in *. fold (imageOf neg rot (q_k q)) in *. rewrite E in X. auto. }
  assert (F2 : forall q neg rot q', In q qs -> In rot sym -> find (kimage neg rot (q_k q)) = None -> In q' qs ->
    ~ congV (kimage neg rot (q_k q)) (q_k q')).
  { intros q neg rot q' Hq Hr E Hq'. specialize (X q neg rot Hq Hr). rewrite kimage_neg in *. fold (imageOf neg rot (q_k q)) in *. rewrite E in X. auto. }
  split; [apply reduceKmesh_eq; auto|].
  assert (A : forall f : vec R -> R, (forall k k', related sym inv k k' -> f k = f k') ->
    total (map (fun q => q_w q * f (q_k q))%R (qRed find sym inv qs)) = total (map (fun q => q_w q * f (q_k q))%R qs)).
  { intros f Hf. apply average; auto. }
  split; auto.
  - specialize (A (fun _ => 1%R) ltac:(auto)). cbn in A.
    rewrite (map_ext (fun q => q_w q * 1)%R q_w) in A by (intros; ring).
    rewrite (map_ext (fun q => q_w q * 1)%R q_w) in A by (intros; ring). auto.
  - intros q Hq. apply covers; auto.
  - apply one_per_orbit; auto.
  - intros r Hr. apply (from_mesh find sym inv qs); auto.
  - apply length_km'.
  - intros d q Hd. apply km'_spec; auto.
Qed.
