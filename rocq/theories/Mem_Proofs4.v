(** Peak usage report (C17). *)
From Coq Require Import ZArith List Bool Lia String.
From Verif Require Import Mem_Model Mem_Spec.
Import ListNotations.
Open Scope Z_scope.

Lemma zsum_app a b : zsum (a ++ b) = zsum a + zsum b.
Proof. induction a; cbn; auto. rewrite IHa. lia. Qed.
Lemma used_snoc_le d k evs e : (k <= List.length evs)%nat -> used d k (evs ++ [e]) = used d k evs.
Proof. intros H. unfold used. rewrite firstn_app. replace (k - List.length evs)%nat with 0%nat by lia. cbn. rewrite app_nil_r. auto. Qed.
Lemma used_all d k evs : (List.length evs <= k)%nat -> used d k evs = zsum (map d evs).
Proof. intros H. unfold used. rewrite firstn_all2; auto. Qed.
(** one counter *)
Definition tracks (d : Event -> Z) (evs : list Event) (u : Usage) : Prop := current u = zsum (map d evs) /\ is_peak d evs (peak u).
Lemma tracks_nil d : tracks d [] usage0.
Proof. split; auto. split. - intros k. unfold used. rewrite firstn_nil. cbn. lia. - exists O. auto. Qed.
Lemma peak_snoc d evs e p : is_peak d evs p -> is_peak d (evs ++ [e]) (Z.max p (zsum (map d evs) + d e)).
Proof.
  intros (U&k&E). assert (EA : zsum (map d (evs ++ [e])) = zsum (map d evs) + d e) by (rewrite map_app, zsum_app; cbn; lia). split.
  - intros j. destruct (Nat.le_gt_cases j (List.length evs)) as [H|H].
    + rewrite used_snoc_le by auto. specialize (U j). lia.
    + rewrite used_all by (rewrite app_length; cbn; lia). lia.
  - destruct (Z.max_spec p (zsum (map d evs) + d e)) as [(_&->)|(_&->)].
    + exists (List.length (evs ++ [e])). rewrite used_all; auto.
    + exists (Nat.min k (List.length evs)). rewrite used_snoc_le by lia. rewrite E. destruct (Nat.min_spec k (List.length evs)) as [(H&->)|(H&->)]; auto.
      rewrite !used_all by lia. auto.
Qed.
Lemma peak_ge d evs p : is_peak d evs p -> zsum (map d evs) <= p.
Proof. intros (U&_). rewrite <- (used_all d (List.length evs)) by lia. apply U. Qed.
Lemma tracks_add d evs e u n : d e = n -> tracks d evs u -> tracks d (evs ++ [e]) (uadd u n).
Proof.
  intros E (C&P). pose proof (peak_snoc d evs e _ P) as S. rewrite E, <- C in S. split.
  - cbn. rewrite map_app, zsum_app. cbn. lia.
  - unfold uadd. cbn [peak]. destruct (Z.ltb_spec (peak u) (current u + n)); [rewrite Z.max_r in S by lia|rewrite Z.max_l in S by lia]; auto.
Qed.
Lemma tracks_sub d evs e u n : d e = - n -> 0 <= n -> tracks d evs u -> tracks d (evs ++ [e]) (usub u n).
Proof.
  intros E Hn (C&P). pose proof (peak_snoc d evs e _ P) as S. pose proof (peak_ge _ _ _ P). rewrite E in S. split.
  - cbn. rewrite map_app, zsum_app. cbn. lia.
  - cbn. rewrite Z.max_l in S by lia. auto.
Qed.
Lemma tracks_same d evs e u : d e = 0 -> tracks d evs u -> tracks d (evs ++ [e]) u.
Proof.
  intros E (C&P). pose proof (peak_snoc d evs e _ P) as S. pose proof (peak_ge _ _ _ P). rewrite E in S. split.
  - rewrite map_app, zsum_app. cbn. lia.
  - rewrite Z.max_l in S by lia. auto.
Qed.

(** the map *)
Definition names (l : list (string * Usage)) := map fst l.
Lemma uinsert_names l c u : forall x, In x (names (uinsert l c u)) <-> x = c \/ In x (names l).
Proof.
  induction l as [|e l IH]; intros x; cbn. - intuition congruence.
  - destruct (String.ltb c (fst e)); cbn. + intuition congruence. + unfold names in IH. rewrite IH. tauto.
Qed.
Lemma existsb_names l c : existsb (fun e : string * Usage => String.eqb (fst e) c) l = true <-> In c (names l).
Proof.
  rewrite existsb_exists. unfold names. rewrite in_map_iff. split; intros (e&A&B); exists e.
  - apply String.eqb_eq in B. auto. - subst. rewrite String.eqb_refl. auto.
Qed.
Lemma uset_names l c u : forall x, In x (names (uset l c u)) <-> x = c \/ In x (names l).
Proof.
  intros x. unfold uset. destruct (existsb _ l) eqn:E; [|apply uinsert_names].
  apply existsb_names in E. replace (names (map (fun e => if String.eqb (fst e) c then (c, u) else e) l)) with (names l).
  - split; auto. intros [->|H]; auto.
  - unfold names. rewrite map_map. apply map_ext. intros e. destruct (String.eqb_spec (fst e) c); auto.
Qed.
Lemma uinsert_nodup l c u : ~ In c (names l) -> NoDup (names l) -> NoDup (names (uinsert l c u)).
Proof.
  induction l as [|e l IH]; cbn; intros H N. - constructor; auto. 
  - destruct (String.ltb c (fst e)); cbn. + constructor; auto.
    + inversion N; subst. constructor; auto. intros Hi. apply (uinsert_names l c u) in Hi. destruct Hi; auto.
Qed.
Lemma uset_nodup l c u : NoDup (names l) -> NoDup (names (uset l c u)).
Proof.
  intros N. unfold uset. destruct (existsb _ l) eqn:E.
  - replace (names (map (fun e => if String.eqb (fst e) c then (c, u) else e) l)) with (names l); auto.
    unfold names. rewrite map_map. apply map_ext. intros e. destruct (String.eqb_spec (fst e) c); auto.
  - apply uinsert_nodup; auto. intros H. apply existsb_names in H. congruence.
Qed.
Lemma uinsert_lookup l c u c' : ~ In c (names l) -> ulookup (uinsert l c u) c' = if String.eqb c c' then u else ulookup l c'.
Proof.
  unfold ulookup. induction l as [|(a,v) l IH]; cbn [uinsert names map In fst]; intros H.
  - cbn [find fst]. destruct (String.eqb c c'); auto.
  - destruct (String.ltb c a).
    + cbn [find fst]. destruct (String.eqb c c'); auto.
    + cbn [find fst]. destruct (String.eqb_spec a c') as [->|].
      * destruct (String.eqb_spec c c'); auto. subst. exfalso. apply H. auto.
      * apply IH. tauto.
Qed.
Lemma uset_lookup l c u c' : ulookup (uset l c u) c' = if String.eqb c c' then u else ulookup l c'.
Proof.
  unfold uset. destruct (existsb _ l) eqn:E.
  - apply existsb_names in E. unfold ulookup. induction l as [|(a,v) l IH]; [destruct E|]. cbn [map find fst]. destruct (String.eqb_spec a c) as [->|Hac]; cbn [find fst].
    + destruct (String.eqb_spec c c'); auto. destruct (in_dec string_dec c (names l)) as [Hi|Hi].
      * apply IH; auto.
      * f_equal. clear -Hi n. replace (map (fun e : string * Usage => if String.eqb (fst e) c then (c, u) else e) l) with l; auto.
        induction l as [|e l IH]; cbn; auto. cbn in Hi. destruct (String.eqb_spec (fst e) c); [tauto|]. f_equal. apply IH. tauto.
    + destruct (String.eqb_spec a c') as [->|].
      * destruct (String.eqb_spec c c'); auto. congruence.
      * apply IH. destruct E; [contradiction|auto].
  - apply uinsert_lookup. intros H. apply existsb_names in H. congruence.
Qed.
Lemma lookup_in l c u : NoDup (names l) -> In (c,u) l -> ulookup l c = u.
Proof.
  unfold ulookup. induction l as [|(a,v) l IH]; cbn [names map find fst]; intros N H; [destruct H|]. inversion N; subst. destruct H as [E|H].
  - injection E as -> ->. rewrite String.eqb_refl. auto.
  - destruct (String.eqb_spec a c); [|auto]. subst. exfalso. apply H2. apply in_map_iff. exists (c,u). auto.
Qed.

Theorem manager_spec evs : sizes_ok evs ->
  let r := fold_left manager evs report0 in
  (forall c, tracks (delta c) evs (ulookup (usageMap r) c)) /\ tracks delta_total evs (usageTotal r) /\
  NoDup (names (usageMap r)) /\ (forall c, In c (names (usageMap r)) <-> exists e, In e evs /\ cat_of e = c).
Proof.
  induction evs as [|e evs IH] using rev_ind; intros OK.
  - cbn. repeat split; auto; try apply tracks_nil; try constructor; try tauto. intros (e&[]&_).
  - cbv zeta. rewrite fold_left_app. cbn [fold_left]. set (r := fold_left manager evs report0) in *.
    destruct IH as (I1&I2&I3&I4). { intros x Hx. apply OK. apply in_or_app. auto. }
    assert (Oe := OK e ltac:(apply in_or_app; right; left; auto)).
    assert (NM : forall c, c = cat_of e \/ In c (names (usageMap r)) <-> exists x, In x (evs ++ [e]) /\ cat_of x = c).
    { intros c. rewrite I4. split.
      - intros [->|(x&Hx&E)]; [exists e|exists x]; split; auto; apply in_or_app; [right; left; auto|left; auto].
      - intros (x&Hx&E). apply in_app_or in Hx. destruct Hx as [Hx|[<-|[]]]; eauto. }
    destruct e as [c n|c n]; cbn [manager usageMap usageTotal cat_of] in *; (split; [|split; [|split]]); auto using uset_nodup.
    + intros c'. rewrite uset_lookup. destruct (String.eqb c c') eqn:E.
      * apply String.eqb_eq in E. subst c'. apply tracks_add; auto. cbn. rewrite String.eqb_refl. auto.
      * apply tracks_same; auto. cbn. rewrite E. auto.
    + apply tracks_add; auto.
    + intros c'. rewrite uset_names. apply NM.
    + intros c'. rewrite uset_lookup. destruct (String.eqb c c') eqn:E.
      * apply String.eqb_eq in E. subst c'. apply tracks_sub; auto. cbn. rewrite String.eqb_refl. auto.
      * apply tracks_same; auto. cbn. rewrite E. auto.
    + apply tracks_sub; auto.
    + intros c'. rewrite uset_names. apply NM.
Qed.
Theorem printed_spec evs : sizes_ok evs ->
  exists l t, printed (fold_left manager evs report0) = l ++ [("Total"%string, t)] /\ is_peak delta_total evs t /\ NoDup (map fst l) /\
    (forall c, In c (map fst l) <-> exists e, In e evs /\ cat_of e = c) /\ forall c p, In (c,p) l -> is_peak (delta c) evs p.
Proof.
  intros OK. destruct (manager_spec evs OK) as (I1&I2&I3&I4). set (r := fold_left manager evs report0) in *.
  exists (map (fun e => (fst e, peak (snd e))) (usageMap r)), (peak (usageTotal r)). split; auto. split; [apply I2|]. rewrite map_map. cbn. fold (names (usageMap r)).
  split; auto. split; auto. intros c p H. apply in_map_iff in H. destruct H as ((a,u)&E&H). cbn in E. injection E as <- <-. rewrite <- (lookup_in _ _ _ I3 H). apply I1.
Qed.
