(** Proofs for C44. *)
From Coq Require Import Reals List Lia Lra Permutation Sorted.
From Verif Require Import Weld_Model Weld_Spec.
Import ListNotations.
Open Scope R_scope.

Definition keyle (p q : R * nat) : Prop := fst p <= fst q.
Lemma mmInsert_perm p l : Permutation (mmInsert p l) (p :: l).
Proof.
  induction l as [|q l IH]; cbn; [reflexivity|]. destruct (Rlt_dec (fst p) (fst q)); [reflexivity|].
  rewrite IH. apply perm_swap.
Qed.
Lemma mmInsert_sorted p l : StronglySorted keyle l -> StronglySorted keyle (mmInsert p l).
Proof.
  induction l as [|q l IH]; intros S; cbn; [repeat constructor|].
  inversion S as [|? ? S' Fa]; subst. destruct (Rlt_dec (fst p) (fst q)).
  - constructor; [exact S|]. constructor; [unfold keyle; lra|]. eapply Forall_impl; [|exact Fa]. unfold keyle. intros; lra.
  - constructor; [apply IH; auto|]. eapply Permutation_Forall; [symmetry; apply mmInsert_perm|].
    constructor; [unfold keyle; lra|exact Fa].
Qed.
Lemma eigMap_ok eigs : Permutation (eigMap eigs) (number 0 eigs) /\ StronglySorted keyle (eigMap eigs).
Proof.
  unfold eigMap.
  assert (H : forall l m, StronglySorted keyle m -> Permutation (fold_left (fun m p => mmInsert p m) l m) (m ++ l) /\ StronglySorted keyle (fold_left (fun m p => mmInsert p m) l m)).
  { induction l as [|p l IH]; intros m S; cbn [fold_left]; [rewrite app_nil_r; auto|].
    destruct (IH (mmInsert p m) (mmInsert_sorted p m S)) as [P Q]. split; [|exact Q].
    rewrite P. rewrite mmInsert_perm. cbn. apply Permutation_middle. }
  apply (H _ [] (SSorted_nil _)).
Qed.
Lemma number_nth eigs : forall k e i, In (e, i) (number k eigs) <-> (k <= i < k + List.length eigs)%nat /\ nth (i - k) eigs 0 = e.
Proof.
  induction eigs as [|a l IH]; intros k e i; cbn [number In List.length].
  - split; [tauto|lia].
  - rewrite IH. split.
    + intros [E|[H1 H2]].
      * injection E as <- <-. split; [lia|]. replace (k-k)%nat with 0%nat by lia. reflexivity.
      * split; [lia|]. replace (i-k)%nat with (S (i - S k))%nat by lia. exact H2.
    + intros [H1 H2]. destruct (Nat.eq_dec i k) as [->|N].
      * left. replace (k-k)%nat with 0%nat in H2 by lia. cbn in H2. congruence.
      * right. split; [lia|]. replace (i-k)%nat with (S (i - S k))%nat in H2 by lia. exact H2.
Qed.
Lemma number_snd eigs : forall k, map snd (number k eigs) = seq k (List.length eigs).
Proof. induction eigs as [|a l IH]; intros k; cbn; [reflexivity|]. rewrite IH. reflexivity. Qed.
Lemma number_fst eigs : forall k, map fst (number k eigs) = eigs.
Proof. induction eigs as [|a l IH]; intros k; cbn; [reflexivity|]. rewrite IH. reflexivity. Qed.

(** ** clusters *)
Lemma clusterEnd_app Etol l : forall e c r, clusterEnd Etol e l = (c, r) -> l = c ++ r.
Proof.
  induction l as [|q l IH]; intros e c r H; cbn in H; [injection H as <- <-; reflexivity|].
  destruct (Rle_dec (fst q) (e + Etol)); [|injection H as <- <-; reflexivity].
  destruct (clusterEnd Etol (fst q) l) as [c' r'] eqn:E. injection H as <- <-. rewrite (IH _ _ _ E). reflexivity.
Qed.
(** the sequence of welded values *)
Inductive welded (Etol : R) : list (R * nat) -> list (R * nat) -> Prop :=
| welded_nil : welded Etol [] []
| welded_cons : forall i l c r o, clusterEnd Etol (fst i) l = (c, r) -> welded Etol r o ->
    welded Etol (i :: l) (map (fun k => (clusterMean (i :: c), snd k)) (i :: c) ++ o).
Lemma welded_exists Etol : forall n l, (List.length l <= n)%nat -> exists o, welded Etol l o.
Proof.
  induction n as [|n IH]; intros l H.
  - destruct l; [eexists; constructor|cbn in H; lia].
  - destruct l as [|i l]; [eexists; constructor|].
    destruct (clusterEnd Etol (fst i) l) as [c r] eqn:E. destruct (IH r) as [o O].
    + apply clusterEnd_app in E. subst l. cbn in H. rewrite app_length in H. lia.
    + eexists. econstructor; eauto.
Qed.
Lemma welded_snd Etol l o : welded Etol l o -> map snd o = map snd l.
Proof.
  induction 1 as [|i l c r o E W IH]; [reflexivity|].
  rewrite map_app, map_map, IH. apply clusterEnd_app in E. subst l. cbn. rewrite map_app. reflexivity.
Qed.
Definition assign (o : list (R * nat)) (es : list R) : list R := fold_left (fun es k => setEig es (snd k) (fst k)) o es.
Lemma weldLoop_assign Etol l o : welded Etol l o -> forall fuel es, (List.length l <= fuel)%nat -> weldLoop fuel Etol l es = Some (assign o es).
Proof.
  induction 1 as [|i l c r o E W IH]; intros fuel es Hf; [destruct fuel; reflexivity|].
  destruct fuel as [|f]; [cbn in Hf; lia|]. cbn [weldLoop]. rewrite E. cbv zeta.
  rewrite IH. 2:{ apply clusterEnd_app in E. subst l. cbn in Hf. rewrite app_length in Hf. lia. }
  f_equal. unfold assign at 2. rewrite fold_left_app. fold (assign o). unfold assign at 1. f_equal.
  generalize (clusterMean (i :: c)). intros m. generalize (i :: c). intros cl. revert es.
  induction cl as [|k cl IHc]; intros es; cbn; [reflexivity|]. apply IHc.
Qed.

(** ** the assigned array *)
Lemma setEig_len l i v : List.length (setEig l i v) = List.length l.
Proof. revert i. induction l as [|a l IH]; intros [|i]; cbn; auto. Qed.
Lemma setEig_nth l i v j : (i < List.length l)%nat -> nth j (setEig l i v) 0 = if Nat.eq_dec j i then v else nth j l 0.
Proof.
  revert i j. induction l as [|a l IH]; intros i j H; [cbn in H; lia|]. cbn in H.
  destruct i as [|i], j as [|j]; cbn [setEig nth]; try reflexivity.
  rewrite IH by lia. destruct (Nat.eq_dec j i), (Nat.eq_dec (S j) (S i)); try reflexivity; lia.
Qed.
Lemma assign_len o : forall es, List.length (assign o es) = List.length es.
Proof. induction o as [|k o IH]; intros es; cbn; [reflexivity|]. rewrite IH, setEig_len. reflexivity. Qed.
Lemma assign_nth o : forall es, NoDup (map snd o) -> (forall k, In k o -> (snd k < List.length es)%nat) ->
  (forall k, In k o -> nth (snd k) (assign o es) 0 = fst k) /\ (forall j, ~ In j (map snd o) -> nth j (assign o es) 0 = nth j es 0).
Proof.
  induction o as [|k o IH]; intros es ND Hlt; cbn [assign fold_left]; [split; [intros k []|reflexivity]|].
  cbn in ND. inversion ND as [|? ? Nk ND']; subst.
  change (fold_left (fun es k => setEig es (snd k) (fst k)) o (setEig es (snd k) (fst k))) with (assign o (setEig es (snd k) (fst k))).
  destruct (IH (setEig es (snd k) (fst k))) as [A B]; [exact ND'|intros q Hq; rewrite setEig_len; apply Hlt; right; auto|].
  assert (Hk : (snd k < List.length es)%nat) by (apply Hlt; left; auto).
  split.
  - intros q [->|Hq]; [|apply A; auto]. rewrite B by auto. rewrite setEig_nth by auto. destruct (Nat.eq_dec (snd q) (snd q)); [reflexivity|congruence].
  - intros j Hj. cbn in Hj. rewrite B by tauto. rewrite setEig_nth by auto. destruct (Nat.eq_dec j (snd k)); [subst; tauto|reflexivity].
Qed.
Lemma assign_list o es : NoDup (map snd o) -> Permutation (map snd o) (seq 0 (List.length es)) -> Permutation (assign o es) (map fst o).
Proof.
  intros ND P.
  assert (Hlt : forall k, In k o -> (snd k < List.length es)%nat).
  { intros k Hk. assert (In (snd k) (seq 0 (List.length es))) as I by (apply (Permutation_in _ P), in_map, Hk). apply in_seq in I. lia. }
  destruct (assign_nth o es ND Hlt) as [A _].
  assert (E : map (fun j => nth j (assign o es) 0) (map snd o) = map fst o).
  { rewrite map_map. apply map_ext_in. exact A. }
  rewrite <- E.
  assert (E2 : assign o es = map (fun j => nth j (assign o es) 0) (seq 0 (List.length es))).
  { rewrite <- (assign_len o es). generalize (assign o es). intros l. clear.
    apply nth_ext with (d := 0) (d' := 0); [rewrite map_length, seq_length; reflexivity|].
    intros n Hn. rewrite (nth_indep (map (fun j => nth j l 0) (seq 0 (List.length l))) 0 (nth 0 l 0)) by (rewrite map_length, seq_length; auto). rewrite (map_nth (fun j => nth j l 0) _ 0%nat). rewrite seq_nth by auto. reflexivity. }
  rewrite E2 at 1. apply Permutation_map. symmetry. exact P.
Qed.
Lemma total_perm l l' : Permutation l l' -> total l = total l'.
Proof. unfold total. induction 1; cbn; lra. Qed.
Lemma total_app l l' : total (l ++ l') = total l + total l'.
Proof. unfold total. induction l as [|a l IH]; cbn; [lra|]. rewrite IH. lra. Qed.

(** ** means *)
Lemma fold_sum (c : list (R * nat)) : forall s, fold_left (fun s k => s + fst k) c s = s + total (map fst c).
Proof. unfold total. induction c as [|k c IH]; intros s; cbn; [lra|]. rewrite IH. lra. Qed.
Lemma total_const m (c : list (R * nat)) : total (map (fun _ => m) c) = INR (List.length c) * m.
Proof. induction c as [|k c IH]; [cbn; lra|]. cbn [map total fold_right List.length]. rewrite S_INR. unfold total in IH. rewrite IH. lra. Qed.
Lemma mean_sum i c : INR (List.length (i :: c)) * clusterMean (i :: c) = total (map fst (i :: c)).
Proof.
  unfold clusterMean. rewrite fold_sum, Rplus_0_l. field. cbn [List.length]. apply not_0_INR. lia.
Qed.
Lemma welded_total Etol l o : welded Etol l o -> total (map fst o) = total (map fst l).
Proof.
  induction 1 as [|i l c r o E W IH]; [reflexivity|].
  rewrite map_app, map_map, total_app, IH.
  change (map (fun x => fst (clusterMean (i :: c), snd x)) (i :: c)) with (map (fun _ : R * nat => clusterMean (i :: c)) (i :: c)).
  rewrite (total_const (clusterMean (i :: c)) (i :: c)), mean_sum.
  apply clusterEnd_app in E. subst l. change (i :: c ++ r) with ((i :: c) ++ r). rewrite map_app, total_app. reflexivity.
Qed.
Lemma total_bounds a b (c : list (R * nat)) : (forall k, In k c -> a <= fst k <= b) -> INR (List.length c) * a <= total (map fst c) <= INR (List.length c) * b.
Proof.
  induction c as [|k c IH]; intros H; [cbn; lra|]. cbn [map total fold_right List.length]. rewrite S_INR.
  assert (A := H k (or_introl eq_refl)). assert (B : forall q, In q c -> a <= fst q <= b) by (intros; apply H; right; auto).
  specialize (IH B). unfold total in IH. lra.
Qed.
Lemma mean_bounds a b i c : (forall k, In k (i :: c) -> a <= fst k <= b) -> a <= clusterMean (i :: c) <= b.
Proof.
  intros H. pose proof (total_bounds a b (i :: c) H) as T. rewrite <- mean_sum in T.
  assert (P : 0 < INR (List.length (i :: c))) by (apply lt_0_INR; cbn; lia).
  split; apply Rmult_le_reg_l with (INR (List.length (i :: c))); lra.
Qed.

(** ** order and separation *)
Lemma sorted_app_le (l r : list (R * nat)) : StronglySorted keyle (l ++ r) -> StronglySorted keyle l /\ StronglySorted keyle r /\ forall p q, In p l -> In q r -> fst p <= fst q.
Proof.
  induction l as [|a l IH]; intros S; cbn in *; [repeat split; auto; [constructor|tauto]|].
  inversion S as [|? ? S' Fa]; subst. destruct (IH S') as (A & B & D).
  rewrite Forall_app in Fa. destruct Fa as [F1 F2]. split; [constructor; auto|]. split; [exact B|].
  intros p q [->|Hp] Hq; [|apply D; auto]. rewrite Forall_forall in F2. apply F2. exact Hq.
Qed.
(** the first value after a cluster is more than Etol above every member, if Etol >= 0 or in general above the last *)
Lemma cluster_gap Etol l : forall e c r, clusterEnd Etol e l = (c, r) -> StronglySorted keyle l -> (forall q, In q l -> e <= fst q) ->
  forall p q, (fst p = e \/ In p c) -> In q r -> fst p + Etol < fst q.
Proof.
  induction l as [|a l IH]; intros e c r H S Hle p q Hp Hq; cbn in H; [injection H as <- <-; destruct Hq|].
  inversion S as [|? ? S' Fa]; subst. rewrite Forall_forall in Fa.
  destruct (Rle_dec (fst a) (e + Etol)) as [L|L].
  - destruct (clusterEnd Etol (fst a) l) as [c' r'] eqn:E. injection H as <- <-.
    assert (X : forall p', fst p' = fst a \/ In p' c' -> fst p' + Etol < fst q) by (intros p' Hp'; eapply IH; eauto).
    destruct Hp as [Hp|[->|Hp]].
    + assert (Y := X a (or_introl eq_refl)). assert (Z := Hle a (or_introl eq_refl)). lra.
    + apply X. auto.
    + apply X. auto.
  - injection H as <- <-. destruct Hp as [Hp|[]]. destruct Hq as [->|Hq]; [lra|].
    assert (Z := Fa q Hq). unfold keyle in Z. lra.
Qed.
Lemma cons_le i l : StronglySorted keyle (i :: l) -> forall q, In q l -> fst i <= fst q.
Proof. intros S. inversion S as [|? ? _ Fa]; subst. rewrite Forall_forall in Fa. exact Fa. Qed.
(** position by position: the welded value of each entry against the others *)
Lemma welded_low Etol l o : welded Etol l o -> StronglySorted keyle l -> forall a, (forall q, In q l -> a <= fst q) -> forall q, In q o -> a <= fst q.
Proof.
  induction 1 as [|i l c r o E W IH]; intros S a Ha q Hq; [destruct Hq|].
  assert (El := clusterEnd_app _ _ _ _ _ E). subst l.
  apply in_app_or in Hq. destruct Hq as [Hq|Hq].
  - apply in_map_iff in Hq. destruct Hq as (k & <- & _). cbn [fst].
    destruct (mean_bounds a (fold_right Rmax (fst i) (map fst (i :: c))) i c) as [M _]; [|exact M].
    intros k' Hk'. split; [apply Ha; rewrite app_comm_cons; apply in_or_app; auto|].
    clear - Hk'. induction (i :: c) as [|x l IHl]; [destruct Hk'|]. cbn. destruct Hk' as [->|Hk']; [apply Rmax_l|]. eapply Rle_trans; [apply IHl; auto|apply Rmax_r].
  - apply (IH); auto.
    + rewrite app_comm_cons in S. apply sorted_app_le in S. tauto.
    + intros q' Hq'. apply Ha. rewrite app_comm_cons. apply in_or_app. auto.
Qed.
Lemma list_max (l : list (R * nat)) : l <> [] -> exists m, In m l /\ forall k, In k l -> fst k <= fst m.
Proof.
  induction l as [|a l IH]; intros H; [congruence|]. destruct l as [|b l].
  - exists a. split; [left; auto|]. intros k [->|[]]. lra.
  - destruct IH as (m & I & M); [congruence|]. destruct (Rle_dec (fst a) (fst m)).
    + exists m. split; [right; auto|]. intros k [->|Hk]; auto.
    + exists a. split; [left; auto|]. intros k [->|Hk]; [lra|]. specialize (M k Hk). lra.
Qed.
Lemma list_min (l : list (R * nat)) : l <> [] -> exists m, In m l /\ forall k, In k l -> fst m <= fst k.
Proof.
  induction l as [|a l IH]; intros H; [congruence|]. destruct l as [|b l].
  - exists a. split; [left; auto|]. intros k [->|[]]. lra.
  - destruct IH as (m & I & M); [congruence|]. destruct (Rle_dec (fst m) (fst a)).
    + exists m. split; [right; auto|]. intros k [->|Hk]; auto.
    + exists a. split; [left; auto|]. intros k [->|Hk]; [lra|]. specialize (M k Hk). lra.
Qed.
(** members of a cluster against members of the remainder, after welding *)
Lemma welded_head Etol i c r o : clusterEnd Etol (fst i) (c ++ r) = (c, r) -> welded Etol r o -> StronglySorted keyle (i :: c ++ r) ->
  forall q, In q o -> clusterMean (i :: c) <= fst q /\ clusterMean (i :: c) + Etol < fst q.
Proof.
  intros E W S q Hq. pose proof (cons_le _ _ S) as CL.
  assert (Sl : StronglySorted keyle (c ++ r)) by (inversion S; auto).
  rewrite app_comm_cons in S. apply sorted_app_le in S. destruct S as (_ & Sr & D).
  destruct r as [|x r']. { inversion W; subst. destruct Hq. }
  set (r := x :: r') in *.
  destruct (list_max (i :: c)) as (m & Im & Mm); [congruence|].
  destruct (list_min (i :: c)) as (m0 & Im0 & Mm0); [congruence|].
  destruct (mean_bounds (fst m0) (fst m) i c) as [_ Mb]; [intros k Hk; split; auto|].
  destruct (list_min r) as (y & Iy & My); [discriminate|].
  assert (Y : fst y <= fst q) by (eapply welded_low; eauto).
  split.
  - assert (fst m <= fst y) by (apply D; auto). lra.
  - assert (fst m + Etol < fst y); [|lra].
    eapply cluster_gap; [exact E|exact Sl|exact CL| |exact Iy]. destruct Im as [->|Im]; auto.
Qed.
Lemma combine_map (A B : Type) (f : A -> B) (l : list A) p q : In (p, q) (combine l (map f l)) -> In p l /\ q = f p.
Proof. induction l as [|a l IH]; cbn; [tauto|]. intros [E|H]; [injection E as <- <-; auto|]. destruct (IH H). auto. Qed.
Lemma combine_app2 (A B : Type) (l1 l2 : list A) (m1 m2 : list B) : List.length l1 = List.length m1 -> combine (l1 ++ l2) (m1 ++ m2) = combine l1 m1 ++ combine l2 m2.
Proof. revert m1. induction l1 as [|a l1 IH]; intros [|b m1] H; cbn in *; try discriminate; [reflexivity|]. f_equal. apply IH. congruence. Qed.
Lemma welded_mono Etol l o : 0 <= Etol -> welded Etol l o -> StronglySorted keyle l ->
  forall p p' q q', In (p, p') (combine l o) -> In (q, q') (combine l o) -> fst p <= fst q -> fst p' <= fst q'.
Proof.
  intros He. induction 1 as [|i l c r o E W IH]; intros S p p' q q' Hp Hq L; [destruct Hp|].
  assert (El := clusterEnd_app _ _ _ _ _ E). subst l.
  pose proof (welded_head Etol i c r o E W S) as HH. pose proof (cons_le _ _ S) as CL.
  assert (Sl : StronglySorted keyle (c ++ r)) by (inversion S; auto).
  rewrite app_comm_cons in *. rewrite combine_app2 in Hp, Hq by (rewrite map_length; reflexivity).
  pose proof (sorted_app_le _ _ S) as (_ & Sr & D).
  apply in_app_or in Hp, Hq. destruct Hp as [Hp|Hp], Hq as [Hq|Hq].
  - apply combine_map in Hp, Hq. destruct Hp as [_ ->], Hq as [_ ->]. cbn. lra.
  - apply combine_map in Hp. destruct Hp as [_ ->]. cbn [fst]. apply in_combine_r in Hq. apply HH in Hq. lra.
  - apply combine_map in Hq. destruct Hq as [Hq _]. apply in_combine_l in Hp.
    assert (fst q + Etol < fst p); [|lra].
    eapply cluster_gap; [exact E|exact Sl|exact CL| |exact Hp]. destruct Hq as [->|Hq]; auto.
  - eapply IH; eauto.
Qed.
Lemma welded_sep Etol l o : 0 <= Etol -> welded Etol l o -> StronglySorted keyle l -> forall p q, In p o -> In q o -> fst p <> fst q -> Etol < Rabs (fst p - fst q).
Proof.
  intros He. induction 1 as [|i l c r o E W IH]; intros S p q Hp Hq L; [destruct Hp|].
  assert (El := clusterEnd_app _ _ _ _ _ E). subst l.
  pose proof (welded_head Etol i c r o E W S) as HH.
  rewrite app_comm_cons in *. pose proof (sorted_app_le _ _ S) as (_ & Sr & D).
  apply in_app_or in Hp, Hq. destruct Hp as [Hp|Hp], Hq as [Hq|Hq].
  - apply in_map_iff in Hp, Hq. destruct Hp as (? & <- & _), Hq as (? & <- & _). cbn in L. congruence.
  - apply in_map_iff in Hp. destruct Hp as (? & <- & _). apply HH in Hq. cbn [fst]. unfold Rabs. destruct (Rcase_abs _); lra.
  - apply in_map_iff in Hq. destruct Hq as (? & <- & _). apply HH in Hp. cbn [fst]. unfold Rabs. destruct (Rcase_abs _); lra.
  - apply IH; auto.
Qed.
Lemma cluster_same Etol l : forall e c r, clusterEnd Etol e l = (c, r) -> StronglySorted keyle l -> (forall q, In q l -> e <= fst q) ->
  (forall p, In p l -> fst p <> e -> Etol < Rabs (fst p - e)) -> (forall p q, In p l -> In q l -> fst p <> fst q -> Etol < Rabs (fst p - fst q)) ->
  forall k, In k c -> fst k = e.
Proof.
  induction l as [|a l IH]; intros e c r H S Hle S1 S2 k Hk; cbn in H; [injection H as <- <-; destruct Hk|].
  destruct (Rle_dec (fst a) (e + Etol)) as [L|L]; [|injection H as <- <-; destruct Hk].
  assert (Ea : fst a = e).
  { destruct (Req_dec (fst a) e) as [|N]; [auto|]. assert (X := S1 a (or_introl eq_refl) N). assert (Y := Hle a (or_introl eq_refl)).
    unfold Rabs in X. destruct (Rcase_abs _) in X; lra. }
  destruct (clusterEnd Etol (fst a) l) as [c' r'] eqn:E. injection H as <- <-.
  destruct Hk as [->|Hk]; [exact Ea|]. rewrite <- Ea.
  eapply IH; [exact E| | | | |exact Hk].
  - inversion S; auto.
  - intros q Hq. rewrite Ea. apply Hle. right; auto.
  - intros p Hp Np. apply S2; [right; auto|left; auto|exact Np].
  - intros p q Hp Hq. apply S2; right; auto.
Qed.
Lemma welded_id Etol l o : welded Etol l o -> StronglySorted keyle l ->
  (forall p q, In p l -> In q l -> fst p <> fst q -> Etol < Rabs (fst p - fst q)) -> o = l.
Proof.
  induction 1 as [|i l c r o E W IH]; intros S Sep; [reflexivity|].
  pose proof (cons_le _ _ S) as CL. assert (Sl : StronglySorted keyle l) by (inversion S; auto).
  assert (Same : forall k, In k c -> fst k = fst i).
  { eapply cluster_same; [exact E|exact Sl|exact CL| |].
    - intros p Hp. apply Sep; [right; auto|left; auto].
    - intros p q Hp Hq. apply Sep; right; auto. }
  assert (El := clusterEnd_app _ _ _ _ _ E). subst l.
  assert (M : clusterMean (i :: c) = fst i).
  { destruct (mean_bounds (fst i) (fst i) i c) as [A B]; [|lra]. intros k [->|Hk]; [lra|]. rewrite (Same k Hk). lra. }
  rewrite M, app_comm_cons. f_equal.
  - transitivity (map (fun k => k) (i :: c)); [|apply map_id]. apply map_ext_in. intros [e n] Hk. cbn. f_equal.
    destruct Hk as [->|Hk]; [reflexivity|]. symmetry. apply (Same _ Hk).
  - apply IH.
    + rewrite app_comm_cons in S. apply sorted_app_le in S. tauto.
    + intros p q Hp Hq. apply Sep; right; apply in_or_app; auto.
Qed.

(** ** the whole routine *)
Section Main.
Variables (Etol : R) (eigs : list R).
Lemma weld_setup : exists o, welded Etol (eigMap eigs) o /\ weldEigenvalues Etol eigs = Some (assign o eigs) /\
  Permutation (map snd o) (seq 0 (List.length eigs)) /\ NoDup (map snd o).
Proof.
  destruct (welded_exists Etol _ (eigMap eigs) (le_n _)) as [o W]. exists o. split; [exact W|].
  destruct (eigMap_ok eigs) as [P S].
  assert (PS : Permutation (map snd o) (seq 0 (List.length eigs))).
  { rewrite (welded_snd _ _ _ W). rewrite <- (number_snd eigs 0). apply Permutation_map. exact P. }
  split; [|split; [exact PS|]].
  - unfold weldEigenvalues. apply weldLoop_assign; [exact W|]. rewrite (Permutation_length P).
    rewrite <- (map_length snd), number_snd, seq_length. lia.
  - eapply Permutation_NoDup; [symmetry; exact PS|apply seq_NoDup].
Qed.
Lemma weld_total : exists r, weldEigenvalues Etol eigs = Some r /\ List.length r = List.length eigs /\ total r = total eigs.
Proof.
  destruct weld_setup as (o & W & E & PS & ND). exists (assign o eigs). split; [exact E|]. split; [apply assign_len|].
  rewrite (total_perm _ _ (assign_list o eigs ND PS)). rewrite (welded_total _ _ _ W).
  destruct (eigMap_ok eigs) as [P S]. rewrite (total_perm _ _ (Permutation_map fst P)). rewrite number_fst. reflexivity.
Qed.
(** the entry of index i and its welded value *)
Lemma weld_entry o : welded Etol (eigMap eigs) o -> Permutation (map snd o) (seq 0 (List.length eigs)) -> NoDup (map snd o) ->
  forall i, (i < List.length eigs)%nat -> exists p', In ((nth i eigs 0, i), p') (combine (eigMap eigs) o) /\ nth i (assign o eigs) 0 = fst p'.
Proof.
  intros W PS ND i Hi. destruct (eigMap_ok eigs) as [P S].
  assert (I : In (nth i eigs 0, i) (eigMap eigs)).
  { apply (Permutation_in _ (Permutation_sym P)). apply number_nth. split; [lia|]. f_equal. lia. }
  assert (Snd := welded_snd _ _ _ W).
  assert (Len : List.length o = List.length (eigMap eigs)) by (rewrite <- (map_length snd), Snd, map_length; reflexivity).
  apply In_nth with (d := (0, 0%nat)) in I. destruct I as (n & Hn & En).
  set (p' := nth n o (0, 0%nat)).
  assert (Ip : In ((nth i eigs 0, i), p') (combine (eigMap eigs) o)).
  { rewrite <- En. unfold p'. rewrite <- combine_nth by congruence. apply nth_In. rewrite combine_length. lia. }
  exists p'. split; [exact Ip|].
  assert (Sp : snd p' = i).
  { unfold p'. rewrite <- (map_nth snd). rewrite Snd. rewrite (map_nth snd). rewrite En. reflexivity. }
  destruct (assign_nth o eigs ND) as [A _].
  { intros k Hk. assert (In (snd k) (seq 0 (List.length eigs))) as J by (apply (Permutation_in _ PS), in_map, Hk). apply in_seq in J. lia. }
  rewrite <- (A p'); [rewrite Sp; reflexivity|]. eapply in_combine_r; eauto.
Qed.
Lemma weld_order : 0 <= Etol -> exists r, weldEigenvalues Etol eigs = Some r /\ keeps_order eigs r /\ separated Etol r.
Proof.
  intros He. destruct weld_setup as (o & W & E & PS & ND). exists (assign o eigs). split; [exact E|].
  destruct (eigMap_ok eigs) as [P S]. split.
  - intros i j Hi Hj L. destruct (weld_entry o W PS ND i Hi) as (p & Ip & ->). destruct (weld_entry o W PS ND j Hj) as (q & Iq & ->).
    eapply (welded_mono Etol _ _ He W S); [exact Ip|exact Iq|exact L].
  - intros a b Ha Hb N.
    apply (Permutation_in _ (assign_list o eigs ND PS)) in Ha, Hb. apply in_map_iff in Ha, Hb.
    destruct Ha as (p & <- & Hp), Hb as (q & <- & Hq). eapply welded_sep; eauto.
Qed.
Lemma weld_unchanged : separated Etol eigs -> weldEigenvalues Etol eigs = Some eigs.
Proof.
  intros Sep. destruct weld_setup as (o & W & E & PS & ND). rewrite E. f_equal. destruct (eigMap_ok eigs) as [P S].
  assert (o = eigMap eigs).
  { eapply welded_id; eauto. intros p q Hp Hq. apply Sep.
    - apply (Permutation_in _ P) in Hp. apply (in_map fst) in Hp. rewrite number_fst in Hp. exact Hp.
    - apply (Permutation_in _ P) in Hq. apply (in_map fst) in Hq. rewrite number_fst in Hq. exact Hq. }
  subst o. apply nth_ext with (d := 0) (d' := 0); [apply assign_len|].
  intros n Hn. rewrite assign_len in Hn. destruct (weld_entry _ W PS ND n Hn) as (p' & Ip & ->).
  assert (X : forall l : list (R * nat), forall a b, In (a, b) (combine l l) -> a = b).
  { induction l as [|x l IHl]; cbn; [tauto|]. intros a b [Q|Q]; [congruence|eauto]. }
  apply X in Ip. rewrite <- Ip. reflexivity.
Qed.
End Main.
(** entries closer than the tolerance get a common value *)
Lemma weld_close Etol eigs : 0 <= Etol -> exists r, weldEigenvalues Etol eigs = Some r /\
  forall i j, (i < List.length eigs)%nat -> (j < List.length eigs)%nat -> Rabs (nth i eigs 0 - nth j eigs 0) <= Etol -> nth i r 0 = nth j r 0.
Proof.
  intros He. destruct (weld_setup Etol eigs) as (o & W & E & PS & ND). exists (assign o eigs). split; [exact E|].
  destruct (eigMap_ok eigs) as [P S].
  assert (K : forall l o, welded Etol l o -> StronglySorted keyle l -> forall p p' q q', In (p,p') (combine l o) -> In (q,q') (combine l o) -> Rabs (fst p - fst q) <= Etol -> fst p' = fst q').
  { clear - He. intros l o. induction 1 as [|i l c r o E W IH]; intros S p p' q q' Hp Hq L; [destruct Hp|].
    assert (El := clusterEnd_app _ _ _ _ _ E). subst l. pose proof (cons_le _ _ S) as CL.
    assert (Sl : StronglySorted keyle (c ++ r)) by (inversion S; auto).
    rewrite app_comm_cons in *. rewrite combine_app2 in Hp, Hq by (rewrite map_length; reflexivity).
    pose proof (sorted_app_le _ _ S) as (_ & Sr & D).
    assert (G : forall a b, In a (i :: c) -> In b r -> Etol < Rabs (fst a - fst b)).
    { intros a b Ha Hb. assert (fst a + Etol < fst b). { eapply cluster_gap; [exact E|exact Sl|exact CL| |exact Hb]. destruct Ha as [->|Ha]; auto. }
      unfold Rabs. destruct (Rcase_abs _); lra. }
    apply in_app_or in Hp, Hq. destruct Hp as [Hp|Hp], Hq as [Hq|Hq].
    - apply combine_map in Hp, Hq. destruct Hp as [_ ->], Hq as [_ ->]. reflexivity.
    - apply combine_map in Hp. destruct Hp as [Hp _]. apply in_combine_l in Hq. assert (X := G _ _ Hp Hq). lra.
    - apply combine_map in Hq. destruct Hq as [Hq _]. apply in_combine_l in Hp. assert (X := G _ _ Hq Hp). rewrite Rabs_minus_sym in X. lra.
    - eapply IH; eauto. }
  intros i j Hi Hj L. destruct (weld_entry Etol eigs o W PS ND i Hi) as (p & Ip & ->). destruct (weld_entry Etol eigs o W PS ND j Hj) as (q & Iq & ->).
  eapply (K _ _ W S); [exact Ip|exact Iq|exact L].
Qed.
