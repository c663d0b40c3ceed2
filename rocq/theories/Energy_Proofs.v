From Coq Require Import List String Ascii Bool Reals Lra.
From Verif Require Import SMap Energy_Model Energy_Spec.
Import ListNotations.
Open Scope string_scope.

Lemma lsum_cons x l : lsum (x :: l) = (x + lsum l)%R.
Proof. reflexivity. Qed.
Lemma lsum_nil : lsum [] = 0%R.
Proof. reflexivity. Qed.
Lemma fold_acc (E : energy) a : fold_left (fun ret e => (ret + snd e)%R) E a = (a + lsum (map snd E))%R.
Proof. revert a. induction E as [|e E IH]; intros a; cbn; [lra|]. rewrite IH. unfold lsum. lra. Qed.
Lemma total_lsum E : E_total E = lsum (map snd E).
Proof. unfold E_total. rewrite fold_acc. lra. Qed.

Lemma update_total k f (E : energy) : sorted E ->
  lsum (map snd (update k 0%R f E)) = (lsum (map snd E) - E_get E k + f (E_get E k))%R.
Proof.
  unfold E_get, lsum. induction E as [|[k' v] E IH]; intros Hs; cbn; [lra|].
  destruct (icompare k k') eqn:Ec; cbn.
  - apply icompare_eq in Ec. destruct (ieqb_spec k k'); [lra|contradiction].
  - assert (find k ((k', v) :: E) = None).
    { apply find_none. intros x [Hin|Hin].
      - cbn in Hin. subst. apply slt_ieq. exact Ec.
      - apply sorted_head in Hs. apply slt_ieq. apply (slt_trans k k' x); auto. apply Hs. auto. }
    cbn in H. rewrite H. lra.
  - destruct (ieqb_spec k k') as [Ei|].
    + apply icompare_eq in Ei. congruence.
    + apply sorted_head in Hs. rewrite IH by tauto. lra.
Qed.

Lemma acc_total E k v : sorted E -> E_total (E_acc E k v) = (E_total E + v)%R.
Proof. intros. rewrite !total_lsum. unfold E_acc. rewrite update_total by auto. lra. Qed.
Lemma put_total E k v : sorted E -> E_total (E_put E k v) = (E_total E - E_get E k + v)%R.
Proof. intros. rewrite !total_lsum. unfold E_put. rewrite update_total by auto. lra. Qed.
Lemma assign_total E v : E_total (E_assign E v) = v.
Proof. unfold E_assign, E_put, E_total. cbn. lra. Qed.

Lemma acc_sorted E k v : sorted E -> sorted (E_acc E k v). Proof. apply update_sorted. Qed.
Lemma put_sorted E k v : sorted E -> sorted (E_put E k v). Proof. apply update_sorted. Qed.
Lemma nil_sorted : sorted (@nil (string * R)). Proof. constructor. Qed.

Lemma acc_get_same E k v : sorted E -> E_get (E_acc E k v) k = (E_get E k + v)%R.
Proof. intros. unfold E_get, E_acc. rewrite find_update_same by auto. destruct (find k E); reflexivity. Qed.
Lemma acc_get_other E k k' v : ~ ieq k' k -> E_get (E_acc E k v) k' = E_get E k'.
Proof. intros. unfold E_get, E_acc. rewrite find_update_other by auto. reflexivity. Qed.

Lemma acc_get_ieq (E : energy) k k' : ieq k k' -> E_get E k = E_get E k'.
Proof. intros. unfold E_get. rewrite (find_ieq k k'); auto. Qed.

(** reduced names *)
Lemma baseName_split s : exists t, s = String.append (baseName s) t /\ all_chars isIndexChar t.
Proof.
  induction s as [|c s [t [E H]]]; [exists ""; cbn; auto|].
  cbn. destruct (baseName s) as [|c' r] eqn:Eb.
  - destruct (isIndexChar c) eqn:Ei.
    + exists (String c t). cbn in *. subst. auto.
    + exists t. cbn in *. subst. auto.
  - exists t. cbn in *. rewrite E at 1. auto.
Qed.
Lemma baseName_ends s : ends_without isIndexChar (baseName s).
Proof.
  induction s as [|c s IH]; cbn; intros t x E.
  - destruct t; discriminate.
  - destruct (baseName s) as [|c' r] eqn:Eb.
    + destruct (isIndexChar c) eqn:Ei; [destruct t; discriminate|].
      destruct t as [|a [|b t]]; cbn in E; inversion E; subst; auto.
    + destruct t as [|a t]; cbn in E; inversion E; subst. apply (IH t x). auto.
Qed.

(** printing *)
Definition step nz (red : energy) (e : string * R) : energy :=
  if negb nz || negb (if Req_EM_T (snd e) 0 then true else false) then E_acc red (baseName (fst e)) (snd e) else red.

Lemma step_total nz red e : sorted red -> sorted (step nz red e) /\ E_total (step nz red e) = (E_total red + snd e)%R /\
  forall n, E_get (step nz red e) n = (E_get red n + (if ieqb (baseName (fst e)) n then snd e else 0))%R.
Proof.
  intros Hs. unfold step. destruct (Req_EM_T (snd e) 0) as [E0|E0]; cbn [negb].
  - destruct nz; cbn [negb orb].
    + rewrite E0. split; [auto|]. split; [lra|]. intros n. destruct (ieqb (baseName (fst e)) n); lra.
    + split; [apply acc_sorted; auto|]. split; [apply acc_total; auto|]. intros n.
      destruct (ieqb_spec (baseName (fst e)) n) as [Hn|Hn]; [rewrite <- (acc_get_ieq _ _ _ Hn), <- (acc_get_ieq _ _ _ Hn), acc_get_same; auto|rewrite acc_get_other; [lra|intros E1; apply Hn; symmetry; auto]].
  - rewrite orb_true_r. split; [apply acc_sorted; auto|]. split; [apply acc_total; auto|]. intros n.
    destruct (ieqb_spec (baseName (fst e)) n) as [Hn|Hn]; [rewrite <- (acc_get_ieq _ _ _ Hn), <- (acc_get_ieq _ _ _ Hn), acc_get_same; auto|rewrite acc_get_other; [lra|intros E1; apply Hn; symmetry; auto]].
Qed.

Lemma reduced_gen nz E : forall red, sorted red ->
  let out := fold_left (step nz) E red in
  sorted out /\ E_total out = (E_total red + lsum (map snd E))%R /\
  forall n, E_get out n = (E_get red n + lsum (map snd (filter (fun e => ieqb (baseName (fst e)) n) E)))%R.
Proof.
  induction E as [|e E IH]; intros red Hs; cbn [fold_left map filter].
  - cbn [map]. rewrite lsum_nil. split; [auto|]. split; [lra|]. intros; unfold lsum; cbn; lra.
  - destruct (step_total nz red e Hs) as [S1 [S2 S3]]. destruct (IH _ S1) as [I1 [I2 I3]].
    split; [exact I1|]. split.
    + rewrite I2, S2, lsum_cons. lra.
    + intros n. rewrite I3, S3. destruct (ieqb (baseName (fst e)) n); cbn [map]; rewrite ?lsum_cons; lra.
Qed.

Lemma print_props E nz :
  sorted (E_print E nz) /\ lsum (map snd (E_print E nz)) = E_total E /\
  (forall n, E_get (E_print E nz) n = lsum (map snd (filter (fun e => ieqb (baseName (fst e)) n) E))).
Proof.
  destruct (reduced_gen nz E [] nil_sorted) as [H1 [H2 H3]].
  unfold E_print, E_reduced. fold (step nz). change (fun red e => if negb nz || negb (if Req_EM_T (snd e) 0 then true else false) then E_acc red (baseName (fst e)) (snd e) else red) with (step nz) in *.
  split; [exact H1|]. split.
  - rewrite <- total_lsum, H2. change (E_total []) with 0%R. rewrite total_lsum. lra.
  - intros n. rewrite H3. unfold E_get. cbn. lra.
Qed.

Lemma print_keys_gen nz E : forall red n, In n (keys (fold_left (step nz) E red)) ->
  In n (keys red) \/ exists e, In e E /\ n = baseName (fst e).
Proof.
  induction E as [|e E IH]; intros red n Hin; cbn in Hin; [auto|].
  apply IH in Hin. destruct Hin as [Hin|[e' [He ->]]].
  - unfold step in Hin. destruct (negb nz || _).
    + unfold E_acc in Hin. apply update_keys_inv in Hin. destruct Hin as [->|Hin]; auto. right. exists e. cbn; auto.
    + auto.
  - right. exists e'. cbn; auto.
Qed.
Lemma print_keys E nz n v : In (n, v) (E_print E nz) -> exists k, In k (keys E) /\ n = baseName k.
Proof.
  intros H. apply (in_map fst) in H. cbn in H. change (In n (keys (fold_left (step nz) E []))) in H.
  apply print_keys_gen in H. destruct H as [[]|[e [He ->]]]. exists (fst e). split; auto. apply in_map. auto.
Qed.
Lemma print_value E nz n v : In (n, v) (E_print E nz) ->
  v = lsum (map snd (filter (fun e => ieqb (baseName (fst e)) n) E)).
Proof.
  intros H. destruct (print_props E nz) as [Hs [_ Hg]]. rewrite <- Hg. unfold E_get. rewrite (in_find n _ v Hs H). reflexivity.
Qed.
Lemma print_covers_gen nz E : forall red e, In e E -> snd e <> 0%R ->
  exists n, ieq (baseName (fst e)) n /\ In n (keys (fold_left (step nz) E red)).
Proof.
  assert (Hmono : forall E red n, In n (keys red) -> In n (keys (fold_left (step nz) E red))).
  { clear. induction E as [|e E IH]; intros red n H; cbn; auto. apply IH. unfold step. destruct (negb nz || _); auto. apply update_keys_keep. auto. }
  induction E as [|x E IH]; intros red e Hin Hnz; [destruct Hin|]. cbn [fold_left]. destruct Hin as [->|Hin]; [|apply IH; auto].
  destruct (update_keys_new (baseName (fst e)) 0%R (fun x => (x + snd e)%R) red) as [n [E1 E2]].
  exists n. split; auto.
  apply Hmono. unfold step. destruct (Req_EM_T (snd e) 0); [contradiction|]. rewrite orb_true_r. exact E2.
Qed.
