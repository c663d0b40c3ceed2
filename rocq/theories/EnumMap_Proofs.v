From Coq Require Import List String ZArith Lia Bool.
From Verif Require Import SMap EnumMap_Model.
Import ListNotations.
Open Scope list_scope.

Definition distinct_keywords (args : list (Z * string)) : Prop :=
  ForallOrdPairs (fun a b => ~ ieq (snd a) (snd b)) args.

Lemma zget_zput e s m e' : zget e' (zput e s m) = if Z.eqb e' e then Some s else zget e' m.
Proof.
  induction m as [|[e0 s0] m IH]; cbn.
  - destruct (Z.eqb e' e); reflexivity.
  - destruct (Z.eqb_spec e e0) as [->|N]; cbn.
    + destruct (Z.eqb e' e0); reflexivity.
    + destruct (Z.eqb_spec e' e0) as [->|N']; [|apply IH]. destruct (Z.eqb_spec e0 e); [congruence|reflexivity].
Qed.

(** last entry satisfying a test *)
Fixpoint last_such {A B} (test : A -> bool) (val : A -> B) (l : list A) (d : option B) : option B :=
  match l with [] => d | x :: l' => last_such test val l' (if test x then Some (val x) else d) end.

Lemma addEntry_sorted args m : sorted (stringToEnum m) -> sorted (stringToEnum (addEntry args m)).
Proof. revert m. induction args as [|[e s] args IH]; intros m H; cbn; auto. apply IH. cbn. apply update_sorted. exact H. Qed.
Lemma addEntry_getEnum args : forall m key, sorted (stringToEnum m) ->
  getEnum (addEntry args m) key = last_such (fun a => ieqb key (snd a)) fst args (getEnum m key).
Proof.
  induction args as [|[e s] args IH]; intros m key H; cbn; auto.
  rewrite IH by (cbn; apply update_sorted; exact H). f_equal. unfold getEnum. cbn.
  destruct (ieqb_spec key s) as [E|E].
  - rewrite (find_ieq _ _ _ E). apply find_update_same. exact H.
  - apply find_update_other. exact E.
Qed.
Lemma addEntry_getString args : forall m e,
  getString (addEntry args m) e = last_such (fun a => Z.eqb e (fst a)) snd args (getString m e).
Proof.
  induction args as [|[e0 s] args IH]; intros m e; cbn; auto. rewrite IH. f_equal. unfold getString. cbn. rewrite zget_zput.
  destruct (Z.eqb e e0); reflexivity.
Qed.
Lemma last_such_in {A B} (test : A -> bool) (val : A -> B) l d b : last_such test val l d = Some b ->
  (exists l1 x l2, l = l1 ++ x :: l2 /\ test x = true /\ val x = b /\ forall y, In y l2 -> test y = false) \/
  (d = Some b /\ forall y, In y l -> test y = false).
Proof.
  revert d. induction l as [|x l IH]; intros d H; cbn in H; [right; split; auto; intros ? []|].
  destruct (IH _ H) as [[l1 [y [l2 [E1 [E2 [E3 E4]]]]]]|[E1 E2]].
  - left. exists (x :: l1), y, l2. rewrite E1. auto.
  - destruct (test x) eqn:T.
    + left. exists [], x, l. inversion E1. auto.
    + right. split; auto. intros y [->|Hy]; auto.
Qed.
Lemma last_such_some {A B} (test : A -> bool) (val : A -> B) l1 x l2 d : test x = true -> (forall y, In y l2 -> test y = false) ->
  last_such test val (l1 ++ x :: l2) d = Some (val x).
Proof.
  intros T N. revert d. induction l1 as [|y l1 IH]; intros d; cbn; [|apply IH].
  rewrite T. clear T. induction l2 as [|y l2 IH]; cbn; auto. rewrite (N y) by (cbn; auto). apply IH. intros; apply N; cbn; auto.
Qed.

Lemma getEnum_iff args key e :
  getEnum (mkEnumMap args) key = Some e <->
  exists l1 s l2, args = l1 ++ (e, s) :: l2 /\ ieq key s /\ forall x, In x l2 -> ~ ieq key (snd x).
Proof.
  unfold mkEnumMap. rewrite addEntry_getEnum by constructor. split.
  - intros H. apply last_such_in in H. destruct H as [[l1 [[e0 s] [l2 [E1 [E2 [E3 E4]]]]]]|[H _]]; [|discriminate].
    cbn in *. subst e0. exists l1, s, l2. split; auto. split; [destruct (ieqb_spec key s); auto; discriminate|].
    intros x Hx. specialize (E4 x Hx). destruct (ieqb_spec key (snd x)); auto; discriminate.
  - intros [l1 [s [l2 [-> [E N]]]]]. rewrite (last_such_some _ _ l1 (e, s) l2); auto.
    + cbn. destruct (ieqb_spec key s); auto; contradiction.
    + intros y Hy. destruct (ieqb_spec key (snd y)); auto. exfalso. eapply N; eauto.
Qed.
Lemma getString_iff args e s :
  getString (mkEnumMap args) e = Some s <->
  exists l1 l2, args = l1 ++ (e, s) :: l2 /\ forall x, In x l2 -> fst x <> e.
Proof.
  unfold mkEnumMap. rewrite addEntry_getString. split.
  - intros H. apply last_such_in in H. destruct H as [[l1 [[e0 s0] [l2 [E1 [E2 [E3 E4]]]]]]|[H _]]; [|discriminate].
    cbn in *. apply Z.eqb_eq in E2. subst. exists l1, l2. split; auto. intros x Hx. specialize (E4 x Hx). apply Z.eqb_neq in E4. congruence.
  - intros [l1 [l2 [-> N]]]. rewrite (last_such_some _ _ l1 (e, s) l2); auto.
    + apply Z.eqb_refl.
    + intros y Hy. apply Z.eqb_neq. intros E. eapply N; eauto.
Qed.
Lemma distinct_app l1 a l2 x : distinct_keywords (l1 ++ a :: l2) -> In x l2 -> ~ ieq (snd a) (snd x).
Proof.
  unfold distinct_keywords. induction l1 as [|b l1 IH]; cbn; intros H Hx; inversion H; subst; auto.
  rewrite Forall_forall in H2. auto.
Qed.
Lemma keyword_entry args e s : distinct_keywords args -> In (e, s) args -> forall key, ieq key s -> getEnum (mkEnumMap args) key = Some e.
Proof.
  intros D H key E. apply in_split in H. destruct H as [l1 [l2 ->]]. apply getEnum_iff. exists l1, s, l2. split; auto. split; auto.
  intros x Hx X. apply (distinct_app _ _ _ _ D Hx). cbn. unfold ieq in *. congruence.
Qed.
Lemma round_trip_value args e s : distinct_keywords args -> getString (mkEnumMap args) e = Some s -> getEnum (mkEnumMap args) s = Some e.
Proof.
  intros D H. apply getString_iff in H. destruct H as [l1 [l2 [-> _]]]. apply (keyword_entry _ e s D); [apply in_elt|reflexivity].
Qed.
Lemma last_occurrence (args : list (Z * string)) e : (exists s, In (e, s) args) ->
  exists l1 s l2, args = l1 ++ (e, s) :: l2 /\ forall x, In x l2 -> fst x <> e.
Proof.
  induction args as [|[e0 s0] args IH]; intros [s H]; [destruct H|].
  destruct (in_dec Z.eq_dec e (List.map fst args)) as [I|I].
  - apply in_map_iff in I. destruct I as [[e1 s1] [E1 I]]. cbn in E1. subst e1.
    destruct IH as [l1 [s2 [l2 [E N]]]]; [eauto|]. exists ((e0, s0) :: l1), s2, l2. rewrite E. auto.
  - destruct H as [H|H]; [|exfalso; apply I; apply (in_map fst) in H; exact H]. inversion H; subst.
    exists [], s, args. split; auto. intros x Hx E. apply I. rewrite <- E. apply in_map. exact Hx.
Qed.
Lemma round_trip_keyword args key e : distinct_keywords args -> getEnum (mkEnumMap args) key = Some e ->
  exists s, getString (mkEnumMap args) e = Some s /\ In (e, s) args /\ getEnum (mkEnumMap args) s = Some e.
Proof.
  intros D H. apply getEnum_iff in H. destruct H as [l1 [s0 [l2 [E _]]]].
  destruct (last_occurrence args e) as [m1 [s [m2 [E2 N]]]]; [exists s0; rewrite E; apply in_elt|].
  exists s. assert (G : getString (mkEnumMap args) e = Some s) by (apply getString_iff; eauto).
  split; auto. split; [rewrite E2; apply in_elt|]. apply round_trip_value; auto.
Qed.
Lemma printed_is_keyword args key e s : distinct_keywords args -> NoDup (List.map fst args) ->
  getEnum (mkEnumMap args) key = Some e -> getString (mkEnumMap args) e = Some s -> ieq s key.
Proof.
  intros D ND H1 H2. apply getEnum_iff in H1. destruct H1 as [l1 [s0 [l2 [E1 [K _]]]]].
  apply getString_iff in H2. destruct H2 as [m1 [m2 [E2 _]]].
  assert (I1 : In (e, s0) args) by (rewrite E1; apply in_elt). assert (I2 : In (e, s) args) by (rewrite E2; apply in_elt).
  assert (s = s0); [|subst; symmetry; exact K]. clear -ND I1 I2.
  induction args as [|[e0 s1] args IH]; [destruct I1|]. cbn in ND. inversion ND; subst.
  destruct I1 as [I1|I1], I2 as [I2|I2]; try congruence; auto.
  - inversion I1; subst. exfalso. apply H1. apply (in_map fst) in I2. exact I2.
  - inversion I2; subst. exfalso. apply H1. apply (in_map fst) in I1. exact I1.
Qed.
Lemma getEnum_unknown args key : (forall x, In x args -> ~ ieq key (snd x)) -> getEnum (mkEnumMap args) key = None.
Proof.
  intros H. destruct (getEnum (mkEnumMap args) key) as [e|] eqn:E; auto. apply getEnum_iff in E.
  destruct E as [l1 [s [l2 [-> [K _]]]]]. exfalso. apply (H (e, s)); [apply in_elt|exact K].
Qed.
Lemma append_assoc a b c : ((a ++ b) ++ c = a ++ (b ++ c))%string.
Proof. induction a as [|x a IH]; cbn; [auto|rewrite IH; auto]. Qed.
Lemma join_keys ks : forall k, fold_left (fun ret k' => ret ++ ("|" ++ k'))%string ks k = String.concat "|" (k :: ks).
Proof.
  assert (G : forall k a, fold_left (fun ret k' => ret ++ ("|" ++ k'))%string ks (a ++ k)%string = (a ++ String.concat "|" (k :: ks))%string).
  { induction ks as [|b ks IH]; intros k a; [reflexivity|]. cbn [fold_left]. rewrite append_assoc. rewrite IH.
    f_equal. destruct ks as [|s ks]; [reflexivity|].
    change (String.concat "|" ((k ++ "|" ++ b)%string :: s :: ks)) with ((k ++ ("|" ++ b)) ++ ("|" ++ String.concat "|" (s :: ks)))%string.
    rewrite (append_assoc k). reflexivity. }
  intros k. apply (G k ""%string).
Qed.
Lemma option_list args : args <> [] -> exists ks, optionList (mkEnumMap args) = Some (String.concat "|" ks) /\
  ForallOrdPairs (fun a b => ~ ieq a b) ks /\ (forall key, (exists k, In k ks /\ ieq key k) <-> exists e, getEnum (mkEnumMap args) key = Some e).
Proof.
  intros H. set (m := mkEnumMap args). exists (keys (stringToEnum m)).
  assert (S : sorted (stringToEnum m)) by (apply addEntry_sorted; constructor). split; [|split].
  - unfold optionList. destruct (keys (stringToEnum m)) as [|k ks] eqn:E.
    + exfalso. destruct args as [|[e s] args]; [contradiction|].
      assert (getEnum m s = None) by (apply find_none; rewrite E; intros x []).
      destruct (last_occurrence ((e, s) :: args) e) as (l1&s'&l2&E'&_); [exists s; left; auto|].
      assert (X : exists v, getEnum m s = Some v); [|destruct X; congruence].
      unfold m, mkEnumMap. rewrite addEntry_getEnum by constructor.
      clear. cbn [last_such]. cbn [snd]. rewrite ieqb_refl. generalize (fst (e, s)). clear. induction args as [|x args IH]; intros z; cbn; [eauto|]. destruct (ieqb _ _); apply IH.
    + rewrite join_keys. reflexivity.
  - unfold sorted in S. induction S as [|a l H1 IH H2]; constructor; auto. apply Forall_forall. intros x Hx. rewrite Forall_forall in H2. apply slt_ieq. auto.
  - intros key. split.
    + intros (k&Hk&E). apply (find_some key _ k Hk E).
    + intros (e&He). apply find_in in He. destruct He as (k&E&I). exists k. split; auto. apply in_map_iff. exists (k, e). auto.
Qed.
