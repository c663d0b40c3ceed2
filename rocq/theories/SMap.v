(** jdftx strings compare case-insensitively (core/string.h:34-45: ichar_traits; ordering by
    strncasecmp on the common length, then by length).  Strings hold no NUL character here.
    std::map<string,T>: keys unique up to case, iterated in increasing order (library contract). *)
From Coq Require Import List String Ascii NArith Bool Sorting Lia.
Import ListNotations.
Open Scope string_scope.

(** tolower / toupper in the C locale. *)
Definition isUpper (c : ascii) : bool := (65 <=? N_of_ascii c)%N && (N_of_ascii c <=? 90)%N.
Definition lowerc (c : ascii) : ascii := if isUpper c then ascii_of_N (N_of_ascii c + 32) else c.
Fixpoint lower (s : string) : string :=
  match s with EmptyString => EmptyString | String c s' => String (lowerc c) (lower s') end.

(** core/string.h:39  three-way comparison, and equality. *)
Definition icompare (a b : string) : comparison := String.compare (lower a) (lower b).
Definition ieqb (a b : string) : bool := String.eqb (lower a) (lower b).
Definition ieq (a b : string) : Prop := lower a = lower b.
Definition slt (a b : string) : Prop := icompare a b = Lt.

Lemma ieqb_spec a b : reflect (ieq a b) (ieqb a b).
Proof. unfold ieq, ieqb. apply String.eqb_spec. Qed.
Lemma ieqb_refl a : ieqb a a = true.
Proof. apply String.eqb_refl. Qed.
Lemma scompare_refl a : String.compare a a = Eq.
Proof. induction a as [|c a IH]; cbn; auto. unfold Ascii.compare. rewrite N.compare_refl. exact IH. Qed.
Lemma icompare_eq a b : icompare a b = Eq <-> ieq a b.
Proof.
  unfold icompare, ieq. split; intros H.
  - apply String.compare_eq_iff. exact H.
  - rewrite H. apply scompare_refl.
Qed.
Lemma slt_irrefl a : ~ slt a a.
Proof. unfold slt, icompare. rewrite scompare_refl. discriminate. Qed.
Lemma slt_trans_gen a b c : String.compare a b = Lt -> String.compare b c = Lt -> String.compare a c = Lt.
Proof.
  revert b c. induction a as [|x a IH]; intros [|y b] [|z c]; cbn; try congruence.
  unfold Ascii.compare.
  destruct (N.compare_spec (N_of_ascii x) (N_of_ascii y)) as [E1|L1|G1];
  destruct (N.compare_spec (N_of_ascii y) (N_of_ascii z)) as [E2|L2|G2];
  destruct (N.compare_spec (N_of_ascii x) (N_of_ascii z)) as [E3|L3|G3]; try congruence; try lia.
  intros H1 H2. eapply IH; eauto.
Qed.
Lemma slt_trans a b c : slt a b -> slt b c -> slt a c.
Proof. apply slt_trans_gen. Qed.
Lemma slt_ieq a b : slt a b -> ~ ieq a b.
Proof. unfold slt, icompare, ieq. intros H E. rewrite E, scompare_refl in H. discriminate. Qed.
Lemma slt_ieq_l a b c : ieq a b -> slt a c -> slt b c.
Proof. unfold slt, icompare, ieq. congruence. Qed.
Lemma slt_ieq_r a b c : ieq a b -> slt c a -> slt c b.
Proof. unfold slt, icompare, ieq. congruence. Qed.

Section Map.
  Context {T : Type}.
  Definition smap := list (string * T).
  Definition keys (m : smap) : list string := List.map fst m.
  Definition sorted (m : smap) : Prop := StronglySorted slt (keys m).

  Fixpoint find (k : string) (m : smap) : option T :=
    match m with
    | [] => None
    | (k', v) :: m' => if ieqb k k' then Some v else find k m'
    end.
  (** m[k] = f(m[k]), where a missing entry is first created with key k and value d. *)
  Fixpoint update (k : string) (d : T) (f : T -> T) (m : smap) : smap :=
    match m with
    | [] => [(k, f d)]
    | (k', v) :: m' =>
      match icompare k k' with
      | Eq => (k', f v) :: m'
      | Lt => (k, f d) :: (k', v) :: m'
      | Gt => (k', v) :: update k d f m'
      end
    end.

  Lemma update_keys_inv k d f m x : In x (keys (update k d f m)) -> x = k \/ In x (keys m).
  Proof.
    induction m as [|[k' v] m IH]; cbn; [intuition congruence|].
    destruct (icompare k k') eqn:E; cbn; intuition congruence.
  Qed.
  Lemma update_keys_keep k d f m x : In x (keys m) -> In x (keys (update k d f m)).
  Proof.
    induction m as [|[k' v] m IH]; cbn; [tauto|].
    destruct (icompare k k') eqn:E; cbn; intuition congruence.
  Qed.
  Lemma update_keys_new k d f m : exists x, ieq k x /\ In x (keys (update k d f m)).
  Proof.
    induction m as [|[k' v] m [x [E1 E2]]]; cbn; [exists k; split; [reflexivity|auto]|].
    destruct (icompare k k') eqn:E; cbn.
    - apply icompare_eq in E. exists k'. auto.
    - exists k. split; [reflexivity|auto].
    - exists x. auto.
  Qed.
  Lemma update_sorted k d f m : sorted m -> sorted (update k d f m).
  Proof.
    unfold sorted. induction m as [|[k' v] m IH]; cbn; intros H; [repeat constructor|].
    inversion H as [|? ? Hs Hf]; subst.
    destruct (icompare k k') eqn:E; cbn.
    - exact H.
    - constructor; [exact H|]. constructor; [exact E|]. eapply Forall_impl; [|exact Hf]. intros a Ha. eapply slt_trans; eauto.
    - constructor; [apply IH; auto|]. apply Forall_forall. intros x Hx. apply update_keys_inv in Hx. destruct Hx as [->|Hx].
      + unfold slt, icompare in *. rewrite String.compare_antisym, E. reflexivity.
      + rewrite Forall_forall in Hf. auto.
  Qed.
  Lemma find_none k m : (forall x, In x (keys m) -> ~ ieq k x) -> find k m = None.
  Proof.
    induction m as [|[k' v] m IH]; cbn; auto. intros H. destruct (ieqb_spec k k') as [E|E]; [exfalso; apply (H k'); auto|].
    apply IH. intros x Hx. apply H. auto.
  Qed.
  Lemma find_some k m x : In x (keys m) -> ieq k x -> exists v, find k m = Some v.
  Proof.
    induction m as [|[k' v] m IH]; cbn; [tauto|]. intros H E. destruct (ieqb_spec k k'); [eauto|].
    destruct H as [->|H]; [contradiction|auto].
  Qed.
  Lemma sorted_head k v m : sorted ((k, v) :: m) -> (forall x, In x (keys m) -> slt k x) /\ sorted m.
  Proof.
    unfold sorted. cbn. intros H. inversion H as [|? ? Hs Hf]; subst. split; auto.
    intros x Hin. rewrite Forall_forall in Hf. auto.
  Qed.
  Lemma sorted_unique m x y : sorted m -> In x (keys m) -> In y (keys m) -> ieq x y -> x = y.
  Proof.
    induction m as [|[k v] m IH]; cbn; intros Hs Hx Hy E; [tauto|]. apply sorted_head in Hs. destruct Hs as [Hh Hs].
    destruct Hx as [->|Hx], Hy as [->|Hy]; auto.
    - exfalso. apply (slt_ieq _ _ (Hh y Hy)). auto.
    - exfalso. apply (slt_ieq _ _ (Hh x Hx)). symmetry; auto.
  Qed.
  Lemma sorted_NoDup m : sorted m -> NoDup (keys m).
  Proof.
    induction m as [|[k v] m IH]; intros H; cbn; constructor; apply sorted_head in H; [|tauto].
    intros Hin. apply (slt_irrefl k). apply H. auto.
  Qed.
  Lemma find_update_same k d f m : sorted m ->
    find k (update k d f m) = Some (f (match find k m with Some v => v | None => d end)).
  Proof.
    induction m as [|[k' v] m IH]; cbn; intros H; [rewrite ieqb_refl; reflexivity|].
    pose proof (sorted_head _ _ _ H) as [Hn Hs].
    destruct (icompare k k') eqn:E; cbn.
    - apply icompare_eq in E. destruct (ieqb_spec k k'); [reflexivity|contradiction].
    - rewrite ieqb_refl. destruct (ieqb_spec k k') as [Ei|Ei].
      + exfalso. apply (slt_ieq _ _ E). auto.
      + rewrite find_none; [reflexivity|]. intros x Hin. apply slt_ieq. apply (slt_trans k k' x); auto.
    - destruct (ieqb_spec k k') as [Ei|Ei].
      + apply icompare_eq in Ei. congruence.
      + apply IH; auto.
  Qed.
  Lemma find_ieq k k' m : ieq k k' -> find k m = find k' m.
  Proof. intros E. induction m as [|[k0 v] m IH]; cbn; auto. unfold ieqb. rewrite E, IH. reflexivity. Qed.
  Lemma find_update_other k k0 d f m : ~ ieq k0 k -> find k0 (update k d f m) = find k0 m.
  Proof.
    intros Hne. induction m as [|[k' v] m IH]; cbn.
    - destruct (ieqb_spec k0 k); tauto.
    - destruct (icompare k k') eqn:E; cbn.
      + apply icompare_eq in E. destruct (ieqb_spec k0 k') as [E2|]; auto. exfalso. apply Hne. unfold ieq in *. congruence.
      + destruct (ieqb_spec k0 k); tauto.
      + rewrite IH. reflexivity.
  Qed.
  Lemma find_in k m v : find k m = Some v -> exists k', ieq k k' /\ In (k', v) m.
  Proof.
    induction m as [|[k' v'] m IH]; cbn; [discriminate|]. destruct (ieqb_spec k k'); intros H.
    - exists k'. split; auto. left; congruence.
    - destruct (IH H) as [k0 [E1 E2]]. eauto.
  Qed.
  Lemma in_find k m v : sorted m -> In (k, v) m -> find k m = Some v.
  Proof.
    induction m as [|[k' v'] m IH]; cbn; [tauto|]. intros Hs Hin. pose proof (sorted_head _ _ _ Hs) as [Hn Hs'].
    destruct Hin as [Heq|Hin].
    - inversion Heq; subst. rewrite ieqb_refl. reflexivity.
    - destruct (ieqb_spec k k') as [Ei|]; [|auto]. exfalso. apply (slt_ieq k' k).
      + apply Hn. apply (in_map fst) in Hin. exact Hin.
      + symmetry; auto.
  Qed.
End Map.
Arguments smap T : clear implicits.
