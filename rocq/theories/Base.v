(** Shared list / integer vocabulary (not a model of any particular code). *)
From Coq Require Import ZArith List Lia Permutation Bool.
From Coq Require Import ZifyBool ZifyNat ZifyN.
Import ListNotations.
Open Scope Z_scope.

Global Arguments Z.mul : simpl never.
Global Arguments Z.add : simpl never.
Global Arguments Z.sub : simpl never.
Global Arguments Z.opp : simpl never.
Global Arguments Z.div : simpl never.
Global Arguments Z.modulo : simpl never.
Global Arguments Z.leb : simpl never.
Global Arguments Z.ltb : simpl never.
Global Arguments Z.quot : simpl never.
Global Arguments Z.rem : simpl never.
Global Arguments Z.pow : simpl never.
Global Arguments Z.gcd : simpl never.

Ltac Zify.zify_post_hook ::= Z.div_mod_to_equations.

(** The integers a, a+1, ..., b-1 in increasing order (empty if b <= a). *)
Definition zrange (a b : Z) : list Z :=
  map (fun k => a + Z.of_nat k) (seq 0 (Z.to_nat (b - a))).

Lemma zrange_nil a b : b <= a -> zrange a b = [].
Proof. intros H. unfold zrange. replace (Z.to_nat (b-a)) with 0%nat by lia. reflexivity. Qed.

Lemma zrange_cons a b : a < b -> zrange a b = a :: zrange (a+1) b.
Proof.
  intros H. unfold zrange.
  replace (Z.to_nat (b-a)) with (S (Z.to_nat (b-(a+1)))) by lia.
  cbn [seq map]. f_equal; [lia|].
  rewrite <- seq_shift, map_map. apply map_ext. intros; lia.
Qed.

Lemma zrange_snoc a b : a < b -> zrange a b = zrange a (b-1) ++ [b-1].
Proof.
  intros H. unfold zrange.
  replace (Z.to_nat (b-a)) with (S (Z.to_nat (b-1-a))) by lia.
  rewrite seq_S, map_app. cbn. do 2 f_equal. lia.
Qed.

Lemma in_zrange a b x : In x (zrange a b) <-> a <= x < b.
Proof.
  unfold zrange. rewrite in_map_iff. split.
  - intros (k & <- & Hk). apply in_seq in Hk. lia.
  - intros H. exists (Z.to_nat (x-a)). split; [lia|]. apply in_seq. lia.
Qed.

Lemma zrange_length a b : length (zrange a b) = Z.to_nat (b-a).
Proof. unfold zrange. rewrite map_length, seq_length. reflexivity. Qed.

Lemma map_add_seq m s n : map (fun k => (m + k)%nat) (seq s n) = seq (m+s) n.
Proof.
  revert s; induction n; intros s; cbn; auto. f_equal. rewrite IHn. f_equal; lia.
Qed.

Lemma zrange_app a b c : a <= b <= c -> zrange a b ++ zrange b c = zrange a c.
Proof.
  intros H. unfold zrange.
  replace (Z.to_nat (c-a)) with (Z.to_nat (b-a) + Z.to_nat (c-b))%nat by lia.
  rewrite seq_app, map_app. f_equal. cbn.
  replace (seq (Z.to_nat (b-a)) (Z.to_nat (c-b)))
    with (map (fun k => (Z.to_nat (b-a) + k)%nat) (seq 0 (Z.to_nat (c-b)))).
  - rewrite map_map. apply map_ext. intros; lia.
  - rewrite map_add_seq. f_equal. lia.
Qed.

Lemma zrange_NoDup a b : NoDup (zrange a b).
Proof.
  unfold zrange. apply FinFun.Injective_map_NoDup; [|apply seq_NoDup].
  intros x y H. lia.
Qed.

Lemma nth_zrange a b k d : 0 <= k < b - a -> nth (Z.to_nat k) (zrange a b) d = a + k.
Proof.
  intros H. unfold zrange.
  rewrite nth_indep with (d' := a + Z.of_nat 0).
  - rewrite (map_nth (fun k => a + Z.of_nat k)). rewrite seq_nth by lia. lia.
  - rewrite map_length, seq_length. lia.
Qed.

Lemma concat_map_zrange (f : Z -> Z) n :
  0 <= n -> (forall i, 0 <= i < n -> f i <= f (i+1)) ->
  concat (map (fun p => zrange (f p) (f (p+1))) (zrange 0 n)) = zrange (f 0) (f n).
Proof.
  intros Hn. pattern n. apply natlike_ind; auto.
  - intros _. rewrite (zrange_nil 0 0) by lia. rewrite zrange_nil by lia. reflexivity.
  - intros x Hx IH Hm. unfold Z.succ in *.
    rewrite (zrange_snoc 0 (x+1)) by lia. replace (x+1-1) with x by lia.
    rewrite map_app, concat_app, IH by (intros; apply Hm; lia). cbn. rewrite app_nil_r.
    apply zrange_app. split; [|apply Hm; lia].
    clear IH. revert Hm. pattern x. apply natlike_ind; auto; [lia|].
    intros y Hy IHy Hm. unfold Z.succ in *. transitivity (f y); [apply IHy|]; intros; apply Hm; lia.
Qed.

(** Interleavings of several sequences of atomic events: at each moment the next
    event of any one sequence is taken.  Used for thread schedules. *)
Inductive interleave {A} : list (list A) -> list A -> Prop :=
| il_done : forall ls, Forall (fun l => l = []) ls -> interleave ls []
| il_step : forall ls1 a l ls2 s,
    interleave (ls1 ++ l :: ls2) s -> interleave (ls1 ++ (a :: l) :: ls2) (a :: s).

Lemma interleave_perm {A} (ls : list (list A)) s : interleave ls s -> Permutation (concat ls) s.
Proof.
  induction 1 as [ls H|ls1 a l ls2 s H IH].
  - induction H; cbn; auto. subst; auto.
  - rewrite concat_app in *. cbn in *.
    symmetry. rewrite <- IH. apply Permutation_middle.
Qed.

Lemma NoDup_app_intro {A} (l l' : list A) : NoDup l -> NoDup l' -> (forall x, In x l -> ~ In x l') -> NoDup (l ++ l').
Proof.
  induction l as [|x l IH]; intros H H' D; cbn; auto. inversion H as [|? ? Hx Hl]; subst. constructor.
  - rewrite in_app_iff. intros [?|?]; [contradiction|]. apply (D x); cbn; auto.
  - apply IH; auto. intros y Hy. apply D. cbn; auto.
Qed.
Lemma NoDup_flat_map {A B} (f : A -> list B) l : NoDup l -> (forall a, In a l -> NoDup (f a)) ->
  (forall a a' b, In a l -> In a' l -> In b (f a) -> In b (f a') -> a = a') -> NoDup (flat_map f l).
Proof.
  induction l as [|x l IH]; intros Hl Hf Hd; cbn; [constructor|]. inversion Hl as [|? ? Hx Hl']; subst.
  apply NoDup_app_intro.
  - apply Hf; left; auto.
  - apply IH; auto.
    + intros; apply Hf; right; auto.
    + intros a a' b H1 H2. apply Hd; right; auto.
  - intros b Hb Hb'. apply in_flat_map in Hb' as (a&Ha&Hb'').
    assert (x = a) by (apply (Hd x a b); cbn; auto). subst. contradiction.
Qed.
(** An injective map of a finite set into itself permutes it. *)
Lemma injective_self_permutation {A} (f : A -> A) l : NoDup l -> (forall x, In x l -> In (f x) l) ->
  (forall x y, In x l -> In y l -> f x = f y -> x = y) -> Permutation (map f l) l.
Proof.
  intros Hl Hin Hinj. apply NoDup_Permutation_bis.
  - clear Hin. induction l as [|x l IH]; cbn; [constructor|]. inversion Hl as [|? ? Hx Hl']; subst. constructor.
    + rewrite in_map_iff. intros (y&E&Hy). assert (x = y) by (apply Hinj; cbn; auto). subst. contradiction.
    + apply IH; auto. intros; apply Hinj; cbn; auto.
  - rewrite map_length. lia.
  - intros y Hy. apply in_map_iff in Hy as (x&<-&Hx). auto.
Qed.
