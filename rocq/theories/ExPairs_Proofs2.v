(** Messages of the redistribution of wavefunctions. *)
From Coq Require Import ZArith Reals List Bool Arith Lia.
From Verif Require Import Base Vec3_Model ExPairs_Model ExPairs_Spec.
Import ListNotations.

Definition postedOf (me : nat) (whose : nat -> nat) (rpa : bool) (p : nat * LocalState) : list message :=
  posted (exchangeOne me whose rpa (CM [] []) p).
Definition waitedOf (me : nat) (whose : nat -> nat) (rpa : bool) (p : nat * LocalState) : list message :=
  waited (exchangeOne me whose rpa (CM [] []) p).
Lemma rl : forall A (l : list A) x, removelast (l ++ [x]) = l.
Proof. intros. apply removelast_last. Qed.
Lemma one_posted : forall me whose rpa p c, posted (exchangeOne me whose rpa c p) = posted c ++ postedOf me whose rpa p.
Proof.
  intros me whose rpa [jp ls] c. unfold postedOf, exchangeOne. destruct (_ =? _)%nat; destruct (whose _ =? me)%nat; destruct rpa;
  cbn; rewrite <- ?app_assoc, ?app_nil_r; reflexivity.
Qed.
Lemma one_slots : forall me whose rpa p c, slots (exchangeOne me whose rpa c p) = slots c ++ slots (exchangeOne me whose rpa (CM [] []) p).
Proof.
  intros me whose rpa [jp ls] c. unfold exchangeOne. destruct (_ =? _)%nat; destruct (whose _ =? me)%nat; destruct rpa;
  unfold atBack, pushBack; cbn [posted slots app]; repeat (rewrite rl || rewrite <- app_assoc); cbn; rewrite ?app_nil_r; try reflexivity;
  repeat (rewrite rl; rewrite <- ?app_assoc); cbn; reflexivity.
Qed.
Lemma one_waited : forall me whose rpa p c, waited (exchangeOne me whose rpa c p) = waited c ++ waitedOf me whose rpa p.
Proof. intros. unfold waitedOf, waited. rewrite one_slots, flat_map_app. reflexivity. Qed.
Lemma all_posted : forall me whose rpa l c, posted (fold_left (exchangeOne me whose rpa) l c) = posted c ++ flat_map (postedOf me whose rpa) l.
Proof. intros me whose rpa l; induction l as [|p l IH]; intros c; cbn; [rewrite app_nil_r; reflexivity|]. rewrite IH, one_posted, <- app_assoc. reflexivity. Qed.
Lemma all_waited : forall me whose rpa l c, waited (fold_left (exchangeOne me whose rpa) l c) = waited c ++ flat_map (waitedOf me whose rpa) l.
Proof. intros me whose rpa l; induction l as [|p l IH]; intros c; cbn; [rewrite app_nil_r; reflexivity|]. rewrite IH, one_waited, <- app_assoc. reflexivity. Qed.
Lemma redistribute_posted : forall me whose rpa l, posted (redistribute me whose rpa l) = flat_map (postedOf me whose rpa) l.
Proof. intros. apply all_posted. Qed.
Lemma redistribute_waited : forall me whose rpa l, waited (redistribute me whose rpa l) = flat_map (waitedOf me whose rpa) l.
Proof. intros. unfold redistribute. rewrite all_waited. reflexivity. Qed.

Lemma matched : forall a d whose rpa chunks, a <> d ->
  sentTo d (posted (redistribute a whose rpa chunks)) = receivedFrom a (posted (redistribute d whose rpa chunks)).
Proof.
  intros a d whose rpa chunks Hne. rewrite !redistribute_posted. induction chunks as [|[jp ls] l IH]; [reflexivity|].
  unfold sentTo, receivedFrom in *. cbn [flat_map]. rewrite !flat_map_app, IH. f_equal. clear IH.
  unfold postedOf, exchangeOne. destruct (jp =? a)%nat eqn:Ea.
  - apply Nat.eqb_eq in Ea. subst jp. replace (a =? d)%nat with false by (symmetry; apply Nat.eqb_neq; exact Hne).
    destruct (whose (ls_iq ls) =? a)%nat eqn:Wa; destruct (whose (ls_iq ls) =? d)%nat eqn:Wd; destruct rpa; cbn; rewrite ?Wd; try reflexivity.
  - destruct (jp =? d)%nat eqn:Ed.
    + apply Nat.eqb_eq in Ed. subst jp. destruct (whose (ls_iq ls) =? a)%nat eqn:Wa; destruct (whose (ls_iq ls) =? d)%nat eqn:Wd; destruct rpa; cbn;
      rewrite ?Nat.eqb_refl; cbn; rewrite ?Wa; cbn; try reflexivity;
      apply Nat.eqb_eq in Wa, Wd; congruence.
    + destruct (whose (ls_iq ls) =? a)%nat eqn:Wa; destruct (whose (ls_iq ls) =? d)%nat eqn:Wd; destruct rpa; cbn; rewrite ?Ed; reflexivity.
Qed.
Lemma receives_waited : forall me whose rpa chunks w iq b src,
  In (Recv w iq b src) (posted (redistribute me whose rpa chunks)) -> In (Recv w iq b src) (waited (redistribute me whose rpa chunks)).
Proof.
  intros me whose rpa chunks w iq b src. rewrite redistribute_posted, redistribute_waited. rewrite !in_flat_map. intros [[jp ls] [H1 H2]]. exists (jp, ls). split; [exact H1|].
  revert H2. unfold postedOf, waitedOf, exchangeOne. destruct (_ =? _)%nat; destruct (whose _ =? me)%nat; destruct rpa; cbn; intuition discriminate.
Qed.
Lemma wavefunctions_not_waited : forall me whose rpa chunks iq b d, ~ In (Send ItemC iq b d) (waited (redistribute me whose rpa chunks)).
Proof.
  intros me whose rpa chunks iq b d. rewrite redistribute_waited, in_flat_map. intros [[jp ls] [H1 H2]].
  revert H2. unfold waitedOf, exchangeOne. destruct (_ =? _)%nat; destruct (whose _ =? me)%nat; destruct rpa; cbn; intuition discriminate.
Qed.
Lemma sends_posted : forall me whose rpa chunks d ls, In (d, ls) chunks -> d <> me -> whose (ls_iq ls) = me ->
  In (Send ItemC (ls_iq ls) (ls_bStart ls) d) (posted (redistribute me whose rpa chunks)) /\ In (Send ItemF (ls_iq ls) (ls_bStart ls) d) (posted (redistribute me whose rpa chunks)) /\
  (rpa = true -> In (Send ItemE (ls_iq ls) (ls_bStart ls) d) (posted (redistribute me whose rpa chunks))) /\
  (In (Send ItemF (ls_iq ls) (ls_bStart ls) d) (waited (redistribute me whose rpa chunks)) \/ rpa = true).
Proof.
  intros me whose rpa chunks d ls H Hd Hw. rewrite redistribute_posted, redistribute_waited.
  assert (forall m, In m (postedOf me whose rpa (d, ls)) -> In m (flat_map (postedOf me whose rpa) chunks)) as G by (intros m Hm; apply in_flat_map; exists (d, ls); split; assumption).
  assert (forall m, In m (waitedOf me whose rpa (d, ls)) -> In m (flat_map (waitedOf me whose rpa) chunks)) as G' by (intros m Hm; apply in_flat_map; exists (d, ls); split; assumption).
  apply Nat.eqb_neq in Hd. apply Nat.eqb_eq in Hw.
  assert (postedOf me whose rpa (d, ls) = Send ItemC (ls_iq ls) (ls_bStart ls) d :: Send ItemF (ls_iq ls) (ls_bStart ls) d :: if rpa then [Send ItemE (ls_iq ls) (ls_bStart ls) d] else []) as E
    by (unfold postedOf, exchangeOne; rewrite Hd, Hw; destruct rpa; reflexivity).
  assert (waitedOf me whose rpa (d, ls) = [if rpa then Send ItemE (ls_iq ls) (ls_bStart ls) d else Send ItemF (ls_iq ls) (ls_bStart ls) d]) as E'
    by (unfold waitedOf, exchangeOne; rewrite Hd, Hw; destruct rpa; reflexivity).
  split; [apply G; rewrite E; left; reflexivity|]. split; [apply G; rewrite E; right; left; reflexivity|]. split.
  - intros ->. apply G; rewrite E; right; right; left; reflexivity.
  - destruct rpa; [right; reflexivity|left]. apply G'. rewrite E'. left; reflexivity.
Qed.
