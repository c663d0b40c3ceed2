(** Averages over a finite group acting on points, for values in any real vector space (C35). *)
From Coq Require Import ZArith Reals List Bool Lia Lra Permutation.
From Verif Require Import Base.
Import ListNotations.
Open Scope R_scope.

Lemma Forall2_map_eq {A B X} (R : A -> B -> Prop) (f : A -> X) (g : B -> X) l l' : Forall2 R l l' -> (forall a b, R a b -> f a = g b) -> map f l = map g l'.
Proof. induction 1; cbn; intros E; auto. rewrite (E x y), IHForall2; auto. Qed.
Lemma Forall2_pick {A B} (R : A -> B -> Prop) l l' a : Forall2 R l l' -> In a l -> exists b, In b l' /\ R a b.
Proof. induction 1; intros Hi; [destruct Hi|destruct Hi as [->|Hi]]. - exists y. split; [left|]; auto. - destruct (IHForall2 Hi) as (b&Hb&E). exists b. split; [right|]; auto. Qed.
Lemma filter_length {A} (f : A -> bool) l : (length (filter f l) + length (filter (fun x => negb (f x)) l) = length l)%nat.
Proof. induction l; cbn; auto. destruct (f a); cbn; lia. Qed.
Section Average.
Variables (W : Type) (w0 : W) (wadd : W -> W -> W) (wsc : R -> W -> W).
Hypothesis wadd_comm : forall a b, wadd a b = wadd b a.
Hypothesis wadd_assoc : forall a b c, wadd a (wadd b c) = wadd (wadd a b) c.
Hypothesis wadd_0 : forall a, wadd w0 a = a.
Hypothesis wsc_add : forall s a b, wsc s (wadd a b) = wadd (wsc s a) (wsc s b).
Hypothesis wsc_plus : forall s t a, wsc (s + t) a = wadd (wsc s a) (wsc t a).
Hypothesis wsc_mult : forall s t a, wsc (s * t) a = wsc s (wsc t a).
Hypothesis wsc_1 : forall a, wsc 1 a = a.
Hypothesis wsc_0 : forall a, wsc 0 a = w0.

Fixpoint wsum (l : list W) : W := match l with [] => w0 | a :: l' => wadd a (wsum l') end.
Lemma wadd_0r a : wadd a w0 = a.
Proof. rewrite wadd_comm. apply wadd_0. Qed.
Lemma wsc_w0 s : wsc s w0 = w0.
Proof. rewrite <- (wsc_0 w0). rewrite <- wsc_mult. f_equal. ring. Qed.
Lemma wsum_perm l l' : Permutation l l' -> wsum l = wsum l'.
Proof.
  induction 1; cbn; auto. - rewrite IHPermutation. auto. - rewrite !wadd_assoc. rewrite (wadd_comm y x). auto. - congruence.
Qed.
Lemma wsum_map_additive (f : W -> W) l : f w0 = w0 -> (forall a b, f (wadd a b) = wadd (f a) (f b)) -> f (wsum l) = wsum (map f l).
Proof. intros F0 FA. induction l; cbn; auto. rewrite FA, IHl. auto. Qed.
Lemma wsum_repeat a n : wsum (repeat a n) = wsc (INR n) a.
Proof. induction n. - cbn. rewrite wsc_0. auto. - cbn [repeat wsum]. rewrite S_INR, wsc_plus, wsc_1. rewrite IHn. apply wadd_comm. Qed.
Lemma wsum_Forall2 {A B} (R : A -> B -> Prop) (f : A -> W) (g : B -> W) l l' : Forall2 R l l' -> (forall a b, R a b -> In a l -> In b l' -> f a = g b) -> wsum (map f l) = wsum (map g l').
Proof. induction 1; cbn; intros H'; auto. rewrite (H' x y), IHForall2; auto. Qed.

Variables (T : Type) (ops : list T) (D : Z -> Prop) (act : Z -> T -> Z) (L Li : Z -> T -> W -> W).
Hypothesis act_D : forall i p, In p ops -> D i -> D (act i p).
Hypothesis L_add : forall i p a b, L i p (wadd a b) = wadd (L i p a) (L i p b).
Hypothesis L_sc : forall i p s a, L i p (wsc s a) = wsc s (L i p a).
Hypothesis Li_sc : forall i p s a, Li i p (wsc s a) = wsc s (Li i p a).
Hypothesis Li_L : forall i p a, In p ops -> Li i p (L i p a) = a.
(** multiplication from the left by p permutes the operations *)
Hypothesis op_mul : forall p, In p ops -> exists l, Permutation l ops /\
  Forall2 (fun q r => forall i, D i -> act i r = act (act i p) q /\ forall w, L i r w = L i p (L (act i p) q w)) ops l.
Hypothesis op_inv : exists l, Permutation l ops /\ Forall2 (fun p r => forall i, D i -> act (act i p) r = i) ops l.
Hypothesis op_id : exists e, In e ops /\ forall i, D i -> act i e = i.

Definition n := INR (length ops).
Lemma n_pos : 0 < n.
Proof. unfold n. destruct op_id as (e&He&_). apply lt_0_INR. destruct ops; [destruct He|cbn; lia]. Qed.
Definition avg (x : Z -> W) (i : Z) : W := wsc (/ n) (wsum (map (fun r => L i r (x (act i r))) ops)).
Lemma L_0 i p : L i p w0 = w0.
Proof. rewrite <- (wsc_0 w0), L_sc, !wsc_0. auto. Qed.
Lemma avg_invariant x i p : In p ops -> D i -> L i p (avg x (act i p)) = avg x i.
Proof.
  intros Hp Hi. unfold avg. rewrite L_sc. f_equal. rewrite (wsum_map_additive (L i p)) by (auto using L_0). rewrite map_map.
  destruct (op_mul p Hp) as (l&P&F). rewrite <- (wsum_perm _ _ (Permutation_map (fun r => L i r (x (act i r))) P)).
  eapply wsum_Forall2; [exact F|]. intros q r H _ _. destruct (H i Hi) as (Ea&El). rewrite El, Ea. auto.
Qed.
Lemma avg_fixed x i : D i -> (forall p, In p ops -> L i p (x (act i p)) = x i) -> avg x i = x i.
Proof.
  intros Hi H. unfold avg. replace (map (fun r => L i r (x (act i r))) ops) with (repeat (x i) (length ops)).
  - rewrite wsum_repeat. fold n. rewrite <- wsc_mult, Rinv_l, wsc_1; auto. pose proof n_pos. lra.
  - clear -H. induction ops as [|p l IH]; cbn; auto. rewrite (H p) by (left; auto). f_equal. apply IH. intros; apply H; right; auto.
Qed.

(** number of operations taking i to k *)
Definition cnt (i k : Z) : nat := count_occ Z.eq_dec (map (act i) ops) k.
Lemma cnt_shift i p k : In p ops -> D i -> cnt (act i p) k = cnt i k.
Proof.
  intros Hp Hi. unfold cnt. destruct (op_mul p Hp) as (l&P&F).
  transitivity (count_occ Z.eq_dec (map (act i) l) k).
  - f_equal. apply (Forall2_map_eq _ _ _ _ _ F). intros q r H. symmetry. apply H. auto.
  - apply (Permutation_count_occ Z.eq_dec). apply Permutation_map. auto.
Qed.
Lemma cnt_le i k : D i -> (cnt i k <= cnt k i)%nat.
Proof.
  intros Hi. unfold cnt. destruct op_inv as (l&P&F). rewrite <- ((proj1 (Permutation_count_occ Z.eq_dec _ _)) (Permutation_map (act k) P) i).
  clear P. revert F. generalize ops at 1 2 as ol. intros ol F. induction F as [|p r ol rl H F IH]; cbn; auto.
  destruct (Z.eq_dec (act i p) k); destruct (Z.eq_dec (act k r) i); try lia. subst. exfalso. apply n0. apply H. auto.
Qed.
Lemma cnt_orbit i p : In p ops -> D i -> cnt i (act i p) = cnt i i.
Proof.
  intros Hp Hi. assert (E : cnt i (act i p) = cnt (act i p) i). { apply Nat.le_antisymm; apply cnt_le; auto. }
  rewrite E. apply cnt_shift; auto.
Qed.
Lemma act_undone i p : In p ops -> D i -> exists q, In q ops /\ act (act i p) q = i.
Proof.
  intros Hp Hi. destruct op_inv as (l&P&F). assert (H : exists r, In r l /\ act (act i p) r = i).
  { clear P. revert Hp F. generalize ops. intros ol Hp F. induction F as [|a r ol rl H F IH]; [destruct Hp|]. destruct Hp as [->|Hp].
    - exists r. split; [left; auto|apply H; auto]. - destruct (IH Hp) as (r'&Hr&E). exists r'. split; [right; auto|auto]. }
  destruct H as (r&Hr&E). exists r. split; auto. eapply Permutation_in; eauto.
Qed.
(** orbit-stabilizer *)
Lemma len_as_counts (l m : list Z) : NoDup m -> (forall x, In x l -> In x m) -> length l = fold_right (fun k s => (count_occ Z.eq_dec l k + s)%nat) 0%nat m.
Proof.
  revert l. induction m as [|k m IH]; intros l N H.
  - destruct l; auto. exfalso. apply (H z). left. auto.
  - inversion N; subst. cbn. rewrite <- (filter_length (fun z => if Z.eq_dec z k then true else false) l).
    assert (E1 : length (filter (fun z => if Z.eq_dec z k then true else false) l) = count_occ Z.eq_dec l k).
    { clear. induction l as [|z l IH]; cbn; auto. destruct (Z.eq_dec z k); cbn; auto. }
    rewrite E1. f_equal. rewrite (IH (filter (fun z => negb (if Z.eq_dec z k then true else false)) l)); auto.
    + assert (G : forall m', ~ In k m' -> fold_right (fun k0 s => (count_occ Z.eq_dec (filter (fun z => negb (if Z.eq_dec z k then true else false)) l) k0 + s)%nat) 0%nat m'
        = fold_right (fun k0 s => (count_occ Z.eq_dec l k0 + s)%nat) 0%nat m').
      { clear. induction m' as [|a m' IH]; intros H; cbn; auto. rewrite IH by (intros X; apply H; right; auto). f_equal.
        assert (a <> k) by (intros ->; apply H; left; auto). clear -H0. induction l as [|z l IH]; cbn; auto. destruct (Z.eq_dec z k); cbn.
        - subst. destruct (Z.eq_dec k a); [congruence|auto]. - destruct (Z.eq_dec z a); auto. }
      apply G. auto.
    + intros x Hx. apply filter_In in Hx. destruct Hx as (Hx&E). destruct (H x Hx) as [->|]; auto. destruct (Z.eq_dec x x); [discriminate|congruence].
Qed.
Lemma orbit_count i : D i -> length ops = (length (nodup Z.eq_dec (map (act i) ops)) * cnt i i)%nat.
Proof.
  intros Hi. rewrite <- (map_length (act i) ops) at 1. rewrite (len_as_counts (map (act i) ops) (nodup Z.eq_dec (map (act i) ops))).
  - assert (H : forall k, In k (nodup Z.eq_dec (map (act i) ops)) -> count_occ Z.eq_dec (map (act i) ops) k = cnt i i).
    { intros k Hk. apply nodup_In, in_map_iff in Hk. destruct Hk as (p&<-&Hp). apply (cnt_orbit i p Hp Hi). }
    revert H. generalize (nodup Z.eq_dec (map (act i) ops)). generalize (count_occ Z.eq_dec (map (act i) ops)). generalize (cnt i i).
    clear. intros c f m. induction m as [|k m IH]; cbn; intros H; auto.
  - apply NoDup_nodup.
  - intros x Hx. apply nodup_In. auto.
Qed.
Lemma cnt_pos i : D i -> (0 < cnt i i)%nat.
Proof.
  intros Hi. destruct op_id as (e&He&E). unfold cnt. apply count_occ_In. apply in_map_iff. exists e. auto.
Qed.

(** what the code computes for the class of i: the average at all points of the orbit *)
Definition setAt (x : Z -> W) (i : Z) (v : W) : Z -> W := fun k => if Z.eqb k i then v else x k.
Definition scatter (i : Z) (s : W) (l : list T) (x : Z -> W) : Z -> W :=
  fold_left (fun x p => setAt x (act i p) (wadd (x (act i p)) (Li i p s))) l x.
Definition clear (i : Z) (l : list T) (x : Z -> W) : Z -> W := fold_left (fun x p => setAt x (act i p) w0) l x.
Lemma clear_spec i l : forall x k, (In k (map (act i) l) -> clear i l x k = w0) /\ (~ In k (map (act i) l) -> clear i l x k = x k).
Proof.
  induction l as [|p l IH]; intros x k; cbn [map In]; [split; [intros []|reflexivity]|].
  change (clear i (p :: l) x) with (clear i l (setAt x (act i p) w0)). destruct (IH (setAt x (act i p) w0) k) as (I1&I2). split.
  - intros H. destruct (in_dec Z.eq_dec k (map (act i) l)) as [Hi|Hi]; [auto|]. rewrite I2 by auto. destruct H as [E|H]; [|contradiction].
    unfold setAt. rewrite E, Z.eqb_refl. reflexivity.
  - intros H. rewrite I2 by tauto. unfold setAt. destruct (Z.eqb_spec k (act i p)) as [E|E]; [|reflexivity]. exfalso. apply H. left. auto.
Qed.
Lemma scatter_spec i s l : forall x k, scatter i s l x k = wadd (x k) (wsum (map (fun p => if Z.eq_dec (act i p) k then Li i p s else w0) l)).
Proof.
  induction l as [|p l IH]; intros x k; cbn [map wsum]; [rewrite wadd_0r; reflexivity|].
  change (scatter i s (p :: l) x) with (scatter i s l (setAt x (act i p) (wadd (x (act i p)) (Li i p s)))). rewrite IH. unfold setAt.
  destruct (Z.eq_dec (act i p) k) as [E|E].
  - rewrite <- E, Z.eqb_refl, wadd_assoc. reflexivity.
  - destruct (Z.eqb_spec k (act i p)) as [E'|E']; [exfalso; apply E; auto|]. rewrite wadd_0. reflexivity.
Qed.
Definition classStep (i : Z) (mult : R) (x : Z -> W) : Z -> W :=
  let s := wsc (/ (n * mult)) (wsum (map (fun r => L i r (x (act i r))) ops)) in scatter i s ops (clear i ops x).
Lemma fibre_sum i k s w l : (forall p, In p l -> act i p = k -> Li i p s = w) ->
  wsum (map (fun p => if Z.eq_dec (act i p) k then Li i p s else w0) l) = wsc (INR (count_occ Z.eq_dec (map (act i) l) k)) w.
Proof.
  induction l as [|p l IH]; intros H; cbn -[INR]. - cbn. rewrite wsc_0. auto.
  - rewrite IH by (intros; apply H; auto; right; auto).
    destruct (Z.eq_dec (act i p) k) as [E|E].
    + rewrite S_INR, wsc_plus, wsc_1, (H p) by (auto; left; auto). apply wadd_comm.
    + apply wadd_0.
Qed.
Lemma classStep_spec i x : D i -> forall k,
  classStep i (INR (cnt i i)) x k = if in_dec Z.eq_dec k (map (act i) ops) then avg x k else x k.
Proof.
  intros Hi k. unfold classStep. set (s := wsc _ _). assert (Es : s = wsc (/ INR (cnt i i)) (avg x i)).
  { unfold s, avg. rewrite <- wsc_mult. f_equal. rewrite Rinv_mult_distr. - ring. - pose proof n_pos. lra. - apply not_0_INR. pose proof (cnt_pos i Hi). lia. }
  rewrite scatter_spec. destruct (clear_spec i ops x k) as (K1&K2). destruct (in_dec Z.eq_dec k (map (act i) ops)) as [Hin|Hout].
  - rewrite K1, wadd_0 by auto. rewrite (fibre_sum i k s (wsc (/ INR (cnt i i)) (avg x k))).
    + apply in_map_iff in Hin. destruct Hin as (p&<-&Hp). fold (cnt i (act i p)). rewrite (cnt_orbit i p Hp Hi). rewrite <- wsc_mult, Rinv_r, wsc_1; auto.
      apply not_0_INR. pose proof (cnt_pos i Hi). lia.
    + intros p Hp <-. rewrite Es, Li_sc. f_equal. rewrite <- (avg_invariant x i p Hp Hi). apply Li_L. auto.
  - rewrite K2 by auto. rewrite (fibre_sum i k s w0). + rewrite wsc_w0, wadd_0r. auto.
    + intros p Hp E. exfalso. apply Hout. apply in_map_iff. exists p. auto.
Qed.
(** depends only on the values in the orbit *)
Lemma avg_ext x y i : (forall p, In p ops -> x (act i p) = y (act i p)) -> avg x i = avg y i.
Proof. intros H. unfold avg. f_equal. f_equal. apply map_ext_in. intros p Hp. rewrite H; auto. Qed.

(** all classes one after the other *)
Fixpoint steps (reps : list Z) (x : Z -> W) : Z -> W := match reps with [] => x | i :: reps' => steps reps' (classStep i (INR (cnt i i)) x) end.
(** representatives chosen by the code *)
Fixpoint choose (pts : list Z) (done : Z -> bool) : list Z :=
  match pts with
  | [] => []
  | i :: pts' => if done i then choose pts' done else i :: choose pts' (fun k => existsb (Z.eqb k) (map (act i) ops) || done k)
  end.
Lemma steps_spec x : forall pts done y, Forall D pts ->
  (forall i p, D i -> In p ops -> done i = true -> done (act i p) = true) ->
  (forall k, y k = if done k then avg x k else x k) ->
  forall k, D k -> (In k pts \/ done k = true) -> steps (choose pts done) y k = avg x k.
Proof.
  induction pts as [|i pts IH]; intros done y HD Hcl Hy k Dk Hk; cbn [choose].
  - destruct Hk as [[]|Hk]. cbn. rewrite Hy, Hk. auto.
  - inversion HD as [|? ? Di HD']; subst. destruct (done i) eqn:Ed.
    + apply (IH done); auto. destruct Hk as [[->|Hk]|Hk]; auto.
    + cbn [steps]. set (done' := fun k => existsb (Z.eqb k) (map (act i) ops) || done k).
      assert (Ed' : forall k, done' k = true <-> (In k (map (act i) ops) \/ done k = true)).
      { intros j. unfold done'. rewrite orb_true_iff, existsb_exists. split; (intros [H|H]; [left|right; auto]).
        - destruct H as (z&Hz&E). apply Z.eqb_eq in E. subst. auto. - exists j. split; auto. apply Z.eqb_refl. }
      assert (Hdisj : forall p, In p ops -> done (act i p) = false).
      { intros p Hp. destruct (done (act i p)) eqn:E; auto. destruct (act_undone i p Hp Di) as (q&Hq&Eq).
        rewrite <- Eq in Ed. rewrite Hcl in Ed; auto; discriminate. }
      apply (IH done'); auto.
      * intros j p Dj Hp Hj. apply Ed' in Hj. apply Ed'. destruct Hj as [Hj|Hj]; [left|right; auto].
        apply in_map_iff in Hj. destruct Hj as (q&<-&Hq). destruct (op_mul q Hq) as (l&P&F).
        destruct (Forall2_pick _ _ _ _ F Hp) as (r&Hr&E'). destruct (E' i Di) as (<-&_). apply in_map. eapply Permutation_in; eauto.
      * intros j. rewrite classStep_spec by auto. destruct (in_dec Z.eq_dec j (map (act i) ops)) as [Hin|Hout].
        -- assert (E : done' j = true) by (apply Ed'; auto). rewrite E. apply avg_ext. intros p Hp.
           rewrite Hy. replace (done (act j p)) with false; auto. symmetry. apply in_map_iff in Hin. destruct Hin as (q&<-&Hq).
           destruct (op_mul q Hq) as (l&P&F).
           destruct (Forall2_pick _ _ _ _ F Hp) as (r&Hr&E'). destruct (E' i Di) as (<-&_). apply Hdisj. eapply Permutation_in; eauto.
        -- rewrite Hy. destruct (done' j) eqn:E.
           ++ apply Ed' in E. destruct E as [E|E]; [contradiction|]. rewrite E. auto.
           ++ destruct (done j) eqn:E'; auto. exfalso. assert (done' j = true) by (apply Ed'; auto). congruence.
      * destruct Hk as [[->|Hk]|Hk]; auto; right; apply Ed'; auto. left. destruct op_id as (e&He&E). apply in_map_iff. exists e. split; auto.
Qed.
End Average.
