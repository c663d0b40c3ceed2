(** Proofs about the convergence checkers. *)
From Coq Require Import Reals List Bool Arith Lia Lra.
From Verif Require Import XR_Model XR_Facts Converge_Model Converge_Spec.
Import ListNotations.
Open Scope R_scope.

Lemma linked_app P l1 a l2 : linked P (l1 ++ a :: l2) <-> linked P (l1 ++ [a]) /\ linked P (a :: l2).
Proof.
  induction l1 as [|b l1 IH]; cbn.
  - split; [intros H; split; [constructor|auto] | tauto].
  - destruct l1 as [|c l1]; cbn in *.
    + split.
      * intros H. inversion H; subst. split; [constructor; [auto|constructor]|auto].
      * intros (H1&H2). inversion H1; subst. constructor; auto.
    + split.
      * intros H. inversion H; subst. apply IH in H4. destruct H4. split; auto. constructor; auto.
      * intros (H1&H2). inversion H1; subst. constructor; auto. apply IH; auto.
Qed.
Lemma linked_tl P a l : linked P (a :: l) -> linked P l.
Proof. intros H. inversion H; subst; auto. constructor. Qed.
Lemma linked_imp (P Q : R -> R -> Prop) l : (forall a b, P a b -> Q a b) -> linked P l -> linked Q l.
Proof. intros H L. induction L; constructor; auto. Qed.
Lemma linked_snoc P l a b : linked P (l ++ [a]) -> P a b -> linked P (l ++ [a; b]).
Proof. intros. apply (linked_app P l a [b]). split; auto. constructor; auto. constructor. Qed.

Lemma anyLargeDrop_spec thr q : anyLargeDrop (Fin thr) (map Fin q) = false <-> linked (fun a b => a - b <= thr) q.
Proof.
  induction q as [|a q IH]; cbn; [split; [constructor|auto]|].
  destruct q as [|b q]; [split; [constructor|auto]|]. cbn [map] in *.
  change (xsub (Fin a) (Fin thr)) with (Fin (a + - thr)).
  rewrite orb_false_iff, IH. cbn. rewrite Rltb_false. split.
  - intros (H1&H2). constructor; auto. lra.
  - intros H. inversion H; subst. split; auto. lra.
Qed.

(** Invariant of the energy checker after the energies [l]. *)
Definition EInv (n : nat) (l q : list R) : Prop :=
  exists pre, l = pre ++ q /\ (l <> [] -> q <> []) /\ (length q <= S n)%nat /\ linked (fun a b => b < a) q /\
   (length q = S n \/ pre = [] \/ exists p x y q', pre = p ++ [x] /\ q = y :: q' /\ x <= y).

Lemma map_inv_nil {A B} (f : A -> B) l : map f l = [] -> l = [].
Proof. destruct l; cbn; congruence. Qed.

Lemma rev_last {A} (l : list A) b r : rev l = b :: r -> l = rev r ++ [b].
Proof. intros H. rewrite <- (rev_involutive l), H. reflexivity. Qed.


Lemma linked_app_r P a t : linked P (a ++ t) -> linked P t.
Proof. induction a; cbn; auto. intros H. apply IHa. apply linked_tl in H. auto. Qed.

(** A tail of a list is determined by its length. *)
Lemma tail_len {A} (pre q pre' t : list A) : pre ++ q = pre' ++ t -> (length q <= length t)%nat -> exists m, t = m ++ q /\ pre = pre' ++ m.
Proof.
  revert pre'. induction pre as [|a pre IH]; intros pre' H HL.
  - cbn in H. subst q. rewrite app_length in HL. destruct pre'; cbn in *; [exists []; auto|lia].
  - destruct pre' as [|b pre']; cbn in H.
    + exists (a :: pre). auto.
    + injection H as -> H. destruct (IH _ H HL) as (m&->&->). exists m. auto.
Qed.
Lemma tail_eq {A} (pre q pre' t : list A) : pre ++ q = pre' ++ t -> length q = length t -> q = t.
Proof.
  intros H HL. destruct (tail_len _ _ _ _ H) as (m&Hm&_); [lia|]. subst t. rewrite app_length in HL.
  destruct m; auto. cbn in HL. lia.
Qed.

Lemma not_linked_inside (P : R -> R -> Prop) n pre x y q l : l = pre ++ x :: y :: q -> ~ P x y -> (length (y :: q) <= n)%nat ->
  ~ last_changes n P l.
Proof.
  intros -> HP HL (p&t&H1&H2&H3).
  change (x :: y :: q) with ([x; y] ++ q) in H1. 
  destruct (tail_len pre ([x;y] ++ q) p t H1) as (m&->&_); [cbn in *; lia|].
  apply linked_app_r in H3. inversion H3; subst. auto.
Qed.

Lemma last_changes_tail n P pre q : length q = S n -> (last_changes n P (pre ++ q) <-> linked P q).
Proof.
  intros H. split.
  - intros (p&t&H1&H2&H3). replace q with t; auto. symmetry. eapply tail_eq; [exact H1|lia].
  - intros L. exists pre, q. auto.
Qed.
Lemma linked_and P Q l : linked P l -> linked Q l -> linked (fun a b => P a b /\ Q a b) l.
Proof.
  induction l as [|a l IH]; intros H1 H2; [constructor|]. inversion H1; inversion H2; subst; try discriminate; try constructor.
  - injection H6 as -> ->. auto.
  - injection H6 as -> ->. apply IH; auto.
Qed.

Lemma ediff_step n thr l q E : EInv n l q ->
  let r := ediffCheck (EDC (map Fin q) n (Fin (Rabs thr))) (Fin E) in
  exists q', fst r = EDC (map Fin q') n (Fin (Rabs thr)) /\ EInv n (l ++ [E]) q' /\
    ((1 <= n)%nat -> (snd r = true <-> last_changes n (small_decrease thr) (l ++ [E]))).
Proof.
  intros (pre&Hl&Hne&Hlen&Hlk&Hmax) r.
  unfold r, ediffCheck. cbn [ed_q ed_n ed_thr]. rewrite <- map_rev.
  destruct (rev q) as [|b rq] eqn:Hr; cbn [map].
  { (* first *)
    assert (q = []) by (rewrite <- (rev_involutive q), Hr; auto). subst q.
    assert (l = []) by (destruct l; auto; exfalso; apply Hne; congruence). clear Hl. subst l. cbn.
    exists [E]. split; [reflexivity|]. split.
    + exists []. split; [auto|]. split; [congruence|]. split; [cbn; lia|]. split; [constructor|]. right; left; reflexivity.
    + intros Hn. split; [discriminate|]. intros (p&t&H1&H2&_). apply (f_equal (@length R)) in H1. rewrite app_length in H1. cbn in H1. lia. }
  apply rev_last in Hr. set (q0 := rev rq) in *. clearbody q0.
  cbn [xleb]. destruct (Rleb b E) eqn:Hle.
  { apply Rleb_true in Hle. exists [E]. split; [reflexivity|]. split.
    + exists l. split; [auto|]. split; [congruence|]. split; [cbn; lia|]. split; [constructor|].
      right; right. exists (pre ++ q0), b, E, []. rewrite Hl, Hr, app_assoc. auto.
    + intros Hn. split; [discriminate|]. intros HH. exfalso. revert HH.
      apply (not_linked_inside _ n (pre ++ q0) b E []); [rewrite Hl, Hr, <- !app_assoc; reflexivity| |cbn; lia].
      unfold small_decrease. lra. }
  apply Rleb_false in Hle.
  change [Fin E] with (map Fin [E]). rewrite <- map_app.
  assert (Hlk1 : linked (fun a b => b < a) (q ++ [E])).
  { rewrite Hr, <- app_assoc. apply linked_snoc; auto. rewrite <- Hr. auto. }
  rewrite map_length, app_length. cbn [length].
  assert (KEY : forall pre' q', l ++ [E] = pre' ++ q' -> q' <> [] -> (length q' <= S n)%nat -> linked (fun a b => b < a) q' ->
     (length q' = S n \/ pre' = [] \/ exists p x y q'', pre' = p ++ [x] /\ q' = y :: q'' /\ x <= y) ->
     EInv n (l ++ [E]) q' /\ ((1 <= n)%nat -> ((if length (map Fin q') =? n + 1 then negb (anyLargeDrop (Fin (Rabs thr)) (map Fin q')) else false) = true
          <-> last_changes n (small_decrease thr) (l ++ [E])))).
  { intros pre' q' H1 H2 H3 H4 H5. split; [exists pre'; auto|]. intros Hn. rewrite map_length.
    destruct (Nat.eqb_spec (length q') (n+1)) as [e|e].
    - rewrite negb_true_iff, anyLargeDrop_spec, H1, last_changes_tail by lia. split.
      + intros L. exact (linked_and _ _ _ H4 L).
      + apply linked_imp. unfold small_decrease. tauto.
    - split; [discriminate|]. intros HH. exfalso. destruct H5 as [H5|[H5|(p&x&y&q''&H5&H6&H7)]].
      + lia.
      + subst pre'. destruct HH as (p&t&G1&G2&_). rewrite H1 in G1. apply (f_equal (@length R)) in G1. cbn in G1.
        rewrite app_length in G1. lia.
      + revert HH. apply (not_linked_inside _ n p x y q''); [rewrite H1, H5, H6, <- app_assoc; reflexivity| |rewrite <- H6; lia].
        unfold small_decrease. lra. }
  destruct (Nat.eqb_spec (length q + 1) (n + 2)) as [e|e].
  - destruct q as [|a q]; [cbn in e; lia|]. cbn [app map tl].
    exists (q ++ [E]). split; [reflexivity|]. cbn [snd]. apply KEY with (pre' := pre ++ [a]).
    + rewrite Hl, <- !app_assoc. reflexivity.
    + destruct q; discriminate.
    + rewrite app_length. cbn in *. lia.
    + cbn in Hlk1. apply linked_tl in Hlk1. auto.
    + left. rewrite app_length. cbn in *. lia.
  - exists (q ++ [E]). split; [reflexivity|]. cbn [snd]. apply KEY with (pre' := pre).
    + rewrite Hl, <- !app_assoc. reflexivity.
    + destruct q; discriminate.
    + rewrite app_length. cbn in *. lia.
    + auto.
    + destruct Hmax as [H|[H|(p&x&y&q'&H1&H2&H3)]].
      * lia.
      * auto.
      * right; right. exists p, x, y, (q' ++ [E]). subst q. auto.
Qed.

Lemma ediff_inv n thr l : forall l0 q0, EInv n l0 q0 -> exists q,
  ediffRun (EDC (map Fin q0) n (Fin (Rabs thr))) (map Fin l) = EDC (map Fin q) n (Fin (Rabs thr)) /\ EInv n (l0 ++ l) q.
Proof.
  induction l as [|E l IH]; intros l0 q0 H; cbn.
  - rewrite app_nil_r. eauto.
  - destruct (ediff_step n thr l0 q0 E H) as (q'&H1&H2&_). cbn in H1. rewrite H1.
    destruct (IH _ _ H2) as (q&G1&G2). exists q. rewrite <- app_assoc in G2. auto.
Qed.

Theorem ediff_correct : forall n thr l E, (1 <= n)%nat ->
  (snd (ediffCheck (ediffRun (mkEdiffCheck n (Fin thr)) (map Fin l)) (Fin E)) = true <->
   last_changes n (small_decrease thr) (l ++ [E])).
Proof.
  intros n thr l E Hn. destruct (ediff_inv n thr l [] []) as (q&H1&H2).
  { exists []. split; [auto|split;[congruence|split;[cbn; lia|split;[constructor|auto]]]]. }
  cbn [app] in H2. unfold mkEdiffCheck. cbn [xabs]. cbn [map] in H1. rewrite H1.
  destruct (ediff_step n thr l q E H2) as (q'&_&_&H3). apply H3; auto.
Qed.

Theorem norm_correct : forall n thr l x, (1 <= n)%nat ->
  (snd (normCheck (normRun (mkNormCheck n (Fin thr)) (map Fin l)) (Fin x)) = true <->
   last_all n (fun a => Rabs a < Rabs thr) (l ++ [x])).
Proof.
  intros n thr l x Hn.
  set (f := fun a => Rltb (Rabs a) (Rabs thr)).
  set (suf := fun (m : nat) (k : list R) => skipn (length k - m) k).
  assert (STEP : forall k y, normCheck (NC (map f (suf n k)) n (Fin (Rabs thr))) (Fin y) =
      (NC (map f (suf n (k ++ [y]))) n (Fin (Rabs thr)), (n <=? length (k ++ [y])) && forallb (fun b => b) (map f (suf n (k ++ [y]))))).
  { intros k y. unfold normCheck. cbn [nc_h nc_n nc_thr xabs xltb].
    change (map f (suf n k) ++ [Rltb (Rabs y) (Rabs thr)]) with (map f (suf n k) ++ map f [y]). rewrite <- map_app.
    assert (E : (if length (map f (suf n k ++ [y])) =? n + 1 then tl (map f (suf n k ++ [y])) else map f (suf n k ++ [y])) = map f (suf n (k ++ [y]))).
    { unfold suf. rewrite map_length, !app_length, skipn_length. cbn [length].
      destruct (Nat.eqb_spec (length k - (length k - n) + 1) (n + 1)) as [e|e].
      - rewrite skipn_app. replace (length k + 1 - n - length k)%nat with 0%nat by lia. cbn [skipn].
        replace (length k + 1 - n)%nat with (S (length k - n)) by lia.
        assert (G : forall a (z : list R), (a < length z)%nat -> skipn a z = hd 0 (skipn a z) :: skipn (S a) z).
        { induction a; intros [|c z] Hz; cbn in *; try lia; auto. apply IHa. lia. }
        rewrite (G (length k - n)%nat k) at 1 by lia. reflexivity.
      - replace (length k - n)%nat with 0%nat by lia. replace (length k + 1 - n)%nat with 0%nat by lia. reflexivity. }
    rewrite E. f_equal. rewrite map_length. unfold suf at 1. rewrite skipn_length.
    destruct (Nat.eqb_spec (length (k ++ [y]) - (length (k ++ [y]) - n)) n); destruct (Nat.leb_spec n (length (k ++ [y]))); cbn; auto; lia. }
  assert (RUN : forall k k0, normRun (NC (map f (suf n k0)) n (Fin (Rabs thr))) (map Fin k) = NC (map f (suf n (k0 ++ k))) n (Fin (Rabs thr))).
  { induction k as [|y k IH]; intros k0; cbn [map normRun]; [rewrite app_nil_r; auto|].
    rewrite STEP. cbn [fst]. rewrite IH, <- app_assoc. reflexivity. }
  unfold mkNormCheck. cbn [xabs]. specialize (RUN l []). cbn [app] in RUN. change (map f (suf n [])) with (@nil bool) in RUN.
  rewrite RUN, STEP. cbn [snd].
  set (m := l ++ [x]). rewrite andb_true_iff, Nat.leb_le, forallb_forall. split.
  - intros (H1&H2). exists (firstn (length m - n) m), (suf n m). split; [unfold suf; rewrite firstn_skipn; auto|].
    split; [unfold suf; rewrite skipn_length; lia|]. apply Forall_forall. intros a Ha. apply Rltb_true. apply H2. apply (in_map f). auto.
  - intros (p&t&H1&H2&H3). split; [rewrite H1, app_length; lia|].
    assert (E : suf n m = t). { unfold suf. rewrite H1, app_length, H2. replace (length p + n - n)%nat with (length p) by lia.
      rewrite skipn_app, skipn_all, Nat.sub_diag. reflexivity. }
    rewrite E. intros b Hb. apply in_map_iff in Hb. destruct Hb as (a&<-&Ha). apply Rltb_true.
    rewrite Forall_forall in H3. auto.
Qed.

(** Constant energies never count as converged, although their changes are below any threshold. *)
Lemma ediff_constant_refuted : exists n thr l E, (1 <= n)%nat /\ 0 < thr /\
  last_changes n (small_change thr) (l ++ [E]) /\ snd (ediffCheck (ediffRun (mkEdiffCheck n (Fin thr)) (map Fin l)) (Fin E)) = false.
Proof.
  exists 2%nat, 1, [0; 0; 0], 0. split; [lia|]. split; [lra|]. split.
  - exists [0], [0;0;0]. split; [reflexivity|]. split; [reflexivity|].
    assert (small_change 1 0 0) by (unfold small_change; rewrite Rminus_eq_0, Rabs_R0, Rabs_R1; lra).
    constructor; auto. constructor; auto. constructor.
  - apply not_true_iff_false. rewrite ediff_correct by lia. intros (p&t&H1&H2&H3).
    destruct t as [|a [|b [|c [|d t]]]]; cbn in H2; try discriminate.
    inversion H3; subst. destruct H4 as (H4&_).
    assert (HH : In a [0;0;0;0] /\ In b [0;0;0;0]).
    { change ([0;0;0]++[0]) with [0;0;0;0] in H1. rewrite H1. split; apply in_or_app; right; cbn; auto. }
    cbn in HH. destruct HH as (A&B). assert (a = 0) by intuition. assert (b = 0) by intuition. lra.
Qed.

(** Energies that are not numbers count as converged. *)
Lemma ediff_nan_refuted : forall thr E0, 0 < thr ->
  snd (ediffCheck (ediffRun (mkEdiffCheck 2 (Fin thr)) [Fin E0; NaN]) NaN) = true.
Proof. intros. cbn. reflexivity. Qed.

Lemma ediff_example : last_changes 2 (small_decrease (1/10)) ([3;1;2;1;19/20] ++ [9/10]) /\
  ~ last_changes 2 (small_decrease (1/10)) ([3;1;2;1] ++ [19/20]).
Proof.
  split.
  - exists [3;1;2], [1;19/20;9/10]. split; [reflexivity|]. split; [reflexivity|].
    assert (Rabs (1/10) = 1/10) by (apply Rabs_right; lra).
    unfold small_decrease. rewrite H. constructor; [lra|]. constructor; [lra|]. constructor.
  - apply (not_linked_inside _ 2 [3;1] 2 1 [19/20]); [reflexivity| |cbn; lia].
    unfold small_decrease. rewrite (Rabs_right (1/10)) by lra. lra.
Qed.
Lemma norm_example : last_all 2 (fun a => Rabs a < Rabs (1/2)) ([1;1/4] ++ [-1/4]).
Proof.
  exists [1], [1/4;-1/4]. split; [reflexivity|]. split; [reflexivity|].
  rewrite (Rabs_right (1/2)) by lra. constructor; [rewrite Rabs_right; lra|]. constructor; [rewrite Rabs_left; lra|constructor].
Qed.
