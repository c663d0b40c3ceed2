(** Normalization of the weights of equivalent cells. *)
From Coq Require Import ZArith Reals List Bool Lia Lra Psatz Permutation Sorted.
From Verif Require Import Base Vec3_Model Vec3_Facts Lattice_Model RealUtil Coulomb_Model Coulomb_Proofs WS_Model WS_Spec WS_Proofs WS_Proofs2 WS_Proofs3 CellMap_Model CellMap_Spec.
Import ListNotations.
Local Open Scope R_scope.

Lemma rsum_cons {A} (f : A -> R) a l : rsum f (a :: l) = f a + rsum f l.
Proof. reflexivity. Qed.
Lemma rsum_nil {A} (f : A -> R) : rsum f [] = 0.
Proof. reflexivity. Qed.
#[local] Opaque rsum.
Ltac rs := cbn [app map filter In]; rewrite ?rsum_nil, ?rsum_cons.
Lemma rsum_app {A} (f : A -> R) l1 l2 : rsum f (l1 ++ l2) = rsum f l1 + rsum f l2.
Proof. induction l1; rs; [ring|rewrite IHl1; ring]. Qed.
Lemma rsum_perm {A} (f : A -> R) l1 l2 : Permutation l1 l2 -> rsum f l1 = rsum f l2.
Proof. induction 1; rs; lra. Qed.
Lemma rsum_map {A B} (f : B -> R) (g : A -> B) l : rsum f (map g l) = rsum (fun a => f (g a)) l.
Proof. induction l; rs; [reflexivity|rewrite IHl; reflexivity]. Qed.
Lemma rsum_ext {A} (f g : A -> R) l : (forall a, In a l -> f a = g a) -> rsum f l = rsum g l.
Proof. induction l; intros H; rs; [reflexivity|]. rewrite (H a) by (left; auto). rewrite IHl by (intros; apply H; right; auto). reflexivity. Qed.
Lemma rsum_filter {A} (f : A -> R) (p : A -> bool) l : rsum f (filter p l) = rsum (fun a => if p a then f a else 0) l.
Proof. induction l; rs; [reflexivity|]. destruct (p a); rs; rewrite IHl; ring. Qed.
Lemma rsum_scale {A} (f : A -> R) c l : rsum (fun a => c * f a) l = c * rsum f l.
Proof. induction l; rs; [ring|rewrite IHl; ring]. Qed.
Lemma rsum_nonneg {A} (f : A -> R) l : (forall a, In a l -> 0 <= f a) -> 0 <= rsum f l.
Proof. induction l; intros H; rs; [lra|]. assert (0 <= f a) by (apply H; left; auto). assert (0 <= rsum f l) by (apply IHl; intros; apply H; right; auto). lra. Qed.
Lemma rsum_ge {A} (f : A -> R) l a : (forall a, In a l -> 0 <= f a) -> In a l -> f a <= rsum f l.
Proof.
  induction l as [|b l IH]; intros H I; [contradiction|]. rs. assert (0 <= rsum f l) by (apply rsum_nonneg; intros; apply H; right; auto). assert (0 <= f b) by (apply H; left; auto).
  destruct I as [->|I]; [lra|]. assert (f a <= rsum f l) by (apply IH; [intros; apply H; right; auto|auto]). lra.
Qed.
Lemma rsum_add {A} (f g : A -> R) l : rsum (fun a => f a + g a) l = rsum f l + rsum g l.
Proof. induction l; rs; [ring|rewrite IHl; ring]. Qed.
Lemma rsum_zero {A} (l : list A) : rsum (fun _ => 0) l = 0.
Proof. induction l; rs; [ring|rewrite IHl; ring]. Qed.
Lemma rsum_swap {A B} (f : A -> B -> R) l1 l2 : rsum (fun a => rsum (f a) l2) l1 = rsum (fun b => rsum (fun a => f a b) l1) l2.
Proof.
  induction l1 as [|a l1 IH]; [rs; symmetry; apply rsum_zero|]. rs. rewrite IH, <- rsum_add. apply rsum_ext. intros b _. rs. reflexivity.
Qed.
Lemma wSum_rsum l i j : wSumOf l i j = rsum (fun e : entry => snd e i j) l.
Proof.
  destruct l as [|e l]; [reflexivity|]. unfold wSumOf. cbn [tl]. rs. generalize (snd e i j). induction l as [|a l IH]; cbn [fold_left]; intros x; rs; [ring|]. rewrite IH. ring.
Qed.
Lemma veqb_spec a b : CellMap_Model.veqb a b = true <-> a = b.
Proof.
  destruct a as [a0 a1 a2], b as [b0 b1 b2]. unfold CellMap_Model.veqb. cbn [c0 c1 c2]. rewrite !andb_true_iff, !Z.eqb_eq. split; [intros [[-> ->] ->]; reflexivity|].
  intros H. injection H as -> -> ->. auto.
Qed.
Lemma member_spec c l : member c l = true <-> In c l.
Proof. unfold member. rewrite existsb_exists. split; [intros (x & I & E); apply veqb_spec in E; subst; auto|intros I; exists c; split; [auto|apply veqb_spec; auto]]. Qed.

Section Norm.
  Variables (Rl Rsup : mat R) (x1 x2 : list (vec R)) (thr : R) (eqv : vec Z -> vec Z -> bool).
  Hypothesis Eqv : forall a b, equivCell Rl Rsup thr a b = eqv a b.
  Hypothesis Erefl : forall a, eqv a a = true.
  Hypothesis Esym : forall a b, eqv a b = eqv b a.
  Hypothesis Etrans : forall a b c, eqv a b = true -> eqv b c = true -> eqv a c = true.
  Definition cls (e : entry) (L : list entry) : list entry := filter (fun e2 : entry => eqv (fst e) (fst e2)) L.
  Definition scaled (L : list entry) (e : entry) : entry := (fst e, fun i j => 1 / wSumOf (cls e L) i j * snd e i j).
  Definition undone (d : list (vec Z)) (e : entry) : bool := negb (member (fst e) d).
  Definition heavy (l : list entry) : Prop := forall e i j, In e l -> (i < length x1)%nat -> (j < length x2)%nat -> thr < wSumOf (cls e l) i j.
  Definition closed (l : list entry) (d : list (vec Z)) : Prop := forall e a, In e l -> In a d -> eqv a (fst e) = true -> In (fst e) d.

  Lemma eqv_cong a b c : eqv a b = true -> eqv a c = eqv b c.
  Proof.
    intros H. destruct (eqv a c) eqn:E1, (eqv b c) eqn:E2; auto.
    { rewrite <- E2. symmetry. rewrite Esym in H. exact (Etrans _ _ _ H E1). }
    { rewrite <- E1. exact (Etrans _ _ _ H E2). }
  Qed.
  Lemma cls_cong a b L : eqv (fst a) (fst b) = true -> cls a L = cls b L.
  Proof. intros H. unfold cls. apply filter_ext. intros e. apply eqv_cong, H. Qed.
  Lemma undone_app q d (e : entry) : undone (q ++ d) e = negb (member (fst e) q) && undone d e.
  Proof. unfold undone, member. rewrite existsb_app, negb_orb. reflexivity. Qed.
  Lemma filter_comm {A} (p q : A -> bool) l : filter p (filter q l) = filter (fun a => q a && p a) l.
  Proof. induction l; cbn; [reflexivity|]. destruct (q a); cbn; [destruct (p a); rewrite IHl; reflexivity|exact IHl]. Qed.
  Lemma filter_none {A} (p : A -> bool) l : (forall a, In a l -> p a = false) -> filter p l = [].
  Proof. induction l; cbn; intros H; [reflexivity|]. rewrite H by auto. apply IHl; auto. Qed.
  Lemma filter_ext_in' {A} (p q : A -> bool) l : (forall a, In a l -> p a = q a) -> filter p l = filter q l.
  Proof. induction l; cbn; intros H; [reflexivity|]. rewrite H by auto. rewrite IHl by auto. reflexivity. Qed.

  Lemma norm_ok : forall (l : list entry) d, NoDup (map fst l) -> closed l d -> heavy (filter (undone d) l) ->
    exists r, normLoop Rl Rsup x1 x2 thr l d = Some r /\ Permutation r (map (scaled (filter (undone d) l)) (filter (undone d) l)).
  Proof.
    induction l as [|e l IH]; intros d ND CL HV. { exists []. split; [reflexivity|constructor]. }
    cbn [map] in ND. apply NoDup_cons_iff in ND. destruct ND as [NI ND]. cbn [normLoop].
    assert (U : undone d e = negb (member (fst e) d)) by reflexivity.
    destruct (member (fst e) d) eqn:Me.
    { cbn [filter] in *. rewrite U in *. cbn [negb] in *. apply IH; auto. intros e2 a I. apply CL. right; auto. }
    cbn [filter] in *. rewrite U in *. cbn [negb] in *.
    set (eq := filter (fun e2 : entry => negb (member (fst e2) d) && equivCell Rl Rsup thr (fst e) (fst e2)) l).
    set (L := filter (undone d) l) in *.
    assert (Qeq : eq = cls e L). { unfold eq, cls, L. rewrite filter_comm. apply filter_ext. intros a. rewrite Eqv. reflexivity. }
    assert (Qe : e :: eq = cls e (e :: L)). { unfold cls at 1. cbn [filter]. rewrite Erefl. fold (cls e L). rewrite Qeq. reflexivity. }
    assert (Qne : forall a, In a l -> eqv (fst e) (fst a) = true -> undone d a = true).
    { intros a Ia Ea. unfold undone. destruct (member (fst a) d) eqn:Q; [|reflexivity]. exfalso. apply member_spec in Q.
      assert (In (fst e) d) by (apply (CL e (fst a)); [left; auto|auto|rewrite Esym; auto]). apply member_spec in H. congruence. }
    cbv zeta. fold eq. replace (forallb _ _) with true.
    2:{ symmetry. apply forallb_forall. intros [i j] I. unfold pairs in I. apply in_flat_map in I. destruct I as (i' & I1 & I2). apply in_map_iff in I2.
        destruct I2 as (j' & E & I2). injection E as -> ->. apply in_seq in I1. apply in_seq in I2. cbn [fst snd]. destruct (Rlt_dec thr _) as [|N]; [reflexivity|exfalso]. apply N. fold eq.
        rewrite Qe. apply HV; [left; auto|lia|lia]. }
    set (d' := map fst eq ++ d).
    assert (Meq : forall a, In a l -> member (fst a) (map fst eq) = eqv (fst e) (fst a) && undone d a).
    { intros a Ia. destruct (member (fst a) (map fst eq)) eqn:Q.
      { apply member_spec, in_map_iff in Q. destruct Q as (b & Eb & Ib). unfold eq in Ib. apply filter_In in Ib. destruct Ib as [_ Ib]. rewrite Eqv, Eb in Ib.
        apply andb_true_iff in Ib. destruct Ib as [I1 I2]. rewrite I2. unfold undone. rewrite I1. reflexivity. }
      { symmetry. destruct (eqv (fst e) (fst a) && undone d a) eqn:Q2; [|reflexivity]. exfalso. assert (In (fst a) (map fst eq)).
        { apply in_map. unfold eq. apply filter_In. split; [auto|]. rewrite Eqv. apply andb_true_iff in Q2. destruct Q2 as [Q2 Q3]. unfold undone in Q3. rewrite Q2, Q3. reflexivity. }
        apply member_spec in H. congruence. } }
    assert (Ud' : forall a, In a l -> undone d' a = undone d a && negb (eqv (fst e) (fst a))).
    { intros a Ia. unfold d'. rewrite undone_app, Meq by auto. destruct (eqv (fst e) (fst a)), (undone d a); reflexivity. }
    assert (FL : filter (undone d') l = filter (fun a : entry => negb (eqv (fst e) (fst a))) L).
    { unfold L. rewrite filter_comm. apply filter_ext_in'. exact Ud'. }
    assert (CC : forall a, In a (filter (undone d') l) -> cls a (filter (undone d') l) = cls a (e :: L)).
    { intros a Ia. rewrite FL in *. apply filter_In in Ia. destruct Ia as [_ Ia]. apply negb_true_iff in Ia. unfold cls. cbn [filter]. rewrite Esym, Ia.
      rewrite filter_comm. apply filter_ext. intros b. destruct (eqv (fst e) (fst b)) eqn:Q; [|reflexivity]. cbn [negb andb]. symmetry.
      destruct (eqv (fst a) (fst b)) eqn:Q2; [|reflexivity]. rewrite <- Ia. rewrite Esym in Q2. symmetry. exact (Etrans _ _ _ Q Q2). }
    destruct (IH d') as (r & Er & Pr).
    { exact ND. }
    { intros a b Ia Ib Eb. unfold d' in *. apply in_app_iff in Ib. apply in_app_iff. destruct Ib as [Ib|Ib].
      { apply in_map_iff in Ib. destruct Ib as (c & <- & Ic). left. apply member_spec. rewrite Meq by auto. unfold eq in Ic. apply filter_In in Ic. destruct Ic as [_ Ic].
        rewrite Eqv in Ic. apply andb_true_iff in Ic. destruct Ic as [_ Ic]. assert (Ea : eqv (fst e) (fst a) = true) by exact (Etrans _ _ _ Ic Eb).
        rewrite Ea. rewrite (Qne a) by auto. reflexivity. }
      { right. apply (CL a b); auto. right; auto. } }
    { intros a i j Ia Hi Hj. rewrite CC by auto. apply HV; auto. rewrite FL in Ia. apply filter_In in Ia. right. tauto. }
    fold d'. rewrite Er. eexists. split; [reflexivity|].
    assert (S1 : map (fun e2 : entry => (fst e2, fun i j => 1 / wSumOf (e :: eq) i j * snd e2 i j)) (e :: eq) = map (scaled (e :: L)) (e :: eq)).
    { apply map_ext_in. intros a Ia. unfold scaled. f_equal. rewrite Qe in *. unfold cls at 1 in Ia. apply filter_In in Ia. destruct Ia as [_ Ia]. rewrite (cls_cong e a) by auto. reflexivity. }
    rewrite S1. eapply Permutation_trans; [apply Permutation_app_head; exact Pr|].
    replace (map (scaled (filter (undone d') l)) (filter (undone d') l)) with (map (scaled (e :: L)) (filter (undone d') l)).
    2:{ apply map_ext_in. intros a Ia. unfold scaled. rewrite CC by auto. reflexivity. }
    rewrite <- map_app. apply Permutation_map. cbn [app]. constructor. rewrite Qeq, FL. unfold cls. clear. induction L as [|a L IHL]; cbn [filter app]; [constructor|].
    destruct (eqv (fst e) (fst a)); cbn [negb app]; [constructor; auto|]. eapply Permutation_trans; [apply Permutation_sym, Permutation_middle|]. constructor. auto.
  Qed.
End Norm.
