(** The code computes the average over the group, for scalar fields and spin density matrices (C35). *)
From Coq Require Import ZArith Reals List Bool Lia Lra Permutation FunctionalExtensionality.
From Coquelicot Require Import Complex.
From Verif Require Import Base Grid_Model Grid_Spec Grid_Proofs Vec3_Model Vec3_Facts IntUtil_Model IntUtil_Proofs Sym_Model Sym_Spec Sym_Proofs Sym_Proofs2.
Import ListNotations.
Open Scope R_scope.

Lemma opIndex_row S iG p : pos3 S -> small_mesh S [p] -> G_point S iG -> opIndex S iG p = Some (row S (zvm (toV iG) (sg_rot p))).
Proof.
  intros H (SM&RG) HG. unfold opIndex. destruct (RG p (toV iG) (or_introl eq_refl)) as (R0&R1&R2). { destruct iG as ((x,y),z). destruct S as ((a,b),c). exact HG. }
  destruct SM as (S0&S1&S2). set (w := zvm (toV iG) (sg_rot p)) in *. destruct S as ((a,b),c). destruct H as (Ha&Hb&Hc). cbn [v0 v1 v2 fst snd] in *.
  rewrite !positiveRemainder_ok by lia. f_equal. rewrite fullRindex_row; [|repeat split; auto|repeat split; apply Z.mod_pos_bound; auto].
  unfold row, row_major, fromV. cbn. rewrite !Zmod_mod. auto.
Qed.
Lemma sequenceO_map {A B} (f : A -> option B) (g : A -> B) l : (forall x, In x l -> f x = Some (g x)) -> sequenceO (map f l) = Some (map g l).
Proof. induction l; cbn; intros H; auto. rewrite (H a) by auto. rewrite IHl by auto. auto. Qed.
Lemma combine_map {A B X} (f : A -> B) (g : A -> X) l : combine (map f l) (map g l) = map (fun a => (f a, g a)) l.
Proof. induction l; cbn; auto. f_equal. auto. Qed.
Lemma fold_left_map {A B X} (f : X -> B -> X) (g : A -> B) l : forall x, fold_left f (map g l) x = fold_left (fun x a => f x (g a)) l x.
Proof. induction l; cbn; auto. Qed.

Definition Csc (s : R) (a : C) : C := Cmult (RtoC s) a.
Definition LC (S : V3) (i : Z) (p : SpaceGroupOp) (w : C) : C := Cmult (phase (gp S i) p) w.
Definition LiC (S : V3) (i : Z) (p : SpaceGroupOp) (w : C) : C := Cmult (Cconj (phase (gp S i) p)) w.

Section Mesh.
Variables (S : V3) (sym : list SpaceGroupOp).
Hypothesis HS : pos3 S.
Hypothesis HG : space_group sym.
Hypothesis HF : forall p, In p sym -> fits_mesh S p.
Hypothesis HR : small_mesh S sym.

Lemma op_inv : exists l, Permutation l sym /\ Forall2 (fun p r => forall i, inD S i -> act S (act S i p) r = i) sym l.
Proof.
  destruct (inv_permutes sym HG) as (l&P&F). exists l. split; auto.
  assert (Hl : forall r, In r l -> In r sym) by (intros; eapply Permutation_in; eauto). clear P.
  assert (GEN : forall ol l, Forall2 (fun p r => zmm (sg_rot p) (sg_rot r) = zid) ol l -> (forall r, In r l -> In r sym) -> Forall2 (fun p r => forall i, inD S i -> act S (act S i p) r = i) ol l).
  { clear l F Hl. induction 1 as [|p r ll l' E F IH]; intros Hl; constructor; auto.
  - intros i Hi. rewrite act_act; auto. + rewrite E, zvm_id. apply row_gp; auto. + apply HF. apply Hl. left. auto.
  - apply IH. intros; apply Hl; right; auto. }
  auto.
Qed.
Lemma op_id : exists e, In e sym /\ forall i, inD S i -> act S i e = i.
Proof.
  destruct (gr_neutral _ HG) as (e&He&N). exists e. split; auto. intros i Hi. apply neutral_alg in N. destruct N as (N&_). unfold act. rewrite N, zvm_id. apply row_gp; auto.
Qed.
(** generic values: rotation of the value by operation p *)
Variables (W : Type) (w0 : W) (wadd : W -> W -> W) (wsc : R -> W -> W) (rotW rotWi : SpaceGroupOp -> W -> W) (phW : C -> W -> W).
Hypothesis wadd_comm : forall a b, wadd a b = wadd b a.
Hypothesis wadd_assoc : forall a b c, wadd a (wadd b c) = wadd (wadd a b) c.
Hypothesis wadd_0 : forall a, wadd w0 a = a.
Hypothesis wsc_add : forall s a b, wsc s (wadd a b) = wadd (wsc s a) (wsc s b).
Hypothesis wsc_plus : forall s t a, wsc (s + t) a = wadd (wsc s a) (wsc t a).
Hypothesis wsc_mult : forall s t a, wsc (s * t) a = wsc s (wsc t a).
Hypothesis wsc_1 : forall a, wsc 1 a = a.
Hypothesis wsc_0 : forall a, wsc 0 a = w0.
Hypothesis ph_add : forall c a b, phW c (wadd a b) = wadd (phW c a) (phW c b).
Hypothesis ph_sc : forall c s a, phW c (wsc s a) = wsc s (phW c a).
Hypothesis ph_mult : forall c d a, phW (Cmult c d) a = phW c (phW d a).
Hypothesis ph_1 : forall a, phW (RtoC 1) a = a.
Hypothesis rot_add : forall p a b, rotW p (wadd a b) = wadd (rotW p a) (rotW p b).
Hypothesis rot_sc : forall p s a, rotW p (wsc s a) = wsc s (rotW p a).
Hypothesis roti_sc : forall p s a, rotWi p (wsc s a) = wsc s (rotWi p a).
Hypothesis rot_ph : forall p c a, rotW p (phW c a) = phW c (rotW p a).
Hypothesis roti_ph : forall p c a, rotWi p (phW c a) = phW c (rotWi p a).
Hypothesis roti_rot : forall p a, In p sym -> rotWi p (rotW p a) = a.
Hypothesis rot_comp : forall p q r a, In p sym -> In q sym -> In r sym -> composes p q r -> rotW r a = rotW p (rotW q a).

Definition LW i p w := phW (phase (gp S i) p) (rotW p w).
Definition LiW i p w := phW (Cconj (phase (gp S i) p)) (rotWi p w).
Definition avgW := avg W w0 wadd wsc SpaceGroupOp sym (act S) LW.
Lemma op_mulW p : In p sym -> exists l, Permutation l sym /\
  Forall2 (fun q r => forall i, inD S i -> act S i r = act S (act S i p) q /\ forall w, LW i r w = LW i p (LW (act S i p) q w)) sym l.
Proof.
  intros Hp. destruct (mul_permutes sym p HG Hp) as (l&P&F). exists l. split; auto.
  assert (GEN : forall ol l, Forall2 (fun q r => composes p q r) ol l -> (forall r, In r l -> In r sym) -> (forall q, In q ol -> In q sym) ->
    Forall2 (fun q r => forall i, inD S i -> act S i r = act S (act S i p) q /\ forall w, LW i r w = LW i p (LW (act S i p) q w)) ol l).
  { clear F P. induction 1 as [|q r ol' l' C F IH]; intros Hl Hs; constructor.
    - intros i Hi. split.
      + apply act_composes; auto. apply HF. apply Hs. left. auto.
      + intros w. unfold LW. rewrite (phase_composes _ p q r C). rewrite (phase_act S i p q) by (auto; apply HF; apply Hs; left; auto).
        rewrite (rot_comp p q r w); auto; [|apply Hs; left; auto|apply Hl; left; auto]. rewrite rot_ph, ph_mult. auto.
    - apply IH; intros; [apply Hl|apply Hs]; right; auto. }
  apply GEN; auto. intros; eapply Permutation_in; eauto.
Qed.
Lemma act_inD i p : In p sym -> inD S i -> inD S (act S i p).
Proof. intros _ _. apply act_in; auto. Qed.
Lemma LW_add i p a b : LW i p (wadd a b) = wadd (LW i p a) (LW i p b).
Proof. unfold LW. rewrite rot_add, ph_add. auto. Qed.
Lemma LW_sc i p s a : LW i p (wsc s a) = wsc s (LW i p a).
Proof. unfold LW. rewrite rot_sc, ph_sc. auto. Qed.
Lemma LiW_sc i p s a : LiW i p (wsc s a) = wsc s (LiW i p a).
Proof. unfold LiW. rewrite roti_sc, ph_sc. auto. Qed.
Lemma LiW_LW i p a : In p sym -> LiW i p (LW i p a) = a.
Proof. intros Hp. unfold LW, LiW. rewrite roti_ph, roti_rot, <- ph_mult, phase_unit, ph_1 by auto. auto. Qed.
Lemma avgW_invariant x i p : In p sym -> inD S i -> LW i p (avgW x (act S i p)) = avgW x i.
Proof.
  apply (avg_invariant W w0 wadd wsc wadd_comm wadd_assoc wsc_0 SpaceGroupOp sym (inD S) (act S) LW LW_add LW_sc op_mulW).
Qed.
Lemma avgW_fixed x i : inD S i -> (forall p, In p sym -> LW i p (x (act S i p)) = x i) -> avgW x i = x i.
Proof.
  apply (avg_fixed W w0 wadd wsc wadd_comm wadd_assoc wadd_0 wsc_add wsc_plus wsc_mult wsc_1 wsc_0 SpaceGroupOp sym (inD S) (act S) LW LiW
    act_inD LW_add LW_sc LiW_sc LiW_LW op_mulW op_inv op_id).
Qed.

(** classes built by the code *)
Definition orbitOf (i : Z) : list Z := map (act S i) sym.
Definition classOf (i : Z) : SymmClass := mkClass (orbitOf i) (map (phase (gp S i)) sym) (Z.of_nat (cnt SpaceGroupOp sym (act S) i i)).
Lemma opIndex_act i p : In p sym -> inD S i -> opIndex S (fullG_init S i) p = Some (act S i p).
Proof.
  intros Hp Hi. rewrite opIndex_row; auto.
  - destruct HR as (R1&R2). split; auto. intros q g [->|[]]. apply R2. auto.
  - apply (fullG_init_spec S i HS Hi).
Qed.
Lemma mult_ok i : inD S i -> (Z.of_nat (length sym) / orbitSize (orbitOf i) = Z.of_nat (cnt SpaceGroupOp sym (act S) i i) /\
  Z.of_nat (cnt SpaceGroupOp sym (act S) i i) * orbitSize (orbitOf i) = Z.of_nat (length sym))%Z.
Proof.
  intros Hi. pose proof (orbit_count W w0 wadd wsc wadd_comm wadd_assoc wadd_0 wsc_add wsc_1 wsc_0 SpaceGroupOp sym (inD S) (act S) LW LiW
    act_inD LW_add LW_sc LiW_sc LiW_LW op_mulW op_inv i Hi) as E.
  assert (P : (0 < length (nodup Z.eq_dec (orbitOf i)))%nat).
  { destruct op_id as (e&He&_). assert (Hin : In (act S i e) (nodup Z.eq_dec (orbitOf i))) by (apply nodup_In; apply in_map; auto).
    destruct (nodup Z.eq_dec (orbitOf i)); [destruct Hin|cbn; lia]. }
  unfold orbitSize. fold (orbitOf i) in E. assert (E' : (Z.of_nat (cnt SpaceGroupOp sym (act S) i i) * Z.of_nat (length (nodup Z.eq_dec (orbitOf i))) = Z.of_nat (length sym))%Z) by nia.
  split; auto. rewrite <- E'. apply Z.div_mul. lia.
Qed.
Lemma classes_ok pts : forall done, Forall (fun t => inD S (fst t) /\ snd t = fullG_init S (fst t)) pts ->
  symmClasses S sym pts done = Some (map classOf (choose SpaceGroupOp sym (act S) (map fst pts) done)).
Proof.
  induction pts as [|(i,iG) pts IH]; intros done H; cbn [symmClasses map choose fst]; auto.
  inversion H as [|? ? (Hi&E) H']; subst. cbn [fst snd] in *. subst iG. destruct (done i); [apply IH; auto|].
  rewrite (sequenceO_map _ (act S i)) by (intros; apply opIndex_act; auto). fold (orbitOf i). destruct (mult_ok i Hi) as (M1&M2). rewrite M1, M2, Z.eqb_refl. cbn [negb].
  rewrite IH by auto. reflexivity.
Qed.
Definition reps : list Z := choose SpaceGroupOp sym (act S) (zrange 0 (nr S)) (fun _ => false).
Lemma init_ok : initSymmIndex S sym = Some (map classOf reps).
Proof.
  unfold initSymmIndex. destruct (fullG_visits S 0 (nr S) (Z.to_nat (nr S)) HS) as (L&->&(E1&E2)); try (pose proof (nr_pos S HS); lia).
  rewrite classes_ok.
  - unfold reps. rewrite <- E1. reflexivity.
  - rewrite Forall_forall in *. intros (i,g) Hin. destruct (E2 _ Hin) as (HGp&Er). cbn [fst snd] in *.
    assert (Hi : inD S i). { assert (X : In i (map fst L)) by (apply in_map_iff; exists (i,g); auto). assert (X' : In i (zrange 0 (nr S))) by (rewrite <- E1; exact X). apply in_zrange in X'. exact X'. }
    split; auto. destruct (fullG_init_spec S i HS Hi) as (G2&Er2). apply (full_row_inj S); auto. congruence.
Qed.
Lemma all_steps x k : inD S k -> steps W w0 wadd wsc SpaceGroupOp sym (act S) LW LiW reps x k = avgW x k.
Proof.
  intros Hk. eapply (steps_spec W w0 wadd wsc wadd_comm wadd_assoc wadd_0 wsc_add wsc_plus wsc_mult wsc_1 wsc_0 SpaceGroupOp sym (inD S) (act S) LW LiW
    act_inD LW_add LW_sc LiW_sc LiW_LW op_mulW op_inv op_id x (zrange 0 (nr S)) (fun _ => false) x).
  - rewrite Forall_forall. intros i Hi. apply in_zrange in Hi. auto.
  - discriminate.
  - auto.
  - auto.
  - left. apply in_zrange. auto.
Qed.
End Mesh.
