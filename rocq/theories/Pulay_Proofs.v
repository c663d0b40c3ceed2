(** Proofs about Pulay mixing (C14, C15). *)
From Coq Require Import Reals ZArith List Bool Arith Lia Lra.
From Verif Require Import XR_Model XR_Facts VecOps Converge_Model Pulay_Model Pulay_Spec.
Import ListNotations.
Open Scope R_scope.

Lemma lastn_all {X} h (l : list X) : (length l <= h)%nat -> lastn h l = l.
Proof. intros H. unfold lastn. replace (length l - h)%nat with O by lia. reflexivity. Qed.
Lemma lastn_full {X} h (a x : X) (l : list X) : length (a :: l) = h -> lastn h ((a :: l) ++ [x]) = l ++ [x].
Proof.
  intros H. unfold lastn. rewrite app_length. cbn [length] in *. replace (Datatypes.S (length l) + 1 - h)%nat with 1%nat by lia. reflexivity.
Qed.

Section S.
Context {S V : Type} (v : VectorOps V) (sys : Mixable S V) (inv : nat -> Mat -> Mat) (kill : nat -> bool).
Hypothesis laws : vector_laws v.
Let M := mx_metric sys.
Let Kp := mx_precond sys.

Definition sym_metric : Prop := forall x y, v_dot v x (M y) = v_dot v y (M x).
Hypothesis Hsym : sym_metric.

Lemma mset_same m i j x : mset m i j x i j = x.
Proof. unfold mset. rewrite !Nat.eqb_refl. reflexivity. Qed.
Lemma mset_other m i j x a b : a <> i \/ b <> j -> mset m i j x a b = m a b.
Proof. intros H. unfold mset. destruct (Nat.eqb_spec a i), (Nat.eqb_spec b j); cbn; auto. destruct H; contradiction. Qed.

(** setOverlaps touches only row and column k *)
Lemma setOverlaps_other w k rs : forall j ov a b, a <> k -> b <> k -> setOverlaps v w k j rs ov a b = ov a b.
Proof.
  induction rs as [|r rs IH]; intros j ov a b Ha Hb; cbn; auto.
  rewrite IH by auto. rewrite !mset_other; auto.
Qed.
Lemma setOverlaps_row w k rs : forall j ov, (forall i x, nth_error rs i = Some x ->
    setOverlaps v w k j rs ov (j+i)%nat k = v_dot v x w /\ setOverlaps v w k j rs ov k (j+i)%nat = v_dot v x w) /\
  (forall i, (i < j)%nat -> setOverlaps v w k j rs ov i k = (if Nat.eqb i k then setOverlaps v w k j rs ov k k else ov i k) /\
     setOverlaps v w k j rs ov k i = (if Nat.eqb i k then setOverlaps v w k j rs ov k k else ov k i)).
Proof.
  induction rs as [|r rs IH]; intros j ov; split.
  - intros [|i] x H; discriminate.
  - intros i Hi. cbn. destruct (Nat.eqb_spec i k); [subst; auto|auto].
  - intros i x H. cbn. set (ov1 := mset _ k j _). destruct (IH (j+1)%nat ov1) as (I1&I2).
    destruct i as [|i].
    + cbn in H. injection H as <-. rewrite Nat.add_0_r. destruct (I2 j ltac:(lia)) as (A&B). rewrite A, B.
      destruct (Nat.eqb_spec j k) as [E|E].
      * (* diagonal: value at (k,k) *)
        subst k. clear A B I1.
        assert (D : forall l jj o, (j < jj)%nat -> setOverlaps v w j jj l o j j = o j j).
        { induction l as [|r' l IHl]; intros jj o Hj; cbn; auto. rewrite IHl by lia. rewrite !mset_other by lia. auto. }
        rewrite D by lia. unfold ov1. rewrite mset_same. auto.
      * unfold ov1. split.
        -- rewrite mset_other by auto. apply mset_same.
        -- apply mset_same.
    + cbn in H. replace (j + Datatypes.S i)%nat with (j + 1 + i)%nat by lia. apply I1; auto.
  - intros i Hi. cbn. set (ov1 := mset _ k j _). destruct (IH (j+1)%nat ov1) as (I1&I2).
    destruct (I2 i ltac:(lia)) as (A&B). rewrite A, B. destruct (Nat.eqb_spec i k) as [E|E]; auto.
    unfold ov1. rewrite !mset_other by lia. auto.
Qed.

(** Adding the row of the newest residual *)
Lemma overlaps_add rs r ov : overlaps v M rs ov -> overlaps v M (rs ++ [r]) (setOverlaps v (M r) (length rs) 0 (rs ++ [r]) ov).
Proof.
  intros H i j x y Hi Hj. destruct (setOverlaps_row (M r) (length rs) (rs ++ [r]) 0 ov) as (Rw&_).
  destruct (Nat.eq_dec i (length rs)) as [E|E].
  - subst i. rewrite nth_error_app2 in Hi by lia. rewrite Nat.sub_diag in Hi. cbn in Hi. injection Hi as <-.
    destruct (Rw j y Hj) as (_&B). cbn [Nat.add] in B. rewrite B. apply Hsym.
  - destruct (Nat.eq_dec j (length rs)) as [E'|E'].
    + subst j. rewrite nth_error_app2 in Hj by lia. rewrite Nat.sub_diag in Hj. cbn in Hj. injection Hj as <-.
      destruct (Rw i x Hi) as (B&_). exact B.
    + assert (Li : (i < length (rs ++ [r]))%nat) by (apply nth_error_Some; congruence).
      assert (Lj : (j < length (rs ++ [r]))%nat) by (apply nth_error_Some; congruence).
      rewrite app_length in Li, Lj. cbn in Li, Lj. rewrite nth_error_app1 in Hi, Hj by lia.
      rewrite setOverlaps_other by auto. apply H; auto.
Qed.

(** dropping the oldest and appending = keeping the last h *)
Lemma dropOldest_spec h o : (1 <= h)%nat -> bounded h o ->
  exists o1, dropOldest h o = Some o1 /\ (forall x, po_vars o1 ++ [x] = lastn h (po_vars o ++ [x])) /\
    (forall r, po_res o1 ++ [r] = lastn h (po_res o ++ [r])) /\ (length (po_res o1) < h)%nat /\ length (po_vars o1) = length (po_res o1) /\
    (overlaps v M (po_res o) (po_ov o) -> overlaps v M (po_res o1) (po_ov o1)).
Proof.
  intros Hh (HL&HB). unfold dropOldest. destruct (Nat.leb_spec h (length (po_res o))) as [G|G].
  - destruct o as [vs rs ov]. cbn [po_vars po_res po_ov] in *. destruct rs as [|r0 rs]; [cbn in G; lia|]. destruct vs as [|x0 vs]; [discriminate|].
    eexists. split; [reflexivity|]. cbn [po_vars po_res po_ov]. split; [|split; [|split; [|split]]].
    + intros x. symmetry. apply lastn_full. lia.
    + intros r. symmetry. apply lastn_full. lia.
    + cbn in HB |- *. lia.
    + cbn in HL. lia.
    + intros H i j x y Hi Hj. 
      assert (Li : (i < length rs)%nat) by (apply nth_error_Some; congruence). assert (Lj : (j < length rs)%nat) by (apply nth_error_Some; congruence).
      cbn [length]. destruct (Nat.ltb_spec 1 (Datatypes.S (length rs))); [|lia].
      replace (Datatypes.S (length rs) - 1)%nat with (length rs) by lia.
      destruct (Nat.ltb_spec i (length rs)); [|lia]. destruct (Nat.ltb_spec j (length rs)); [|lia]. cbn [andb].
      apply H; rewrite Nat.add_1_r; auto.
  - exists o. split; auto. split; [|split; [|split; [|split]]]; auto.
    + intros x. symmetry. apply lastn_all. rewrite app_length. cbn. lia.
    + intros x. symmetry. apply lastn_all. rewrite app_length. cbn. lia.
Qed.

(** mixed variable as a linear combination *)
Lemma addA x y z : v_add v x (v_add v y z) = v_add v (v_add v x y) z. Proof. apply (vl_add_assoc v laws). Qed.
Lemma addC x y : v_add v x y = v_add v y x. Proof. apply (vl_add_comm v laws). Qed.
Lemma add0 x : v_add v x (v_zero v) = x. Proof. apply (vl_add_zero v laws). Qed.
Lemma add0l x : v_add v (v_zero v) x = x. Proof. rewrite addC. apply add0. Qed.
Lemma mixed_acc al : forall vs rs x, length vs = length al -> length rs = length al ->
  fold_left (fun x ajr => let '(a, (y, r)) := ajr in v_add v (v_add v x (v_scal v a y)) (v_scal v a (mx_precond sys r))) (combine al (combine vs rs)) x =
  v_add v x (v_add v (combo v al vs) (combo v al (map Kp rs))).
Proof.
  induction al as [|a al IH]; intros vs rs x Lv Lr; destruct vs as [|y vs]; try discriminate; destruct rs as [|r rs]; try discriminate.
  - cbn. rewrite !add0. reflexivity.
  - cbn [combine fold_left combo map]. rewrite IH by (cbn in *; lia). fold Kp. rewrite <- !addA. f_equal. f_equal.
    rewrite !addA. f_equal. apply addC.
Qed.
Lemma mixed_combo al vs rs : length vs = length al -> length rs = length al ->
  mixed v sys al vs rs = v_add v (combo v al vs) (combo v al (map Kp rs)).
Proof. intros. unfold mixed. rewrite mixed_acc by auto. apply add0l. Qed.
Lemma alphas_length n ov : length (alphas inv n ov) = n.
Proof. unfold alphas. rewrite map_length, seq_length. reflexivity. Qed.

Section Loop.
Variable pp : PulayParams.
Hypothesis Hh : (1 <= pp_history pp)%nat.
Hypothesis Hst : stores sys.
Let h := pp_history pp.

Lemma loop_spec k : forall iter o s E dE ec rc xc tr, bounded h o ->
  let out := pulayLoop v sys inv kill pp k iter o s E dE ec rc xc tr in
  bounded h (out_obj out) /\ out_end out <> BadErase /\
  (overlaps v M (po_res o) (po_ov o) ->
   (exists t, out_trace out = tr ++ t /\ good_run v sys h o (mx_get sys s) t) /\
   (out_end out = Limit -> overlaps v M (po_res (out_obj out)) (po_ov (out_obj out)))).
Proof.
  induction k as [|k IH]; intros iter o s E dE ec rc xc tr HB; cbn [pulayLoop].
  - cbn. split; auto. split; [discriminate|]. intros HO. split; auto. exists []. rewrite app_nil_r. split; [reflexivity|exact I].
  - destruct (dropOldest_spec h o Hh HB) as (o1&ED&Hv&Hr&Hlt&Hlen&HOv). fold h. rewrite ED.
    destruct (mx_cycle sys dE s) as ((s1&E1)&extra) eqn:CY.
    set (x := mx_get sys s). set (r := v_add v (mx_get sys s1) (v_scal v (-1) x)).
    assert (B2 : forall ov, bounded h (PO (po_vars o1 ++ [x]) (po_res o1 ++ [r]) ov)).
    { intros ov. split; cbn; rewrite !app_length; cbn; lia. }
    destruct (isnan E1).
    { cbn. split; [apply B2|]. split; [discriminate|]. intros HO. split; [|discriminate]. exists []. rewrite app_nil_r. split; [reflexivity|exact I]. }
    destruct (ediffCheck ec E1) as (ec1&c1). destruct (if c1 then (rc, true) else _) as (rc1&c2).
    destruct (if c2 then (xc, true) else _) as (xc1&c3).
    destruct (c3 || kill iter).
    { cbn. split; [apply B2|]. split; [discriminate|]. intros HO. split; [|discriminate]. exists []. rewrite app_nil_r. split; [reflexivity|exact I]. }
    set (n := length (po_res o1 ++ [r])). set (ov := setOverlaps v (mx_metric sys r) (n-1) 0 (po_res o1 ++ [r]) (po_ov o1)).
    set (al := alphas inv n ov). set (y := mixed v sys al (po_vars o1 ++ [x]) (po_res o1 ++ [r])).
    set (o3 := PO (po_vars o1 ++ [x]) (po_res o1 ++ [r]) ov).
    destruct (IH (Datatypes.S iter) o3 (mx_set sys y (mx_report sys iter s1)) E1 (xsub E1 E) ec1 rc1 xc1 (tr ++ [mkMix o3 al y]) (B2 ov)) as (I1&I2&I3).
    split; [exact I1|]. split; [exact I2|]. intros HO.
    assert (O3 : overlaps v M (po_res o3) (po_ov o3)).
    { cbn. unfold ov. replace (n - 1)%nat with (length (po_res o1)) by (unfold n; rewrite app_length; cbn; lia). apply overlaps_add. auto. }
    destruct (I3 O3) as ((t&T1&T2)&I4). split; [|exact I4].
    exists (mkMix o3 al y :: t). split; [rewrite T1, <- app_assoc; reflexivity|].
    rewrite Hst in T2. cbn [good_run]. exists s, dE, r. cbn [mi_obj mi_alpha mi_var]. rewrite CY. cbn [fst].
    split; [reflexivity|]. split; [reflexivity|]. split; [apply Hv|]. split; [apply Hr|]. split; [exact O3|].
    split; [apply alphas_length|]. split; [|exact T2].
    unfold o3. cbn [po_vars po_res].
    assert (La : length al = n) by apply alphas_length.
    apply mixed_combo; rewrite La; unfold n; rewrite ?app_length; cbn [length]; lia.
Qed.
Lemma minimize_spec o s E0 extra : bounded h o ->
  let out := pulayMinimize v sys inv kill pp o s E0 extra in
  bounded h (out_obj out) /\ out_end out <> BadErase /\
  (overlaps v M (po_res o) (po_ov o) -> good_run v sys h o (mx_get sys s) (out_trace out) /\
   (out_end out = Limit -> overlaps v M (po_res (out_obj out)) (po_ov (out_obj out)))).
Proof.
  intros HB out. destruct (loop_spec (Z.to_nat (pp_nIter pp)) 0 o s E0 (xsub E0 (Fin 0))
    (fst (ediffCheck (mkEdiffCheck 2 (pp_ediffThr pp)) E0)) (mkNormCheck 2 (pp_resThr pp)) (map (mkNormCheck 2) extra) [] HB) as (A&B&C).
  split; [exact A|]. split; [exact B|]. intros HO. destruct (C HO) as ((t&T1&T2)&D). split; [|exact D].
  unfold out, pulayMinimize. rewrite T1. exact T2.
Qed.
End Loop.
End S.
