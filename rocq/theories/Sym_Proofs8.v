(** Symmetrized forces and tensors (C35). *)
From Coq Require Import ZArith Reals List Bool Lia Lra Permutation FunctionalExtensionality.
From Coquelicot Require Import Complex.
From Verif Require Import Base Vec3_Model Vec3_Facts Sym_Model Sym_Spec Sym_Proofs Sym_Proofs2 Sym_Proofs7.
Import ListNotations.
Open Scope R_scope.

Local Ltac v3_ring := intros; v3_destruct; unfold rmadd, gmadd; v3_unfold; f_equal; try ring.
Local Ltac v3_sring := intros; v3_destruct; unfold rmadd, gmadd; v3_unfold; try ring.
Lemma mul_permutes_by sym p {T} (g : T -> SpaceGroupOp) ops : space_group sym -> In p sym -> map g ops = sym ->
  exists l, Permutation l ops /\ Forall2 (fun q r => composes (g q) p (g r)) ops l.
Proof.
  intros G Hp Eo. apply (permute_by (fun a b => same_op (g a) (g b)) (fun q r => composes (g q) p (g r)) ops).
  - pose proof (gr_distinct _ G) as D. rewrite <- Eo in D. clear -D. induction ops as [|a l IH]; constructor; inversion D; subst; auto.
    rewrite Forall_map in *. auto.
  - intros q. split; auto. apply latt_refl.
  - intros q Hq. assert (Hq' : In (g q) sym) by (rewrite <- Eo; apply in_map; auto). destruct (gr_compose _ G (g q) p Hq' Hp) as (r&Hr&C). rewrite <- Eo in Hr. apply in_map_iff in Hr. destruct Hr as (k&<-&Hk). exists k. auto.
  - intros q q' r Hq Hq' H H'. apply composes_alg in H, H'. destruct H as (E&A), H' as (E'&A').
    destruct (gr_inverse _ G p Hp) as (pi&e&_&_&N&I&_). apply composes_alg in I. destruct I as (I&_). apply neutral_alg in N. destruct N as (N&_). rewrite N in I.
    assert (Eq : sg_rot (g q) = sg_rot (g q')) by (rewrite <- (zmm_id_r (sg_rot (g q))), <- (zmm_id_r (sg_rot (g q'))), I, !zmm_assoc; congruence).
    split; auto. rewrite Eq in A. pose proof (latt_trans _ _ _ (latt_sym _ _ A) A') as (t&X). exists t. rewrite <- X. v3_ring.
Qed.

Lemma rvadd_0 v : rvadd (V 0 0 0) v = v. Proof. v3_ring. Qed.
Lemma rmadd_0 v : rmadd (rdiag 0 0 0) v = v. Proof. v3_ring. Qed.
Lemma rvadd_0r v : rvadd v (V 0 0 0) = v. Proof. v3_ring. Qed.
Lemma rmadd_0r v : rmadd v (rdiag 0 0 0) = v. Proof. v3_ring. Qed.
Notation vsm := (wsum (vec R) (V 0 0 0) rvadd).
Lemma rvsum_vsm {T} (f : T -> vec R) l : rvsum f l = vsm (map f l).
Proof.
  unfold rvsum. assert (G : forall a, fold_left (fun acc t => rvadd acc (f t)) l a = rvadd a (vsm (map f l))).
  { induction l; cbn [fold_left map wsum]; intros b. - rewrite rvadd_0r. auto. - rewrite IHl. apply eq_sym, rvadd_assoc. }
  rewrite G. apply rvadd_0.
Qed.
Lemma vsm_perm l l' : Permutation l l' -> vsm l = vsm l'.
Proof. apply wsum_perm; [apply rvadd_comm|apply rvadd_assoc]. Qed.
Lemma vsm_plus {A} (f g : A -> vec R) l : vsm (map (fun a => rvadd (f a) (g a)) l) = rvadd (vsm (map f l)) (vsm (map g l)).
Proof. induction l; cbn [map wsum]; [v3_ring|]. rewrite IHl. generalize (vsm (map f l)) (vsm (map g l)) (f a) (g a). intros. v3_ring. Qed.
Lemma vsm_zero {A} (l : list A) : vsm (map (fun _ => V 0 0 0) l) = V 0 0 0.
Proof. induction l; cbn [map wsum]; auto. rewrite IHl. v3_ring. Qed.
Lemma vsm_swap {A B} (f : A -> B -> vec R) l m : vsm (map (fun a => vsm (map (f a) m)) l) = vsm (map (fun b => vsm (map (fun a => f a b) l)) m).
Proof. induction l; cbn [map wsum]. - symmetry. apply vsm_zero. - rewrite IHl, <- vsm_plus. auto. Qed.
Lemma vsm_lin (h : vec R -> vec R) {A} (f : A -> vec R) l : h (V 0 0 0) = V 0 0 0 -> (forall a b, h (rvadd a b) = rvadd (h a) (h b)) -> h (vsm (map f l)) = vsm (map (fun a => h (f a)) l).
Proof. intros H0 Ha. induction l; cbn [map wsum]; auto. rewrite Ha, IHl. auto. Qed.

Section Forces.
Variables (sym : list SpaceGroupOp) (pos : list (vec R)) (atomMap : nat -> nat -> nat).
Definition op0 := SGO zid (V 0 0 0).
Definition opn (k : nat) := nth k sym op0.
Hypothesis HG : space_group sym.
Hypothesis HD : distinct_positions pos.
Hypothesis HM : forall a k, (a < length pos)%nat -> (k < length sym)%nat -> atom_map pos (opn k) a (atomMap a k).
Lemma ops_list : map opn (seq 0 (length sym)) = sym.
Proof.
  unfold opn. clear. induction sym as [|a l IH]; auto. cbn [length seq map nth]. f_equal. rewrite <- seq_shift, map_map. auto.
Qed.
Lemma opn_in k : (k < length sym)%nat -> In (opn k) sym.
Proof. intros. apply nth_In. auto. Qed.
Lemma map_range a k : (a < length pos)%nat -> (k < length sym)%nat -> (atomMap a k < length pos)%nat.
Proof. intros Ha Hk. destruct (HM a k Ha Hk) as (x&y&_&E&_). apply nth_error_Some. congruence. Qed.
Lemma map_unique a k b : (k < length sym)%nat -> atom_map pos (opn k) a b -> b = atomMap a k.
Proof.
  intros Hk (x&y&Ex&Ey&A). assert (Ha : (a < length pos)%nat) by (apply nth_error_Some; congruence). destruct (HM a k Ha Hk) as (x'&y'&Ex'&Ey'&A').
  apply (HD b (atomMap a k) y y'); auto. replace x' with x in A' by congruence. apply (latt_trans _ _ _ (latt_sym _ _ A) A').
Qed.
(** instance of the averaging *)
Definition actF (i : Z) (k : nat) : Z := Z.of_nat (atomMap (Z.to_nat i) k).
Definition LF (i : Z) (k : nat) (w : vec R) : vec R := rmv (mtrans (mIZR (sg_rot (opn k)))) w.
Definition inA (i : Z) : Prop := (0 <= i < Z.of_nat (length pos))%Z.
Lemma mtrans_mm a b : mtrans (rmm a b) = rmm (mtrans b) (mtrans a).
Proof. v3_ring. Qed.
Lemma op_mulF k0 : In k0 (seq 0 (length sym)) -> exists l, Permutation l (seq 0 (length sym)) /\
  Forall2 (fun q r => forall i, inA i -> actF i r = actF (actF i k0) q /\ forall w, LF i r w = LF i k0 (LF (actF i k0) q w)) (seq 0 (length sym)) l.
Proof.
  intros Hk. apply in_seq in Hk. destruct (mul_permutes_by sym (opn k0) opn (seq 0 (length sym)) HG (opn_in k0 ltac:(lia)) ops_list) as (l&P&F). exists l. split; auto.
  assert (GEN : forall ol l, Forall2 (fun q r => composes (opn q) (opn k0) (opn r)) ol l -> (forall k, In k ol -> (k < length sym)%nat) -> (forall k, In k l -> (k < length sym)%nat) ->
    Forall2 (fun q r => forall i, inA i -> actF i r = actF (actF i k0) q /\ forall w, LF i r w = LF i k0 (LF (actF i k0) q w)) ol l).
  { induction 1 as [|q r ol' l' C F' IH]; intros Ho Hl; constructor.
    - assert (Hq : (q < length sym)%nat) by (apply Ho; left; auto). assert (Hr : (r < length sym)%nat) by (apply Hl; left; auto). intros i Hi.
      assert (Ha : (Z.to_nat i < length pos)%nat) by (unfold inA in Hi; lia). split.
      + unfold actF. rewrite Nat2Z.id. f_equal. symmetry. apply map_unique; auto.
        destruct (HM (Z.to_nat i) k0 Ha ltac:(lia)) as (x&y&Ex&Ey&A). destruct (HM (atomMap (Z.to_nat i) k0) q (map_range (Z.to_nat i) k0 Ha ltac:(lia)) Hq) as (y'&z&Ey'&Ez&A').
        exists x, z. repeat split; auto. replace y' with y in A' by congruence. apply (C x y z); auto.
      + intros w. unfold LF. apply composes_alg in C. destruct C as (->&_). rewrite mIZR_mm, mtrans_mm. apply rmv_mm.
    - apply IH; intros; [apply Ho|apply Hl]; right; auto. }
  apply GEN; auto. - intros k H. apply in_seq in H. lia. - intros k H. apply (Permutation_in _ P) in H. apply in_seq in H. lia.
Qed.
Definition avgF := avg (vec R) (V 0 0 0) rvadd rvscale nat (seq 0 (length sym)) actF LF.
Lemma n_sym : (0 < length sym)%nat.
Proof. destruct (gr_neutral _ HG) as (e&He&_). destruct sym; [destruct He|cbn; lia]. Qed.
Lemma avgF_inv g i k : (k < length sym)%nat -> inA i -> LF i k (avgF g (actF i k)) = avgF g i.
Proof.
  intros Hk. apply (avg_invariant (vec R) (V 0 0 0) rvadd rvscale); auto.
  - apply rvadd_comm. - apply rvadd_assoc. - intros. v3_ring. - intros. unfold LF. apply rmv_add.
  - intros. unfold LF. generalize (mtrans (mIZR (sg_rot (opn p)))). intros m. v3_ring.
  - intros p Hp. apply op_mulF; auto.
  - apply in_seq. lia.
Qed.
Lemma avgF_fixed g i : (forall k, (k < length sym)%nat -> LF i k (g (actF i k)) = g i) -> avgF g i = g i.
Proof.
  intros H. unfold avgF, avg, n. rewrite seq_length.
  assert (E : map (fun r => LF i r (g (actF i r))) (seq 0 (length sym)) = repeat (g i) (length sym)).
  { rewrite <- (seq_length (length sym) 0) at 2. assert (Hs : forall k, In k (seq 0 (length sym)) -> (k < length sym)%nat) by (intros k Hk; apply in_seq in Hk; lia). revert Hs. generalize (seq 0 (length sym)). induction l; intros Hs; cbn; auto. f_equal; [apply H|apply IHl; intros]; apply Hs; [left|right]; auto. }
  rewrite E. assert (R : forall m, vsm (repeat (g i) m) = rvscale (INR m) (g i)).
  { induction m; cbn [repeat wsum]. - cbn. generalize (g i). intros. v3_ring. - rewrite IHm, S_INR. generalize (INR m) (g i). intros. v3_ring. }
  rewrite R. assert (N : INR (length sym) <> 0) by (apply not_0_INR; pose proof n_sym; lia). destruct (g i). v3_unfold. f_equal; field; auto.
Qed.
Definition lift (f : nat -> vec R) (i : Z) : vec R := f (Z.to_nat i).
Lemma symF f a : (a < length pos)%nat -> symmetrizeForces sym atomMap f a = avgF (lift f) (Z.of_nat a).
Proof.
  intros Ha. unfold symmetrizeForces. destruct (Nat.leb_spec (length sym) 1) as [H|H].
  - pose proof n_sym as Hn. assert (Hl : length sym = 1%nat) by lia. symmetry. transitivity (lift f (Z.of_nat a)); [|unfold lift; rewrite Nat2Z.id; auto]. apply avgF_fixed. intros k Hk. assert (k = 0%nat) by lia. subst k.
    destruct (gr_neutral _ HG) as (e&He&N). assert (E : opn 0 = e). { unfold opn. clear -Hl He. destruct sym as [|e' [|? ?]]; try discriminate. destruct He as [<-|[]]. auto. }
    assert (EM : atomMap a 0 = a). { symmetry. apply map_unique; auto. rewrite E. destruct (nth_error pos a) as [x|] eqn:Ex; [|apply nth_error_None in Ex; lia]. exists x, x. repeat split; auto. }
    unfold lift, actF, LF. rewrite !Nat2Z.id, EM, E. apply neutral_alg in N. destruct N as (->&_). generalize (f a). v3_ring.
  - unfold avgF, avg, n. rewrite seq_length. f_equal. rewrite rvsum_vsm. f_equal. apply map_ext. intros k. unfold LF, lift, actF, opn, op0. rewrite !Nat2Z.id. auto.
Qed.
Theorem forces_sym f : let f' := symmetrizeForces sym atomMap f in
  (forall p, In p sym -> forces_invariant pos p f') /\
  ((forall p, In p sym -> forces_invariant pos p f) -> forall a, (a < length pos)%nat -> f' a = f a) /\
  total_force pos f' = rvscale (/ INR (length sym)) (vsm (map (fun p => rmv (mtrans (mIZR (sg_rot p))) (total_force pos f)) sym)).
Proof.
  intros f'. refine (conj _ (conj _ _)).
  - intros p Hp a b Hab. rewrite <- ops_list in Hp. apply in_map_iff in Hp. destruct Hp as (k&<-&Hk). apply in_seq in Hk.
    assert (Ha : (a < length pos)%nat) by (destruct Hab as (x&y&E&_); apply nth_error_Some; congruence).
    rewrite (map_unique a k b) by (auto; lia). unfold f'. rewrite !symF by (auto; apply map_range; auto; lia).
    rewrite <- (avgF_inv (lift f) (Z.of_nat a) k) by (try lia; split; lia). unfold LF, actF. rewrite Nat2Z.id. auto.
  - intros H a Ha. unfold f'. rewrite symF by auto. rewrite avgF_fixed.
    + unfold lift. rewrite Nat2Z.id. auto.
    + intros k Hk. unfold LF, lift, actF. rewrite !Nat2Z.id. apply (H (opn k) (opn_in k Hk)). apply HM; auto.
  - assert (T : forall g, total_force pos g = vsm (map g (seq 0 (length pos)))).
    { intros g. unfold total_force. induction (seq 0 (length pos)); cbn [fold_right map wsum]; auto. rewrite IHl. auto. }
    rewrite !T. 
    transitivity (vsm (map (fun a => rvscale (/ INR (length sym)) (vsm (map (fun k => rmv (mtrans (mIZR (sg_rot (opn k)))) (f (atomMap a k))) (seq 0 (length sym))))) (seq 0 (length pos)))).
    { f_equal. apply map_ext_in. intros a Ha. apply in_seq in Ha. unfold f'. rewrite symF by lia. unfold avgF, avg, n. rewrite seq_length. do 2 f_equal. apply map_ext. intros k. unfold LF, lift, actF. rewrite !Nat2Z.id. auto. }
    rewrite <- (vsm_lin (rvscale (/ INR (length sym)))); [|v3_ring|intros; v3_ring]. f_equal.
    rewrite vsm_swap. rewrite <- ops_list at 2. rewrite map_map. f_equal. apply map_ext_in. intros k Hk. apply in_seq in Hk.
    rewrite <- (vsm_lin (rmv (mtrans (mIZR (sg_rot (opn k)))))); [|generalize (mtrans (mIZR (sg_rot (opn k)))); intros; v3_ring|intros; apply rmv_add]. f_equal.
    rewrite <- (map_map (fun a => atomMap a k) f). apply vsm_perm. apply Permutation_map. apply injective_self_permutation.
    + apply seq_NoDup.
    + intros a Ha. apply in_seq in Ha. apply in_seq. pose proof (map_range a k ltac:(lia) ltac:(lia)). lia.
    + intros a b Ha Hb E. apply in_seq in Ha, Hb. destruct (HM a k ltac:(lia) ltac:(lia)) as (x&y&Ex&Ey&A). destruct (HM b k ltac:(lia) ltac:(lia)) as (x'&y'&Ex'&Ey'&A').
      apply (HD a b x x'); auto. replace y' with y in A' by congruence.
      destruct (gr_inverse _ HG (opn k) (opn_in k ltac:(lia))) as (pi&e&_&_&N&_&I). apply composes_alg in I. destruct I as (I&_). apply neutral_alg in N. destruct N as (N&_). rewrite N in I.
      pose proof (latt_trans _ _ _ A (latt_sym _ _ A')) as (t&X).
      assert (Y : lattice_equal (rmv (mIZR (sg_rot (opn k))) x) (rmv (mIZR (sg_rot (opn k))) x')) by (exists t; rewrite <- X; v3_ring).
      apply (latt_mv (sg_rot pi)) in Y. rewrite <- !rmv_mm, <- mIZR_mm, <- I, mIZR_id, !rmv_id in Y. auto.
Qed.
End Forces.

(** *** Tensors *)
Notation msm := (wsum (mat R) (rdiag 0 0 0) rmadd).
Lemma rmadd_assoc a b c : rmadd a (rmadd b c) = rmadd (rmadd a b) c. Proof. v3_ring. Qed.
Lemma rmadd_comm a b : rmadd a b = rmadd b a. Proof. v3_ring. Qed.
Lemma rmsum_msm {T} (f : T -> mat R) l : rmsum f l = msm (map f l).
Proof.
  unfold rmsum. assert (G : forall a, fold_left (fun acc t => rmadd acc (f t)) l a = rmadd a (msm (map f l))).
  { induction l; cbn [fold_left map wsum]; intros b. - rewrite rmadd_0r. auto. - rewrite IHl. symmetry. apply rmadd_assoc. }
  rewrite G. apply rmadd_0.
Qed.
Lemma msm_lin (h : mat R -> mat R) {A} (f : A -> mat R) l : h (rdiag 0 0 0) = rdiag 0 0 0 -> (forall a b, h (rmadd a b) = rmadd (h a) (h b)) -> h (msm (map f l)) = msm (map (fun a => h (f a)) l).
Proof. intros H0 Ha. induction l; cbn [map wsum]; auto. rewrite Ha, IHl. auto. Qed.
Definition conj_by (O m : mat R) := rmm (rmm O m) (mtrans O).
Lemma mm_add_r O a b : rmm O (rmadd a b) = rmadd (rmm O a) (rmm O b). Proof. v3_ring. Qed.
Lemma mm_add_l O a b : rmm (rmadd a b) O = rmadd (rmm a O) (rmm b O). Proof. v3_ring. Qed.
Lemma mm_sc_r O s a : rmm O (rmscale s a) = rmscale s (rmm O a). Proof. v3_ring. Qed.
Lemma mm_sc_l O s a : rmm (rmscale s a) O = rmscale s (rmm a O). Proof. v3_ring. Qed.
Lemma conj_add O a b : conj_by O (rmadd a b) = rmadd (conj_by O a) (conj_by O b).
Proof. unfold conj_by. rewrite mm_add_r, mm_add_l. auto. Qed.
Lemma conj_sc O s a : conj_by O (rmscale s a) = rmscale s (conj_by O a).
Proof. unfold conj_by. rewrite mm_sc_r, mm_sc_l. auto. Qed.
Lemma conj_0 O : conj_by O (rdiag 0 0 0) = rdiag 0 0 0.
Proof. unfold conj_by. v3_ring. Qed.
Lemma conj_mm O P m : conj_by (rmm O P) m = conj_by O (conj_by P m).
Proof. unfold conj_by. rewrite mtrans_mm, !rmm_assoc. auto. Qed.
Lemma trace_add a b : trace (rmadd a b) = trace a + trace b. Proof. unfold trace, mget, mrow, vget. v3_sring. Qed.
Lemma trace_sc s a : trace (rmscale s a) = s * trace a. Proof. unfold trace, mget, mrow, vget. v3_sring. Qed.
Lemma trace_cyc a b : trace (rmm a b) = trace (rmm b a). Proof. unfold trace, mget, mrow, vget. v3_sring. Qed.
Theorem tensor_sym Rl sym m : rdet Rl <> 0 -> space_group sym -> let m' := symmetrizeTensor Rl sym m in
  (forall p, In p sym -> tensor_invariant Rl p m') /\
  ((forall p, In p sym -> tensor_invariant Rl p m) -> m' = m) /\
  ((forall p, In p sym -> orthogonal (cartesian Rl p)) -> trace m' = trace m) /\
  (mtrans m = m -> mtrans m' = m').
Proof.
  intros HL HG. assert (Hn : (0 < length sym)%nat) by (destruct (gr_neutral _ HG) as (e&He&_); destruct sym; [destruct He|cbn; lia]).
  assert (N : INR (length sym) <> 0) by (apply not_0_INR; lia).
  intros m'. assert (Em : m' = rmscale (1 / INR (length sym)) (msm (map (fun p => conj_by (rotCart Rl p) m) sym))) by (unfold m', symmetrizeTensor; rewrite rmsum_msm; auto).
  refine (conj _ (conj _ (conj _ _))).
  - intros p Hp. unfold tensor_invariant. change (rmm (rmm (cartesian Rl p) m') (mtrans (cartesian Rl p))) with (conj_by (rotCart Rl p) m'). rewrite Em, conj_sc. f_equal.
    rewrite (msm_lin (conj_by (rotCart Rl p))) by (try apply conj_0; intros; apply conj_add).
    destruct (mul_permutes sym p HG Hp) as (l&P&F). transitivity (msm (map (fun r => conj_by (rotCart Rl r) m) l)).
    + apply (wsum_Forall2 _ _ _ _ _ _ _ _ F). intros q r C _ _. apply composes_alg in C. destruct C as (C&_). rewrite (rotCart_mm Rl p q r) by auto. symmetry. apply conj_mm.
    + apply wsum_perm; [apply rmadd_comm|apply rmadd_assoc|]. apply Permutation_map. auto.
  - intros H. rewrite Em. assert (E : map (fun p => conj_by (rotCart Rl p) m) sym = repeat m (length sym)).
    { clear -H. induction sym as [|p l IH]; cbn [map repeat length]; auto. f_equal; [apply (H p); left; auto|apply IH; intros; apply H; right; auto]. }
    rewrite E. assert (R : forall k, msm (repeat m k) = rmscale (INR k) m). { induction k; cbn [repeat wsum]. - cbn. v3_ring. - rewrite IHk, S_INR. generalize (INR k). intros. v3_ring. }
    rewrite R. destruct m. v3_unfold. f_equal; field; auto.
  - intros H. rewrite Em, trace_sc. assert (E : trace (msm (map (fun p => conj_by (rotCart Rl p) m) sym)) = INR (length sym) * trace m).
    { clear -H. induction sym as [|p l IH]; cbn [map wsum].
      - cbn. unfold trace, mget, mrow, vget. v3_sring.
      - rewrite trace_add, IH by (intros; apply H; right; auto). cbn [length]. rewrite S_INR. unfold conj_by. rewrite trace_cyc, rmm_assoc.
        change (rotCart Rl p) with (cartesian Rl p). rewrite (H p (or_introl eq_refl)), rmm_id_l. ring. }
    rewrite E. field. auto.
  - intros H. rewrite Em. assert (T : forall a b, mtrans (rmadd a b) = rmadd (mtrans a) (mtrans b)) by (intros; v3_ring).
    rewrite mtrans_scale. f_equal. rewrite (msm_lin mtrans) by (try v3_ring; auto). f_equal. apply map_ext. intros p. unfold conj_by. rewrite mtrans_mm, mtrans_mm, H, rmm_assoc. f_equal. 
Qed.
