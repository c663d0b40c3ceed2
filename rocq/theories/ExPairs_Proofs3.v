(** Transforms of pairs of k-points. *)
From Coq Require Import ZArith Reals List Bool Arith Lia Lra.
From Verif Require Import Base Vec3_Model Vec3_Facts Sym_Proofs9 ExPairs_Model ExPairs_Spec.
Import ListNotations.

Lemma equivK_lin : forall (op : SpaceGroupOp) u v, equivK u v -> equivK (applyRecip op u) (applyRecip op v).
Proof.
  intros op u v [x [y [z E]]]. subst u. unfold equivK. destruct op as [[a b c d e f g h i] t]. destruct v as [p q r].
  exists (x*a+y*d+z*g)%Z, (x*b+y*e+z*h)%Z, (x*c+y*f+z*i)%Z. unfold applyRecip. cbn [sg_rot]. v3_unfold. rewrite !plus_IZR, !mult_IZR.
  f_equal; ring.
Qed.
Lemma equivK_scale : forall n u v, equivK u v -> equivK (rvscale (IZR n) u) (rvscale (IZR n) v).
Proof.
  intros n u v [x [y [z E]]]. subst u. destruct v as [p q r]. exists (n*x)%Z, (n*y)%Z, (n*z)%Z. unfold rvscale. v3_unfold. rewrite !mult_IZR. f_equal; ring.
Qed.
Lemma equivK_sub : forall u v u' v', equivK u v -> equivK u' v' -> equivK (rvsub u u') (rvsub v v').
Proof.
  intros u v u' v' [x [y [z E]]] [x' [y' [z' E']]]. subst u u'. destruct v as [p q r], v' as [p' q' r']. exists (x-x')%Z, (y-y')%Z, (z-z')%Z.
  unfold rvsub. v3_unfold. rewrite !minus_IZR. f_equal; ring.
Qed.
Lemma equivK_sym : forall u v, equivK u v -> equivK v u.
Proof. intros u v [x [y [z E]]]. subst u. destruct v as [p q r]. exists (-x)%Z, (-y)%Z, (-z)%Z. cbn. rewrite !opp_IZR. f_equal; ring. Qed.
Lemma recip_scale : forall op c u, applyRecip op (rvscale c u) = rvscale c (applyRecip op u).
Proof. intros op c [p q r]. unfold applyRecip, rvscale. generalize (mIZR (sg_rot op)); intros []. v3_unfold. f_equal; ring. Qed.
Lemma recip_sub : forall op u v, applyRecip op (rvsub u v) = rvsub (applyRecip op u) (applyRecip op v).
Proof. intros op [p q r] [p' q' r']. unfold applyRecip, rvsub. generalize (mIZR (sg_rot op)); intros []. v3_unfold. f_equal; ring. Qed.
Lemma rvscale_scale : forall a b u, rvscale a (rvscale b u) = rvscale (a*b)%R u.
Proof. intros a b [p q r]. unfold rvscale. v3_unfold. f_equal; ring. Qed.
Lemma rvscale_sub : forall a u v, rvscale a (rvsub u v) = rvsub (rvscale a u) (rvscale a v).
Proof. intros a [p q r] [p' q' r']. unfold rvscale, rvsub. v3_unfold. f_equal; ring. Qed.
Lemma rvscale_1 : forall u, rvscale 1%R u = u.
Proof. intros [p q r]. unfold rvscale. v3_unfold. f_equal; ring. Qed.
Lemma recip_id : forall u, applyRecip (SGO zid (V 0 0 0)%R) u = u.
Proof. intros [p q r]. unfold applyRecip, zid. cbn [sg_rot]. v3_unfold. f_equal; ring. Qed.

Lemma net_momentum : forall kiq kjq Ki Kj ki kj,
  unimodular (sg_rot (kt_sym kj)) -> (kt_invert kj = 1 \/ kt_invert kj = -1)%Z ->
  equivK (pairK kiq ki) Ki -> equivK (pairK kjq kj) Kj ->
  equivK (rvsub (pairK kiq (netTransform ki kj)) kjq) (rvscale (IZR (kt_invert kj)) (applyRecip (sgo_inv (kt_sym kj)) (rvsub Ki Kj))).
Proof.
  intros kiq kjq Ki Kj ki kj U I Hi Hj. set (A := sgo_inv (kt_sym kj)). set (n := kt_invert kj) in *.
  rewrite recip_sub, rvscale_sub. apply equivK_sub.
  - assert (pairK kiq (netTransform ki kj) = rvscale (IZR n) (applyRecip A (pairK kiq ki))) as ->.
    { unfold pairK, netTransform. cbn [kt_sym kt_invert]. rewrite mul_recip. fold A. rewrite recip_scale, rvscale_scale, mult_IZR. fold n. f_equal. ring. }
    apply equivK_scale, equivK_lin, Hi.
  - assert (kjq = rvscale (IZR n) (applyRecip A (pairK kjq kj))) as E.
    { unfold pairK. fold n. rewrite recip_scale, rvscale_scale, <- mul_recip. unfold A. rewrite (inv_r _ U), recip_id.
      replace (IZR n * IZR n)%R with 1%R by (destruct I as [->| ->]; cbn; lra). rewrite rvscale_1. reflexivity. }
    rewrite E at 1. apply equivK_scale, equivK_lin, Hj.
Qed.
Lemma net_inverse : forall ki kj, unimodular (sg_rot (kt_sym ki)) -> unimodular (sg_rot (kt_sym kj)) ->
  sgo_mul (kt_sym (netTransform ki kj)) (kt_sym (netTransform kj ki)) = SGO zid (V 0 0 0)%R /\
  sgo_mul (kt_sym (netTransform kj ki)) (kt_sym (netTransform ki kj)) = SGO zid (V 0 0 0)%R /\ kt_invert (netTransform ki kj) = kt_invert (netTransform kj ki).
Proof.
  assert (forall ki kj, unimodular (sg_rot (kt_sym ki)) -> unimodular (sg_rot (kt_sym kj)) ->
    sgo_mul (kt_sym (netTransform ki kj)) (kt_sym (netTransform kj ki)) = SGO zid (V 0 0 0)%R) as G.
  { intros ki kj Ui Uj. unfold netTransform; cbn [kt_sym]. rewrite <- mul_assoc, (mul_assoc (sgo_inv (kt_sym kj))), (inv_l _ Uj), mul_id_l. apply inv_r. exact Ui. }
  intros ki kj Ui Uj. repeat split; [apply G; assumption|apply G; assumption|]. unfold netTransform; cbn. ring.
Qed.

(** ** Counting *)
Lemma add_total : forall thr kt l, kt_multiplicity kt = 1%nat -> totalMultiplicity (fst (addTransform thr kt l)) = S (totalMultiplicity l).
Proof.
  intros thr kt l H. unfold totalMultiplicity. induction l as [|p l IH]; cbn [addTransform].
  - cbn. rewrite H. reflexivity.
  - destruct (kt_eqb thr p kt); [reflexivity|]. cbn [fst map].
    change (kt_multiplicity p + list_sum (map kt_multiplicity (fst (addTransform thr kt l))) = S (kt_multiplicity p + list_sum (map kt_multiplicity l)))%nat. rewrite IH. lia.
Qed.
Lemma add_length : forall thr kt l, length (fst (addTransform thr kt l)) = (length l + snd (addTransform thr kt l))%nat.
Proof.
  intros thr kt l. induction l as [|p l IH]; cbn [addTransform]; [reflexivity|]. destruct (kt_eqb thr p kt); cbn [fst snd length]; [lia|]. rewrite IH. lia.
Qed.
Lemma add_mult_pos : forall thr kt l, kt_multiplicity kt = 1%nat -> (forall p, In p l -> (0 < kt_multiplicity p)%nat) ->
  forall p, In p (fst (addTransform thr kt l)) -> (0 < kt_multiplicity p)%nat.
Proof.
  intros thr kt l Hk. induction l as [|q l IH]; cbn [addTransform]; intros H p Hp.
  - destruct Hp as [<-|[]]. lia.
  - destruct (kt_eqb thr q kt).
    + destruct Hp as [<-|Hp]; [cbn; lia|]. apply H; right; exact Hp.
    + destruct Hp as [<-|Hp]; [apply H; left; reflexivity|]. apply IH; [|exact Hp]. intros; apply H; right; assumption.
Qed.
(** every entry has the operation of an earlier entry or of the new one *)
Lemma add_sound : forall thr kt l (Q : SpaceGroupOp -> Z -> Prop), Q (kt_sym kt) (kt_invert kt) -> (forall p, In p l -> Q (kt_sym p) (kt_invert p)) ->
  forall p, In p (fst (addTransform thr kt l)) -> Q (kt_sym p) (kt_invert p).
Proof.
  intros thr kt l Q Hk. induction l as [|q l IH]; cbn [addTransform]; intros H p Hp.
  - destruct Hp as [<-|[]]. exact Hk.
  - destruct (kt_eqb thr q kt).
    + destruct Hp as [<-|Hp]; [apply (H q); left; reflexivity|]. apply H; right; exact Hp.
    + destruct Hp as [<-|Hp]; [apply H; left; reflexivity|]. apply IH; [|exact Hp]. intros; apply H; right; assumption.
Qed.
Lemma eqb_ops : forall thr p q kt, kt_sym p = kt_sym q -> kt_invert p = kt_invert q -> kt_eqb thr p kt = kt_eqb thr q kt /\ kt_eqb thr kt p = kt_eqb thr kt q.
Proof. intros thr p q kt H1 H2. unfold kt_eqb. rewrite H1, H2. split; reflexivity. Qed.
Lemma circ_refl : forall a, circDistanceSquared a a = 0%R.
Proof. intros. unfold circDistanceSquared, circ1. ring. Qed.
Lemma meqb_refl : forall m, meqb m m = true.
Proof. intros []. unfold meqb; cbn. rewrite !Z.eqb_refl. reflexivity. Qed.
Lemma eqb_refl' : forall thr p, (0 < thr)%R -> kt_eqb thr p p = true.
Proof.
  intros thr p H. unfold kt_eqb. rewrite Z.eqb_refl, meqb_refl, circ_refl. cbn. destruct (Rlt_dec _ _) as [|n]; [reflexivity|]. exfalso; apply n. apply Rmult_lt_0_compat; exact H.
Qed.
Lemma add_complete : forall thr kt l, (0 < thr)%R -> exists p, In p (fst (addTransform thr kt l)) /\ kt_eqb thr p kt = true.
Proof.
  intros thr kt l H. induction l as [|q l IH]; cbn [addTransform].
  - exists kt. split; [left; reflexivity|]. apply eqb_refl'; exact H.
  - destruct (kt_eqb thr q kt) eqn:E.
    + eexists; split; [left; reflexivity|]. rewrite <- E. apply (proj1 (eqb_ops thr _ q kt eq_refl eq_refl)).
    + destruct IH as [p [H1 H2]]. exists p. split; [right; exact H1|exact H2].
Qed.
Lemma add_keeps : forall thr kt l p, In p l -> exists p', In p' (fst (addTransform thr kt l)) /\ kt_sym p' = kt_sym p /\ kt_invert p' = kt_invert p.
Proof.
  intros thr kt l p. induction l as [|q l IH]; [intros []|]. intros [->|H]; cbn [addTransform]; destruct (kt_eqb thr _ kt); cbn [fst].
  - eexists; split; [left; reflexivity|]. cbn. auto.
  - exists p; split; [left; reflexivity|auto].
  - exists p; split; [right; exact H|auto].
  - destruct (IH H) as [p' [H1 H2]]. exists p'; split; [right; exact H1|exact H2].
Qed.
(** no entry matches a later one *)
Inductive distinct (thr : R) : list Ktransform -> Prop :=
| d_nil : distinct thr []
| d_cons : forall p l, (forall q, In q l -> kt_eqb thr p q = false) -> distinct thr l -> distinct thr (p :: l).
Lemma add_distinct : forall thr kt l, distinct thr l -> distinct thr (fst (addTransform thr kt l)).
Proof.
  intros thr kt l H. induction H as [|p l Hp H IH]; cbn [addTransform].
  - constructor; [intros q []|constructor].
  - destruct (kt_eqb thr p kt) eqn:E; cbn [fst].
    + constructor; [|exact H]. intros q Hq. rewrite <- (Hp q Hq). apply (eqb_ops thr _ p q eq_refl eq_refl).
    + constructor; [|exact IH]. intros q Hq.
      assert (forall (G : SpaceGroupOp -> Z -> Prop), (forall x, kt_eqb thr p x = false -> G (kt_sym x) (kt_invert x)) -> G (kt_sym q) (kt_invert q)) as K.
      { intros G HG. apply (add_sound thr kt l G); [apply HG, E|intros x Hx; apply HG, Hp, Hx|exact Hq]. }
      specialize (K (fun s i => kt_eqb thr p (KT s i 0) = false)). cbn beta in K.
      rewrite <- K; [apply (eqb_ops thr q (KT (kt_sym q) (kt_invert q) 0) p eq_refl eq_refl)|].
      intros x Hx. rewrite <- Hx. apply (eqb_ops thr (KT (kt_sym x) (kt_invert x) 0) x p eq_refl eq_refl).
Qed.
