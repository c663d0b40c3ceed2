(** Space groups acting on the reciprocal lattice points of a mesh (C35). *)
From Coq Require Import ZArith Reals List Bool Lia Lra Permutation.
From Coquelicot Require Import Complex.
From Verif Require Import Base Grid_Model Grid_Spec Grid_Proofs Vec3_Model Vec3_Facts IntUtil_Model IntUtil_Proofs Sym_Model Sym_Spec Sym_Proofs.
Import ListNotations.
Open Scope R_scope.

(** *** Phases *)
Lemma cis_add x y : cis (x + y) = Cmult (cis x) (cis y).
Proof. unfold cis, Cmult. cbn. rewrite cos_plus, sin_plus. f_equal; ring. Qed.
Lemma cis_0 : cis 0 = RtoC 1.
Proof. unfold cis, RtoC. rewrite cos_0, sin_0. auto. Qed.
Lemma cis_nat (k : nat) x : cis (x + 2 * INR k * PI) = cis x.
Proof. unfold cis. rewrite cos_period, sin_period. auto. Qed.
Lemma cis_period (k : Z) x : cis (x + 2 * PI * IZR k) = cis x.
Proof.
  destruct (Z_lt_le_dec k 0).
  - rewrite <- (cis_nat (Z.to_nat (- k)) (x + 2 * PI * IZR k)). f_equal. rewrite INR_IZR_INZ, Z2Nat.id by lia. rewrite opp_IZR. ring.
  - rewrite <- (cis_nat (Z.to_nat k) x). f_equal. rewrite INR_IZR_INZ, Z2Nat.id by lia. ring.
Qed.
Lemma cis_shift x y k : x - y = 2 * PI * IZR k -> cis x = cis y.
Proof. intros H. replace x with (y + 2 * PI * IZR k) by lra. apply cis_period. Qed.
Lemma cis_conj x : Cconj (cis x) = cis (- x).
Proof. unfold Cconj, cis. cbn. rewrite cos_neg, sin_neg. auto. Qed.
Lemma cis_unit x : Cmult (Cconj (cis x)) (cis x) = RtoC 1.
Proof. rewrite cis_conj, <- cis_add. replace (- x + x) with 0 by ring. apply cis_0. Qed.

(** *** Lattice vectors *)
Lemma latt_refl x : lattice_equal x x.
Proof. exists (V 0 0 0)%Z. destruct x. v3_unfold. f_equal; ring. Qed.
Lemma latt_sym x y : lattice_equal x y -> lattice_equal y x.
Proof. intros (t&E). exists (zvopp t). destruct x, y, t. v3_unfold. injection E as E0 E1 E2. f_equal; rewrite opp_IZR; lra. Qed.
Lemma latt_trans x y z : lattice_equal x y -> lattice_equal y z -> lattice_equal x z.
Proof. intros (t&E) (u&F). exists (zvadd t u). destruct x, y, z, t, u. v3_unfold. injection E as E0 E1 E2. injection F as F0 F1 F2. f_equal; rewrite plus_IZR; lra. Qed.
Lemma latt_add x y z : lattice_equal x y -> lattice_equal (rvadd x z) (rvadd y z).
Proof. intros (t&E). exists t. rewrite <- E. v3_ring. Qed.
Lemma latt_mv m x y : lattice_equal x y -> lattice_equal (rmv (mIZR m) x) (rmv (mIZR m) y).
Proof. intros (t&E). exists (zmv m t). rewrite vIZR_mv, <- E. v3_ring. Qed.

(** *** Composition of operations *)
Definition ap (p : SpaceGroupOp) (x : vec R) : vec R := rvadd (rmv (mIZR (sg_rot p)) x) (sg_a p).
Lemma int_small (d : Z) : (forall N : Z, (0 < N)%Z -> exists q : Z, IZR d / IZR N = IZR q) -> d = 0%Z.
Proof.
  intros H. destruct (H (Z.abs d + 1)%Z) as (q&E); [lia|]. assert (P : 0 < IZR (Z.abs d + 1)) by (apply IZR_lt; lia).
  assert (IZR d = IZR (q * (Z.abs d + 1))). { rewrite mult_IZR, <- E. field. lra. } apply eq_IZR in H0.
  destruct (Z.eq_dec q 0) as [->|Hq]; [lia|]. exfalso. assert (A : Z.abs d = (Z.abs q * (Z.abs d + 1))%Z) by (rewrite H0 at 1; rewrite Z.abs_mul; lia).
  assert (1 <= Z.abs q)%Z by lia. generalize (Z.abs_nonneg d). intros. nia.
Qed.
(** an integer matrix that maps all vectors to lattice vectors, up to a constant, is zero *)
Lemma mat_zero (a b : mat Z) (u v : vec R) : (forall x, lattice_equal (rvadd (rmv (mIZR a) x) u) (rvadd (rmv (mIZR b) x) v)) -> a = b /\ lattice_equal u v.
Proof.
  intros H. assert (H0 : lattice_equal u v). { destruct (H (V 0 0 0)) as (t&E). exists t. rewrite <- E. v3_ring. }
  split; auto. destruct H0 as (t0&E0).
  assert (G : forall x, exists t, rvsub (rmv (mIZR a) x) (rmv (mIZR b) x) = vIZR t).
  { intros x. destruct (H x) as (t&E). exists (zvsub t t0). destruct x, a, b, u, v, t, t0. v3_unfold. injection E as E1 E2 E3. injection E0 as F1 F2 F3.
    f_equal; rewrite minus_IZR; lra. }
  assert (K : forall (d : Z) (f : Z -> vec R) (pr : vec R -> R) (pz : vec Z -> Z), (forall t, pr (vIZR t) = IZR (pz t)) ->
     (forall N, (0 < N)%Z -> pr (rvsub (rmv (mIZR a) (f N)) (rmv (mIZR b) (f N))) = IZR d / IZR N) -> d = 0%Z).
  { intros d f pr pz Hp Hf. apply int_small. intros N HN. destruct (G (f N)) as (t&E). exists (pz t). rewrite <- Hf by auto. rewrite E. apply Hp. }
  destruct a, b.
  assert (C : forall x y, (x - y = 0 -> x = y)%Z) by (intros; lia).
  f_equal; apply C.
  - eapply (K _ (fun N => V (/ IZR N) 0 0) c0 c0); [reflexivity|]. intros N HN. v3_unfold. rewrite minus_IZR. field. apply not_0_IZR. lia.
  - eapply (K _ (fun N => V 0 (/ IZR N) 0) c0 c0); [reflexivity|]. intros N HN. v3_unfold. rewrite minus_IZR. field. apply not_0_IZR. lia.
  - eapply (K _ (fun N => V 0 0 (/ IZR N)) c0 c0); [reflexivity|]. intros N HN. v3_unfold. rewrite minus_IZR. field. apply not_0_IZR. lia.
  - eapply (K _ (fun N => V (/ IZR N) 0 0) c1 c1); [reflexivity|]. intros N HN. v3_unfold. rewrite minus_IZR. field. apply not_0_IZR. lia.
  - eapply (K _ (fun N => V 0 (/ IZR N) 0) c1 c1); [reflexivity|]. intros N HN. v3_unfold. rewrite minus_IZR. field. apply not_0_IZR. lia.
  - eapply (K _ (fun N => V 0 0 (/ IZR N)) c1 c1); [reflexivity|]. intros N HN. v3_unfold. rewrite minus_IZR. field. apply not_0_IZR. lia.
  - eapply (K _ (fun N => V (/ IZR N) 0 0) c2 c2); [reflexivity|]. intros N HN. v3_unfold. rewrite minus_IZR. field. apply not_0_IZR. lia.
  - eapply (K _ (fun N => V 0 (/ IZR N) 0) c2 c2); [reflexivity|]. intros N HN. v3_unfold. rewrite minus_IZR. field. apply not_0_IZR. lia.
  - eapply (K _ (fun N => V 0 0 (/ IZR N)) c2 c2); [reflexivity|]. intros N HN. v3_unfold. rewrite minus_IZR. field. apply not_0_IZR. lia.
Qed.
Lemma composes_alg p q r : composes p q r <-> sg_rot r = zmm (sg_rot p) (sg_rot q) /\ lattice_equal (sg_a r) (rvadd (rmv (mIZR (sg_rot p)) (sg_a q)) (sg_a p)).
Proof.
  split.
  - intros H. apply mat_zero. intros x. specialize (H x (ap q x) (ap p (ap q x)) (latt_refl _) (latt_refl _)). unfold acts, ap in H.
    destruct H as (t&E). exists t. rewrite <- E. rewrite mIZR_mm. v3_ring.
  - intros (E&A) x y z H1 H2. unfold acts in *. rewrite E, mIZR_mm.
    eapply latt_trans; [|exact H2]. 
    eapply latt_trans; [|apply latt_add; apply latt_mv; exact H1].
    rewrite rmv_mm, rmv_add. destruct A as (t&A). exists t. rewrite <- A. v3_ring.
Qed.
Lemma neutral_alg e : neutral e <-> sg_rot e = zid /\ lattice_equal (sg_a e) (V 0 0 0).
Proof.
  split.
  - intros H. apply mat_zero. intros x. destruct (H x) as (t&E). exists t. rewrite <- E, mIZR_id. v3_ring.
  - intros (E&(t&A)) x. unfold acts. exists t. rewrite <- A, E, mIZR_id. v3_ring.
Qed.

Lemma F2_length {A B} (R : A -> B -> Prop) l l' : Forall2 R l l' -> length l = length l'.
Proof. induction 1; cbn; auto. Qed.
(** a total injective relation on the operations permutes them *)
Lemma permute_by {T} (same Rel : T -> T -> Prop) (ops : list T) : ForallOrdPairs (fun p q => ~ same p q) ops -> (forall p, same p p) ->
  (forall q, In q ops -> exists r, In r ops /\ Rel q r) -> (forall q q' r, In q ops -> In q' ops -> Rel q r -> Rel q' r -> same q q') ->
  exists l, Permutation l ops /\ Forall2 Rel ops l.
Proof.
  intros DI RF TOT INJ.
  assert (H : forall sub, (forall q, In q sub -> In q ops) -> ForallOrdPairs (fun p q => ~ same p q) sub ->
    exists l, Forall2 Rel sub l /\ NoDup l /\ (forall r, In r l -> In r ops /\ exists q, In q sub /\ Rel q r)).
  { induction sub as [|q sub IH]; intros Hs Hd.
    - exists []. split; [constructor|]. split; [constructor|]. intros r [].
    - inversion Hd as [|? ? Hq Hd']; subst. destruct IH as (l&F&N&I); auto. { intros; apply Hs; right; auto. }
      destruct (TOT q (Hs q (or_introl eq_refl))) as (r&Hr&E). exists (r :: l). split; [constructor; auto|]. split.
      + constructor; auto. intros Hi. destruct (I r Hi) as (_&q'&Hq'&E'). rewrite Forall_forall in Hq. apply (Hq q' Hq'). apply (INJ q q' r); auto.
        * apply Hs. left. auto. * apply Hs. right. auto.
      + intros r' [<-|Hi]; [split; auto; exists q; split; [left|]; auto|]. destruct (I r' Hi) as (A&q'&B&C). split; auto. exists q'. split; [right|]; auto. }
  destruct (H ops (fun _ h => h) DI) as (l&F&N&I). exists l. split; auto. apply NoDup_Permutation_bis; auto.
  - pose proof (F2_length _ _ _ F). lia. - intros r Hr. apply I. auto.
Qed.
Lemma mul_permutes sym p : space_group sym -> In p sym -> exists l, Permutation l sym /\ Forall2 (fun q r => composes p q r) sym l.
Proof.
  intros G Hp. apply (permute_by same_op); [apply (gr_distinct _ G)| |intros q Hq; apply (gr_compose _ G); auto|].
  - intros q. split; auto. apply latt_refl.
  - intros q q' r Hq Hq' H H'. apply composes_alg in H, H'. destruct H as (E&A), H' as (E'&A').
    destruct (gr_inverse _ G p Hp) as (pi&e&_&_&N&_&I). apply composes_alg in I. destruct I as (I&_). apply neutral_alg in N. destruct N as (N&_). rewrite N in I.
    split.
    + rewrite <- (zmm_id_l (sg_rot q)), <- (zmm_id_l (sg_rot q')), I, <- !zmm_assoc. congruence.
    + assert (X : lattice_equal (rmv (mIZR (sg_rot p)) (sg_a q)) (rmv (mIZR (sg_rot p)) (sg_a q'))).
      { pose proof (latt_trans _ _ _ (latt_sym _ _ A) A') as (t&X). exists t. rewrite <- X. v3_ring. }
      apply (latt_mv (sg_rot pi)) in X. rewrite <- !rmv_mm, <- mIZR_mm, <- I, mIZR_id, !rmv_id in X. auto.
Qed.
Lemma zmm_scale s a b : zmm a (zmscale s b) = zmscale s (zmm a b). Proof. v3_ring. Qed.
Lemma unit_det a c : zid = zmm a c -> zdet c = 1%Z \/ zdet c = (-1)%Z.
Proof. intros Ha. assert (Y : (zdet c * zdet a = 1)%Z) by (rewrite Z.mul_comm, <- zdet_mm, <- Ha; reflexivity). apply Z.mul_eq_1 in Y. lia. Qed.
Lemma zinv_unique a b c : zid = zmm a c -> zid = zmm b c -> a = b.
Proof.
  intros Ha Hb. pose proof (unit_det a c Ha) as Dc.
  assert (Hc : zmm c (zmscale (zdet c) (zadj c)) = zid). { rewrite zmm_scale, zadj_r. destruct Dc as [->| ->]; reflexivity. }
  rewrite <- (zmm_id_r a), <- (zmm_id_r b), <- Hc, !zmm_assoc, <- Ha, <- Hb. auto.
Qed.
Lemma inv_permutes_e sym : space_group sym -> exists l, Permutation l sym /\ Forall2 (fun p r => exists e, neutral e /\ composes p r e) sym l.
Proof.
  intros G. apply (permute_by same_op (fun p r => exists e, neutral e /\ composes p r e) sym).
  - apply (gr_distinct _ G). - intros q. split; auto. apply latt_refl.
  - intros p Hp. destruct (gr_inverse _ G p Hp) as (q&e&Hq&_&N&C&_). exists q. split; auto. exists e. auto.
  - intros q q' r _ _ (e&N&C) (e'&N'&C'). apply composes_alg in C, C'. apply neutral_alg in N, N'. destruct C as (E&A), C' as (E'&A'), N as (N&Na), N' as (N'&Na').
    rewrite N in E. rewrite N' in E'.
    assert (Eq : sg_rot q = sg_rot q') by (apply (zinv_unique _ _ (sg_rot r)); auto). split; auto.
    rewrite Eq in A. assert (X := latt_trans _ _ _ (latt_trans _ _ _ (latt_sym _ _ A) Na) (latt_trans _ _ _ (latt_sym _ _ Na') A')).
    destruct X as (t&X). exists t. rewrite <- X. v3_ring.
Qed.
Lemma inv_permutes sym : space_group sym -> exists l, Permutation l sym /\ Forall2 (fun p r => zmm (sg_rot p) (sg_rot r) = zid) sym l.
Proof.
  intros G. destruct (inv_permutes_e sym G) as (l&P&F). exists l. split; auto. clear -F. induction F as [|x y l l' H F IH]; constructor; auto. destruct H as (e&N&C). apply composes_alg in C. apply neutral_alg in N. destruct C as (E&_), N as (N&_). congruence.
Qed.

(** *** Action on the mesh of reciprocal lattice points *)
Definition congS (S : V3) (u v : vec Z) : Prop := exists t : vec Z, u = zvadd v (V (v0 S * c0 t) (v1 S * c1 t) (v2 S * c2 t))%Z.
Lemma cong_refl S u : congS S u u.
Proof. exists (V 0 0 0)%Z. destruct u. v3_unfold. f_equal; lia. Qed.
Lemma cong_trans S u v w : congS S u v -> congS S v w -> congS S u w.
Proof. intros (t&->) (t'&->). exists (zvadd t t'). destruct w, t, t'. v3_unfold. f_equal; lia. Qed.
Lemma cong_sym S u v : congS S u v -> congS S v u.
Proof. intros (t&->). exists (zvopp t). destruct v, t. v3_unfold. f_equal; lia. Qed.
Definition fromV (v : vec Z) : V3 := (c0 v, c1 v, c2 v).
Definition row (S : V3) (v : vec Z) : Z := row_major S (v2 S) (fromV v).
Lemma row_cong S u v : pos3 S -> (row S u = row S v <-> congS S u v).
Proof.
  destruct S as ((a,b),c). intros (Ha&Hb&Hc). unfold row, row_major, fromV, congS. cbn [v0 v1 v2 fst snd]. split.
  - intros E. assert (X := flat_unique b c (c0 u mod a) (c1 u mod b) (c2 u mod c) (c0 v mod a) (c1 v mod b) (c2 v mod c) Hb Hc).
    destruct X as (E0&E1&E2); try apply Z.mod_pos_bound; auto.
    exists (V (c0 u / a - c0 v / a) (c1 u / b - c1 v / b) (c2 u / c - c2 v / c))%Z. apply vec_ext; v3_unfold.
    + pose proof (Z.div_mod (c0 u) a ltac:(lia)). pose proof (Z.div_mod (c0 v) a ltac:(lia)). lia.
    + pose proof (Z.div_mod (c1 u) b ltac:(lia)). pose proof (Z.div_mod (c1 v) b ltac:(lia)). lia.
    + pose proof (Z.div_mod (c2 u) c ltac:(lia)). pose proof (Z.div_mod (c2 v) c ltac:(lia)). lia.
  - intros (t&->). destruct v as [x y z], t as [p q r]. v3_unfold. rewrite (Z.mul_comm a p), (Z.mul_comm b q), (Z.mul_comm c r), !Z_mod_plus_full. auto.
Qed.
Definition gp (S : V3) (i : Z) : vec Z := toV (fullG_init S i).
Lemma fromV_toV g : fromV (toV g) = g.
Proof. destruct g as ((a,b),c). auto. Qed.
Lemma row_gp S i : pos3 S -> (0 <= i < nr S)%Z -> row S (gp S i) = i.
Proof. intros H Hi. unfold row, gp. rewrite fromV_toV. apply (fullG_init_spec S i H Hi). Qed.
Lemma gp_row S v : pos3 S -> congS S (gp S (row S v)) v.
Proof. intros H. apply row_cong; auto. apply row_gp; auto. apply full_row_range; auto. Qed.
(** an operation that fits the mesh respects congruence *)
Lemma cong_vm S p u v : fits_mesh S p -> congS S u v -> congS S (zvm u (sg_rot p)) (zvm v (sg_rot p)).
Proof.
  intros (F&_) (t&->). 
  destruct (F 0%nat 0%nat) as (q00&E00); try lia. destruct (F 0%nat 1%nat) as (q01&E01); try lia. destruct (F 0%nat 2%nat) as (q02&E02); try lia.
  destruct (F 1%nat 0%nat) as (q10&E10); try lia. destruct (F 1%nat 1%nat) as (q11&E11); try lia. destruct (F 1%nat 2%nat) as (q12&E12); try lia.
  destruct (F 2%nat 0%nat) as (q20&E20); try lia. destruct (F 2%nat 1%nat) as (q21&E21); try lia. destruct (F 2%nat 2%nat) as (q22&E22); try lia.
  exists (V (c0 t * q00 + c1 t * q10 + c2 t * q20) (c0 t * q01 + c1 t * q11 + c2 t * q21) (c0 t * q02 + c1 t * q12 + c2 t * q22))%Z.
  cbn [S_at] in *. destruct (sg_rot p) as [r00 r01 r02 r10 r11 r12 r20 r21 r22], v as [x y z], t as [t0 t1 t2]. unfold mget, mrow, vget, row0, row1, row2 in *. v3_unfold.
  f_equal.
  - transitivity ((x * r00 + y * r10 + z * r20) + (t0 * (v0 S * r00) + t1 * (v1 S * r10) + t2 * (v2 S * r20)))%Z; [ring|]. rewrite E00, E10, E20. ring.
  - transitivity ((x * r01 + y * r11 + z * r21) + (t0 * (v0 S * r01) + t1 * (v1 S * r11) + t2 * (v2 S * r21)))%Z; [ring|]. rewrite E01, E11, E21. ring.
  - transitivity ((x * r02 + y * r12 + z * r22) + (t0 * (v0 S * r02) + t1 * (v1 S * r12) + t2 * (v2 S * r22)))%Z; [ring|]. rewrite E02, E12, E22. ring.
Qed.
(** ... and its phases too *)
Definition phase (v : vec Z) (p : SpaceGroupOp) : C := cis (-2 * PI * rdot (vIZR v) (sg_a p)).
Lemma phase_cong S p u v : fits_mesh S p -> congS S u v -> phase u p = phase v p.
Proof.
  intros (_&F) (t&->). destruct (F 0%nat) as (q0&E0); try lia. destruct (F 1%nat) as (q1&E1); try lia. destruct (F 2%nat) as (q2&E2); try lia.
  unfold phase. apply (cis_shift _ _ (- (c0 t * q0 + c1 t * q1 + c2 t * q2))). cbn [S_at vget] in *. destruct (sg_a p) as [a0 a1 a2], v as [x y z], t as [t0 t1 t2]. v3_unfold.
  rewrite opp_IZR, !plus_IZR, !mult_IZR, <- E0, <- E1, <- E2. ring.
Qed.
Lemma phase_latt v p q : sg_rot p = sg_rot q -> lattice_equal (sg_a p) (sg_a q) -> phase v p = phase v q.
Proof.
  intros _ (t&E). unfold phase. apply (cis_shift _ _ (- zdot v t)). destruct (sg_a p), (sg_a q), v, t. v3_unfold. injection E as E0 E1 E2.
  rewrite opp_IZR, !plus_IZR, !mult_IZR, <- E0, <- E1, <- E2. ring.
Qed.
Lemma phase_composes v p q r : composes p q r -> phase v r = Cmult (phase v p) (phase (zvm v (sg_rot p)) q).
Proof.
  intros H. apply composes_alg in H. destruct H as (E&(t&A)). unfold phase. rewrite <- cis_add.
  apply (cis_shift _ _ (- zdot v t)). destruct (sg_rot p), (sg_a p), (sg_a q), (sg_a r), v, t. v3_unfold. injection A as A0 A1 A2.
  rewrite opp_IZR, !plus_IZR, !mult_IZR, <- A0, <- A1, <- A2. ring.
Qed.
Lemma phase_unit v p : Cmult (Cconj (phase v p)) (phase v p) = RtoC 1.
Proof. apply cis_unit. Qed.
Definition act (S : V3) (i : Z) (p : SpaceGroupOp) : Z := row S (zvm (gp S i) (sg_rot p)).
Definition inD (S : V3) (i : Z) : Prop := (0 <= i < nr S)%Z.
Lemma act_in S i p : pos3 S -> inD S (act S i p).
Proof. intros H. apply full_row_range; auto. Qed.
Lemma zvm_mm v a b : zvm v (zmm a b) = zvm (zvm v a) b. Proof. v3_ring. Qed.
Lemma zvm_id v : zvm v zid = v. Proof. v3_ring. Qed.
Lemma act_act S i p q : pos3 S -> fits_mesh S q -> act S (act S i p) q = row S (zvm (gp S i) (zmm (sg_rot p) (sg_rot q))).
Proof. intros H Fq. unfold act at 1. apply row_cong; auto. rewrite zvm_mm. apply cong_vm; auto. apply gp_row; auto. Qed.
Lemma act_composes S i p q r : pos3 S -> fits_mesh S q -> composes p q r -> act S i r = act S (act S i p) q.
Proof. intros H Fq C. rewrite act_act by auto. unfold act. apply composes_alg in C. destruct C as (->&_). auto. Qed.
Lemma phase_act S i p q : pos3 S -> fits_mesh S q -> phase (gp S (act S i p)) q = phase (zvm (gp S i) (sg_rot p)) q.
Proof. intros H Fq. apply (phase_cong S); auto. apply gp_row; auto. Qed.
