(** Sums, adjoints and interpolation. *)
From Coq Require Import ZArith Reals List Bool Lia Lra Permutation.
From Verif Require Import Base Grid_Model Grid_Spec Grid_Proofs Vec3_Model Vec3_Facts Lattice_Model RealUtil Deriv_Proofs2 Coulomb_Proofs Translate_Model Translate_Spec Translate_Proofs.
Import ListNotations.
Local Open Scope R_scope.

Lemma rsumf_eq : rsumf = rsum. Proof. reflexivity. Qed.
Definition gsum (S : V3) (F : V3 -> R) : R :=
  rsum (zrange 0 (v0 S)) (fun x => rsum (zrange 0 (v1 S)) (fun y => rsum (zrange 0 (v2 S)) (fun z => F (x, y, z)))).
Lemma gsum_ext S F G : pos3 S -> (forall g, r_point S g -> F g = G g) -> gsum S F = gsum S G.
Proof.
  intros P H. unfold gsum. destruct S as [[a b] c]. cbn [v0 v1 v2 fst snd]. apply rsum_ext. intros x Hx. apply rsum_ext. intros y Hy. apply rsum_ext. intros z Hz.
  apply in_zrange in Hx, Hy, Hz. apply H. cbn. lia.
Qed.
Lemma gsum_add S F G : gsum S (fun g => F g + G g) = gsum S F + gsum S G.
Proof.
  unfold gsum. rewrite <- rsum_add. apply rsum_ext. intros x _. rewrite <- rsum_add. apply rsum_ext. intros y _. apply rsum_add.
Qed.
Lemma gsum_scale S k F : gsum S (fun g => k * F g) = k * gsum S F.
Proof.
  unfold gsum. rewrite <- rsum_scale. apply rsum_ext. intros x _. rewrite <- rsum_scale. apply rsum_ext. intros y _. apply rsum_scale.
Qed.
Lemma total_gsum S f : pos3 S -> total S f = gsum S (per S f).
Proof.
  destruct S as [[a b] c]. intros (Pa & Pb & Pc). unfold total, gsum, count. cbn [v0 v1 v2 fst snd]. rewrite rsumf_eq.
  rewrite rsum_mul by nia. rewrite rsum_mul by nia. apply rsum_ext. intros x Hx. apply rsum_ext. intros y Hy. apply rsum_ext. intros z Hz.
  apply in_zrange in Hx, Hy, Hz. unfold per, row_major. cbn [snd]. rewrite !Z.mod_small by lia. reflexivity.
Qed.
(** cyclic shifts *)
Lemma add_perm n k : (0 < n)%Z -> Permutation (map (fun x => (x + k) mod n)%Z (zrange 0 n)) (zrange 0 n).
Proof.
  intros H. apply injective_self_permutation.
  - apply zrange_NoDup.
  - intros x _. apply in_zrange. apply Z.mod_pos_bound. auto.
  - intros x y Hx Hy E. apply in_zrange in Hx, Hy.
    assert (Q : ((x + k - k) mod n = (y + k - k) mod n)%Z) by (rewrite Zminus_mod, E, <- Zminus_mod; reflexivity).
    replace (x + k - k)%Z with x in Q by ring. replace (y + k - k)%Z with y in Q by ring. rewrite !Z.mod_small in Q by lia. exact Q.
Qed.
Lemma rsum_cyc n k f : (0 < n)%Z -> (forall i, f (i mod n)%Z = f i) -> rsum (zrange 0 n) (fun x => f (x + k)%Z) = rsum (zrange 0 n) f.
Proof.
  intros H Pf. rewrite <- (rsum_perm _ _ f (add_perm n k H)). rewrite rsum_map. apply rsum_ext. intros i _. rewrite Pf. reflexivity.
Qed.
Definition periodic (S : V3) (F : V3 -> R) : Prop := forall x y z, F ((x mod v0 S)%Z, (y mod v1 S)%Z, (z mod v2 S)%Z) = F (x, y, z).
Lemma per_periodic S f : pos3 S -> periodic S (per S f).
Proof.
  intros P x y z. apply per_mod; destruct S as [[a b] c]; destruct P as (Pa & Pb & Pc); cbn [v0 v1 v2 fst snd]; apply Z.mod_mod; lia.
Qed.
Lemma gsum_cyc S k F : pos3 S -> periodic S F -> gsum S (fun g => F (plus3 g k)) = gsum S F.
Proof.
  destruct S as [[a b] c], k as [[k0 k1] k2]. intros (Pa & Pb & Pc) Q. unfold periodic in Q. cbn [v0 v1 v2 fst snd] in Q. unfold gsum. cbn [v0 v1 v2 fst snd plus3].
  assert (Q0 : forall x y z, F ((x mod a)%Z, y, z) = F (x, y, z)) by (intros; rewrite <- Q, Z.mod_mod, Q by lia; reflexivity).
  assert (Q1 : forall x y z, F (x, (y mod b)%Z, z) = F (x, y, z)) by (intros; rewrite <- Q, Z.mod_mod, Q by lia; reflexivity).
  assert (Q2 : forall x y z, F (x, y, (z mod c)%Z) = F (x, y, z)) by (intros; rewrite <- Q, Z.mod_mod, Q by lia; reflexivity).
  rewrite (rsum_cyc a k0 (fun x => rsum (zrange 0 b) (fun y => rsum (zrange 0 c) (fun z => F (x, (y + k1)%Z, (z + k2)%Z))))) by (auto; intros; apply rsum_ext; intros; apply rsum_ext; intros; apply Q0).
  apply rsum_ext. intros x _.
  rewrite (rsum_cyc b k1 (fun y => rsum (zrange 0 c) (fun z => F (x, y, (z + k2)%Z)))) by (auto; intros; apply rsum_ext; intros; apply Q1).
  apply rsum_ext. intros y _. apply (rsum_cyc c k2 (fun z => F (x, y, z))); auto.
Qed.
Lemma plus3_assoc a b c : plus3 (plus3 a b) c = plus3 a (plus3 b c).
Proof. destruct a as [[a0 a1] a2], b as [[b0 b1] b2], c as [[e0 e1] e2]. cbn. rewrite !Z.add_assoc. reflexivity. Qed.
Lemma plus_minus3 a b : plus3 (minus3 a b) b = a.
Proof. destruct a as [[a0 a1] a2], b as [[b0 b1] b2]. cbn. rewrite !Z.sub_add. reflexivity. Qed.

(** the corner weights as sums over shifts *)
Lemma gsum_corner S f Z (H : V3 -> V3 -> R) : gsum S (fun g => Z g * corner f (H g)) =
  corner f (fun d => gsum S (fun g => Z g * H g d)).
Proof.
  unfold corner.
  rewrite <- !gsum_scale, <- !gsum_add, <- !gsum_scale, <- !gsum_add, <- !gsum_scale, <- !gsum_add.
  unfold gsum. apply rsum_ext. intros x _. apply rsum_ext. intros y _. apply rsum_ext. intros z _. ring.
Qed.
Lemma corner_ext f F G : (forall d, F d = G d) -> corner f F = corner f G.
Proof. intros H. unfold corner. rewrite !H. reflexivity. Qed.
Lemma corner_const f k : corner f (fun _ => k) = k.
Proof. unfold corner. ring. Qed.
Lemma shifted_total ty S T x : pos3 S -> gsum S (shifted ty S T x) = gsum S (per S x).
Proof.
  intros P. unfold shifted. transitivity (gsum S (fun g => 1 * corner (Tweight ty T) (fun d => per S x (plus3 (plus3 g (Tshift ty T)) d)))).
  { apply gsum_ext; [exact P|]. intros. ring. }
  rewrite gsum_corner. rewrite <- (corner_const (Tweight ty T) (gsum S (per S x))). apply corner_ext. intros d.
  rewrite gsum_scale, Rmult_1_l. rewrite <- (gsum_cyc S (plus3 (Tshift ty T) d) (per S x) P (per_periodic S x P)).
  apply gsum_ext; [exact P|]. intros g _. rewrite plus3_assoc. reflexivity.
Qed.
(** opposite translation *)
Definition lerpw (f : R) (h : Z -> R) : R := (1 - f) * h 0%Z + f * h 1%Z.
Lemma corner_lerp f F : corner f F = lerpw (c0 f) (fun i => lerpw (c1 f) (fun j => lerpw (c2 f) (fun k => F (i, j, k)))).
Proof. reflexivity. Qed.
Lemma lerpw_ext f g h : (forall i, g i = h i) -> lerpw f g = lerpw f h. Proof. intros E. unfold lerpw. rewrite !E. reflexivity. Qed.
Lemma lerp_opp t H : lerpw (- t - IZR (rfloor (- t))) (fun i => H (rfloor (- t) + i)%Z) = lerpw (t - IZR (rfloor t)) (fun i => H (- rfloor t - i)%Z).
Proof.
  assert (B := rfloor_bounds t). unfold lerpw. destruct (Req_dec t (IZR (rfloor t))) as [E|E].
  - assert (Q : rfloor (- t) = (- rfloor t)%Z) by (rewrite E at 1; rewrite <- opp_IZR; apply rfloor_IZR).
    rewrite Q, opp_IZR. replace (- t - - IZR (rfloor t)) with 0 by lra. replace (t - IZR (rfloor t)) with 0 by lra. rewrite Z.add_0_r, Z.sub_0_r. ring.
  - assert (Q : rfloor (- t) = (- rfloor t - 1)%Z). { apply rfloor_unique. rewrite minus_IZR, opp_IZR. lra. }
    rewrite Q, minus_IZR, opp_IZR. replace (- rfloor t - 1 + 0)%Z with (- rfloor t - 1)%Z by ring. replace (- rfloor t - 1 + 1)%Z with (- rfloor t - 0)%Z by ring. ring.
Qed.
Definition oppv (T : vec R) : vec R := V (- c0 T) (- c1 T) (- c2 T).
Lemma shifted_opp ty S T z g : shifted ty S (oppv T) z g = corner (Tweight ty T) (fun d => per S z (minus3 g (plus3 (Tshift ty T) d))).
Proof.
  unfold shifted. destruct g as [[p q] r]. destruct T as [t0 t1 t2]. unfold oppv. cbn [c0 c1 c2]. destruct ty; cbn [Tweight Tshift c0 c1 c2].
  - rewrite !roundSym_odd. unfold corner. cbn [c0 c1 c2 plus3 minus3].
    replace (p + - roundSym t0 + 0)%Z with (p - (roundSym t0 + 0))%Z by ring. replace (q + - roundSym t1 + 0)%Z with (q - (roundSym t1 + 0))%Z by ring. replace (r + - roundSym t2 + 0)%Z with (r - (roundSym t2 + 0))%Z by ring. ring.
  - rewrite !corner_lerp. cbn [c0 c1 c2 plus3 minus3].
    set (w1 := - t1 - IZR (rfloor (- t1))). set (w2 := - t2 - IZR (rfloor (- t2))).
    set (H0 := fun i' => lerpw w1 (fun j => lerpw w2 (fun k => per S z (p + i', q + rfloor (- t1) + j, r + rfloor (- t2) + k)%Z))).
    transitivity (lerpw (- t0 - IZR (rfloor (- t0))) (fun i => H0 (rfloor (- t0) + i)%Z)).
    { apply lerpw_ext. intros i. unfold H0. rewrite Z.add_assoc. reflexivity. }
    rewrite (lerp_opp t0 H0). apply lerpw_ext. intros i. unfold H0.
    set (H1 := fun j' => lerpw w2 (fun k => per S z (p + (- rfloor t0 - i), q + j', r + rfloor (- t2) + k)%Z)).
    transitivity (lerpw w1 (fun j => H1 (rfloor (- t1) + j)%Z)).
    { apply lerpw_ext. intros j. unfold H1. rewrite Z.add_assoc. reflexivity. }
    unfold w1. rewrite (lerp_opp t1 H1). apply lerpw_ext. intros j. unfold H1.
    set (H2 := fun k' => per S z (p + (- rfloor t0 - i), q + (- rfloor t1 - j), r + k')%Z).
    transitivity (lerpw w2 (fun k => H2 (rfloor (- t2) + k)%Z)).
    { apply lerpw_ext. intros k. unfold H2. rewrite Z.add_assoc. reflexivity. }
    unfold w2. rewrite (lerp_opp t2 H2). apply lerpw_ext. intros k. unfold H2. f_equal. f_equal; [f_equal|]; ring.
Qed.
Lemma shifted_adjoint ty S T x z : pos3 S -> gsum S (fun g => per S z g * shifted ty S T x g) = gsum S (fun g => per S x g * shifted ty S (oppv T) z g).
Proof.
  intros P. transitivity (gsum S (fun g => per S x g * corner (Tweight ty T) (fun d => per S z (minus3 g (plus3 (Tshift ty T) d))))).
  2: { apply gsum_ext; [exact P|]. intros g _. rewrite shifted_opp. reflexivity. }
  unfold shifted. rewrite !gsum_corner. apply corner_ext. intros d. set (k := plus3 (Tshift ty T) d).
  rewrite <- (gsum_cyc S k (fun g => per S x g * per S z (minus3 g k)) P).
  - apply gsum_ext; [exact P|]. intros g _. rewrite plus3_assoc. fold k. rewrite Rmult_comm. do 2 f_equal. destruct g as [[p q] r], k as [[k0 k1] k2]. cbn. f_equal; [f_equal|]; ring.
  - intros a b c. rewrite (per_periodic S x P a b c). f_equal. apply per_mod; destruct S as [[s0 s1] s2]; destruct P as (P0 & P1 & P2); destruct k as [[k0 k1] k2]; cbn [v0 v1 v2 fst snd minus3]; apply Zminus_mod_idemp_l.
Qed.
