(** Inner products of half-space fields (C66). *)
From Coq Require Import ZArith Reals List Bool Lia Lra Permutation.
From Coquelicot Require Import Complex.
From Verif Require Import Base Grid_Model Grid_Spec Grid_Proofs Convert_Model Convert_Spec Convert_Proofs Deriv_Model Deriv_Spec Deriv_Proofs.
Import ListNotations.
Open Scope R_scope.

Fixpoint rsum (l : list Z) (f : Z -> R) : R := match l with [] => 0 | i :: l' => f i + rsum l' f end.
Lemma rsum_app l l' f : rsum (l ++ l') f = rsum l f + rsum l' f. Proof. induction l; cbn; lra. Qed.
Lemma rsum_ext l f g : (forall i, In i l -> f i = g i) -> rsum l f = rsum l g.
Proof. induction l as [|a l IH]; cbn; intros H; auto. rewrite (H a), IH; auto. Qed.
Lemma rsum_add l f g : rsum l (fun i => f i + g i) = rsum l f + rsum l g. Proof. induction l; cbn; lra. Qed.
Lemma rsum_scale l c f : rsum l (fun i => c * f i) = c * rsum l f. Proof. induction l; cbn; lra. Qed.
Lemma rsum_zero l : rsum l (fun _ => 0) = 0. Proof. induction l; cbn; lra. Qed.
Lemma rsum_perm l l' f : Permutation l l' -> rsum l f = rsum l' f. Proof. induction 1; cbn; lra. Qed.
Lemma rsum_map l h f : rsum (map h l) f = rsum l (fun i => f (h i)). Proof. induction l; cbn; congruence. Qed.
Lemma rsum_swap l l' f : rsum l (fun i => rsum l' (fun j => f i j)) = rsum l' (fun j => rsum l (fun i => f i j)).
Proof. induction l as [|a l IH]; cbn; [rewrite rsum_zero; auto|]. rewrite IH, <- rsum_add. auto. Qed.
Lemma rsum_shift n m f : rsum (zrange n m) f = rsum (zrange 0 (m - n)) (fun i => f (n + i)%Z).
Proof.
  rewrite <- (rsum_map _ (fun i => (n + i)%Z) f). f_equal. unfold zrange. rewrite map_map. rewrite Z.sub_0_r. apply map_ext. intros. lia.
Qed.
Lemma rsum_mul n m f : (0 <= m)%Z -> (0 <= n)%Z -> rsum (zrange 0 (n * m)) f = rsum (zrange 0 n) (fun i => rsum (zrange 0 m) (fun j => f (i * m + j)%Z)).
Proof.
  intros Hm. revert n. apply natlike_ind; [rewrite Z.mul_0_l, zrange_nil by lia; auto|]. intros k Hk IH.
  rewrite <- (zrange_app 0 (k * m) (Z.succ k * m)) by nia. rewrite rsum_app, IH by auto. rewrite <- (zrange_app 0 k (Z.succ k)) by lia. rewrite rsum_app.
  rewrite (zrange_cons k (Z.succ k)) by lia. rewrite (zrange_nil (k + 1)) by lia. cbn [rsum]. rewrite (rsum_shift (k * m)). replace (Z.succ k * m - k * m)%Z with m by lia. lra.
Qed.
Lemma Re_zsum l f : Re (zsum l f) = rsum l (fun i => Re (f i)). Proof. induction l as [|a l IH]; cbn; auto. rewrite <- IH. auto. Qed.
Lemma Re_csum l f : Re (csum l f) = fold_right (fun g acc => Re (f g) + acc) 0 l. Proof. induction l as [|a l IH]; cbn; auto. rewrite <- IH. auto. Qed.
Lemma Im_csum l f : Im (csum l f) = fold_right (fun g acc => Im (f g) + acc) 0 l. Proof. induction l as [|a l IH]; cbn; auto. rewrite <- IH. auto. Qed.
Lemma fold_app {A} (l l' : list A) (f : A -> R) : fold_right (fun g acc => f g + acc) 0 (l ++ l') = fold_right (fun g acc => f g + acc) 0 l + fold_right (fun g acc => f g + acc) 0 l'.
Proof. induction l; cbn; lra. Qed.
Lemma fold_full S f : fold_right (fun g acc => f g + acc) 0 (full_grid S) =
  rsum (zrange 0 (v0 S)) (fun x => rsum (zrange 0 (v1 S)) (fun y => rsum (zrange 0 (v2 S)) (fun z => f (x,y,z)))).
Proof.
  destruct S as ((a,b),c). unfold full_grid. cbn [v0 v1 v2 fst snd]. induction (zrange 0 a) as [|x l IH]; cbn; auto. rewrite fold_app, IH. f_equal. clear.
  induction (zrange 0 b) as [|y l IH]; cbn; auto. rewrite fold_app, IH. f_equal. clear. induction (zrange 0 c) as [|z l IH]; cbn; auto. rewrite IH. auto.
Qed.
Lemma neg_perm n : (0 < n)%Z -> Permutation (map (fun x => (- x) mod n)%Z (zrange 0 n)) (zrange 0 n).
Proof.
  intros H. apply injective_self_permutation.
  - apply zrange_NoDup.
  - intros x _. apply in_zrange. apply Z.mod_pos_bound. auto.
  - intros x y Hx Hy E. apply in_zrange in Hx, Hy. apply mod_opp_cong in E; auto. rewrite !Z.opp_involutive, !Z.mod_small in E by lia. auto.
Qed.
Lemma rsum_neg n f : (0 < n)%Z -> rsum (zrange 0 n) f = rsum (zrange 0 n) (fun x => f ((- x) mod n)%Z).
Proof. intros H. rewrite <- (rsum_map _ (fun x => ((- x) mod n)%Z) f). symmetry. apply rsum_perm, neg_perm, H. Qed.

(** a function of the grid points, periodic and even *)
Section Even.
Variables (S : V3) (F : V3 -> R).
Hypothesis HS : pos3 S.
Hypothesis Fper : forall g g', same_mod S g g' -> F g = F g'.
Definition plane (z : Z) : R := rsum (zrange 0 (v0 S)) (fun x => rsum (zrange 0 (v1 S)) (fun y => F (x,y,z))).
Lemma plane_neg (sg : R) : (forall g, F (neg3 g) = sg * F g) -> forall z, plane (- z) = sg * plane z.
Proof.
  intros Fev z. unfold plane. destruct S as ((a,b),c). destruct HS as (Ha&Hb&Hc). cbn [v0 v1 v2 fst snd] in *. rewrite (rsum_neg a) by auto. rewrite <- rsum_scale. apply rsum_ext. intros x _.
  rewrite (rsum_neg b) by auto. rewrite <- rsum_scale. apply rsum_ext. intros y _. rewrite <- Fev. apply Fper. cbn. rewrite !Z.mod_mod by lia. auto.
Qed.
Lemma plane_per z z' : (z mod v2 S = z' mod v2 S)%Z -> plane z = plane z'.
Proof. intros E. unfold plane. apply rsum_ext. intros x _. apply rsum_ext. intros y _. apply Fper. destruct S as ((a,b),c). cbn in *. auto. Qed.
Lemma full_planes : rsum (zrange 0 (v0 S)) (fun x => rsum (zrange 0 (v1 S)) (fun y => rsum (zrange 0 (v2 S)) (fun z => F (x,y,z)))) = rsum (zrange 0 (v2 S)) plane.
Proof. unfold plane. rewrite (rsum_swap (zrange 0 (v2 S))). apply rsum_ext. intros x _. apply rsum_swap. Qed.
Lemma odd_zero : (forall g, F (neg3 g) = (-1) * F g) -> rsum (zrange 0 (v2 S)) plane = 0.
Proof.
  intros Fodd. assert (Hc : (0 < v2 S)%Z) by (destruct S as ((a,b),c); destruct HS as (?&?&?); auto).
  assert (E : rsum (zrange 0 (v2 S)) plane = - rsum (zrange 0 (v2 S)) plane); [|lra]. rewrite rsum_neg at 1 by auto.
  replace (- rsum (zrange 0 (v2 S)) plane) with ((-1) * rsum (zrange 0 (v2 S)) plane) by ring. rewrite <- rsum_scale. apply rsum_ext. intros z _. rewrite <- (plane_neg (-1)) by auto. apply plane_per. apply Z.mod_mod. lia.
Qed.
Lemma even_half m : (v2 S = 2 * m)%Z -> (forall g, F (neg3 g) = 1 * F g) -> rsum (zrange 0 (v2 S)) plane = 2 * rsum (zrange 0 (m + 1)) plane - plane 0 - plane m.
Proof.
  intros E Fev. assert (Hc : (0 < v2 S)%Z) by (destruct S as ((a,b),c); destruct HS as (?&?&?); auto). rewrite E in *.
  rewrite <- (zrange_app 0 (m + 1) (2 * m)) by lia. rewrite rsum_app.
  assert (P : Permutation (zrange (m + 1) (2 * m)) (map (fun z => 2 * m - z)%Z (zrange 1 m))).
  { apply NoDup_Permutation; [apply zrange_NoDup|apply FinFun.Injective_map_NoDup; [intros x y; lia|apply zrange_NoDup]|].
    intros z. rewrite in_map_iff. split.
    - intros H. apply in_zrange in H. exists (2 * m - z)%Z. split; [lia|apply in_zrange; lia].
    - intros (x&<-&H). apply in_zrange in H. apply in_zrange. lia. }
  rewrite (rsum_perm _ _ _ P), rsum_map. rewrite (rsum_ext (zrange 1 m) _ plane).
  - rewrite <- (zrange_app 0 1 (m + 1)), <- (zrange_app 1 m (m + 1)) by lia. rewrite !rsum_app. rewrite (zrange_cons 0 1), (zrange_nil (0 + 1)), (zrange_cons m (m + 1)), (zrange_nil (m + 1)) by lia. cbn [rsum]. lra.
  - intros z _. rewrite (plane_per _ (- z)%Z); [rewrite (plane_neg 1) by auto; ring|]. rewrite E. replace (2 * m - z)%Z with (- z + 1 * (2 * m))%Z by ring. apply Z.mod_add. lia.
Qed.
End Even.

Section Dot.
Variables (S : V3) (x y : Z -> C) (X Y : V3 -> C).
Hypothesis HS : pos3 S.
Hypothesis HX : extends S x X.
Hypothesis HY : extends S y Y.
Let F (g : V3) : C := (Cconj (X g) * Y g)%C.
Let P (i : Z) : C := (Cconj (x i) * y i)%C.
Lemma F_per g g' : same_mod S g g' -> F g = F g'.
Proof. intros E. unfold F. rewrite (proj1 HX g g' E), (proj1 HY g g' E). auto. Qed.
Lemma F_neg g : F (neg3 g) = Cconj (F g).
Proof. unfold F. rewrite (proj1 (proj2 HX)), (proj1 (proj2 HY)). destruct (X g), (Y g). unfold Cconj, Cmult. cbn. f_equal; ring. Qed.
Lemma half_index (a b z : Z) : (0 <= a < v0 S)%Z -> (0 <= b < v1 S)%Z -> (0 <= z < v2 S / 2 + 1)%Z -> P ((a * v1 S + b) * (v2 S / 2 + 1) + z) = F (a, b, z).
Proof.
  intros Ha Hb Hz. pose proof F_per as FP. destruct S as ((s0,s1),s2). destruct HS as (H0&H1&H2). cbn [v0 v1 v2 fst snd] in *.
  set (g := (wrapS s0 a, wrapS s1 b, z)). assert (G : halfG_point (s0,s1,s2) g).
  { cbn. pose proof (wrapS_range s0 a H0 Ha). pose proof (wrapS_range s1 b H1 Hb). pose proof (Z.mul_div_le s2 2 eq_refl). lia. }
  assert (E : same_mod (s0,s1,s2) g (a,b,z)). { cbn. rewrite !wrapS_mod by auto. rewrite !Z.mod_small by lia. auto. }
  rewrite <- (FP _ _ E). unfold F, P. rewrite (proj2 (proj2 HX) g G), (proj2 (proj2 HY) g G). unfold coefH. cbn [third].
  assert (J : row_major (s0,s1,s2) (s2 / 2 + 1) g = ((a * s1 + b) * (s2 / 2 + 1) + z)%Z).
  { unfold row_major, g. rewrite !wrapS_mod by auto. rewrite Z.mod_small; auto. pose proof (Z.mul_div_le s2 2 eq_refl). lia. }
  rewrite J. auto.
Qed.
Lemma plane_flat z : (0 <= z < v2 S / 2 + 1)%Z -> rsum (zrange 0 (v0 S * v1 S)) (fun i => Re (P (i * (v2 S / 2 + 1) + z))) = plane S (fun g => Re (F g)) z.
Proof.
  intros Hz. assert (H0 : (0 < v0 S)%Z /\ (0 < v1 S)%Z) by (destruct S as ((a,b),c); destruct HS as (?&?&?); auto). rewrite rsum_mul by lia. unfold plane. apply rsum_ext. intros a Ha. apply in_zrange in Ha. apply rsum_ext. intros b Hb. apply in_zrange in Hb.
  f_equal. apply half_index; auto.
Qed.
Lemma dot_planes : dotTilde S x y = 2 * rsum (zrange 0 (v2 S / 2 + 1)) (plane S (fun g => Re (F g))) - plane S (fun g => Re (F g)) 0
    - (if (v2 S / 2 + 1 =? 1)%Z then 0 else plane S (fun g => Re (F g)) (v2 S / 2)).
Proof.
  assert (H2 : (0 < v2 S)%Z /\ (0 < v0 S)%Z /\ (0 < v1 S)%Z) by (destruct S as ((a,b),c); destruct HS as (?&?&?); auto). assert (Hs : (0 <= v2 S / 2)%Z) by (apply Z.div_pos; lia).
  rewrite dot_dP. unfold dP. cbv zeta. change (fun i : Z => (Cconj (x i) * y i)%C) with P. set (s := (v2 S / 2 + 1)%Z) in *.
  assert (A : Re (zsum (zrange 0 (nG S)) (fun i => P (i * 1))) = rsum (zrange 0 s) (plane S (fun g => Re (F g)))).
  { rewrite Re_zsum. unfold nG. fold s. rewrite rsum_mul by (unfold s; nia). rewrite rsum_swap. apply rsum_ext. intros z Hz. apply in_zrange in Hz. rewrite <- plane_flat by auto. apply rsum_ext. intros i _. rewrite Z.mul_1_r. auto. }
  assert (B : Re (zsum (zrange 0 (v0 S * v1 S)) (fun i => P (i * s))) = plane S (fun g => Re (F g)) 0).
  { rewrite Re_zsum, <- plane_flat by (fold s; lia). apply rsum_ext. intros i _. rewrite Z.add_0_r. auto. }
  assert (D : Re (zsum (zrange 0 (v0 S * v1 S)) (fun i => P (i * s + s - 1))) = plane S (fun g => Re (F g)) (v2 S / 2)).
  { rewrite Re_zsum, <- plane_flat by (fold s; lia). apply rsum_ext. intros i _. f_equal. f_equal. unfold s. lia. }
  assert (L : forall a b c : C, Re (RtoC 2 * a - b - c)%C = 2 * Re a - Re b - Re c) by (intros (a,a') (b,b') (c,c'); unfold Re, Cminus, Cplus, Copp, Cmult, RtoC; cbn; ring).
  rewrite L. apply f_equal2; [apply f_equal2; [f_equal; exact A|exact B]|]. destruct (s =? 1)%Z; [reflexivity|exact D].
Qed.
Lemma dot_full : (v2 S = 1 \/ Z.even (v2 S) = true)%Z -> csum (full_grid S) F = RtoC (dotTilde S x y).
Proof.
  intros E. apply injective_projections.
  - change (Re (csum (full_grid S) F) = dotTilde S x y). rewrite Re_csum. rewrite (fold_full S (fun g => Re (F g))). rewrite (full_planes S (fun g => Re (F g))), dot_planes.
    assert (Per : forall g g', same_mod S g g' -> Re (F g) = Re (F g')) by (intros; f_equal; apply F_per; auto).
    destruct E as [E|E].
    + rewrite E. change (1 / 2 + 1 =? 1)%Z with true. change (1 / 2 + 1)%Z with 1%Z. cbn iota. rewrite (zrange_cons 0 1), (zrange_nil (0 + 1)) by lia. cbn [rsum]. ring.
    + apply Z.even_spec in E. destruct E as (m&E). assert (Hm : (0 < v2 S)%Z) by (destruct S as ((a,b),c); destruct HS as (?&?&?); auto).
      rewrite (even_half S (fun g : V3 => Re (F g)) HS Per m E) by (intros g; rewrite F_neg; destruct (F g); unfold Re, Cconj; cbn; ring).
      assert (E2 : (v2 S / 2 = m)%Z) by (rewrite E, Z.mul_comm; apply Z.div_mul; lia). rewrite E2. destruct (Z.eqb_spec (m + 1) 1); [lia|]. auto.
  - change (Im (csum (full_grid S) F) = 0). rewrite Im_csum, (fold_full S (fun g => Im (F g))), (full_planes S (fun g => Im (F g))). apply odd_zero; auto.
    + intros; f_equal; apply F_per; auto.
    + intros g. rewrite F_neg. destruct (F g). unfold Im, Cconj. cbn. ring.
Qed.
End Dot.
Lemma dot_full_odd : exists S x y X Y, pos3 S /\ extends S x X /\ extends S y Y /\ csum (full_grid S) (fun g => (Cconj (X g) * Y g)%C) <> RtoC (dotTilde S x y).
Proof.
  exists (1,1,3)%Z, (fun i => if (i =? 1)%Z then RtoC 1 else RtoC 0), (fun i => if (i =? 1)%Z then RtoC 1 else RtoC 0),
    (fun g => if (v2 g mod 3 =? 0)%Z then RtoC 0 else RtoC 1), (fun g => if (v2 g mod 3 =? 0)%Z then RtoC 0 else RtoC 1).
  assert (E : extends (1,1,3)%Z (fun i => if (i =? 1)%Z then RtoC 1 else RtoC 0) (fun g => if (v2 g mod 3 =? 0)%Z then RtoC 0 else RtoC 1)).
  { refine (conj _ (conj _ _)).
    - intros ((a,b),c) ((a',b'),c') (_&_&E). cbn [v2 snd]. rewrite E. auto.
    - intros ((a,b),c). cbn [neg3 v2 snd]. assert (X : ((- c) mod 3 =? 0 = (c mod 3 =? 0))%Z).
      { destruct (Z.eqb_spec (c mod 3) 0) as [Z0|Z0]; [rewrite Z.mod_opp_l_z by lia; auto|]. rewrite Z.mod_opp_l_nz by lia. apply Z.eqb_neq. pose proof (Z.mod_pos_bound c 3). lia. }
      rewrite X. destruct (c mod 3 =? 0)%Z; unfold Cconj, RtoC; cbn; f_equal; ring.
    - intros ((a,b),c) (Ha&Hb&Hc). assert (a = 0%Z) by lia. assert (b = 0%Z) by lia. assert (HC : c = 0%Z \/ c = 1%Z) by lia. subst a b. destruct HC as [->| ->]; reflexivity. }
  split; [cbn; lia|]. split; auto. split; auto. intros H.
  assert (A : csum (full_grid (1,1,3)%Z) (fun g => (Cconj (if (v2 g mod 3 =? 0)%Z then RtoC 0 else RtoC 1) * (if (v2 g mod 3 =? 0)%Z then RtoC 0 else RtoC 1))%C) = RtoC 2).
  { lazy -[Cplus Cmult RtoC Cconj Re Cminus IZR]. unfold Cconj, Cmult, Cplus, RtoC. cbn. f_equal; ring. }
  rewrite A in H.
  assert (B : dotTilde (1,1,3)%Z (fun i => if (i =? 1)%Z then RtoC 1 else RtoC 0) (fun i => if (i =? 1)%Z then RtoC 1 else RtoC 0) = 1).
  { lazy -[Cplus Cmult RtoC Cconj Re Cminus IZR]. unfold Cminus, Copp, Cconj, Cmult, Cplus, RtoC, Re. cbn. ring. }
  rewrite B in H. injection H. lra.
Qed.
Lemma sum_full S x X : pos3 S -> extends S x X -> (v2 S = 1 \/ Z.even (v2 S) = true)%Z -> csum (full_grid S) X = RtoC (sumTilde S x).
Proof.
  intros H HX E. change (sumTilde S x) with (dotTilde S x (fun _ => RtoC 1)).
  assert (H1 : extends S (fun _ => RtoC 1) (fun _ => RtoC 1)). { refine (conj _ (conj _ _)); auto. intros g. unfold Cconj, RtoC. cbn. f_equal. ring. }
  pose proof (dot_full S x (fun _ => RtoC 1) X (fun _ => RtoC 1) H HX H1 E) as D.
  assert (K : forall l, csum l (fun g => (Cconj (X g) * RtoC 1)%C) = Cconj (csum l X)).
  { induction l as [|g l IH]; cbn; [unfold Cconj, RtoC; cbn; f_equal; ring|]. rewrite IH. destruct (X g), (csum l X). unfold Cconj, Cplus, Cmult, RtoC. cbn. f_equal; ring. }
  rewrite K in D. rewrite <- (Cconj_conj (csum (full_grid S) X)), D. unfold Cconj, RtoC. cbn. f_equal. ring.
Qed.
