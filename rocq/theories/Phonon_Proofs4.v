From Coq Require Import ZArith Reals List Bool Arith Lra Lia FunctionalExtensionality Permutation.
From Coquelicot Require Import Coquelicot.
From Verif Require Import Base Vec3_Model Ions_Model CMat MatFun_Model MatFun_Proofs2 ExCompute_Spec ExCompute_Proofs Phonon_Model Phonon_Spec Phonon_Proofs Phonon_Proofs2 Phonon_Proofs3.
From Verif Require CellMap_Model CellMap_Spec CellMap_Props.
Import Vec3_Model.
Import ListNotations.
Open Scope R_scope.

(** ** Numbering of the cells *)
Definition cellZ (R : sup3) : vec Z := let '(a, b, c) := R in V (Z.of_nat a) (Z.of_nat b) (Z.of_nat c).
Lemma posRem_lt : forall x n, (0 < n)%nat -> (posRem x n < n)%nat.
Proof. intros x n H. unfold posRem. pose proof (Z.mod_pos_bound x (Z.of_nat n)). lia. Qed.
Lemma posRem_nat : forall a n, (a < n)%nat -> posRem (Z.of_nat a) n = a.
Proof. intros a n H. unfold posRem. rewrite Z.mod_small by lia. apply Nat2Z.id. Qed.
Lemma wrap_in : forall s c, posSup s -> inSup s (wrapCell s c).
Proof. intros [[s0 s1] s2] c (A & B & D). repeat split; apply posRem_lt; assumption. Qed.
Lemma wrap_cellZ : forall s R, inSup s R -> wrapCell s (cellZ R) = R.
Proof. intros [[s0 s1] s2] [[a b] c] (A & B & D). cbn [wrapCell cellZ c0 c1 c2]. rewrite !posRem_nat by assumption. reflexivity. Qed.
Lemma div_step : forall a b n, (b < n)%nat -> ((a * n + b) / n = a /\ (a * n + b) mod n = b)%nat.
Proof. intros a b n H. rewrite (Nat.add_comm (a * n)). rewrite Nat.div_add, Nat.mod_add, Nat.div_small, Nat.mod_small by lia. lia. Qed.
Lemma getCell_getUnit : forall s c, posSup s -> getCell s (getUnit s c) = wrapCell s c.
Proof.
  intros [[s0 s1] s2] c (A & B & D). cbn [getCell getUnit wrapCell].
  destruct (div_step (posRem (c0 c) s0 * s1 + posRem (c1 c) s1) (posRem (c2 c) s2) s2 (posRem_lt _ _ D)) as [-> ->].
  destruct (div_step (posRem (c0 c) s0) (posRem (c1 c) s1) s1 (posRem_lt _ _ B)) as [-> ->]. reflexivity.
Qed.
Lemma getUnit_lt : forall s c, posSup s -> (getUnit s c < prodSup s)%nat.
Proof.
  intros [[s0 s1] s2] c (A & B & D). cbn [getUnit prodSup]. pose proof (posRem_lt (c0 c) s0 A). pose proof (posRem_lt (c1 c) s1 B). pose proof (posRem_lt (c2 c) s2 D).
  generalize dependent (posRem (c0 c) s0). generalize dependent (posRem (c1 c) s1). generalize dependent (posRem (c2 c) s2). intros p2 H2 p1 H1 p0 H0.
  assert (p0 * s1 + p1 + 1 <= s0 * s1)%nat as K by nia. apply (Nat.mul_le_mono_r _ _ s2) in K. lia.
Qed.
Lemma getCell_in : forall s u, posSup s -> (u < prodSup s)%nat -> inSup s (getCell s u).
Proof.
  intros [[s0 s1] s2] u (A & B & D) H. cbn [getCell prodSup inSup] in *. repeat split; try (apply Nat.mod_upper_bound; lia).
  apply Nat.div_lt_upper_bound; [lia|]. apply Nat.div_lt_upper_bound; [lia|]. lia.
Qed.
Lemma getUnit_getCell : forall s u, posSup s -> (u < prodSup s)%nat -> getUnit s (cellZ (getCell s u)) = u.
Proof.
  intros s u Hs Hu. pose proof (getCell_in s u Hs Hu) as I. destruct s as [[s0 s1] s2]. destruct Hs as (A & B & D). cbn [getCell] in *. destruct I as (I0 & I1 & I2).
  cbn [getUnit cellZ c0 c1 c2]. rewrite !posRem_nat by assumption.
  pose proof (Nat.div_mod u s2). pose proof (Nat.div_mod (u / s2) s1). nia.
Qed.
Lemma posRem_opp : forall x n, (0 < n)%nat -> posRem (- x) n = ((n - posRem x n) mod n)%nat.
Proof.
  intros x n H. unfold posRem. apply Nat2Z.inj. pose proof (Z.mod_pos_bound x (Z.of_nat n)) as B1. pose proof (Z.mod_pos_bound (- x) (Z.of_nat n)) as B2.
  rewrite Z2Nat.id by lia. rewrite Nat2Z.inj_mod, Nat2Z.inj_sub, Z2Nat.id by lia. rewrite Zminus_mod_idemp_r.
  replace (Z.of_nat n - x)%Z with (- x + 1 * Z.of_nat n)%Z by ring. rewrite Z_mod_plus_full. reflexivity.
Qed.
Lemma wrap_opp : forall s c, posSup s -> wrapCell s (zvopp c) = negCell s (wrapCell s c).
Proof. intros [[s0 s1] s2] [x y z] (A & B & D). cbn [wrapCell negCell zvopp gvopp c0 c1 c2]. unfold zvopp, gvopp, vmap. cbn [c0 c1 c2]. rewrite !posRem_opp by assumption. reflexivity. Qed.
Lemma zvopp_inv : forall c, zvopp (zvopp c) = c.
Proof. intros [x y z]. unfold zvopp, gvopp, vmap. cbn [c0 c1 c2]. rewrite !Z.opp_involutive. reflexivity. Qed.

(** ** Force matrices on the cell map *)
Lemma div3 : forall q a, (a < 3)%nat -> ((3 * q + a) / 3 = q)%nat.
Proof. intros. rewrite Nat.add_comm, Nat.mul_comm, Nat.div_add by lia. rewrite Nat.div_small by lia. reflexivity. Qed.
Lemma div3_lt : forall m n, (m < 3 * n)%nat -> (m / 3 < n)%nat.
Proof. intros. apply Nat.div_lt_upper_bound; lia. Qed.
Lemma remap_symmetric : forall nA s cells w d, posSup s -> goodCells nA s (wrapCell s) cells w -> symmetricForces nA s d -> symmetricOn nA cells (remap s w d).
Proof.
  intros nA s cells w d Hs G Hd c m1 m2 Hc H1 H2. unfold remap. rewrite (gc_sym _ _ _ _ _ G c) by (try assumption; apply div3_lt; assumption).
  rewrite wrap_opp by assumption. rewrite <- (Hd m1 m2) by (try assumption; apply wrap_in; assumption). reflexivity.
Qed.
Lemma remap_nonet : forall nA s cells w d, posSup s -> goodCells nA s (wrapCell s) cells w -> noNetForce nA s d -> noNetForceOn nA cells (remap s w d).
Proof.
  intros nA s cells w d Hs G [N1 N2]. split.
  - intros m1 b H1 Hb. rewrite sum_swap, <- (N1 m1 b H1 Hb), (sum_swap _ _ (allCells s)). apply sumR_ext. intros j Hj. apply in_seq in Hj. unfold remap. rewrite div3 by exact Hb.
    apply (gc_unit _ _ _ _ _ G (m1 / 3)%nat j (fun R => d m1 R (3 * j + b)%nat)); [apply div3_lt; assumption|lia].
  - intros m2 a H2 Ha. rewrite sum_swap, <- (N2 m2 a H2 Ha), (sum_swap _ _ (allCells s)). apply sumR_ext. intros i Hi. apply in_seq in Hi. unfold remap. rewrite div3 by exact Ha.
    apply (gc_unit _ _ _ _ _ G i (m2 / 3)%nat (fun R => d (3 * i + a)%nat R m2)); [lia|apply div3_lt; assumption].
Qed.
Lemma remap_total : forall nA s cells w d i j, goodCells nA s (wrapCell s) cells w -> (i < 3 * nA)%nat -> (j < 3 * nA)%nat -> forall f : sup3 -> R,
  sumR cells (fun c => f (wrapCell s c) * remap s w d c i j) = sumR (allCells s) (fun R => f R * d i R j).
Proof.
  intros nA s cells w d i j G Hi Hj f. rewrite <- (gc_unit _ _ _ _ _ G (i/3)%nat (j/3)%nat (fun R => f R * d i R j)) by (apply div3_lt; assumption). apply sumR_ext. intros. unfold remap. ring.
Qed.

(** ** The cell map of getCellMap (C72) is of this kind *)
Definition lookupW (m : list CellMap_Model.entry) : fmatrix := fun c i j => match find (fun e => CellMap_Model.veqb (fst e) c) m with Some e => snd e i j | None => 0 end.
Lemma veqb_iff : forall a b, CellMap_Model.veqb a b = true <-> a = b.
Proof. intros [x y z] [x' y' z']. unfold CellMap_Model.veqb. cbn [c0 c1 c2]. rewrite !andb_true_iff, !Z.eqb_eq. split; [intros [[-> ->] ->]; reflexivity|intros E; inversion E; auto]. Qed.
Lemma lookup_in : forall m e i j, NoDup (map fst m) -> In e m -> lookupW m (fst e) i j = snd e i j.
Proof.
  intros m e i j Hd Hi. unfold lookupW. induction m as [|e' m IH]; [contradiction|]. cbn [map find] in *. inversion Hd as [|? ? N1 N2]; subst.
  destruct (CellMap_Model.veqb (fst e') (fst e)) eqn:E.
  - apply veqb_iff in E. destruct Hi as [->|Hi]; [reflexivity|]. exfalso. apply N1. rewrite E. apply in_map, Hi.
  - destruct Hi as [->|Hi]; [|apply IH; assumption]. assert (CellMap_Model.veqb (fst e) (fst e) = true) as Q by (apply veqb_iff; reflexivity). rewrite Q in E. discriminate.
Qed.
Definition supMat (s : sup3) : mat Z := let '(a, b, c) := s in (M (Z.of_nat a) 0 0 0 (Z.of_nat b) 0 0 0 (Z.of_nat c))%Z.
Definition truncSup (s : sup3) (tr : nat -> bool) : Prop := let '(a, b, c) := s in (tr 0%nat = true -> a = 1%nat) /\ (tr 1%nat = true -> b = 1%nat) /\ (tr 2%nat = true -> c = 1%nat).
Lemma zmv_sup : forall a b c n, zmv (supMat (a, b, c)) n = V (Z.of_nat a * c0 n)%Z (Z.of_nat b * c1 n)%Z (Z.of_nat c * c2 n)%Z.
Proof. intros. unfold zmv, gmv, gdot, supMat. cbn. f_equal; ring. Qed.
Lemma same_wrap : forall s a b, posSup s -> CellMap_Spec.same_cell (supMat s) a b <-> wrapCell s a = wrapCell s b.
Proof.
  intros [[p q] r] [x y z] [x' y' z'] (A & B & D). unfold CellMap_Spec.same_cell. cbn [wrapCell c0 c1 c2].
  assert (forall u v n, (0 < n)%nat -> (posRem u n = posRem v n <-> exists k, v = u + Z.of_nat n * k)%Z) as K.
  { intros u v n Hn. unfold posRem. pose proof (Z.mod_pos_bound u (Z.of_nat n)). pose proof (Z.mod_pos_bound v (Z.of_nat n)). split.
    - intros E. apply Z2Nat.inj in E; [|lia..]. exists (v / Z.of_nat n - u / Z.of_nat n)%Z. pose proof (Z.div_mod u (Z.of_nat n)). pose proof (Z.div_mod v (Z.of_nat n)). nia.
    - intros [k ->]. rewrite (Z.mul_comm (Z.of_nat n)), Z_mod_plus_full. reflexivity. }
  split.
  - intros [n E]. rewrite zmv_sup in E. unfold zvadd, gvadd in E. cbn [c0 c1 c2] in E. injection E as E0 E1 E2. f_equal; [f_equal|]; apply K; try assumption; eexists; eassumption.
  - intros E. injection E as E0 E1 E2. apply K in E0, E1, E2; try assumption. destruct E0 as [k0 E0], E1 as [k1 E1], E2 as [k2 E2]. exists (V k0 k1 k2). rewrite zmv_sup. unfold zvadd, gvadd. cbn [c0 c1 c2]. subst. reflexivity.
Qed.
Lemma reps_all : forall s tr, posSup s -> truncSup s tr -> CellMap_Spec.representatives (supMat s) (CellMap_Spec.planar tr) (map cellZ (allCells s)).
Proof.
  intros s tr Hs Ht. split; [|split].
  - intros c Hc. apply in_map_iff in Hc. destruct Hc as [R [<- HR]]. apply allCells_in in HR. destruct s as [[p q] r], R as [[a b] c]. destruct Ht as (T0 & T1 & T2), HR as (A & B & D).
    intros [|[|[|k]]] Hk E; [..|lia]; cbn [vget cellZ c0 c1 c2]; [specialize (T0 E)|specialize (T1 E)|specialize (T2 E)]; lia.
  - intros c _. exists (cellZ (wrapCell s c)). pose proof (wrap_in s c Hs) as W. split; [apply in_map, allCells_in, W|]. apply same_wrap; [exact Hs|]. apply wrap_cellZ, W.
  - intros i j Hi Hj E. rewrite map_length in Hi, Hj. apply (same_wrap s) in E; [|exact Hs].
    assert (forall k, (k < length (allCells s))%nat -> nth k (map cellZ (allCells s)) (V 0 0 0)%Z = cellZ (nth k (allCells s) (0,0,0)%nat)) as MN.
    { intros k Hk. rewrite (nth_indep _ (V 0 0 0)%Z (cellZ (0,0,0)%nat)) by (rewrite map_length; exact Hk). apply map_nth. }
    rewrite (MN i Hi), (MN j Hj) in E.
    assert (forall k, (k < length (allCells s))%nat -> inSup s (nth k (allCells s) (0,0,0)%nat)) as I by (intros; apply allCells_in, nth_In; assumption).
    rewrite !wrap_cellZ in E by (apply I; assumption). pose proof (proj1 (NoDup_nth (allCells s) (0,0,0)%nat) (allCells_nodup s)) as N. apply N; assumption.
Qed.
Lemma rsum_sumR : forall A (l : list A) f, CellMap_Spec.rsum f l = sumR l f.
Proof. induction l as [|x l IH]; intros f; [reflexivity|]. rewrite sumR_cons, <- IH. reflexivity. Qed.
Lemma cellmap_good : forall (Rl : mat R) (s : sup3) (tr : nat -> bool) (x : list (vec R)) (rSmooth thr rc : R) (neigh : list (vec Z)),
  posSup s -> truncSup s tr -> rdet Rl <> 0 -> CellMap_Spec.truncation_orthogonal Rl tr -> CellMap_Spec.contains_cell (rmm Rl (mIZR (supMat s))) rc ->
  0 < rSmooth -> 0 < thr -> thr < 1 / 2 -> thr * INR (prodSup s) <= 1 -> (forall n, In n neigh -> In (zvopp n) neigh) ->
  exists m, CellMap_Model.getCellMap Rl (rmm Rl (mIZR (supMat s))) tr x x rSmooth thr rc neigh = Some m /\ goodCells (length x) s (wrapCell s) (map fst m) (lookupW m).
Proof.
  intros Rl s tr x rSmooth thr rc neigh Hs Ht HR HO HC H1 H2 H3 H4 Hn.
  assert (zdet (supMat s) = Z.of_nat (prodSup s)) as Ed by (destruct s as [[a b] c]; unfold supMat, zdet, gdet, gbox, gdot, gcross, row0, row1, row2; cbn [c0 c1 c2 m00 m01 m02 m10 m11 m12 m20 m21 m22 prodSup]; rewrite !Nat2Z.inj_mul; ring).
  assert (zdet (supMat s) <> 0%Z) as Hz. { rewrite Ed. destruct s as [[a b] c]. destruct Hs as (?&?&?). cbn [prodSup]. nia. }
  assert (CellMap_Spec.truncation_diagonal (supMat s) tr) as HD.
  { destruct s as [[a b] c]. intros i j Hi Hj Hne. destruct i as [|[|[|i]]], j as [|[|[|j]]]; try lia; try reflexivity; congruence. }
  assert (thr * Rabs (IZR (zdet (supMat s))) <= 1) as H4'. { rewrite Ed, <- INR_IZR_INZ, Rabs_pos_eq by apply pos_INR. exact H4. }
  destruct (CellMap_Props.C72_partition_of_unity Rl (supMat s) tr x x rSmooth thr rc neigh HR Hz HO HD HC H1 H2 H3 H4') as (m & Em & Nd & _ & _).
  exists m. split; [exact Em|].
  pose proof (CellMap_Props.C72_reversal Rl (supMat s) tr x x rSmooth thr rc neigh HR Hz HO HD HC H1 H2 H3 H4' Hn m m Em Em) as Rev.
  split.
  - exact Nd.
  - intros c Hc. apply in_map_iff in Hc. destruct Hc as [e [<- He]]. destruct (Rev e He) as (e' & He' & Ef & _). rewrite <- Ef. apply in_map, He'.
  - intros c i j Hc Hi Hj. apply in_map_iff in Hc. destruct Hc as [e [<- He]]. destruct (Rev e He) as (e' & He' & Ef & Ew). rewrite <- Ef, !lookup_in by assumption. symmetry. apply Ew; assumption.
  - intros i j f Hi Hj.
    pose proof (CellMap_Props.C72_interpolation Rl (supMat s) tr x x rSmooth thr rc neigh HR Hz HO HD HC H1 H2 H3 H4' m (fun c => f (wrapCell s c)) (map cellZ (allCells s)) i j Em) as I.
    rewrite !rsum_sumR, !sumR_map in I. rewrite sumR_map. rewrite (sumR_ext _ m _ (fun e => snd e i j * f (wrapCell s (fst e)))) by (intros e He; rewrite lookup_in by assumption; reflexivity).
    rewrite I; [|intros a b E; f_equal; apply same_wrap; assumption|apply reps_all; assumption|assumption|assumption].
    apply sumR_ext. intros R HR'. apply allCells_in in HR'. rewrite wrap_cellZ by exact HR'. reflexivity.
Qed.

(** ** omegaSq *)
Open Scope C_scope.
Lemma sumC_inv : forall A (l : list A) (g : A -> A) f, NoDup l -> (forall x, In x l -> In (g x) l) -> (forall x, In x l -> g (g x) = x) -> sumC l (fun x => f (g x)) = sumC l f.
Proof.
  intros A l g f Hd Hi Hg. assert (forall (h : A -> C), sumC l h = (sumR l (fun x => fst (h x)), sumR l (fun x => snd (h x)))) as E.
  { clear. intros h. induction l as [|x l IH]; [reflexivity|]. rewrite sumC_cons, !sumR_cons, IH. reflexivity. }
  rewrite !E. rewrite (sumR_inv _ l g (fun x => fst (f x)) Hd Hi Hg), (sumR_inv _ l g (fun x => snd (f x)) Hd Hi Hg). reflexivity.
Qed.
Lemma vIZR_opp_dot : forall c q, rdot (vIZR (zvopp c)) q = (- rdot (vIZR c) q)%R.
Proof. intros [x y z] q. unfold rdot, gdot, vIZR, zvopp, gvopp, vmap. cbn [c0 c1 c2]. rewrite !opp_IZR. ring. Qed.
Lemma omegaSq_hermitian : forall nA cells F q m1 m2, NoDup cells -> (forall c, In c cells -> In (zvopp c) cells) -> symmetricOn nA cells F -> (m1 < 3 * nA)%nat -> (m2 < 3 * nA)%nat ->
  omegaSqAt cells F q m1 m2 = Cconj (omegaSqAt cells F q m2 m1).
Proof.
  intros nA cells F q m1 m2 Hd Ho Hs H1 H2. unfold omegaSqAt. rewrite !csumOn_sumC, sumC_conj.
  rewrite <- (sumC_inv _ cells zvopp (fun c => Cconj (ccis (2 * PI * rdot (vIZR c) q) * RtoC (F c m2 m1)))) by (try assumption; intros; apply zvopp_inv).
  apply sumC_ext. intros c Hc. rewrite (Hs c m1 m2 Hc H1 H2), Cconj_mul, Cconj_R, ccis_conj, vIZR_opp_dot. f_equal. f_equal. ring.
Qed.
Lemma symmetricOn_scaled : forall nA cells v F, symmetricOn nA cells F -> symmetricOn nA cells (omegaSqOf v F).
Proof. intros nA cells v F H c m1 m2 Hc H1 H2. unfold omegaSqOf. rewrite (H c m1 m2 Hc H1 H2). ring. Qed.
(** uniform displacements along direction b cost nothing at the zone centre *)
Lemma omegaSq_zero_modes : forall nA cells v F m1 b, noNetForceOn nA cells F -> (forall m, (m < 3 * nA)%nat -> v m <> 0%R) -> (m1 < 3 * nA)%nat -> (b < 3)%nat ->
  sumC (seq 0 nA) (fun j => omegaSqAt cells (omegaSqOf v F) (V 0 0 0)%R m1 (3 * j + b) * RtoC (/ v (3 * j + b)%nat)) = RtoC 0.
Proof.
  intros nA cells v F m1 b [N1 _] Hv H1 Hb.
  rewrite (sumC_ext _ _ _ (fun j => RtoC (v m1 * sumR cells (fun c => F c m1 (3 * j + b)%nat)))).
  - rewrite sumC_RtoC. f_equal. rewrite sum_scal_r, sum_swap, N1 by assumption. ring.
  - intros j Hj. apply in_seq in Hj. unfold omegaSqAt. rewrite csumOn_sumC.
    rewrite (sumC_ext _ cells _ (fun c => RtoC (v m1 * v (3 * j + b)%nat * F c m1 (3 * j + b)%nat))).
    2:{ intros c _. assert (rdot (vIZR c) (V 0 0 0) = 0)%R as -> by (unfold rdot, gdot; cbn; ring). rewrite Rmult_0_r, ccis_0, Cmult_1_l. f_equal. unfold omegaSqOf. ring. }
    rewrite sumC_RtoC, <- RtoC_mult. f_equal. rewrite sum_scal_r. field. apply Hv. lia.
Qed.

(** ** Pairs of opposite cells *)
Open Scope R_scope.
Lemma sumN_fold : forall (l : list nat) (t : nat -> nat) n, INR (fold_left (fun n j => (n + t j)%nat) l n) = INR n + sumR l (fun j => INR (t j)).
Proof. induction l as [|x l IH]; intros t n; cbn [fold_left]; [cbn; ring|]. rewrite IH, sumR_cons, plus_INR. ring. Qed.
Lemma opp_iff : forall a b, (let r := zvadd a b in (c0 r * c0 r + c1 r * c1 r + c2 r * c2 r =? 0)%Z) = CellMap_Model.veqb b (zvopp a).
Proof.
  intros [x y z] [x' y' z']. apply eq_true_iff_eq. rewrite veqb_iff, Z.eqb_eq. unfold zvadd, gvadd, zvopp, gvopp, vmap. cbn [c0 c1 c2]. split.
  - intros E. pose proof (Z.square_nonneg (x + x')). pose proof (Z.square_nonneg (y + y')). pose proof (Z.square_nonneg (z + z')).
    assert (forall t : Z, (t * t = 0 -> t = 0)%Z) as Q by (intros t; rewrite Z.mul_eq_0; tauto). pose proof (Q (x + x')%Z). pose proof (Q (y + y')%Z). pose proof (Q (z + z')%Z). f_equal; lia.
  - intros E. injection E as -> -> ->. ring.
Qed.
Lemma pair_count : forall n (t : nat -> nat -> R), (forall i j, t i j = t j i) ->
  sumR (seq 0 n) (fun i => sumR (seq 0 n) (fun j => (if (i <=? j)%nat then (if (i =? j)%nat then 1 else 2) else 0) * t i j)) = sumR (seq 0 n) (fun i => sumR (seq 0 n) (fun j => t i j)).
Proof.
  intros n t Ht.
  transitivity (sumR (seq 0 n) (fun i => sumR (seq 0 n) (fun j => (if (i <=? j)%nat then 1 else 0) * t i j)) + sumR (seq 0 n) (fun i => sumR (seq 0 n) (fun j => (if (i <? j)%nat then 1 else 0) * t i j))).
  - rewrite <- sum_plus. apply sumR_ext. intros i _. rewrite <- sum_plus. apply sumR_ext. intros j _. destruct (Nat.leb_spec i j), (Nat.eqb_spec i j), (Nat.ltb_spec i j); try lia; ring.
  - rewrite (sum_swap _ _ _ _ (fun i j => (if (i <? j)%nat then 1 else 0) * t i j)). rewrite <- sum_plus. apply sumR_ext. intros i _. rewrite <- sum_plus. apply sumR_ext. intros j _. rewrite (Ht j i). destruct (Nat.leb_spec i j), (Nat.ltb_spec j i); try lia; ring.
Qed.
Lemma hermCount_all : forall cells, NoDup cells -> (forall c, In c cells -> In (zvopp c) cells) -> hermCount cells = length cells.
Proof.
  intros cells Hd Ho. apply INR_eq. unfold hermCount. set (n := length cells). set (at_ := fun i => nth i cells (V 0 0 0)%Z).
  set (t := fun i j => if CellMap_Model.veqb (at_ j) (zvopp (at_ i)) then 1 else 0).
  transitivity (sumR (seq 0 n) (fun i => sumR (seq 0 n) (fun j => (if (i <=? j)%nat then (if (i =? j)%nat then 1 else 2) else 0) * t i j))).
  - assert (forall l a, INR (fold_left (fun n0 i => fold_left (fun n1 j => let ci := nth i cells (V 0 0 0)%Z in let cj := nth j cells (V 0 0 0)%Z in let r := zvadd ci cj in
        if ((c0 r * c0 r + c1 r * c1 r + c2 r * c2 r =? 0)%Z && (i <=? j)%nat) then (n1 + (if (i =? j)%nat then 1 else 2))%nat else n1) (seq 0 n) n0) l a) =
        INR a + sumR l (fun i => sumR (seq 0 n) (fun j => (if (i <=? j)%nat then (if (i =? j)%nat then 1 else 2) else 0) * t i j))) as K.
    { induction l as [|i l IH]; intros a; cbn [fold_left]; [cbn; ring|]. rewrite IH, sumR_cons. rewrite <- Rplus_assoc. f_equal.
      set (tt := fun j => if CellMap_Model.veqb (at_ j) (zvopp (at_ i)) && (i <=? j)%nat then (if (i =? j)%nat then 1 else 2)%nat else 0%nat).
      assert (forall L b, fold_left (fun n1 j => let ci := nth i cells (V 0 0 0)%Z in let cj := nth j cells (V 0 0 0)%Z in let r := zvadd ci cj in
        if ((c0 r * c0 r + c1 r * c1 r + c2 r * c2 r =? 0)%Z && (i <=? j)%nat) then (n1 + (if (i =? j)%nat then 1 else 2))%nat else n1) L b = fold_left (fun n j => (n + tt j)%nat) L b) as K2.
      { induction L as [|j L IHL]; intros b; [reflexivity|]. cbn [fold_left]. rewrite IHL. f_equal. unfold tt. fold (at_ i) (at_ j). pose proof (opp_iff (at_ i) (at_ j)) as Q. cbv zeta in Q |- *. rewrite Q.
        destruct (CellMap_Model.veqb (at_ j) (zvopp (at_ i)) && (i <=? j)%nat); lia. }
      rewrite K2, sumN_fold. f_equal. apply sumR_ext. intros j _. unfold tt, t. destruct (CellMap_Model.veqb (at_ j) (zvopp (at_ i))), (i <=? j)%nat, (i =? j)%nat; cbn; ring. }
    rewrite K. cbn [INR]. ring.
  - rewrite pair_count.
    + transitivity (sumR (seq 0 n) (fun _ => 1)); [|rewrite sum_const; ring]. apply sumR_ext. intros i Hi. apply in_seq in Hi.
      assert (In (zvopp (at_ i)) cells) as I by (apply Ho, nth_In; lia). apply (In_nth _ _ (V 0 0 0)%Z) in I. destruct I as (j0 & Hj0 & Ej0).
      rewrite (sumR_ext _ _ _ (fun j => if Nat.eq_dec j j0 then 1 else 0)).
      * assert (forall l, NoDup l -> In j0 l -> sumR l (fun j => if Nat.eq_dec j j0 then 1 else 0) = 1) as P.
        { induction l as [|x l IH]; intros N J; [contradiction|]. inversion N as [|? ? Nx Nl]; subst. rewrite sumR_cons. destruct J as [->|J].
          - destruct (Nat.eq_dec j0 j0); [|congruence]. rewrite (sumR_ext _ _ _ (fun _ => 0)); [rewrite sumR_const; ring|]. intros y Hy. destruct (Nat.eq_dec y j0); [congruence|reflexivity].
          - rewrite IH by assumption. destruct (Nat.eq_dec x j0); [congruence|ring]. }
        apply P; [apply seq_NoDup|apply in_seq; unfold n; lia].
      * intros j Hj. apply in_seq in Hj. unfold t. destruct (CellMap_Model.veqb (at_ j) (zvopp (at_ i))) eqn:E.
        -- apply veqb_iff in E. destruct (Nat.eq_dec j j0) as [|N]; [reflexivity|]. exfalso. apply N. apply (proj1 (NoDup_nth cells (V 0 0 0)%Z) Hd); [unfold n in *; lia|exact Hj0|]. rewrite Ej0. exact E.
        -- destruct (Nat.eq_dec j j0) as [->|N]; [|reflexivity]. assert (CellMap_Model.veqb (at_ j0) (zvopp (at_ i)) = true) as Q by (apply veqb_iff; exact Ej0). congruence.
    + intros i j. unfold t. assert (CellMap_Model.veqb (at_ j) (zvopp (at_ i)) = CellMap_Model.veqb (at_ i) (zvopp (at_ j))) as ->; [|reflexivity].
      apply eq_true_iff_eq. rewrite !veqb_iff. split; intros ->; rewrite zvopp_inv; reflexivity.
Qed.
