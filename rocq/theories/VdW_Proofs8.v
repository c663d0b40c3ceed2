(** Reference tables, interpolation weights, reach of the neighbour sampling, and the cache of radial functions. *)
From Coq Require Import ZArith Reals List Bool Lia Lra Psatz.
From Verif Require Import Base WorkDiv_Model Grid_Model Grid_Spec Vec3_Model Vec3_Facts Lattice_Model RealUtil Coulomb_Model Coulomb_Proofs Coulomb_Proofs3 WS_Model WS_Proofs3 Ions_Model CellMap_Spec CellMap_Proofs VdW_Model VdW_Spec VdW_Proofs VdW_Proofs2 VdW_Proofs3 VdW_Proofs4 VdW_Proofs7.
Import ListNotations.
Local Open Scope R_scope.
Set Bullet Behavior "Strict Subproofs".

(** ** Layout of the coefficients *)
Lemma nth_flat_map {A B} (f : A -> B -> R) l1 l2 (da : A) (db : B) i j : (i < length l1)%nat -> (j < length l2)%nat ->
  nth (i * length l2 + j) (flat_map (fun a => map (f a) l2) l1) 0 = f (nth i l1 da) (nth j l2 db).
Proof.
  revert i. induction l1 as [|a l1 IH]; cbn [length]; intros i Li Lj; [lia|]. cbn [flat_map]. destruct i as [|i].
  - cbn [Nat.mul Nat.add nth]. rewrite app_nth1 by (rewrite map_length; auto). rewrite (nth_indep _ 0 (f a db)) by (rewrite map_length; auto). apply map_nth.
  - rewrite app_nth2 by (rewrite map_length; lia). rewrite map_length. replace (S i * length l2 + j - length l2)%nat with (i * length l2 + j)%nat by lia. cbn [nth]. apply IH; lia.
Qed.
Lemma iCN12_sym a b : iCN12 a b = iCN12 b a.
Proof. unfold iCN12. rewrite (Z.min_comm a b), (Z.max_comm a b). reflexivity. Qed.
Lemma tri_half k : (2 * (k * (k + 1) / 2) = k * (k + 1))%Z.
Proof. assert (E : ((k * (k + 1)) mod 2 = 0)%Z). { rewrite Zmult_mod, Zplus_mod. assert (B := Z.mod_pos_bound k 2 ltac:(lia)). assert (H : (k mod 2 = 0 \/ k mod 2 = 1)%Z) by lia. destruct H as [-> | ->]; reflexivity. } assert (D := Z.div_mod (k * (k + 1)) 2 ltac:(lia)). lia. Qed.
Lemma iCN12_spec a b : (0 <= a <= b)%Z -> (2 * iCN12 a b = b * (b + 1) + 2 * a)%Z.
Proof. intros H. unfold iCN12. rewrite Z.min_l, Z.max_r by lia. assert (T := tri_half b). lia. Qed.
Lemma iCN12_inj_ord a b c d : (0 <= a <= b)%Z -> (0 <= c <= d)%Z -> iCN12 a b = iCN12 c d -> a = c /\ b = d.
Proof. intros H1 H2 E. assert (A := iCN12_spec a b H1). assert (B := iCN12_spec c d H2). rewrite E in A. assert (b = d) by nia. subst. lia. Qed.
Lemma iCN12_inj a b c d : (0 <= a -> 0 <= b -> 0 <= c -> 0 <= d -> iCN12 a b = iCN12 c d -> (a = c /\ b = d) \/ (a = d /\ b = c))%Z.
Proof.
  intros A B C D E. destruct (Z.le_ge_cases a b) as [H|H], (Z.le_ge_cases c d) as [K|K].
  - left. apply iCN12_inj_ord; lia.
  - right. rewrite (iCN12_sym c d) in E. apply (iCN12_inj_ord a b d c) in E; lia.
  - right. rewrite (iCN12_sym a b) in E. apply (iCN12_inj_ord b a c d) in E; lia.
  - left. rewrite (iCN12_sym a b), (iCN12_sym c d) in E. apply (iCN12_inj_ord b a d c) in E; lia.
Qed.
Lemma iCN12_range n a b : (0 <= a < n -> 0 <= b < n -> 0 <= iCN12 a b /\ 2 * iCN12 a b < n * (n + 1))%Z.
Proof.
  intros A B. destruct (Z.le_ge_cases a b).
  - assert (E := iCN12_spec a b ltac:(lia)). nia.
  - rewrite iCN12_sym. assert (E := iCN12_spec b a ltac:(lia)). nia.
Qed.
Lemma iCN12_onto n k : (0 <= n -> 0 <= k -> 2 * k < n * (n + 1) -> exists a b, 0 <= a <= b /\ b < n /\ iCN12 a b = k)%Z.
Proof.
  intros N K. revert n N. apply (natlike_ind (fun n => 2 * k < n * (n + 1) -> exists a b, 0 <= a <= b /\ b < n /\ iCN12 a b = k)%Z); [lia|].
  intros n Hn IH H. destruct (Z_lt_dec (2 * k) (n * (n + 1))) as [L|L].
  - destruct (IH L) as (a & b & P & Q & E). exists a, b. repeat split; try lia.
  - assert (T := tri_half n). exists (k - n * (n + 1) / 2)%Z, n. assert (B : (0 <= k - n * (n + 1) / 2 <= n)%Z) by nia. repeat split; try lia. assert (E := iCN12_spec _ _ B). lia.
Qed.
Section Layout.
  Variables (coeff tabR0 : Z -> R) (ap1 ap2 : atomParams).
  Hypothesis L1 : length (CNref ap1) = length (iCNref ap1).
  Hypothesis L2 : length (CNref ap2) = length (iCNref ap2).
  Notation m := (pp_C6 (getPairParams coeff tabR0 ap1 ap2)).
  (** what the element (i,j) holds *)
  Lemma entry_actual i j : (i < length (CNref ap1))%nat -> (j < length (CNref ap2))%nat ->
    let k := (length (CNref ap1) * j + i)%nat in
    entry m i j = coeff (iCN12 (nth (k / length (CNref ap2)) (iCNref ap1) 0%Z) (nth (k mod length (CNref ap2)) (iCNref ap2) 0%Z)).
  Proof.
    intros I J. cbv zeta. unfold entry, getPairParams. cbv zeta. cbn [pp_C6 nr mdata]. set (k := (length (CNref ap1) * j + i)%nat). set (n2 := length (CNref ap2)) in *.
    assert (N : (n2 <> 0)%nat) by lia. assert (D := Nat.div_mod k n2 N). assert (Mm := Nat.mod_upper_bound k n2 N).
    assert (Kb : (k < length (CNref ap1) * n2)%nat) by (unfold k; nia).
    assert (Q : (k / n2 < length (iCNref ap1))%nat) by (rewrite <- L1; apply Nat.div_lt_upper_bound; [exact N|lia]).
    rewrite <- (nth_flat_map (fun a b => coeff (iCN12 a b)) (iCNref ap1) (iCNref ap2) 0%Z 0%Z (k / n2) (k mod n2) Q) by (rewrite <- L2; exact Mm).
    f_equal. rewrite <- L2. fold n2. lia.
  Qed.
  Lemma layout_single i j : (length (CNref ap1) = 1 \/ length (CNref ap2) = 1)%nat -> (i < length (CNref ap1))%nat -> (j < length (CNref ap2))%nat ->
    entry m i j = coeff (iCN12 (nth i (iCNref ap1) 0%Z) (nth j (iCNref ap2) 0%Z)).
  Proof.
    intros S I J. rewrite (entry_actual i j I J). cbv zeta. destruct S as [S|S]; rewrite S in *.
    - assert (i = 0)%nat by lia. subst i. rewrite Nat.mul_1_l, Nat.add_0_r, Nat.div_small, Nat.mod_small by lia. reflexivity.
    - assert (j = 0)%nat by lia. subst j. rewrite Nat.mul_0_r, Nat.add_0_l, Nat.div_1_r, Nat.mod_1_r. reflexivity.
  Qed.
  Lemma layout_same i j : iCNref ap1 = iCNref ap2 -> (i < length (CNref ap1))%nat -> (j < length (CNref ap2))%nat ->
    entry m i j = coeff (iCN12 (nth i (iCNref ap1) 0%Z) (nth j (iCNref ap2) 0%Z)).
  Proof.
    intros S I J. rewrite (entry_actual i j I J). cbv zeta. assert (E : length (CNref ap1) = length (CNref ap2)) by (rewrite L1, L2, S; reflexivity).
    rewrite E in *. set (n := length (CNref ap2)) in *. replace ((n * j + i) / n)%nat with j by (apply Nat.div_unique with i; lia). replace ((n * j + i) mod n)%nat with i by (apply Nat.mod_unique with j; lia).
    rewrite S. f_equal. apply iCN12_sym.
  Qed.
End Layout.
Lemma getAtomParams_refs tabQ tabRcov nCN tabZ tabCN Za ap : getAtomParams tabQ tabRcov nCN tabZ tabCN Za = Some ap ->
  ap_Z ap = Za /\ (1 <= Za <= 94)%Z /\ CNref ap = map tabCN (iCNref ap) /\ NoDup (iCNref ap) /\ forall i, In i (iCNref ap) <-> (0 <= i < nCN)%Z /\ tabZ i = Za.
Proof.
  unfold getAtomParams. destruct (Z.ltb_spec Za 1), (Z.ltb_spec 94 Za); cbn [orb]; try discriminate. intros E. injection E as <-. cbn [ap_Z CNref iCNref]. repeat split; try lia.
  - apply NoDup_filter, zrange_NoDup.
  - apply filter_In in H1. destruct H1 as [I _]. apply in_zrange in I. lia.
  - apply filter_In in H1. destruct H1 as [I _]. apply in_zrange in I. lia.
  - apply filter_In in H1. destruct H1 as [_ E]. apply Z.eqb_eq in E. auto.
  - intros [I E]. apply filter_In. split; [apply in_zrange; auto|apply Z.eqb_eq; auto].
Qed.
(** values of hydrogen and oxygen from VanDerWaalsD3_data.h: the five reference states and the coefficients of pairs of them *)
Definition hoZ (i : Z) : Z := if (i =? 0)%Z || (i =? 94)%Z then 1%Z else if (i =? 7)%Z || (i =? 100)%Z || (i =? 185)%Z then 8%Z else 0%Z.
Definition hoCN (i : Z) : R := if (i =? 0)%Z then 9118/10000 else if (i =? 100)%Z then 9925/10000 else if (i =? 185)%Z then 19887/10000 else 0.
Definition hoC6 (k : Z) : R :=
  if (k =? iCN12 0 7)%Z then 6718/1000 else if (k =? iCN12 0 100)%Z then 60575/10000 else if (k =? iCN12 0 185)%Z then 53717/10000
  else if (k =? iCN12 94 7)%Z then 102371/10000 else if (k =? iCN12 94 100)%Z then 91812/10000 else if (k =? iCN12 94 185)%Z then 80848/10000 else 0.
Lemma ho_filter z l : (z = 1 /\ l = [0; 94] \/ z = 8 /\ l = [7; 100; 185])%Z -> filter (fun iCN => (z =? hoZ iCN)%Z) (zrange 0 254) = l.
Proof. intros [[-> ->]|[-> ->]]; vm_compute; reflexivity. Qed.
Lemma layout_wrong : exists tabQ tabRcov nCN tabZ tabCN coeff tabR0 ap1 ap2,
  getAtomParams tabQ tabRcov nCN tabZ tabCN 1 = Some ap1 /\ getAtomParams tabQ tabRcov nCN tabZ tabCN 8 = Some ap2 /\
  (exists i j, (i < length (CNref ap1))%nat /\ (j < length (CNref ap2))%nat /\
    entry (pp_C6 (getPairParams coeff tabR0 ap1 ap2)) i j <> coeff (iCN12 (nth i (iCNref ap1) 0%Z) (nth j (iCNref ap2) 0%Z)) /\
    entry (pp_C6 (getPairParams coeff tabR0 ap1 ap2)) i j <> entry (pp_C6 (getPairParams coeff tabR0 ap2 ap1)) j i).
Proof.
  exists (fun _ => 0), (fun _ => 0), 254%Z, hoZ, hoCN, hoC6, (fun _ => 0).
  exists (AP 1 0 0 (map hoCN [0; 94]%Z) [0; 94]%Z), (AP 8 0 0 (map hoCN [7; 100; 185]%Z) [7; 100; 185]%Z). split; [|split].
  - unfold getAtomParams. rewrite (ho_filter 1 [0; 94]%Z) by auto. reflexivity.
  - unfold getAtomParams. rewrite (ho_filter 8 [7; 100; 185]%Z) by auto. reflexivity.
  - exists 0%nat, 1%nat. split; [cbn; lia|split; [cbn; lia|]]. unfold entry, getPairParams. cbn [pp_C6 nr mdata CNref iCNref map flat_map app length nth Nat.mul Nat.add].
    assert (V1 : hoC6 (iCN12 0 185) = 53717/10000) by reflexivity. assert (V2 : hoC6 (iCN12 0 100) = 60575/10000) by reflexivity. assert (V3 : hoC6 (iCN12 7 94) = 102371/10000) by reflexivity.
    rewrite V1, V2, V3. lra.
Qed.

(** ** Interpolation weights *)
Lemma gaussSum_pos refs x : refs <> [] -> 0 < gaussSum refs x.
Proof.
  destruct refs as [|a l]; [congruence|]. intros _. unfold gaussSum. rewrite rsum_cons. assert (X := exp_pos (- (4) * (x - a) ^ 2)).
  assert (0 <= rsum (fun c => exp (- (4) * (x - c) ^ 2)) l) by (apply rsum_nonneg; intros; apply Rlt_le, exp_pos). lra.
Qed.
Lemma maxIdx_spec l : forall i best vb, forall pre, length pre = i -> (best < i)%nat -> nth best pre 0 = vb -> (forall k, (k < i)%nat -> nth k pre 0 <= vb) ->
  let r := maxIdx l i best vb in (r < length (pre ++ l))%nat /\ forall k, (k < length (pre ++ l))%nat -> nth k (pre ++ l) 0 <= nth r (pre ++ l) 0.
Proof.
  induction l as [|v l IH]; intros i best vb pre Lp Lb Eb M; cbn [maxIdx].
  - cbv zeta. rewrite app_nil_r. split; [lia|]. intros k K. rewrite Eb. apply M. lia.
  - assert (A : forall k, (k < S i)%nat -> nth k (pre ++ [v]) 0 = if (k <? i)%nat then nth k pre 0 else v).
    { intros k K. destruct (Nat.ltb_spec k i); [apply app_nth1; lia|]. assert (k = i) by lia. subst k. rewrite app_nth2 by lia. replace (i - length pre)%nat with 0%nat by lia. reflexivity. }
    assert (Lp' : length (pre ++ [v]) = S i) by (rewrite app_length; cbn; lia).
    replace (pre ++ v :: l) with ((pre ++ [v]) ++ l) by (rewrite <- app_assoc; reflexivity).
    destruct (Rlt_dec vb v) as [G|G]; cbv zeta.
    + assert (Q : nth i (pre ++ [v]) 0 = v) by (rewrite A by lia; rewrite Nat.ltb_irrefl; reflexivity).
      assert (M' : forall k, (k < S i)%nat -> nth k (pre ++ [v]) 0 <= v). { intros k K. rewrite A by auto. destruct (Nat.ltb_spec k i); [assert (X := M k ltac:(auto)); lra|lra]. }
      apply IH; auto.
    + assert (Q : nth best (pre ++ [v]) 0 = vb) by (rewrite A by lia; destruct (Nat.ltb_spec best i); [exact Eb|lia]).
      assert (M' : forall k, (k < S i)%nat -> nth k (pre ++ [v]) 0 <= vb). { intros k K. rewrite A by auto. destruct (Nat.ltb_spec k i); [apply M; auto|lra]. }
      apply IH; auto.
Qed.
Lemma max_element_spec l : l <> [] -> (max_element l < length l)%nat /\ forall k, (k < length l)%nat -> nth k l 0 <= nth (max_element l) l 0.
Proof.
  destruct l as [|v l]; [congruence|]. intros _. unfold max_element. change (v :: l) with ([v] ++ l).
  assert (M : forall k, (k < 1)%nat -> nth k [v] 0 <= v) by (intros k K; assert (k = 0)%nat by lia; subst; cbn; lra).
  apply (maxIdx_spec l 1 0 v); auto.
Qed.
Lemma rsum_nth (l : list R) : rsum (fun i => nth i l 0) (seq 0 (length l)) = rsum (fun x => x) l.
Proof. rewrite <- (rsum_map (fun x => x) (fun i => nth i l 0)). f_equal. apply nth_ext with 0 0; [rewrite map_length, seq_length; reflexivity|]. intros k K. rewrite map_length, seq_length in K. rewrite (nth_map _ (seq 0 (length l)) 0%nat k), seq_length. assert (E : (k <? length l)%nat = true) by (apply Nat.ltb_lt; auto). rewrite E, seq_nth by auto. reflexivity. Qed.
Lemma weights_sum refs x : refs <> [] -> (forall i, 0 <= nth i (fst (getL refs x)) 0) /\ rsum (fun i => nth i (fst (getL refs x)) 0) (seq 0 (length refs)) = 1 /\ rsum (fun i => nth i (snd (getL refs x)) 0) (seq 0 (length refs)) = 0.
Proof.
  intros N. assert (Pg := gaussSum_pos refs x N). assert (Ln : length (fst (getL refs x)) = length refs /\ length (snd (getL refs x)) = length refs).
  { split; [apply getL_length|]. unfold getL. cbv zeta. destruct (Rlt_dec _ _); cbn [snd]; apply map_length. }
  rewrite <- (proj1 Ln) at 1. rewrite rsum_nth. rewrite <- (proj2 Ln), rsum_nth. clear Ln. unfold getL. cbv zeta. rewrite LsumOf_gauss. destruct (Rlt_dec _ _) as [L|L]; cbn [fst snd].
  - destruct (max_element_spec refs N) as [K _]. repeat split.
    + intros i. rewrite (nth_map _ (seq 0 (length refs)) 0%nat i). destruct (i <? _)%nat; [|lra]. destruct (_ =? _)%nat; lra.
    + rewrite rsum_map. apply (rsum_at (length refs) (max_element refs) 1 K).
    + rewrite rsum_map. apply rsum_zero.
  - repeat split.
    + intros i. rewrite (nth_map _ refs 0 i). destruct (i <? _)%nat; [|lra]. apply Rmult_le_pos; [apply Rlt_le, exp_pos|]. apply Rlt_le, Rdiv_lt_0_compat; lra.
    + rewrite rsum_map. rewrite (rsum_ext _ (fun c => (1 / gaussSum refs x) * Lraw x c)) by (intros; ring). rewrite rsum_scale, <- LsumOf_rsum, LsumOf_gauss. field. lra.
    + rewrite rsum_map. rewrite (rsum_ext _ (fun c => (1 / gaussSum refs x) * Lraw' x c + (- (1 / gaussSum refs x) * (1 / gaussSum refs x * LprimeSumOf refs x)) * Lraw x c)) by (intros; ring).
      rewrite rsum_add, !rsum_scale, <- LsumOf_rsum, <- LprimeSumOf_rsum, LsumOf_gauss. field. lra.
Qed.
Lemma rsum_le {A} (f g : A -> R) l : (forall a, In a l -> f a <= g a) -> rsum f l <= rsum g l.
Proof. intros H. assert (P : 0 <= rsum (fun a => g a + -1 * f a) l) by (apply rsum_nonneg; intros a I; assert (X := H a I); lra). rewrite rsum_add, rsum_scale in P. lra. Qed.
Lemma weights_convex r1 r2 m x1 x2 lo hi : r1 <> [] -> r2 <> [] -> nr m = length r1 -> nc m = length r2 ->
  (forall i j, (i < length r1)%nat -> (j < length r2)%nat -> lo <= entry m i j <= hi) -> lo <= bilinear (fst (getL r1 x1)) m (fst (getL r2 x2)) <= hi.
Proof.
  intros N1 N2 E1 E2 H. destruct (weights_sum r1 x1 N1) as (P1 & S1 & _). destruct (weights_sum r2 x2 N2) as (P2 & S2 & _). unfold bilinear. rewrite E1, E2.
  set (w1 := fun i => nth i (fst (getL r1 x1)) 0) in *. set (w2 := fun j => nth j (fst (getL r2 x2)) 0) in *.
  assert (C : forall c, rsum (fun j => rsum (fun i => w1 i * c) (seq 0 (length r1)) * w2 j) (seq 0 (length r2)) = c).
  { intros c. rewrite (rsum_ext _ (fun j => c * w2 j)). - rewrite rsum_scale, S2. ring. - intros j _. rewrite (rsum_ext _ (fun i => c * w1 i)) by (intros; ring). rewrite rsum_scale, S1. ring. }
  split; [rewrite <- (C lo) at 1|rewrite <- (C hi)]; apply rsum_le; intros j J; apply in_seq in J; (apply Rmult_le_compat_r; [apply P2|]); apply rsum_le; intros i I; apply in_seq in I; (apply Rmult_le_compat_l; [apply P1|]); apply H; lia.
Qed.

(** ** Reach of the sampling *)
Lemma ortho_len2 Rl (x : vec R) : orthogonal Rl -> rlen2 (rmv Rl x) = c0 x * c0 x * rlen2 (col0 Rl) + c1 x * c1 x * rlen2 (col1 Rl) + c2 x * c2 x * rlen2 (col2 Rl).
Proof.
  intros (A & B & C). destruct Rl as [a00 a01 a02 a10 a11 a12 a20 a21 a22], x as [x y z]. revert A B C. v3u. intros A B C.
  match goal with |- ?l = ?r => replace l with (r + 2 * x * y * (a00 * a01 + a10 * a11 + a20 * a21) + 2 * x * z * (a00 * a02 + a10 * a12 + a20 * a22) + 2 * y * z * (a01 * a02 + a11 * a12 + a21 * a22)) by ring end.
  rewrite A, B, C. ring.
Qed.
Lemma reach1 (g : Z) (u L2 cut d2 : R) : 0 < L2 -> 0 < cut -> -1 < u < 1 -> (IZR g + u) * (IZR g + u) * L2 <= d2 -> d2 <= cut * cut -> (2 * Z.abs g < 1 + 2 * rceil (cut / sqrt L2))%Z.
Proof.
  intros P Pc U H1 H2. assert (S0 := sqrt_lt_R0 L2 P). assert (S2 := sqrt_sqrt L2 ltac:(lra)). set (s := sqrt L2) in *. assert (C := rceil_ge (cut / s)). set (N := rceil (cut / s)) in *.
  assert (Q : cut <= IZR N * s). { apply (Rmult_le_compat_r s) in C; [|lra]. unfold Rdiv in C. rewrite Rmult_assoc, Rinv_l, Rmult_1_r in C by lra. exact C. }
  assert (A : Rabs (IZR g + u) <= IZR N).
  { apply Rsqr_incr_0_var. - unfold Rsqr. rewrite <- Rabs_mult, Rabs_pos_eq by apply Rle_0_sqr. apply (Rmult_le_reg_r L2); [lra|]. assert (X : cut * cut <= (IZR N * s) * (IZR N * s)) by nra. replace (IZR N * IZR N * L2) with ((IZR N * s) * (IZR N * s)) by (rewrite <- S2; ring). lra.
    - apply (Rmult_le_reg_r s); lra. }
  assert (G : (Z.abs g < N + 1)%Z). { apply lt_IZR. rewrite abs_IZR, plus_IZR. assert (T := Rabs_triang (IZR g + u) (- u)). replace (IZR g + u + - u) with (IZR g) in T by ring. rewrite Rabs_Ropp in T. assert (Rabs u < 1) by (apply Rabs_def1; lra). lra. }
  lia.
Qed.
Lemma sampling_reach Rl cut pos a b g : orthogonal Rl -> (forall k, (k < 3)%nat -> rlen (mrow (mtrans Rl) k) <> 0) -> 0 < cut ->
  (let d := rvsub (pos a) (pos b) in -1 < c0 d < 1 /\ -1 < c1 d < 1 /\ -1 < c2 d < 1) ->
  distance Rl pos a b g <= cut -> let '(x, y, z) := g in let '(sx, sy, sz) := sampling Rl (fun _ => false) cut in (2 * Z.abs x < sx /\ 2 * Z.abs y < sy /\ 2 * Z.abs z < sz)%Z.
Proof.
  intros O Len Pc. destruct g as [[x y] z]. cbv zeta. set (u := rvsub (pos a) (pos b)). intros (U0 & U1 & U2). unfold distance. fold u. intros D.
  set (v := rvadd (V (IZR x) (IZR y) (IZR z)) u) in *. assert (Q := ortho_len2 Rl v O).
  assert (E0 : c0 v = IZR x + c0 u) by reflexivity. assert (E1 : c1 v = IZR y + c1 u) by reflexivity. assert (E2 : c2 v = IZR z + c2 u) by reflexivity. rewrite E0, E1, E2 in Q.
  assert (D2 : rlen2 (rmv Rl v) <= cut * cut). { unfold rlen in D. assert (N := rlen2_pos (rmv Rl v)). assert (S2 := sqrt_sqrt _ N). assert (S0 := sqrt_pos (rlen2 (rmv Rl v))). nra. }
  assert (PL : forall w : vec R, rlen w <> 0 -> 0 < rlen2 w). { intros w Hw. assert (N := rlen2_pos w). destruct N as [|N]; [auto|]. exfalso. apply Hw. unfold rlen. rewrite <- N. apply sqrt_0. }
  assert (L0 := PL _ (Len 0%nat ltac:(lia))). assert (L1 := PL _ (Len 1%nat ltac:(lia))). assert (L2 := PL _ (Len 2%nat ltac:(lia))).
  assert (C0 : mrow (mtrans Rl) 0 = col0 Rl) by (destruct Rl; reflexivity). assert (C1 : mrow (mtrans Rl) 1 = col1 Rl) by (destruct Rl; reflexivity). assert (C2 : mrow (mtrans Rl) 2 = col2 Rl) by (destruct Rl; reflexivity).
  unfold sampling, nSample, rlen. rewrite C0, C1, C2 in *.
  assert (N0 : 0 <= (IZR x + c0 u) * (IZR x + c0 u) * rlen2 (col0 Rl)) by (apply Rmult_le_pos; [apply Rle_0_sqr|lra]).
  assert (N1 : 0 <= (IZR y + c1 u) * (IZR y + c1 u) * rlen2 (col1 Rl)) by (apply Rmult_le_pos; [apply Rle_0_sqr|lra]).
  assert (N2 : 0 <= (IZR z + c2 u) * (IZR z + c2 u) * rlen2 (col2 Rl)) by (apply Rmult_le_pos; [apply Rle_0_sqr|lra]).
  repeat split; [apply (reach1 x (c0 u) _ cut (rlen2 (rmv Rl v)))|apply (reach1 y (c1 u) _ cut (rlen2 (rmv Rl v)))|apply (reach1 z (c2 u) _ cut (rlen2 (rmv Rl v)))]; auto; lra.
Qed.
Lemma rceil_lt x : IZR (rceil x) < x + 1.
Proof. unfold rceil. rewrite opp_IZR. assert (B := rfloor_bounds (- x)). lra. Qed.
Lemma sampling_misses : exists Rl pos a b x y z, rdet Rl <> 0 /\ pos a = V 0 0 0 /\ pos b = V 0 0 0 /\ distance Rl pos a b (x, y, z) <= 200 /\
  let '(sx, sy, sz) := sampling Rl (fun _ => false) 200 in ~ (2 * Z.abs x < sx /\ 2 * Z.abs y < sy /\ 2 * Z.abs z < sz)%Z.
Proof.
  exists (M 0 5 5 5 0 5 5 5 0), (fun _ => V 0 0 0), 0%nat, 0%nat, 34%Z, (-11)%Z, (-11)%Z. split; [replace (rdet _) with 250 by (unfold rdet; v3u; ring); lra|]. split; [reflexivity|]. split; [reflexivity|]. split.
  - unfold distance, rlen. replace (rlen2 _) with 38550 by (v3u; ring). replace 200 with (sqrt (200 * 200)) by (apply sqrt_square; lra). apply sqrt_le_1; lra.
  - unfold sampling, nSample. cbn [mrow]. intros (H & _ & _).
    assert (E : rlen (row0 (mtrans (M 0 5 5 5 0 5 5 5 0))) = sqrt 50) by (unfold rlen; f_equal; v3u; ring).
    assert (K := rceil_lt (200 / rlen (row0 (mtrans (M 0 5 5 5 0 5 5 5 0))))). set (N := rceil _) in *. rewrite E in K.
    assert (S7 : 7 < sqrt 50). { replace 7 with (sqrt (7 * 7)) by (apply sqrt_square; lra). apply sqrt_lt_1; lra. }
    assert (B : 200 / sqrt 50 < 29). { apply (Rmult_lt_reg_r (sqrt 50)); [lra|]. unfold Rdiv. rewrite Rmult_assoc, Rinv_l by lra. lra. }
    assert (X : (N < 30)%Z) by (apply lt_IZR; lra). cbn [Z.abs] in H. lia.
Qed.

(** ** Cache of radial functions *)
Section Cache.
  Variables (table : Z -> d2par) (unit1 : d2par).
  Definition c6Of (z : Z) : R := if (z =? unitParticle)%Z then p_C6 unit1 else p_C6 (table z).
  Definition r0Of (z : Z) : R := if (z =? unitParticle)%Z then p_R0 unit1 else p_R0 (table z).
  Definition known (z : Z) : Prop := z = (-1)%Z \/ (1 <= z <= 118)%Z.
  Definition cacheOk (m : cache) : Prop := forall z1 z2 v, cacheFind (z1, z2) m = Some v -> v = pairCombination c6Of r0Of z1 z2.
  Lemma getParams_none z sp : known z -> exists p, getParams table (fun _ => None) z sp unit1 = Some p /\ p_C6 p = c6Of z /\ p_R0 p = r0Of z.
  Proof.
    intros K. unfold getParams, c6Of, r0Of. destruct (Z.eqb_spec z unitParticle) as [->|N]; [exists unit1; auto|]. unfold unitParticle in N. exists (table z).
    assert (E : ((0 <? z)%Z && (z <=? 118)%Z)%bool = true) by (unfold known in K; lia). destruct (0 <=? sp)%Z; rewrite E; auto.
  Qed.
  Lemma pair_sym z1 z2 : pairCombination c6Of r0Of z1 z2 = pairCombination c6Of r0Of z2 z1.
  Proof. unfold pairCombination. f_equal; [f_equal; ring|ring]. Qed.
  Lemma pair_minmax z1 z2 : pairCombination c6Of r0Of (Z.min z1 z2) (Z.max z1 z2) = pairCombination c6Of r0Of z1 z2.
  Proof. destruct (Z.le_ge_cases z1 z2); [rewrite Z.min_l, Z.max_r by auto; reflexivity|rewrite Z.min_r, Z.max_l by auto; apply pair_sym]. Qed.
  Lemma cache_correct m z1 z2 sp1 sp2 : cacheOk m -> known z1 -> known z2 ->
    exists m', getRadialFunction table (fun _ => None) unit1 m z1 z2 sp1 sp2 = Some (pairCombination c6Of r0Of z1 z2, m') /\ cacheOk m'.
  Proof.
    intros C K1 K2. unfold getRadialFunction. cbv zeta. destruct (cacheFind _ m) as [v|] eqn:F.
    - exists m. apply C in F. rewrite pair_minmax in F. subst v. auto.
    - destruct (getParams_none z1 sp1 K1) as (p1 & E1 & A1 & B1). destruct (getParams_none z2 sp2 K2) as (p2 & E2 & A2 & B2). rewrite E1, E2, A1, A2, B1, B2.
      fold (pairCombination c6Of r0Of z1 z2). eexists. split; [reflexivity|]. intros a b v. cbn [cacheFind fst snd].
      destruct (Z.eqb_spec a (Z.min z1 z2)) as [->|]; cbn [andb]; [|apply C]. destruct (Z.eqb_spec b (Z.max z1 z2)) as [->|]; [|apply C]. intros E. injection E as <-. symmetry. apply pair_minmax.
  Qed.
End Cache.
Lemma cache_ignores_species : exists table vdwOverride unit1 z sp1 sp2 v1 m1 v2 m2 p2,
  getRadialFunction table vdwOverride unit1 [] z (-1) sp1 (-1) = Some (v1, m1) /\
  getRadialFunction table vdwOverride unit1 m1 z (-1) sp2 (-1) = Some (v2, m2) /\
  getParams table vdwOverride z sp2 unit1 = Some p2 /\ snd v2 <> p_R0 p2 + p_R0 unit1.
Proof.
  exists (fun _ => D2P 1 1), (fun s => if (s =? 1)%Z then Some (D2P 2 2) else None), (D2P 1 0), 6%Z, 0%Z, 1%Z.
  do 5 eexists. split; [reflexivity|]. split; [reflexivity|]. split; [reflexivity|]. cbn. lra.
Qed.
