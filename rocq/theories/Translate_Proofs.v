(** Loop bodies of the translation operators. *)
From Coq Require Import ZArith Reals List Bool Lia Lra Permutation.
From Verif Require Import Base WorkDiv_Model WorkDiv_Proofs Grid_Model Grid_Spec Grid_Proofs FFTBox_Model IntUtil_Model IntUtil_Proofs Vec3_Model Vec3_Facts Lattice_Model KPoints_Model
  RealUtil Translate_Model Translate_Spec.
Import ListNotations.
Local Open Scope R_scope.

(** accumulation: every index once, any order *)
Lemma accumulate_ok inc h : forall vis y, NoDup (map fst vis) -> (forall i iv, In (i, iv) vis -> inc iv = Some (h i)) ->
  exists y', accumulate inc vis y = Some y' /\ (forall k, In k (map fst vis) -> y' k = y k + h k) /\ (forall k, ~ In k (map fst vis) -> y' k = y k).
Proof.
  induction vis as [|[i iv] l IH]; intros y N H; cbn.
  - exists y. split; [reflexivity|]. split; [intros k []|reflexivity].
  - rewrite (H i iv (or_introl eq_refl)). cbn. inversion N as [|? ? Ni Nl]; subst.
    destruct (IH (fun k => if (k =? i)%Z then y k + h i else y k) Nl) as (y' & E & A & B).
    { intros j jv Hj. apply H. right. exact Hj. }
    exists y'. split; [exact E|]. split.
    + intros k [K|K].
      * subst k. rewrite (B i Ni), Z.eqb_refl. reflexivity.
      * rewrite (A k K). destruct (Z.eqb_spec k i) as [->|]; [contradiction|reflexivity].
    + intros k K. rewrite (B k) by (intros Q; apply K; right; exact Q). destruct (Z.eqb_spec k i) as [->|]; [exfalso; apply K; left; reflexivity|reflexivity].
Qed.

Lemma union_concat S fuel nT ls L : thread_visits S fuel nT = map Some ls -> thread_union (THREAD_rLoop S) fuel nT (nr S) = Some L -> concat ls = L.
Proof.
  unfold thread_visits, thread_union. generalize (zrange 0 nT). intros l. revert ls L. induction l as [|t l IH]; intros ls L; cbn.
  - destruct ls; [|discriminate]. intros _ E. injection E as <-. reflexivity.
  - destruct ls as [|a ls]; [discriminate|]. cbn. intros E. injection E as E1 E2. rewrite E1. 
    destruct (fold_right _ _ l) as [L'|] eqn:F; [|discriminate]. intros Q. injection Q as <-. f_equal. apply IH; [exact E2|reflexivity].
Qed.
Lemma schedule_ok S fuel nT s : pos3 S -> (0 < nT)%Z -> (nr S < Z.of_nat fuel)%Z -> schedule S fuel nT s ->
  Permutation (map fst s) (zrange 0 (nr S)) /\ (forall i iv, In (i, iv) s -> r_point S iv /\ row_major S (v2 S) iv = i).
Proof.
  intros P T F (ls & E & I). destruct (rLoop_all_threads S nT fuel P T F) as (L & EL & V1 & V2).
  apply interleave_perm in I. rewrite (union_concat _ _ _ _ _ E EL) in I. split.
  - rewrite <- V1. apply Permutation_map. symmetry. exact I.
  - intros i iv H. rewrite List.Forall_forall in V2. apply (V2 (i, iv)). eapply Permutation_in; [symmetry; exact I|exact H].
Qed.
(** schedules exist *)
Lemma interleave_concat {A} (ls : list (list A)) : interleave ls (concat ls).
Proof.
  induction ls as [|l ls IH]; [apply il_done; constructor|]. cbn. induction l as [|a l IHl]; cbn.
  - clear - IH. revert IH. generalize (concat ls). intros s I. revert I. 
    assert (G : forall (ls : list (list A)) s, interleave ls s -> interleave ([] :: ls) s).
    { clear. induction 1 as [ls H|ls1 a l ls2 s H IH]; [apply il_done; constructor; auto|]. apply (il_step ([] :: ls1)). exact IH. }
    apply G.
  - apply (il_step []). exact IHl.
Qed.
Lemma schedule_exists S fuel nT : pos3 S -> (0 < nT)%Z -> (nr S < Z.of_nat fuel)%Z -> exists s, schedule S fuel nT s.
Proof.
  intros P T F. destruct (rLoop_all_threads S nT fuel P T F) as (L & EL & _).
  assert (G : forall l L, fold_right (fun t acc => match THREAD_rLoop S fuel (thread_i1 nT (nr S) t) (thread_i2 nT (nr S) t), acc with
                           | Some L, Some L' => Some (L ++ L') | _, _ => None end) (Some []) l = Some L ->
     exists ls, map (fun t => THREAD_rLoop S fuel (thread_i1 nT (nr S) t) (thread_i2 nT (nr S) t)) l = map Some ls).
  { clear. induction l as [|t l IH]; cbn; intros L E; [exists []; reflexivity|].
    destruct (THREAD_rLoop S fuel _ _) as [a|]; [|discriminate]. destruct (fold_right _ _ l) as [L'|] eqn:Q; [|discriminate].
    destruct (IH L' eq_refl) as (ls & E'). exists (a :: ls). cbn. rewrite E'. reflexivity. }
  destruct (G _ _ EL) as (ls & E). exists (concat ls), ls. split; [exact E|apply interleave_concat].
Qed.

(** integer and fractional parts *)
Lemma rem_fix n S : (0 < S)%Z -> (let i := Z.rem n S in if (i <? 0)%Z then (i + S)%Z else i) = (n mod S)%Z.
Proof.
  intros H. cbv zeta. assert (E := Z.quot_rem' n S). assert (B := Z.rem_bound_abs n S). 
  destruct (Z.ltb_spec (Z.rem n S) 0).
  - apply Z.mod_unique with (Z.quot n S - 1)%Z; lia.
  - apply Z.mod_unique with (Z.quot n S); lia.
Qed.
Lemma constantT_mod S t : (0 < S)%Z -> constantT S t = (roundSym t mod S)%Z.
Proof. intros H. unfold constantT. apply (rem_fix (roundSym t) S H). Qed.
Lemma roundSym_nearest t : nearest t (roundSym t).
Proof.
  unfold nearest, roundSym. assert (B := rfloor_bounds (Rabs t + 1/2)). destruct (Rlt_dec t 0) as [L|L].
  - rewrite opp_IZR. rewrite (Rabs_left t L) in *. apply Rabs_le. lra.
  - rewrite (Rabs_right t) in * by lra. apply Rabs_le. lra.
Qed.
Lemma roundSym_odd t : roundSym (- t) = (- roundSym t)%Z.
Proof.
  unfold roundSym. rewrite Rabs_Ropp. destruct (Rlt_dec t 0), (Rlt_dec (- t) 0); try lra; try lia.
  assert (t = 0) by lra. subst. rewrite Rabs_R0. replace (rfloor (0 + 1/2)) with 0%Z; [reflexivity|]. symmetry. apply rfloor_unique. lra.
Qed.
Lemma roundSym_int n : roundSym (IZR n) = n.
Proof.
  assert (N := roundSym_nearest (IZR n)). unfold nearest in N. rewrite <- minus_IZR, <- abs_IZR in N.
  assert (Z.abs (n - roundSym (IZR n)) < 1)%Z; [|lia]. apply lt_IZR. lra.
Qed.
Lemma linearT_eq S t : (0 < S)%Z -> linearT S t = ((rfloor t mod S)%Z, t - IZR (rfloor t)).
Proof.
  intros H. assert (HS : 0 < IZR S) by (apply IZR_lt; exact H). unfold linearT, rfmod. set (q := rtrunc (t / IZR S)).
  assert (B : - IZR S < t - IZR S * IZR q < IZR S).
  { assert (E : t = IZR S * (t / IZR S)) by (field; lra). unfold q, rtrunc. destruct (Rle_dec 0 (t / IZR S)) as [L|L].
    - assert (F := rfloor_bounds (t / IZR S)). set (x := t / IZR S) in *. rewrite E. split; nra.
    - assert (F := rfloor_bounds (- (t / IZR S))). set (x := t / IZR S) in *. rewrite opp_IZR. rewrite E. split; nra. }
  assert (G : forall k, 0 <= t - IZR (S * k) < IZR S -> (Z.rem (rfloor (t - IZR (S * k))) S, t - IZR (S * k) - IZR (rfloor (t - IZR (S * k)))) = ((rfloor t mod S)%Z, t - IZR (rfloor t))).
  { intros k K. assert (Q : rfloor (t - IZR (S * k)) = (rfloor t - S * k)%Z).
    { unfold Rminus. rewrite <- opp_IZR, rfloor_add. lia. }
    rewrite Q. f_equal.
    - assert (0 <= rfloor t - S * k < S)%Z. { rewrite <- Q. split; [apply rfloor_ge; lra|apply rfloor_lt; lra]. }
      rewrite Z.rem_small by lia. apply Z.mod_unique with k; lia.
    - rewrite minus_IZR. ring. }
  destruct (Rlt_dec (t - IZR S * IZR q) 0) as [L|L].
  - replace (t - IZR S * IZR q + IZR S) with (t - IZR (S * (q - 1))) by (rewrite mult_IZR, minus_IZR; ring).
    apply G. rewrite mult_IZR, minus_IZR. lra.
  - rewrite <- mult_IZR in *. apply G. lra.
Qed.

(** reading the translated point *)
Lemma rd_row S x g : pos3 S -> rd (nr S) x (row_major S (v2 S) g) = Some (per S x g).
Proof.
  intros P. unfold rd, per. replace (snd S) with (v2 S) by reflexivity. assert (B := full_row_range S g P).
  destruct (Z.leb_spec 0 (row_major S (v2 S) g)), (Z.ltb_spec (row_major S (v2 S) g) (nr S)); try lia. reflexivity.
Qed.
Lemma wrapped_row S g : pos3 S -> (0 <= v0 g < 2 * v0 S)%Z -> (0 <= v1 g < 2 * v1 S)%Z -> (0 <= v2 g < 2 * v2 S)%Z ->
  wrappedIndex g S = row_major S (v2 S) g.
Proof.
  intros P A B C. rewrite wrappedIndex_mod.
  - destruct S as [[a b] c], g as [[x y] z]. cbn. ring.
  - intros k. destruct S as [[a b] c], g as [[x y] z]. cbn in *. destruct k as [|[|k]]; cbn; auto.
Qed.
Lemma per_mod S x g g' : (v0 g mod v0 S = v0 g' mod v0 S)%Z -> (v1 g mod v1 S = v1 g' mod v1 S)%Z -> (v2 g mod v2 S = v2 g' mod v2 S)%Z -> per S x g = per S x g'.
Proof. destruct S as [[a b] c], g as [[p q] r], g' as [[p' q'] r']. unfold per, row_major. cbn [v0 v1 v2 fst snd]. intros -> -> ->. reflexivity. Qed.
Lemma read_shift S x iy m d : pos3 S -> r_point S iy -> (0 <= v0 d <= 1)%Z -> (0 <= v1 d <= 1)%Z -> (0 <= v2 d <= 1)%Z ->
  rd (nr S) x (wrappedIndex (v3add (v3add iy (v0 m mod v0 S, v1 m mod v1 S, v2 m mod v2 S)%Z) d) S) = Some (per S x (plus3 (plus3 iy m) d)).
Proof.
  intros P Q D0 D1 D2.
  assert (M : forall a b c n, ((a + b mod n + c) mod n = (a + b + c) mod n)%Z).
  { intros a b c n. replace (a + b mod n + c)%Z with (a + c + b mod n)%Z by ring. rewrite Zplus_mod_idemp_r. f_equal. ring. }
  rewrite wrapped_row; [rewrite rd_row by exact P; f_equal; apply per_mod|exact P|..];
    destruct S as [[a b] c], iy as [[p q] r], m as [[u v] w], d as [[d0 d1] d2]; unfold v3add, plus3; cbn [v0 v1 v2 fst snd] in *; try apply M;
    destruct P as (Pa & Pb & Pc); destruct Q as (Qa & Qb & Qc).
  - assert (B := Z.mod_pos_bound u a Pa). lia.
  - assert (B := Z.mod_pos_bound v b Pb). lia.
  - assert (B := Z.mod_pos_bound w c Pc). lia.
Qed.
(** the increments *)
Definition corner (f : vec R) (F : V3 -> R) : R :=
  (1 - c0 f) * ((1 - c1 f) * ((1 - c2 f) * F (0,0,0)%Z + c2 f * F (0,0,1)%Z) + c1 f * ((1 - c2 f) * F (0,1,0)%Z + c2 f * F (0,1,1)%Z))
  + c0 f * ((1 - c1 f) * ((1 - c2 f) * F (1,0,0)%Z + c2 f * F (1,0,1)%Z) + c1 f * ((1 - c2 f) * F (1,1,0)%Z + c2 f * F (1,1,1)%Z)).
Lemma constant_inc S alpha x m iy : pos3 S -> r_point S iy ->
  constantSpline_calc S alpha x (v0 m mod v0 S, v1 m mod v1 S, v2 m mod v2 S)%Z iy = Some (alpha * per S x (plus3 iy m)).
Proof.
  intros P Q. assert (E := read_shift S x iy m (0,0,0)%Z P Q). cbn [v0 v1 v2 fst snd] in E. specialize (E ltac:(lia) ltac:(lia) ltac:(lia)).
  unfold constantSpline_calc. replace (v3add iy _) with (v3add (v3add iy (v0 m mod v0 S, v1 m mod v1 S, v2 m mod v2 S)%Z) (0,0,0)%Z).
  - rewrite E. cbn. do 3 f_equal. destruct (plus3 iy m) as [[p q] r]. cbn. rewrite !Z.add_0_r. reflexivity.
  - unfold v3add. cbn [v0 v1 v2 fst snd]. rewrite !Z.add_0_r. reflexivity.
Qed.
Lemma linear_inc S alpha x m f iy : pos3 S -> r_point S iy ->
  linearSpline_calc S alpha x (v0 m mod v0 S, v1 m mod v1 S, v2 m mod v2 S)%Z f iy = Some (alpha * corner f (fun d => per S x (plus3 (plus3 iy m) d))).
Proof.
  intros P Q. unfold linearSpline_calc. cbn [wsum]. rewrite !(fun d => read_shift S x iy m d P Q) by (cbn; lia). cbn [obind]. f_equal. f_equal.
  unfold corner, w2. cbn [Z.eqb]. ring.
Qed.
Lemma absorb_value y i : fdata (absorbScale (nullToZero y)) i = valueO y i.
Proof. destruct y; cbn; [reflexivity|ring]. Qed.
(** integer shift and weights used by taxpy *)
Definition Tshift (ty : splineType) (T : vec R) : V3 :=
  match ty with Constant => (roundSym (c0 T), roundSym (c1 T), roundSym (c2 T)) | Linear => (rfloor (c0 T), rfloor (c1 T), rfloor (c2 T)) end.
Definition Tweight (ty : splineType) (T : vec R) : vec R :=
  match ty with Constant => V 0 0 0 | Linear => V (c0 T - IZR (rfloor (c0 T))) (c1 T - IZR (rfloor (c1 T))) (c2 T - IZR (rfloor (c2 T))) end.
Definition shifted (ty : splineType) (S : V3) (T : vec R) (x : Z -> R) (g : V3) : R :=
  corner (Tweight ty T) (fun d => per S x (plus3 (plus3 g (Tshift ty T)) d)).
Lemma plus3_0 g : plus3 g (0,0,0)%Z = g. Proof. destruct g as [[p q] r]. cbn. rewrite !Z.add_0_r. reflexivity. Qed.
Lemma per_scale S a x g : per S (fun i => a * x i) g = a * per S x g. Proof. reflexivity. Qed.
Lemma increment_ok ty S Rl t alpha x iy : pos3 S -> r_point S iy ->
  increment ty S Rl t alpha x iy = Some (alpha * shifted ty S (gridUnits S Rl t) (value x) iy).
Proof.
  intros P Q. assert (P' : (0 < v0 S /\ 0 < v1 S /\ 0 < v2 S)%Z) by (destruct S as [[a b] c]; exact P). destruct P' as (P0 & P1 & P2).
  unfold increment. set (T := gridUnits S Rl t). destruct ty.
  - rewrite !constantT_mod by assumption. assert (E := constant_inc S (alpha * fscale x) (fdata x) (Tshift Constant T) iy P Q). cbn [Tshift v0 v1 v2 fst snd] in *.
    rewrite E. f_equal. unfold shifted, corner, Tweight. cbn [c0 c1 c2]. unfold value. rewrite !per_scale, plus3_0. cbn [Tshift]. ring.
  - rewrite !linearT_eq by assumption. cbn [fst snd]. assert (E := linear_inc S (alpha * fscale x) (fdata x) (Tshift Linear T) (Tweight Linear T) iy P Q). cbn [Tshift v0 v1 v2 fst snd Tweight] in *.
    rewrite E. f_equal. unfold shifted, corner, value. cbn [Tshift Tweight]. rewrite !per_scale. ring.
Qed.
Lemma r_init_row S g : pos3 S -> r_point S g -> r_init S (row_major S (v2 S) g) = g.
Proof.
  intros P Q. assert (B := full_row_range S g P). destruct (r_init_spec S (row_major S (v2 S) g) P B) as [Q' E'].
  destruct (r_init S (row_major S (v2 S) g)) as [[p' q'] r']. rewrite !row_major_r in E' by assumption.
  destruct S as [[a b] c], g as [[p q] r]. cbn in *. destruct (flat_unique b c p' q' r' p q r) as (->&->&->); try lia. reflexivity.
Qed.
(** the whole operator *)
Lemma taxpy_ok ty S Rl fuel nT s t alpha x y : pos3 S -> (0 < nT)%Z -> (nr S < Z.of_nat fuel)%Z -> schedule S fuel nT s ->
  exists y', taxpy ty S Rl s t alpha x y = Some y' /\ fscale y' = 1 /\
    (forall g, r_point S g -> per S (value y') g = per S (valueO y) g + alpha * shifted ty S (gridUnits S Rl t) (value x) g) /\
    (forall k, ~ (0 <= k < nr S)%Z -> value y' k = valueO y k).
Proof.
  intros P T F H. destruct (schedule_ok S fuel nT s P T F H) as [Pm Pt].
  destruct (accumulate_ok (increment ty S Rl t alpha x) (fun i => alpha * shifted ty S (gridUnits S Rl t) (value x) (r_init S i)) s (fdata (absorbScale (nullToZero y)))) as (d & E & A & B).
  - apply (Permutation_NoDup (l := zrange 0 (nr S))); [symmetry; exact Pm|apply zrange_NoDup].
  - intros i iv I. destruct (Pt i iv I) as [Q Ei]. rewrite increment_ok by assumption. subst i. rewrite r_init_row by assumption. reflexivity.
  - unfold taxpy. cbv zeta. rewrite E. cbn [obind]. eexists. split; [reflexivity|]. cbn [fscale]. split; [reflexivity|]. split.
    + intros g Q. unfold per, value. cbn [fscale fdata]. rewrite A.
      * rewrite absorb_value. rewrite Rmult_1_l. replace (snd S) with (v2 S) by reflexivity. rewrite r_init_row by assumption. reflexivity.
      * eapply Permutation_in; [symmetry; exact Pm|]. apply in_zrange. apply full_row_range. exact P.
    + intros k K. unfold value. cbn [fscale fdata]. rewrite B; [rewrite absorb_value; apply Rmult_1_l|].
      intros I. apply K. apply in_zrange. eapply Permutation_in; [exact Pm|exact I].
Qed.
