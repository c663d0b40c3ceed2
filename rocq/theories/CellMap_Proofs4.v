(** The final weights: partition of unity, interpolation, support and reversal. *)
From Coq Require Import ZArith Reals List Bool Lia Lra Psatz Permutation Sorted Classical.
From Verif Require Import Base Vec3_Model Vec3_Facts Lattice_Model RealUtil Coulomb_Model Coulomb_Proofs WS_Model WS_Spec WS_Proofs WS_Proofs2 WS_Proofs3 CellMap_Model CellMap_Spec CellMap_Proofs CellMap_Proofs2 CellMap_Proofs3.
Import ListNotations.
Local Open Scope R_scope.
#[local] Opaque rsum.

Lemma nodup_flat {A B} (f : A -> list B) l : NoDup l -> (forall a, In a l -> NoDup (f a)) -> (forall a b x, In x (f a) -> In x (f b) -> a = b) -> NoDup (flat_map f l).
Proof.
  induction l as [|a l IH]; intros ND H D; cbn [flat_map]; [constructor|]. apply NoDup_cons_iff in ND. destruct ND as [NI ND].
  assert (G := IH ND (fun a I => H a (or_intror I)) D). specialize (H a (or_introl eq_refl)). clear IH. revert H. generalize (D a). intros Da.
  assert (Q : forall x, In x (f a) -> ~ In x (flat_map f l)). { intros x I J. apply in_flat_map in J. destruct J as (b & Ib & J). assert (a = b) by (eapply Da; eauto). subst b. auto. }
  clear Da. revert Q. induction (f a) as [|x r IH]; intros Q H; [exact G|]. cbn [app]. apply NoDup_cons_iff in H. destruct H as [NX H]. constructor.
  { rewrite in_app_iff. intros [I|I]; [auto|]. apply (Q x); [left; auto|auto]. }
  { apply IH; auto. intros y I. apply Q. right; auto. }
Qed.
Lemma nodup_zrange a b : NoDup (zrange a b).
Proof. unfold zrange. apply FinFun.Injective_map_NoDup; [|apply seq_NoDup]. intros x y H. lia. Qed.
Lemma box_nodup Rl tr x1 x2 rc : NoDup (boxCells Rl tr x1 x2 rc).
Proof.
  unfold boxCells. apply nodup_flat; [apply nodup_zrange| |].
  { intros a _. apply nodup_flat; [apply nodup_zrange| |]. { intros b _. apply FinFun.Injective_map_NoDup; [|apply nodup_zrange]. intros x y H. injection H. auto. }
    intros b b' x I J. apply in_map_iff in I. apply in_map_iff in J. destruct I as (u & <- & _), J as (v & H & _). injection H. auto. }
  intros a a' x I J. apply in_flat_map in I. apply in_flat_map in J. destruct I as (b & _ & I), J as (b' & _ & J). apply in_map_iff in I. apply in_map_iff in J.
  destruct I as (u & <- & _), J as (v & H & _). injection H. auto.
Qed.
Lemma pairs_in n m i j : In (i, j) (pairs n m) <-> (i < n)%nat /\ (j < m)%nat.
Proof.
  unfold pairs. rewrite in_flat_map. split.
  { intros (a & Ia & I). apply in_map_iff in I. destruct I as (b & E & Ib). injection E as -> ->. apply in_seq in Ia. apply in_seq in Ib. lia. }
  { intros [A B]. exists i. split; [apply in_seq; lia|]. apply in_map_iff. exists j. split; [auto|apply in_seq; lia]. }
Qed.

Section Final.
  Variables (Rl : mat R) (super : mat Z) (tr : nat -> bool) (x1 x2 : list (vec R)) (rSmooth thr rc : R) (neigh : list (vec Z)).
  Let Rs := rmm Rl (mIZR super).
  Hypothesis DR : rdet Rl <> 0.
  Hypothesis DS : zdet super <> 0%Z.
  Hypothesis TO : truncation_orthogonal Rl tr.
  Hypothesis TD : truncation_diagonal super tr.
  Hypothesis CC : contains_cell Rs rc.
  Hypothesis SM : 0 < rSmooth.
  Hypothesis TP : 0 < thr.
  Hypothesis TS : thr < 1 / 2.
  Hypothesis TB : thr * Rabs (IZR (zdet super)) <= 1.
  Notation box := (boxCells Rl tr x1 x2 rc).
  Notation wt := (weightOf Rl Rs tr x1 x2 rSmooth neigh).
  Notation rawE := (rawEntry Rl Rs tr x1 x2 rSmooth neigh).
  Notation raw := (rawMap Rl Rs tr x1 x2 rSmooth rc neigh).
  Notation eqv := (equivCell Rl Rs thr).
  Definition rw (c : vec Z) (i j : nat) : R := match wt c i j with Some w => w | None => 0 end.
  Definition csum (c : vec Z) (i j : nat) : R := rsum (fun b => if eqv c b then rw b i j else 0) box.

  Lemma eqv_iff a b : eqv a b = true <-> same_cell super a b.
  Proof. apply equiv_iff; auto. Qed.
  Lemma eqv_r a : eqv a a = true. Proof. apply eqv_iff, same_refl. Qed.
  Lemma eqv_s a b : eqv a b = eqv b a.
  Proof. destruct (eqv a b) eqn:E, (eqv b a) eqn:F; auto. { apply eqv_iff, same_sym, eqv_iff in E. congruence. } { apply eqv_iff, same_sym, eqv_iff in F. congruence. } Qed.
  Lemma eqv_t a b c : eqv a b = true -> eqv b c = true -> eqv a c = true.
  Proof. rewrite !eqv_iff. apply same_trans. Qed.
  Lemma rw_bound c i j : 0 <= rw c i j <= 1.
  Proof. unfold rw. destruct (wt c i j) as [w|] eqn:E; [|lra]. unfold weightOf in E. apply smooth_bound in E. lra. Qed.
  Lemma rawE_some c e : rawE c = Some e -> e = (c, rw c).
  Proof. unfold rawEntry. destruct (existsb _ _); [|discriminate]. intros H. injection H as <-. reflexivity. Qed.
  Lemma rawE_none c i j : rawE c = None -> (i < length x1)%nat -> (j < length x2)%nat -> rw c i j = 0.
  Proof.
    unfold rawEntry. destruct (existsb _ _) eqn:E; [discriminate|]. intros _ I J. unfold rw. destruct (wt c i j) as [w|] eqn:W; [|reflexivity]. exfalso.
    rewrite <- not_true_iff_false in E. apply E. apply existsb_exists. exists (i, j). split; [apply pairs_in; auto|]. cbn [fst snd]. rewrite W. reflexivity.
  Qed.
  Lemma raw_in e : In e raw -> In (fst e) box /\ e = (fst e, rw (fst e)) /\ rawE (fst e) = Some e.
  Proof.
    unfold rawMap. intros I. apply in_flat_map in I. destruct I as (c & Ic & I). destruct (rawE c) as [e'|] eqn:E; [|destruct I]. destruct I as [->|[]].
    assert (Q := rawE_some c e E). subst e. cbn [fst]. auto.
  Qed.
  Lemma raw_box c e : In c box -> rawE c = Some e -> In e raw.
  Proof. intros I E. unfold rawMap. apply in_flat_map. exists c. split; [auto|]. rewrite E. left; auto. Qed.
  Lemma raw_nodup : NoDup (map fst raw).
  Proof.
    unfold rawMap. generalize (box_nodup Rl tr x1 x2 rc). generalize box as l. induction l as [|c l IH]; intros ND; [constructor|]. apply NoDup_cons_iff in ND. destruct ND as [NI ND]. cbn [flat_map].
    destruct (rawE c) as [e|] eqn:E; [|apply IH; auto]. cbn [app map]. constructor; [|apply IH; auto]. apply rawE_some in E. subst e. cbn [fst]. intros I. apply in_map_iff in I.
    destruct I as (e & Ee & I). apply in_flat_map in I. destruct I as (c' & Ic & I). destruct (rawE c') as [e'|] eqn:E'; [|destruct I]. destruct I as [->|[]]. apply rawE_some in E'. subst e. cbn [fst] in Ee. subst c'. auto.
  Qed.
  Lemma raw_sum (P : vec Z -> bool) i j : (i < length x1)%nat -> (j < length x2)%nat ->
    rsum (fun e : entry => if P (fst e) then snd e i j else 0) raw = rsum (fun c => if P c then rw c i j else 0) box.
  Proof.
    intros I J. unfold rawMap. generalize box as l. induction l as [|c l IH]; [reflexivity|]. cbn [flat_map]. rewrite rsum_app, rsum_cons, IH. f_equal.
    destruct (rawE c) as [e|] eqn:E. { apply rawE_some in E. subst e. rewrite rsum_cons, rsum_nil. cbn [fst snd]. ring. }
    rewrite rsum_nil, (rawE_none c i j E I J). destruct (P c); reflexivity.
  Qed.
  Lemma cls_sum e i j : In e raw -> (i < length x1)%nat -> (j < length x2)%nat -> wSumOf (cls eqv e raw) i j = csum (fst e) i j.
  Proof. intros I Hi Hj. rewrite wSum_rsum. unfold cls. rewrite rsum_filter. apply (raw_sum (eqv (fst e))); auto. Qed.
  Lemma csum_ge c i j : (i < length x1)%nat -> (j < length x2)%nat -> planar tr c -> 1 / 2 <= csum c i j.
  Proof.
    intros I J P. destruct (image Rl super tr x1 x2 rSmooth rc neigh DR DS TO TD CC SM c i j I J P) as (c' & w & S & P' & B & W & Hw).
    unfold csum. eapply Rle_trans; [exact Hw|]. replace w with ((fun b => if eqv c b then rw b i j else 0) c'). 2:{ cbv beta. apply eqv_iff in S. rewrite S. unfold rw. fold Rs in W. rewrite W. reflexivity. }
    apply (rsum_ge (fun b => if eqv c b then rw b i j else 0)); [|auto]. intros b _. destruct (eqv c b); [apply rw_bound|lra].
  Qed.
  Lemma csum_cong a b i j : eqv a b = true -> csum a i j = csum b i j.
  Proof. intros E. unfold csum. apply rsum_ext. intros c _. rewrite (eqv_cong eqv eqv_s eqv_t a b c E). reflexivity. Qed.

  (** every entry of the map: weight of the cell over the sum of the weights of its class *)
  Lemma map_form : exists m, getCellMap Rl Rs tr x1 x2 rSmooth thr rc neigh = Some m /\ Permutation (map fst m) (map fst raw) /\
    (forall e, In e m -> In (fst e) box /\ rawE (fst e) <> None /\ forall i j, (i < length x1)%nat -> (j < length x2)%nat -> snd e i j = rw (fst e) i j / csum (fst e) i j) /\
    (forall P : vec Z -> bool, forall i j, (i < length x1)%nat -> (j < length x2)%nat -> rsum (fun e : entry => if P (fst e) then snd e i j else 0) m = rsum (fun c => if P c then rw c i j / csum c i j else 0) box).
  Proof.
    assert (F : filter (undone []) raw = raw). { generalize raw. intros l. induction l as [|a l IH]; [reflexivity|]. cbn [filter]. unfold undone at 1. cbn. rewrite IH. reflexivity. }
    destruct (norm_ok Rl Rs x1 x2 thr eqv (fun a b => eq_refl) eqv_r eqv_s eqv_t raw []) as (r & E & Pm).
    { apply raw_nodup. } { intros e a _ []. }
    { rewrite F. intros e i j I Hi Hj. rewrite cls_sum by auto. apply raw_in in I. destruct I as [I _]. apply box_planar in I. assert (X := csum_ge (fst e) i j Hi Hj I). lra. }
    rewrite F in Pm. exists r. split; [exact E|]. split.
    { rewrite (Permutation_map fst Pm). rewrite map_map. cbn [scaled fst]. apply Permutation_refl. }
    split.
    { intros e I. apply (Permutation_in _ Pm) in I. apply in_map_iff in I. destruct I as (a & <- & Ia). unfold scaled. cbn [fst snd]. assert (Ia' := Ia). apply raw_in in Ia'. destruct Ia' as (B & Q & N).
      split; [auto|]. split; [congruence|]. intros i j Hi Hj. rewrite cls_sum by auto. rewrite Q at 2. cbn [snd]. unfold Rdiv. ring. }
    { intros P i j Hi Hj. rewrite (rsum_perm _ _ _ Pm), rsum_map.
      rewrite (rsum_ext _ (fun e : entry => if P (fst e) then rw (fst e) i j / csum (fst e) i j else 0)).
      2:{ intros a Ia. unfold scaled. cbn [fst snd]. rewrite cls_sum by auto. apply raw_in in Ia. destruct Ia as (_ & Q & _). rewrite Q at 3. cbn [snd]. unfold Rdiv. destruct (P (fst a)); ring. }
      unfold rawMap. generalize box as l. induction l as [|c l IH]; [reflexivity|]. cbn [flat_map]. rewrite rsum_app, rsum_cons, IH. f_equal.
      destruct (rawE c) as [e|] eqn:Ee. { apply rawE_some in Ee. subst e. rewrite rsum_cons, rsum_nil. cbn [fst]. ring. }
      rewrite rsum_nil, (rawE_none c i j Ee Hi Hj). destruct (P c); unfold Rdiv; ring. }
  Qed.

  Lemma partition : exists m, getCellMap Rl Rs tr x1 x2 rSmooth thr rc neigh = Some m /\ NoDup (map fst m) /\
    (forall e, In e m -> planar tr (fst e) /\ forall i j, (i < length x1)%nat -> (j < length x2)%nat -> 0 <= snd e i j <= 1) /\
    (forall c (P : vec Z -> bool), planar tr c -> (forall b, P b = true <-> same_cell super c b) -> forall i j, (i < length x1)%nat -> (j < length x2)%nat ->
      rsum (fun e : entry => if P (fst e) then snd e i j else 0) m = 1).
  Proof.
    destruct map_form as (m & E & Pk & Fm & S). exists m. split; [exact E|]. split.
    { eapply Permutation_NoDup; [apply Permutation_sym; exact Pk|apply raw_nodup]. }
    split.
    { intros e I. destruct (Fm e I) as (B & N & W). assert (P := B). apply box_planar in P. split; [auto|]. intros i j Hi Hj. rewrite W by auto.
      assert (G := csum_ge (fst e) i j Hi Hj P). assert (Q := rw_bound (fst e) i j).
      assert (L : rw (fst e) i j <= csum (fst e) i j). { unfold csum. replace (rw (fst e) i j) with ((fun b => if eqv (fst e) b then rw b i j else 0) (fst e)) by (cbv beta; rewrite eqv_r; reflexivity).
        apply (rsum_ge (fun b => if eqv (fst e) b then rw b i j else 0)); [|auto]. intros b _. destruct (eqv (fst e) b); [apply rw_bound|lra]. }
      split. { apply Rmult_le_pos; [lra|]. left. apply Rinv_0_lt_compat. lra. }
      apply (Rmult_le_reg_r (csum (fst e) i j)); [lra|]. unfold Rdiv. rewrite Rmult_assoc, Rinv_l by lra. lra. }
    { intros c P Pc HP i j Hi Hj. rewrite S by auto. assert (G := csum_ge c i j Hi Hj Pc).
      rewrite (rsum_ext _ (fun b => / csum c i j * (if eqv c b then rw b i j else 0))).
      { rewrite rsum_scale. change (rsum (fun b => if eqv c b then rw b i j else 0) box) with (csum c i j). field. lra. }
      intros b _. assert (PE : P b = eqv c b). { destruct (P b) eqn:A, (eqv c b) eqn:B; auto. { apply HP, eqv_iff in A. congruence. } { apply eqv_iff, HP in B. congruence. } }
      rewrite PE. destruct (eqv c b) eqn:B; [|ring]. rewrite <- (csum_cong c b i j B). unfold Rdiv. ring. }
  Qed.

  Lemma one_rep (reps : list (vec Z)) (f : vec Z -> R) c : representatives super (planar tr) reps -> planar tr c -> (forall a b, same_cell super a b -> f a = f b) ->
    rsum (fun r => if eqv r c then f r else 0) reps = f c.
  Proof.
    intros (_ & Ex & Un) P Pf. destruct (Ex c P) as (r & Ir & Sr). assert (A : forall l, (forall i j, (i < length l)%nat -> (j < length l)%nat -> same_cell super (nth i l (V 0 0 0)%Z) (nth j l (V 0 0 0)%Z) -> i = j) ->
      rsum (fun r => if eqv r c then f r else 0) l = if existsb (fun r => eqv r c) l then f c else 0).
    { induction l as [|a l IH]; intros U; [reflexivity|]. rewrite rsum_cons, IH. 2:{ intros i j Hi Hj S. assert (Q := U (Datatypes.S i) (Datatypes.S j) ltac:(cbn; lia) ltac:(cbn; lia) S). lia. }
      cbn [existsb]. destruct (eqv a c) eqn:Ea; cbn [orb]; [|ring]. replace (existsb (fun r => eqv r c) l) with false. { apply eqv_iff in Ea. rewrite (Pf a c Ea). ring. }
      symmetry. apply not_true_iff_false. intros H. apply existsb_exists in H. destruct H as (b & Ib & Eb). apply (In_nth _ _ (V 0 0 0)%Z) in Ib. destruct Ib as (k & Hk & Nk).
      assert (0 = Datatypes.S k)%nat; [|lia]. apply U; [cbn; lia|cbn; lia|]. cbn [nth]. rewrite Nk. apply eqv_iff. apply (eqv_t a c b); [auto|rewrite eqv_s; auto]. }
    rewrite A by exact Un. replace (existsb (fun r => eqv r c) reps) with true; [reflexivity|]. symmetry. apply existsb_exists. exists r. split; [auto|apply eqv_iff; auto].
  Qed.
  Lemma interpolation m (f : vec Z -> R) reps i j : getCellMap Rl Rs tr x1 x2 rSmooth thr rc neigh = Some m -> (forall a b, same_cell super a b -> f a = f b) ->
    representatives super (planar tr) reps -> (i < length x1)%nat -> (j < length x2)%nat -> rsum (fun e : entry => snd e i j * f (fst e)) m = rsum f reps.
  Proof.
    intros E Pf Rp Hi Hj. destruct partition as (m' & E' & _ & B & S). rewrite E in E'. injection E' as <-.
    rewrite (rsum_ext _ (fun e : entry => rsum (fun r => if eqv r (fst e) then snd e i j * f r else 0) reps)).
    2:{ intros e I. rewrite <- (one_rep reps f (fst e) Rp (proj1 (B e I)) Pf) at 1. rewrite <- rsum_scale. apply rsum_ext. intros r _. destruct (eqv r (fst e)); ring. }
    rewrite rsum_swap. apply rsum_ext. intros r Ir. rewrite (rsum_ext _ (fun e : entry => f r * (if eqv r (fst e) then snd e i j else 0))) by (intros e _; destruct (eqv r (fst e)); ring).
    rewrite rsum_scale, (S r (eqv r)); [ring|apply Rp; auto|intros b; apply eqv_iff|auto|auto].
  Qed.
  Lemma support m e i j n : getCellMap Rl Rs tr x1 x2 rSmooth thr rc neigh = Some m -> In e m -> (i < length x1)%nat -> (j < length x2)%nat -> snd e i j <> 0 -> In n neigh ->
    rlen2 (drOf Rl tr x1 x2 (fst e) i j) < rlen2 (rvsub (drOf Rl tr x1 x2 (fst e) i j) (rmv Rs (vIZR n))) + 2 * rSmooth.
  Proof.
    intros E I Hi Hj N In_. destruct map_form as (m' & E' & _ & F & _). rewrite E in E'. injection E' as <-. destruct (F e I) as (_ & _ & W). rewrite W in N by auto.
    unfold rw in N. destruct (wt (fst e) i j) as [w|] eqn:Ew; [|exfalso; apply N; unfold Rdiv; ring]. unfold weightOf, smoothW in Ew. destruct (Rlt_dec _ 1) as [L|]; [|discriminate]. clear Ew N W.
    set (dr := drOf Rl tr x1 x2 (fst e) i j) in *. unfold tOf in L.
    assert (G : forall l m, exists d, fold_left (fun m rSup => let d := rlen2 (rvsub dr rSup) in Some (match m with None => d | Some m => Rmin m d end)) l (Some m) = Some d /\ d <= m).
    { induction l as [|a l IH]; intros q; cbn [fold_left]; [exists q; split; [auto|lra]|]. destruct (IH (Rmin q (rlen2 (rvsub dr a)))) as (d & Ed & Ld). exists d. split; [exact Ed|].
      eapply Rle_trans; [exact Ld|apply Rmin_l]. }
    assert (H : exists d, drSqNeigh (rSupNeigh Rs neigh) dr = Some d /\ d <= rlen2 (rvsub dr (rmv Rs (vIZR n)))).
    { unfold drSqNeigh, rSupNeigh. assert (J : In (rmv Rs (vIZR n)) (map (fun n => rmv Rs (vIZR n)) neigh)) by (apply (in_map (fun n => rmv Rs (vIZR n))); auto). revert J.
      generalize (map (fun n => rmv Rs (vIZR n)) neigh) (rmv Rs (vIZR n)) (@None R). clear - G. intros l v. induction l as [|a l IH]; intros q J; [destruct J|]. cbn [fold_left]. destruct J as [->|J]; [|apply IH; auto].
      destruct q as [q|]. { destruct (G l (Rmin q (rlen2 (rvsub dr v)))) as (d & Ed & Ld). exists d. split; [exact Ed|]. eapply Rle_trans; [exact Ld|apply Rmin_r]. }
      destruct (G l (rlen2 (rvsub dr v))) as (d & Ed & Ld). exists d. auto. }
    destruct H as (d & Ed & Ld). rewrite Ed in L. apply (Rmult_lt_compat_r rSmooth) in L; [|auto]. unfold Rdiv in L. rewrite Rmult_assoc, Rinv_l in L by lra. lra.
  Qed.
End Final.
