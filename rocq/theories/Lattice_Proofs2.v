(** Proofs about PeriodicLookup. *)
From Coq Require Import ZArith Reals List Lia Lra Bool.
From Verif Require Import Base Vec3_Model Vec3_Facts Lattice_Model Lattice_Spec RealUtil.
Import ListNotations.
Open Scope R_scope.

Lemma push_at_spec idx i p : (i < List.length idx)%nat -> exists r, push_at idx i p = Some r /\
  List.length r = List.length idx /\
  (forall k l, nth_error idx k = Some l -> nth_error r k = Some (if Nat.eqb k i then l ++ [p] else l)).
Proof.
  revert i. induction idx as [|l idx IH]; intros i H; [cbn in H; lia|].
  destruct i as [|i]; cbn.
  - eexists; split; [reflexivity|]. split; [reflexivity|]. intros [|k] l' E; cbn in *; auto. injection E as ->; auto.
  - cbn in H. destruct (IH i) as (r&E&L&N); [lia|]. rewrite E. eexists; split; [reflexivity|]. split; [cbn; congruence|].
    intros [|k] l' E'; cbn in *; auto.
Qed.

Section Lookup.
  Variable thr : R.
  Hypothesis thr_pos : 0 < thr.

  Definition wfS (S : vec Z) : Prop :=
    (1 <= c0 S)%Z /\ (1 <= c1 S)%Z /\ (1 <= c2 S)%Z /\
    thr * IZR (c0 S) < 1/2 /\ thr * IZR (c1 S) < 1/2 /\ thr * IZR (c2 S) < 1/2.
  Definition inS (S iv : vec Z) : Prop :=
    (0 <= c0 iv <= c0 S)%Z /\ (0 <= c1 iv <= c1 S)%Z /\ (0 <= c2 iv <= c2 S)%Z.
  Definition vol (S : vec Z) : Z := (c0 S * c1 S * c2 S)%Z.

  Lemma wrap_range s i : (1 <= s)%Z -> (0 <= i <= s)%Z -> (0 <= wrap_cell s i < s)%Z.
  Proof. unfold wrap_cell. intros. destruct (i <? 0)%Z eqn:E; destruct (s <=? _)%Z eqn:E2; lia. Qed.
  Lemma wrap_0 s : (1 <= s)%Z -> wrap_cell s 0 = 0%Z.
  Proof. unfold wrap_cell. intros. destruct (0 <? 0)%Z eqn:E; destruct (s <=? _)%Z eqn:E2; lia. Qed.
  Lemma wrap_s s : (1 <= s)%Z -> wrap_cell s s = 0%Z.
  Proof. unfold wrap_cell. intros. destruct (s <? 0)%Z eqn:E; destruct (s <=? _)%Z eqn:E2; lia. Qed.
  Lemma mesh_range S iv : wfS S -> inS S iv -> (0 <= meshIndex S iv < vol S)%Z.
  Proof.
    intros (H0&H1&H2&_) (I0&I1&I2). unfold meshIndex, vol.
    pose proof (wrap_range _ _ H0 I0). pose proof (wrap_range _ _ H1 I1). pose proof (wrap_range _ _ H2 I2).
    set (x := wrap_cell (c0 S) _) in *. set (y := wrap_cell (c1 S) _) in *. set (z := wrap_cell (c2 S) _) in *.
    clearbody x y z. assert (0 <= y + c1 S * z < c1 S * c2 S)%Z by nia.
    set (w := (y + c1 S * z)%Z) in *. set (u := (c1 S * c2 S)%Z) in *. replace (c0 S * c1 S * c2 S)%Z with (c0 S * u)%Z by (unfold u; ring).
    clearbody w u. nia.
  Qed.
  Lemma cell_range s x : (1 <= s)%Z -> 0 <= x < 1 -> (0 <= cell1 s x <= s)%Z.
  Proof.
    intros Hs Hx. unfold cell1. assert (1 <= IZR s) by (apply IZR_le; auto). split.
    - apply rfloor_ge. nra.
    - assert (rfloor (x * IZR s + 1 / 2) < s + 1)%Z; [|lia]. apply rfloor_lt. rewrite plus_IZR. nra.
  Qed.

  Definition cellOf (S : vec Z) (p : vec R) : vec Z :=
    V (cell1 (c0 S) (frac (c0 p))) (cell1 (c1 S) (frac (c1 p))) (cell1 (c2 S) (frac (c2 p))).
  Lemma cellOf_in S p : wfS S -> inS S (cellOf S p).
  Proof. intros (H0&H1&H2&_). repeat split; cbn; apply cell_range; auto; apply frac_bounds. Qed.

  Definition lk_ok (lk : lookup) (pts : list (vec R)) : Prop :=
    wfS (lk_S lk) /\ Z.of_nat (List.length (lk_idx lk)) = vol (lk_S lk) /\
    (forall i p, nth_error pts i = Some p ->
       exists l, nth_error (lk_idx lk) (Z.to_nat (meshIndex (lk_S lk) (cellOf (lk_S lk) p))) = Some l /\ In i l).

  Lemma addPoint_ok lk pts p : lk_ok lk pts ->
    exists lk', addPoint lk (List.length pts) p = Some lk' /\ lk_S lk' = lk_S lk /\ lk_ok lk' (pts ++ [p]).
  Proof.
    intros (W&L&I). unfold addPoint. fold (cellOf (lk_S lk) p).
    pose proof (mesh_range _ _ W (cellOf_in (lk_S lk) p W)) as B. unfold idx_push.
    destruct (_ <? 0)%Z eqn:E; [lia|]. clear E.
    destruct (push_at_spec (lk_idx lk) (Z.to_nat (meshIndex (lk_S lk) (cellOf (lk_S lk) p))) (List.length pts)) as (r&E&Lr&N); [lia|].
    rewrite E. eexists; split; [reflexivity|]. cbn. split; [reflexivity|]. split; [exact W|]. cbn. split; [lia|].
    intros i q Hq. destruct (Nat.lt_ge_cases i (List.length pts)) as [Hi|Hi].
    - rewrite nth_error_app1 in Hq by auto. destruct (I i q Hq) as (l&El&Il). rewrite (N _ _ El).
      destruct (Nat.eqb _ _); eexists; split; try reflexivity; auto. apply in_or_app; auto.
    - assert (i = List.length pts).
      { assert (i < List.length (pts ++ [p]))%nat by (apply nth_error_Some; congruence). rewrite app_length in H. cbn in H. lia. }
      subst i. rewrite nth_error_app2, Nat.sub_diag in Hq by lia. injection Hq as <-.
      destruct (nth_error (lk_idx lk) (Z.to_nat (meshIndex (lk_S lk) (cellOf (lk_S lk) p)))) as [l|] eqn:El.
      + rewrite (N _ _ El), Nat.eqb_refl. eexists; split; [reflexivity|]. apply in_or_app; right; left; auto.
      + apply nth_error_None in El. lia.
  Qed.
  Lemma addPoints_ok lk pts ps : lk_ok lk pts ->
    exists lk', addPoints lk (List.length pts) ps = Some lk' /\ lk_S lk' = lk_S lk /\ lk_ok lk' (pts ++ ps).
  Proof.
    revert lk pts. induction ps as [|p ps IH]; intros lk pts H; cbn.
    - exists lk. rewrite app_nil_r. auto.
    - destruct (addPoint_ok lk pts p H) as (lk1&E&ES&H1). rewrite E.
      destruct (IH lk1 (pts ++ [p]) H1) as (lk2&E2&ES2&H2). rewrite app_length in E2. cbn in E2.
      replace (List.length pts + 1)%nat with (S (List.length pts)) in E2 by lia.
      exists lk2. rewrite <- app_assoc in H2. cbn in H2. split; auto. split; [congruence|auto].
  Qed.

  Lemma sampleCount_pos metric n : let S := sampleCount metric n in (1 <= c0 S)%Z /\ (1 <= c1 S)%Z /\ (1 <= c2 S)%Z.
  Proof. cbn. lia. Qed.

  Lemma mkLookup_ok pts metric n : mkLookup thr pts metric n <> OutOfRange /\
    forall lk, mkLookup thr pts metric n = Done lk -> lk_ok lk pts.
  Proof.
    unfold mkLookup. set (S := sampleCount metric _). pose proof (sampleCount_pos metric (Nat.max (List.length pts) n)) as P.
    cbn zeta in P. fold S in P. clearbody S.
    destruct (Rlt_dec _ _) as [h0|]; [|split; discriminate].
    destruct (Rlt_dec _ _) as [h1|]; [|split; discriminate].
    destruct (Rlt_dec _ _) as [h2|]; [|split; discriminate].
    assert (W : wfS S) by (unfold wfS; tauto).
    destruct (addPoints_ok (LK S (repeat [] (Z.to_nat (c0 S * c1 S * c2 S)))) [] pts) as (lk&E&_&H).
    - split; [exact W|]. cbn. split.
      + rewrite repeat_length. unfold vol. destruct W as (?&?&?&_). nia.
      + intros [|i] p Hp; discriminate.
    - cbn in E. rewrite E. split; [discriminate|]. intros lk' Q. injection Q as <-. exact H.
  Qed.

  (** the key geometric fact: a point close to the query lies in one of the cells searched *)
  Lemma close_cell s v p : (1 <= s)%Z -> thr * IZR s < 1/2 -> 0 <= v < 1 -> 0 <= p < 1 ->
    (exists n, Rabs (v - p - IZR n) < thr) ->
    exists i, (cell1 s (v - thr) <= i < cell1 s (v + thr) + 1)%Z /\ wrap_cell s i = wrap_cell s (cell1 s p).
  Proof.
    intros Hs Ht Hv Hp (n&Hn). apply Rabs_def2 in Hn as (N1&N2).
    assert (Hs1 : 1 <= IZR s) by (apply IZR_le; auto).
    pose proof (cell_range s p Hs Hp) as Q.
    assert (E : cell1 s (p + IZR n) = (cell1 s p + n * s)%Z).
    { unfold cell1. replace ((p + IZR n) * IZR s + 1/2) with ((p * IZR s + 1/2) + IZR (n*s)) by (rewrite mult_IZR; ring). apply rfloor_add. }
    assert (L : (cell1 s (v - thr) <= cell1 s (p + IZR n))%Z) by (unfold cell1; apply rfloor_le; nra).
    assert (U : (cell1 s (p + IZR n) <= cell1 s (v + thr))%Z) by (unfold cell1; apply rfloor_le; nra).
    assert (L0 : (0 <= cell1 s (v - thr))%Z) by (unfold cell1; apply rfloor_ge; nra).
    assert (U0 : (cell1 s (v + thr) < s + 1)%Z) by (unfold cell1; apply rfloor_lt; rewrite plus_IZR; nra).
    exists (cell1 s (p + IZR n)). split; [lia|]. rewrite E in *. set (q := cell1 s p) in *. clearbody q.
    assert (n = 0 \/ (n = 1 /\ q = 0) \/ (n = -1 /\ q = s))%Z by nia.
    destruct H as [->|[(->&->)|(->&->)]].
    - replace (q + 0*s)%Z with q by lia. reflexivity.
    - replace (0 + 1*s)%Z with s by lia. rewrite wrap_0, wrap_s; auto.
    - replace (s + -1*s)%Z with 0%Z by lia. rewrite wrap_0, wrap_s; auto.
  Qed.

  Lemma cells_in S v : wfS S -> 0 <= c0 v < 1 -> 0 <= c1 v < 1 -> 0 <= c2 v < 1 ->
    forall iv, In iv (cells_of thr S v) -> inS S iv.
  Proof.
    intros (H0&H1&H2&T0&T1&T2) V0 V1 V2 iv Hi. unfold cells_of in Hi.
    apply in_flat_map in Hi as (i0&I0&Hi). apply in_flat_map in Hi as (i1&I1&Hi). apply in_map_iff in Hi as (i2&<-&I2).
    apply in_zrange in I0, I1, I2.
    assert (K : forall s x, (1 <= s)%Z -> thr * IZR s < 1/2 -> 0 <= x < 1 -> (0 <= cell1 s (x - thr))%Z /\ (cell1 s (x+thr) <= s)%Z).
    { intros s x Hs Ht Hx. assert (1 <= IZR s) by (apply IZR_le; auto). split.
      - unfold cell1. apply rfloor_ge. nra.
      - assert (cell1 s (x+thr) < s + 1)%Z; [|lia]. unfold cell1. apply rfloor_lt. rewrite plus_IZR. nra. }
    pose proof (K _ _ H0 T0 V0). pose proof (K _ _ H1 T1 V1). pose proof (K _ _ H2 T2 V2). repeat split; cbn; lia.
  Qed.

  Variables (pts : list (vec R)) (tagOK : nat -> bool).

  Lemma find_in_some v l i : find_in thr pts tagOK v l = Some i ->
    In i l /\ tagOK i = true /\ exists p, nth_error pts i = Some p /\ circDistanceSquared v p < thr*thr.
  Proof.
    induction l as [|j l IH]; cbn; [discriminate|]. intros H.
    destruct (nth_error pts j) as [p|] eqn:E; [|destruct (IH H); auto].
    destruct (Rlt_dec _ _) as [h|h]; [|destruct (IH H); auto].
    destruct (tagOK j) eqn:T; [|destruct (IH H); auto]. injection H as <-. split; auto. split; auto. eauto.
  Qed.
  Lemma find_in_none v l : find_in thr pts tagOK v l = None ->
    forall i p, In i l -> nth_error pts i = Some p -> circDistanceSquared v p < thr*thr -> tagOK i = false.
  Proof.
    induction l as [|j l IH]; cbn; [contradiction|]. intros H i p [->|Hi] Hp Hc.
    - rewrite Hp in H. destruct (Rlt_dec _ _); [|lra]. destruct (tagOK i); auto. discriminate.
    - apply (IH) with (p := p); auto. destruct (nth_error pts j); auto. destruct (Rlt_dec _ _); auto. destruct (tagOK j); auto. discriminate.
  Qed.
  Lemma find_cells_spec lk v cells : lk_ok lk pts -> (forall iv, In iv cells -> inS (lk_S lk) iv) ->
    exists r, find_cells thr pts tagOK lk v cells = Done r /\
    match r with
    | Some i => tagOK i = true /\ exists p, nth_error pts i = Some p /\ circDistanceSquared v p < thr*thr
    | None => forall iv, In iv cells -> forall l, nth_error (lk_idx lk) (Z.to_nat (meshIndex (lk_S lk) iv)) = Some l ->
        find_in thr pts tagOK v l = None
    end.
  Proof.
    intros (W&L&_). induction cells as [|iv cells IH]; intros Hin; cbn.
    - exists None. split; auto. intros ? [].
    - assert (B := mesh_range _ iv W (Hin iv (or_introl eq_refl))). unfold idx_get.
      destruct (_ <? 0)%Z eqn:E0; [lia|].
      destruct (nth_error (lk_idx lk) (Z.to_nat (meshIndex (lk_S lk) iv))) as [l|] eqn:E; [|apply nth_error_None in E; lia].
      destruct (find_in thr pts tagOK v l) as [i|] eqn:F.
      + exists (Some i). split; auto. destruct (find_in_some _ _ _ F) as (_&T&P). auto.
      + destruct IH as (r&Er&Hr); [intros; apply Hin; right; auto|]. exists r. split; auto.
        destruct r as [i|]; auto. intros iv' [<-|Hi] l' El'; [congruence|eauto].
  Qed.

  Lemma lookup_find_spec lk v : lk_ok lk pts ->
    exists r, lookup_find thr pts tagOK lk v = Done r /\
    match r with
    | Some i => tagOK i = true /\ exists p, nth_error pts i = Some p /\ circDistanceSquared v p < thr*thr
    | None => forall i p, nth_error pts i = Some p -> circDistanceSquared v p < thr*thr -> tagOK i = false
    end.
  Proof.
    intros Hok. unfold lookup_find. set (v' := V _ _ _).
    assert (CD : forall p, circDistanceSquared v' p = circDistanceSquared v p).
    { intros p. unfold circDistanceSquared, v'; cbn. rewrite !circ1_frac. reflexivity. }
    assert (B : 0 <= c0 v' < 1 /\ 0 <= c1 v' < 1 /\ 0 <= c2 v' < 1) by (unfold v'; cbn; split; [|split]; apply frac_bounds).
    clearbody v'. destruct B as (B0&B1&B2). pose proof Hok as (W&_&I).
    destruct (find_cells_spec lk v' (cells_of thr (lk_S lk) v') Hok (cells_in _ _ W B0 B1 B2)) as (r&E&H).
    exists r. split; auto. destruct r as [i|].
    - destruct H as (T&p&Hp&Hc). split; auto. exists p. rewrite <- CD. auto.
    - intros i p Hp Hc. rewrite <- CD in Hc. destruct (I i p Hp) as (l&El&Il).
      destruct W as (H0&H1&H2&T0&T1&T2).
      assert (K : forall a b, circ1 a b < thr*thr -> exists n, Rabs (a - frac b - IZR n) < thr).
      { intros a b Hab. apply circ1_near in Hab as (n&Hn); [|lra]. exists (n - rfloor b + 0 + 2*rfloor b)%Z. unfold frac.
        replace (a - (b - IZR (rfloor b)) - IZR (n - rfloor b + 0 + 2 * rfloor b)) with (a - b - IZR n); auto.
        rewrite !plus_IZR, minus_IZR, mult_IZR. ring. }
      unfold circDistanceSquared in Hc.
      pose proof (circ1_pos (c0 v') (c0 p)). pose proof (circ1_pos (c1 v') (c1 p)). pose proof (circ1_pos (c2 v') (c2 p)).
      destruct (close_cell (c0 (lk_S lk)) (c0 v') (frac (c0 p)) H0 T0 B0 (frac_bounds _)) as (i0&I0&J0); [apply K; lra|].
      destruct (close_cell (c1 (lk_S lk)) (c1 v') (frac (c1 p)) H1 T1 B1 (frac_bounds _)) as (i1&I1&J1); [apply K; lra|].
      destruct (close_cell (c2 (lk_S lk)) (c2 v') (frac (c2 p)) H2 T2 B2 (frac_bounds _)) as (i2&I2&J2); [apply K; lra|].
      assert (IN : In (V i0 i1 i2) (cells_of thr (lk_S lk) v')).
      { unfold cells_of. apply in_flat_map. exists i0. split; [apply in_zrange; lia|].
        apply in_flat_map. exists i1. split; [apply in_zrange; lia|]. apply in_map_iff. exists i2. split; auto. apply in_zrange; lia. }
      assert (M1 : meshIndex (lk_S lk) (V i0 i1 i2) = meshIndex (lk_S lk) (cellOf (lk_S lk) p)).
      { unfold meshIndex, cellOf. cbn [c0 c1 c2]. rewrite J0, J1, J2. reflexivity. }
      assert (F := H _ IN l). rewrite M1 in F. specialize (F El).
      apply (find_in_none v' l F i p); auto.
  Qed.
End Lookup.

Lemma circDist_near a b eps : 0 < eps -> circDistanceSquared a b < eps*eps -> same_mod1 eps a b.
Proof.
  intros He H. unfold circDistanceSquared in H.
  pose proof (circ1_pos (c0 a) (c0 b)). pose proof (circ1_pos (c1 a) (c1 b)). pose proof (circ1_pos (c2 a) (c2 b)).
  destruct (circ1_near (c0 a) (c0 b) eps) as (n0&N0); try lra.
  destruct (circ1_near (c1 a) (c1 b) eps) as (n1&N1); try lra.
  destruct (circ1_near (c2 a) (c2 b) eps) as (n2&N2); try lra.
  exists n0, n1, n2. lra.
Qed.
Lemma circDist_far a b eps : 0 < eps -> same_mod1 (eps/14) a b -> circDistanceSquared a b < eps*eps.
Proof.
  intros He (n0&n1&n2&H0&H1&H2). unfold circDistanceSquared.
  apply circ1_far in H0, H1, H2. pose proof PI_4. pose proof PI_RGT_0.
  assert (A : 2*PI*(eps/14) <= 8/14*eps) by nra. assert (B : 0 <= 2*PI*(eps/14)) by (apply Rmult_le_pos; lra).
  assert ((2*PI*(eps/14))*(2*PI*(eps/14)) <= (8/14*eps)*(8/14*eps)) by (apply Rmult_le_compat; auto). nra.
Qed.
