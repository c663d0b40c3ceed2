(** Statements of the lattice properties assembled from the previous files, and concrete instances. *)
From Coq Require Import ZArith Reals List Lia Lra Bool.
From Verif Require Import Base Vec3_Model Vec3_Facts Lattice_Model Lattice_Spec RealUtil Lattice_Proofs Lattice_Proofs2.
Import ListNotations.
Open Scope R_scope.

Opaque red_sweep.
Lemma red_loop_fuel thr f1 f2 st a b : red_loop f1 thr st = Some a -> red_loop f2 thr st = Some b -> a = b.
Proof.
  revert f2 st. induction f1 as [|f1 IH]; intros f2 st H1 H2; [discriminate|].
  destruct f2 as [|f2]; [discriminate|]. cbn [red_loop] in *.
  destruct (red_sweep thr st) as [st' ch]. destruct ch; [eauto|congruence].
Qed.

Lemma chord2_circ a b : circDistanceSquared a b = chord2 a b.
Proof. unfold circDistanceSquared, chord2. rewrite !circ1_sin. ring. Qed.

Lemma reduce_all thr Rl : 0 < thr -> exists n, forall fuel, (n <= fuel)%nat -> exists st, reduceMatrix fuel thr Rl = Some st.
Proof.
  intros Ht. exists (Z.to_nat (up (rnrm2 Rl / thr))). intros fuel Hf.
  pose proof (reduceMatrix_terminates thr Rl fuel Ht Hf). destruct (reduceMatrix fuel thr Rl); [eauto|contradiction].
Qed.

Lemma reduce_generates fuel thr Rl st : 0 <= thr -> reduceMatrix fuel thr Rl = Some st ->
  (forall x, in_lattice (rs_R st) x <-> in_lattice Rl x) /\ rs_R st = rmm Rl (mIZR (rs_t st)) /\
  zmm (rs_t st) (rs_tInv st) = zid /\ zmm (rs_tInv st) (rs_t st) = zid /\ zdet (rs_t st) = 1%Z /\ rdet (rs_R st) = rdet Rl.
Proof.
  intros Ht H. destruct (reduceMatrix_result fuel thr Rl st Ht H) as (A&B&C&D&E&_).
  split; [intros x; rewrite A; apply (same_lattice Rl _ _ B)|]. auto 10.
Qed.

Definition skew : mat R := M 1 1 0 0 1 0 0 0 1.
Lemma skew_not_reduced : ~ lattice_reduced (1/10000) skew.
Proof.
  intros (_&H&_). specialize (H 0%Z (-1)%Z). unfold len2, combo2, skew in H. cbn [col0 col1 col2 c0 c1 c2 m00 m01 m02 m10 m11 m12 m20 m21 m22] in H.
  assert (H' : sqrt 4 - 1/10000 <= sqrt 3).
  { eapply Rle_trans; [|eapply Rle_trans; [apply H; lia|]].
    - right. f_equal. f_equal. ring.
    - right. f_equal. ring. }
  replace 4 with (2*2) in H' by ring. rewrite sqrt_square in H' by lra.
  assert (sqrt 3 <= 18/10). { rewrite <- (sqrt_square (18/10)) by lra. apply sqrt_le_1; lra. } lra.
Qed.

Lemma lookup_example : let pts := [V (1/4) 0 0] in
  exists lk, mkLookup (1/10000) pts rid 0 = Done lk /\
    lookup_find (1/10000) pts (fun _ => true) lk (V (5/4) 1 (-3)) = Done (Some 0%nat).
Proof.
  cbn zeta. set (pts := [V (1/4) 0 0]).
  assert (S1 : sampleCount rid (Nat.max (List.length pts) 0) = V 1%Z 1%Z 1%Z).
  { unfold sampleCount. cbn [rid rdiag gdiag m00 m11 m22 List.length pts Nat.max]. rewrite sqrt_1.
    replace (cbrt (INR 1 / (1*1*1))) with 1.
    - assert (rround (1*1) = 1%Z). { unfold rround. destruct (Rle_dec 0 (1*1)); [|lra]. apply rfloor_unique. lra. }
      rewrite H. reflexivity.
    - unfold cbrt. destruct (Req_EM_T _ _) as [e|e]; [cbn in e; assert (1/(1*1*1) = 1) by field; lra|]. cbn. replace (1/(1*1*1)) with 1 by field.
      unfold Rpower. rewrite ln_1, Rmult_0_r, exp_0. reflexivity. }
  destruct (mkLookup (1/10000) pts rid 0) as [lk| |] eqn:E.
  - exists lk. split; auto. destruct (mkLookup_ok (1/10000) pts rid 0) as (_&H). specialize (H lk E).
    destruct (lookup_find_spec (1/10000) ltac:(lra) pts (fun _ => true) lk (V (5/4) 1 (-3)) H) as (r&Er&Hr).
    rewrite Er. f_equal. destruct r as [i|].
    + destruct Hr as (_&p&Hp&_). destruct i as [|i]; auto. destruct i; discriminate.
    + exfalso. discriminate (Hr 0%nat (V (1/4) 0 0) eq_refl).
      apply circDist_far; [lra|]. exists 1%Z, 1%Z, (-3)%Z. cbn.
      replace (5/4 - 1/4 - 1) with 0 by field. replace (1-0-1) with 0 by ring. replace (-3 - 0 - -3) with 0 by ring.
      rewrite Rabs_R0. lra.
  - exfalso. unfold mkLookup in E. rewrite S1 in E. cbn [c0 c1 c2] in E.
    destruct (Rlt_dec (1/10000*1) (1/2)); [|lra]. destruct (addPoints _ _ _); discriminate.
  - exfalso. destruct (mkLookup_ok (1/10000) pts rid 0) as (H&_). contradiction.
Qed.

Lemma lookup_after_adding thr pts metric n lk extra tagOK v : 0 < thr -> mkLookup thr pts metric n = Done lk ->
  exists lk' r, addPoints lk (List.length pts) extra = Some lk' /\ lookup_find thr (pts ++ extra) tagOK lk' v = Done r /\
    match r with
    | Some i => tagOK i = true /\ exists p, nth_error (pts ++ extra) i = Some p /\ chord2 v p < thr*thr
    | None => forall i p, nth_error (pts ++ extra) i = Some p -> chord2 v p < thr*thr -> tagOK i = false
    end.
Proof.
  intros Ht E. destruct (mkLookup_ok thr pts metric n) as (_&H). specialize (H lk E).
  destruct (addPoints_ok thr lk pts extra H) as (lk'&E'&_&H').
  destruct (lookup_find_spec thr Ht (pts ++ extra) tagOK lk' v H') as (r&Er&Hr).
  exists lk', r. split; auto. split; auto. destruct r as [i|].
  - destruct Hr as (T&p&P&C). rewrite chord2_circ in C. eauto.
  - intros i p P C. rewrite <- chord2_circ in C. eauto.
Qed.
Lemma lookup_total thr pts metric n lk tagOK v : 0 < thr -> mkLookup thr pts metric n = Done lk ->
  exists r, lookup_find thr pts tagOK lk v = Done r /\
    match r with
    | Some i => tagOK i = true /\ exists p, nth_error pts i = Some p /\ chord2 v p < thr*thr /\ same_mod1 thr v p
    | None => forall i p, nth_error pts i = Some p -> tagOK i = true -> thr*thr <= chord2 v p /\ ~ same_mod1 (thr/14) v p
    end.
Proof.
  intros Ht E. destruct (mkLookup_ok thr pts metric n) as (_&H). specialize (H lk E).
  destruct (lookup_find_spec thr Ht pts tagOK lk v H) as (r&Er&Hr). exists r. split; auto. destruct r as [i|].
  - destruct Hr as (T&p&P&C). split; auto. exists p. split; auto. split; [rewrite <- chord2_circ; auto|]. apply circDist_near; auto.
  - intros i p P T. assert (N : ~ circDistanceSquared v p < thr*thr).
    { intros C. rewrite (Hr i p P C) in T. discriminate. }
    rewrite <- chord2_circ. split; [lra|]. intros Q. apply N. apply circDist_far; auto.
Qed.
