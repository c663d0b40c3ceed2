From Coq Require Import Reals List Bool Arith Lra Lia FunctionalExtensionality.
From Coq Require Fin.
From Coquelicot Require Import Coquelicot.
From Verif Require Import CMat MatFun_Model MatFun_Spec ExCompute_Model ExCompute_Spec ExCompute_Proofs.
Import ListNotations.
Open Scope C_scope.

Lemma upd_fold : forall X (h : nat -> X -> X) l H b, NoDup l ->
  fold_left (fun H bq => fun b => if (b =? bq)%nat then h bq (H b) else H b) l H b = if in_dec Nat.eq_dec b l then h b (H b) else H b.
Proof.
  induction l as [|a l IH]; intros H b Hd; cbn [fold_left]; [reflexivity|]. inversion Hd as [|? ? Ha Hl]; subst. rewrite IH by exact Hl.
  destruct (in_dec Nat.eq_dec b (a :: l)) as [Hi|Hi]; destruct (in_dec Nat.eq_dec b l) as [Hj|Hj]; destruct (Nat.eqb_spec b a) as [E|E]; subst; try reflexivity; exfalso; cbn in Hi; intuition congruence.
Qed.

Section Pair.
  Variables (ns N m : nat) (I : Fin.t ns -> mat N m) (J : mat N N) (aXX : R) (rpa : bool).
  Variables (wk wq : R) (Hk : wk <> 0%R) (Hq : wq <> 0%R) (nk : nat) (Fk ek Fq eq : nat -> R) (kpairs : list (kpairEntry ns N)) (Cq : nat -> cvec m).
  Definition opX : mat m m := sumM (seq 0 nk) (fun bk => sumM kpairs (fun kp => mscal (RtoC (kp_weight _ _ kp * Fk bk / wq)) (exchangeTerm I J (kp_K _ _ kp) (kp_state _ _ kp bk)))).
  Definition eB (bq : nat) : R := sumR (seq 0 nk) (fun bk => sumR kpairs (fun kp => eT ns N m I J aXX rpa Fk ek Fq eq Cq bk kp bq)).
  Definition gB (bq : nat) : Fin.t ns -> cvec N := fun s x => sumC (seq 0 nk) (fun bk => sumC kpairs (fun kp => gT ns N m I J aXX wq Fk Cq bk kp bq s x)).
  Let Ipsi : nat -> Fin.t ns -> cvec N := fun bq s => mvec (I s) (Cq bq).
  Lemma pick : forall l b (f : nat -> C), NoDup l -> sumC l (fun y => if (b =? y)%nat then f y else RtoC 0) = if in_dec Nat.eq_dec b l then f b else RtoC 0.
  Proof.
    induction l as [|a l IH]; intros b f Hd; [reflexivity|]. inversion Hd as [|? ? Ha Hl]; subst. rewrite sumC_cons, IH by exact Hl.
    destruct (in_dec Nat.eq_dec b (a :: l)) as [Hi|Hi]; destruct (in_dec Nat.eq_dec b l) as [Hj|Hj]; destruct (Nat.eqb_spec b a) as [E|E]; subst; try ring; exfalso; cbn in Hi; intuition congruence.
  Qed.
  Lemma block_ok : forall s e EXX, let p := blockPairs ns N J aXX rpa wk wq nk Fk ek Fq eq kpairs Ipsi s e EXX in
    fst p = (EXX + sumR (seq s (e - s)) eB)%R /\ forall b sp x, In b (seq s (e - s)) -> snd p b sp x = gB b sp x.
  Proof.
    intros s e EXX p. unfold p, blockPairs.
    rewrite (fold_sadd _ _ _ (fun bk => sumS kpairs (fun kp => sumS (seq s (e - s)) (pT ns N m I J aXX rpa wq Fk ek Fq eq Cq bk kp)))).
    2:{ intros a bk. apply fold_sadd. intros a' kp. apply fold_sadd. intros a'' bq. apply step_ok; assumption. }
    unfold sadd. cbn [fst snd]. split.
    - f_equal. rewrite fst_sumS. unfold eB. rewrite (sumR_swap _ _ (seq s (e - s))). apply sumR_ext. intros bk _. rewrite fst_sumS, (sumR_swap _ _ (seq s (e - s))).
      apply sumR_ext. intros kp _. rewrite fst_sumS. reflexivity.
    - intros b sp x Hb. rewrite snd_sumS. unfold gB. unfold cvzero. rewrite Cplus_0_l. apply sumC_ext. intros bk _. rewrite snd_sumS. apply sumC_ext. intros kp _.
      rewrite snd_sumS. unfold pT. cbn [snd]. rewrite (pick (seq s (e - s)) b (fun y => gT ns N m I J aXX wq Fk Cq bk kp y sp x)) by apply seq_NoDup.
      destruct (in_dec _ _ _); [reflexivity|contradiction].
  Qed.
  Lemma accum_ok : forall grad s e H b, accumBlock ns N m I grad s e H b = if in_dec Nat.eq_dec b (seq s (e - s)) then (fun g => H b g + fsum (fun sp => mvec (madj (I sp)) (grad b sp) g)) else H b.
  Proof.
    intros. unfold accumBlock.
    assert (forall bq H, fold_left (fun H s0 => fun b0 => if (b0 =? bq)%nat then cvadd (H b0) (mvec (madj (I s0)) (grad bq s0)) else H b0) (allFin ns) H
      = fun b0 => if (b0 =? bq)%nat then (fun g => H b0 g + fsum (fun sp => mvec (madj (I sp)) (grad bq sp) g)) else H b0) as E.
    { intros bq H0. apply functional_extensionality. intros b0. destruct (Nat.eqb_spec b0 bq) as [->|Hn].
      - apply functional_extensionality. intros g.
        rewrite <- (allFin_fold ns C (fun a c => a + c) (fun sp => mvec (madj (I sp)) (grad bq sp) g)) by (intros; ring).
        generalize (allFin ns) as l. intros l. revert H0. induction l as [|sp l IH]; intros H0; [reflexivity|]. cbn [fold_left]. rewrite IH. rewrite Nat.eqb_refl. reflexivity.
      - generalize (allFin ns) as l. intros l. revert H0. induction l as [|sp l IH]; intros H0; [reflexivity|]. cbn [fold_left]. rewrite IH. destruct (Nat.eqb_spec b0 bq); [contradiction|reflexivity]. }
    rewrite <- (upd_fold (cvec m) (fun b v => fun g => v g + fsum (fun sp => mvec (madj (I sp)) (grad b sp) g)) (seq s (e - s)) H b) by apply seq_NoDup.
    apply (f_equal (fun st => fold_left st (seq s (e - s)) H b)). apply functional_extensionality. intros H0. apply functional_extensionality. intros bq. apply E.
  Qed.
  Lemma back_all : forall b g, fsum (fun sp => mvec (madj (I sp)) (gB b sp) g) = RtoC (- aXX) * mvec opX (Cq b) g.
  Proof.
    intros. transitivity (sumC (seq 0 nk) (fun bk => sumC kpairs (fun kp => fsum (fun sp => mvec (madj (I sp)) (gT ns N m I J aXX wq Fk Cq bk kp b sp) g)))).
    { rewrite (fsum_ext _ _ (fun sp => sumC (seq 0 nk) (fun bk => sumC kpairs (fun kp => mvec (madj (I sp)) (gT ns N m I J aXX wq Fk Cq bk kp b sp) g)))).
      2:{ intros sp. unfold gB, mvec at 1. rewrite (fsum_ext _ _ (fun x => sumC (seq 0 nk) (fun bk => sumC kpairs (fun kp => madj (I sp) g x * gT ns N m I J aXX wq Fk Cq bk kp b sp x)))).
          2:{ intros x. rewrite <- sumC_scal. apply sumC_ext. intros. rewrite <- sumC_scal. reflexivity. }
          rewrite sumC_fsum. apply sumC_ext. intros bk _. rewrite sumC_fsum. reflexivity. }
      rewrite sumC_fsum. apply sumC_ext. intros bk _. rewrite sumC_fsum. reflexivity. }
    unfold gT. unfold opX, sumM. unfold mvec at 2.
    rewrite (fsum_ext _ (fun j => sumC (seq 0 nk) _ * Cq b j) (fun j => sumC (seq 0 nk) (fun bk => sumC kpairs (fun kp => RtoC (kp_weight _ _ kp * Fk bk / wq) * (exchangeTerm I J (kp_K _ _ kp) (kp_state _ _ kp bk) g j * Cq b j))))).
    2:{ intros j. rewrite Cmult_comm, <- sumC_scal. apply sumC_ext. intros bk _. rewrite <- sumC_scal. apply sumC_ext. intros kp _. unfold mscal. ring. }
    rewrite sumC_fsum, <- sumC_scal. apply sumC_ext. intros bk _. rewrite sumC_fsum, <- sumC_scal. apply sumC_ext. intros kp _. rewrite back, fsum_scal.
    rewrite Cmult_assoc, <- RtoC_mult. unfold mvec. f_equal. f_equal. unfold Rdiv. ring.
  Qed.
  Lemma compute_ok : forall bs nq H, (0 < bs)%nat ->
    computePair ns N m I J aXX rpa bs wk wq nk nq Fk ek Fq eq kpairs Cq H =
      Some (sumR (seq 0 nq) eB, fun b => if (b <? nq)%nat then (fun g => H b g + RtoC (- aXX) * mvec opX (Cq b) g) else H b).
  Proof.
    intros bs nq H Hbs. unfold computePair. destruct (Nat.eqb_spec bs 0) as [->|_]; [lia|].
    set (step := fun (a : R * (nat -> cvec m) * nat) (iBlock : nat) => _).
    assert (forall n, fold_left step (seq 0 n) (0%R, H, O) = (sumR (seq 0 (Nat.min (n * bs) nq)) eB, (fun b => if (b <? Nat.min (n * bs) nq)%nat then (fun g => H b g + RtoC (- aXX) * mvec opX (Cq b) g) else H b), Nat.min (n * bs) nq)) as E.
    { induction n as [|n IH].
      - cbn [seq fold_left]. rewrite Nat.mul_0_l, Nat.min_0_l. reflexivity.
      - rewrite seq_S, fold_left_app, IH. cbn [Nat.add fold_left]. unfold step at 1.
        set (s := Nat.min (n * bs) nq). assert (Nat.min (s + bs) nq = Nat.min (S n * bs) nq) as Es by (unfold s; lia). rewrite Es. set (e := Nat.min (S n * bs) nq).
        assert (s <= e)%nat as Hse by (unfold s, e; lia).
        destruct (block_ok s e (sumR (seq 0 s) eB)) as [B1 B2]. fold Ipsi.
        f_equal. f_equal.
        + rewrite B1. rewrite <- sumR_app. f_equal. replace e with (s + (e - s))%nat at 2 by lia. rewrite seq_app. reflexivity.
        + apply functional_extensionality. intros b. rewrite accum_ok.
          destruct (in_dec Nat.eq_dec b (seq s (e - s))) as [Hi|Hi].
          * pose proof Hi as Hi'. apply in_seq in Hi. destruct (Nat.ltb_spec b e); [|lia]. destruct (Nat.ltb_spec b s); [lia|].
            apply functional_extensionality. intros g. f_equal. rewrite <- back_all. apply fsum_ext. intros sp. f_equal. apply functional_extensionality. intros x. apply B2. exact Hi'.
          * rewrite in_seq in Hi. destruct (Nat.ltb_spec b e); destruct (Nat.ltb_spec b s); try lia; reflexivity. }
    rewrite E. cbn [fst].
    replace (Nat.min ((nq + bs - 1) / bs * bs) nq) with nq; [reflexivity|].
    pose proof (Nat.div_mod (nq + bs - 1) bs) as D. pose proof (Nat.mod_upper_bound (nq + bs - 1) bs). nia.
  Qed.
End Pair.
