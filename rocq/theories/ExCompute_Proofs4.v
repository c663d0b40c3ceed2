From Coq Require Import Reals List Bool Arith Lra Lia FunctionalExtensionality.
From Coq Require Fin.
From Coquelicot Require Import Coquelicot.
From Verif Require Import CMat MatFun_Model MatFun_Spec MatFun_Proofs MatFun_Proofs2 ElecGrad_Spec ElecGrad_Proofs ElecGrad_Proofs3 ExCompute_Model ExCompute_Spec ExCompute_Proofs ExCompute_Proofs2 ExCompute_Proofs3.
Import ListNotations.
Open Scope C_scope.

Lemma finN_lt : forall n (j : Fin.t n), (finN j < n)%nat.
Proof. intros. unfold finN. destruct (Fin.to_nat j) as [i Hi]. exact Hi. Qed.
Lemma finN_FS : forall n (j : Fin.t n), finN (Fin.FS j) = S (finN j).
Proof. intros. unfold finN. cbn. destruct (Fin.to_nat j). reflexivity. Qed.
Lemma seq_fsum : forall n (f : nat -> R), sumR (seq 0 n) f = Re (fsum (fun j : Fin.t n => RtoC (f (finN j)))).
Proof.
  induction n as [|n IH]; intros f; [reflexivity|]. cbn [seq]. rewrite sumR_cons, <- seq_shift. cbn [fsum]. rewrite Re_add. f_equal.
  rewrite (fsum_ext _ (fun i => RtoC (f (finN (Fin.FS i)))) (fun i => RtoC (f (S (finN i))))) by (intros; rewrite finN_FS; reflexivity).
  rewrite <- (IH (fun i => f (S i))). generalize (seq 0 n). intros l. induction l as [|a l IHl]; [reflexivity|]. cbn [map]. rewrite !sumR_cons, IHl. reflexivity.
Qed.

Section All.
  Variables (ns N m : nat) (I : Fin.t ns -> mat N m) (J : mat N N) (aXX wq : R) (rpa : bool) (Hq : wq <> 0%R) (bs nq : nat) (Hbs : (0 < bs)%nat) (Fq eq : nat -> R) (Cq : nat -> cvec m).
  Definition opAll (ks : list (kstate ns N)) : mat m m := sumM ks (fun k => opX ns N m I J wq (ks_n _ _ k) (ks_F _ _ k) (ks_pairs _ _ k)).
  Definition eAll (ks : list (kstate ns N)) : R := sumR ks (fun k => sumR (seq 0 nq) (eB ns N m I J aXX rpa (ks_n _ _ k) (ks_F _ _ k) (ks_e _ _ k) Fq eq (ks_pairs _ _ k) Cq)).
  Lemma mvec_scal : forall (A : mat m m) c v g, mvec (mscal c A) v g = c * mvec A v g.
  Proof. intros. unfold mvec, mscal. rewrite <- fsum_scal. apply fsum_ext. intros. ring. Qed.
  Lemma mvec_sum : forall T (l : list T) (A : T -> mat m m) v g, mvec (sumM l A) v g = sumC l (fun x => mvec (A x) v g).
  Proof. intros. unfold mvec, sumM. rewrite <- sumC_fsum. apply fsum_ext. intros j. rewrite Cmult_comm, <- sumC_scal. apply sumC_ext. intros. ring. Qed.
  Lemma all_ok : forall ks, (forall k, In k ks -> ks_weight _ _ k <> 0%R) ->
    computeAll ns N m I J aXX rpa bs wq nq Fq eq ks Cq = Some (eAll ks, fun b => if (b <? nq)%nat then mvec (mscal (RtoC (- aXX)) (opAll ks)) (Cq b) else cvzero).
  Proof.
    intros ks Hk. unfold computeAll.
    assert (forall l E H, (forall k, In k l -> ks_weight _ _ k <> 0%R) -> fold_left (fun a k => match a with None => None | Some (E, H) =>
        match computePair ns N m I J aXX rpa bs (ks_weight _ _ k) wq (ks_n _ _ k) nq (ks_F _ _ k) (ks_e _ _ k) Fq eq (ks_pairs _ _ k) Cq H with
        | None => None | Some (dE, H') => Some ((E + dE)%R, H') end end) l (Some (E, H)) = Some ((E + eAll l)%R, fun b => if (b <? nq)%nat then (fun g => H b g + mvec (mscal (RtoC (- aXX)) (opAll l)) (Cq b) g) else H b)) as G.
    { induction l as [|k l IH]; intros E H Hl.
      - cbn [fold_left]. f_equal. f_equal; [unfold eAll; cbn; ring|]. apply functional_extensionality. intros b. destruct (b <? nq)%nat; [|reflexivity]. apply functional_extensionality. intros g.
        rewrite mvec_scal. unfold opAll. rewrite mvec_sum. cbn. ring.
      - cbn [fold_left]. rewrite compute_ok by (auto; apply Hl; left; reflexivity). rewrite IH by (intros; apply Hl; right; assumption). f_equal. f_equal.
        + unfold eAll. rewrite sumR_cons. ring.
        + apply functional_extensionality. intros b. destruct (b <? nq)%nat; [|reflexivity]. apply functional_extensionality. intros g. rewrite !mvec_scal. unfold opAll. rewrite !mvec_sum, sumC_cons. ring. }
    rewrite G by exact Hk. f_equal. f_equal; [ring|]. apply functional_extensionality. intros b. destruct (b <? nq)%nat; [|reflexivity]. apply functional_extensionality. intros g. unfold cvzero. apply Cplus_0_l.
  Qed.
End All.
Lemma opAll_psd : forall ns N m (I : Fin.t ns -> mat N m) J wq ks, (0 < wq)%R ->
  (forall k, In k ks -> (forall b, (b < ks_n ns N k)%nat -> (0 <= ks_F ns N k b)%R) /\ forall kp, In kp (ks_pairs ns N k) -> (0 <= kp_weight ns N kp)%R /\ posSemi (kp_K ns N kp)) ->
  posSemi (opAll ns N m I J wq ks).
Proof. intros ns N m I J wq ks Hq H. apply psd_sum. intros k Hk. destruct (H k Hk). apply opX_psd; assumption. Qed.
Lemma eAll_half : forall ns N m (I : Fin.t ns -> mat N m) J aXX wq nq Fq eq Cq ks, wq <> 0%R ->
  eAll ns N m I J aXX false nq Fq eq Cq ks = expectation wq (fun j : Fin.t nq => Fq (finN j)) (mscal (RtoC (- aXX)) (opAll ns N m I J wq ks)) (fun i j => Cq (finN j) i).
Proof.
  intros. unfold eAll. rewrite sumR_swap, seq_fsum. change (rsumF (fun j : Fin.t nq => sumR ks (fun x => eB ns N m I J aXX false (ks_n _ _ x) (ks_F _ _ x) (ks_e _ _ x) Fq eq (ks_pairs _ _ x) Cq (finN j))) = expectation wq (fun j : Fin.t nq => Fq (finN j)) (mscal (RtoC (- aXX)) (opAll ns N m I J wq ks)) (fun i j => Cq (finN j) i)).
  unfold expectation. rewrite <- rsumF_scal. apply rsumF_ext. intros j. unfold colOf, opAll. rewrite bracket_scal_m, Re_scal, bracket_sum, Re_sumC, <- !sumR_scal.
  apply sumR_ext. intros k _. rewrite (eB_half ns N m I J aXX wq) by assumption. rewrite bracket_scal_m, Re_scal. change (fun i => Cq (finN j) i) with (Cq (finN j)). ring.
Qed.

(** ** Compressed operator *)
Lemma ace_main : forall m n (K : mat m m) (Cq : mat m n) V d, posSemi K -> eigensystem (aceOverlap Cq (mmul K Cq)) V d ->
  exists psi sing, acePrepare (mmul K Cq) V d = Some (psi, sing) /\ (sing = false <-> posDef (aceOverlap Cq (mmul K Cq))) /\
    posSemi (mmul psi (madj psi)) /\ mmul (mmul psi (madj psi)) Cq = mmul K Cq /\ formLe (mmul psi (madj psi)) K.
Proof.
  intros m n K Cq V d HK He. eexists _, _. split; [apply prepare_some|]. split; [|split; [|split]].
  - destruct (invsqrt_posSemi _ _ _ _ (M_psd K Cq HK) He) as [S [s [E [_ H]]]]. cbv zeta in H. destruct H as [_ [_ [_ [_ [_ H]]]]]. rewrite <- H. unfold invsqrt in E. rewrite powMat_some in E by auto. injection E as _ E2 E3. rewrite E3. reflexivity.
  - eapply A_psd. 
  - eapply A_exact; eassumption.
  - eapply A_le; eassumption.
Qed.
Lemma fdiag_tr : forall m l (B : mat m l) (F : Fin.t l -> R), mtr (mmul (mmul B (mdiag (fun i => RtoC (F i)))) (madj B)) = fsum (fun j => RtoC (F j) * cvdot (colOf B j) (colOf B j)).
Proof.
  intros. rewrite mtr_mul. rewrite fsum_swap. apply fsum_ext. intros j. unfold cvdot. rewrite <- fsum_scal. apply fsum_ext. intros i. rewrite mdiag_r. unfold madj, colOf. ring.
Qed.
Lemma ace_apply : forall m n l (psi : mat m n) aXX w F (D HC : mat m l), let A := mmul psi (madj psi) in
  aceApply aXX w psi F D HC = (expectation w F (mscal (RtoC (- aXX)) A) D, madd HC (mmul (mscal (RtoC (- aXX)) A) D)).
Proof.
  intros. unfold aceApply. f_equal.
  - rewrite fdiag_tr, Re_fsum. unfold expectation. rewrite <- !rsumF_scal. apply rsumF_ext. intros j. rewrite Re_scal, bracket_scal_m, Re_scal.
    assert (cvdot (colOf (mmul (madj psi) D) j) (colOf (mmul (madj psi) D) j) = bracket (colOf D j) A (colOf D j)) as ->; [|ring].
    change (colOf (mmul (madj psi) D) j) with (mvec (madj psi) (colOf D j)). rewrite cvdot_adj, madj_adj, mvec_mul. reflexivity.
  - apply mat_ext. intros i j. rewrite mmul_scal_l. unfold A, msub, madd. rewrite <- mmul_assoc. unfold mscal. rewrite RtoC_opp. ring.
Qed.
Lemma expectation_on : forall m l w F (H H' : mat m m) (D : mat m l), mmul H D = mmul H' D -> expectation w F H D = expectation w F H' D.
Proof.
  intros m l w F H H' D E. unfold expectation. f_equal. apply rsumF_ext. intros j. do 2 f_equal. rewrite !bracket_mvec. f_equal.
  apply functional_extensionality. intros i. exact (f_equal (fun Z => Z i j) E).
Qed.
Lemma ace_span : forall m n l (K : mat m m) (Cq : mat m n) V d psi sing aXX w F (T : mat n l) HC, posSemi K -> eigensystem (aceOverlap Cq (mmul K Cq)) V d ->
  acePrepare (mmul K Cq) V d = Some (psi, sing) -> let D := mmul Cq T in let H := mscal (RtoC (- aXX)) K in
  aceApply aXX w psi F D HC = (expectation w F H D, madd HC (mmul H D)).
Proof.
  intros m n l K Cq V d psi sing aXX w F T HC HK He Hp D H. destruct (ace_main m n K Cq V d HK He) as [psi' [s' [E [_ [_ [E1 _]]]]]]. rewrite E in Hp. injection Hp as -> ->.
  rewrite ace_apply. assert (mmul (mscal (RtoC (- aXX)) (mmul psi (madj psi))) D = mmul H D) as E2.
  { unfold H, D. rewrite !mmul_scal_l. f_equal. rewrite !mmul_assoc, E1. reflexivity. }
  rewrite E2. f_equal. apply expectation_on. exact E2.
Qed.
Lemma ace_bound : forall m n l (K : mat m m) (Cq : mat m n) V d psi sing aXX w F (D HC : mat m l), posSemi K -> eigensystem (aceOverlap Cq (mmul K Cq)) V d ->
  acePrepare (mmul K Cq) V d = Some (psi, sing) -> (0 <= aXX)%R -> (0 <= w)%R -> (forall j, (0 <= F j)%R) ->
  (expectation w F (mscal (RtoC (- aXX)) K) D <= fst (aceApply aXX w psi F D HC) <= 0)%R.
Proof.
  intros m n l K Cq V d psi sing aXX w F D HC HK He Hp Ha Hw HF. destruct (ace_main m n K Cq V d HK He) as [psi' [s' [E [_ [[_ Pp] [_ Hle]]]]]]. rewrite E in Hp. injection Hp as -> ->.
  rewrite ace_apply. cbn [fst]. unfold expectation.
  assert (forall f g : Fin.t l -> R, (forall j, (f j <= g j)%R) -> (rsumF f <= rsumF g)%R) as Hm.
  { clear. induction l as [|l IH]; intros f g H; [right; reflexivity|]. unfold rsumF in *. cbn [fsum]. rewrite !Re_add. apply Rplus_le_compat; [apply H|]. apply (IH (fun i => f (Fin.FS i)) (fun i => g (Fin.FS i))). intros. apply H. }
  split.
  - apply Rmult_le_compat_l; [lra|]. apply Hm. intros j. rewrite !bracket_scal_m, !Re_scal. specialize (Hle (colOf D j)). specialize (HF j). apply Rmult_le_compat_l; [exact HF|]. nra.
  - assert (rsumF (fun j => (F j * Re (bracket (colOf D j) (mscal (RtoC (- aXX)) (mmul psi (madj psi))) (colOf D j)))%R) <= 0)%R as Hn.
    { apply (Rle_trans _ (rsumF (fun _ : Fin.t l => 0%R))).
      - apply Hm. intros j. rewrite bracket_scal_m, Re_scal. specialize (Pp (colOf D j)). rewrite quad_bracket in Pp. specialize (HF j). assert (0 <= aXX * Re (bracket (colOf D j) (mmul psi (madj psi)) (colOf D j)))%R by nra. nra.
      - unfold rsumF. rewrite fsum_0. right. reflexivity. }
    nra.
Qed.
Lemma ace_unique : forall m n n' (K : mat m m) (Cq : mat m n) (Cq' : mat m n') V d V' d' psi psi' s s', posSemi K -> sameSpan Cq Cq' ->
  eigensystem (aceOverlap Cq (mmul K Cq)) V d -> eigensystem (aceOverlap Cq' (mmul K Cq')) V' d' ->
  acePrepare (mmul K Cq) V d = Some (psi, s) -> acePrepare (mmul K Cq') V' d' = Some (psi', s') -> mmul psi (madj psi) = mmul psi' (madj psi').
Proof.
  intros m n n' K Cq Cq' V d V' d' psi psi' s s' HK [[T ET] [T' ET']] He He' Hp Hp'. rewrite prepare_some in Hp. rewrite prepare_some in Hp'. injection Hp as <- _. injection Hp' as <- _.
  pose proof (K_Q K Cq V d) as A1. pose proof (K_Q K Cq' V' d') as A2. cbv zeta in A1, A2.
  pose proof (A_exact K Cq V d HK He) as X1. pose proof (A_exact K Cq' V' d' HK He') as X2. cbv zeta in X1, X2.
  pose proof (A_herm K Cq V d) as H1. pose proof (A_herm K Cq' V' d') as H2. cbv zeta in H1, H2.
  pose proof (A_form K Cq V d) as F1. pose proof (A_form K Cq' V' d') as F2. cbv zeta in F1, F2.
  set (A := mmul (mmul (mmul K Cq) _) (madj _)) in *. set (A' := mmul (mmul (mmul K Cq') _) (madj _)) in *.
  assert (mmul A' (aceQ K Cq V d) = A) as Q1.
  { unfold aceQ. rewrite !mmul_assoc. assert (mmul A' Cq = mmul K Cq) as ->. { rewrite ET, !mmul_assoc, X2. reflexivity. } rewrite F1, !mmul_assoc. reflexivity. }
  assert (mmul A (aceQ K Cq' V' d') = A') as Q2.
  { unfold aceQ. rewrite !mmul_assoc. assert (mmul A Cq' = mmul K Cq') as ->. { rewrite ET', !mmul_assoc, X1. reflexivity. } rewrite F2, !mmul_assoc. reflexivity. }
  assert (A' = mmul (madj (aceQ K Cq' V' d')) K) as E2. { rewrite <- H2, <- A2 at 1. rewrite madj_mul, (K_herm K HK). reflexivity. }
  transitivity (mmul (madj (aceQ K Cq' V' d')) A).
  - rewrite <- Q1 at 1. rewrite E2, <- mmul_assoc, A1. reflexivity.
  - rewrite <- H1 at 1. rewrite <- madj_mul, Q2. exact H2.
Qed.

Lemma pairs_ok : forall ns N m (I : Fin.t ns -> mat N m) J aXX rpa wk wq nk Fk ek Fq eq kpairs Cq bs nq H, wk <> 0%R -> wq <> 0%R -> (0 < bs)%nat ->
  computePair ns N m I J aXX rpa bs wk wq nk nq Fk ek Fq eq kpairs Cq H =
    Some (sumR (seq 0 nq) (fun bq => sumR (seq 0 nk) (fun bk => sumR kpairs (fun kp =>
        (- (1/2) * aXX * kp_weight _ _ kp * pairWeight rpa (Fk bk) (Fq bq) (ek bk) (eq bq) * Re (bracket (Cq bq) (exchangeTerm I J (kp_K _ _ kp) (kp_state _ _ kp bk)) (Cq bq)))%R))),
      fun b => if (b <? nq)%nat then cvadd (H b) (mvec (mscal (RtoC (- aXX)) (exchangeOp I J wq nk Fk kpairs)) (Cq b)) else H b).
Proof.
  intros. rewrite compute_ok by assumption. f_equal. f_equal. apply functional_extensionality. intros b. destruct (b <? nq)%nat; [|reflexivity].
  apply functional_extensionality. intros g. unfold cvadd. rewrite mvec_scal. reflexivity.
Qed.
Lemma energy_ok : forall ns N m (I : Fin.t ns -> mat N m) J aXX wq Fq eq ks Cq bs nq, wq <> 0%R -> (0 < bs)%nat -> (forall k, In k ks -> ks_weight _ _ k <> 0%R) ->
  let X := mscal (RtoC (- aXX)) (exchangeOpAll I J wq ks) in
  computeAll ns N m I J aXX false bs wq nq Fq eq ks Cq =
    Some (expectation wq (fun j : Fin.t nq => Fq (finN j)) X (fun i j => Cq (finN j) i), fun b => if (b <? nq)%nat then mvec X (Cq b) else cvzero).
Proof. intros. rewrite all_ok by assumption. f_equal. f_equal. apply eAll_half. assumption. Qed.
Lemma rpa_ok : forall wk wq fk fq ek eq, ((ek < eq)%R -> (fq <= fk)%R) -> ((eq <= ek)%R -> (fk <= fq)%R) ->
  pairFillings true wk wq fk fq ek eq = (wk * wq * Rmin fk fq)%R.
Proof.
  intros. unfold pairFillings. destruct (Rlt_dec ek eq) as [L|L].
  - rewrite Rmin_right by auto. ring.
  - rewrite Rmin_left by (apply H0; lra). ring.
Qed.
Lemma full_ace : forall ns N m (I : Fin.t ns -> mat N m) J aXX wq Fq eq ks Cq bs nq E1 W V d psi s, (0 < wq)%R -> (0 < bs)%nat ->
  (forall k, In k ks -> ks_weight _ _ k <> 0%R /\ (forall b, (b < ks_n ns N k)%nat -> (0 <= ks_F ns N k b)%R) /\ forall kp, In kp (ks_pairs ns N k) -> (0 <= kp_weight ns N kp)%R /\ posSemi (kp_K ns N kp)) ->
  computeAll ns N m I J (-1) false bs wq nq Fq eq ks Cq = Some (E1, W) ->
  let Cm : mat m nq := fun i j => Cq (finN j) i in let Wm : mat m nq := fun i j => W (finN j) i in
  eigensystem (aceOverlap Cm Wm) V d -> acePrepare Wm V d = Some (psi, s) ->
  exists E H, computeAll ns N m I J aXX false bs wq nq Fq eq ks Cq = Some (E, H) /\
    aceApply aXX wq psi (fun j : Fin.t nq => Fq (finN j)) Cm mzero = (E, fun i j => H (finN j) i).
Proof.
  intros ns N m I J aXX wq Fq eq ks Cq bs nq E1 W V d psi s Hq Hbs Hks HW Cm Wm He Hp.
  assert (forall k, In k ks -> ks_weight _ _ k <> 0%R) as Hk by (intros k Hk; apply (Hks k Hk)).
  rewrite energy_ok in HW by (auto; lra). injection HW as _ HW. set (X := exchangeOpAll I J wq ks) in *.
  assert (posSemi X) as HX by (apply opAll_psd; [exact Hq|]; intros k Hk'; destruct (Hks k Hk') as [_ Hr]; exact Hr).
  assert (Wm = mmul X Cm) as EW.
  { apply mat_ext. intros i j. unfold Wm. rewrite <- HW. destruct (Nat.ltb_spec (finN j) nq) as [_|L]; [|pose proof (finN_lt _ j); lia].
    rewrite mvec_scal. replace (- -1)%R with 1%R by ring. unfold mvec. rewrite Cmult_1_l. reflexivity. }
  eexists _, _. split; [apply energy_ok; auto; lra|]. rewrite EW in He, Hp.
  pose proof (ace_span m nq nq X Cm V d psi s aXX wq (fun j => Fq (finN j)) mone mzero HX He Hp) as E. cbv zeta in E. rewrite mone_r in E. rewrite E. fold X. f_equal.
  apply mat_ext. intros i j. destruct (Nat.ltb_spec (finN j) nq) as [_|L]; [|pose proof (finN_lt _ j); lia]. rewrite madd_0_l. reflexivity.
Qed.
Lemma use_ok : forall st omega str rpa, useACE st omega str rpa = true <-> st = Some omega /\ str = false /\ rpa = false.
Proof.
  intros [w|] omega str rpa; cbn; [|split; [discriminate|intros [H _]; discriminate]]. destruct (Req_EM_T omega w) as [->|E]; cbn.
  - destruct str, rpa; cbn; split; intros H; try discriminate; intuition discriminate.
  - split; [discriminate|]. intros [H _]. congruence.
Qed.
