From Coq Require Import ZArith Reals List Bool Arith Lra Lia FunctionalExtensionality.
From Verif Require Import Base Vec3_Model Vec3_Facts Ions_Model ExCompute_Spec ExCompute_Proofs Phonon_Model Phonon_Spec Phonon_Proofs Phonon_Proofs2 Phonon_Proofs3 Phonon_Proofs4.
Import ListNotations.
Import Vec3_Model.
Open Scope R_scope.

(** ** Sums of vectors *)
Lemma dot_add_r u v w : rdot u (rvadd v w) = rdot u v + rdot u w. Proof. destruct u, v, w. cbv. ring. Qed.
Lemma dot_scale_r s u v : rdot u (rvscale s v) = s * rdot u v. Proof. destruct u, v. cbv. ring. Qed.
Lemma dot_sub_r u v w : rdot u (rvsub v w) = rdot u v - rdot u w. Proof. destruct u, v, w. cbv. ring. Qed.
Lemma dot_opp_r u v : rdot u (rvopp v) = - rdot u v. Proof. destruct u, v. cbv. ring. Qed.
Lemma dot_vacc : forall A (l : list A) f u, rdot u (vacc l f) = sumR l (fun x => rdot u (f x)).
Proof.
  intros. unfold vacc. assert (forall l s, rdot u (fold_left (fun s x => rvadd s (f x)) l s) = rdot u s + sumR l (fun x => rdot u (f x))) as H.
  - clear l. induction l as [|x l IH]; intros s; cbn [fold_left]; [cbn; ring|]. rewrite IH, sumR_cons, dot_add_r. ring.
  - rewrite H. destruct u. cbv -[Rplus Rmult IZR]. ring.
Qed.
Lemma bilin_macc : forall A (l : list A) f u v, rdot u (rmv (macc l f) v) = sumR l (fun x => rdot u (rmv (f x) v)).
Proof.
  intros. unfold macc. assert (forall l s, rdot u (rmv (fold_left (fun s x => rmadd s (f x)) l s) v) = rdot u (rmv s v) + sumR l (fun x => rdot u (rmv (f x) v))) as H.
  - clear l. induction l as [|x l IH]; intros s; cbn [fold_left]; [cbn; ring|]. rewrite IH, sumR_cons. rewrite <- Rplus_assoc. f_equal. destruct u, v, s, (f x). cbv -[Rplus Rmult IZR]. ring.
  - rewrite H. destruct u, v. cbv -[Rplus Rmult IZR]. ring.
Qed.
Lemma bilin_outer : forall a b u v, rdot u (rmv (Ions_Model.outer a b) v) = rdot u a * rdot b v.
Proof. intros [] [] [] []. cbv -[Rplus Rmult IZR]. ring. Qed.
Lemma bilin_add : forall A B u v, rdot u (rmv (rmadd A B) v) = rdot u (rmv A v) + rdot u (rmv B v).
Proof. intros [] [] [] []. cbv -[Rplus Rmult IZR]. ring. Qed.
Lemma bilin_scale : forall s A u v, rdot u (rmv (rmscale s A) v) = s * rdot u (rmv A v).
Proof. intros s [] [] []. cbv -[Rplus Rmult IZR]. ring. Qed.
Lemma dot_ext : forall a b, (forall u, rdot u a = rdot u b) -> a = b.
Proof. intros [a0 a1 a2] [b0 b1 b2] H. pose proof (H (V 1 0 0)) as H0. pose proof (H (V 0 1 0)) as H1. pose proof (H (V 0 0 1)) as H2. cbv [rdot gdot c0 c1 c2] in *. f_equal; lra. Qed.
Lemma rdot_sym a b : rdot a b = rdot b a. Proof. apply rdot_comm. Qed.

Section Fix.
  Variables (cells : list (vec Z)) (w : fmatrix) (Rl : mat R) (x : nat -> vec R) (nA nSup : nat).
  Hypothesis HnA : (0 < nA)%nat.
  Hypothesis HnS : (0 < nSup)%nat.
  Hypothesis Hw : forall i j, (i < nA)%nat -> (j < nA)%nat -> sumR cells (fun c => w c i j) = INR nSup.
  Notation dr := (drAtoms Rl x).
  Notation Vm := (firstMoment cells w Rl x).
  Notation U := (transShift cells w Rl x nA nSup).
  Notation rho := (secondMoment cells w Rl x nA).
  Notation T := (transMoment cells w Rl x nA nSup).
  Notation S_ := (dFsum cells w Rl x).
  Notation D0 := (dF0mat cells w Rl x nA nSup).
  Let HnA0 : INR nA <> 0. Proof. apply not_0_INR. lia. Qed.
  Let HnS0 : INR nSup <> 0. Proof. apply not_0_INR. lia. Qed.

  Lemma dot_err F a b u : rdot u (gammaErr cells Rl x nA F a b) = sumR cells (fun c => sumR (seq 0 nA) (fun i => sumR (seq 0 nA) (fun j => F c (3*i+a)%nat (3*j+b)%nat * rdot u (dr c i j)))).
  Proof.
    unfold gammaErr. rewrite dot_vacc. apply sumR_ext. intros c _. rewrite dot_vacc. unfold atomPairs. rewrite sumR_prod. apply sumR_ext. intros i _. apply sumR_ext. intros j _. cbn [fst snd]. rewrite dot_scale_r. reflexivity.
  Qed.
  Lemma dFsum_dot g i j a b : (a < 3)%nat -> (b < 3)%nat -> S_ g (3*i+a) (3*j+b) = rdot (Vm i j) (g a b).
  Proof.
    intros Ha Hb. unfold dFsum. rewrite rsumOn_sumR. rewrite rdot_sym. unfold firstMoment. rewrite dot_vacc. apply sumR_ext. intros c _. unfold dFmat. rewrite !div3, !mod3, dot_scale_r, (rdot_sym (g a b)) by assumption. reflexivity.
  Qed.
  Lemma dF0_shift g m1 m2 : D0 g m1 m2 = 1 / INR nSup * shiftT nA (S_ g) m1 m2.
  Proof.
    unfold dF0mat, rmulN. cbv zeta. f_equal. unfold shiftT, avA.
    assert (forall A m k, rsumOn (seq 0 (3 * nA)) (fun q => projTrans nA m q * A q k) = avL nA A (m mod 3) k) as EL by (intros; rewrite rsumOn_sumR, (projL nA m (fun q => A q k)); reflexivity).
    assert (forall A m k, rsumOn (seq 0 (3 * nA)) (fun q => A m q * projTrans nA q k) = avR nA A m (k mod 3)) as ER by (intros; rewrite rsumOn_sumR, (projR nA k (fun q => A m q)); reflexivity).
    rewrite (EL (S_ g) m1 m2), (ER (S_ g) m1 m2). f_equal. f_equal.
    rewrite (ER (fun i j => rsumOn (seq 0 (3 * nA)) (fun k => projTrans nA i k * S_ g k j)) m1 m2). unfold avR. f_equal. apply sumR_ext. intros j _. rewrite (EL (S_ g)). reflexivity.
  Qed.
  Lemma dF0_dot g i j a b : (a < 3)%nat -> (b < 3)%nat -> D0 g (3*i+a) (3*j+b) = rdot (U i j) (g a b).
  Proof.
    intros Ha Hb. rewrite dF0_shift. unfold transShift. rewrite rdot_sym, dot_scale_r, !dot_sub_r. f_equal. unfold shiftT. rewrite !mod3 by assumption.
    unfold allMean, rowMean, colMean, nAtomsInv. f_equal; [f_equal|].
    - rewrite dot_vacc. unfold avA, avR, avL.
      rewrite (sumR_ext _ _ (fun j0 => 1 / INR nA * sumR (seq 0 nA) (fun i0 => S_ g (3 * i0 + a) (3 * j0 + b))) (fun j0 => sumR (seq 0 nA) (fun i0 => 1 / INR nA * rdot (g a b) (Vm i0 j0)))).
      + rewrite <- sum_scal_r. rewrite (sumR_ext _ _ _ (fun j0 => sumR (seq 0 nA) (fun i0 => 1 / INR nA * (1 / INR nA * rdot (g a b) (Vm i0 j0))))) by (intros; rewrite !sum_scal_r; reflexivity).
        rewrite sum_swap. apply sumR_ext. intros i0 _. rewrite dot_vacc. apply sumR_ext. intros j0 _. rewrite !dot_scale_r. reflexivity.
      + intros j0 _. rewrite <- sum_scal_r. apply sumR_ext. intros i0 _. rewrite dFsum_dot, rdot_sym by assumption. reflexivity.
    - rewrite dot_vacc. unfold avR. rewrite <- sum_scal_r. apply sumR_ext. intros j0 _. rewrite dFsum_dot, rdot_sym, dot_scale_r by assumption. reflexivity.
    - rewrite dot_vacc. unfold avL. rewrite <- sum_scal_r. apply sumR_ext. intros j0 _. rewrite dFsum_dot, rdot_sym, dot_scale_r by assumption. reflexivity.
  Qed.

  Definition fixedF (g : nat -> nat -> vec R) (F : fmatrix) : fmatrix := fun c m1 m2 => F c m1 m2 + dFmat w Rl x g c m1 m2 + D0 g m1 m2 * w c (m1 / 3)%nat (m2 / 3)%nat.
  Lemma err_fixed g F a b : (a < 3)%nat -> (b < 3)%nat ->
    gammaErr cells Rl x nA (fixedF g F) a b = rvadd (gammaErr cells Rl x nA F a b) (rmv (rmadd rho T) (g a b)).
  Proof.
    intros Ha Hb. apply dot_ext. intros u. rewrite dot_add_r, bilin_add, !dot_err.
    assert (rdot u (rmv rho (g a b)) = sumR cells (fun c => sumR (seq 0 nA) (fun i => sumR (seq 0 nA) (fun j => w c i j * rdot (dr c i j) (g a b) * rdot u (dr c i j))))) as ->.
    { unfold secondMoment. rewrite bilin_macc. apply sumR_ext. intros c _. rewrite bilin_macc. unfold atomPairs. rewrite sumR_prod. apply sumR_ext. intros i _. apply sumR_ext. intros j _. cbn [fst snd]. rewrite bilin_scale, bilin_outer. ring. }
    assert (rdot u (rmv T (g a b)) = sumR cells (fun c => sumR (seq 0 nA) (fun i => sumR (seq 0 nA) (fun j => rdot (U i j) (g a b) * (w c i j * rdot u (dr c i j)))))) as ->.
    { unfold transMoment. rewrite bilin_macc. unfold atomPairs. rewrite sumR_prod, (sum_swap _ _ cells). apply sumR_ext. intros i _. rewrite (sum_swap _ _ cells). apply sumR_ext. intros j _. cbn [fst snd]. rewrite bilin_outer.
      rewrite sum_scal_r. unfold firstMoment. rewrite dot_vacc. rewrite (Rmult_comm (sumR _ _)). f_equal. apply sumR_ext. intros c _. rewrite dot_scale_r. reflexivity. }
    rewrite <- Rplus_assoc, <- !sum_plus. apply sumR_ext. intros c _. rewrite <- !sum_plus. apply sumR_ext. intros i _. rewrite <- !sum_plus. apply sumR_ext. intros j _.
    unfold fixedF, dFmat. rewrite dF0_dot, !div3, !mod3 by assumption. ring.
  Qed.

  (** *** Net forces *)
  Lemma shift_rowsum : forall A i b, (b < 3)%nat -> sumR (seq 0 nA) (fun j => A i (3 * j + b)%nat + shiftT nA A i (3 * j + b)) = 0.
  Proof.
    intros A i b Hb. rewrite sum_plus.
    rewrite (sumR_ext _ (seq 0 nA) (fun j => shiftT nA A i (3 * j + b)) (fun j => avA nA A (i mod 3) b - avR nA A i b - avL nA A (i mod 3) (3 * j + b))) by (intros j _; unfold shiftT; rewrite mod3 by exact Hb; reflexivity).
    rewrite !sum_minus, !sum_const. unfold avA, avR. field. assumption.
  Qed.
  Lemma fixed_total g F m1 m2 : (m1 < 3 * nA)%nat -> (m2 < 3 * nA)%nat -> sumR cells (fun c => fixedF g F c m1 m2) = sumR cells (fun c => F c m1 m2) + (S_ g m1 m2 + shiftT nA (S_ g) m1 m2).
  Proof.
    intros H1 H2. unfold fixedF. rewrite !sum_plus, sum_scal_r, Hw, dF0_shift by (apply div3_lt; assumption). assert (sumR cells (fun c => dFmat w Rl x g c m1 m2) = S_ g m1 m2) as -> by (unfold dFsum; rewrite rsumOn_sumR; reflexivity). field. assumption.
  Qed.
  Lemma fixed_nonet g F : noNetForceOn nA cells F -> noNetForceOn nA cells (fixedF g F).
  Proof.
    intros [N1 N2]. split.
    - intros m1 b H1 Hb. rewrite sum_swap. rewrite (sumR_ext _ _ _ (fun j => sumR cells (fun c => F c m1 (3*j+b)%nat) + (S_ g m1 (3*j+b) + shiftT nA (S_ g) m1 (3*j+b)))) by (intros j Hj; apply in_seq in Hj; apply fixed_total; lia).
      rewrite sum_plus, shift_rowsum, (sum_swap _ _ (seq 0 nA)), N1 by assumption. ring.
    - intros m2 a H2 Ha. rewrite sum_swap. rewrite (sumR_ext _ _ _ (fun i => sumR cells (fun c => F c (3*i+a)%nat m2) + (S_ g (3*i+a) m2 + shiftT nA (S_ g) (3*i+a) m2))) by (intros j Hj; apply in_seq in Hj; apply fixed_total; lia).
      rewrite sum_plus, (sum_swap _ _ (seq 0 nA)), N2, shift_colsum by assumption. ring.
  Qed.

  (** *** Exchange symmetry *)
  Hypothesis Hnd : NoDup cells.
  Hypothesis Hopp : forall c, In c cells -> In (zvopp c) cells.
  Hypothesis Hsym : forall c i j, In c cells -> (i < nA)%nat -> (j < nA)%nat -> w c i j = w (zvopp c) j i.
  Lemma dr_opp c i j : dr (zvopp c) j i = rvopp (dr c i j).
  Proof. unfold drAtoms. rewrite <- rmv_opp. f_equal. destruct c as [p q r], (x i) as [xa xb xc], (x j) as [ya yb yc]. unfold rvsub, gvsub, rvadd, gvadd, rvopp, gvopp, zvopp, gvopp, vIZR, vmap. cbn [c0 c1 c2]. rewrite !opp_IZR. f_equal; ring. Qed.
  Lemma cells_flip (f : vec Z -> R) : sumR cells (fun c => f (zvopp c)) = sumR cells f.
  Proof. apply sumR_inv; [assumption..|]. intros; apply zvopp_inv. Qed.
  Lemma V_anti i j : (i < nA)%nat -> (j < nA)%nat -> Vm j i = rvopp (Vm i j).
  Proof.
    intros Hi Hj. apply dot_ext. intros u. rewrite dot_opp_r. unfold firstMoment. rewrite !dot_vacc.
    rewrite <- (cells_flip (fun c => rdot u (rvscale (w c j i) (dr c j i)))). replace (- sumR cells (fun c => rdot u (rvscale (w c i j) (dr c i j)))) with ((-1) * sumR cells (fun c => rdot u (rvscale (w c i j) (dr c i j)))) by ring.
    rewrite <- sum_scal_r. apply sumR_ext. intros c Hc. rewrite dr_opp, <- Hsym by assumption. rewrite !dot_scale_r, dot_opp_r. ring.
  Qed.
  Lemma err_anti F a b : symmetricOn nA cells F -> (a < 3)%nat -> (b < 3)%nat -> gammaErr cells Rl x nA F b a = rvopp (gammaErr cells Rl x nA F a b).
  Proof.
    intros HF Ha Hb. apply dot_ext. intros u. rewrite dot_opp_r, !dot_err.
    rewrite <- (cells_flip (fun c => sumR (seq 0 nA) (fun i => sumR (seq 0 nA) (fun j => F c (3 * i + b)%nat (3 * j + a)%nat * rdot u (dr c i j))))).
    match goal with |- _ = - ?X => replace (- X) with ((-1) * X) by ring end. rewrite <- sum_scal_r. apply sumR_ext. intros c Hc. rewrite <- sum_scal_r. rewrite sum_swap. apply sumR_ext. intros j Hj. rewrite <- sum_scal_r. apply sumR_ext. intros i Hi.
    apply in_seq in Hi, Hj. rewrite dr_opp, dot_opp_r, (HF c (3 * j + a)%nat (3 * i + b)%nat Hc) by lia. ring.
  Qed.
  Lemma mode_split m : m = (3 * (m / 3) + m mod 3)%nat /\ (m mod 3 < 3)%nat.
  Proof. split; [apply Nat.div_mod; lia|apply Nat.mod_upper_bound; lia]. Qed.
  Lemma dF_sym g c m1 m2 : (forall a b, (a < 3)%nat -> (b < 3)%nat -> g b a = rvopp (g a b)) -> In c cells -> (m1 < 3 * nA)%nat -> (m2 < 3 * nA)%nat ->
    dFmat w Rl x g c m1 m2 = dFmat w Rl x g (zvopp c) m2 m1.
  Proof.
    intros Hg Hc H1 H2. unfold dFmat. rewrite dr_opp. rewrite (Hg (m1 mod 3) (m2 mod 3))%nat by (apply mode_split). rewrite <- Hsym by (try assumption; apply div3_lt; assumption).
    f_equal. rewrite dot_opp_r, (rdot_sym (rvopp _)), dot_opp_r, rdot_sym. ring.
  Qed.
  Lemma S_sym g m1 m2 : (forall a b, (a < 3)%nat -> (b < 3)%nat -> g b a = rvopp (g a b)) -> (m1 < 3 * nA)%nat -> (m2 < 3 * nA)%nat -> S_ g m1 m2 = S_ g m2 m1.
  Proof. intros Hg H1 H2. unfold dFsum. rewrite !rsumOn_sumR. rewrite <- (cells_flip (fun c => dFmat w Rl x g c m2 m1)). apply sumR_ext. intros c Hc. apply dF_sym; assumption. Qed.
  Lemma shift_sym_in A m1 m2 : (forall i j, (i < 3 * nA)%nat -> (j < 3 * nA)%nat -> A i j = A j i) -> (m1 < 3 * nA)%nat -> (m2 < 3 * nA)%nat -> shiftT nA A m1 m2 = shiftT nA A m2 m1.
  Proof.
    intros H H1 H2. unfold shiftT.
    assert (forall a j, (a < 3)%nat -> (j < 3 * nA)%nat -> avL nA A a j = avR nA A j a) as E by (intros; unfold avL, avR; f_equal; apply sumR_ext; intros q Hq; apply in_seq in Hq; apply H; lia).
    pose proof (proj2 (mode_split m1)). pose proof (proj2 (mode_split m2)).
    assert (avA nA A (m1 mod 3) (m2 mod 3) = avA nA A (m2 mod 3) (m1 mod 3)) as E2.
    { rewrite avA_alt. unfold avA. unfold avL at 1. unfold avR at 2. f_equal. apply sumR_ext. intros q Hq. apply in_seq in Hq. rewrite E by lia. reflexivity. }
    rewrite E2, !E by assumption. ring.
  Qed.
  Lemma fixed_symmetric g F : (forall a b, (a < 3)%nat -> (b < 3)%nat -> g b a = rvopp (g a b)) -> symmetricOn nA cells F -> symmetricOn nA cells (fixedF g F).
  Proof.
    intros Hg HF c m1 m2 Hc H1 H2. unfold fixedF. rewrite (HF c m1 m2) by assumption. rewrite (dF_sym g c m1 m2) by assumption.
    rewrite !dF0_shift, (shift_sym_in (S_ g) m1 m2) by (try assumption; intros; apply S_sym; assumption). rewrite (Hsym c) by (try assumption; apply div3_lt; assumption). ring.
  Qed.
End Fix.

(** ** The correction *)
Lemma mget_alpha : forall tr m k v, (k < 3)%nat -> tr k = false ->
  vget (rmv (fold_left (fun m iDir => if tr iDir then mset m iDir iDir 1 else m) (seq 0 3) m) v) k = vget (rmv m v) k.
Proof.
  intros tr [] k [] Hk Ht. cbn [seq fold_left]. destruct k as [|[|[|k]]]; [..|lia]; destruct (tr 0%nat) eqn:E0, (tr 1%nat) eqn:E1, (tr 2%nat) eqn:E2; try discriminate; cbv -[Rplus Rmult IZR]; reflexivity.
Qed.
Lemma fix_err : forall cells w Rl x nA nSup tr F F' a b k, (0 < nA)%nat -> (a < 3)%nat -> (b < 3)%nat -> (k < 3)%nat ->
  gammaPrimeFix cells w Rl x nA nSup tr F = Some F' -> tr k = false -> vget (gammaErr cells Rl x nA F' a b) k = 0.
Proof.
  intros cells w Rl x nA nSup tr F F' a b k Hn Ha Hb Hk H Ht. unfold gammaPrimeFix in H. destruct (corrTensor cells w Rl x nA nSup tr F) as [g|] eqn:E; [|discriminate]. injection H as <-.
  unfold corrTensor in E. destruct (Req_EM_T (rdet (alphaInv cells w Rl x nA nSup tr)) 0) as [|D]; [discriminate|]. injection E as <-.
  set (g := fun a b => rvopp (rmv (rinv (alphaInv cells w Rl x nA nSup tr)) (gammaErr cells Rl x nA F a b))).
  change (vget (gammaErr cells Rl x nA (fixedF cells w Rl x nA nSup g F) a b) k = 0). rewrite err_fixed by assumption.
  assert (rmv (alphaInv cells w Rl x nA nSup tr) (g a b) = rvopp (gammaErr cells Rl x nA F a b)) as Eg by (unfold g; rewrite rmv_opp, <- rmv_mm, rinv_r, rmv_id by exact D; reflexivity).
  assert (forall u v : vec R, vget (rvadd u v) k = vget u k + vget v k) as Va by (intros [] []; destruct k as [|[|k]]; reflexivity).
  rewrite Va. rewrite <- (mget_alpha tr _ k _ Hk Ht). fold (alphaInv cells w Rl x nA nSup tr). rewrite Eg. destruct (gammaErr cells Rl x nA F a b). destruct k as [|[|k]]; cbn; ring.
Qed.
