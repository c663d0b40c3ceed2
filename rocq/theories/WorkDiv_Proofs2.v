From Coq Require Import ZArith List Lia Permutation Bool Reals Lra.
From Verif Require Import Base WorkDiv_Model WorkDiv_Spec WorkDiv_Proofs.
Import ListNotations.
Open Scope Z_scope.

Lemma td_balanced_partition n p : 0 <= n -> 0 < p ->
  balanced_partition n p (td_start (stopArr n p)) (td_stop (stopArr n p)).
Proof.
  intros Hn Hp. split.
  - intros i Hi. rewrite td_start_eq, td_stop_eq by lia.
    pose proof (bound_mono n p 0 i Hn Hp ltac:(lia)).
    pose proof (bound_mono n p i (i+1) Hn Hp ltac:(lia)).
    pose proof (bound_mono n p (i+1) p Hn Hp ltac:(lia)).
    rewrite bound_0, bound_p in * by lia. lia.
  - intros q Hq. exists (td_whose (stopArr n p) q). split.
    + apply td_whose_in; auto.
    + intros i [Hi1 Hi2]. symmetry. apply (td_owner_unique n p q i); auto.
      unfold td_isMine. lia.
  - intros i j H. rewrite td_start_eq, td_stop_eq by lia. apply bound_mono; lia.
  - intros i j Hi Hj. rewrite !td_start_eq, !td_stop_eq by lia.
    pose proof (div_load n p i Hn Hp). pose proof (div_load n p j Hn Hp).
    assert ((n+p-1)/p <= n/p + 1); [|lia].
    replace (n/p+1) with ((n+1*p)/p) by (rewrite Z.div_add; lia). apply Z.div_le_mono; lia.
Qed.

Lemma threaded_loop_pointwise {A} nT n (body : Z -> A -> A) sched mem : 0 < nT -> 0 < n ->
  interleave (thread_iterations nT n) sched ->
  pointwise_update body n mem (run_iterations body sched mem).
Proof.
  intros HT Hn Hs j. destruct (threaded_loop_serial nT n body sched mem HT Hn Hs) as [_ ->].
  rewrite run_iterations_spec by apply zrange_NoDup.
  destruct (in_dec Z.eq_dec j (zrange 0 n)) as [Hi|Hi]; rewrite in_zrange in Hi;
  destruct (Z.leb_spec 0 j), (Z.ltb_spec j n); cbn; auto; lia.
Qed.

Lemma fold_left_Rsum (f : Z -> R) n :
  fold_left (fun acc i => (acc + f i)%R) (zrange 0 n) 0%R = Rsum f n.
Proof.
  unfold Rsum. generalize (zrange 0 n) as l.
  assert (H: forall l a, fold_left (fun acc i => (acc + f i)%R) l a
                         = (a + fold_right (fun i acc => (f i + acc)%R) 0%R l)%R).
  { induction l; intros; cbn; [lra|]. rewrite IHl. lra. }
  intros l. rewrite H. lra.
Qed.

Lemma threaded_reduce_R nT n f order : 0 < nT -> 0 < n -> Permutation order (zrange 0 nT) ->
  threaded_reduce 0%R Rplus nT n f order = Rsum f n.
Proof.
  intros. rewrite (threaded_reduce_serial 0%R Rplus) by (auto; intros; lra). apply fold_left_Rsum.
Qed.

Lemma partial_sum_R f a b : partial_sum 0%R Rplus f a b = fold_right (fun i acc => (f i + acc)%R) 0%R (zrange a b).
Proof.
  unfold partial_sum. generalize (zrange a b) as l.
  assert (H: forall l a, fold_left (fun acc i => (acc + f i)%R) l a
                         = (a + fold_right (fun i acc => (f i + acc)%R) 0%R l)%R).
  { induction l; intros; cbn; [lra|]. rewrite IHl. lra. }
  intros l. rewrite H. lra.
Qed.

Lemma sumsq_nonneg (f : Z -> R) l : (0 <= fold_right (fun i acc => (f i * f i + acc)%R) 0%R l)%R.
Proof. induction l; cbn; nra. Qed.


Lemma nrm2_step x a b : (blas_nrm2 x a b * blas_nrm2 x a b)%R = partial_sum 0%R Rplus (fun i => (x i * x i)%R) a b.
Proof.
  unfold blas_nrm2. apply sqrt_sqrt. rewrite partial_sum_R. apply sumsq_nonneg.
Qed.

Lemma threaded_nrm2_R nT n x order : 0 < nT -> 0 < n -> Permutation order (zrange 0 nT) ->
  threaded_nrm2 nT n x order = sqrt (Rsum (fun i => (x i * x i)%R) n).
Proof.
  intros HT Hn Hp. unfold threaded_nrm2. f_equal.
  rewrite <- (threaded_reduce_R nT n _ order HT Hn Hp). unfold threaded_reduce.
  clear Hp. generalize 0%R at 1 3 as a. induction order as [|t o IH]; intros a'; cbn [fold_left]; auto.
  cbv zeta. rewrite nrm2_step. apply IH.
Qed.

Lemma threaded_zdotc_R nT n x y order : 0 < nT -> 0 < n -> Permutation order (zrange 0 nT) ->
  threaded_zdotc nT n x y order
  = (Rsum (fun i => fst (x i) * fst (y i) + snd (x i) * snd (y i))%R n,
     Rsum (fun i => fst (x i) * snd (y i) - snd (x i) * fst (y i))%R n).
Proof.
  intros HT Hn Hp. unfold threaded_zdotc.
  rewrite (threaded_reduce_serial (0,0)%R cadd); auto.
  2: intros [] []; unfold cadd; cbn; f_equal; lra.
  2: intros [] [] []; unfold cadd; cbn; f_equal; lra.
  2: intros []; unfold cadd; cbn; f_equal; lra.
  rewrite <- !fold_left_Rsum. generalize (zrange 0 n) as l. generalize 0%R at 1 3 as a. generalize 0%R as b.
  intros b a l. revert a b. induction l; intros a' b'; cbn [fold_left]; auto.
  rewrite <- IHl. reflexivity.
Qed.

Lemma empty_loop_runs : exists nThreads, 0 < nThreads /\ concat (thread_iterations nThreads 0) <> [].
Proof. exists 1. split; [lia|]. vm_compute. discriminate. Qed.

Lemma empty_loop_twice :
  exists nThreads j, 0 < nThreads /\ ~ NoDup (concat (thread_iterations nThreads 0)) /\
    run_iterations (fun _ x => x + 1) (concat (thread_iterations nThreads 0)) (fun _ => 0) j = 2.
Proof.
  exists 2, 1. split; [lia|]. split; [|reflexivity].
  change (~ NoDup [0;1;1]). intro H. inversion_clear H as [|? ? _ H1]. inversion_clear H1 as [|? ? H2 _].
  apply H2. left. reflexivity.
Qed.

Lemma empty_dot_nonzero :
  exists x y, threaded_ddot 1 0 x y (zrange 0 1) <> Rsum (fun i => x i * y i)%R 0.
Proof.
  exists (fun _ => 1%R), (fun _ => 1%R). change ((0 + (0 + 1 * 1))%R <> 0%R). lra.
Qed.
