(** Values computed by slicing, views, products and tiled block products (C54, C55). *)
From Coq Require Import ZArith List Bool Reals Lia Permutation.
From Coquelicot Require Import Complex.
From Verif Require Import Base WorkDiv_Model Matrix_Model Matrix_Spec Matrix_Proofs.
Import ListNotations.
Open Scope Z_scope.

(** *** Sums *)
Lemma Csum_0 f n : n <= 0 -> Csum f n = RtoC 0.
Proof. intros. unfold Csum. rewrite zrange_nil by lia. reflexivity. Qed.
Lemma Cfold_acc (l : list Z) f c : fold_right (fun i acc => Cplus (f i) acc) c l = Cplus (fold_right (fun i acc => Cplus (f i) acc) (RtoC 0) l) c.
Proof. induction l as [|x l IH]; cbn; [ring|rewrite IH; ring]. Qed.
Lemma Csum_S f n : 0 <= n -> Csum f (n+1) = Cplus (Csum f n) (f n).
Proof.
  intros. unfold Csum. rewrite zrange_snoc by lia. replace (n+1-1) with n by lia.
  rewrite fold_right_app. cbn [fold_right]. rewrite Cfold_acc. ring.
Qed.
Lemma Csum_ext f g n : (forall i, 0 <= i < n -> f i = g i) -> Csum f n = Csum g n.
Proof.
  intros H. unfold Csum. assert (forall i, In i (zrange 0 n) -> f i = g i) by (intros; apply H, in_zrange; auto).
  induction (zrange 0 n) as [|x l IH]; cbn; [reflexivity|]. rewrite H0 by (left; auto). rewrite IH; auto.
  intros; apply H0; right; auto.
Qed.
Lemma Csum_scal c f n : Csum (fun i => Cmult c (f i)) n = Cmult c (Csum f n).
Proof. unfold Csum. induction (zrange 0 n) as [|x l IH]; cbn; [ring|rewrite IH; ring]. Qed.
Lemma Csum_zero f n : (forall i, 0 <= i < n -> f i = RtoC 0) -> Csum f n = RtoC 0.
Proof.
  intros H. rewrite (Csum_ext f (fun _ => Cmult (RtoC 0) (RtoC 0))).
  - rewrite Csum_scal. ring.
  - intros i Hi. rewrite H by auto. ring.
Qed.
Lemma Csum_app f m n : 0 <= m -> 0 <= n -> Csum f (m + n) = Cplus (Csum f m) (Csum (fun i => f (m + i)) n).
Proof.
  intros Hm Hn. pattern n. apply natlike_ind; [| |exact Hn].
  - rewrite Z.add_0_r, (Csum_0 _ 0) by lia. ring.
  - intros x Hx IH. unfold Z.succ. rewrite Z.add_assoc, !Csum_S by lia. rewrite IH. ring.
Qed.
(** Only the terms base .. base+k-1 contribute. *)
Lemma Csum_window f n base k : 0 <= base -> 0 <= k -> base + k <= n ->
  (forall i, 0 <= i < n -> ~ (base <= i < base + k) -> f i = RtoC 0) ->
  Csum f n = Csum (fun i => f (base + i)) k.
Proof.
  intros Hb Hk Hn Hz. replace n with (base + (k + (n - base - k))) by lia.
  rewrite Csum_app by lia. rewrite (Csum_zero f base) by (intros; apply Hz; lia).
  rewrite Csum_app by lia. rewrite (Csum_zero (fun i => f (base + (k + i)))) by (intros; apply Hz; lia). ring.
Qed.

(** *** Buffers after a list of element updates *)

Lemma run_values al be ops : forall b, NoDup (map fst ops) ->
  (forall op, In op ops -> 0 <= fst op < len b /\ exists v, snd op = Ok v) ->
  exists b', run_gemm al be ops b = Ok b' /\ len b' = len b /\
    (forall a v, In (a, Ok v) ops -> cell b' a = gemmVal al be v (cell b a)) /\
    (forall a, ~ In a (map fst ops) -> cell b' a = cell b a).
Proof.
  unfold run_gemm. induction ops as [|[a0 r0] ops IH]; intros b ND HF; cbn [foldM].
  - exists b. repeat split; auto. intros a v [].
  - destruct (HF (a0, r0)) as [Hin [v0 Ev]]; [left; auto|]. cbn in Hin, Ev. subst r0.
    unfold gemmOp at 1. cbn [snd fst bind]. rewrite upd_ok by auto. cbn [bind].
    inversion ND as [|? ? Hn ND']; subst.
    destruct (IH (mkBuf (len b) (fun x => if x =? a0 then gemmVal al be v0 (cell b a0) else cell b x))) as [b' [E [Hl [Hv Ho]]]]; auto.
    { intros op Hop. destruct (HF op) as [H1 H2]; [right; auto|]. cbn. auto. }
    exists b'. split; [exact E|]. cbn in Hl. split; [exact Hl|]. split.
    + intros a v [Heq|Hin'].
      * inversion Heq; subst. rewrite Ho by auto. cbn. rewrite Z.eqb_refl. reflexivity.
      * rewrite (Hv a v Hin'). cbn. destruct (Z.eqb_spec a a0); auto. subst. exfalso. apply Hn.
        apply (in_map fst) in Hin'. exact Hin'.
    + intros a Ha. cbn in Ha. rewrite Ho by tauto. cbn. destruct (Z.eqb_spec a a0); auto. subst. tauto.
Qed.

Lemma gemmDot_value tA tB K A a0 lda B b0 ldb i j (fa fb : Z -> C) : 0 <= K ->
  (forall l, 0 <= l < K -> opRead tA A a0 lda i l = Ok (fa l)) ->
  (forall l, 0 <= l < K -> opRead tB B b0 ldb l j = Ok (fb l)) ->
  gemmDot tA tB K A a0 lda B b0 ldb i j = Ok (Csum (fun l => Cmult (fa l) (fb l)) K).
Proof.
  intros HK Ha Hb. unfold gemmDot.
  destruct (foldM_inv (fun l acc => acc = Csum (fun l => Cmult (fa l) (fb l)) l)
    (fun acc l => bind (opRead tA A a0 lda i l) (fun a => bind (opRead tB B b0 ldb l j) (fun b => Ok (Cplus acc (Cmult a b)))))
    0 K (RtoC 0)) as [s' [E Hs]]; auto.
  - intros l s Hl ->. rewrite Ha, Hb by auto. cbn. eexists; split; [reflexivity|]. rewrite Csum_S by lia. reflexivity.
  - rewrite E, Hs. reflexivity.
Qed.

Lemma zgemm_value tA tB M N K alpha A a0 lda B b0 ldb beta Cb c0 ldc (fa fb : Z -> Z -> C) :
  0 <= M -> 0 <= N -> 0 <= K -> M <= ldc ->
  (forall i l, 0 <= i < M -> 0 <= l < K -> opRead tA A a0 lda i l = Ok (fa i l)) ->
  (forall l j, 0 <= l < K -> 0 <= j < N -> opRead tB B b0 ldb l j = Ok (fb l j)) ->
  (forall i j, 0 <= i < M -> 0 <= j < N -> 0 <= c0 + i + ldc * j < len Cb) ->
  exists b', zgemm tA tB M N K alpha A a0 lda B b0 ldb beta Cb c0 ldc = Ok b' /\ len b' = len Cb /\
    (forall i j, 0 <= i < M -> 0 <= j < N ->
       cell b' (c0 + i + ldc * j) = gemmVal alpha beta (Csum (fun l => Cmult (fa i l) (fb l j)) K) (cell Cb (c0 + i + ldc * j))) /\
    (forall a, (forall i j, 0 <= i < M -> 0 <= j < N -> a <> c0 + i + ldc * j) -> cell b' a = cell Cb a).
Proof.
  intros HM HN HK Hl Ha Hb Hw.
  destruct (run_values alpha beta (gemmOps tA tB M N K A a0 lda B b0 ldb c0 ldc) Cb) as [b' [E [El [Ev Eo]]]].
  - apply gemmOps_NoDup; auto.
  - intros op Hop. apply in_gemmOps in Hop. destruct Hop as [i [j [Hi [Hj ->]]]]. cbn [fst snd]. split; [apply Hw; auto|].
    rewrite (gemmDot_value _ _ _ _ _ _ _ _ _ _ _ (fa i) (fun l => fb l j)); eauto.
  - exists b'. split; [exact E|]. split; [exact El|]. split.
    + intros i j Hi Hj. apply Ev. apply in_gemmOps. exists i, j. repeat split; try tauto; try lia.
      rewrite (gemmDot_value _ _ _ _ _ _ _ _ _ _ _ (fa i) (fun l => fb l j)); auto.
    + intros a Hn. apply Eo. intros Hin. apply in_map_iff in Hin. destruct Hin as [op [Hf Hop]].
      apply in_gemmOps in Hop. destruct Hop as [i [j [Hi [Hj ->]]]]. cbn in Hf. apply (Hn i j Hi Hj). auto.
Qed.

Lemma gemmVal_0 al s old : gemmVal al (RtoC 0) s old = Cmult al s.
Proof. unfold gemmVal. destruct (Ceq_dec (RtoC 0) (RtoC 0)); congruence. Qed.

(** *** Views *)
Lemma mat_addr r c i j : 0 <= i < r -> 0 <= j < c -> 0 <= r * j + i < r * c.
Proof. intros; nia. Qed.
Lemma mat_addr_inj r i j i' j' : 0 <= i < r -> 0 <= i' < r -> r * j + i = r * j' + i' -> i = i' /\ j = j'.
Proof. intros. assert (j = j') by nia. subst. lia. Qed.

(** Entry of a view without the scale factor. *)
Definition raw_entry (v : view) (i j : Z) : C :=
  match vop v with
  | NoTrans => entry (vmat v) (viStart v + i) (vjStart v + j)
  | Trans => entry (vmat v) (viStart v + j) (vjStart v + i)
  | ConjTrans => Cconj (entry (vmat v) (viStart v + j) (vjStart v + i))
  end.
Lemma opRead_view v i j : view_ok v -> 0 <= i < vRows v -> 0 <= j < vCols v ->
  opRead (vop v) (data (vmat v)) (vIndex v 0 0) (nr (vmat v)) i j = Ok (raw_entry v i j).
Proof.
  intros [Hd [H1 [H2 [H3 [H4 [H5 H6]]]]]] Hi Hj. unfold vRows, vCols, vIndex, raw_entry, entry, index in *.
  destruct (vop v); cbn [isNoTrans opRead] in *; rewrite rd_ok; cbn [len cell data bind].
  all: try (f_equal; f_equal; [f_equal; ring]); try (f_equal; f_equal; ring).
  all: match goal with |- 0 <= ?x < ?r * ?c =>
         first [ replace x with (r * (vjStart v + j) + (viStart v + i)) by ring; apply mat_addr; lia
               | replace x with (r * (vjStart v + i) + (viStart v + j)) by ring; apply mat_addr; lia ] end.
Qed.

Lemma mulViews_value init v1 v2 : view_ok v1 -> view_ok v2 -> vCols v1 = vRows v2 ->
  exists m, mulViews init v1 v2 = Ok m /\ nr m = vRows v1 /\ nc m = vCols v2 /\
    forall i j, 0 <= i < nr m -> 0 <= j < nc m ->
      entry m i j = Csum (fun l => Cmult (view_entry v1 i l) (view_entry v2 l j)) (vCols v1).
Proof.
  intros H1 H2 Hd. unfold mulViews. rewrite (proj2 (Z.eqb_eq _ _) Hd). cbn [assert nr nc].
  assert (HR : 0 <= vRows v1 /\ 0 <= vCols v1) by (unfold vRows, vCols; destruct H1 as [? [? [? [? [? [? ?]]]]]]; destruct (vop v1); cbn; lia).
  assert (HC : 0 <= vRows v2 /\ 0 <= vCols v2) by (unfold vRows, vCols; destruct H2 as [? [? [? [? [? [? ?]]]]]]; destruct (vop v2); cbn; lia).
  destruct (zgemm_value (vop v1) (vop v2) (vRows v1) (vCols v2) (vCols v1) (RtoC (vscale v1 * vscale v2))
    (data (vmat v1)) (vIndex v1 0 0) (nr (vmat v1)) (data (vmat v2)) (vIndex v2 0 0) (nr (vmat v2)) (RtoC 0)
    (data (mkMat (vRows v1) (vCols v2) init)) 0 (vRows v1) (raw_entry v1) (raw_entry v2)) as [b [E [El [Ev _]]]]; try lia.
  - intros; apply opRead_view; auto.
  - intros; apply opRead_view; auto; lia.
  - intros i j Hi Hj. cbn [len data nr nc]. replace (0 + i + vRows v1 * j) with (vRows v1 * j + i) by ring. apply mat_addr; auto.
  - rewrite E. cbn [bind]. eexists; split; [reflexivity|]. cbn [of_buf nr nc]. repeat split; auto.
    intros i j Hi Hj. unfold entry. cbn [of_buf nr mcell].
    replace (vRows v1 * j + i) with (0 + i + vRows v1 * j) by ring. rewrite Ev by auto. rewrite gemmVal_0.
    rewrite <- Csum_scal. apply Csum_ext. intros l _. unfold view_entry. fold (raw_entry v1 i l) (raw_entry v2 l j).
    rewrite RtoC_mult. ring.
Qed.

(** *** Strided ranges *)
Lemma ceildiv_range start step stop k : 0 <= start < stop -> 0 < step ->
  (0 <= k < ceildiv (stop - start) step <-> 0 <= k /\ start + k * step < stop).
Proof.
  intros H1 H2. unfold ceildiv. rewrite Z.quot_div_nonneg by lia.
  pose proof (Z.div_mod (stop - start + step - 1) step ltac:(lia)).
  pose proof (Z.mod_pos_bound (stop - start + step - 1) step ltac:(lia)).
  set (q := (stop - start + step - 1) / step) in *. clearbody q. split; intros; split; try nia; try tauto.
Qed.
Lemma ceildiv_pos start step stop : 0 <= start < stop -> 0 < step -> 0 < ceildiv (stop - start) step.
Proof. intros H1 H2. assert (0 <= 0 < ceildiv (stop - start) step) by (apply ceildiv_range; auto; lia). lia. Qed.
