From Coq Require Import ZArith List Lia Bool.
From Verif Require Import Base WorkDiv_Model WorkDiv_Proofs Grid_Model Grid_Spec.
Import ListNotations.
Open Scope Z_scope.

Section Generic.
  Variables (N : Z) (coord : Z -> V3) (next : V3 -> V3).
  Hypothesis Hnext : forall i, 0 <= i -> i + 1 < N -> next (coord i) = coord (i+1).

  Lemma loop_while_closed fuel i iStop : 0 <= i -> iStop <= N ->
    (iStop - i < Z.of_nat fuel) -> (0 < fuel)%nat ->
    loop_while fuel next i iStop (coord i) = Some (map (fun k => (k, coord k)) (zrange i iStop)).
  Proof.
    revert i. induction fuel as [|f IH]; intros i Hi HN Hf H0; [lia|].
    cbn [loop_while]. destruct (Z.ltb_spec i iStop).
    + rewrite (zrange_cons i iStop) by lia. cbn [map].
      destruct (Z.eqb_spec (i+1) iStop).
      * rewrite (zrange_nil (i+1) iStop) by lia. reflexivity.
      * rewrite Hnext by lia. rewrite IH by lia. reflexivity.
    + rewrite zrange_nil by lia. reflexivity.
  Qed.

  Lemma loop_true_closed fuel i iStop : 0 <= i -> i < iStop <= N ->
    (iStop - i <= Z.of_nat fuel) ->
    loop_true fuel next i iStop (coord i) = Some (map (fun k => (k, coord k)) (zrange i iStop)).
  Proof.
    revert i. induction fuel as [|f IH]; intros i Hi HN Hf; [lia|].
    cbn [loop_true]. rewrite (zrange_cons i iStop) by lia. cbn [map].
    destruct (Z.eqb_spec (i+1) iStop).
    * rewrite (zrange_nil (i+1) iStop) by lia. reflexivity.
    * rewrite Hnext by lia. rewrite IH by lia. reflexivity.
  Qed.
End Generic.

Lemma loop_true_diverges fuel next i iStop st : iStop <= i -> loop_true fuel next i iStop st = None.
Proof.
  revert i st. induction fuel as [|f IH]; intros; cbn; auto.
  destruct (Z.eqb_spec (i+1) iStop); [lia|]. rewrite IH by lia. reflexivity.
Qed.

(** Decomposition of a flat index. *)
Lemma flat_decomp b c i : 0 < b -> 0 < c -> 0 <= i ->
  i = ((i/(c*b)) * b + (i/c) mod b) * c + i mod c /\
  0 <= i mod c < c /\ 0 <= (i/c) mod b < b /\ 0 <= i/(c*b).
Proof.
  intros Hb Hc Hi.
  rewrite <- Z.div_div by lia.
  pose proof (Z.div_mod i c ltac:(lia)). pose proof (Z.mod_pos_bound i c Hc).
  pose proof (Z.div_mod (i/c) b ltac:(lia)). pose proof (Z.mod_pos_bound (i/c) b Hb).
  assert (0 <= i/c) by (apply Z.div_pos; lia).
  assert (0 <= i/c/b) by (apply Z.div_pos; lia).
  repeat split; try lia.
Qed.

Lemma flat_unique b c x y z x' y' z' : 0 < b -> 0 < c ->
  0 <= y < b -> 0 <= z < c -> 0 <= y' < b -> 0 <= z' < c ->
  (x*b+y)*c+z = (x'*b+y')*c+z' -> x = x' /\ y = y' /\ z = z'.
Proof.
  intros. assert (x*b+y = x'*b+y') by nia. assert (z = z') by nia. assert (x = x') by nia. nia.
Qed.

Lemma flat_div b c i x y z : 0 < b -> 0 < c -> 0 <= i -> 0 <= y < b -> 0 <= z < c ->
  i = (x*b+y)*c+z -> i/(c*b) = x /\ (i/c) mod b = y /\ i mod c = z.
Proof.
  intros Hb Hc Hi Hy Hz E. destruct (flat_decomp b c i Hb Hc Hi) as (D & D1 & D2 & D3).
  rewrite D in E. apply flat_unique in E; auto.
Qed.

Lemma flat_lt a b c i : 0 < a -> 0 < b -> 0 < c -> 0 <= i < a*b*c -> i/(c*b) < a.
Proof. intros. apply Z.div_lt_upper_bound; nia. Qed.

Lemma row_major_r S g : pos3 S -> r_point S g ->
  row_major S (v2 S) g = (v0 g * v1 S + v1 g) * v2 S + v2 g.
Proof.
  destruct S as [[a b] c], g as [[x y] z]. cbn. intros (Ha & Hb & Hc) (Hx & Hy & Hz).
  rewrite !Z.mod_small by lia. reflexivity.
Qed.

(** mod of wrapped coordinates *)
Lemma wrapS_mod S x : 0 < S -> 0 <= x < S -> wrapS S x mod S = x.
Proof.
  intros. unfold wrapS. destruct (Z.ltb_spec S (2*x)).
  - replace (x - S) with (x + (-1)*S) by lia. rewrite Z.mod_add by lia. apply Z.mod_small; lia.
  - apply Z.mod_small; lia.
Qed.
Lemma wrapS_range S x : 0 < S -> 0 <= x < S -> -S < 2 * wrapS S x <= S.
Proof. intros. unfold wrapS. destruct (Z.ltb_spec S (2*x)); lia. Qed.

Lemma wrapS_succ S x : 0 < S -> 0 <= x -> x + 1 < S -> wrapS S (wrapS S x + 1) = wrapS S (x+1) /\ wrapS S (x+1) <> 0.
Proof.
  intros. unfold wrapS. destruct (Z.ltb_spec S (2*x)), (Z.ltb_spec S (2*(x+1))).
  - destruct (Z.ltb_spec S (2*(x-S+1))); lia.
  - lia.
  - lia.
  - lia.
Qed.
Lemma wrapS_last S x : 0 < S -> x = S - 1 -> wrapS S (wrapS S x + 1) = 0.
Proof.
  intros HS ->. unfold wrapS. destruct (Z.ltb_spec S (2*(S-1))).
  - destruct (Z.ltb_spec S (2*(S-1-S+1))); lia.
  - destruct (Z.ltb_spec S (2*(S-1+1))); lia.
Qed.
Lemma wrapS_0 S : 0 < S -> wrapS S 0 = 0.
Proof. intros. unfold wrapS. destruct (Z.ltb_spec S (2*0)); lia. Qed.

(** Successor in mixed radix *)
Lemma radix_succ b c i : 0 < b -> 0 < c -> 0 <= i ->
  let x := i/(c*b) in let y := (i/c) mod b in let z := i mod c in
  (z + 1 < c /\ (i+1)/(c*b) = x /\ ((i+1)/c) mod b = y /\ (i+1) mod c = z+1) \/
  (z + 1 = c /\ y + 1 < b /\ (i+1)/(c*b) = x /\ ((i+1)/c) mod b = y+1 /\ (i+1) mod c = 0) \/
  (z + 1 = c /\ y + 1 = b /\ (i+1)/(c*b) = x+1 /\ ((i+1)/c) mod b = 0 /\ (i+1) mod c = 0).
Proof.
  intros Hb Hc Hi x y z. destruct (flat_decomp b c i Hb Hc Hi) as (D & D1 & D2 & D3).
  fold x y z in D, D1, D2, D3.
  destruct (Z_lt_dec (z+1) c).
  - left. split; auto. apply flat_div; lia.
  - right. destruct (Z_lt_dec (y+1) b).
    + left. split; [lia|]. split; [auto|]. apply flat_div; try lia; nia.
    + right. split; [lia|]. split; [lia|]. apply flat_div; try lia; nia.
Qed.

Lemma r_next_ok S i : pos3 S -> 0 <= i -> r_next S (r_init S i) = r_init S (i+1).
Proof.
  destruct S as [[a b] c]. intros (Ha & Hb & Hc) Hi. unfold r_next, r_init. cbn.
  destruct (radix_succ b c i Hb Hc Hi) as [(H&->&->&->)|[(H&H'&->&->&->)|(H&H'&->&->&->)]].
  - destruct (Z.eqb_spec (i mod c + 1) c); [lia|reflexivity].
  - destruct (Z.eqb_spec (i mod c + 1) c); [|lia].
    destruct (Z.eqb_spec ((i/c) mod b + 1) b); [lia|reflexivity].
  - destruct (Z.eqb_spec (i mod c + 1) c); [|lia].
    destruct (Z.eqb_spec ((i/c) mod b + 1) b); [reflexivity|lia].
Qed.

Lemma fullG_next_ok S i : pos3 S -> 0 <= i -> i + 1 < nr S ->
  fullG_next S (fullG_init S i) = fullG_init S (i+1).
Proof.
  destruct S as [[a b] c]. intros (Ha & Hb & Hc) Hi HN. unfold fullG_next, fullG_init, nr in *. cbn in *.
  destruct (flat_decomp b c i Hb Hc Hi) as (D & D1 & D2 & D3).
  assert (Hx: (i+1)/(c*b) < a) by (apply flat_lt; lia).
  destruct (radix_succ b c i Hb Hc Hi) as [(H&E1&->&->)|[(H&H'&E1&->&->)|(H&H'&E1&->&->)]]; rewrite E1 in *.
  - destruct (wrapS_succ c (i mod c) Hc) as [-> Hn]; [lia|lia|].
    destruct (Z.eqb_spec (wrapS c (i mod c + 1)) 0); [lia|reflexivity].
  - rewrite wrapS_last by lia. cbn [Z.eqb].
    destruct (wrapS_succ b ((i/c) mod b) Hb) as [-> Hn]; [lia|lia|].
    destruct (Z.eqb_spec (wrapS b ((i/c) mod b + 1)) 0); [lia|]. rewrite (wrapS_0 c) by lia. reflexivity.
  - rewrite wrapS_last by lia. cbn [Z.eqb]. rewrite (wrapS_last b) by lia. cbn [Z.eqb].
    rewrite (wrapS_0 b), (wrapS_0 c) by lia.
    destruct (wrapS_succ a (i/(c*b)) Ha) as [-> Hn]; [lia|lia|reflexivity].
Qed.

Lemma wrapS_half c z : 0 < c -> 0 <= z < c/2+1 -> wrapS c z = z.
Proof. intros. unfold wrapS. destruct (Z.ltb_spec c (2*z)); [|reflexivity]. lia. Qed.

Lemma halfG_next_ok S i : pos3 S -> 0 <= i -> i + 1 < nG S ->
  halfG_next S (halfG_init S i) = halfG_init S (i+1).
Proof.
  destruct S as [[a b] c0]. intros (Ha & Hb & Hc0) Hi HN. unfold halfG_next, halfG_init, nG, size2 in *. cbn in *.
  set (c := c0/2+1) in *. assert (Hc: 0 < c) by (unfold c; lia).
  destruct (flat_decomp b c i Hb Hc Hi) as (D & D1 & D2 & D3).
  assert (Hx: (i+1)/(c*b) < a) by (apply flat_lt; lia).
  pose proof (Z.mod_pos_bound (i+1) c Hc).
  rewrite (wrapS_half c0 (i mod c)), (wrapS_half c0 ((i+1) mod c)) by (fold c; lia).
  destruct (radix_succ b c i Hb Hc Hi) as [(H'&E1&->&->)|[(H'&H''&E1&->&->)|(H'&H''&E1&->&->)]]; rewrite E1 in *.
  - destruct (Z.eqb_spec (i mod c + 1) c); [lia|reflexivity].
  - destruct (Z.eqb_spec (i mod c + 1) c); [|lia].
    destruct (wrapS_succ b ((i/c) mod b) Hb) as [-> Hn]; [lia|lia|].
    destruct (Z.eqb_spec (wrapS b ((i/c) mod b + 1)) 0); [lia|reflexivity].
  - destruct (Z.eqb_spec (i mod c + 1) c); [|lia]. rewrite (wrapS_last b) by lia. cbn [Z.eqb].
    rewrite (wrapS_0 b) by lia.
    destruct (wrapS_succ a (i/(c*b)) Ha) as [-> Hn]; [lia|lia|reflexivity].
Qed.

(** Closed forms satisfy the specification *)
Lemma r_init_spec S i : pos3 S -> 0 <= i < nr S -> r_point S (r_init S i) /\ row_major S (v2 S) (r_init S i) = i.
Proof.
  destruct S as [[a b] c]. intros (Ha & Hb & Hc) [Hi HN]. unfold nr in HN. cbn in HN.
  destruct (flat_decomp b c i Hb Hc Hi) as (D & D1 & D2 & D3).
  pose proof (flat_lt a b c i Ha Hb Hc ltac:(lia)).
  assert (P: r_point (a,b,c) (r_init (a,b,c) i)) by (cbn; lia).
  split; auto. rewrite row_major_r by (auto; cbn; auto). cbn. lia.
Qed.

Lemma fullG_init_spec S i : pos3 S -> 0 <= i < nr S -> G_point S (fullG_init S i) /\ row_major S (v2 S) (fullG_init S i) = i.
Proof.
  destruct S as [[a b] c]. intros (Ha & Hb & Hc) [Hi HN]. unfold nr in HN. cbn in HN.
  destruct (flat_decomp b c i Hb Hc Hi) as (D & D1 & D2 & D3).
  pose proof (flat_lt a b c i Ha Hb Hc ltac:(lia)).
  split; cbn.
  - split; [|split]; apply wrapS_range; lia.
  - rewrite !wrapS_mod by lia. lia.
Qed.

Lemma halfG_init_spec S i : pos3 S -> 0 <= i < nG S ->
  halfG_point S (halfG_init S i) /\ row_major S (v2 S / 2 + 1) (halfG_init S i) = i.
Proof.
  destruct S as [[a b] c0]. intros (Ha & Hb & Hc0) [Hi HN]. unfold nG, halfG_init, size2 in *. cbn in *.
  remember (c0/2+1) as c eqn:Hcc in *. assert (Hc: 0 < c) by lia.
  destruct (flat_decomp b c i Hb Hc Hi) as (D & D1 & D2 & D3).
  pose proof (flat_lt a b c i Ha Hb Hc ltac:(lia)).
  rewrite (wrapS_half c0 (i mod c)) by lia.
  split.
  - split; [|split]; try (apply wrapS_range; lia). lia.
  - rewrite !wrapS_mod by lia.
    destruct (Z.eq_dec c0 1) as [E|E].
    + assert (c = 1) by (subst c0; exact Hcc). subst c0. rewrite Z.mod_1_r. lia.
    + rewrite (Z.mod_small (i mod c) c0) by lia. lia.
Qed.

Lemma visits_map point index coord iStart iStop :
  (forall i, iStart <= i < iStop -> point (coord i) /\ index (coord i) = i) ->
  visits point index iStart iStop (map (fun k => (k, coord k)) (zrange iStart iStop)).
Proof.
  intros H. split.
  - rewrite map_map. cbn. apply map_id.
  - apply Forall_forall. intros [i g] Hin. apply in_map_iff in Hin. destruct Hin as (k & E & Hk).
    inversion E; subst. apply in_zrange in Hk. cbn. apply H; auto.
Qed.

Lemma rLoop_visits S iStart iStop fuel : pos3 S -> 0 <= iStart -> iStop <= nr S ->
  iStop - iStart < Z.of_nat fuel -> (0 < fuel)%nat ->
  exists L, THREAD_rLoop S fuel iStart iStop = Some L /\ visits (r_point S) (row_major S (v2 S)) iStart iStop L.
Proof.
  intros HS Hi HN Hf H0. eexists. split.
  - apply (loop_while_closed (nr S) (r_init S) (r_next S)); auto. intros; apply r_next_ok; auto.
  - apply visits_map. intros i Hi'. apply r_init_spec; auto. lia.
Qed.

Lemma fullG_visits S iStart iStop fuel : pos3 S -> 0 <= iStart < iStop -> iStop <= nr S ->
  iStop - iStart <= Z.of_nat fuel ->
  exists L, THREAD_fullGspaceLoop S fuel iStart iStop = Some L /\ visits (G_point S) (row_major S (v2 S)) iStart iStop L.
Proof.
  intros HS Hi HN Hf. eexists. split.
  - apply (loop_true_closed (nr S) (fullG_init S) (fullG_next S)); auto; try lia. intros; apply fullG_next_ok; auto.
  - apply visits_map. intros i Hi'. apply fullG_init_spec; auto. lia.
Qed.

Lemma halfG_visits S iStart iStop fuel : pos3 S -> 0 <= iStart -> iStop <= nG S ->
  iStop - iStart < Z.of_nat fuel -> (0 < fuel)%nat ->
  exists L, THREAD_halfGspaceLoop S fuel iStart iStop = Some L /\
    visits (halfG_point S) (row_major S (v2 S / 2 + 1)) iStart iStop L.
Proof.
  intros HS Hi HN Hf H0. eexists. split.
  - apply (loop_while_closed (nG S) (halfG_init S) (halfG_next S)); auto. intros; apply halfG_next_ok; auto.
  - apply visits_map. intros i Hi'. apply halfG_init_spec; auto. lia.
Qed.

(** Index functions *)
Lemma wrap1_mod S x : 0 < S -> -S < 2*x <= S -> (2*x = S -> 1 < S) -> wrap1 S x = x mod S.
Proof.
  intros. unfold wrap1. destruct (Z.ltb_spec x 0).
  - rewrite <- (Z.mod_add x 1 S) by lia. rewrite Z.mod_small by lia. lia.
  - rewrite Z.mod_small; lia.
Qed.
Lemma wrap1_mod' S x : 0 < S -> -S < 2*x <= S -> wrap1 S x = x mod S.
Proof. intros. apply wrap1_mod; lia. Qed.

Lemma fullRindex_row S g : pos3 S -> r_point S g -> fullRindex S g = row_major S (v2 S) g.
Proof.
  intros HS Hg. rewrite row_major_r by auto. destruct S as [[a b] c], g as [[x y] z]. unfold fullRindex. cbn. ring.
Qed.
Lemma fullGindex_row S g : pos3 S -> G_point S g -> fullGindex S g = row_major S (v2 S) g.
Proof.
  destruct S as [[a b] c], g as [[x y] z]. intros (Ha&Hb&Hc) (Hx&Hy&Hz). unfold fullGindex, fullRindex. cbn.
  rewrite !wrap1_mod' by lia. ring.
Qed.
Lemma halfGindex_row S g : pos3 S -> halfG_point S g -> halfGindex S g = row_major S (v2 S / 2 + 1) g.
Proof.
  destruct S as [[a b] c], g as [[x y] z]. intros (Ha&Hb&Hc) (Hx&Hy&Hz). unfold halfGindex. cbn.
  rewrite !wrap1_mod' by lia. ring.
Qed.

Lemma mod_inj_range S x y : 0 < S -> -S < 2*x <= S -> -S < 2*y <= S -> x mod S = y mod S -> x = y.
Proof. intros. rewrite <- (wrap1_mod' S x), <- (wrap1_mod' S y) in * by lia. unfold wrap1 in *.
  destruct (Z.ltb_spec x 0), (Z.ltb_spec y 0); lia. Qed.

Lemma full_row_inj S g g' : pos3 S -> G_point S g -> G_point S g' ->
  row_major S (v2 S) g = row_major S (v2 S) g' -> g = g'.
Proof.
  destruct S as [[a b] c], g as [[x y] z], g' as [[x' y'] z']. intros (Ha&Hb&Hc) (Hx&Hy&Hz) (Hx'&Hy'&Hz'). cbn.
  intros E. apply flat_unique in E; try lia; try (apply Z.mod_pos_bound; lia).
  destruct E as (E1&E2&E3). apply mod_inj_range in E1, E2, E3; try lia. subst; auto.
Qed.
Lemma half_row_inj S g g' : pos3 S -> halfG_point S g -> halfG_point S g' ->
  row_major S (v2 S/2+1) g = row_major S (v2 S/2+1) g' -> g = g'.
Proof.
  destruct S as [[a b] c], g as [[x y] z], g' as [[x' y'] z']. intros (Ha&Hb&Hc) (Hx&Hy&Hz) (Hx'&Hy'&Hz'). cbn.
  assert (z mod c = z) by (apply Z.mod_small; lia). assert (z' mod c = z') by (apply Z.mod_small; lia).
  intros E. apply flat_unique in E; try lia; try (apply Z.mod_pos_bound; lia).
  destruct E as (E1&E2&E3). apply mod_inj_range in E1, E2; try lia. f_equal; [f_equal|]; lia.
Qed.
Lemma flat_range a b c x y z : 0 <= x < a -> 0 <= y < b -> 0 <= z < c -> 0 <= (x*b+y)*c+z < a*b*c.
Proof.
  intros. assert (0 <= x*b+y <= a*b-1) by nia. set (u := x*b+y) in *. set (w := a*b) in *. nia.
Qed.
Lemma full_row_range S g : pos3 S -> 0 <= row_major S (v2 S) g < nr S.
Proof.
  destruct S as [[a b] c], g as [[x y] z]. intros (Ha&Hb&Hc). unfold nr. cbn.
  pose proof (Z.mod_pos_bound x a Ha). pose proof (Z.mod_pos_bound y b Hb). pose proof (Z.mod_pos_bound z c Hc).
  apply flat_range; auto.
Qed.
Lemma half_row_range S g : pos3 S -> halfG_point S g -> 0 <= row_major S (v2 S/2+1) g < nG S.
Proof.
  destruct S as [[a b] c], g as [[x y] z]. intros (Ha&Hb&Hc) (Hx&Hy&Hz). unfold nG. cbn.
  pose proof (Z.mod_pos_bound x a Ha). pose proof (Z.mod_pos_bound y b Hb).
  rewrite (Z.mod_small z c) by lia. assert (0 <= z < c/2+1) by lia. apply flat_range; auto.
Qed.

Lemma nyquist_iff S g : pos3 S -> G_point S g -> (is_nyquist S g = true <-> ~ G_point S (neg3 g)).
Proof.
  destruct S as [[a b] c], g as [[x y] z]. intros (Ha&Hb&Hc) (Hx&Hy&Hz). unfold is_nyquist. cbn.
  rewrite !orb_true_iff, !Z.eqb_eq. lia.
Qed.

Lemma thread_union_closed loop coord fuel nT n : 0 < nT -> 0 < n ->
  (forall t, 0 <= t < nT -> loop fuel (thread_i1 nT n t) (thread_i2 nT n t)
     = Some (map (fun k => (k, coord k)) (zrange (thread_i1 nT n t) (thread_i2 nT n t)))) ->
  thread_union loop fuel nT n = Some (map (fun k => (k, coord k)) (zrange 0 n)).
Proof.
  intros HT Hn H. rewrite <- (thread_partition nT n) by auto. unfold thread_union, thread_iterations.
  assert (G: forall l, (forall t, In t l -> 0 <= t < nT) ->
   fold_right (fun t acc => match loop fuel (thread_i1 nT n t) (thread_i2 nT n t), acc with
                           | Some L, Some L' => Some (L ++ L') | _, _ => None end) (Some []) l
   = Some (map (fun k => (k, coord k)) (concat (map (fun t => zrange (thread_i1 nT n t) (thread_i2 nT n t)) l)))).
  { induction l as [|t l IH]; intros Hl; cbn; auto.
    rewrite H by (apply Hl; cbn; auto). rewrite IH by (intros; apply Hl; cbn; auto).
    rewrite map_app. reflexivity. }
  apply G. intros t Ht. apply in_zrange in Ht. auto.
Qed.

Lemma thread_nonempty nT n t : 0 < nT -> nT <= n -> thread_i1 nT n t < thread_i2 nT n t.
Proof.
  intros HT Hn. rewrite thread_i1_eq, thread_i2_eq by lia.
  pose proof (div_load n nT t ltac:(lia) HT). assert (1 <= n/nT) by (apply Z.div_le_lower_bound; lia). lia.
Qed.
Lemma thread_in_range nT n t : 0 < nT -> 0 < n -> 0 <= t < nT ->
  0 <= thread_i1 nT n t /\ thread_i1 nT n t <= thread_i2 nT n t <= n.
Proof.
  intros HT Hn Ht. rewrite thread_i1_eq, thread_i2_eq by lia.
  pose proof (bound_mono n nT 0 t ltac:(lia) HT ltac:(lia)).
  pose proof (bound_mono n nT t (t+1) ltac:(lia) HT ltac:(lia)).
  pose proof (bound_mono n nT (t+1) nT ltac:(lia) HT ltac:(lia)).
  rewrite bound_0, bound_p in * by lia. lia.
Qed.

Lemma nr_pos S : pos3 S -> 0 < nr S.
Proof. destruct S as [[a b] c]. intros (Ha&Hb&Hc). unfold nr. cbn. nia. Qed.
Lemma nG_pos S : pos3 S -> 0 < nG S.
Proof.
  destruct S as [[a b] c]. intros (Ha&Hb&Hc). unfold nG. cbn. assert (0 < c/2+1) by lia.
  assert (0 < a*b) by nia. set (h := c/2+1) in *. nia.
Qed.

Lemma rLoop_all_threads S nT fuel : pos3 S -> 0 < nT -> nr S < Z.of_nat fuel ->
  exists L, thread_union (THREAD_rLoop S) fuel nT (nr S) = Some L /\ visits (r_point S) (row_major S (v2 S)) 0 (nr S) L.
Proof.
  intros HS HT Hf. pose proof (nr_pos S HS). eexists. split.
  - apply thread_union_closed with (coord := r_init S); auto. intros t Ht.
    destruct (thread_in_range nT (nr S) t) as (H1&H2&H3); auto.
    apply (loop_while_closed (nr S) (r_init S) (r_next S)); auto; try lia. intros; apply r_next_ok; auto.
  - apply visits_map. intros i Hi'. apply r_init_spec; auto.
Qed.
Lemma halfG_all_threads S nT fuel : pos3 S -> 0 < nT -> nG S < Z.of_nat fuel ->
  exists L, thread_union (THREAD_halfGspaceLoop S) fuel nT (nG S) = Some L /\
    visits (halfG_point S) (row_major S (v2 S/2+1)) 0 (nG S) L.
Proof.
  intros HS HT Hf. pose proof (nG_pos S HS). eexists. split.
  - apply thread_union_closed with (coord := halfG_init S); auto. intros t Ht.
    destruct (thread_in_range nT (nG S) t) as (H1&H2&H3); auto.
    apply (loop_while_closed (nG S) (halfG_init S) (halfG_next S)); auto; try lia. intros; apply halfG_next_ok; auto.
  - apply visits_map. intros i Hi'. apply halfG_init_spec; auto.
Qed.
Lemma fullG_all_threads S nT fuel : pos3 S -> 0 < nT -> nT <= nr S -> nr S <= Z.of_nat fuel ->
  exists L, thread_union (THREAD_fullGspaceLoop S) fuel nT (nr S) = Some L /\
    visits (G_point S) (row_major S (v2 S)) 0 (nr S) L.
Proof.
  intros HS HT HTn Hf. pose proof (nr_pos S HS). eexists. split.
  - apply thread_union_closed with (coord := fullG_init S); auto. intros t Ht.
    destruct (thread_in_range nT (nr S) t) as (H1&H2&H3); auto.
    pose proof (thread_nonempty nT (nr S) t HT HTn).
    apply (loop_true_closed (nr S) (fullG_init S) (fullG_next S)); auto; try lia. intros; apply fullG_next_ok; auto.
  - apply visits_map. intros i Hi'. apply fullG_init_spec; auto.
Qed.

Lemma fullG_few_points_diverges : exists S nT, pos3 S /\ 0 < nT /\
  forall fuel, thread_union (THREAD_fullGspaceLoop S) fuel nT (nr S) = None.
Proof.
  exists (1,1,1), 2. split; [cbn; lia|]. split; [lia|]. intros fuel.
  change (zrange 0 2) with [0;1]. unfold thread_union. change (zrange 0 2) with [0;1]. cbn [fold_right].
  unfold THREAD_fullGspaceLoop at 1. rewrite loop_true_diverges; [reflexivity|vm_compute; discriminate].
Qed.
