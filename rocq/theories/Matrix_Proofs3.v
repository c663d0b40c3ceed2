(** Slicing (C54) and tiled block products (C55). *)
From Coq Require Import ZArith List Bool Reals Lia Permutation.
From Coquelicot Require Import Complex.
From Verif Require Import Base WorkDiv_Model Matrix_Model Matrix_Spec Matrix_Proofs Matrix_Proofs2.
Import ListNotations.
Open Scope Z_scope.

Ltac btrue := repeat match goal with
  | |- context[assert ?b _] => replace b with true by (symmetry; rewrite ?andb_true_iff, ?orb_true_iff, ?Z.leb_le, ?Z.ltb_lt, ?Z.eqb_eq; lia); cbn [assert]
  end.

(** sub-matrix read *)
Lemma subGet_value init m iStart iStep iStop jStart jStep jStop :
  range_ok (nr m) iStart iStep iStop -> range_ok (nc m) jStart jStep jStop ->
  exists r, subGet init m iStart iStep iStop jStart jStep jStop = Ok r /\
    (forall k, 0 <= k < nr r <-> 0 <= k /\ iStart + k * iStep < iStop) /\
    (forall l, 0 <= l < nc r <-> 0 <= l /\ jStart + l * jStep < jStop) /\
    (nr r = ceildiv (iStop - iStart) iStep /\ nc r = ceildiv (jStop - jStart) jStep) /\
    (forall k l, 0 <= k < nr r -> 0 <= l < nc r -> entry r k l = entry m (iStart + k * iStep) (jStart + l * jStep)).
Proof.
  intros [Hi1 [Hi2 Hi3]] [Hj1 [Hj2 Hj3]]. unfold subGet.
  destruct ((iStart =? 0) && (iStep =? 1) && (iStop =? nr m) && (jStart =? 0) && (jStep =? 1) && (jStop =? nc m)) eqn:Efull.
  { rewrite !andb_true_iff, !Z.eqb_eq in Efull. decompose [and] Efull. subst. exists m. repeat split; intros; auto; try lia.
    - unfold ceildiv. rewrite Z.quot_1_r. lia.
    - unfold ceildiv. rewrite Z.quot_1_r. lia.
    - f_equal; lia. }
  clear Efull. btrue.
  pose proof (fun k => ceildiv_range iStart iStep iStop k Hi1 Hi3) as RI.
  pose proof (fun k => ceildiv_range jStart jStep jStop k Hj1 Hj3) as RJ.
  set (iD := ceildiv (iStop - iStart) iStep) in *. set (jD := ceildiv (jStop - jStart) jStep) in *.
  assert (0 < iD) by (apply ceildiv_pos; auto). assert (0 < jD) by (apply ceildiv_pos; auto). clearbody iD jD.
  set (ret := mkMat iD jD init).
  (* invariant: entries with first index < i (or = i0 and second < j) are copied *)
  set (good := fun (P : Z -> Z -> Prop) (b : buf) => len b = iD * jD /\
     forall k l, 0 <= k < iD -> 0 <= l < jD -> P k l -> cell b (iD * l + k) = entry m (iStart + k*iStep) (jStart + l*jStep)).
  destruct (foldM_inv (fun i b => good (fun k l => k < i) b)
    (fun b i => foldM (fun b j => bind (rd (data m) (index m (i*iStep+iStart) (j*jStep+jStart)))
      (fun v => upd b (index ret i j) (fun _ => v))) (zrange 0 jD) b) 0 iD (data ret)) as [b' [E Hb]]; try lia.
  - split; [reflexivity|]. intros; lia.
  - intros i b Hi [Hlb Hb].
    destruct (foldM_inv (fun j b => good (fun k l => k < i \/ (k = i /\ l < j)) b)
      (fun b j => bind (rd (data m) (index m (i*iStep+iStart) (j*jStep+jStart)))
        (fun v => upd b (index ret i j) (fun _ => v))) 0 jD b) as [b' [E [Hl' Hb']]]; try lia.
    + split; auto. intros k l Hk Hl' [Hlt|[He Hlt]]; [apply Hb; auto|lia].
    + intros j b1 Hj [Hl1 Hb1].
      pose proof (proj1 (RI i) Hi) as Hi'. pose proof (proj1 (RJ j) Hj) as Hj'.
      rewrite rd_ok by (cbn [len data]; unfold index; apply mat_addr; lia). cbn [bind].
      rewrite upd_ok by (rewrite Hl1; unfold index; cbn [nr ret]; apply mat_addr; lia).
      eexists; split; [reflexivity|]. split; [cbn; auto|]. intros k l Hk Hl Hcase. cbn [cell].
      unfold index at 1. cbn [nr ret].
      destruct (Z.eqb_spec (iD * l + k) (iD * j + i)) as [Ea|Ea].
      * apply mat_addr_inj in Ea; try lia. destruct Ea; subst. cbn [cell data]. unfold entry, index. f_equal. ring.
      * apply Hb1; auto. destruct Hcase as [Hc|[-> Hc]]; [left; auto|]. right. split; auto.
        assert (l <> j) by (intros ->; apply Ea; reflexivity). lia.
    + exists b'. split; [exact E|]. split; auto. intros k l Hk Hl Hlt. apply Hb'; auto. lia.
  - rewrite E. cbn [bind]. eexists; split; [reflexivity|]. cbn [of_buf nr nc].
    split; [exact RI|]. split; [exact RJ|]. split; [auto|].
    intros k l Hk Hl. destruct Hb as [_ Hb]. unfold entry at 1. cbn [of_buf nr mcell]. apply Hb; auto; lia.
Qed.

(** out-of-range reads are rejected *)
Lemma subGet_rejects init m iStart iStep iStop jStart jStep jStop :
  ~ (range_ok (nr m) iStart iStep iStop /\ range_ok (nc m) jStart jStep jStop) ->
  ~ (iStart = 0 /\ iStep = 1 /\ iStop = nr m /\ jStart = 0 /\ jStep = 1 /\ jStop = nc m) ->
  subGet init m iStart iStep iStop jStart jStep jStop = Rejected.
Proof.
  intros Hr Hf. unfold subGet.
  destruct ((iStart =? 0) && (iStep =? 1) && (iStop =? nr m) && (jStart =? 0) && (jStep =? 1) && (jStop =? nc m)) eqn:Efull.
  { rewrite !andb_true_iff, !Z.eqb_eq in Efull. tauto. }
  unfold range_ok in Hr.
  destruct ((0 <=? iStart) && (iStart <? nr m)) eqn:E1; cbn [assert]; auto.
  destruct ((iStart <? iStop) && (iStop <=? nr m)) eqn:E2; cbn [assert]; auto.
  destruct (0 <? iStep) eqn:E3; cbn [assert]; auto.
  destruct ((0 <=? jStart) && (jStart <? nc m)) eqn:E4; cbn [assert]; auto.
  destruct ((jStart <? jStop) && (jStop <=? nc m)) eqn:E5; cbn [assert]; auto.
  destruct (0 <? jStep) eqn:E6; cbn [assert]; auto.
  rewrite ?andb_true_iff, ?Z.leb_le, ?Z.ltb_lt in *. lia.
Qed.

(** sub-matrix write *)
Lemma matrixSub_value op m v iStart iStep iStop jStart jStep jStop :
  range_ok (nr m) iStart iStep iStop -> range_ok (nc m) jStart jStep jStop ->
  nr v = ceildiv (iStop - iStart) iStep -> nc v = ceildiv (jStop - jStart) jStep ->
  exists b, matrixSub op (nr m) iStart iStep (nr v) jStart jStep (nc v) (data v) (data m) = Ok b /\ len b = nr m * nc m /\
    (forall k l, 0 <= k < nr v -> 0 <= l < nc v ->
       cell b (nr m * (jStart + l*jStep) + (iStart + k*iStep)) = op (entry m (iStart + k*iStep) (jStart + l*jStep)) (entry v k l)) /\
    (forall a, (forall k l, 0 <= k < nr v -> 0 <= l < nc v -> a <> nr m * (jStart + l*jStep) + (iStart + k*iStep)) ->
       cell b a = mcell m a).
Proof.
  intros [Hi1 [Hi2 Hi3]] [Hj1 [Hj2 Hj3]] Enr Enc.
  pose proof (fun k => ceildiv_range iStart iStep iStop k Hi1 Hi3) as RI. rewrite <- Enr in RI.
  pose proof (fun k => ceildiv_range jStart jStep jStop k Hj1 Hj3) as RJ. rewrite <- Enc in RJ.
  assert (HR : 0 < nr v) by (rewrite Enr; apply ceildiv_pos; auto). assert (HC : 0 < nc v) by (rewrite Enc; apply ceildiv_pos; auto).
  clear Enr Enc. unfold matrixSub.
  set (addr := fun k l => nr m * (jStart + l*jStep) + (iStart + k*iStep)).
  assert (AI : forall k l k' l', 0 <= k < nr v -> 0 <= l < nc v -> 0 <= k' < nr v -> 0 <= l' < nc v -> addr k l = addr k' l' -> k = k' /\ l = l').
  { unfold addr. intros k l k' l' Hk Hl Hk' Hl' E. apply RI in Hk, Hk'. apply RJ in Hl, Hl'. apply mat_addr_inj in E; nia. }
  set (P := fun (dn : Z -> Z -> Prop) (st : Z * buf) => len (snd st) = nr m * nc m /\
     (forall k l, 0 <= k < nr v -> 0 <= l < nc v -> dn k l -> cell (snd st) (addr k l) = op (mcell m (addr k l)) (entry v k l)) /\
     (forall a, (forall k l, 0 <= k < nr v -> 0 <= l < nc v -> dn k l -> a <> addr k l) -> cell (snd st) a = mcell m a)).
  match goal with |- context[foldM ?f (zrange 0 (nc v)) _] => set (outer := f) end.
  destruct (foldM_inv (fun j st => fst st = nr v * j /\ P (fun k l => l < j) st) outer 0 (nc v) (0, data m)) as [[p' b'] [E [Hp Hb]]]; try lia.
  - split; [cbn; ring|]. split; [reflexivity|]. split; [intros; lia|]. intros; reflexivity.
  - intros j st Hj [Hp [Hlen [Hdone Hrest]]]. unfold outer.
    match goal with |- context[foldM ?f (zrange 0 (nr v)) _] => set (inner := f) end.
    destruct (foldM_inv (fun i st => fst st = nr v * j + i /\ P (fun k l => l < j \/ (l = j /\ k < i)) st) inner 0 (nr v) st) as [st' [E [Hp' [Hl' [Hd' Hr']]]]]; try lia.
    + split; [lia|]. split; [auto|]. split; [intros k l Hk Hl [Hc|Hc]; [auto|lia]|].
      intros a Ha. apply Hrest. intros k l Hk Hl Hlt. apply Ha; auto.
    + intros i st1 Hi [Hp1 [Hl1 [Hd1 Hr1]]]. unfold inner.
      rewrite rd_ok by (cbn [len data]; rewrite Hp1; apply mat_addr; auto). cbn [bind].
      pose proof (proj1 (RI i) Hi) as Hi'. pose proof (proj1 (RJ j) Hj) as Hj'.
      replace (nr m * (j * jStep + jStart) + (i * iStep + iStart)) with (addr i j) by (unfold addr; ring).
      rewrite upd_ok by (rewrite Hl1; unfold addr; apply mat_addr; lia). cbn [bind].
      eexists; split; [reflexivity|]. cbn [fst]. split; [lia|]. split; [cbn; auto|]. cbn [snd cell]. split.
      * intros k l Hk Hl Hcase. destruct (Z.eqb_spec (addr k l) (addr i j)) as [Ea|Ea].
        -- destruct (AI _ _ _ _ Hk Hl Hi Hj Ea); subst. rewrite Hr1.
           ++ cbn [data cell]. rewrite Hp1. reflexivity.
           ++ intros k' l' Hk' Hl'' Hc' Ea'. apply AI in Ea'; auto. lia.
        -- apply Hd1; auto. destruct Hcase as [Hc|[-> Hc]]; [left; auto|right]. split; auto.
           assert (k <> i) by (intros ->; apply Ea; reflexivity). lia.
      * intros a Ha. destruct (Z.eqb_spec a (addr i j)) as [Ea|Ea].
        -- exfalso. apply (Ha i j); auto. right. lia.
        -- apply Hr1. intros k l Hk Hl Hc. apply Ha; auto. lia.
    + exists st'. split; [exact E|]. split; [lia|]. split; auto. split.
      * intros k l Hk Hl Hc. apply Hd'; auto. lia.
      * intros a Ha. apply Hr'. intros k l Hk Hl Hc. apply Ha; auto; lia.
  - rewrite E. cbn [bind snd]. exists b'. split; [reflexivity|]. destruct Hb as [Hlen [Hd Hr]]. split; [exact Hlen|]. split.
    + intros k l Hk Hl. apply (Hd k l Hk Hl). lia.
    + intros a Ha. apply Hr. intros k l Hk Hl _. apply Ha; auto.
Qed.

Lemma subOp_value op m v iStart iStep iStop jStart jStep jStop :
  range_ok (nr m) iStart iStep iStop -> range_ok (nc m) jStart jStep jStop ->
  nr v = ceildiv (iStop - iStart) iStep -> nc v = ceildiv (jStop - jStart) jStep ->
  exists m', subOp op m iStart iStep iStop jStart jStep jStop v = Ok m' /\ nr m' = nr m /\ nc m' = nc m /\
    (forall k l, 0 <= k < nr v -> 0 <= l < nc v ->
       entry m' (iStart + k*iStep) (jStart + l*jStep) = op (entry m (iStart + k*iStep) (jStart + l*jStep)) (entry v k l)) /\
    (forall i j, in_mat m i j -> ~ (exists k l, at_pos iStart iStep iStop k i /\ at_pos jStart jStep jStop l j) ->
       entry m' i j = entry m i j).
Proof.
  intros Hi Hj Er Ec. unfold subOp. pose proof Hi as [Hi1 [Hi2 Hi3]]. pose proof Hj as [Hj1 [Hj2 Hj3]]. btrue.
  rewrite <- Er, <- Ec.
  pose proof (fun k => ceildiv_range iStart iStep iStop k Hi1 Hi3) as RI. rewrite <- Er in RI.
  pose proof (fun k => ceildiv_range jStart jStep jStop k Hj1 Hj3) as RJ. rewrite <- Ec in RJ.
  destruct (matrixSub_value op m v iStart iStep iStop jStart jStep jStop Hi Hj Er Ec) as [b [E [El [Ev Eo]]]].
  rewrite E. cbn [bind]. eexists; split; [reflexivity|]. cbn [of_buf nr nc]. split; [reflexivity|]. split; [reflexivity|]. split.
  - intros k l Hk Hl. unfold entry at 1. cbn [of_buf nr mcell]. apply Ev; auto.
  - intros i j [Hini Hinj] Hn. unfold entry at 1. cbn [of_buf nr mcell]. apply Eo. intros k l Hk Hl Ea. apply Hn.
    exists k, l. apply RI in Hk. apply RJ in Hl. apply mat_addr_inj in Ea; [|auto|nia]. unfold at_pos. lia.
Qed.

Lemma set_get init m v iStart iStep iStop jStart jStep jStop m' :
  range_ok (nr m) iStart iStep iStop -> range_ok (nc m) jStart jStep jStop ->
  subSet m iStart iStep iStop jStart jStep jStop v = Ok m' ->
  exists v', subGet init m' iStart iStep iStop jStart jStep jStop = Ok v' /\ nr v' = nr v /\ nc v' = nc v /\
    forall k l, in_mat v k l -> entry v' k l = entry v k l.
Proof.
  intros Hi Hj Hs.
  assert (Hdim : nr v = ceildiv (iStop - iStart) iStep /\ nc v = ceildiv (jStop - jStart) jStep).
  { unfold subSet, subOp in Hs. pose proof Hi as [Hi1 [Hi2 Hi3]]. pose proof Hj as [Hj1 [Hj2 Hj3]].
    repeat match type of Hs with assert ?b _ = _ => destruct b eqn:?; cbn [assert] in Hs; [|discriminate Hs] end.
    rewrite ?Z.eqb_eq in *. lia. }
  destruct Hdim as [Er Ec].
  destruct (subOp_value (fun _ v => v) m v iStart iStep iStop jStart jStep jStop Hi Hj Er Ec) as [m1 [E [Hr [Hc [Hv _]]]]].
  unfold subSet in Hs. rewrite E in Hs. inversion Hs; subst m1.
  destruct (subGet_value init m' iStart iStep iStop jStart jStep jStop) as [r [Eg [_ [_ [[Dr Dc] Hg]]]]]; [rewrite Hr; auto|rewrite Hc; auto|].
  exists r. split; [exact Eg|]. split; [congruence|]. split; [congruence|]. intros k l [Hk Hl].
  rewrite Hg by (rewrite ?Dr, ?Dc, <- ?Er, <- ?Ec; auto). apply Hv; auto.
Qed.

(** writes with rows out of range are rejected *)
Lemma subOp_rejects_rows op m v iStart iStep iStop jStart jStep jStop :
  ~ range_ok (nr m) iStart iStep iStop -> subOp op m iStart iStep iStop jStart jStep jStop v = Rejected.
Proof.
  intros Hr. unfold subOp, range_ok in *.
  destruct ((0 <=? iStart) && (iStart <? nr m)) eqn:E1; cbn [assert]; auto.
  destruct ((iStart <? iStop) && (iStop <=? nr m)) eqn:E2; cbn [assert]; auto.
  destruct (0 <? iStep) eqn:E3; cbn [assert]; auto.
  rewrite ?andb_true_iff, ?Z.leb_le, ?Z.ltb_lt in *. lia.
Qed.

(** *** Conversion of views *)
Lemma zaxpy_value N a x x0 incx y y0 : 0 <= N ->
  (forall i, 0 <= i < N -> 0 <= x0 + i * incx < len x) -> (forall i, 0 <= i < N -> 0 <= y0 + i < len y) ->
  exists y', zaxpy N a x x0 incx y y0 1 = Ok y' /\ len y' = len y /\
    (forall i, 0 <= i < N -> cell y' (y0 + i) = Cplus (cell y (y0 + i)) (Cmult (RtoC a) (cell x (x0 + i * incx)))) /\
    (forall p, ~ (y0 <= p < y0 + N) -> cell y' p = cell y p).
Proof.
  intros HN Hx Hy. unfold zaxpy.
  match goal with |- context[foldM ?f _ _] => set (body := f) end.
  destruct (foldM_inv (fun n y' => len y' = len y /\
     (forall i, 0 <= i < n -> cell y' (y0 + i) = Cplus (cell y (y0 + i)) (Cmult (RtoC a) (cell x (x0 + i * incx)))) /\
     (forall p, ~ (y0 <= p < y0 + n) -> cell y' p = cell y p)) body 0 N y) as [y' [E H]]; auto.
  - repeat split; auto; intros; lia.
  - intros i b Hi [Hl [Hv Ho]]. unfold body. rewrite rd_ok by auto. cbn [bind]. replace (y0 + i * 1) with (y0 + i) by ring.
    rewrite upd_ok by (rewrite Hl; auto). eexists; split; [reflexivity|]. cbn [len cell]. split; [auto|]. split.
    + intros k Hk. destruct (Z.eqb_spec (y0 + k) (y0 + i)) as [Ek|Ek].
      * assert (k = i) by lia. subst. rewrite Ho by lia. reflexivity.
      * apply Hv. lia.
    + intros p Hp. destruct (Z.eqb_spec p (y0 + i)); [lia|]. apply Ho. lia.
  - exists y'. split; auto.
Qed.

Lemma toMatrix_trans_value init v : view_ok v -> vop v <> NoTrans ->
  exists m, toMatrix init v = Ok m /\ nr m = vRows v /\ nc m = vCols v /\
    forall i j, 0 <= i < vRows v -> 0 <= j < vCols v -> entry m i j = view_entry v i j.
Proof.
  intros Hv Hop. unfold toMatrix. assert (En : isNoTrans (vop v) = false) by (destruct (vop v); [exfalso; apply Hop; reflexivity|reflexivity|reflexivity]). rewrite En.
  set (ret := mkMat (vRows v) (vCols v) (fun _ => RtoC 0)).
  assert (HR : vRows v = vjDelta v /\ vCols v = viDelta v) by (unfold vRows, vCols; rewrite En; auto). destruct HR as [HR HC].
  assert (Hidx : vIndex v 0 0 = nr (vmat v) * vjStart v + viStart v) by (unfold vIndex, index; rewrite En; ring).
  destruct Hv as [[Hd1 Hd2] [H1 [H2 [H3 [H4 [H5 H6]]]]]].
  match goal with |- context[foldM ?f _ _] => set (body := f) end.
  set (src := fun i j => Cmult (RtoC (vscale v)) (entry (vmat v) (viStart v + j) (vjStart v + i))).
  destruct (foldM_inv (fun j st => fst st = (vRows v * j, vIndex v 0 0 + j) /\ len (snd st) = vRows v * vCols v /\
     (forall i l, 0 <= i < vRows v -> 0 <= l < j -> cell (snd st) (vRows v * l + i) = src i l) /\
     (forall p, vRows v * j <= p -> cell (snd st) p = RtoC 0)) body 0 (vCols v) (0, vIndex v 0 0, data ret)) as [[[p q] b] [E [_ [Hl [Hc _]]]]].
  - lia.
  - cbn [fst snd]. split; [f_equal; ring|]. split; [reflexivity|]. split; [intros; lia|]. intros; reflexivity.
  - intros j [[rp ip] b] Hj [Hst [Hl [Hc Hz]]]. cbn [fst snd] in *. inversion Hst; subst rp ip. clear Hst. unfold body. cbn [nr ret].
    destruct (zaxpy_value (vRows v) (vscale v) (data (vmat v)) (vIndex v 0 0 + j) (nr (vmat v)) b (vRows v * j)) as [b' [E [Hl' [Hv' Ho']]]].
    + lia.
    + intros i Hi. cbn [len data]. rewrite Hidx.
      replace (nr (vmat v) * vjStart v + viStart v + j + i * nr (vmat v)) with (nr (vmat v) * (vjStart v + i) + (viStart v + j)) by ring.
      apply mat_addr; lia.
    + intros i Hi. rewrite Hl. apply mat_addr; lia.
    + rewrite E. cbn [bind]. eexists; split; [reflexivity|]. cbn [fst snd]. split; [f_equal; ring|]. split; [congruence|]. split.
      * intros i l Hi Hl1. destruct (Z.eq_dec l j) as [->|Hne].
        -- rewrite Hv' by auto. rewrite Hz by nia. unfold src, entry. cbn [cell data]. rewrite Hidx.
           replace (nr (vmat v) * vjStart v + viStart v + j + i * nr (vmat v)) with (nr (vmat v) * (vjStart v + i) + (viStart v + j)) by ring. ring.
        -- rewrite Ho' by nia. apply Hc; lia.
      * intros p0 Hp0. rewrite Ho' by nia. apply Hz. nia.
  - change (nc ret) with (vCols v). rewrite E. cbn [bind snd]. eexists; split; [reflexivity|]. cbn [nr nc ret]. repeat split; auto.
    intros i j Hi Hj. unfold entry, view_entry. cbn [nr mcell].
    destruct (vop v) eqn:Eop; [congruence| |]; rewrite Hc by auto; unfold src; [reflexivity|].
    unfold Cconj, Cmult, RtoC. cbn [fst snd]. f_equal; ring.
Qed.

Lemma toMatrix_notrans_value init v : view_ok v -> vop v = NoTrans ->
  (viStart v = 0 /\ viDelta v = nr (vmat v) /\ vjStart v = 0 /\ vjDelta v = nc (vmat v) \/ 0 < viDelta v /\ 0 < vjDelta v) ->
  exists m, toMatrix init v = Ok m /\ nr m = vRows v /\ nc m = vCols v /\
    forall i j, 0 <= i < vRows v -> 0 <= j < vCols v -> entry m i j = view_entry v i j.
Proof.
  intros Hv Hop Hne. unfold toMatrix, vRows, vCols, view_entry. rewrite Hop. cbn [isNoTrans].
  destruct Hv as [[Hd1 Hd2] [H1 [H2 [H3 [H4 [H5 H6]]]]]].
  destruct (Z_lt_dec 0 (viDelta v)) as [Hp|Hp]; [destruct (Z_lt_dec 0 (vjDelta v)) as [Hq|Hq]|].
  - destruct (subGet_value init (vmat v) (viStart v) 1 (viStart v + viDelta v) (vjStart v) 1 (vjStart v + vjDelta v)) as [r [E [_ [_ [[Dr Dc] He]]]]].
    + unfold range_ok; lia.
    + unfold range_ok; lia.
    + rewrite E. cbn [bind]. eexists; split; [reflexivity|]. cbn [nr nc].
      assert (Er : nr r = viDelta v) by (rewrite Dr; unfold ceildiv; rewrite Z.quot_1_r; lia).
      assert (Ec : nc r = vjDelta v) by (rewrite Dc; unfold ceildiv; rewrite Z.quot_1_r; lia).
      repeat split; auto. intros i j Hi Hj. unfold entry at 1. cbn [nr mcell].
      change (mcell r (nr r * j + i)) with (entry r i j). rewrite He by lia. rewrite !Z.mul_1_r. reflexivity.
  - destruct Hne as [[E1 [E2 [E3 E4]]]|]; [|lia]. unfold subGet. rewrite E1, E2, E3, E4, !Z.eqb_refl. cbn [andb bind Z.add].
    rewrite ?Z.eqb_refl. cbn [andb bind]. eexists; split; [reflexivity|]. cbn [nr nc]. repeat split; auto; intros; lia.
  - destruct Hne as [[E1 [E2 [E3 E4]]]|]; [|lia]. unfold subGet. rewrite E1, E2, E3, E4, !Z.eqb_refl. cbn [andb bind Z.add].
    rewrite ?Z.eqb_refl. cbn [andb bind]. eexists; split; [reflexivity|]. cbn [nr nc]. repeat split; auto; intros; lia.
Qed.

(** *** Diagonal products and trace *)
Lemma mulDiag_value pick nRows nCols D M out : 0 <= nRows -> 0 <= nCols -> len M = nRows * nCols -> len out = nRows * nCols ->
  exists b, mulDiag pick nRows nCols D M out = Ok b /\
    forall i j, 0 <= i < nRows -> 0 <= j < nCols -> cell b (nRows * j + i) = Cmult (cell M (nRows * j + i)) (D (pick i j)).
Proof.
  intros HR HC LM LO. unfold mulDiag.
  match goal with |- context[foldM ?f (zrange 0 nCols) _] => set (outer := f) end.
  set (val := fun i j => Cmult (cell M (nRows * j + i)) (D (pick i j))).
  destruct (foldM_inv (fun j st => fst st = nRows * j /\ len (snd st) = nRows * nCols /\
     forall k l, 0 <= k < nRows -> 0 <= l < j -> cell (snd st) (nRows * l + k) = val k l) outer 0 nCols (0, out)) as [[p b] [E [_ [_ Hb]]]]; auto.
  - cbn. split; [ring|]. split; [auto|]. intros; lia.
  - intros j st Hj [Hp [Hl Hv]]. unfold outer.
    match goal with |- context[foldM ?f (zrange 0 nRows) _] => set (inner := f) end.
    destruct (foldM_inv (fun i st => fst st = nRows * j + i /\ len (snd st) = nRows * nCols /\
      forall k l, 0 <= k < nRows -> 0 <= l -> (l < j \/ (l = j /\ k < i)) -> cell (snd st) (nRows * l + k) = val k l) inner 0 nRows st) as [st' [E [Hp' [Hl' Hv']]]]; auto.
    + split; [lia|]. split; [auto|]. intros k l Hk H0 [Hc|Hc]; [apply Hv; lia|lia].
    + intros i st1 Hi [Hp1 [Hl1 Hv1]]. unfold inner. rewrite Hp1. rewrite rd_ok by (rewrite LM; apply mat_addr; auto). cbn [bind].
      rewrite upd_ok by (rewrite Hl1; apply mat_addr; auto). cbn [bind]. eexists; split; [reflexivity|]. cbn [fst snd len cell].
      split; [lia|]. split; [auto|]. intros k l Hk Hl0 Hc. destruct (Z.eqb_spec (nRows * l + k) (nRows * j + i)) as [Ea|Ea].
      * apply mat_addr_inj in Ea; auto. destruct Ea; subst. reflexivity.
      * apply Hv1; auto. destruct Hc as [Hc|[-> Hc]]; [auto|]. right. split; auto. assert (k <> i) by (intros ->; apply Ea; reflexivity). lia.
    + exists st'. split; [exact E|]. split; [lia|]. split; [auto|]. intros k l Hk Hl0. apply Hv'; lia.
  - rewrite E. cbn [bind snd]. exists b. split; [reflexivity|]. intros i j Hi Hj. apply (Hb i j Hi Hj).
Qed.

Lemma mulMD_value init m dn D : dims_ok m -> nc m = dn ->
  exists r, mulMD init m dn D = Ok r /\ nr r = nr m /\ nc r = nc m /\
    forall i j, in_mat m i j -> entry r i j = Cmult (entry m i j) (D j).
Proof.
  intros [H1 H2] E. unfold mulMD. rewrite (proj2 (Z.eqb_eq _ _) E). cbn [assert].
  destruct (mulDiag_value (fun i j => j) (nr m) (nc m) D (data m) (data (mkMat (nr m) (nc m) init))) as [b [Eb Hb]]; auto.
  rewrite Eb. cbn [bind]. eexists; split; [reflexivity|]. cbn. repeat split; auto. intros i j [Hi Hj]. apply Hb; auto.
Qed.
Lemma mulDM_value init m dn D : dims_ok m -> dn = nr m ->
  exists r, mulDM init dn D m = Ok r /\ nr r = nr m /\ nc r = nc m /\
    forall i j, in_mat m i j -> entry r i j = Cmult (D i) (entry m i j).
Proof.
  intros [H1 H2] E. unfold mulDM. rewrite (proj2 (Z.eqb_eq _ _) E). cbn [assert].
  destruct (mulDiag_value (fun i j => i) (nr m) (nc m) D (data m) (data (mkMat (nr m) (nc m) init))) as [b [Eb Hb]]; auto.
  rewrite Eb. cbn [bind]. eexists; split; [reflexivity|]. cbn. repeat split; auto. intros i j [Hi Hj].
  unfold entry. cbn [of_buf nr mcell]. rewrite Hb by auto. cbn [data cell]. ring.
Qed.

Lemma trace_value m : dims_ok m -> nr m = nc m -> traceM m = Ok (Csum (fun i => entry m i i) (nr m)).
Proof.
  intros [H1 H2] E. unfold traceM. rewrite (proj2 (Z.eqb_eq _ _) E). cbn [assert].
  match goal with |- foldM ?f _ _ = _ => destruct (foldM_inv (fun i acc => acc = Csum (fun i => entry m i i) i) f 0 (nr m) (RtoC 0)) as [c [Ec Hc]]; auto end.
  - intros i s Hi ->. rewrite rd_ok by (cbn [len data]; rewrite <- E; nia). cbn [bind]. eexists; split; [reflexivity|].
    rewrite Csum_S by lia. f_equal. unfold entry. cbn [cell data]. replace (i * (nc m + 1)) with (nr m * i + i) by (rewrite E; ring).
    unfold Cconj, Cmult, RtoC. cbn. destruct (mcell m (nr m * i + i)). cbn. f_equal; ring.
  - rewrite Ec, Hc. reflexivity.
Qed.
