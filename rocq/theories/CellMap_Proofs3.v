(** Every class of cells has a cell of weight at least one half, so the normalization never fails. *)
From Coq Require Import ZArith Reals List Bool Lia Lra Psatz Permutation Sorted Classical.
From Verif Require Import Base Vec3_Model Vec3_Facts Lattice_Model RealUtil Coulomb_Model Coulomb_Proofs WS_Model WS_Spec WS_Proofs WS_Proofs2 WS_Proofs3 CellMap_Model CellMap_Spec CellMap_Proofs CellMap_Proofs2.
Import ListNotations.
Local Open Scope R_scope.

Definition zproj (tr : nat -> bool) (x : vec Z) : vec Z :=
  V (if tr 0%nat then 0 else c0 x)%Z (if tr 1%nat then 0 else c1 x)%Z (if tr 2%nat then 0 else c2 x)%Z.
Lemma zproj_R tr l : vIZR (zproj tr l) = proj tr (vIZR l).
Proof. destruct l as [a b c]. unfold zproj, proj, vIZR, vmap. cbn [c0 c1 c2]. destruct (tr 0%nat), (tr 1%nat), (tr 2%nat); reflexivity. Qed.
Lemma zproj_planar tr l : planar tr (zproj tr l).
Proof. intros k K T. destruct k as [|[|[|k]]]; [| | |lia]; cbn; rewrite T; reflexivity. Qed.
Lemma planar_zproj tr c : planar tr c -> zproj tr c = c.
Proof.
  intros P. assert (P0 := P 0%nat ltac:(lia)). assert (P1 := P 1%nat ltac:(lia)). assert (P2 := P 2%nat ltac:(lia)). destruct c as [a b c]. unfold zproj. cbn in *.
  destruct (tr 0%nat), (tr 1%nat), (tr 2%nat); f_equal; auto; symmetry; auto.
Qed.
Lemma proj_add tr u v : proj tr (rvadd u v) = rvadd (proj tr u) (proj tr v).
Proof. destruct u as [a b c], v as [d e f]. unfold proj. v3u. destruct (tr 0%nat), (tr 1%nat), (tr 2%nat); f_equal; ring. Qed.
Lemma proj_sub tr u v : proj tr (rvsub u v) = rvsub (proj tr u) (proj tr v).
Proof. destruct u as [a b c], v as [d e f]. unfold proj. v3u. destruct (tr 0%nat), (tr 1%nat), (tr 2%nat); f_equal; ring. Qed.
Lemma proj_idem tr u : proj tr (proj tr u) = proj tr u.
Proof. destruct u as [a b c]. unfold proj. v3u. destruct (tr 0%nat), (tr 1%nat), (tr 2%nat); f_equal; ring. Qed.

Lemma tdiag_zmv tr super n : truncation_diagonal super tr -> zmv super (zproj tr n) = zproj tr (zmv super n).
Proof.
  intros T. unfold truncation_diagonal in T.
  assert (G : forall i j, (i < 3)%nat -> (j < 3)%nat -> tr i <> tr j -> mget super i j = 0%Z) by exact T. clear T.
  assert (A01 := G 0%nat 1%nat ltac:(lia) ltac:(lia)). assert (A02 := G 0%nat 2%nat ltac:(lia) ltac:(lia)). assert (A12 := G 1%nat 2%nat ltac:(lia) ltac:(lia)).
  assert (A10 := G 1%nat 0%nat ltac:(lia) ltac:(lia)). assert (A20 := G 2%nat 0%nat ltac:(lia) ltac:(lia)). assert (A21 := G 2%nat 1%nat ltac:(lia) ltac:(lia)). clear G.
  destruct super as [s00 s01 s02 s10 s11 s12 s20 s21 s22], n as [a b c]. cbn [mget vget mrow row0 row1 row2 m00 m01 m02 m10 m11 m12 m20 m21 m22 c0 c1 c2] in *.
  unfold zproj, zmv, gmv, gdot, row0, row1, row2. cbn [c0 c1 c2 m00 m01 m02 m10 m11 m12 m20 m21 m22].
  destruct (tr 0%nat), (tr 1%nat), (tr 2%nat); try (rewrite A01 by congruence); try (rewrite A02 by congruence); try (rewrite A12 by congruence);
    try (rewrite A10 by congruence); try (rewrite A20 by congruence); try (rewrite A21 by congruence); f_equal; ring.
Qed.
Lemma tdiag_rmv tr super u : truncation_diagonal super tr -> rmv (mIZR super) (proj tr u) = proj tr (rmv (mIZR super) u).
Proof.
  intros G. unfold truncation_diagonal in G.
  assert (A01 := G 0%nat 1%nat ltac:(lia) ltac:(lia)). assert (A02 := G 0%nat 2%nat ltac:(lia) ltac:(lia)). assert (A12 := G 1%nat 2%nat ltac:(lia) ltac:(lia)).
  assert (A10 := G 1%nat 0%nat ltac:(lia) ltac:(lia)). assert (A20 := G 2%nat 0%nat ltac:(lia) ltac:(lia)). assert (A21 := G 2%nat 1%nat ltac:(lia) ltac:(lia)). clear G.
  destruct super as [s00 s01 s02 s10 s11 s12 s20 s21 s22], u as [a b c]. cbn [mget vget mrow row0 row1 row2 m00 m01 m02 m10 m11 m12 m20 m21 m22 c0 c1 c2] in *.
  unfold proj. v3u.
  destruct (tr 0%nat), (tr 1%nat), (tr 2%nat); try (rewrite A01 by congruence); try (rewrite A02 by congruence); try (rewrite A12 by congruence);
    try (rewrite A10 by congruence); try (rewrite A20 by congruence); try (rewrite A21 by congruence); f_equal; ring.
Qed.
Lemma tdiag_inv tr super u : truncation_diagonal super tr -> zdet super <> 0%Z -> proj tr u = u -> proj tr (rmv (rinv (mIZR super)) u) = rmv (rinv (mIZR super)) u.
Proof.
  intros G Z E. set (w := rmv (rinv (mIZR super)) u). rewrite <- (inv_apply (mIZR super) (proj tr w)) by auto using mdet_nz. rewrite tdiag_rmv by auto.
  unfold w at 1. rewrite apply_inv by auto using mdet_nz. rewrite E. reflexivity.
Qed.
Lemma ip_orth Rl tr u v : truncation_orthogonal Rl tr -> proj tr u = u -> proj tr v = V 0 0 0 -> ip Rl u v = 0.
Proof.
  intros G U W. unfold truncation_orthogonal in G.
  assert (A01 := G 0%nat 1%nat ltac:(lia) ltac:(lia)). assert (A02 := G 0%nat 2%nat ltac:(lia) ltac:(lia)). assert (A12 := G 1%nat 2%nat ltac:(lia) ltac:(lia)).
  assert (A10 := G 1%nat 0%nat ltac:(lia) ltac:(lia)). assert (A20 := G 2%nat 0%nat ltac:(lia) ltac:(lia)). assert (A21 := G 2%nat 1%nat ltac:(lia) ltac:(lia)). clear G.
  set (M := rmm (mtrans Rl) Rl) in *.
  replace (ip Rl u v) with (mget M 0 0 * (c0 u * c0 v) + mget M 1 1 * (c1 u * c1 v) + mget M 2 2 * (c2 u * c2 v) + mget M 0 1 * (c1 u * c0 v) + mget M 0 2 * (c2 u * c0 v) + mget M 1 2 * (c2 u * c1 v)
    + mget M 1 0 * (c0 u * c1 v) + mget M 2 0 * (c0 u * c2 v) + mget M 2 1 * (c1 u * c2 v)).
  2:{ unfold M. destruct u as [a b c], v as [d e f], Rl as [s00 s01 s02 s10 s11 s12 s20 s21 s22]. unfold mget, vget, mrow, ip. v3u. ring. }
  clearbody M. destruct u as [a b c], v as [d e f]. unfold proj in *. cbn [c0 c1 c2] in *. injection U as U0 U1 U2. injection W as W0 W1 W2.
  destruct (tr 0%nat), (tr 1%nat), (tr 2%nat); subst; try (rewrite A01 by congruence); try (rewrite A02 by congruence); try (rewrite A12 by congruence);
    try (rewrite A10 by congruence); try (rewrite A20 by congruence); try (rewrite A21 by congruence); ring.
Qed.
Lemma cart_proj Rl tr u : truncation_orthogonal Rl tr -> cart2 Rl (proj tr u) <= cart2 Rl u.
Proof.
  intros G. set (q := rvsub u (proj tr u)). assert (Z : ip Rl (proj tr u) q = 0).
  { apply (ip_orth Rl tr); [auto|apply proj_idem|]. unfold q. rewrite proj_sub, proj_idem. generalize (proj tr u). intros [a b c]. v3u. f_equal; ring. }
  replace (cart2 Rl u) with (cart2 Rl (proj tr u) + 2 * ip Rl (proj tr u) q + cart2 Rl q). { assert (Q := cart_pos Rl q). lra. }
  unfold q. clear. generalize (proj tr u). intros p. unfold cart2, ip. rewrite rmv_sub. generalize (rmv Rl p) (rmv Rl u). intros [a b c] [d e f]. v3u. ring.
Qed.

Lemma d12_ge Rl tr x1 x2 a b : In a x1 -> In b x2 -> cart2 Rl (proj tr (rvsub a b)) <= d12sqMax Rl tr x1 x2.
Proof.
  unfold d12sqMax. fold (cart2 Rl (proj tr (rvsub a b))).
  assert (Mono : forall a l m, m <= fold_left (fun m b => Rmax m (rlen2 (rmv Rl (proj tr (rvsub a b))))) l m).
  { intros a'. induction l as [|c l IH]; intros m; cbn [fold_left]; [lra|]. eapply Rle_trans; [|apply IH]. apply Rmax_l. }
  assert (In1 : forall l m, In b l -> cart2 Rl (proj tr (rvsub a b)) <= fold_left (fun m b => Rmax m (rlen2 (rmv Rl (proj tr (rvsub a b))))) l m).
  { induction l as [|c l IH]; intros m; [intros []|]. intros [->|I]; cbn [fold_left]; [|auto]. eapply Rle_trans; [|apply Mono]. apply Rmax_r. }
  assert (Mono2 : forall l m, m <= fold_left (fun m a => fold_left (fun m b => Rmax m (rlen2 (rmv Rl (proj tr (rvsub a b))))) x2 m) l m).
  { induction l as [|c l IH]; intros m; cbn [fold_left]; [lra|]. eapply Rle_trans; [|apply IH]. apply Mono. }
  intros Ia Ib. generalize 0. revert Ia. induction x1 as [|c l IH]; intros Ia m; [destruct Ia|]. destruct Ia as [->|Ia]; cbn [fold_left]; [|apply IH; auto].
  eapply Rle_trans; [|apply Mono2]. apply In1. auto.
Qed.
Lemma d12_pos Rl tr x1 x2 : 0 <= d12sqMax Rl tr x1 x2.
Proof.
  unfold d12sqMax. assert (G : forall l m, 0 <= m -> 0 <= fold_left (fun m a => fold_left (fun m b => Rmax m (rlen2 (rmv Rl (proj tr (rvsub a b))))) x2 m) l m).
  { assert (G1 : forall a l m, 0 <= m -> 0 <= fold_left (fun m b => Rmax m (rlen2 (rmv Rl (proj tr (rvsub a b))))) l m).
    { intros a. induction l as [|c l IH]; intros m P; cbn [fold_left]; [lra|]. apply IH. eapply Rle_trans; [exact P|apply Rmax_l]. }
    induction l as [|c l IH]; intros m P; cbn [fold_left]; [lra|]. apply IH, G1, P. }
  apply G. lra.
Qed.

Section Main.
  Variables (Rl : mat R) (super : mat Z) (tr : nat -> bool) (x1 x2 : list (vec R)) (rSmooth thr rc : R) (neigh : list (vec Z)).
  Let Rs := rmm Rl (mIZR super).
  Hypothesis DR : rdet Rl <> 0.
  Hypothesis DS : zdet super <> 0%Z.
  Hypothesis TO : truncation_orthogonal Rl tr.
  Hypothesis TD : truncation_diagonal super tr.
  Hypothesis CC : contains_cell Rs rc.
  Hypothesis SM : 0 < rSmooth.
  Notation box := (boxCells Rl tr x1 x2 rc).
  Notation wt := (weightOf Rl Rs tr x1 x2 rSmooth neigh).

  Lemma DRs : rdet Rs <> 0. Proof. apply sup_det; auto. Qed.
  Lemma box_iff c : In c box <-> forall k, (k < 3)%nat -> (- iCellMax Rl tr (Rmax_of Rl tr x1 x2 rc) k <= vget c k <= iCellMax Rl tr (Rmax_of Rl tr x1 x2 rc) k)%Z.
  Proof.
    unfold boxCells. set (m := iCellMax _ _ _). rewrite in_flat_map. split.
    { intros (a & Ia & I). apply in_flat_map in I. destruct I as (b & Ib & I). apply in_map_iff in I. destruct I as (d & <- & Id). apply in_zrange in Ia, Ib, Id.
      intros [|[|[|k]]] K; cbn [vget c0 c1 c2]; lia. }
    { intros H. exists (c0 c). assert (H0 := H 0%nat ltac:(lia)). assert (H1 := H 1%nat ltac:(lia)). assert (H2 := H 2%nat ltac:(lia)). destruct c as [a b d]. cbn [vget c0 c1 c2] in *.
      split; [apply in_zrange; lia|]. apply in_flat_map. exists b. split; [apply in_zrange; lia|]. apply in_map_iff. exists d. split; [auto|apply in_zrange; lia]. }
  Qed.
  Lemma box_planar c : In c box -> planar tr c.
  Proof. rewrite box_iff. intros H k K T. specialize (H k K). unfold iCellMax in H. rewrite T in H. lia. Qed.
  Lemma in_weight c i j y : proj tr (rvsub (rvadd (vIZR c) (nth j x2 (V 0 0 0))) (nth i x1 (V 0 0 0))) = rmv (mIZR super) y -> in_cell Rs y ->
    exists w, wt c i j = Some w /\ 1 / 2 <= w.
  Proof.
    intros E I. unfold weightOf. apply smooth_in. apply t_in; [auto|]. intros n In_. unfold rSupNeigh in In_. apply in_map_iff in In_. destruct In_ as (l & <- & _).
    unfold drOf. rewrite E. rewrite <- rmv_mm. fold Rs. rewrite <- rmv_sub. assert (Q := I l). unfold closer, cart2 in Q. lra.
  Qed.
  Lemma in_box c i j y : (i < length x1)%nat -> (j < length x2)%nat -> planar tr c ->
    proj tr (rvsub (rvadd (vIZR c) (nth j x2 (V 0 0 0))) (nth i x1 (V 0 0 0))) = rmv (mIZR super) y -> in_cell Rs y -> In c box.
  Proof.
    intros I J P E Y. rewrite box_iff. set (a := nth i x1 (V 0 0 0)) in *. set (b := nth j x2 (V 0 0 0)) in *.
    assert (D1 : cart2 Rl (proj tr (rvsub a b)) <= d12sqMax Rl tr x1 x2) by (apply d12_ge; apply nth_In; auto).
    set (d12 := d12sqMax Rl tr x1 x2) in *. assert (P12 : 0 <= d12) by apply d12_pos. destruct CC as [R0 C].
    assert (Q : vIZR c = rvadd (rmv (mIZR super) y) (proj tr (rvsub a b))).
    { rewrite <- E, <- proj_add. replace (rvadd (rvsub (rvadd (vIZR c) b) a) (rvsub a b)) with (vIZR c). { rewrite <- zproj_R, planar_zproj; auto. }
      generalize (vIZR c). intros [u v w]. clearbody a b. destruct a as [a0 a1 a2], b as [b0 b1 b2]. v3u. f_equal; ring. }
    assert (T : cart2 Rl (vIZR c) <= (rc + sqrt d12) * (rc + sqrt d12)).
    { rewrite Q. apply tri; [auto|apply sqrt_pos| |rewrite sqrt_sqrt; auto]. unfold cart2. rewrite <- rmv_mm. apply C. auto. }
    intros k K. unfold iCellMax. destruct (tr k) eqn:Tk. { rewrite (P k K Tk). lia. }
    unfold Rmax_of. fold d12. set (rm := rc + sqrt d12) in *. assert (0 <= rm) by (assert (X := sqrt_pos d12); unfold rm; lra).
    assert (B := coord_bound Rl c k DR K). assert (U := rceil_ge (rm * rlen (mrow (rinv Rl) k))). set (n := rceil _) in *.
    unfold rlen in U. set (q := rlen2 (mrow (rinv Rl) k)) in *. assert (Pq : 0 <= q). { unfold q. generalize (mrow (rinv Rl) k). intros [u v w]. v3u. nra. }
    assert (Sq := sqrt_sqrt q Pq). assert (Sp := sqrt_pos q). set (s := sqrt q) in *. clearbody s.
    assert (B2 : IZR (vget c k) * IZR (vget c k) <= (rm * s) * (rm * s)). { eapply Rle_trans; [exact B|]. rewrite <- Sq. replace ((rm*s)*(rm*s)) with ((s*s)*(rm*rm)) by ring. apply Rmult_le_compat_l; [nra|auto]. }
    assert (0 <= rm * s) by nra.
    assert (V1 : IZR (vget c k) <= rm * s) by (apply sq_le; auto). assert (V2 : - IZR (vget c k) <= rm * s) by (apply sq_le; [auto|nra]).
    assert (IZR (vget c k) <= IZR n) by lra. assert (- IZR n <= IZR (vget c k)) by lra. rewrite <- opp_IZR in *. apply le_IZR in H1. apply le_IZR in H2. lia.
  Qed.
  (** step 3: nearest image *)
  Lemma image c i j : (i < length x1)%nat -> (j < length x2)%nat -> planar tr c ->
    exists c' w, same_cell super c c' /\ planar tr c' /\ In c' box /\ wt c' i j = Some w /\ 1 / 2 <= w.
  Proof.
    intros I J P. set (z := proj tr (rvsub (rvadd (vIZR c) (nth j x2 (V 0 0 0))) (nth i x1 (V 0 0 0)))). set (u := rmv (rinv (mIZR super)) z).
    destruct (nearest_exact Rs u DRs) as (l & L).
    assert (Pu : proj tr u = u). { apply tdiag_inv; auto. unfold z. apply proj_idem. }
    set (l' := zproj tr l). set (c' := zvsub c (zmv super l')).
    assert (Pl : planar tr (zmv super l')). { unfold l'. rewrite tdiag_zmv by auto. apply zproj_planar. }
    assert (Pc : planar tr c'). { intros k K T. assert (A := P k K T). assert (B := Pl k K T). unfold c'. destruct k as [|[|[|k]]]; [| | |lia]; cbn in *; lia. }
    set (y := rvsub u (vIZR l')).
    assert (E : proj tr (rvsub (rvadd (vIZR c') (nth j x2 (V 0 0 0))) (nth i x1 (V 0 0 0))) = rmv (mIZR super) y).
    { unfold y. rewrite rmv_sub. unfold u. rewrite apply_inv by auto using mdet_nz. unfold z, c'. rewrite vIZR_sub, <- vIZR_mv.
      assert (X : vIZR (zmv super l') = proj tr (vIZR (zmv super l'))) by (rewrite <- zproj_R, planar_zproj; auto). rewrite X. rewrite <- X at 1. rewrite <- proj_sub. f_equal.
      generalize (vIZR c) (vIZR (zmv super l')) (nth j x2 (V 0 0 0)) (nth i x1 (V 0 0 0)). intros [a0 a1 a2] [b0 b1 b2] [d0 d1 d2] [e0 e1 e2]. v3u. f_equal; ring. }
    assert (Y : in_cell Rs y).
    { intros n. unfold closer. assert (cart2 Rs y <= cart2 Rs (rvsub u (vIZR l))).
      { unfold y, l'. rewrite zproj_R. rewrite <- Pu at 1. rewrite <- proj_sub. unfold cart2, Rs. rewrite !rmv_mm. rewrite tdiag_rmv by auto. apply cart_proj. auto. }
      assert (B := L (zvadd l' n)). rewrite vIZR_add in B. replace (rvsub u (rvadd (vIZR l') (vIZR n))) with (rvsub y (vIZR n)) in B. { lra. }
      unfold y. generalize (vIZR l') (vIZR n). intros [a0 a1 a2] [b0 b1 b2]. destruct u as [u0 u1 u2]. v3u. f_equal; ring. }
    destruct (in_weight c' i j y E Y) as (w & Ew & W). exists c', w. repeat split; auto.
    { apply same_sym. exists l'. unfold c'. generalize (zmv super l'). intros [b0 b1 b2]. destruct c as [a0 a1 a2]. unfold zvadd, zvsub, gvadd, gvsub. cbn [c0 c1 c2]. f_equal; lia. }
    { apply (in_box c' i j y); auto. }
  Qed.
End Main.
