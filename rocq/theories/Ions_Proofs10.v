(** The test of the symmetry of constraints in the limit of small thresholds. *)
From Coq Require Import String ZArith Reals Bool List Lia Lra Psatz.
From Verif Require Import Base SMap Vec3_Model Vec3_Facts Lattice_Model Coulomb_Proofs Sym_Model Sym_Spec Ions_Model Ions_Spec Ions_Proofs Basis_Proofs.
Import ListNotations.
Local Open Scope R_scope.

Lemma rltb_t x y : Rltb x y = true <-> x < y.
Proof. unfold Rltb. destruct (Rlt_dec x y); split; intros; congruence || lra. Qed.
Lemma ctyp_eqb_t a b : ctyp_eqb a b = true <-> a = b.
Proof. destruct a, b; cbn; split; congruence. Qed.
Lemma len_zero v : rlength v = 0 <-> v = V 0 0 0.
Proof.
  unfold rlength. split.
  - intros H. apply sqrt_eq_0 in H; [|apply rlen2_pos]. destruct v as [a b c]. revert H; v3u; intros H. assert (a * a = 0) by nra. assert (b * b = 0) by nra. assert (c * c = 0) by nra. f_equal; nra.
  - intros ->. replace (rlen2 (V 0 0 0)) with 0 by (v3u; ring). apply sqrt_0.
Qed.
Lemma len_sq v : rlength v * rlength v = rlen2 v.
Proof. unfold rlength. apply sqrt_sqrt, rlen2_pos. Qed.
Lemma orth_len T v : orthogonal T -> rlength (rmv T v) = rlength v.
Proof.
  intros O. unfold rlength. f_equal. assert (E : rlen2 (rmv T v) = rdot v (rmv (rmm (mtrans T) T) v)) by (destruct T, v; v3u; ring). rewrite E, O. destruct v. v3u. ring.
Qed.
Lemma parallel_limit x y : 0 < rlength x -> 0 < rlength y -> Rabs (rdot x y / (rlength x * rlength y)) = 1 <-> exists k, x = rvscale k y.
Proof.
  intros X Y. assert (P : 0 < rlength x * rlength y) by nra. assert (S1 := len_sq x). assert (S2 := len_sq y). split.
  - intros H. assert (E : rdot x y * rdot x y = rlen2 x * rlen2 y).
    { rewrite <- S1, <- S2. assert (Q : rdot x y / (rlength x * rlength y) * (rdot x y / (rlength x * rlength y)) = 1) by (destruct (Rcase_abs (rdot x y / (rlength x * rlength y))) as [N|N]; [rewrite (Rabs_left _ N) in H|rewrite (Rabs_right _ N) in H]; nra).
      replace (rdot x y * rdot x y) with (rdot x y / (rlength x * rlength y) * (rdot x y / (rlength x * rlength y)) * (rlength x * rlength y) * (rlength x * rlength y)) by (field; split; lra). rewrite Q. ring. }
    assert (Y2 : 0 < rlen2 y) by nra. exists (rdot x y / rlen2 y). set (k := rdot x y / rlen2 y).
    assert (Z : rlen2 (rvsub x (rvscale k y)) = 0).
    { replace (rlen2 (rvsub x (rvscale k y))) with (rlen2 x - 2 * k * rdot x y + k * k * rlen2 y) by (destruct x, y; v3u; ring). replace (rlen2 x) with (rdot x y * rdot x y / rlen2 y) by (rewrite E; field; lra). unfold k. field. lra. }
    assert (W : rvsub x (rvscale k y) = V 0 0 0) by (apply len_zero; unfold rlength; rewrite Z; apply sqrt_0). destruct x as [a b c], y as [p q r]. revert W; v3u; intros W. injection W as W0 W1 W2. v3u. f_equal; lra.
  - intros (k & E). assert (Lx : rlength x = Rabs k * rlength y).
    { unfold rlength. rewrite E. replace (rlen2 (rvscale k y)) with (k * k * rlen2 y) by (destruct y; v3u; ring). rewrite sqrt_mult_alt by nra. f_equal. apply sqrt_Rsqr_abs. }
    assert (D : rdot x y = k * (rlength y * rlength y)) by (rewrite S2, E; destruct y; v3u; ring).
    rewrite Lx, D. assert (K : Rabs k <> 0) by (intros Z; rewrite Z in Lx; lra). replace (k * (rlength y * rlength y) / (Rabs k * rlength y * rlength y)) with (k / Rabs k) by (field; lra).
    unfold Rdiv. rewrite Rabs_mult, Rabs_inv, Rabs_Rabsolu. field. exact K.
Qed.
Lemma equivalent_sharp c c' T : orthogonal T ->
  (exists t0, 0 < t0 /\ forall thr, 0 < thr < t0 -> isEquivalent thr c c' T = true) <->
  moveScale c = moveScale c' /\ ctyp c = ctyp c' /\
  (ctyp c = CNone \/ cdir c = V 0 0 0 /\ cdir c' = V 0 0 0 \/ cdir c <> V 0 0 0 /\ cdir c' <> V 0 0 0 /\ exists k, rmv T (cdir c) = rvscale k (cdir c')).
Proof.
  intros O. assert (Pos : forall v, 0 <= rlength v) by (intros; apply sqrt_pos). assert (NZ : forall v, v <> V 0 0 0 -> 0 < rlength v) by (intros v H; destruct (Rle_lt_or_eq_dec _ _ (Pos v)) as [L|L]; [exact L|exfalso; apply H, len_zero; lra]).
  split.
  - intros (t0 & T0 & H). assert (Q := H (t0 / 2) ltac:(lra)). unfold isEquivalent in Q. destruct (isZero (moveScale c - moveScale c')) eqn:M; [|discriminate]. cbn [negb] in Q. destruct (ctyp_eqb (ctyp c) (ctyp c')) eqn:C; [|discriminate]. clear Q.
    apply isZero_t in M. apply ctyp_eqb_t in C. split; [lra|]. split; [exact C|].
    assert (H' : forall thr, 0 < thr < t0 -> ctyp c = CNone \/ (rlength (cdir c) < thr * thr /\ rlength (cdir c') < thr * thr) \/ (thr * thr < rlength (cdir c) /\ thr * thr < rlength (cdir c') /\ Rabs (1 - Rabs (rdot (rmv T (cdir c)) (cdir c') / (rlength (rmv T (cdir c)) * rlength (cdir c')))) < thr)).
    { intros thr B. specialize (H thr B). unfold isEquivalent in H. replace (isZero (moveScale c - moveScale c')) with true in H by (symmetry; apply isZero_t; exact M). replace (ctyp_eqb (ctyp c) (ctyp c')) with true in H by (symmetry; apply ctyp_eqb_t; exact C). cbn [negb] in H.
      apply orb_true_iff in H. destruct H as [H|H]; [apply orb_true_iff in H; destruct H as [H|H]|].
      - left. apply ctyp_eqb_t. exact H.
      - right. left. unfold areBothZero in H. apply andb_true_iff in H. rewrite !rltb_t in H. exact H.
      - right. right. apply andb_true_iff in H. destruct H as [H1 H2]. unfold areBothNonZero in H1. apply andb_true_iff in H1. rewrite !rltb_t in H1. unfold isParallel in H2. rewrite rltb_t in H2. tauto. }
    clear H. set (a := rlength (cdir c)) in *. set (b := rlength (cdir c')) in *. assert (Pa : 0 <= a) by apply Pos. assert (Pb : 0 <= b) by apply Pos.
    assert (Small : forall m, 0 < m -> exists thr, 0 < thr < t0 /\ thr * thr < m /\ thr < m).
    { intros m Mp. exists (Rmin (t0 / 2) (Rmin (m / 2) 1 / 2)). set (r := Rmin (m / 2) 1 / 2). assert (R1 : Rmin (m/2) 1 <= m / 2) by apply Rmin_l. assert (R2 : Rmin (m/2) 1 <= 1) by apply Rmin_r. assert (R3 : 0 < Rmin (m/2) 1) by (apply Rmin_glb_lt; lra).
      assert (Q1 : Rmin (t0/2) r <= t0 / 2) by apply Rmin_l. assert (Q2 : Rmin (t0/2) r <= r) by apply Rmin_r. assert (Q3 : 0 < Rmin (t0/2) r) by (apply Rmin_glb_lt; [lra|unfold r; lra]). set (u := Rmin (t0 / 2) r) in *. unfold r in Q2. assert (u * u <= u) by nra. assert (u <= m / 4) by lra. assert (u < t0) by lra. split; [lra|]. lra. }
    assert (Dec : ctyp c = CNone \/ ctyp c <> CNone) by (destruct (ctyp c); [left; reflexivity|right; discriminate..]). destruct Dec as [N|N]; [left; exact N|right].
    destruct (Req_EM_T a 0) as [Za|Za], (Req_EM_T b 0) as [Zb|Zb].
    + left. split; apply len_zero; assumption.
    + exfalso. destruct (Small b) as (thr & B & B1 & _); [lra|]. destruct (H' thr B) as [X|[X|X]]; [tauto|lra|nra].
    + exfalso. destruct (Small a) as (thr & B & B1 & _); [lra|]. destruct (H' thr B) as [X|[X|X]]; [tauto|lra|nra].
    + right. split; [intros X; apply len_zero in X; tauto|]. split; [intros X; apply len_zero in X; tauto|]. apply parallel_limit; [rewrite orth_len by exact O; fold a; lra|fold b; lra|].
      set (q := Rabs (rdot (rmv T (cdir c)) (cdir c') / (rlength (rmv T (cdir c)) * b))) in *. change (q = 1). destruct (Req_EM_T q 1) as [|Q]; [assumption|exfalso]. assert (Qp : 0 < Rabs (1 - q)) by (apply Rabs_pos_lt; lra).
      destruct (Small (Rmin a (Rabs (1 - q)))) as (thr & B & B1 & B2); [apply Rmin_glb_lt; lra|]. assert (R1 := Rmin_l a (Rabs (1 - q))). assert (R2 := Rmin_r a (Rabs (1 - q))). destruct (H' thr B) as [X|[X|X]]; [tauto|lra|lra].
  - intros (M & C & H). assert (M' : isZero (moveScale c - moveScale c') = true) by (apply isZero_t; lra). assert (C' : ctyp_eqb (ctyp c) (ctyp c') = true) by (apply ctyp_eqb_t; exact C).
    destruct H as [H|[[H1 H2]|(H1 & H2 & H3)]].
    + exists 1. split; [lra|]. intros thr _. unfold isEquivalent. rewrite M', C'. cbn [negb]. replace (ctyp_eqb (ctyp c) CNone) with true by (symmetry; apply ctyp_eqb_t; exact H). reflexivity.
    + exists 1. split; [lra|]. intros thr B. unfold isEquivalent. rewrite M', C'. cbn [negb]. assert (Z : areBothZero (thr * thr) (cdir c) (cdir c') = true).
      { unfold areBothZero. apply andb_true_iff. rewrite !rltb_t. rewrite H1, H2. assert (L : rlength (V 0 0 0) = 0) by (apply len_zero; reflexivity). rewrite L. nra. }
      rewrite Z, orb_true_r. reflexivity.
    + apply NZ in H1. apply NZ in H2. set (m := Rmin 1 (Rmin (rlength (cdir c)) (rlength (cdir c')))). assert (R1 : m <= 1) by apply Rmin_l. assert (R2 : m <= Rmin (rlength (cdir c)) (rlength (cdir c'))) by apply Rmin_r. assert (R3 := Rmin_l (rlength (cdir c)) (rlength (cdir c'))). assert (R4 := Rmin_r (rlength (cdir c)) (rlength (cdir c'))).
      assert (Mp : 0 < m) by (apply Rmin_glb_lt; [lra|apply Rmin_glb_lt; assumption]). exists m. split; [exact Mp|]. intros thr B. unfold isEquivalent. rewrite M', C'. cbn [negb]. apply orb_true_iff. right. apply andb_true_iff. split.
      * unfold areBothNonZero. apply andb_true_iff. rewrite !rltb_t. nra.
      * unfold isParallel. apply rltb_t. apply parallel_limit in H3; [|rewrite orth_len by exact O; exact H1|exact H2]. rewrite H3. replace (1 - 1) with 0 by ring. rewrite Rabs_R0. lra.
Qed.
Lemma equivalent_example : orthogonal (M 0 1 0 1 0 0 0 0 1) /\ rmv (M 0 1 0 1 0 0 0 0 1) (V 1 2 0) = rvscale (-1) (V (-2) (-1) 0) /\ V 1 2 0 <> V 0 0 0.
Proof. split; [unfold orthogonal, rid; v3u; f_equal; ring|]. split; [v3u; f_equal; ring|]. intros H. injection H. intros. lra. Qed.
