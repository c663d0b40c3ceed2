(** Extraction and use of the supercell kernel. *)
From Coq Require Import ZArith Reals List Bool Lia Lra Psatz.
From Verif Require Import Base RealUtil Grid_Model Grid_Spec Grid_Proofs Vec3_Model Vec3_Facts Coulomb_Proofs Lattice_Model CellMap_Proofs2 ExKernel_Model ExKernel_Spec ExKernel_Proofs.
Import ListNotations.
Local Open Scope R_scope.

Lemma prod_half d (s : Z) : - (1/2) <= d <= 1/2 -> - (1/2) * IZR (Z.abs s) <= d * IZR s <= 1/2 * IZR (Z.abs s).
Proof. intros H. rewrite abs_IZR. destruct (Rle_dec 0 (IZR s)); [rewrite Rabs_right by lra|rewrite Rabs_left by lra]; nra. Qed.
Lemma prod_abs (x s p : Z) : (Z.abs x <= p -> - (Z.abs s * p) <= x * s <= Z.abs s * p)%Z.
Proof. intros H. destruct (Z.abs_spec s) as [[? ->]|[? ->]]; nia. Qed.
Lemma coord_bound (a b c x y z p q r n : Z) (d0 d1 d2 thr : R) : (Z.abs x <= p)%Z -> (Z.abs y <= q)%Z -> (Z.abs z <= r)%Z ->
  - (1/2) <= d0 <= 1/2 -> - (1/2) <= d1 <= 1/2 -> - (1/2) <= d2 <= 1/2 -> thr <= 1/2 -> (1 <= Z.abs a + Z.abs b + Z.abs c)%Z ->
  Rabs (IZR n - (d0 * IZR a + d1 * IZR b + d2 * IZR c)) < thr ->
  let m := (x * a + y * b + z * c + n)%Z in let s := (2 * (Z.abs a * (p + 1) + Z.abs b * (q + 1) + Z.abs c * (r + 1)))%Z in (- s < 2 * m < s)%Z.
Proof.
  intros X Y Z1 D0 D1 D2 T C N m s. assert (A := prod_half d0 a D0). assert (B := prod_half d1 b D1). assert (E := prod_half d2 c D2). apply Rabs_def2 in N.
  apply IZR_le in C. rewrite !plus_IZR in C.
  assert (Nb : IZR (- (Z.abs a + Z.abs b + Z.abs c)) < IZR n < IZR (Z.abs a + Z.abs b + Z.abs c)) by (rewrite opp_IZR, !plus_IZR; lra).
  destruct Nb as [N1 N2]. apply lt_IZR in N1. apply lt_IZR in N2. clear - X Y Z1 N1 N2.
  assert (P1 := prod_abs x a p X). assert (P2 := prod_abs y b q Y). assert (P3 := prod_abs z c r Z1).
  unfold m, s. rewrite !Z.mul_add_distr_l, !Z.mul_1_r. lia.
Qed.
Lemma half_abs S x : (0 < S -> - S < 2 * x <= S -> Z.abs x <= S / 2)%Z.
Proof. intros P H. assert (x <= S / 2)%Z by (apply Z.div_le_lower_bound; lia). assert (- x <= S / 2)%Z by (apply Z.div_le_lower_bound; lia). lia. Qed.

Lemma super_inside S super dk thr (g : V3) : pos3 S -> (forall k, (k < 3)%nat -> 1 <= colSum super k)%Z -> halfBox dk -> thr <= 1/2 -> G_point S g ->
  roundError (rvm dk (mIZR super)) < thr ->
  let n := ofVec (roundVec (rvm dk (mIZR super))) in let t := timesSuper g super in let m := (v0 t + v0 n, v1 t + v1 n, v2 t + v2 n)%Z in let Ss := Ssuper S super in
  (- v0 Ss < 2 * v0 m < v0 Ss)%Z /\ (- v1 Ss < 2 * v1 m < v1 Ss)%Z /\ (- v2 Ss < 2 * v2 m < v2 Ss)%Z /\ forall k, (k < 3)%nat -> Rabs (IZR (comp m k) - superCoord super g dk k) < thr.
Proof.
  intros Ps C D T G E n t m Ss. destruct (round_comp _ _ E) as (R0 & R1 & R2). assert (Q0 := C 0%nat ltac:(lia)). assert (Q1 := C 1%nat ltac:(lia)). assert (Q2 := C 2%nat ltac:(lia)). destruct D as (D0 & D1 & D2).
  assert (V0 := Ssuper_value S super 0 Ps ltac:(lia)). assert (V1 := Ssuper_value S super 1 Ps ltac:(lia)). assert (V2 := Ssuper_value S super 2 Ps ltac:(lia)).
  fold Ss in V0, V1, V2. destruct Ss as [[Sa Sb] Sc]. destruct S as [[Ga Gb] Gc]. destruct g as [[x y] z]. destruct Ps as (PA & PB & PC). destruct G as (GA & GB & GC).
  set (nv := roundVec (rvm dk (mIZR super))) in *. clearbody nv. destruct nv as [n0 n1 n2]. destruct super as [s00 s01 s02 s10 s11 s12 s20 s21 s22]. destruct dk as [d0 d1 d2].
  unfold colSum, mget, mrow, vget in *. cbn [row0 row1 row2 c0 c1 c2 m00 m01 m02 m10 m11 m12 m20 m21 m22 comp v0 v1 v2 fst snd] in *. subst Sa Sb Sc.
  assert (E0 : c0 (rvm (V d0 d1 d2) (mIZR (M s00 s01 s02 s10 s11 s12 s20 s21 s22))) = d0 * IZR s00 + d1 * IZR s10 + d2 * IZR s20) by reflexivity.
  assert (E1 : c1 (rvm (V d0 d1 d2) (mIZR (M s00 s01 s02 s10 s11 s12 s20 s21 s22))) = d0 * IZR s01 + d1 * IZR s11 + d2 * IZR s21) by reflexivity.
  assert (E2 : c2 (rvm (V d0 d1 d2) (mIZR (M s00 s01 s02 s10 s11 s12 s20 s21 s22))) = d0 * IZR s02 + d1 * IZR s12 + d2 * IZR s22) by reflexivity.
  rewrite E0 in R0. rewrite E1 in R1. rewrite E2 in R2.
  unfold m, t, n, timesSuper, ofVec. cbn [v0 v1 v2 fst snd c0 c1 c2 m00 m01 m02 m10 m11 m12 m20 m21 m22 comp].
  split; [|split; [|split]].
  - exact (coord_bound s00 s10 s20 x y z _ _ _ n0 d0 d1 d2 thr (half_abs Ga x PA GA) (half_abs Gb y PB GB) (half_abs Gc z PC GC) D0 D1 D2 T Q0 R0).
  - exact (coord_bound s01 s11 s21 x y z _ _ _ n1 d0 d1 d2 thr (half_abs Ga x PA GA) (half_abs Gb y PB GB) (half_abs Gc z PC GC) D0 D1 D2 T Q1 R1).
  - exact (coord_bound s02 s12 s22 x y z _ _ _ n2 d0 d1 d2 thr (half_abs Ga x PA GA) (half_abs Gb y PB GB) (half_abs Gc z PC GC) D0 D1 D2 T Q2 R2).
  - intros k K. unfold superCoord, mget, mrow, vget. destruct k as [|[|[|k]]]; [| | |lia]; cbn [row0 row1 row2 c0 c1 c2 m00 m01 m02 m10 m11 m12 m20 m21 m22 comp]; rewrite !plus_IZR, !mult_IZR.
    + replace (_ - _) with (IZR n0 - (d0 * IZR s00 + d1 * IZR s10 + d2 * IZR s20)) by ring. exact R0.
    + replace (_ - _) with (IZR n1 - (d0 * IZR s01 + d1 * IZR s11 + d2 * IZR s21)) by ring. exact R1.
    + replace (_ - _) with (IZR n2 - (d0 * IZR s02 + d1 * IZR s12 + d2 * IZR s22)) by ring. exact R2.
Qed.
Lemma Ssuper_pos S super : pos3 S -> (forall k, (k < 3)%nat -> 1 <= colSum super k)%Z -> pos3 (Ssuper S super).
Proof.
  intros Ps C. assert (H : forall k, (k < 3)%nat -> (0 < comp (Ssuper S super) k)%Z).
  { intros k K. rewrite Ssuper_value by assumption. specialize (C k K). unfold colSum in C. destruct S as [[a b] c]. destruct Ps as (A & B & D). cbn [comp].
    assert (0 <= a / 2)%Z by (apply Z.div_pos; lia). assert (0 <= b / 2)%Z by (apply Z.div_pos; lia). assert (0 <= c / 2)%Z by (apply Z.div_pos; lia). nia. }
  assert (H0 := H 0%nat ltac:(lia)). assert (H1 := H 1%nat ltac:(lia)). assert (H2 := H 2%nat ltac:(lia)). destruct (Ssuper S super) as [[a b] c]. cbn in *. auto.
Qed.
Lemma extract_correct {A} S super dk thr (g : V3) (dataSuper : Z -> A) K : pos3 S -> (forall k, (k < 3)%nat -> 1 <= colSum super k)%Z -> halfBox dk -> thr <= 1/2 -> G_point S g ->
  roundError (rvm dk (mIZR super)) < thr -> even K -> half_stores (Ssuper S super) dataSuper K ->
  exists m, extractExchangeKernel thr (Ssuper S super) super dk dataSuper g = Some (K m) /\ forall k, (k < 3)%nat -> Rabs (IZR (comp m k) - superCoord super g dk k) < thr.
Proof.
  intros Ps C D T G E Ev St. assert (I := super_inside S super dk thr g Ps C D T G E). cbv zeta in I. destruct I as (I0 & I1 & I2 & I3).
  eexists. split; [|exact I3]. unfold extractExchangeKernel. cbv zeta. destruct (Rlt_dec _ thr) as [_|N]; [|contradiction].
  set (m := (_, _, _)) in *. assert (PS := Ssuper_pos S super Ps C). destruct (reduced_inside (Ssuper S super) m PS I0 I1 I2) as (H & Ei & B).
  assert (P2 : (0 < v2 (Ssuper S super))%Z) by (destruct (Ssuper S super) as [[? ?] ?]; exact (proj2 (proj2 PS))).
  rewrite readAt_in by (rewrite nGsuper_nG by exact P2; exact B). rewrite Ei. f_equal. rewrite <- (even_flip K m Ev). apply St. exact H.
Qed.

(** the reduced differences *)
Lemma dkOf_box k0 k : halfBox (dkOf k0 k).
Proof.
  unfold halfBox, dkOf. cbn [vmap c0 c1 c2]. set (u := rvsub k k0). assert (H : forall x, - (1/2) <= x - IZR (rfloor (x + 1/2)) <= 1/2) by (intros x; assert (B := rfloor_bounds (x + 1/2)); lra).
  split; [apply H|split; apply H].
Qed.
Lemma rround_half x : Rabs (x - IZR (rround x)) <= 1/2.
Proof.
  unfold rround. destruct (Rle_dec 0 x).
  - assert (B := rfloor_bounds (x + 1/2)). apply Rabs_le. lra.
  - assert (B := rfloor_bounds (- x + 1/2)). rewrite opp_IZR. apply Rabs_le. lra.
Qed.
Lemma circ1_round a b : (a - b - IZR (rround (a - b))) * (a - b - IZR (rround (a - b))) <= circ1 a b.
Proof.
  set (n := rround (a - b)). assert (H := rround_half (a - b)). fold n in H. assert (H' : - (1/2) <= a - b - IZR n <= 1/2) by (revert H; unfold Rabs; destruct (Rcase_abs _); intros; lra).
  assert (Q := sin_sq_lower _ H'). rewrite circ1_sin. rewrite <- (sin_pi_int_sq (a - b - IZR n) n) in Q. replace (a - b - IZR n + IZR n) with (a - b) in Q by ring. exact Q.
Qed.
Lemma rlen2_V u v w : rlen2 (V u v w) = u * u + v * v + w * w.
Proof. unfold rlen2. v3u. cbn. ring. Qed.
Lemma circ_round a b thr : 0 < thr -> circDistanceSquared a b < thr * thr -> roundError (rvsub a b) < thr.
Proof.
  intros T H. unfold roundError. unfold rlen. rewrite <- (sqrt_square thr) by lra. apply sqrt_lt_1_alt. split; [destruct (rvadd _ _) as [u v w]; rewrite rlen2_V; nra|].
  apply Rle_lt_trans with (2 := H). unfold circDistanceSquared. assert (A := circ1_round (c0 a) (c0 b)). assert (B := circ1_round (c1 a) (c1 b)). assert (C := circ1_round (c2 a) (c2 b)).
  unfold roundVec. destruct a as [a0 a1 a2], b as [b0 b1 b2]. cbn [c0 c1 c2] in *.
  change (rvsub (V a0 a1 a2) (V b0 b1 b2)) with (V (a0 - b0) (a1 - b1) (a2 - b2)).
  set (r0 := rround (a0 - b0)) in *. set (r1 := rround (a1 - b1)) in *. set (r2 := rround (a2 - b2)) in *.
  match goal with |- rlen2 ?v <= _ => change v with (V (a0 - b0 + - IZR r0) (a1 - b1 + - IZR r1) (a2 - b2 + - IZR r2)) end.
  rewrite rlen2_V. lra.
Qed.
