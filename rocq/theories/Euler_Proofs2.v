(** Euler angles: accuracy near gimbal lock, inverse direction, polar axis and spinor rotations. *)
From Coq Require Import ZArith Reals Lra Lia.
From Coquelicot Require Import Complex.
From Verif Require Import Vec3_Model Vec3_Facts Euler_Model Euler_Spec Euler_Proofs.
Local Open Scope R_scope.

Lemma unit_quot a b r : 0 < r -> r * r = a * a + b * b -> -1 <= a / r <= 1.
Proof.
  intros P E. assert (a * a <= r * r) by nra. assert (A : - r <= a <= r) by (split; nra).
  split; [apply Rmult_le_reg_r with r; [exact P|]; unfold Rdiv; rewrite Rmult_assoc, Rinv_l by lra; lra
         |apply Rmult_le_reg_r with r; [exact P|]; unfold Rdiv; rewrite Rmult_assoc, Rinv_l by lra; lra].
Qed.

Lemma mulb a b d : -1 <= a <= 1 -> - d <= b <= d -> - d <= a * b <= d.
Proof. intros A B. split; nra. Qed.
Lemma sqb y d : 0 <= d -> y * y <= d * d -> - d <= y <= d.
Proof. intros. split; nra. Qed.
Lemma near1 x d : x <= 1 -> 0 < x -> 1 - x * x <= d -> - d <= x - 1 <= d.
Proof. intros. split; nra. Qed.
Lemma locked_error m : is_rotation m -> entries_within (1/2000) (matrixFromEuler (eulerFromMatrix m)) m.
Proof.
  intros H. destruct (Rle_lt_dec (Rabs (m22 m)) (1 - 1/10000000)) as [L|L].
  { rewrite roundtrip by auto. intros i j. rewrite Rminus_eq_0, Rabs_R0. lra. }
  destruct (locked_matrix m H L) as (r & [Rp R1] & Rsq & E). rewrite E. clear E.
  destruct (rot_facts m H) as [Rr2 Cc2 Rr1 A00 A01 A10 A11].
  assert (U1 := unit_quot (m11 m) (m10 m) r Rp ltac:(lra)). assert (U0 := unit_quot (m10 m) (m11 m) r Rp ltac:(lra)).
  destruct m as [x00 x01 x02 x10 x11 x12 x20 x21 x22]. cbn [m00 m01 m02 m10 m11 m12 m20 m21 m22] in *.
  assert (X2 : 1 - x22 * x22 <= 2/10000000).
  { replace (x22 * x22) with (Rabs x22 * Rabs x22) by (rewrite <- Rabs_mult; apply Rabs_right; nra). assert (0 <= Rabs x22) by apply Rabs_pos. nra. }
  assert (B : forall y, y * y <= 1 - x22 * x22 -> - (9/20000) <= y <= 9/20000) by (intros y Hy; apply sqb; lra).
  assert (B02 : - (9/20000) <= x02 <= 9/20000) by (apply B; assert (Q := Rle_0_sqr x12); unfold Rsqr in Q; lra).
  assert (B12 : - (9/20000) <= x12 <= 9/20000) by (apply B; assert (Q := Rle_0_sqr x02); unfold Rsqr in Q; lra).
  assert (B20 : - (9/20000) <= x20 <= 9/20000) by (apply B; assert (Q := Rle_0_sqr x21); unfold Rsqr in Q; lra).
  assert (B21 : - (9/20000) <= x21 <= 9/20000) by (apply B; assert (Q := Rle_0_sqr x20); unfold Rsqr in Q; lra).
  assert (Q12 := Rle_0_sqr x02). unfold Rsqr in Q12. assert (Dr : 0 <= 1 - r <= 2/10000000) by (assert (Hr2 := near1 r (2/10000000) R1 Rp ltac:(lra)); lra).
  set (p := x11 / r) in *. set (q := x10 / r) in *.
  assert (Ep : x11 = p * r) by (unfold p; field; lra). assert (Eq : x10 = q * r) by (unfold q; field; lra).
  assert (Bp : - (2/10000000) <= p - x11 <= 2/10000000) by (assert (W := mulb p (1 - r) (2/10000000) U1 ltac:(lra)); lra).
  assert (Bq : - (2/10000000) <= q - x10 <= 2/10000000) by (assert (W := mulb q (1 - r) (2/10000000) U0 ltac:(lra)); lra).
  assert (Bx11 : -1 <= x11 <= 1) by (apply sqb; [lra|]; assert (Q1 := Rle_0_sqr x10); assert (Q2 := Rle_0_sqr x12); unfold Rsqr in Q1, Q2; lra).
  assert (Bx10 : -1 <= x10 <= 1) by (apply sqb; [lra|]; assert (Q1 := Rle_0_sqr x11); assert (Q2 := Rle_0_sqr x12); unfold Rsqr in Q1, Q2; lra).
  assert (Bx22 : -1 <= x22 <= 1) by (apply sqb; [lra|]; assert (Q1 := Rle_0_sqr x02); assert (Q2 := Rle_0_sqr x12); unfold Rsqr in Q1, Q2; lra).
  assert (P1 : - (9/20000) <= x12 * x21 <= 9/20000) by (apply mulb; lra).
  assert (P2 : - (9/20000) <= x12 * x20 <= 9/20000) by (apply mulb; lra).
  destruct (Rlt_dec 0 x22) as [Pos|Neg].
  - assert (B22 := near1 x22 (2/10000000) ltac:(lra) Pos ltac:(lra)).
    assert (W00 := mulb x11 (x22 - 1) (2/10000000) ltac:(lra) ltac:(lra)). assert (E00 : - (1/2100) <= x00 - x11 <= 1/2100) by lra.
    assert (W01 := mulb x10 (x22 - 1) (2/10000000) ltac:(lra) ltac:(lra)). assert (E01 : - (1/2100) <= x01 + x10 <= 1/2100) by lra.
    assert (Em : - x10 / r = - q) by (unfold q; field; lra). rewrite Em.
    intros i j. destruct i as [|[|i]], j as [|[|j]]; cbn [mget mrow vget row0 row1 row2 c0 c1 c2 m00 m01 m02 m10 m11 m12 m20 m21 m22];
      unfold mget; cbn; apply Rabs_def1; lra.
  - assert (Ng : 0 < - x22) by (destruct (Req_dec x22 0) as [Z|Z]; [rewrite Z in X2; lra|lra]).
    assert (B22 := near1 (- x22) (2/10000000) ltac:(lra) Ng ltac:(lra)).
    assert (W00 := mulb x11 (- x22 - 1) (2/10000000) ltac:(lra) ltac:(lra)). assert (E00 : - (1/2100) <= x00 + x11 <= 1/2100) by lra.
    assert (W01 := mulb x10 (- x22 - 1) (2/10000000) ltac:(lra) ltac:(lra)). assert (E01 : - (1/2100) <= x01 - x10 <= 1/2100) by lra.
    intros i j. destruct i as [|[|i]], j as [|[|j]]; cbn [mget mrow vget row0 row1 row2 c0 c1 c2 m00 m01 m02 m10 m11 m12 m20 m21 m22];
      unfold mget; cbn; apply Rabs_def1; lra.
Qed.

(** a rotation by a small nonzero angle is not reproduced *)
Lemma roundtrip_fails : exists m, is_rotation m /\ matrixFromEuler (eulerFromMatrix m) <> m.
Proof.
  set (c := 1 - 1/100000000). set (s := sqrt (1 - c * c)).
  assert (S : s * s = 1 - c * c) by (apply sqrt_sqrt; unfold c; lra).
  exists (M c 0 (- s) 0 1 0 s 0 c). 
  assert (Rt : is_rotation (M c 0 (- s) 0 1 0 s 0 c)).
  { unfold is_rotation. split; v3l; [f_equal|]; lra. }
  split; [exact Rt|]. intros E.
  destruct (locked_matrix _ Rt) as (r & _ & _ & E2).
  { cbn. rewrite Rabs_right; unfold c; lra. }
  rewrite E in E2. cbn [m22] in E2. destruct (Rlt_dec 0 c); injection E2; intros; unfold c in *; lra.
Qed.

(** from angles to the matrix and back *)
Lemma angles_back a b g : - PI < a <= PI -> - PI < g <= PI -> 0 < b < PI -> Rabs (cos b) <= 1 - 1/10000000 ->
  eulerFromMatrix (matrixFromEuler (V a b g)) = V a b g.
Proof.
  intros A G B L. rewrite matrix_entries. cbn [c0 c1 c2]. unfold eulerFromMatrix, mE. cbn [m00 m01 m02 m10 m11 m12 m20 m21 m22].
  destruct (Rlt_dec (1 - 1/10000000) (Rabs (cos b))); [lra|].
  assert (S : 0 < sin b) by (apply sin_gt_0; lra).
  f_equal.
  - replace (- - (cos a * sin b)) with (sin b * cos a) by ring. rewrite (Rmult_comm (sin a)). apply atan2_polar; auto.
  - apply acos_cos. lra.
  - apply atan2_polar; auto.
Qed.
Lemma angles_range m : Rabs (m22 m) <= 1 ->
  - PI < c0 (eulerFromMatrix m) <= PI /\ 0 <= c1 (eulerFromMatrix m) <= PI /\ - PI < c2 (eulerFromMatrix m) <= PI.
Proof.
  intros L. assert (P := PI_RGT_0). unfold eulerFromMatrix. destruct (Rlt_dec _ _); cbn [c0 c1 c2].
  - split; [lra|]. split; [destruct (Rlt_dec _ _); lra|apply atan2_range].
  - split; [apply atan2_range|]. split; [apply acos_bound|apply atan2_range].
Qed.

(** polar axis *)
Lemma polar_unit a b : rlen (polarUnitVector a b) = 1.
Proof.
  unfold rlen, polarUnitVector. assert (A := trig1 a). assert (B := trig1 b).
  replace (rlen2 _) with 1; [apply sqrt_1|]. v3l. rewrite <- B at 1.
  replace (sin b * cos a * (sin b * cos a) + sin b * sin a * (sin b * sin a) + cos b * cos b)
    with (sin b * sin b * (cos a * cos a + sin a * sin a) + cos b * cos b) by ring. rewrite A. ring.
Qed.
Lemma axis_z_range n : 0 < rlen n -> -1 <= c2 n / rlen n <= 1.
Proof.
  intros P. assert (E : rlen n * rlen n = rlen2 n) by (apply sqrt_sqrt; apply rlen2_pos).
  destruct n as [x y z]. apply (unit_quot (c2 (V x y z)) (sqrt (x * x + y * y)) _ P).
  rewrite E. assert (0 <= x * x + y * y) by nra. rewrite (sqrt_sqrt _ H). v3l. ring.
Qed.
Lemma axis_roundtrip n u : 0 < rlen n ->
  let b := acos (c2 n / rlen n) in
  1/1000000 <= b * (PI - b) \/ (c0 n = 0 /\ c1 n = 0) ->
  rvscale (rlen n) (polarUnitVector (c0 (getEulerAxis n u)) (c1 (getEulerAxis n u))) = n.
Proof.
  intros P b H. assert (E : rlen n * rlen n = rlen2 n) by (apply sqrt_sqrt; apply rlen2_pos).
  assert (Z := axis_z_range n P).
  assert (Sb : sin b = sqrt (c0 n * c0 n + c1 n * c1 n) / rlen n).
  { unfold b. rewrite sin_acos by exact Z. unfold Rsqr.
    replace (1 - c2 n / rlen n * (c2 n / rlen n)) with ((c0 n * c0 n + c1 n * c1 n) / (rlen n * rlen n)).
    - rewrite sqrt_div_alt by nra. f_equal. apply sqrt_square. lra.
    - apply Rmult_eq_reg_r with (rlen n * rlen n); [|nra]. field_simplify; [|lra|lra].
      replace (rlen n ^ 2) with (rlen2 n) by (rewrite <- E; ring). destruct n; v3l. ring. }
  assert (Cb : cos b = c2 n / rlen n) by (unfold b; apply cos_acos; exact Z).
  unfold getEulerAxis. fold b. destruct (Rlt_dec (b * (PI - b)) (1/1000000)) as [L|L].
  - destruct H as [H|[H0 H1]]; [lra|]. cbn [c0 c1]. unfold polarUnitVector. rewrite Sb, Cb, H0, H1.
    replace (0 * 0 + 0 * 0) with 0 by ring. rewrite sqrt_0. destruct n as [x y z]. cbn [c0 c1 c2] in *. subst x y.
    set (l := rlen (V 0 0 z)) in *. v3l. f_equal; field; lra.
  - cbn [c0 c1]. unfold polarUnitVector. rewrite Sb, Cb.
    destruct (Req_dec (c0 n * c0 n + c1 n * c1 n) 0) as [Q|Q].
    + rewrite Q, sqrt_0. assert (c0 n = 0) by nra. assert (c1 n = 0) by nra.
      destruct n as [x y z]. cbn [c0 c1 c2] in *. subst x y. set (l := rlen (V 0 0 z)) in *. v3l. f_equal; field; lra.
    + destruct (atan2_spec (c1 n) (c0 n)) as [Ca Sa]. { intros [F G]. apply Q. rewrite F, G. ring. }
      assert (Hh : 0 < sqrt (c0 n * c0 n + c1 n * c1 n)) by (apply sqrt_lt_R0; nra).
      rewrite Ca, Sa. set (h := sqrt (c0 n * c0 n + c1 n * c1 n)) in *. set (l := rlen n) in *. clearbody h l.
      destruct n as [x y z]. v3l. f_equal; field; lra.
Qed.
Lemma axis_rows u : mrow (matrixFromEuler u) 2 = polarUnitVector (c2 u) (c1 u).
Proof. rewrite matrix_entries. reflexivity. Qed.
Lemma axis_cols u : rmv (matrixFromEuler u) (V 0 0 1) = polarUnitVector (PI - c0 u) (c1 u).
Proof.
  rewrite matrix_entries. unfold polarUnitVector. rewrite Rtrigo_facts.cos_pi_minus, Rtrigo_facts.sin_pi_minus.
  generalize (cos (c0 u)) (sin (c0 u)) (cos (c1 u)) (sin (c1 u)) (cos (c2 u)) (sin (c2 u)). intros. unfold mE. v3l. f_equal; ring.
Qed.

(** ** spinors *)
Ltac peq := repeat match goal with |- (_, _) = (_, _) => apply (f_equal2 pair) end.
Ltac cc2 := unfold mm2, dagger2, id2, det2, pauli, spinZ, spinY, cis, Cminus, Cmult, Cplus, Copp, Cconj, RtoC; cbn [fst snd Re Im].
Lemma half_trig x : cos x = cos (1/2 * x) * cos (1/2 * x) - sin (1/2 * x) * sin (1/2 * x) /\ sin x = 2 * sin (1/2 * x) * cos (1/2 * x).
Proof.
  assert (E : x = 2 * (1/2 * x)) by field. split.
  - rewrite E at 1. rewrite cos_2a. reflexivity.
  - rewrite E at 1. rewrite sin_2a. reflexivity.
Qed.
Lemma mm2_assoc a b c : mm2 (mm2 a b) c = mm2 a (mm2 b c).
Proof.
  destruct a as [[[[? ?] [? ?]] [? ?]] [? ?]], b as [[[[? ?] [? ?]] [? ?]] [? ?]], c as [[[[? ?] [? ?]] [? ?]] [? ?]]. cc2.
  peq; ring.
Qed.
Lemma dagger_mm a b : dagger2 (mm2 a b) = mm2 (dagger2 b) (dagger2 a).
Proof.
  destruct a as [[[[? ?] [? ?]] [? ?]] [? ?]], b as [[[[? ?] [? ?]] [? ?]] [? ?]]. cc2. peq; ring.
Qed.
Lemma mm2_id a : mm2 a id2 = a /\ mm2 id2 a = a.
Proof. destruct a as [[[[? ?] [? ?]] [? ?]] [? ?]]. split; cc2; peq; ring. Qed.
Lemma det_mm2 a b : det2 (mm2 a b) = (det2 a * det2 b)%C.
Proof. destruct a as [[[[? ?] [? ?]] [? ?]] [? ?]], b as [[[[? ?] [? ?]] [? ?]] [? ?]]. cc2. peq; ring. Qed.
Lemma SU2_mm a b : is_SU2 a -> is_SU2 b -> is_SU2 (mm2 a b).
Proof.
  intros [A A'] [B B']. split.
  - rewrite dagger_mm, mm2_assoc, <- (mm2_assoc b), B, (proj2 (mm2_id _)). exact A.
  - rewrite det_mm2, A', B'. cc2. peq; ring.
Qed.
Lemma spinZ_SU2 x : is_SU2 (spinZ x).
Proof. assert (T := trig1 (1/2 * x)). split; cc2; peq; lra. Qed.
Lemma spinY_SU2 x : is_SU2 (spinY x).
Proof. assert (T := trig1 (1/2 * x)). split; cc2; peq; lra. Qed.
Lemma spinZ_rot x v : mm2 (mm2 (spinZ x) (pauli v)) (dagger2 (spinZ x)) = pauli (rmv (rotation x 2) v).
Proof.
  destruct (half_trig x) as [C S]. assert (T := trig1 (1/2 * x)). unfold rotation. rewrite C, S. clear C S.
  destruct v as [a b d]. v3l. cc2. revert T. generalize (cos (1/2 * x)) (sin (1/2 * x)). intros c s T.
  assert (T' : c * c = 1 - s * s) by lra. cbn. peq; ring [T'].
Qed.
Lemma spinY_rot x v : mm2 (mm2 (spinY x) (pauli v)) (dagger2 (spinY x)) = pauli (rmv (rotation x 1) v).
Proof.
  destruct (half_trig x) as [C S]. assert (T := trig1 (1/2 * x)). unfold rotation. rewrite C, S. clear C S.
  destruct v as [a b d]. v3l. cc2. revert T. generalize (cos (1/2 * x)) (sin (1/2 * x)). intros c s T.
  assert (T' : c * c = 1 - s * s) by lra. cbn. peq; ring [T'].
Qed.
Lemma conj_mm a b p : mm2 (mm2 (mm2 a b) p) (dagger2 (mm2 a b)) = mm2 (mm2 a (mm2 (mm2 b p) (dagger2 b))) (dagger2 a).
Proof. rewrite dagger_mm, !mm2_assoc. reflexivity. Qed.
Definition spinU (u : vec R) : mat2 := mm2 (mm2 (spinZ (c0 u)) (spinY (c1 u))) (spinZ (c2 u)).
Lemma spinU_SU2 u : is_SU2 (spinU u).
Proof. unfold spinU. repeat apply SU2_mm; auto using spinZ_SU2, spinY_SU2. Qed.
Lemma spinU_cover u v : mm2 (mm2 (spinU u) (pauli v)) (dagger2 (spinU u)) = pauli (rmv (matrixFromEuler u) v).
Proof.
  unfold spinU, matrixFromEuler. rewrite !conj_mm, spinZ_rot, spinY_rot, spinZ_rot. rewrite !rmv_mm. reflexivity.
Qed.
Lemma rmscale_1 m : rmscale (1/1) m = m. Proof. destruct m. v3l. f_equal; field. Qed.
Lemma orth_det m : is_orthogonal m -> rdet m = 1 \/ rdet m = -1.
Proof.
  intros O. assert (E : rdet m * rdet m = 1).
  { transitivity (rdet (rmm m (mtrans m))). rewrite rdet_mm. f_equal. destruct m; v3l; ring. rewrite O. v3l. ring. }
  assert ((rdet m - 1) * (rdet m + 1) = 0) by lra. apply Rmult_integral in H. destruct H; [left|right]; lra.
Qed.
Lemma proper_part m : is_orthogonal m -> is_rotation (rmscale (1 / rdet m) m).
Proof.
  intros O. destruct (orth_det m O) as [D|D].
  - rewrite D, rmscale_1. split; assumption.
  - rewrite D. unfold is_orthogonal in O. replace (1 / -1) with (-1) by field. split.
    + rewrite <- O. clear. destruct m. v3l. f_equal; ring.
    + replace (rdet (rmscale (-1) m)) with (- rdet m) by (destruct m; v3l; ring). lra.
Qed.
Lemma spinor_SU2 m : is_SU2 (spinorRotation m).
Proof. apply spinU_SU2. Qed.
Lemma spinor_cover m v : is_orthogonal m -> Rabs (m22 m) <= 1 - 1/10000000 \/ Rabs (m22 m) = 1 ->
  mm2 (mm2 (spinorRotation m) (pauli v)) (dagger2 (spinorRotation m)) = pauli (rvscale (rdet m) (rmv m v)).
Proof.
  intros O H. unfold spinorRotation. fold (spinU (eulerFromMatrix (rmscale (1 / rdet m) m))). rewrite spinU_cover.
  rewrite roundtrip.
  - f_equal. destruct (orth_det m O) as [D|D]; rewrite D; destruct m, v; v3l; f_equal; field.
  - apply proper_part. exact O.
  - replace (Rabs (m22 (rmscale (1 / rdet m) m))) with (Rabs (m22 m)); [exact H|].
    destruct (orth_det m O) as [D|D]; rewrite D; destruct m; v3l; rewrite Rabs_mult; [replace (1/1) with 1 by field|replace (1 / -1) with (-(1)) by field; rewrite Rabs_Ropp]; rewrite Rabs_R1; ring.
Qed.
