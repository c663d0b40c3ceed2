(** C52: Euler angles.  C68: spinor rotations. *)
From Coq Require Import ZArith Reals Lra Lia.
From Coquelicot Require Import Complex.
From Verif Require Import Vec3_Model Vec3_Facts Euler_Model Euler_Spec Euler_Proofs Euler_Proofs2 Euler_Proofs3.
Local Open Scope R_scope.

Theorem C52_proper : forall u, is_rotation (matrixFromEuler u).
Proof. exact euler_proper. Qed.
Print Assumptions C52_proper.
Theorem C52_roundtrip : forall m, is_rotation m -> away m -> matrixFromEuler (eulerFromMatrix m) = m.
Proof. exact roundtrip. Qed.
Print Assumptions C52_roundtrip.
Theorem C52_near_lock_refuted : exists m, is_rotation m /\ matrixFromEuler (eulerFromMatrix m) <> m.
Proof. exact roundtrip_fails. Qed.
Print Assumptions C52_near_lock_refuted.
Theorem C52_near_lock_error : forall m, is_rotation m -> entries_within (1/2000) (matrixFromEuler (eulerFromMatrix m)) m.
Proof. exact locked_error. Qed.
Print Assumptions C52_near_lock_error.
Theorem C52_angles : forall a b g, - PI < a <= PI -> - PI < g <= PI -> 0 < b < PI -> Rabs (cos b) <= 1 - 1/10000000 ->
  eulerFromMatrix (matrixFromEuler (V a b g)) = V a b g.
Proof. exact angles_back. Qed.
Print Assumptions C52_angles.
Theorem C52_range : forall m, Rabs (m22 m) <= 1 ->
  - PI < c0 (eulerFromMatrix m) <= PI /\ 0 <= c1 (eulerFromMatrix m) <= PI /\ - PI < c2 (eulerFromMatrix m) <= PI.
Proof. exact angles_range. Qed.
Print Assumptions C52_range.
Theorem C52_polar : forall a b, rlen (polarUnitVector a b) = 1.
Proof. exact polar_unit. Qed.
Print Assumptions C52_polar.
Theorem C52_axis : forall n u, 0 < rlen n ->
  let b := acos (c2 n / rlen n) in
  1/1000000 <= b * (PI - b) \/ (c0 n = 0 /\ c1 n = 0) ->
  rvscale (rlen n) (polarUnitVector (c0 (getEulerAxis n u)) (c1 (getEulerAxis n u))) = n.
Proof. exact axis_roundtrip. Qed.
Print Assumptions C52_axis.
Theorem C52_axis_row : forall u, mrow (matrixFromEuler u) 2 = polarUnitVector (c2 u) (c1 u).
Proof. exact axis_rows. Qed.
Print Assumptions C52_axis_row.
Theorem C52_axis_image : forall u, rmv (matrixFromEuler u) (V 0 0 1) = polarUnitVector (PI - c0 u) (c1 u).
Proof. exact axis_cols. Qed.
Print Assumptions C52_axis_image.
Theorem C52_axis_comment_refuted : exists u, rmv (matrixFromEuler u) (V 0 0 1) <> polarUnitVector (c0 u) (c1 u).
Proof. exact axis_comment_fails. Qed.
Print Assumptions C52_axis_comment_refuted.

Theorem C68_unitary : forall m, is_SU2 (spinorRotation m).
Proof. exact spinor_SU2. Qed.
Print Assumptions C68_unitary.
Theorem C68_cover : forall m v, is_orthogonal m -> away m ->
  mm2 (mm2 (spinorRotation m) (pauli v)) (dagger2 (spinorRotation m)) = pauli (rvscale (rdet m) (rmv m v)).
Proof. exact spinor_cover. Qed.
Print Assumptions C68_cover.
Theorem C68_product : forall a b, is_orthogonal a -> is_orthogonal b -> away a -> away b -> away (rmm a b) ->
  spinorRotation (rmm a b) = mm2 (spinorRotation a) (spinorRotation b) \/
  spinorRotation (rmm a b) = neg2 (mm2 (spinorRotation a) (spinorRotation b)).
Proof. exact spinor_mul. Qed.
Print Assumptions C68_product.
Theorem C68_inversion : forall m, is_orthogonal m -> spinorRotation (rmscale (-1) m) = spinorRotation m.
Proof. exact spinor_inversion. Qed.
Print Assumptions C68_inversion.

(** three-fold rotation about (1,1,1): its Euler angles reproduce it *)
Definition cyc : mat R := M 0 1 0 0 0 1 1 0 0.
Lemma cyc_ok : is_rotation cyc /\ away cyc.
Proof.
  split; [unfold is_rotation, cyc; split; v3l; [f_equal|]; ring|].
  left. cbn. rewrite Rabs_R0. lra.
Qed.
Example ex52_cyc : matrixFromEuler (eulerFromMatrix cyc) = cyc.
Proof. apply C52_roundtrip; apply cyc_ok. Qed.
Example ex52_locked : away (M 1 0 0 0 (-1) 0 0 0 (-1)) /\ is_rotation (M 1 0 0 0 (-1) 0 0 0 (-1)).
Proof.
  split; [right; cbn; rewrite Rabs_left; lra|]. unfold is_rotation. split; v3l; [f_equal|]; ring.
Qed.
Example ex52_angles : eulerFromMatrix (matrixFromEuler (V (-1) (PI/2) 2)) = V (-1) (PI/2) 2.
Proof.
  assert (P := PI2_3_2). assert (Q := PI_RGT_0). apply C52_angles; try lra. rewrite cos_PI2, Rabs_R0. lra.
Qed.
Example ex52_axis : rvscale (rlen (V 0 0 3)) (polarUnitVector (c0 (getEulerAxis (V 0 0 3) (V 1 1 1))) (c1 (getEulerAxis (V 0 0 3) (V 1 1 1)))) = V 0 0 3.
Proof.
  apply C52_axis; [|right; split; reflexivity]. apply sqrt_lt_R0. v3l. lra.
Qed.
(** a three-fold axis: the cube of the spinor rotation is 1 or -1 *)
Example ex68_square : spinorRotation (rmm cyc cyc) = mm2 (spinorRotation cyc) (spinorRotation cyc) \/
  spinorRotation (rmm cyc cyc) = neg2 (mm2 (spinorRotation cyc) (spinorRotation cyc)).
Proof.
  apply C68_product; try apply cyc_ok. left. replace (m22 (rmm cyc cyc)) with 0 by (unfold cyc; v3l; ring). rewrite Rabs_R0. lra.
Qed.
Example ex68_mirror : mm2 (mm2 (spinorRotation (M 1 0 0 0 1 0 0 0 (-1))) (pauli (V 0 0 1))) (dagger2 (spinorRotation (M 1 0 0 0 1 0 0 0 (-1)))) = pauli (V 0 0 1).
Proof.
  rewrite C68_cover.
  - f_equal. v3l. f_equal; ring.
  - unfold is_orthogonal. v3l. f_equal; ring.
  - right. cbn. rewrite Rabs_left; lra.
Qed.
