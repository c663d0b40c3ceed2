(** The spinor rotations form a projective representation. *)
From Coq Require Import ZArith Reals Lra Lia.
From Coquelicot Require Import Complex.
From Verif Require Import Vec3_Model Vec3_Facts Euler_Model Euler_Spec Euler_Proofs Euler_Proofs2.
Local Open Scope R_scope.

Definition adj2 (a : mat2) : mat2 := let '(a00, a01, a10, a11) := a in (a11, Copp a01, Copp a10, a00).
Lemma adj2_l a : det2 a = RtoC 1 -> mm2 (adj2 a) a = id2.
Proof.
  intros D. transitivity (det2 a, RtoC 0, RtoC 0, det2 a); [|rewrite D; reflexivity].
  destruct a as [[[[p p'] [q q']] [r r']] [s s']]. unfold adj2. cc2. peq; ring.
Qed.
Lemma SU2_left a : is_SU2 a -> mm2 (dagger2 a) a = id2.
Proof.
  intros [U D]. assert (L := adj2_l a D).
  assert (E : dagger2 a = adj2 a).
  { rewrite <- (proj2 (mm2_id (dagger2 a))), <- L, mm2_assoc, U. apply mm2_id. }
  rewrite E. exact L.
Qed.
Lemma dagger_dagger a : dagger2 (dagger2 a) = a.
Proof. destruct a as [[[[p p'] [q q']] [r r']] [s s']]. cc2. peq; ring. Qed.
Lemma dagger_det a : det2 (dagger2 a) = Cconj (det2 a).
Proof. destruct a as [[[[p p'] [q q']] [r r']] [s s']]. cc2. peq; ring. Qed.
Lemma SU2_dagger a : is_SU2 a -> is_SU2 (dagger2 a).
Proof.
  intros U. split.
  - rewrite dagger_dagger. apply SU2_left. exact U.
  - rewrite dagger_det, (proj2 U). cc2. peq; ring.
Qed.
(** an element of SU(2) that commutes with all Pauli matrices is 1 or -1 *)
Lemma schur w : is_SU2 w -> (forall v, mm2 (mm2 w (pauli v)) (dagger2 w) = pauli v) -> w = id2 \/ w = neg2 id2.
Proof.
  intros U H.
  assert (K : forall v, mm2 w (pauli v) = mm2 (pauli v) w).
  { intros v. rewrite <- (H v) at 2. rewrite mm2_assoc, (SU2_left w U). symmetry. apply mm2_id. }
  assert (Kz := K (V 0 0 1)). assert (Kx := K (V 1 0 0)). destruct U as [_ D].
  destruct w as [[[[p p'] [q q']] [r r']] [s s']]. revert Kz Kx D. unfold pauli. cbn [c0 c1 c2]. cc2. intros Kz Kx D.
  injection Kz as _ _ Z1 Z2 Z3 Z4 _ _ || injection Kz as Z1 Z2 Z3 Z4 Z5 Z6 Z7 Z8.
  injection Kx as X1 X2 X3 X4 X5 X6 X7 X8. injection D as D1 D2.
  assert (q = 0) by lra. assert (q' = 0) by lra. assert (r = 0) by lra. assert (r' = 0) by lra.
  assert (s = p) by lra. assert (s' = p') by lra. subst.
  assert (E : p * p' = 0) by lra. apply Rmult_integral in E. destruct E as [E|E]; subst.
  - exfalso. assert (Q := Rle_0_sqr p'). unfold Rsqr in Q. lra.
  - assert (F : (p - 1) * (p + 1) = 0) by lra. apply Rmult_integral in F. destruct F as [F|F].
    + left. assert (p = 1) by lra. subst. reflexivity.
    + right. assert (p = -1) by lra. subst. unfold id2, neg2. cc2. peq; ring.
Qed.
Lemma cover_unique a b (m : mat R) : is_SU2 a -> is_SU2 b ->
  (forall v, mm2 (mm2 a (pauli v)) (dagger2 a) = pauli (rmv m v)) ->
  (forall v, mm2 (mm2 b (pauli v)) (dagger2 b) = pauli (rmv m v)) -> a = b \/ a = neg2 b.
Proof.
  intros A B HA HB. destruct (schur (mm2 (dagger2 b) a)) as [E|E].
  - apply SU2_mm; [apply SU2_dagger; exact B|exact A].
  - intros v. rewrite conj_mm, HA, <- HB, dagger_dagger. rewrite !mm2_assoc, (SU2_left b B).
    rewrite <- !mm2_assoc, (SU2_left b B). rewrite (proj2 (mm2_id _)). apply mm2_id.
  - left. rewrite <- (proj2 (mm2_id a)), <- (proj1 B), mm2_assoc, E. apply mm2_id.
  - right. rewrite <- (proj2 (mm2_id a)), <- (proj1 B), mm2_assoc, E.
    destruct b as [[[[p p'] [q q']] [r r']] [s s']]. unfold neg2. cc2. peq; ring.
Qed.
Lemma orth_mm a b : is_orthogonal a -> is_orthogonal b -> is_orthogonal (rmm a b).
Proof.
  unfold is_orthogonal. intros A B. replace (mtrans (rmm a b)) with (rmm (mtrans b) (mtrans a)) by (destruct a, b; v3l; f_equal; ring).
  rewrite rmm_assoc, <- (rmm_assoc a b), B, rmm_id_r. exact A.
Qed.
Lemma spinor_mul a b : is_orthogonal a -> is_orthogonal b -> away a -> away b -> away (rmm a b) ->
  spinorRotation (rmm a b) = mm2 (spinorRotation a) (spinorRotation b) \/
  spinorRotation (rmm a b) = neg2 (mm2 (spinorRotation a) (spinorRotation b)).
Proof.
  intros A B Wa Wb Wab. apply (cover_unique _ _ (rmscale (rdet (rmm a b)) (rmm a b))).
  - apply spinor_SU2.
  - apply SU2_mm; apply spinor_SU2.
  - intros v. rewrite spinor_cover by (auto using orth_mm). f_equal. generalize (rmm a b) (rdet (rmm a b)). intros m d. destruct m, v. v3l. f_equal; ring.
  - intros v. rewrite conj_mm, !spinor_cover by assumption. f_equal. rewrite rdet_mm.
    replace (rmv (rmscale (rdet a * rdet b) (rmm a b)) v) with (rvscale (rdet a * rdet b) (rmv (rmm a b) v)).
    2: { generalize (rmm a b) (rdet a * rdet b). intros m d. destruct m, v. v3l. f_equal; ring. }
    rewrite rmv_mm. generalize (rdet a) (rdet b) (rmv b v). intros x y w. destruct a, w. v3l. f_equal; ring.
Qed.
(** the inversion does not act on spinors *)
Lemma spinor_inversion m : is_orthogonal m -> spinorRotation (rmscale (-1) m) = spinorRotation m.
Proof.
  intros O. assert (E : rmscale (1 / rdet (rmscale (-1) m)) (rmscale (-1) m) = rmscale (1 / rdet m) m).
  { replace (rdet (rmscale (-1) m)) with (- rdet m) by (destruct m; v3l; ring).
    destruct (orth_det m O) as [D|D]; rewrite D; destruct m; v3l; f_equal; field. }
  unfold spinorRotation. rewrite E. reflexivity.
Qed.
(** polarUnitVector(alpha,beta) is not the image of the z axis *)
Lemma axis_comment_fails : exists u, rmv (matrixFromEuler u) (V 0 0 1) <> polarUnitVector (c0 u) (c1 u).
Proof.
  exists (V 0 (PI/2) 0). rewrite axis_cols. unfold polarUnitVector. cbn [c0 c1].
  rewrite Rminus_0_r, cos_PI, cos_0, sin_PI2. intros E. injection E. lra.
Qed.
