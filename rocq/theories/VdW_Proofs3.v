(** D3: derivatives of the pair potentials and of the interpolation weights; sums accumulated by the loops. *)
From Coq Require Import ZArith Reals List Bool Lia Lra Psatz.
From Coquelicot Require Import Coquelicot.
From Verif Require Import Base WorkDiv_Model Grid_Model Vec3_Model Vec3_Facts Lattice_Model RealUtil Coulomb_Model Coulomb_Proofs Coulomb_Proofs3 WS_Model Ions_Model CellMap_Spec CellMap_Proofs VdW_Model VdW_Spec VdW_Proofs VdW_Proofs2.
Import ListNotations.
Local Open Scope R_scope.
Set Bullet Behavior "Strict Subproofs".

(** ** Pair potentials *)
Lemma inv_pow_derive k r : 0 < r -> is_derive (fun s => (1 / s) ^ S k) r (- INR (S k) * (1 / r) ^ S k * (1 / r)).
Proof.
  intros P. assert (I : is_derive (fun s => 1 / s) r (- ((1 / r) * (1 / r)))) by (auto_derive; [lra|field; lra]).
  assert (Pw := is_derive_pow (fun s => 1 / s) (S k) r _ I).
  replace (- INR (S k) * (1 / r) ^ S k * (1 / r)) with (INR (S k) * - (1 / r * (1 / r)) * (1 / r) ^ k); [exact Pw|]. cbn [pow]. ring.
Qed.
Lemma even_pow_pos x k : 0 <= x ^ (2 * k).
Proof. rewrite pow_mult. apply pow_le. rewrite <- Rsqr_pow2. apply Rle_0_sqr. Qed.
Lemma dmul (f g : R -> R) (x a b : R) : is_derive f x a -> is_derive g x b -> is_derive (fun t => f t * g t) x (a * g x + f x * b).
Proof. intros A B. apply (is_derive_mult f g x a b A B). intros; apply Rmult_comm. Qed.
Lemma dplus (f g : R -> R) (x a b : R) : is_derive f x a -> is_derive g x b -> is_derive (fun t => f t + g t) x (a + b).
Proof. intros A B. apply (is_derive_plus (V:=R_NormedModule) f g x a b A B). Qed.
Lemma dscal (f : R -> R) (x a k : R) : is_derive f x a -> is_derive (fun t => k * f t) x (k * a).
Proof. intros A. apply (is_derive_scal f x k a A). Qed.
Lemma dconst (k x : R) : is_derive (fun _ : R => k) x 0. Proof. apply (is_derive_const (V:=R_NormedModule)). Qed.
Lemma dinv1 (f : R -> R) (x a : R) : is_derive f x a -> f x <> 0 -> is_derive (fun t => 1 / f t) x (- a * (1 / f x) * (1 / f x)).
Proof.
  intros A N. apply (is_derive_ext (fun t => / f t)); [intros t; change (/ f t = 1 / f t); unfold Rdiv; ring|].
  replace (- a * (1 / f x) * (1 / f x)) with (- a / f x ^ 2) by (field; auto). apply is_derive_inv; auto.
Qed.
Lemma dval (f : R -> R) (x a b : R) : is_derive f x a -> a = b -> is_derive f x b. Proof. intros H <-. exact H. Qed.
Lemma vdWpotential_derive k a r R0 : 0 < r -> 
  is_derive (fun s => fst (vdWpotential (S k) (2 * S a) (1 / s) R0)) r (snd (vdWpotential (S k) (2 * S a) (1 / r) R0)).
Proof.
  intros P. unfold vdWpotential. cbv zeta. cbn [fst snd]. set (al := (2 * S a)%nat).
  assert (G : 0 <= 6 * (R0 * (1 / r)) ^ al) by (apply Rmult_le_pos; [lra|apply even_pow_pos]).
  assert (A := inv_pow_derive k r P).
  assert (B : is_derive (fun s => (R0 * (1 / s)) ^ al) r (- INR al * (R0 * (1 / r)) ^ al * (1 / r))).
  { apply (is_derive_ext (fun s => R0 ^ al * (1 / s) ^ al)); [intros t; symmetry; apply Rpow_mult_distr|]. rewrite Rpow_mult_distr.
    replace (- INR al * (R0 ^ al * (1 / r) ^ al) * (1 / r)) with (R0 ^ al * (- INR al * (1 / r) ^ al * (1 / r))) by ring.
    apply dscal. unfold al. replace (2 * S a)%nat with (S (2 * a + 1)) by lia. apply inv_pow_derive; auto. }
  assert (D : is_derive (fun s => 1 / (1 + 6 * (R0 * (1 / s)) ^ al)) r (- (0 + 6 * (- INR al * (R0 * (1 / r)) ^ al * (1 / r))) * (1 / (1 + 6 * (R0 * (1 / r)) ^ al)) * (1 / (1 + 6 * (R0 * (1 / r)) ^ al)))).
  { apply (dinv1 (fun s => 1 + 6 * (R0 * (1 / s)) ^ al)); [apply dplus; [apply dconst|apply dscal; exact B]|lra]. }
  eapply dval; [apply (dmul _ _ _ _ _ A D)|]. ring.
Qed.
Lemma vdWpotentialBJ_derive k r R0 a1 a2 : 0 < r -> 
  is_derive (fun s => fst (vdWpotentialBJ (2 * S k) s R0 a1 a2)) r (snd (vdWpotentialBJ (2 * S k) r R0 a1 a2)).
Proof.
  intros P. unfold vdWpotentialBJ. cbv zeta. cbn [fst snd]. set (m := (2 * S k)%nat).
  assert (G : 0 <= (a1 * R0 + a2) ^ m) by apply even_pow_pos. assert (Pr : 0 < r ^ m) by (apply pow_lt; auto).
  assert (A : is_derive (fun s => s ^ m) r (INR m * 1 * r ^ (m - 1))).
  { replace (m - 1)%nat with (Nat.pred m) by lia. apply (is_derive_pow (fun s => s) m r 1). apply (is_derive_id (K:=R_AbsRing)). }
  eapply dval; [apply (dinv1 (fun s => s ^ m + (a1 * R0 + a2) ^ m)); [apply dplus; [exact A|apply dconst]|lra]|]. ring.
Qed.
Lemma terms_derive bj sr6 sr8 r R0 : 0 < r ->
  is_derive (fun s => fst (fst (terms bj sr6 sr8 s R0))) r (snd (fst (terms bj sr6 sr8 r R0))) /\
  is_derive (fun s => fst (snd (terms bj sr6 sr8 s R0))) r (snd (snd (terms bj sr6 sr8 r R0))).
Proof.
  intros P. unfold terms, alpha6, alpha8. destruct bj; cbn [fst snd].
  - split; [apply (vdWpotentialBJ_derive 2)|apply (vdWpotentialBJ_derive 3)]; auto.
  - split; [apply (vdWpotential_derive 5 6)|apply (vdWpotential_derive 7 7)]; auto.
Qed.

(** ** Interpolation weights *)
Lemma LsumOf_rsum CN x : LsumOf CN x = rsum (Lraw x) CN.
Proof. unfold LsumOf. rewrite (fold_sum _ (fun s => s) (Lraw x)); [ring|reflexivity]. Qed.
Lemma LprimeSumOf_rsum CN x : LprimeSumOf CN x = rsum (Lraw' x) CN.
Proof. unfold LprimeSumOf. rewrite (fold_sum _ (fun s => s) (Lraw' x)); [ring|reflexivity]. Qed.
Lemma Lraw_derive x c : is_derive (fun y => Lraw y c) x (Lraw' x c).
Proof.
  unfold Lraw', Lraw. auto_derive; [auto|]. replace ((x + - c) * ((x + - c) * 1)) with ((x - c) ^ 2) by (cbn [pow]; ring). ring.
Qed.
Lemma Lsum_derive CN x : is_derive (LsumOf CN) x (LprimeSumOf CN x).
Proof.
  rewrite LprimeSumOf_rsum. apply (is_derive_ext (fun y => rsum (fun c => Lraw y c) CN)); [intros y; symmetry; apply LsumOf_rsum|].
  apply (rsum_derive CN (fun c y => Lraw y c)). intros c _. apply Lraw_derive.
Qed.
Lemma underflow_pos : 0 < underflow. Proof. unfold underflow. apply Rinv_0_lt_compat, pow_lt. lra. Qed.
Lemma nth_map {A} (f : A -> R) l (d : A) i : nth i (map f l) 0 = if (i <? length l)%nat then f (nth i l d) else 0.
Proof.
  destruct (Nat.ltb_spec i (length l)); [rewrite (nth_indep _ 0 (f d)) by (rewrite map_length; auto); apply map_nth|apply nth_overflow; rewrite map_length; auto].
Qed.
Lemma getL_derive CN x i : LsumOf CN x <> underflow -> is_derive (fun y => nth i (fst (getL CN y)) 0) x (nth i (snd (getL CN x)) 0).
Proof.
  intros N. assert (U := underflow_pos).
  assert (C : continuous (LsumOf CN) x) by (apply (ex_derive_continuous (K:=R_AbsRing) (V:=R_NormedModule)); eexists; apply Lsum_derive).
  unfold getL at 2. cbv zeta. destruct (Rlt_dec (LsumOf CN x) underflow) as [L|L]; cbn [snd].
  - rewrite (nth_map (fun _ => 0) CN 0). replace (if (i <? length CN)%nat then 0 else 0) with 0 by (destruct (_ <? _)%nat; reflexivity).
    apply (is_derive_ext_loc (fun _ => nth i (map (fun i => if (i =? max_element CN)%nat then 1 else 0) (seq 0 (length CN))) 0)); [|apply dconst].
    assert (Lo : locally x (fun y => LsumOf CN y < underflow)) by (apply (C (fun z => z < underflow)); apply loc_lt; exact L). revert Lo. apply filter_imp. intros y Hy. unfold getL. cbv zeta. destruct (Rlt_dec (LsumOf CN y) underflow); [reflexivity|contradiction].
  - assert (G : underflow < LsumOf CN x) by lra.
    apply (is_derive_ext_loc (fun y => nth i (map (fun CNi => Lraw y CNi * (1 / LsumOf CN y)) CN) 0)).
    + assert (Lo : locally x (fun y => underflow < LsumOf CN y)) by (apply (C (fun z => underflow < z)); apply loc_gt; exact G). revert Lo. apply filter_imp. intros y Hy. unfold getL. cbv zeta. destruct (Rlt_dec (LsumOf CN y) underflow) as [Y|Y]; [lra|reflexivity].
    + rewrite (nth_map _ CN 0). destruct (i <? length CN)%nat eqn:I.
      * apply (is_derive_ext (fun y => Lraw y (nth i CN 0) * (1 / LsumOf CN y))); [intros y; rewrite (nth_map _ CN 0), I; reflexivity|].
        eapply dval; [apply (dmul (fun y => Lraw y (nth i CN 0)) (fun y => 1 / LsumOf CN y)); [apply Lraw_derive|apply dinv1; [apply Lsum_derive|lra]]|]. field. lra.
      * apply (is_derive_ext (fun y => 0)); [intros y; rewrite (nth_map _ CN 0), I; reflexivity|apply dconst].
Qed.
Lemma bilinear_derive (l1 l2 : R -> list R) (l1' l2' : list R) m t :
  (forall i, is_derive (fun s => nth i (l1 s) 0) t (nth i l1' 0)) -> (forall j, is_derive (fun s => nth j (l2 s) 0) t (nth j l2' 0)) ->
  is_derive (fun s => bilinear (l1 s) m (l2 s)) t (bilinear l1' m (l2 t) + bilinear (l1 t) m l2').
Proof.
  intros H1 H2. unfold bilinear. rewrite <- rsum_add.
  apply (rsum_derive (seq 0 (nc m)) (fun j s => rsum (fun i => nth i (l1 s) 0 * entry m i j) (seq 0 (nr m)) * nth j (l2 s) 0)). intros j _.
  apply (dmul (fun s => rsum (fun i => nth i (l1 s) 0 * entry m i j) (seq 0 (nr m))) (fun s => nth j (l2 s) 0)); [|apply H2].
  apply (rsum_derive (seq 0 (nr m)) (fun i s => nth i (l1 s) 0 * entry m i j)). intros i _.
  eapply dval; [apply (dmul (fun s => nth i (l1 s) 0) (fun _ => entry m i j)); [apply H1|apply dconst]|]. ring.
Qed.
