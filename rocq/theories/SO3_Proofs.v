From Coq Require Import List Reals Arith Bool Lia Lra Permutation.
From Verif Require Import Vec3_Model Euler_Model SO3_Model SO3_Spec.
Import ListNotations.
Local Open Scope R_scope.

(** ** sums *)
Lemma sumTo_ext n f g : (forall k, (k < n)%nat -> f k = g k) -> sumTo n f = sumTo n g.
Proof. induction n as [|n IH]; intros H; cbn; [reflexivity|]. rewrite IH by (intros; apply H; lia). rewrite (H n) by lia. reflexivity. Qed.
Lemma sumTo_scal n c f : sumTo n (fun k => c * f k) = c * sumTo n f.
Proof. induction n as [|n IH]; cbn; [ring|]. rewrite IH. ring. Qed.
Lemma sumTo_const n c : sumTo n (fun _ => c) = INR n * c.
Proof. induction n as [|n IH]; [cbn; ring|]. rewrite S_INR. cbn [sumTo]. rewrite IH. ring. Qed.
Lemma sumTo_add n m f : sumTo (n + m) f = sumTo n f + sumTo m (fun k => f (n + k)%nat).
Proof. induction m as [|m IH]; [rewrite Nat.add_0_r; cbn; ring|]. rewrite Nat.add_succ_r. cbn [sumTo]. rewrite IH. ring. Qed.
Lemma sumTo_S n f : sumTo (S n) f = f O + sumTo n (fun k => f (S k)).
Proof. change (S n) with (1 + n)%nat. rewrite sumTo_add. change (sumTo 1 f) with (0 + f O). rewrite Rplus_0_l. reflexivity. Qed.
(** a sum in blocks of equal length *)
Lemma sumTo_blocks b m f : sumTo (b * m) f = sumTo b (fun j => sumTo m (fun k => f (j * m + k)%nat)).
Proof.
  induction b as [|b IH]; [reflexivity|]. replace (S b * m)%nat with (b * m + m)%nat by lia.
  rewrite sumTo_add, IH. reflexivity.
Qed.
Lemma fold_total l : forall a, fold_left Rplus l a = a + total l.
Proof. induction l as [|x l IH]; intros a; [cbn; ring|]. cbn [fold_left]. rewrite IH. unfold total. cbn [fold_right]. ring. Qed.
Lemma total_scal c l : total (map (fun w => w * c) l) = total l * c.
Proof. induction l as [|x l IH]; cbn; [ring|]. unfold total in IH. rewrite IH. ring. Qed.
Lemma total_nth l : total l = sumTo (length l) (fun j => nth j l 0).
Proof.
  induction l as [|x l IH]; [reflexivity|]. cbn [length]. rewrite sumTo_S. cbn [nth total fold_right].
  unfold total in IH. rewrite IH. reflexivity.
Qed.
Lemma total_combine (g : vec R -> R -> R) : forall (l : list (vec R)) (w : list R), length l = length w ->
  total (map (fun p => g (fst p) (snd p)) (combine l w)) = sumTo (length w) (fun j => g (nth j l (V 0 0 0)) (nth j w 0)).
Proof.
  induction l as [|x l IH]; intros [|y w] H; cbn [length] in H; try discriminate; [reflexivity|].
  cbn [combine map total fold_right length]. rewrite sumTo_S. cbn [nth fst snd]. f_equal. apply IH. lia.
Qed.

(** ** rotations about the axis *)
Lemma rot_add m a b : rmm (rmm m (rotation a 2)) (rotation b 2) = rmm m (rotation (a + b) 2).
Proof.
  destruct m. unfold rotation. rewrite cos_plus, sin_plus.
  unfold rmm, gmm, gdot, row0, row1, row2, col0, col1, col2; cbn; f_equal; ring.
Qed.
Lemma euler_shift a b g d : matrixFromEuler (V a b (g + d)) = rmm (matrixFromEuler (V a b g)) (rotation d 2).
Proof. unfold matrixFromEuler. cbn [c0 c1 c2]. symmetry. apply rot_add. Qed.
Lemma rot_turn n r : rmv (rotation (2 * PI / INR n) 2) r = turn n r.
Proof. destruct r. unfold rotation, rmv, gmv, gdot, turn; cbn. f_equal; ring. Qed.

Section S.
Variable th : R.

Lemma findZn_facts mol : forall Z, (1 <= Z)%nat ->
  (1 <= findZn th Z mol <= Z)%nat /\
  (findZn th Z mol <> 1%nat -> isSymmetric th (rotation (2 * PI / INR (findZn th Z mol)) 2) mol = true) /\
  (forall n, (findZn th Z mol < n <= Z)%nat -> isSymmetric th (rotation (2 * PI / INR n) 2) mol = false).
Proof.
  induction Z as [|[|k] IH]; intros H; [lia|cbn [findZn]; split; [lia|]; split; intros; lia|].
  destruct IH as (A & B & C); [lia|].
  change (findZn th (S (S k)) mol) with (if isSymmetric th (rotation (2 * PI / INR (S (S k))) 2) mol then S (S k) else findZn th (S k) mol).
  destruct (isSymmetric th (rotation (2 * PI / INR (S (S k))) 2) mol) eqn:E.
  - split; [lia|]. split; [intros _; exact E|intros; lia].
  - split; [lia|]. split; [exact B|]. intros n Hn. destruct (Nat.eq_dec n (S (S k))) as [->|N]; [exact E|]. apply C. lia.
Qed.

Lemma fold_pick (f : R -> vec R -> R) (g : vec R -> R) : (forall a r, f a r = a \/ f a r = g r) ->
  forall site a, fold_left f site a = a \/ exists r, In r site /\ fold_left f site a = g r.
Proof.
  intros Hf. induction site as [|x site IH]; intros a; [left; reflexivity|]. cbn [fold_left].
  destruct (IH (f a x)) as [E|(r & I & E)].
  - rewrite E. destruct (Hf a x) as [->| ->]; [left; reflexivity|right; exists x; split; [left|]; reflexivity].
  - right. exists r. split; [right; exact I|exact E].
Qed.
Lemma rhoMax_step site : rhoMax site = 0 \/ exists r, In r site /\ rhoMax site = sqrt (c0 r * c0 r + c1 r * c1 r).
Proof. apply fold_pick. intros a r. cbv zeta. destruct (ltb a _); [right|left]; reflexivity. Qed.
Lemma rhoMax_off site : 0 <= th -> ltb th (rhoMax site) = true -> exists r, In r site /\ 0 < c0 r * c0 r + c1 r * c1 r.
Proof.
  intros Ht H. unfold ltb in H. destruct Rlt_dec as [L|]; [|discriminate].
  destruct (rhoMax_step site) as [E|(r & I & E)]; rewrite E in L; [lra|].
  exists r. split; [exact I|]. destruct (Rlt_le_dec 0 (c0 r * c0 r + c1 r * c1 r)) as [|N]; [assumption|].
  rewrite sqrt_neg_0 in L by exact N. lra.
Qed.

(** every bound that applies to off-axis sites applies to the largest order tried *)
Lemma maxZn_fold (n : nat) : forall mol a, (n <= a)%nat ->
  (forall site, In site mol -> ltb th (rhoMax site) = true -> (n <= length site)%nat) ->
  (n <= fold_left (fun Zn site => if ltb th (rhoMax site) then (if (length site <? Zn)%nat then length site else Zn) else Zn) mol a)%nat.
Proof.
  induction mol as [|s mol IH]; intros a Ha H; [exact Ha|]. cbn [fold_left]. apply IH; [|intros; apply H; [right|]; assumption].
  destruct (ltb th (rhoMax s)) eqn:E; [|exact Ha]. destruct (Nat.ltb_spec (length s) a); [apply H; [left; reflexivity|exact E]|exact Ha].
Qed.
Lemma maxZn_le : forall mol a, (fold_left (fun Zn site => if ltb th (rhoMax site) then (if (length site <? Zn)%nat then length site else Zn) else Zn) mol a <= a)%nat.
Proof.
  induction mol as [|s mol IH]; intros a; [reflexivity|]. cbn [fold_left].
  etransitivity; [apply IH|]. destruct (ltb th (rhoMax s)); [|reflexivity]. destruct (Nat.ltb_spec (length s) a); lia.
Qed.
Lemma maxZn_range mol : 0 <= th -> (1 <= maxZn th mol <= 12)%nat.
Proof.
  intros Ht. split; [|apply maxZn_le]. apply maxZn_fold; [lia|].
  intros site _ E. destruct (rhoMax_off site Ht E) as (r & I & _). destruct site; [destruct I|cbn; lia].
Qed.
Lemma symm_tol n mol : isSymmetric th (rotation (2 * PI / INR n) 2) mol = true <-> axisOrderTol th n mol.
Proof.
  unfold isSymmetric, axisOrderTol. rewrite forallb_forall. split.
  - intros H site r Hs Hr. specialize (H site Hs). rewrite forallb_forall in H. specialize (H r Hr). cbv zeta in H.
    rewrite existsb_exists in H. destruct H as (r' & I & L). exists r'. split; [exact I|]. rewrite rot_turn in L.
    unfold ltb in L. destruct Rlt_dec as [L'|]; [|discriminate]. exact L'.
  - intros H site Hs. rewrite forallb_forall. intros r Hr. cbv zeta. rewrite existsb_exists.
    destruct (H site r Hs Hr) as (r' & I & L). exists r'. split; [exact I|]. rewrite rot_turn. unfold ltb.
    destruct Rlt_dec as [|N]; [reflexivity|]. exfalso. apply N. exact L.
Qed.
Lemma exact_tol n mol : 0 < th -> axisOrder n mol -> axisOrderTol th n mol.
Proof.
  intros Ht H site r Hs Hr. exists (turn n r). split; [apply (H site r Hs Hr)|].
  unfold dist2. rewrite !Rminus_eq_0, Rsqr_0. nra.
Qed.

(** ** the orbit of an off-axis position *)
Definition turnBy (x : R) (r : vec R) : vec R := V (cos x * c0 r + sin x * c1 r) (cos x * c1 r - sin x * c0 r) (c2 r).
Lemma turnBy_add x y r : turnBy y (turnBy x r) = turnBy (x + y) r.
Proof. unfold turnBy. cbn. rewrite cos_plus, sin_plus. f_equal; ring. Qed.
Lemma cos_lt_1 x : 0 < x < 2 * PI -> cos x < 1.
Proof.
  intros H. replace x with (2 * (x / 2)) by field. rewrite cos_2a_sin.
  pose proof (sin_gt_0 (x / 2) ltac:(lra) ltac:(lra)). nra.
Qed.
Lemma turnBy_inj x y r : 0 < c0 r * c0 r + c1 r * c1 r -> 0 < y - x < 2 * PI -> turnBy x r <> turnBy y r.
Proof.
  intros Hr H E. pose proof (cos_lt_1 _ H) as L. rewrite cos_minus in L.
  unfold turnBy in E. injection E as E1 E2.
  pose proof (sin2_cos2 x) as X. pose proof (sin2_cos2 y) as Y. unfold Rsqr in X, Y.
  assert (K : (c0 r * c0 r + c1 r * c1 r) * (cos y * cos x + sin y * sin x) = c0 r * c0 r + c1 r * c1 r).
  { replace ((c0 r * c0 r + c1 r * c1 r) * (cos y * cos x + sin y * sin x))
      with ((cos x * c0 r + sin x * c1 r) * (cos y * c0 r + sin y * c1 r) + (cos x * c1 r - sin x * c0 r) * (cos y * c1 r - sin y * c0 r)) by ring.
    rewrite E1, E2. replace (c0 r * c0 r + c1 r * c1 r) with ((c0 r * c0 r + c1 r * c1 r) * (sin y * sin y + cos y * cos y)) by (rewrite Y; ring). ring. }
  nra.
Qed.
Lemma orbit_in n site : (forall r, In r site -> In (turn n r) site) -> forall r k, In r site -> In (turnBy (INR k * (2 * PI / INR n)) r) site.
Proof.
  intros H r k Hr. induction k as [|k IH].
  - replace (turnBy (INR 0 * (2 * PI / INR n)) r) with r; [exact Hr|]. unfold turnBy. cbn [INR]. rewrite Rmult_0_l, cos_0, sin_0.
    destruct r; cbn; f_equal; ring.
  - rewrite S_INR, Rmult_plus_distr_r, Rmult_1_l, <- turnBy_add. apply (H _ IH).
Qed.
Lemma orbit_nodup n r : (0 < n)%nat -> 0 < c0 r * c0 r + c1 r * c1 r -> NoDup (map (fun k => turnBy (INR k * (2 * PI / INR n)) r) (seq 0 n)).
Proof.
  intros Hn Hr. assert (N : 0 < INR n) by (apply lt_0_INR; exact Hn). pose proof PI_RGT_0 as P.
  assert (key : forall j k, (j < k < n)%nat -> turnBy (INR j * (2 * PI / INR n)) r <> turnBy (INR k * (2 * PI / INR n)) r).
  { intros j k H. apply turnBy_inj; [exact Hr|].
    assert (A : INR j < INR k) by (apply lt_INR; lia). assert (B : INR k < INR n) by (apply lt_INR; lia). pose proof (pos_INR j) as J.
    replace (INR k * (2 * PI / INR n) - INR j * (2 * PI / INR n)) with ((INR k - INR j) / INR n * (2 * PI)) by (field; lra).
    assert (Q : 0 < (INR k - INR j) / INR n < 1).
    { split; [apply Rdiv_lt_0_compat; lra|]. apply Rmult_lt_reg_r with (INR n); [exact N|]. unfold Rdiv. rewrite Rmult_assoc, Rinv_l by lra. lra. }
    nra. }
  apply NoDup_nth with (d := V 0 0 0). rewrite map_length, seq_length. intros i j Hi Hj E.
  rewrite (nth_indep _ _ (turnBy (INR 0 * (2 * PI / INR n)) r)) in E by (rewrite map_length, seq_length; lia).
  rewrite (nth_indep _ (V 0 0 0) (turnBy (INR 0 * (2 * PI / INR n)) r)) in E by (rewrite map_length, seq_length; lia).
  rewrite !(map_nth (fun k => turnBy (INR k * (2 * PI / INR n)) r)), !seq_nth in E by lia. cbn [plus] in E.
  destruct (lt_eq_lt_dec i j) as [[L|L]|L]; [exfalso; apply (key i j); [lia|exact E]|exact L|exfalso; apply (key j i); [lia|symmetry; exact E]].
Qed.
Lemma order_bound n mol : 0 <= th -> (1 <= n <= 12)%nat -> axisOrder n mol -> (n <= maxZn th mol)%nat.
Proof.
  intros Ht Hn H. apply maxZn_fold; [lia|]. intros site Hs E. destruct (rhoMax_off site Ht E) as (r & I & P).
  rewrite <- (seq_length n 0), <- (map_length (fun k => turnBy (INR k * (2 * PI / INR n)) r) (seq 0 n)).
  apply NoDup_incl_length; [apply orbit_nodup; [lia|exact P]|].
  intros y Hy. apply in_map_iff in Hy. destruct Hy as (k & <- & _). apply orbit_in; [intros; apply H; assumption|exact I].
Qed.

Theorem Zn_largest mol : 0 < th ->
  (1 <= molZn th mol <= 12)%nat /\ (molZn th mol <> 1%nat -> axisOrderTol th (molZn th mol) mol) /\
  (forall n, (n <= 12)%nat -> axisOrder n mol -> (n <= molZn th mol)%nat).
Proof.
  intros Ht. destruct (maxZn_range mol ltac:(lra)) as [M1 M2]. destruct (findZn_facts mol (maxZn th mol) M1) as (A & B & C).
  unfold molZn. split; [lia|]. split; [intros H; apply symm_tol; apply B; exact H|].
  intros n Hn H. destruct (Nat.eq_dec n 0) as [->|N0]; [lia|].
  destruct (le_lt_dec n (findZn th (maxZn th mol) mol)) as [L|L]; [exact L|].
  assert (F : isSymmetric th (rotation (2 * PI / INR n) 2) mol = false) by (apply C; split; [exact L|apply order_bound; [lra|lia|exact H]]).
  assert (T : isSymmetric th (rotation (2 * PI / INR n) 2) mol = true) by (apply symm_tol, exact_tol; assumption). congruence.
Qed.

(** ** the quadrature *)
Lemma samples nodes ws n mol : 0 < th ->
  let q := setup th nodes ws n mol in
  nS1 q = (nS1byZn q * molZn th mol)%nat /\ (n <= nS1 q < n + molZn th mol)%nat.
Proof.
  intros Ht q. destruct (Zn_largest mol Ht) as ((Z1 & _) & _). split; [reflexivity|].
  subst q. cbn. set (z := molZn th mol) in *. pose proof (Nat.div_mod (n + (z - 1)) z ltac:(lia)). pose proof (Nat.mod_upper_bound (n + (z - 1)) z ltac:(lia)).
  nia.
Qed.
Lemma quad_blocks q f : (0 < nS1byZn q)%nat ->
  sumTo (nOrientations q) (fun i => weight q i * f (euler q i)) =
  sumTo (length (weightS2 q)) (fun j => nth j (weightS2 q) 0 * sumTo (nS1byZn q) (fun k =>
    let e := nth j (eulerS2 q) (V 0 0 0) in f (V (c0 e) (c1 e) (c2 e + (2 * PI / INR (nS1 q)) * INR k)))).
Proof.
  intros H. unfold nOrientations. rewrite sumTo_blocks. apply sumTo_ext. intros j _. rewrite <- sumTo_scal. apply sumTo_ext. intros k Hk.
  unfold weight, euler. rewrite (Nat.add_comm (j * _)), Nat.div_add, Nat.mod_add by lia. rewrite Nat.div_small, Nat.mod_small by exact Hk. reflexivity.
Qed.
Lemma n_pos nodes ws n mol : 0 < th -> (0 < n)%nat -> (0 < nS1byZn (setup th nodes ws n mol))%nat.
Proof. intros Ht Hn. destruct (samples nodes ws n mol Ht) as [A B]. cbv zeta in A, B. nia. Qed.

Theorem normalized nodes ws n mol : 0 < th -> (0 < n)%nat -> total ws <> 0 ->
  let q := setup th nodes ws n mol in sumTo (nOrientations q) (weight q) = 1.
Proof.
  intros Ht Hn Hw q. pose proof (n_pos nodes ws n mol Ht Hn) as P. fold q in P.
  rewrite (sumTo_ext _ (weight q) (fun i => weight q i * (fun _ => 1) (euler q i))) by (intros; ring).
  rewrite (quad_blocks q (fun _ => 1) P).
  rewrite (sumTo_ext _ _ (fun j => INR (nS1byZn q) * nth j (weightS2 q) 0)) by (intros; cbv zeta; rewrite sumTo_const; ring).
  rewrite sumTo_scal, <- total_nth. unfold q. unfold setup. cbn [weightS2 nS1byZn] in *. rewrite total_scal, fold_total, Rplus_0_l.
  unfold q, setup in P; cbn [nS1byZn] in P. field. split; [|exact Hw]. apply not_0_INR. lia.
Qed.

Lemma turns_invariant (F : mat R -> R) d : (forall m, F (rmm m (rotation d 2)) = F m) -> forall k m, F (rmm m (rotation (INR k * d) 2)) = F m.
Proof.
  intros H k. induction k as [|k IH]; intros m.
  - cbn [INR]. rewrite Rmult_0_l. unfold rotation. rewrite cos_0, sin_0. f_equal. destruct m. unfold rmm, gmm, gdot, row0, row1, row2, col0, col1, col2; cbn; f_equal; ring.
  - rewrite S_INR, Rmult_plus_distr_r, Rmult_1_l, <- rot_add, H. apply IH.
Qed.
Theorem average nodes ws n mol F : 0 < th -> (0 < n)%nat -> length nodes = length ws -> total ws <> 0 ->
  (forall m, F (rmm m (rotation (2 * PI / INR (molZn th mol)) 2)) = F m) ->
  let q := setup th nodes ws n mol in
  sumTo (nOrientations q) (fun i => weight q i * F (matrixFromEuler (euler q i))) = fullAverage nodes ws (nS1 q) F.
Proof.
  intros Ht Hn Hl Hw HF q. pose proof (n_pos nodes ws n mol Ht Hn) as P. destruct (Zn_largest mol Ht) as ((Z1 & _) & _).
  destruct (samples nodes ws n mol Ht) as [S1 _]. cbv zeta in S1. fold q in P, S1.
  rewrite (quad_blocks q (fun e => F (matrixFromEuler e)) P).
  unfold fullAverage. rewrite (total_combine (fun e w => w / total ws * (sumTo (nS1 q) (fun k => F (matrixFromEuler (V (c0 e) (c1 e) (c2 e + 2 * PI * (INR k / INR (nS1 q)))))) / INR (nS1 q)))) by exact Hl.
  assert (LW : length (weightS2 q) = length ws) by (unfold q, setup; cbn; apply map_length).
  rewrite LW. apply sumTo_ext. intros j Hj. cbv zeta.
  change (eulerS2 q) with nodes. set (e := nth j nodes (V 0 0 0)).
  set (b := nS1byZn q) in *. set (z := molZn th mol) in *.
  assert (B : INR b <> 0) by (apply not_0_INR; lia). assert (Zz : INR z <> 0) by (apply not_0_INR; lia).
  rewrite S1. rewrite (Nat.mul_comm b z), sumTo_blocks.
  rewrite (sumTo_ext z _ (fun _ => sumTo b (fun k => F (matrixFromEuler (V (c0 e) (c1 e) (c2 e + 2 * PI / INR (z * b) * INR k)))))).
  - rewrite sumTo_const, mult_INR.
    replace (nth j (weightS2 q) 0) with (nth j ws 0 * (1 / (total ws * INR b))); [field; auto|].
    unfold q, setup. cbn [weightS2]. fold z. rewrite fold_total, Rplus_0_l.
    replace ((n + (z - 1)) / z)%nat with b by reflexivity.
    symmetry. rewrite (nth_indep _ 0 ((fun w => w * (1 / (total ws * INR b))) 0)) by (rewrite map_length; exact Hj).
    apply (map_nth (fun w => w * (1 / (total ws * INR b)))).
  - intros i _. apply sumTo_ext. intros k _.
    replace (c2 e + 2 * PI * (INR (i * b + k) / INR (z * b))) with ((c2 e + 2 * PI / INR (z * b) * INR k) + INR i * (2 * PI / INR z)).
    + rewrite euler_shift. apply turns_invariant. exact HF.
    + rewrite plus_INR, !mult_INR. field. auto.
Qed.
Lemma rmv_rmm m k r : rmv (rmm m k) r = rmv m (rmv k r).
Proof. destruct m, k, r. unfold rmv, gmv, rmm, gmm, gdot, row0, row1, row2, col0, col1, col2; cbn; f_equal; ring. Qed.
Lemma total_perm l l' : Permutation l l' -> total l = total l'.
Proof. unfold total. induction 1; cbn [fold_right]; lra. Qed.
(** a sum over the positions of a site is unchanged by the symmetry *)
Theorem site_invariant n site (g : vec R -> R) m : Permutation (map (turn n) site) site ->
  total (map (fun r => g (rmv (rmm m (rotation (2 * PI / INR n) 2)) r)) site) = total (map (fun r => g (rmv m r)) site).
Proof.
  intros P. rewrite (map_ext _ (fun r => g (rmv m (turn n r)))) by (intros; rewrite rmv_rmm, rot_turn; reflexivity).
  rewrite <- (map_map (turn n) (fun r => g (rmv m r))). apply total_perm, Permutation_map, P.
Qed.
Theorem site_average nodes ws n mol site g : 0 < th -> (0 < n)%nat -> length nodes = length ws -> total ws <> 0 ->
  Permutation (map (turn (molZn th mol)) site) site ->
  let q := setup th nodes ws n mol in
  sumTo (nOrientations q) (fun i => weight q i * total (map (fun r => g (rmv (matrixFromEuler (euler q i)) r)) site)) =
  fullAverage nodes ws (nS1 q) (fun m => total (map (fun r => g (rmv m r)) site)).
Proof.
  intros Ht Hn Hl Hw P. apply (average nodes ws n mol (fun m => total (map (fun r => g (rmv m r)) site))); try assumption.
  intros m. apply site_invariant, P.
Qed.
Theorem weights_positive nodes ws n mol i : 0 < th -> (0 < n)%nat -> (forall w, In w ws -> 0 < w) ->
  let q := setup th nodes ws n mol in (i < nOrientations q)%nat -> 0 < weight q i.
Proof.
  intros Ht Hn Hp q Hi. pose proof (n_pos nodes ws n mol Ht Hn) as P. fold q in P.
  assert (LW : length (weightS2 q) = length ws) by (unfold q, setup; cbn; apply map_length).
  unfold nOrientations in Hi. rewrite LW in Hi.
  assert (J : (i / nS1byZn q < length ws)%nat) by (apply Nat.div_lt_upper_bound; lia).
  unfold weight. set (j := (i / nS1byZn q)%nat) in *.
  assert (T : 0 < total ws).
  { clear - Hp J. destruct ws as [|w ws]; [cbn in J; lia|]. cbn. assert (0 <= fold_right Rplus 0 ws).
    { assert (forall l, (forall w, In w l -> 0 < w) -> 0 <= fold_right Rplus 0 l) as K.
      { induction l as [|x l IH]; cbn; intros H; [lra|]. pose proof (H x ltac:(left; reflexivity)). pose proof (IH ltac:(intros; apply H; right; assumption)). lra. }
      apply K. intros; apply Hp; right; assumption. }
    pose proof (Hp w ltac:(left; reflexivity)). lra. }
  assert (B : 0 < INR (nS1byZn q)) by (apply lt_0_INR; exact P).
  assert (I : In (nth j (weightS2 q) 0) (weightS2 q)) by (apply nth_In; lia).
  revert I. generalize (nth j (weightS2 q) 0). intros x I. change (weightS2 q) with (map (fun w => w * (1 / (fold_left Rplus ws 0 * INR (nS1byZn q)))) ws) in I.
  apply in_map_iff in I. destruct I as (w & <- & I). rewrite fold_total, Rplus_0_l. apply Rmult_lt_0_compat; [apply Hp, I|].
  apply Rdiv_lt_0_compat; [lra|]. apply Rmult_lt_0_compat; lra.
Qed.
End S.

(** ** a molecule with a two-fold axis *)
Definition bent : list (list (vec R)) := [[V 0 0 0]; [V 1 0 1; V (-1) 0 1]].
Lemma turn2 r : turn 2 r = V (- c0 r) (- c1 r) (c2 r).
Proof. unfold turn. replace (2 * PI / INR 2) with PI by (cbn [INR]; field). rewrite cos_PI, sin_PI. f_equal; ring. Qed.
Lemma bent_order : axisOrder 2 bent.
Proof.
  intros site r [<-|[<-|[]]]; cbn [In]; intros H; rewrite turn2.
  - destruct H as [<-|[]]. left. cbn. f_equal; ring.
  - destruct H as [<-|[<-|[]]]; cbn; [right; left|left]; f_equal; ring.
Qed.
Lemma bent_Zn : molZn (1/10000) bent = 2%nat.
Proof.
  destruct (Zn_largest (1/10000) bent ltac:(lra)) as (_ & _ & G). specialize (G 2%nat ltac:(lia) bent_order).
  assert (U : (maxZn (1/10000) bent <= 2)%nat).
  { unfold maxZn, bent. cbn [fold_left]. set (a := if ltb _ (rhoMax [V 0 0 0]) then _ else _).
    assert (E : ltb (1/10000) (rhoMax [V 1 0 1; V (-1) 0 1]) = true).
    { unfold rhoMax. cbn [fold_left c0 c1]. cbv zeta. replace (-1 * -1 + 0 * 0) with 1 by ring. replace (1 * 1 + 0 * 0) with 1 by ring.
      rewrite sqrt_1. unfold ltb. repeat (destruct Rlt_dec; try lra); reflexivity. }
    rewrite E. cbn [length]. destruct (Nat.ltb_spec 2 a); lia. }
  destruct (maxZn_range (1/10000) bent ltac:(lra)) as [M1 _].
  destruct (findZn_facts (1/10000) bent (maxZn (1/10000) bent) M1) as (A & _). unfold molZn in *. lia.
Qed.
Lemma bent_perm : Permutation (map (turn (molZn (1/10000) bent)) [V 1 0 1; V (-1) 0 1]) [V 1 0 1; V (-1) 0 1].
Proof.
  rewrite bent_Zn. cbn [map]. rewrite !turn2. cbn [c0 c1 c2]. rewrite !Ropp_0.
  replace (- (1)) with (-1) by ring. replace (- (-1)) with 1 by ring. apply perm_swap.
Qed.
