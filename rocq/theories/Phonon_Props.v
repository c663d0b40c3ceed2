(** Properties C97-C99: force matrices of phonons, the correction of their first moment, quadrature and free energies. *)
From Coq Require Import ZArith Reals List Bool Arith Lra Lia.
From Coquelicot Require Import Coquelicot.
From Verif Require Import Base Vec3_Model ExCompute_Spec Phonon_Model Phonon_Spec Phonon_Proofs2 Phonon_Proofs3 Phonon_Proofs4 Phonon_Proofs5 Phonon_Proofs6 Phonon_Proofs7 Phonon_Proofs8 Phonon_Proofs9 Phonon_Proofs10.
From Verif Require CellMap_Model CellMap_Spec.
Import ListNotations.
Import Vec3_Model.
Local Open Scope R_scope.

(** ** C97 *)
Theorem C97_symmetric : forall nA s d, posSup s -> symmetricForces nA s (dgradSymmetrize nA s d).
Proof. exact symmetrize_symmetric. Qed.
Print Assumptions C97_symmetric.
Theorem C97_no_net_force : forall nA s d, posSup s -> (0 < nA)%nat -> noNetForce nA s (dgradSymmetrize nA s d).
Proof. exact symmetrize_nonet. Qed.
Print Assumptions C97_no_net_force.
Theorem C97_fixed : forall nA s d i R j, posSup s -> symmetricForces nA s d -> noNetForce nA s d ->
  (i < 3 * nA)%nat -> (j < 3 * nA)%nat -> inSup s R -> dgradSymmetrize nA s d i R j = d i R j.
Proof. exact symmetrize_fixed. Qed.
Print Assumptions C97_fixed.
Theorem C97_nearest : forall nA s d e, posSup s -> symmetricForces nA s e -> noNetForce nA s e ->
  forceDot nA s (fun i R j => d i R j - dgradSymmetrize nA s d i R j) e = 0.
Proof. exact symmetrize_orth. Qed.
Print Assumptions C97_nearest.
Theorem C97_numbering : forall s, posSup s ->
  (forall c, (getUnit s c < prodSup s)%nat /\ getCell s (getUnit s c) = wrapCell s c) /\
  (forall u, (u < prodSup s)%nat -> inSup s (getCell s u) /\ getUnit s (cellZ (getCell s u)) = u).
Proof. exact (fun s H => conj (fun c => conj (getUnit_lt s c H) (getCell_getUnit s c H)) (fun u Hu => conj (getCell_in s u H Hu) (getUnit_getCell s u H Hu))). Qed.
Print Assumptions C97_numbering.
Theorem C97_cell_map : forall (Rl : mat R) (s : sup3) (tr : nat -> bool) (x : list (vec R)) (rSmooth thr rc : R) (neigh : list (vec Z)),
  posSup s -> truncSup s tr -> rdet Rl <> 0 -> CellMap_Spec.truncation_orthogonal Rl tr -> CellMap_Spec.contains_cell (rmm Rl (mIZR (supMat s))) rc ->
  0 < rSmooth -> 0 < thr -> thr < 1 / 2 -> thr * INR (prodSup s) <= 1 -> (forall n, In n neigh -> In (zvopp n) neigh) ->
  exists m, CellMap_Model.getCellMap Rl (rmm Rl (mIZR (supMat s))) tr x x rSmooth thr rc neigh = Some m /\ goodCells (length x) s (wrapCell s) (map fst m) (lookupW m).
Proof. exact cellmap_good. Qed.
Print Assumptions C97_cell_map.
Theorem C97_remapped : forall nA s cells w d, posSup s -> goodCells nA s (wrapCell s) cells w ->
  (symmetricForces nA s d -> symmetricOn nA cells (remap s w d)) /\ (noNetForce nA s d -> noNetForceOn nA cells (remap s w d)) /\
  (forall i j (f : sup3 -> R), (i < 3 * nA)%nat -> (j < 3 * nA)%nat -> sumR cells (fun c => f (wrapCell s c) * remap s w d c i j) = sumR (allCells s) (fun R => f R * d i R j)).
Proof. exact (fun nA s cells w d Hs G => conj (remap_symmetric nA s cells w d Hs G) (conj (remap_nonet nA s cells w d Hs G) (fun i j f Hi Hj => remap_total nA s cells w d i j G Hi Hj f))). Qed.
Print Assumptions C97_remapped.
Theorem C97_hermitian : forall nA cells v F q m1 m2, NoDup cells -> (forall c, In c cells -> In (zvopp c) cells) -> symmetricOn nA cells F -> (m1 < 3 * nA)%nat -> (m2 < 3 * nA)%nat ->
  omegaSqAt cells (omegaSqOf v F) q m1 m2 = Cconj (omegaSqAt cells (omegaSqOf v F) q m2 m1).
Proof. exact (fun nA cells v F q m1 m2 N O S => omegaSq_hermitian nA cells (omegaSqOf v F) q m1 m2 N O (symmetricOn_scaled nA cells v F S)). Qed.
Print Assumptions C97_hermitian.
Theorem C97_acoustic : forall nA cells v F m1 b, noNetForceOn nA cells F -> (forall m, (m < 3 * nA)%nat -> v m <> 0) -> (m1 < 3 * nA)%nat -> (b < 3)%nat ->
  sumC (seq 0 nA) (fun j => Cmult (omegaSqAt cells (omegaSqOf v F) (V 0 0 0) m1 (3 * j + b)) (RtoC (/ v (3 * j + b)%nat))) = RtoC 0.
Proof. exact omegaSq_zero_modes. Qed.
Print Assumptions C97_acoustic.
Theorem C97_all_paired : forall cells, NoDup cells -> (forall c, In c cells -> In (zvopp c) cells) -> hermCount cells = length cells.
Proof. exact hermCount_all. Qed.
Print Assumptions C97_all_paired.
Example C97_example : posSup (3, 3, 1)%nat /\ symmetricForces 1 (3, 3, 1)%nat twist /\ noNetForce 1 (3, 3, 1)%nat twist /\ twist 0%nat (1, 0, 0)%nat 1%nat = 1 /\
  goodCells 1 (3, 3, 1)%nat (wrapCell (3, 3, 1)%nat) layerCells oneW /\ length layerCells = 9%nat.
Proof. split; [cbn; lia|]. split; [exact twist_symmetric|]. split; [exact twist_nonet|]. split; [reflexivity|]. split; [exact layer_good|reflexivity]. Qed.

(** ** C98 *)
Theorem C98_moment_removed : forall nA s cells w Rl x tr F F' l a b, (0 < nA)%nat -> posSup s -> goodCells nA s (wrapCell s) cells w -> rdet Rl <> 0 ->
  planarCells tr cells -> aligned Rl tr -> noNetForceOn nA cells F -> gammaPrimeFix cells w Rl x nA (prodSup s) tr F = Some F' ->
  (l < 3)%nat -> (a < 3)%nat -> (b < 3)%nat -> gammaSlope nA cells F' l a b = 0.
Proof. exact (fun nA s cells w Rl x tr F F' l a b H1 H2 H3 => fix_slope nA s cells w Rl x tr H1 H2 H3 F F' l a b). Qed.
Print Assumptions C98_moment_removed.
Theorem C98_symmetric : forall nA s cells w Rl x tr F F', (0 < nA)%nat -> posSup s -> goodCells nA s (wrapCell s) cells w ->
  gammaPrimeFix cells w Rl x nA (prodSup s) tr F = Some F' -> symmetricOn nA cells F -> symmetricOn nA cells F'.
Proof. exact (fun nA s cells w Rl x tr F F' H1 H2 H3 => fix_symmetric nA s cells w Rl x tr H1 H2 H3 F F'). Qed.
Print Assumptions C98_symmetric.
Theorem C98_no_net_force : forall nA s cells w Rl x tr F F', (0 < nA)%nat -> posSup s -> goodCells nA s (wrapCell s) cells w ->
  gammaPrimeFix cells w Rl x nA (prodSup s) tr F = Some F' -> noNetForceOn nA cells F -> noNetForceOn nA cells F'.
Proof. exact (fun nA s cells w Rl x tr F F' H1 H2 H3 => fix_nonet nA s cells w Rl x tr H1 H2 H3 F F'). Qed.
Print Assumptions C98_no_net_force.
Theorem C98_unchanged : forall nA s cells w Rl x tr F F' c m1 m2, (0 < nA)%nat -> posSup s -> goodCells nA s (wrapCell s) cells w ->
  noNetForceOn nA cells F -> (forall l a b, (l < 3)%nat -> (a < 3)%nat -> (b < 3)%nat -> gammaSlope nA cells F l a b = 0) ->
  gammaPrimeFix cells w Rl x nA (prodSup s) tr F = Some F' -> F' c m1 m2 = F c m1 m2.
Proof. exact (fun nA s cells w Rl x tr F F' c m1 m2 H1 H2 H3 => fix_unchanged nA s cells w Rl x tr H1 H2 H3 F F' c m1 m2). Qed.
Print Assumptions C98_unchanged.
Theorem C98_reported_error : forall cells w Rl x nA nSup tr F F' a b k, (0 < nA)%nat ->
  (a < 3)%nat -> (b < 3)%nat -> (k < 3)%nat ->
  gammaPrimeFix cells w Rl x nA nSup tr F = Some F' -> tr k = false -> vget (gammaErr cells Rl x nA F' a b) k = 0.
Proof. exact fix_err. Qed.
Print Assumptions C98_reported_error.
Theorem C98_defined : forall nA s cells w Rl x tr F i j cA cB cC cD, (0 < nA)%nat -> posSup s -> goodCells nA s (wrapCell s) cells w ->
  (forall k, tr k = false) -> rdet Rl <> 0 -> (forall c i j, In c cells -> (i < nA)%nat -> (j < nA)%nat -> 0 <= w c i j) ->
  (i < nA)%nat -> (j < nA)%nat -> (forall c, In c [cA; cB; cC; cD] -> In c cells /\ 0 < w c i j) ->
  rdet (set_rows (rvsub (vIZR cB) (vIZR cA)) (rvsub (vIZR cC) (vIZR cA)) (rvsub (vIZR cD) (vIZR cA))) <> 0 ->
  exists F', gammaPrimeFix cells w Rl x nA (prodSup s) tr F = Some F'.
Proof. exact (fun nA s cells w Rl x tr F i j cA cB cC cD H1 H2 H3 => fix_defined nA s cells w Rl x tr H1 H2 H3 F i j cA cB cC cD). Qed.
Print Assumptions C98_defined.
Theorem C98_single_cell_refuted : exists nA s cells w Rl x (tr : nat -> bool), posSup s /\ goodCells nA s (wrapCell s) cells w /\ rdet Rl <> 0 /\ truncSup s tr /\
  (forall k, tr k = false) /\ forall F, gammaPrimeFix cells w Rl x nA (prodSup s) tr F = None.
Proof.
  exact (ex_intro _ 1%nat (ex_intro _ (3, 3, 1)%nat (ex_intro _ layerCells (ex_intro _ oneW (ex_intro _ rid (ex_intro _ zAtom (ex_intro _ (fun _ => false)
    (conj (conj (Nat.lt_0_succ _) (conj (Nat.lt_0_succ _) (Nat.lt_0_succ _))) (conj layer_good (conj rid_det (conj (conj (fun H : false = true => False_ind _ (Bool.diff_false_true H)) (conj (fun H : false = true => False_ind _ (Bool.diff_false_true H)) (fun H : false = true => False_ind _ (Bool.diff_false_true H)))) (conj (fun _ => eq_refl) single_cell_none)))))))))))).
Qed.
Print Assumptions C98_single_cell_refuted.
Theorem C98_axis_refuted : exists nA s cells w Rl x (tr : nat -> bool), posSup s /\ goodCells nA s (wrapCell s) cells w /\ rdet Rl <> 0 /\ truncSup s tr /\ CellMap_Spec.truncation_orthogonal Rl tr /\
  planarCells tr cells /\ forall F, gammaPrimeFix cells w Rl x nA (prodSup s) tr F = None.
Proof.
  exact (ex_intro _ 1%nat (ex_intro _ (3, 3, 1)%nat (ex_intro _ layerCells (ex_intro _ oneW (ex_intro _ turned (ex_intro _ zAtom (ex_intro _ layerTr
    (conj (conj (Nat.lt_0_succ _) (conj (Nat.lt_0_succ _) (Nat.lt_0_succ _))) (conj layer_good (conj turned_det (conj (conj (fun H : false = true => False_ind _ (Bool.diff_false_true H)) (conj (fun H : false = true => False_ind _ (Bool.diff_false_true H)) (fun _ => eq_refl))) (conj turned_orth (conj layer_planar turned_none))))))))))))).
Qed.
Print Assumptions C98_axis_refuted.
Example C98_example : goodCells 1 (3, 3, 1)%nat (wrapCell (3, 3, 1)%nat) layerCells oneW /\ rdet rid <> 0 /\ planarCells layerTr layerCells /\ aligned rid layerTr /\
  noNetForceOn 1 layerCells (remap (3, 3, 1)%nat oneW twist) /\ symmetricOn 1 layerCells (remap (3, 3, 1)%nat oneW twist) /\
  gammaSlope 1 layerCells (remap (3, 3, 1)%nat oneW twist) 0 0 1 = 2 /\ exists F', gammaPrimeFix layerCells oneW rid zAtom 1 9 layerTr (remap (3, 3, 1)%nat oneW twist) = Some F'.
Proof.
  split; [exact layer_good|]. split; [exact rid_det|]. split; [exact layer_planar|]. split; [exact layer_aligned|].
  split; [apply remap_nonet; [cbn; lia|exact layer_good|exact twist_nonet]|]. split; [apply remap_symmetric; [cbn; lia|exact layer_good|exact twist_symmetric]|]. split; [exact twist_slope|exact layer_defined].
Qed.
Example C98_example_defined : goodCells 1 (3, 3, 3)%nat (wrapCell (3, 3, 3)%nat) cubeCells oneW /\ (forall c, In c [V 0 0 0; V 1 0 0; V 0 1 0; V 0 0 1]%Z -> In c cubeCells /\ 0 < oneW c 0%nat 0%nat) /\
  rdet (set_rows (rvsub (vIZR (V 1 0 0)%Z) (vIZR (V 0 0 0)%Z)) (rvsub (vIZR (V 0 1 0)%Z) (vIZR (V 0 0 0)%Z)) (rvsub (vIZR (V 0 0 1)%Z) (vIZR (V 0 0 0)%Z))) <> 0.
Proof. split; [exact cube_good|exact cube_span]. Qed.

(** ** C99 *)
Theorem C99_total_weight : forall fuel (t0 t1 t2 : bool), let d := ((if t0 then 0 else 1) + (if t1 then 0 else 1) + (if t2 then 0 else 1))%nat in
  exists l, quadratureBZ (8 + fuel) t0 t1 t2 = Some l /\ sumR l snd = (1 + 1 / (2 * 10 ^ 33)) ^ d * (1 - (1/3) ^ (7 * d)).
Proof. exact quad_total. Qed.
Print Assumptions C99_total_weight.
(** the seven-point rule of every direction integrates polynomials of degree up to 13 *)
Theorem C99_degree : forall k, (k <= 13)%nat -> Rabs (sumR (dimRange 3 true) (fun i => gweight 1 true i * abscissa 1 0 true i ^ k) - RInt (fun x => x ^ k) (-1) 1) <= / 10 ^ 32.
Proof. exact rule_exact. Qed.
Print Assumptions C99_degree.
Example C99_degree_ex : (12 <= 13)%nat /\ RInt (fun x => x ^ 0) (-1) 1 = 2.
Proof. exact rule_ex. Qed.
Theorem C99_points : forall fuel t0 t1 t2 l p, quadratureBZ (8 + fuel) t0 t1 t2 = Some l -> In p l ->
  0 < snd p /\ (forall k, (k < 3)%nat -> Rabs (vget (fst p) k) <= 1 / 2) /\ fst p <> V 0 0 0 /\ (t0 = true -> c0 (fst p) = 0) /\ (t1 = true -> c1 (fst p) = 0) /\ (t2 = true -> c2 (fst p) = 0).
Proof. exact quad_inside. Qed.
Print Assumptions C99_points.
Theorem C99_inversion : forall fuel t0 t1 t2 l f, quadratureBZ (8 + fuel) t0 t1 t2 = Some l -> sumR l (fun p => snd p * f (fst p)) = sumR l (fun p => snd p * f (rvopp (fst p))).
Proof. exact quad_opp. Qed.
Print Assumptions C99_inversion.
Theorem C99_free_energy : forall T pts Z, 0 < T -> (forall o, 0 < o -> partition o T (Z o)) -> Avib (vibAll T pts) = sumModes pts (fun o => - T * ln (Z o)).
Proof. exact vib_partition. Qed.
Print Assumptions C99_free_energy.
Theorem C99_entropy : forall T pts, 0 < T -> is_derive (fun t => Avib (vibAll t pts)) T (- (Evib (vibAll T pts) - Avib (vibAll T pts)) / T).
Proof. exact vib_derive. Qed.
Print Assumptions C99_entropy.
Theorem C99_order : forall T pts, 0 < T -> (forall p, In p pts -> 0 <= fst p) -> Avib (vibAll T pts) <= ZPE (vibAll T pts) <= Evib (vibAll T pts).
Proof. exact vib_bounds. Qed.
Print Assumptions C99_order.
Theorem C99_zero_point : forall T pts, ZPE (vibAll T pts) = sumModes pts (fun o => 1/2 * o).
Proof. exact vib_zpe. Qed.
Print Assumptions C99_zero_point.
Theorem C99_imaginary_reported : forall pts q, (forall p, In p pts -> 0 < fst (fst p)) -> In q pts -> nth 0 (snd q) 0 < 0 ->
  exists km om p, imagWarning pts = Strongest km om (snd (fst p)) /\ In p pts /\ om = sqrt (- nth 0 (snd p) 0) /\ (forall p', In p' pts -> nth 0 (snd p) 0 <= nth 0 (snd p') 0) /\
    (forall p', In p' pts -> nth 0 (snd p') 0 <= 0 -> sqrt (fst (fst p')) <= km).
Proof. exact warning_found. Qed.
Print Assumptions C99_imaginary_reported.
Theorem C99_no_false_alarm : forall pts, (forall p, In p pts -> 0 < nth 0 (snd p) 0) -> imagWarning pts = NoWarning.
Proof. exact warning_none. Qed.
Print Assumptions C99_no_false_alarm.
Theorem C99_zero_mode_refuted : exists pts, (forall p, In p pts -> 0 < fst (fst p)) /\ (forall p e, In p pts -> In e (snd p) -> 0 <= e) /\ imagWarning pts = OutOfRange.
Proof. exact warning_zero_out. Qed.
Print Assumptions C99_zero_mode_refuted.
Theorem C99_molecule_refuted : forall fuel, quadratureBZ (8 + fuel) true true true = Some [] /\ forall T (eig : vec R -> list R), vibAll T (map (fun p : vec R * R => (snd p, eig (fst p))) []) = Vib 0 0 0.
Proof. exact (fun fuel => conj (quad_molecule fuel) (fun _ _ => eq_refl)). Qed.
Print Assumptions C99_molecule_refuted.
Theorem C99_unit_weight_refuted : exists fuel t0 t1 t2 l, quadratureBZ fuel t0 t1 t2 = Some l /\ l <> [] /\ sumR l snd <> 1.
Proof. exact weight_not_one. Qed.
Print Assumptions C99_unit_weight_refuted.
Example C99_example : (exists l, quadratureBZ 8 false false true = Some l /\ length l = (7 * 8 * 49)%nat) /\
  vibAll 1 [(1/2, [-1; 0; 4]); (1/2, [9])] = Vib (1/2 * 1 + 1/2 * (3/2)) (1/2 * (1 + 2 * exp (-2) / (1 - exp (-2))) + 1/2 * (3/2 + 3 * exp (-3) / (1 - exp (-3)))) (1/2 * (1 + ln (1 - exp (-2))) + 1/2 * (3/2 + ln (1 - exp (-3)))).
Proof. exact (conj layer_points two_modes). Qed.
