(** End-to-end statements with the probe-charge correction; examples. *)
From Coq Require Import ZArith Reals List Lia Lra Psatz.
From Coquelicot Require Import Coquelicot.
From Verif Require Import Base Gauss RealUtil Vec3_Model Vec3_Facts Lattice_Model Basis_Model Coulomb_Model Coulomb_Spec Coulomb_Proofs Coulomb_Proofs3 Grid_Model CellMap_Spec VdW_Model Ewald_Model Ewald_Spec Ewald_Proofs10 Exchange_Model Exchange_Spec Exchange_Proofs Exchange_Proofs2 Exchange_Proofs3 Exchange_Proofs4 Exchange_Proofs5.
Import ListNotations.
Local Open Scope R_scope.
Set Bullet Behavior "Strict Subproofs".

Definition screenedCorr (omega : R) (N : V3) (Rs : mat R) : R * mat R := probeCorrection Rs (probeScreened Rs omega N).
Definition ewaldCorr (sigma : R) (NR NG : V3) (Rs : mat R) : R * mat R := probeCorrection Rs (probeEwald Rs sigma NR NG).

Lemma det_super Rl S : rdet Rl <> 0 -> rdet S <> 0 -> rdet (rmm Rl S) <> 0.
Proof. intros A B. replace (rdet (rmm Rl S)) with (rdet Rl * rdet S); [apply Rmult_integral_contrapositive; split; assumption|]. destruct Rl, S. v3u. ring. Qed.
Lemma super_str Rl e S t : strained (rmm Rl S) e t = rmm (strained Rl e t) S.
Proof. exact (super_strained Rl e S t). Qed.
Lemma screenedCorr_derive omega N Rl S e : 0 < omega -> rdet Rl <> 0 -> rdet S <> 0 ->
  is_derive (fun t => fst (screenedCorr omega N (rmm (strained Rl e t) S))) 0 (ddot (snd (screenedCorr omega N (rmm (strained Rl e 0) S))) e).
Proof.
  intros W D DS. rewrite <- super_str. apply (is_derive_ext (fun t => fst (probeCorrection (strained (rmm Rl S) e t) (probeScreened (strained (rmm Rl S) e t) omega N)))).
  - intros t. rewrite super_str. reflexivity.
  - rewrite (Coulomb_Proofs.strained_0 (rmm Rl S) e).
    assert (C := correction_derive (rmm Rl S) e (fun t => probeScreened (strained (rmm Rl S) e t) omega N) (det_super Rl S D DS)). cbv beta in C.
    rewrite (Coulomb_Proofs.strained_0 (rmm Rl S) e) in C. apply C. apply (probe_derive omega W). apply det_super; assumption.
Qed.
Lemma ewaldCorr_derive sigma NR NG Rl S e : 0 < sigma -> rdet Rl <> 0 -> rdet S <> 0 ->
  is_derive (fun t => fst (ewaldCorr sigma NR NG (rmm (strained Rl e t) S))) 0 (ddot (snd (ewaldCorr sigma NR NG (rmm (strained Rl e 0) S))) e).
Proof.
  intros W D DS. rewrite <- super_str. apply (is_derive_ext (fun t => fst (probeCorrection (strained (rmm Rl S) e t) (probeEwald (strained (rmm Rl S) e t) sigma NR NG)))).
  - intros t. rewrite super_str. reflexivity.
  - rewrite (Coulomb_Proofs.strained_0 (rmm Rl S) e).
    assert (C := correction_derive (rmm Rl S) e (fun t => probeEwald (strained (rmm Rl S) e t) sigma NR NG) (det_super Rl S D DS)). cbv beta in C.
    rewrite (Coulomb_Proofs.strained_0 (rmm Rl S) e) in C. apply C. apply (probeEwald_derive _ _ _ _ _ W). apply det_super; assumption.
Qed.
Lemma screened_probe_whole omega N S grid X th kDiff Rl e : 0 < omega -> rdet Rl <> 0 -> rdet S <> 0 -> 0 < th -> NoDup grid -> In (V 0 0 0)%Z grid -> regular Rl th grid kDiff ->
  let Vz Rl := VzeroPeriodic omega (probeCorrection (rmm Rl S) (probeScreened (rmm Rl S) omega N)) in
  is_derive (fun t => exchangeEnergy grid X (fun g => exchange (periodicKernel omega) (fst (Vz (strained Rl e t))) th g kDiff (gGGT (strained Rl e t))) (Rabs (rdet Rl))) 0
    (ddot (exchangeStress grid X th kDiff (fun g => exchange_grad (periodicKernel omega) th g kDiff (gG Rl)) (snd (Vz Rl)) (Rabs (rdet Rl))) e).
Proof.
  intros W D DS T ND I0 Rg Vz. assert (P := periodic_whole omega grid X th kDiff Rl e (fun t => screenedCorr omega N (rmm (strained Rl e t) S)) D T ND I0 Rg).
  cbv beta in P. specialize (P (screenedCorr_derive omega N Rl S e W D DS)). rewrite (Coulomb_Proofs.strained_0 Rl e) in P. exact P.
Qed.
Lemma ewald_probe_whole sigma NR NG S grid X th kDiff Rl e : 0 < sigma -> rdet Rl <> 0 -> rdet S <> 0 -> 0 < th -> NoDup grid -> In (V 0 0 0)%Z grid -> regular Rl th grid kDiff ->
  let Vz Rl := VzeroPeriodic 0 (probeCorrection (rmm Rl S) (probeEwald (rmm Rl S) sigma NR NG)) in
  is_derive (fun t => exchangeEnergy grid X (fun g => exchange (periodicKernel 0) (fst (Vz (strained Rl e t))) th g kDiff (gGGT (strained Rl e t))) (Rabs (rdet Rl))) 0
    (ddot (exchangeStress grid X th kDiff (fun g => exchange_grad (periodicKernel 0) th g kDiff (gG Rl)) (snd (Vz Rl)) (Rabs (rdet Rl))) e).
Proof.
  intros W D DS T ND I0 Rg Vz. assert (P := periodic_whole 0 grid X th kDiff Rl e (fun t => ewaldCorr sigma NR NG (rmm (strained Rl e t) S)) D T ND I0 Rg).
  cbv beta in P. specialize (P (ewaldCorr_derive sigma NR NG Rl S e W D DS)). rewrite (Coulomb_Proofs.strained_0 Rl e) in P. exact P.
Qed.
(** The correction cancels the interaction of a unit charge with its images in the supercell: energy E per supercell, pair density of one electron per supercell *)
Lemma correction_value Rs E : fst (probeCorrection Rs E) = - 2 * (Rabs (rdet Rs) * fst E).
Proof. unfold probeCorrection. cbn [fst]. ring. Qed.

Lemma effGsq_wave Rl g : is_lim (fun t => effGsq (rvscale t g) (gGGT Rl) / (t * t)) 0 (waveSq Rl g).
Proof. rewrite wave_metric. destruct (gGGT_sym Rl) as (A & B & C). exact (effGsq_limit g (gGGT Rl) A B C). Qed.
Lemma fSingular3D_wave Rl g : rdet Rl <> 0 -> g <> V 0 0 0 -> is_lim (fun t => (t * t) * fSingular3D (rvscale t g) (gGGT Rl) 0) 0 (4 * PI / waveSq Rl g).
Proof. rewrite wave_metric. exact (fSingular3D_limit Rl g). Qed.
Lemma fSingular2D_unscreened Rl g : rdet Rl <> 0 -> ~ integer3 g -> fSingular2D g (gGGT Rl) 0 * sqrt (effGsq g (gGGT Rl)) = 2 * PI /\ 0 < fSingular2D g (gGGT Rl) 0.
Proof.
  intros D I. assert (N := effGsq_nonneg Rl g D). assert (P := PI_RGT_0). assert (Ne : effGsq g (gGGT Rl) <> 0) by (intros E; apply I; apply (effGsq_zero Rl); auto).
  assert (GP : 0 < sqrt (effGsq g (gGGT Rl))) by (apply sqrt_lt_R0; lra). unfold fSingular2D. cbv zeta. destruct (Req_EM_T 0 0) as [_|E]; [|lra].
  destruct (Req_EM_T (sqrt (effGsq g (gGGT Rl))) 0) as [E|E]; [lra|]. split; [field; exact E|]. apply Rdiv_lt_0_compat; lra.
Qed.

(** examples *)
Definition exGrid : list (vec Z) := [V 0 0 0; V 1 0 0; V (-1) 0 0; V 0 1 0]%Z.
Lemma waveSq_rid k : waveSq rid k = (2 * PI) * (2 * PI) * rlen2 k.
Proof. destruct k. unfold waveSq, rinv. v3u. cbn. field. Qed.
Lemma example_grid : rdet rid <> 0 /\ NoDup exGrid /\ In (V 0 0 0)%Z exGrid /\ regular rid (1/100) exGrid (V 0 0 0) /\ regular rid (1/100) exGrid (V (1/2) (1/2) 0) /\
  normal_dir rid 2 /\ keeps_normal (rdiag 1 2 3) (mcol rid 2) 3 /\ vget (V (1/2) (1/2) 0) 2 = 0 /\ rdet (rdiag 2 2 1) <> 0.
Proof.
  assert (P3 := PI2_3_2). assert (PP : 9 < PI * PI) by nra.
  split; [v3u; cbn; lra|split; [|split; [left; reflexivity|split; [|split; [|split; [|split; [|split; [reflexivity|v3u; cbn; lra]]]]]]]].
  - unfold exGrid. repeat constructor; cbn; intros H; repeat destruct H as [H|H]; try discriminate H; exact H.
  - left. split; [reflexivity|]. intros g G N. rewrite waveSq_rid. unfold exGrid in G. cbn in G.
    repeat destruct G as [<-|G]; try (exfalso; apply N; reflexivity); try (destruct G); unfold real3; v3u; cbn; nra.
  - right. split; [v3u; cbn; lra|]. intros g G. rewrite waveSq_rid. unfold exGrid in G. cbn in G.
    repeat destruct G as [<-|G]; try (destruct G); unfold real3; v3u; cbn; nra.
  - split; [lia|]. intros j J N. destruct j as [|[|[|j]]]; [| |lia|lia]; unfold mcol; v3u; cbn; ring.
  - split; unfold mcol; v3u; cbn; f_equal; ring.
Qed.
Lemma example_aux : integer3 (V 2 (-1) 0) /\ ~ integer3 (V (1/2) 0 0) /\ centred_box (1, 0, 0)%Z [(-1, 0, 0); (0, 0, 0); (1, 0, 0)]%Z /\ summed (fun k => Nat.eqb k 2) (1, 5, 0)%Z.
Proof.
  split; [exists 2%Z, (-1)%Z, 0%Z; reflexivity|split; [|split]].
  - intros (x & y & z & E). injection E as E _ _. assert (H : 2 * IZR x = 1) by lra. rewrite <- mult_IZR in H. apply eq_IZR in H. lia.
  - exact (proj2 (proj2 Ewald_Proofs10.example_images)).
  - cbn. repeat split; intros; try discriminate; reflexivity.
Qed.
