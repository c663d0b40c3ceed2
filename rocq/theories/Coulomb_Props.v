(** C51: lattice gradients of the Coulomb and exchange kernels are derivatives with respect to homogeneous strain. *)
From Coq Require Import ZArith Reals List Lra Lia.
From Coquelicot Require Import Coquelicot.
From Verif Require Import Vec3_Model Vec3_Facts Basis_Model LDA_Model Coulomb_Model Coulomb_Spec Coulomb_Proofs Coulomb_Proofs2 Coulomb_Proofs3 Coulomb_Proofs4 Coulomb_Proofs5.
Import ListNotations.
Local Open Scope R_scope.

(** whole-grid statements: the matrix returned by getLatticeGradient is the strain derivative of the pair energy *)
Theorem C51_periodic (Rl e : mat R) (S2 : Z) (XY : list (vec Z * ((R * R) * (R * R)))) : rdet Rl <> 0 ->
  is_derive (fun t => pairEnergy (Rabs (rdet Rl)) S2 (fun iG => periodic iG (gGGT (strained Rl e t))) XY) 0
    (ddot (latticeGradient Rl (stressSum S2 (fun iG => periodic_grad iG (gGGT Rl)) XY)) e).
Proof. exact (c51_periodic Rl e S2 XY). Qed.
Print Assumptions C51_periodic.

Theorem C51_spherical (Rc : R) (Rl e : mat R) (S2 : Z) (XY : list (vec Z * ((R * R) * (R * R)))) : rdet Rl <> 0 ->
  is_derive (fun t => pairEnergy (Rabs (rdet Rl)) S2 (fun iG => spherical Rc iG (gGGT (strained Rl e t))) XY) 0
    (ddot (latticeGradient Rl (stressSum S2 (fun iG => spherical_grad Rc iG (gGGT Rl)) XY)) e).
Proof. exact (c51_spherical Rc Rl e S2 XY). Qed.
Print Assumptions C51_spherical.

Theorem C51_ionkernel (ionWidth GzeroVal : R) (Rl e : mat R) (S2 : Z) (XY : list (vec Z * ((R * R) * (R * R)))) : rdet Rl <> 0 ->
  is_derive (fun t => pairEnergy (Rabs (rdet Rl)) S2 (fun iG => ionkernel ionWidth GzeroVal iG (gGGT (strained Rl e t))) XY) 0
    (ddot (latticeGradient Rl (stressSum S2 (fun iG => ionkernel_grad ionWidth iG (gGGT Rl)) XY)) e).
Proof. exact (c51_ionkernel ionWidth GzeroVal Rl e S2 XY). Qed.
Print Assumptions C51_ionkernel.

(** slab: the truncation length follows the lattice vector; the strain must keep the truncated direction normal to the
    plane (the code refuses other lattices, CoulombWire.cpp lines 30-36) *)
Theorem C51_slab (iDir : nat) (Rl e : mat R) (c : R) (S2 : Z) (XY : list (vec Z * ((R * R) * (R * R)))) :
  rdet Rl <> 0 -> normal_dir Rl iDir -> keeps_normal e (mcol Rl iDir) c ->
  is_derive (fun t => pairEnergy (Rabs (rdet Rl)) S2
      (fun iG => slab iDir (hlfL_of iDir (strained Rl e t)) iG (gGGT (strained Rl e t))) XY) 0
    (ddot (latticeGradient Rl (stressSum S2 (fun iG => slab_grad iDir (hlfL_of iDir Rl) iG (gGGT Rl)) XY)) e).
Proof. exact (c51_slab iDir Rl e c S2 XY). Qed.
Print Assumptions C51_slab.

(** exchange kernels, per reciprocal vector iG+kDiff away from the threshold *)
Theorem C51_exchange_periodic (Rl e : mat R) (iG : vec Z) (kDiff : vec R) (Vzero th : R) :
  rdet Rl <> 0 -> 0 <= th -> metric2 (gGGT Rl) (rvadd (vIZR iG) kDiff) <> th ->
  is_derive (fun t => exchange exPeriodic Vzero th iG kDiff (gGGT (strained Rl e t))) 0
    (ddot (smat_mat (exchange_grad exPeriodic th iG kDiff (gG Rl))) e).
Proof. exact (exPeriodic_ok Rl e iG kDiff Vzero th). Qed.
Print Assumptions C51_exchange_periodic.

Theorem C51_exchange_screened (omega : R) (Rl e : mat R) (iG : vec Z) (kDiff : vec R) (Vzero th : R) :
  rdet Rl <> 0 -> 0 <= th -> metric2 (gGGT Rl) (rvadd (vIZR iG) kDiff) <> th ->
  is_derive (fun t => exchange (exScreened omega) Vzero th iG kDiff (gGGT (strained Rl e t))) 0
    (ddot (smat_mat (exchange_grad (exScreened omega) th iG kDiff (gG Rl))) e).
Proof. exact (exScreened_ok omega Rl e iG kDiff Vzero th). Qed.
Print Assumptions C51_exchange_screened.

(** spherical exchange with the radius taken from the supercell volume *)
Theorem C51_exchange_spherical (nk : R) (Rl e : mat R) (iG : vec Z) (kDiff : vec R) (Vzero th : R) :
  0 < nk -> rdet Rl <> 0 -> 0 <= th -> metric2 (gGGT Rl) (rvadd (vIZR iG) kDiff) <> th ->
  is_derive (fun t => exchange (exSpherical (superRc nk (strained Rl e t))) Vzero th iG kDiff (gGGT (strained Rl e t))) 0
    (ddot (smat_mat (exchange_grad (exSpherical (superRc nk Rl)) th iG kDiff (gG Rl))) e).
Proof. exact (c51_exchange_spherical nk Rl e iG kDiff Vzero th). Qed.
Print Assumptions C51_exchange_spherical.

(** with the fixed radius of CoulombSpherical (no exchange regularization, ExchangeEval line 381) the same gradient is
    not the derivative: it still contains the term for a radius growing with the volume *)
Theorem C51_exchange_spherical_fixed_radius_refuted :
  exists (Rc : R) (Rl e : mat R) (iG : vec Z) (kDiff : vec R) (Vzero th : R),
    0 < Rc /\ rdet Rl <> 0 /\ 0 <= th /\ th < metric2 (gGGT Rl) (rvadd (vIZR iG) kDiff) /\
    ~ is_derive (fun t => exchange (exSpherical Rc) Vzero th iG kDiff (gGGT (strained Rl e t))) 0
        (ddot (smat_mat (exchange_grad (exSpherical Rc) th iG kDiff (gG Rl))) e).
Proof. exact c51_fixed_radius. Qed.
Print Assumptions C51_exchange_spherical_fixed_radius_refuted.

Theorem C51_exchange_slab (iDir : nat) (Rl e : mat R) (c : R) (iG : vec Z) (kDiff : vec R) (Vzero th : R) :
  rdet Rl <> 0 -> normal_dir Rl iDir -> keeps_normal e (mcol Rl iDir) c -> vget kDiff iDir = 0 ->
  0 <= th < metric2 (gGGT Rl) (rvadd (vIZR iG) kDiff) ->
  is_derive (fun t => exslab iDir (hlfL_of iDir (strained Rl e t)) Vzero th iG kDiff (gGGT (strained Rl e t))) 0
    (ddot (smat_mat (exslab_grad iDir (hlfL_of iDir Rl) (zHatOuter Rl iDir) th iG kDiff (gG Rl))) e).
Proof. exact (exslab_ok iDir Rl e c iG kDiff Vzero th). Qed.
Print Assumptions C51_exchange_slab.

(** Example: a hexagonal-in-plane slab with its normal along z, and a strain with in-plane shear *)
Example C51_slab_lattice :
  let Rl := M 4 (-2) 0 0 3 0 0 0 20 in let e := M 1 (1/2) 0 (1/2) 2 0 0 0 3 in
  rdet Rl <> 0 /\ normal_dir Rl 2 /\ keeps_normal e (mcol Rl 2) 3 /\ vget (V (1/3) (1/4) 0) 2 = 0.
Proof.
  cbv zeta. split; [|split; [|split]].
  - v3_unfold. lra.
  - split; [lia|]. intros j J N. destruct j as [|[|[|j]]]; try lia; cbn [mcol]; v3_unfold; ring.
  - split; cbn [mcol]; v3_unfold; f_equal; ring.
  - reflexivity.
Qed.
(** the gradient is not trivially zero *)
Example C51_nonzero : ddot (latticeGradient (M (2 * PI) 0 0 0 (2 * PI) 0 0 0 (2 * PI))
  (stressSum 8 (fun iG => periodic_grad iG (gGGT (M (2 * PI) 0 0 0 (2 * PI) 0 0 0 (2 * PI)))) [(V 1%Z 0%Z 0%Z, ((1, 0), (1, 0)))])) rid <> 0.
Proof. exact c51_nonzero. Qed.
