(** C37: the plane-wave basis.  Every theorem is closed by a lemma of Basis_Proofs. *)
From Coq Require Import ZArith Reals List Sorted Lra Lia.
From Verif Require Import Base Grid_Model Grid_Spec Vec3_Model Vec3_Facts Basis_Model Basis_Spec Basis_Proofs.
Import ListNotations.
Open Scope R_scope.

(** The basis holds every plane wave whose kinetic energy is within the cutoff, no other one, and none twice; the search box never cuts the sphere. *)
Theorem C37_exactly_the_sphere : forall Rl Ecut k, rdet Rl <> 0 -> 0 <= Ecut ->
  NoDup (basisVectors Rl Ecut k) /\ forall g, In g (basisVectors Rl Ecut k) <-> below_cutoff Rl Ecut k g.
Proof. exact (fun Rl Ecut k H HE => conj (basis_nodup Rl Ecut k) (fun g => basis_in Rl Ecut k g H HE)). Qed.
Print Assumptions C37_exactly_the_sphere.
Example C37_exactly_the_sphere_ex : rdet cubic <> 0 /\ 0 <= 1/2 /\ below_cutoff cubic (1/2) (V 0 0 0) (V (-1) 0 0)%Z /\ ~ below_cutoff cubic (1/2) (V 0 0 0) (V 1 1 0)%Z.
Proof. split; [apply cubic_det|]. rewrite !cubic_below. v3_unfold. lra. Qed.

(** The FFT box accepted by the grid setup (automatic or manual: every dimension at least Smin) holds the whole basis,
    the stored FFT indices are within the box and distinct, and rebuilding the basis from them returns the same vectors in the same order. *)
Theorem C37_indices_roundtrip : forall Rl Ecut GmaxRho k s0 s1 s2, rdet Rl <> 0 -> 0 <= Ecut ->
  Rabs (c0 k) < 1 -> Rabs (c1 k) < 1 -> Rabs (c2 k) < 1 ->
  (gridSmin Ecut GmaxRho (col0 Rl) <= s0)%Z -> (gridSmin Ecut GmaxRho (col1 Rl) <= s1)%Z -> (gridSmin Ecut GmaxRho (col2 Rl) <= s2)%Z ->
  let b := basisVectors Rl Ecut k in
  Forall (fits_box (s0,s1,s2)) b /\ Forall (fun i => 0 <= i < nr (s0,s1,s2))%Z (basisIndices (s0,s1,s2) b) /\
  NoDup (basisIndices (s0,s1,s2) b) /\ setupFromIndices (s0,s1,s2) (basisIndices (s0,s1,s2) b) = b.
Proof. exact roundtrip_all. Qed.
Print Assumptions C37_indices_roundtrip.
Example C37_indices_roundtrip_ex : Rabs (1/2) < 1 /\ (gridSmin (1/2) 0 (col0 cubic) <= 4)%Z.
Proof. rewrite (proj1 cubic_smin), Rabs_pos_eq by lra. split; [lra|lia]. Qed.

(** Without the bound on k the round trip fails: for k = (1,0,0) on the smallest accepted box the vector (-2,0,0) of the basis comes back as (2,0,0). *)
Theorem C37_indices_roundtrip_far_k_refuted : exists Rl Ecut k s, rdet Rl <> 0 /\ 0 <= Ecut /\
  (gridSmin Ecut 0 (col0 Rl) <= s)%Z /\ (gridSmin Ecut 0 (col1 Rl) <= s)%Z /\ (gridSmin Ecut 0 (col2 Rl) <= s)%Z /\
  let b := basisVectors Rl Ecut k in setupFromIndices (s,s,s) (basisIndices (s,s,s) b) <> b.
Proof. exact roundtrip_far_k. Qed.
Print Assumptions C37_indices_roundtrip_far_k_refuted.

(** On any box that holds the vectors the round trip is exact. *)
Theorem C37_rebuild : forall S l, pos3 S -> Forall (fits_box S) l ->
  setupFromIndices S (basisIndices S l) = l /\ (NoDup l -> NoDup (basisIndices S l)).
Proof. exact decode_list. Qed.
Print Assumptions C37_rebuild.
Example C37_rebuild_ex : setupFromIndices (4,6,5)%Z (basisIndices (4,6,5)%Z [V 2 (-2) (-2); V (-1) 3 2; V 0 0 0]%Z) = [V 2 (-2) (-2); V (-1) 3 2; V 0 0 0]%Z.
Proof. reflexivity. Qed.

(** The head is the ascending list of the positions of the low-frequency vectors (all components within -1..1). *)
Theorem C37_head : forall l, StronglySorted lt (basisHead l) /\ forall n, In n (basisHead l) <-> exists g, nth_error l n = Some g /\ low_G g.
Proof. exact head_ok. Qed.
Print Assumptions C37_head.
Example C37_head_ex : basisHead [V 2 0 0; V 1 (-1) 1; V 0 0 0; V 0 0 (-2)]%Z = [1; 2]%nat.
Proof. reflexivity. Qed.
