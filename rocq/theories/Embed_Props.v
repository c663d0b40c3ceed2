(** C73: embedding of a periodic mesh in the enlarged mesh of truncated Coulomb interactions. *)
From Coq Require Import ZArith Reals List Permutation.
From Verif Require Import Base Vec3_Model Lattice_Model WS_Model WS_Spec WS_Proofs3 CellMap_Spec Embed_Model Embed_Spec Embed_Proofs5 Embed_Proofs6.
Import ListNotations.
Local Open Scope R_scope.

(** Expanding divides the value at every mesh point equally among its images in the closed Wigner-Seitz cell and leaves zero elsewhere;
    shrinking averages over the images. The result does not depend on the order in which threads insert the boundary points. *)
Theorem C73_expand_shrink (Rl : mat R) (faces : list face) (tr : nat -> bool) (S : vec Z) :
  rdet Rl <> 0 -> List.Forall (fun f => nonzero (img f) /\ f = bisector Rl (img f)) faces -> bounds_cell Rl (map img faces) ->
  (0 < c0 S)%Z /\ (0 < c1 S)%Z /\ (0 < c2 S)%Z -> truncation_orthogonal Rl tr -> resolved Rl S (map img faces) (1 / 100000000) -> fits16 Rl S -> (exists k, (k < 3)%nat /\ Z.Even (vget S k)) ->
  exists fuel0, forall fuel, (fuel0 <= fuel)%nat -> exists pairs, boundaryPairs fuel Rl faces S (embedS tr S) = Some pairs /\ forall order, Permutation order pairs ->
    (forall x, exists y, embedExpand fuel faces S (embedS tr S) order x = Some y /\
      (forall i l p, (0 <= i < points S)%Z -> images Rl S (embedS tr S) i l -> In p l -> y p = x i / INR (length l)) /\ (forall p, (forall i, ~ image Rl S (embedS tr S) i p) -> y p = 0)) /\
    (forall y, exists x, embedShrink fuel faces S (embedS tr S) order y = Some x /\ forall i l, (0 <= i < points S)%Z -> images Rl S (embedS tr S) i l -> x i = lsum y l / INR (length l)).
Proof. exact (embed_thm Rl faces tr S). Qed.
Print Assumptions C73_expand_shrink.

(** Every mesh point has images, so the values above are determined. *)
Theorem C73_images (Rl : mat R) (faces : list face) (tr : nat -> bool) (S : vec Z) :
  rdet Rl <> 0 -> List.Forall (fun f => nonzero (img f) /\ f = bisector Rl (img f)) faces -> bounds_cell Rl (map img faces) ->
  (0 < c0 S)%Z /\ (0 < c1 S)%Z /\ (0 < c2 S)%Z -> truncation_orthogonal Rl tr -> resolved Rl S (map img faces) (1 / 100000000) -> fits16 Rl S -> (exists k, (k < 3)%nat /\ Z.Even (vget S k)) ->
  forall i, (0 <= i < points S)%Z -> exists l, images Rl S (embedS tr S) i l /\ l <> [].
Proof. exact (images_ex Rl faces tr S). Qed.
Print Assumptions C73_images.

(** Expanding and shrinking are adjoint, and expanding conserves the integral (up to the volume element of the mesh, which is the same). *)
Theorem C73_adjoint (Rl : mat R) (faces : list face) (tr : nat -> bool) (S : vec Z) :
  rdet Rl <> 0 -> List.Forall (fun f => nonzero (img f) /\ f = bisector Rl (img f)) faces -> bounds_cell Rl (map img faces) ->
  (0 < c0 S)%Z /\ (0 < c1 S)%Z /\ (0 < c2 S)%Z -> truncation_orthogonal Rl tr -> resolved Rl S (map img faces) (1 / 100000000) -> fits16 Rl S -> (exists k, (k < 3)%nat /\ Z.Even (vget S k)) ->
  exists fuel0, forall fuel, (fuel0 <= fuel)%nat -> exists pairs, boundaryPairs fuel Rl faces S (embedS tr S) = Some pairs /\ forall order, Permutation order pairs ->
    forall x y, exists x' y', embedExpand fuel faces S (embedS tr S) order x = Some y' /\ embedShrink fuel faces S (embedS tr S) order y = Some x' /\
      zsum (fun p => y' p * y p) (points (embedS tr S)) = zsum (fun i => x i * x' i) (points S) /\ zsum y' (points (embedS tr S)) = zsum x (points S).
Proof. exact (adjoint_thm Rl faces tr S). Qed.
Print Assumptions C73_adjoint.

(** A cubic slab with two points per direction, truncated along the third, meets the hypotheses; mesh point 1 has the two images 1 and 3. *)
Example C73_ex : rdet rid <> 0 /\ List.Forall (fun f => nonzero (img f) /\ f = bisector rid (img f)) cubicFaces /\ bounds_cell rid (map img cubicFaces) /\
  truncation_orthogonal rid slabTr /\ resolved rid (cube 2) (map img cubicFaces) (1 / 100000000) /\ fits16 rid (cube 2) /\ (exists k, (k < 3)%nat /\ Z.Even (vget (cube 2) k)) /\
  embedS slabTr (cube 2) = V 2%Z 2%Z 4%Z /\ images rid (cube 2) (embedS slabTr (cube 2)) 1 [1; 3]%Z.
Proof.
  refine (conj cubic_det (conj cubic_valid (conj cubic_bounds (conj (rid_orth _) (conj (cube_resolved 2 _) (conj (cube_fits 2 _) (conj _ (conj eq_refl slab_images)))))))); try (split; reflexivity || discriminate).
  exists 0%nat. split; [repeat constructor|]. exists 1%Z. reflexivity.
Qed.

(** With an odd number of points in every direction no mesh point need be on the boundary; the code then dereferences rbegin() of an empty map:
    the remaining hypotheses of the theorems above do not suffice. *)
Theorem C73_odd_mesh_refuted : exists Rl faces tr S, rdet Rl <> 0 /\ List.Forall (fun f => nonzero (img f) /\ f = bisector Rl (img f)) faces /\ bounds_cell Rl (map img faces) /\
  ((0 < c0 S)%Z /\ (0 < c1 S)%Z /\ (0 < c2 S)%Z) /\ truncation_orthogonal Rl tr /\ resolved Rl S (map img faces) (1 / 100000000) /\ fits16 Rl S /\
  exists fuel0, forall fuel, (fuel0 <= fuel)%nat -> boundaryPairs fuel Rl faces S (embedS tr S) = Some [] /\
    forall order x, Permutation order [] -> embedExpand fuel faces S (embedS tr S) order x = None /\ embedShrink fuel faces S (embedS tr S) order x = None.
Proof.
  exists rid, cubicFaces, allTr, (cube 3). refine (conj cubic_det (conj cubic_valid (conj cubic_bounds (conj _ (conj (rid_orth _) (conj (cube_resolved 3 _) (conj (cube_fits 3 _) odd_empty))))))); repeat split; reflexivity || discriminate.
Qed.
Print Assumptions C73_odd_mesh_refuted.
