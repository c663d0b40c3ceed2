(** C64: reduction to the Wigner-Seitz cell. *)
From Coq Require Import ZArith Reals List Permutation.
From Verif Require Import Base Vec3_Model Lattice_Model WS_Model WS_Spec WS_Proofs WS_Proofs2 WS_Proofs3.
Import ListNotations.
Local Open Scope R_scope.

(** For every lattice and every list of bisecting planes that bounds its cell: the reduction of any point terminates, returns an equivalent point,
    not farther from the origin, and at least as close to the origin as to every other lattice point up to the tolerance 2e-8 |l|^2. *)
Theorem C64_reduce Rl faces : rdet Rl <> 0 -> List.Forall (fun f => nonzero (img f) /\ f = bisector Rl (img f)) faces -> bounds_cell Rl (map img faces) -> forall x, exists fuel0 y,
  (forall fuel, (fuel0 <= fuel)%nat -> reduce fuel faces x = Some y) /\ equivalent x y /\ cart2 Rl y <= cart2 Rl x /\ forall l, closer Rl (2 / 100000000) y l.
Proof. intros D V B x. destruct (nearest Rl faces D V B x) as (n & y & H). exists n, y. replace (2 / 100000000) with (2 * tol) by (unfold tol; field). exact H. Qed.
Print Assumptions C64_reduce.
Example C64_reduce_ex : rdet rid <> 0 /\ List.Forall (fun f => nonzero (img f) /\ f = bisector rid (img f)) cubicFaces /\ bounds_cell rid (map img cubicFaces) /\
  reduce 2 cubicFaces (V (7/10) 0 (-23/10)) = Some (V (-3/10) 0 (-3/10)).
Proof. exact (conj cubic_det (conj cubic_valid (conj cubic_bounds cubic_reduce))). Qed.

(** The reduction of mesh coordinates commutes with the reduction of points. *)
Theorem C64_mesh S faces : (0 < c0 S)%Z -> (0 < c1 S)%Z -> (0 < c2 S)%Z -> forall fuel iv,
  reduce fuel faces (V (IZR (c0 iv) * (1 / IZR (c0 S))) (IZR (c1 iv) * (1 / IZR (c1 S))) (IZR (c2 iv) * (1 / IZR (c2 S)))) =
  option_map (fun r => V (IZR (c0 r) * (1 / IZR (c0 S))) (IZR (c1 r) * (1 / IZR (c1 S))) (IZR (c2 r) * (1 / IZR (c2 S)))) (reduceMesh fuel faces S iv).
Proof. exact (mesh_ok S faces). Qed.
Print Assumptions C64_mesh.

(** The planes enumerated by the constructor bound exactly the cell, for every slicing routine. *)
Theorem C64_construction Rl addPlane rMax ivMap : rdet Rl <> 0 -> slices Rl addPlane -> extent Rl rMax ->
  Permutation ivMap (candidates Rl (maxSq Rl (initialVertices Rl))) -> by_distance Rl ivMap ->
  (forall y, poly Rl (build Rl addPlane rMax ivMap) y <-> in_cell Rl y) /\ (forall l, In l (build Rl addPlane rMax ivMap) -> nonzero l).
Proof. exact (build_cell Rl addPlane rMax ivMap). Qed.
Print Assumptions C64_construction.
Example C64_construction_ex Rl : rdet Rl <> 0 -> slices Rl (fun p a => a :: p) /\ extent Rl (fun _ => maxSq Rl (initialVertices Rl)) /\
  exists ivMap, Permutation ivMap (candidates Rl (maxSq Rl (initialVertices Rl))) /\ by_distance Rl ivMap.
Proof. intros D. exact (conj (slices_cons Rl) (conj (extent_const Rl D) (sorted_exists Rl _))). Qed.
(** The equations of the six initial faces are those of the bisecting planes. *)
Theorem C64_initial_faces Rl f : rdet Rl <> 0 -> In f (initialFaces Rl) -> f = bisector Rl (img f).
Proof. exact (initial_eqn Rl f). Qed.
Print Assumptions C64_initial_faces.
(** The faces kept by the constructor meet the hypotheses of the reduction. *)
Theorem C64_constructed_faces Rl addPlane rMax ivMap hs : rdet Rl <> 0 -> slices Rl addPlane -> extent Rl rMax ->
  Permutation ivMap (candidates Rl (maxSq Rl (initialVertices Rl))) -> by_distance Rl ivMap ->
  faceHalf Rl (build Rl addPlane rMax ivMap) = Some hs ->
  List.Forall (fun f => nonzero (img f) /\ f = bisector Rl (img f)) hs /\ bounds_cell Rl (map img hs).
Proof. exact (half_ok Rl addPlane rMax ivMap hs). Qed.
Print Assumptions C64_constructed_faces.

(** Distance to the boundary: zero outside the cell; inside, no point outside the cell is closer, and a point on a bisecting plane is at that distance. *)
Theorem C64_boundary_distance Rl faces : rdet Rl <> 0 -> List.Forall (fun f => nonzero (img f) /\ f = bisector Rl (img f)) faces -> bounds_cell Rl (map img faces) -> faces <> [] -> forall x,
  exists d, boundaryDistance Rl faces x None = Some d /\ 0 <= d /\ (~ in_cell Rl x -> d = 0) /\
  (in_cell Rl x -> (forall z, ~ in_cell Rl z -> d * d <= cart2 Rl (rvsub z x)) /\
    exists z l, nonzero l /\ cart2 Rl (rvsub z (vIZR l)) = cart2 Rl z /\ cart2 Rl (rvsub z x) = d * d).
Proof. exact (distance_ok Rl faces). Qed.
Print Assumptions C64_boundary_distance.
(** The radius of the inscribed sphere is the distance of the origin from the boundary, also when a direction is excluded. *)
Theorem C64_inradius Rl faces iDir : inRadius Rl faces iDir = boundaryDistance Rl faces (V 0 0 0) iDir.
Proof. exact (inRadius_boundary Rl faces iDir). Qed.
Print Assumptions C64_inradius.

(** getNeighbours is documented to leave out neighbours along truncated directions, but its continue statement only skips the inner loop. *)
Theorem C64_neighbours_refuted : exists isTruncated faces iv k, (k < 3)%nat /\ isTruncated k = true /\ vget iv k <> 0%Z /\ In iv (getNeighbours isTruncated faces).
Proof.
  exists (fun _ => true), cubicFaces, (V 1 0 0)%Z, 0%nat. rewrite neighbours_all. split; [repeat constructor|]. split; [reflexivity|]. split; [discriminate|left; reflexivity].
Qed.
Print Assumptions C64_neighbours_refuted.
Theorem C64_neighbours isTruncated faces : getNeighbours isTruncated faces = map img faces.
Proof. exact (neighbours_all isTruncated faces). Qed.
Print Assumptions C64_neighbours.
