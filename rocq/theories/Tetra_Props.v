(** C42: density of states of a tetrahedron, and the tessellation of the mesh cells. *)
From Coq Require Import ZArith Reals List Lra.
From Verif Require Import Base Vec3_Model Tetra_Model Tetra_Spec Tetra_Proofs.
Import ListNotations.
Open Scope R_scope.

(** the integral over all energies increases by the volume times the mean corner weight *)
Theorem C42_integral : forall vol e0 e1 e2 e3 w0 w1 w2 w3 cs, e0 <= e1 -> e1 <= e2 -> e2 <= e3 ->
  let r := accumTetrahedron vol (e0, w0) (e1, w1) (e2, w2) (e3, w3) cs in
  integrals (pieces r) + masses (deltas r) = integrals (pieces cs) + masses (deltas cs) + vol * ((w0 + w1 + w2 + w3) / 4).
Proof. exact accum_integral. Qed.
Print Assumptions C42_integral.
(** at every energy the density increases by that of the slice of the tetrahedron *)
Theorem C42_pointwise : forall vol e0 e1 e2 e3 w0 w1 w2 w3 cs E, e0 <= e1 -> e1 <= e2 -> e2 <= e3 ->
  E <> e0 -> E <> e1 -> E <> e2 -> E <> e3 ->
  density (pieces (accumTetrahedron vol (e0, w0) (e1, w1) (e2, w2) (e3, w3) cs)) E =
  density (pieces cs) E + sliceDensity vol e0 e1 e2 e3 w0 w1 w2 w3 E.
Proof. exact accum_density. Qed.
Print Assumptions C42_pointwise.
(** all tetrahedra have the same share of the total weight *)
Theorem C42_equal_volumes : forall GT GTsup s kmesh weightSum, rdet GT <> 0 -> rdet GTsup <> 0 -> In s signChoices -> kmesh <> [] ->
  List.length (volumes GT GTsup s kmesh weightSum) = (6 * List.length kmesh)%nat /\
  forall v, In v (volumes GT GTsup s kmesh weightSum) -> v = weightSum / (6 * INR (List.length kmesh)).
Proof. exact volumes_equal. Qed.
Print Assumptions C42_equal_volumes.
Theorem C42_diagonal : forall GTsup, exists s, sBest GTsup = Some s /\ In s signChoices /\
  forall s', In s' signChoices -> rlen2 (rmv GTsup (vIZR s)) <= rlen2 (rmv GTsup (vIZR s')).
Proof. exact sBest_ok. Qed.
Print Assumptions C42_diagonal.
(** the six tetrahedra cover the cell up to the planes between them, and do not overlap *)
Theorem C42_tessellation_covers : forall s y0 y1 y2, In s signChoices -> 0 < y0 < 1 -> 0 < y1 < 1 -> 0 < y2 < 1 -> y0 <> y1 -> y1 <> y2 -> y0 <> y2 ->
  exists t, In t cellVerts /\ insideTet s t (scaled s (y0, y1, y2)).
Proof. exact tess_cover. Qed.
Print Assumptions C42_tessellation_covers.
Theorem C42_tessellation_disjoint : forall s t t' x, In s signChoices -> In t cellVerts -> In t' cellVerts -> insideTet s t x -> insideTet s t' x -> t = t'.
Proof. exact tess_disjoint. Qed.
Print Assumptions C42_tessellation_disjoint.

(** two equal middle energies *)
Example ex42 : let r := accumTetrahedron 12 (0, 1) (1, 2) (1, 3) (3, 6) {| pieces := []; deltas := [] |} in
  integrals (pieces r) + masses (deltas r) = 36.
Proof. cbv zeta. rewrite C42_integral by lra. cbn. lra. Qed.
Example ex42_flat : let r := accumTetrahedron 12 (2, 1) (2, 2) (2, 3) (2, 6) {| pieces := []; deltas := [] |} in
  integrals (pieces r) + masses (deltas r) = 36.
Proof. cbv zeta. rewrite C42_integral by lra. cbn. lra. Qed.
Example ex42_volumes : rdet (M 1 0 0 0 1 0 0 0 1) <> 0 /\ rdet (M (1/2) 0 0 0 (1/2) 0 0 0 1) <> 0 /\ In (V 1 1 (-1))%Z signChoices.
Proof. split; [|split]; [| |cbn; tauto]; unfold rdet, gdet, gbox, gdot, gcross, row0, row1, row2; cbn; lra. Qed.
Example ex42_tess : exists t, In t cellVerts /\ insideTet (V 1 (-1) 1)%Z t (scaled (V 1 (-1) 1)%Z (1/2, 1/3, 1/4)).
Proof. apply C42_tessellation_covers; try lra. cbn. tauto. Qed.
