(** Properties of the Ewald sums. *)
From Coq Require Import ZArith Reals List Bool Lia Lra.
From Coquelicot Require Import Coquelicot.
From Verif Require Import Base Gauss Grid_Model Vec3_Model Coulomb_Model Basis_Model Ions_Model CellMap_Spec VdW_Model VdW_Spec Ewald_Model Ewald_Spec
  Ewald_Proofs3 Ewald_Proofs4 Ewald_Proofs7 Ewald_Proofs8 Ewald_Proofs9 Ewald_Proofs10.
Import ListNotations.
Local Open Scope R_scope.

(** * C80 *)
(** The forces and lattice derivative of the periodic sum are the derivatives of its energy. *)
Theorem C80_periodic_gradients : forall Rl sigma NR NG n Zc pos f s eps d, 0 < sigma -> rdet Rl <> 0 -> distinct_atoms n pos -> off_edges n pos (fun _ => V 0 0 0) ->
  let r := ewaldPeriodic Rl sigma NR NG n Zc pos f s in
  is_derive (fun t => energy (ewaldPeriodic (strained Rl eps t) sigma NR NG n Zc (displaced pos d t) f s)) 0
    (contraction (rmsub (latt r) s) eps - workOf n (added f (force r)) d).
Proof. exact periodic_gradient. Qed.
Print Assumptions C80_periodic_gradients.
Example C80_example : 0 < 1 /\ rdet (rdiag 2 2 2) <> 0 /\ distinct_atoms 2 exPos /\ off_edges 2 exPos (fun _ => V 0 0 0) /\ exPos 1%nat = V (1/3) (1/4) (1/5).
Proof. exact example_periodic. Qed.

(** * C81 *)
Theorem C81_total_force : forall Rl sigma NR NG n Zc pos f s, let F := added f (force (ewaldPeriodic Rl sigma NR NG n Zc pos f s)) in
  rsum (fun c => c0 (F c)) (seq 0 n) = 0 /\ rsum (fun c => c1 (F c)) (seq 0 n) = 0 /\ rsum (fun c => c2 (F c)) (seq 0 n) = 0.
Proof. exact periodic_total_force. Qed.
Print Assumptions C81_total_force.
Theorem C81_symmetric_lattice_derivative : forall Rl sigma NR NG n Zc pos f s, let S := rmsub (latt (ewaldPeriodic Rl sigma NR NG n Zc pos f s)) s in
  m01 S = m10 S /\ m02 S = m20 S /\ m12 S = m21 S.
Proof. exact periodic_symmetric. Qed.
Print Assumptions C81_symmetric_lattice_derivative.
Theorem C81_images : forall Rl sigma NR NG n Zc pos pos' f s, equivalent n pos pos' -> ewaldPeriodic Rl sigma NR NG n Zc pos' f s = ewaldPeriodic Rl sigma NR NG n Zc pos f s.
Proof. exact periodic_images. Qed.
Print Assumptions C81_images.
Theorem C81_ewald_formula : forall Rl sigma NR NG n Zc pos hp boxR boxG f s, 0 < sigma -> rdet Rl <> 0 -> (forall c, (c < n)%nat -> home (pos c) (hp c)) -> centred_box NR boxR -> centred_box NG boxG ->
  energy (ewaldPeriodic Rl sigma NR NG n Zc pos f s) = ewaldFormula Rl sigma n Zc hp boxR boxG.
Proof. exact periodic_formula. Qed.
Print Assumptions C81_ewald_formula.
Example C81_example : equivalent 2 exPos (fun c => rvadd (exPos c) (V 3 (-2) 1)) /\ home (V (4/3) (-3/4) (1/5)) (V (1/3) (1/4) (1/5)) /\ centred_box (1, 0, 0)%Z [(-1, 0, 0); (0, 0, 0); (1, 0, 0)]%Z.
Proof. exact example_images. Qed.

(** * C82 *)
Theorem C82_real_space_cutoff : forall Rl sigma n pos hp box c1 c2 g, rdet Rl <> 0 -> 0 < sigma -> (forall c, (c < n)%nat -> home (pos c) (hp c)) -> centred_box (NrealP Rl sigma) box ->
  (c1 < n)%nat -> (c2 < n)%nat -> ~ In g box ->
  (exists k, (k < 3)%nat /\ widths * sigma + planeSpacing Rl k < distance Rl hp c1 c2 g) /\ erfc (distance Rl hp c1 c2 g / (sqrt 2 * sigma)) < / 2 ^ 59.
Proof. exact real_cutoff. Qed.
Print Assumptions C82_real_space_cutoff.
Theorem C82_reciprocal_space_cutoff : forall Rl sigma box g, rdet Rl <> 0 -> 0 < sigma -> centred_box (NrecipP Rl sigma) box -> ~ In g box ->
  (exists k, (k < 3)%nat /\ widths / sigma + 2 * PI / rlen (latticeVec Rl k) < rlen (recipVec Rl g)) /\ exp (- (sigma * rlen (recipVec Rl g)) ^ 2 / 2) < / 2 ^ 59.
Proof. exact recip_cutoff. Qed.
Print Assumptions C82_reciprocal_space_cutoff.
Theorem C82_slab_real_space_cutoff : forall Rl sigma i n x0 pos hp box c1 c2 g, rdet Rl <> 0 -> 0 < sigma -> (forall c, (c < n)%nat -> homeSlab i x0 (pos c) (hp c)) -> centred_box (NrealS Rl sigma i) box ->
  (c1 < n)%nat -> (c2 < n)%nat -> inPlane i g -> ~ In g box ->
  (exists k, (k < 3)%nat /\ k <> i /\ widths * sigma + planeSpacing Rl k < distance Rl hp c1 c2 g) /\ erfc (distance Rl hp c1 c2 g / (sqrt 2 * sigma)) < / 2 ^ 59.
Proof. exact slab_real_cutoff. Qed.
Print Assumptions C82_slab_real_space_cutoff.
Theorem C82_slab_reciprocal_space_cutoff : forall Rl sigma i box g, rdet Rl <> 0 -> 0 < sigma -> centred_box (NrecipS Rl sigma i) box -> inPlane i g -> ~ In g box ->
  (exists k, (k < 3)%nat /\ k <> i /\ widths / sigma + 2 * PI / rlen (latticeVec Rl k) < rlen (recipVec Rl g)) /\ exp (- (sigma * rlen (recipVec Rl g)) ^ 2 / 2) < / 2 ^ 59.
Proof. exact slab_recip_cutoff. Qed.
Print Assumptions C82_slab_reciprocal_space_cutoff.
(** In directions that are summed over the slab boxes are those of the periodic sum; across the slab they hold one layer. *)
Theorem C82_slab_boxes_one_layer : forall Rl sigma i x y z, (In (x, y, z) (boxLoop (NrealS Rl sigma i)) \/ In (x, y, z) (boxLoop (NrecipS Rl sigma i))) -> (i < 3)%nat -> inPlane i (x, y, z).
Proof. exact slab_one_layer. Qed.
Print Assumptions C82_slab_boxes_one_layer.
(** The widths are positive, and scale with the lattice. *)
Theorem C82_widths_scale : forall Rl k n i, 0 < k -> rdet Rl <> 0 -> (i < 3)%nat ->
  0 < sigmaPeriodic Rl n /\ 0 < sigmaSlab Rl i /\ sigmaPeriodic (rmscale k Rl) n = k * sigmaPeriodic Rl n /\ sigmaSlab (rmscale k Rl) i = k * sigmaSlab Rl i.
Proof. exact widths_scale. Qed.
Print Assumptions C82_widths_scale.
Example C82_example : rdet (rdiag 2 2 2) <> 0 /\ (forall c, (c < 2)%nat -> home (exPos c) (exPos c)) /\ inPlane 2 (5, -7, 0)%Z /\ forall N, exists box, centred_box N box.
Proof. exact example_cutoff. Qed.

(** * C83 *)
Theorem C83_slab_gradients : forall Rl sigma i margin NR NG n Zc pos f s r eps d, 0 < sigma -> (i < 3)%nat -> rdet Rl <> 0 -> distinct_atoms n pos ->
  off_edges n pos (fun _ => alongAxis i (entry (pos 0%nat) i)) ->
  (forall hp c1 c2 g, (forall c, (c < n)%nat -> homeSlab i (pos 0%nat) (pos c) (hp c)) -> (c1 < n)%nat -> (c2 < n)%nat -> In g (boxLoop NG) ->
    rlen (recipVec Rl g) * Rabs (rlen (latticeVec Rl i) * entry (rvsub (hp c1) (hp c2)) i) <> 100) ->
  ewaldSlab Rl sigma i margin NR NG n Zc pos f s = Some r ->
  is_derive (fun t => match ewaldSlab (strained Rl eps t) sigma i margin NR NG n Zc (displaced pos d t) f s with Some a => energy a | None => 0 end) 0
    (contraction (rmsub (latt r) s) eps - workOf n (added f (force r)) d).
Proof. exact slab_gradient_spec. Qed.
Print Assumptions C83_slab_gradients.
Theorem C83_slab_total_force : forall Rl sigma i margin NR NG n Zc pos f s r, (i < 3)%nat -> rdet Rl <> 0 -> ewaldSlab Rl sigma i margin NR NG n Zc pos f s = Some r ->
  let F := added f (force r) in
  rsum (fun c => c0 (F c)) (seq 0 n) = 0 /\ rsum (fun c => c1 (F c)) (seq 0 n) = 0 /\ rsum (fun c => c2 (F c)) (seq 0 n) = 0.
Proof. exact slab_total_force. Qed.
Print Assumptions C83_slab_total_force.
Theorem C83_slab_symmetric_lattice_derivative : forall Rl sigma i margin NR NG n Zc pos f s r, (i < 3)%nat -> rdet Rl <> 0 -> ewaldSlab Rl sigma i margin NR NG n Zc pos f s = Some r ->
  let S := rmsub (latt r) s in m01 S = m10 S /\ m02 S = m20 S /\ m12 S = m21 S.
Proof. exact slab_symmetric. Qed.
Print Assumptions C83_slab_symmetric_lattice_derivative.
Theorem C83_slab_images : forall Rl sigma i margin NR NG n Zc pos pos' f s, (i < 3)%nat -> equivalent n pos pos' -> ewaldSlab Rl sigma i margin NR NG n Zc pos' f s = ewaldSlab Rl sigma i margin NR NG n Zc pos f s.
Proof. exact slab_images. Qed.
Print Assumptions C83_slab_images.
Theorem C83_slab_formula : forall Rl sigma i margin NR NG n Zc pos hp boxR boxG f s r, 0 < sigma -> rdet Rl <> 0 -> perpendicular Rl i -> (forall c, (c < n)%nat -> homeSlab i (pos 0%nat) (pos c) (hp c)) ->
  centred_box NR boxR -> centred_box NG boxG -> ewaldSlab Rl sigma i margin NR NG n Zc pos f s = Some r ->
  Rabs (energy r - slabFormula Rl sigma i n Zc hp boxR boxG) <= leftOut Rl i n Zc hp boxG.
Proof. exact slab_formula_bound. Qed.
Print Assumptions C83_slab_formula.
Theorem C83_slab_stops_only_near_boundary : forall Rl sigma i margin NR NG n Zc pos hp f s, (i < 3)%nat -> rdet Rl <> 0 -> perpendicular Rl i -> (forall c, (c < n)%nat -> homeSlab i (pos 0%nat) (pos c) (hp c)) ->
  ewaldSlab Rl sigma i margin NR NG n Zc pos f s = None ->
  exists c1 c2, (c1 < n)%nat /\ (c2 < n)%nat /\ rlen (latticeVec Rl i) / 2 - margin <= Rabs (height Rl i (rmv Rl (rvsub (hp c1) (hp c2)))).
Proof. exact slab_stops. Qed.
Print Assumptions C83_slab_stops_only_near_boundary.
Example C83_example : exists r, ewaldSlab (rdiag 2 2 2) 1 2 (1/10) (1, 1, 0)%Z (1, 1, 0)%Z 2 (fun _ => 1) exPos (fun _ => V 0 0 0) (rdiag 0 0 0) = Some r /\
  perpendicular (rdiag 2 2 2) 2 /\ off_edges 2 exPos (fun _ => alongAxis 2 (entry (exPos 0%nat) 2)) /\ (forall c, (c < 2)%nat -> homeSlab 2 (exPos 0%nat) (exPos c) (exPos c)) /\
  (forall hp c1 c2 g, (forall c, (c < 2)%nat -> homeSlab 2 (exPos 0%nat) (exPos c) (hp c)) -> (c1 < 2)%nat -> (c2 < 2)%nat -> In g (boxLoop (1, 1, 0)%Z) ->
    rlen (recipVec (rdiag 2 2 2) g) * Rabs (rlen (latticeVec (rdiag 2 2 2) 2) * entry (rvsub (hp c1) (hp c2)) 2) <> 100).
Proof. exact example_slab. Qed.

(** * C84 *)
Theorem C84_isolated_coulomb_law : forall Rc margin n Zc Rl boundary reduce pos f s r, ewaldIsolated Rl Rc margin boundary n Zc reduce pos f s = Some r ->
  energy r = coulombLaw Rl n Zc (fun c => rvadd (pos 0%nat) (reduce (rvsub (pos c) (pos 0%nat)))).
Proof. exact iso_energy_spec. Qed.
Print Assumptions C84_isolated_coulomb_law.
Theorem C84_isolated_gradients : forall Rl (reduce : R -> vec R -> vec R) (boundary : R -> vec R -> R) Rc margin n Zc pos f s r eps d, let p t x c := rvadd (x 0%nat) (reduce t (rvsub (x c) (x 0%nat))) in
  rdet Rl <> 0 -> apart n (p 0 pos) ->
  locally 0 (fun t => forall c, (c < n)%nat -> p t (displaced pos d t) c = displaced (p 0 pos) d t c) ->
  locally 0 (fun t => ewaldIsolated (strained Rl eps t) Rc margin (boundary t) n Zc (reduce t) (displaced pos d t) f s <> None) ->
  ewaldIsolated Rl Rc margin (boundary 0) n Zc (reduce 0) pos f s = Some r ->
  is_derive (fun t => match ewaldIsolated (strained Rl eps t) Rc margin (boundary t) n Zc (reduce t) (displaced pos d t) f s with Some a => energy a | None => 0 end) 0
    (contraction (rmsub (latt r) s) eps - workOf n (added f (force r)) d).
Proof. exact iso_gradient. Qed.
Print Assumptions C84_isolated_gradients.
Theorem C84_isolated_total_force : forall Rl reduce boundary Rc margin n Zc pos f s r, ewaldIsolated Rl Rc margin boundary n Zc reduce pos f s = Some r ->
  let F := added f (force r) in
  rsum (fun c => c0 (F c)) (seq 0 n) = 0 /\ rsum (fun c => c1 (F c)) (seq 0 n) = 0 /\ rsum (fun c => c2 (F c)) (seq 0 n) = 0.
Proof. exact iso_total_force. Qed.
Print Assumptions C84_isolated_total_force.
Theorem C84_isolated_symmetric_lattice_derivative : forall Rl reduce boundary Rc margin n Zc pos f s r, ewaldIsolated Rl Rc margin boundary n Zc reduce pos f s = Some r ->
  let S := rmsub (latt r) s in m01 S = m10 S /\ m02 S = m20 S /\ m12 S = m21 S.
Proof. exact iso_symmetric. Qed.
Print Assumptions C84_isolated_symmetric_lattice_derivative.
Theorem C84_isolated_margin : forall Rl reduce boundary Rc margin n Zc pos f s r c1 c2, ewaldIsolated Rl Rc margin boundary n Zc reduce pos f s = Some r -> (c1 < n)%nat -> (c2 < c1)%nat ->
  let x := rvsub (rvadd (pos 0%nat) (reduce (rvsub (pos c1) (pos 0%nat)))) (rvadd (pos 0%nat) (reduce (rvsub (pos c2) (pos 0%nat)))) in
  (Rc = 0 -> margin < boundary x) /\ (Rc <> 0 -> rlen (rmv Rl x) < Rc - margin).
Proof. exact iso_margin. Qed.
Print Assumptions C84_isolated_margin.
Theorem C84_field_gradient : forall rw xCenter n Zc d pos e f,
  is_derive (fun t => fst (fieldAtoms rw xCenter n Zc (displaced pos d t) (e, f))) 0 (- workOf n (added f (snd (fieldAtoms rw xCenter n Zc pos (e, f)))) d).
Proof. exact field_gradient. Qed.
Print Assumptions C84_field_gradient.
Theorem C84_field_potential : forall rw xCenter n Zc reduce pos e f, (forall c, (c < n)%nat -> reduce (rvsub (pos c) xCenter) = rvsub (pos c) xCenter) ->
  fst (fieldAtoms rw xCenter n Zc pos (e, f)) = e - rsum (fun c => Zc c * fieldPotential rw reduce xCenter (pos c)) (seq 0 n).
Proof. exact field_potential_spec. Qed.
Print Assumptions C84_field_potential.
Theorem C84_field_uniform : forall Rl E isTrunc x, (forall k, (k < 3)%nat -> isTrunc k = true) -> fieldPotential (splitEfield 0 isTrunc Rl E) (fun y => y) (V 0 0 0) x = - rdot E (rmv Rl x).
Proof. exact field_uniform. Qed.
Print Assumptions C84_field_uniform.
Theorem C84_field_threshold : forall thr Rl E k, rdet Rl <> 0 -> (k < 3)%nat -> 
  Rabs (RT_E thr Rl E k - rdot (latticeVec Rl k) E) <= Rabs thr * rlen E * rlen (latticeVec Rl k).
Proof. exact field_threshold_spec. Qed.
Print Assumptions C84_field_threshold.
Theorem C84_field_periodic : forall thr isTrunc Rl E x y k z, (k < 3)%nat -> isTrunc k = false -> entry y k = entry x k + IZR z -> fieldTerm (splitEfield thr isTrunc Rl E) y k = fieldTerm (splitEfield thr isTrunc Rl E) x k.
Proof. exact field_periodic_spec. Qed.
Print Assumptions C84_field_periodic.
(** With an electric field the lattice derivative is not that of the energy. *)
Theorem C84_field_lattice_derivative_refuted : exists Rl E pos Zc eps f s, let run t := withField symmThreshold (fun _ => true) (strained Rl eps t) E (V 0 0 0) 1 Zc (displaced pos (fun _ => V 0 0 0) t)
    (match ewaldIsolated (strained Rl eps t) 1 0 (fun _ => 1) 1 Zc (fun x => x) (displaced pos (fun _ => V 0 0 0) t) f s with Some a => a | None => Acc 0 f s end) in
  exists v, is_derive (fun t => energy (run t)) 0 v /\ v <> contraction (rmsub (latt (run 0)) s) eps - workOf 1 (added f (force (run 0))) (fun _ => V 0 0 0).
Proof. exact field_lattice_wrong. Qed.
Print Assumptions C84_field_lattice_derivative_refuted.
Theorem C84_embedding_gradients : forall (s xCenter : vec R) (inRange : R -> vec R -> bool) (reduce : R -> vec R -> vec R) (inner : R -> (nat -> vec R) -> (nat -> vec R) -> option (acc * (nat -> vec R))) n pos f d X r pos',
  c0 s <> 0 -> c1 s <> 0 -> c2 s <> 0 ->
  (forall t f' p p', (forall c, (c < n)%nat -> p c = p' c) -> inner t p f' = inner t p' f') ->
  locally 0 (fun t => forall c, (c < n)%nat -> reduce t (rvsub (displaced pos d t c) xCenter) = rvadd (reduce 0 (rvsub (pos c) xCenter)) (rvscale t (d c)) /\ inRange t (reduce t (rvsub (displaced pos d t c) xCenter)) = true) ->
  let en o := match o with Some (a, _) => energy a | None => 0 end in
  let p0 c := diag3 s (reduce 0 (rvsub (pos c) xCenter)) in
  (forall a q, inner 0 p0 (fun c => diag3 (inv3 s) (f c)) = Some (a, q) ->
    is_derive (fun t => en (inner t (displaced p0 (fun c => diag3 s (d c)) t) (fun c => diag3 (inv3 s) (f c)))) 0 (X - workOf n (added (fun c => diag3 (inv3 s) (f c)) (force a)) (fun c => diag3 s (d c)))) ->
  embedded s (inRange 0) (reduce 0) xCenter (inner 0) n pos f = Some (r, pos') ->
  is_derive (fun t => en (embedded s (inRange t) (reduce t) xCenter (inner t) n (displaced pos d t) f)) 0 (X - workOf n (added f (force r)) d).
Proof. exact embed_gradient. Qed.
Print Assumptions C84_embedding_gradients.
Theorem C84_embedding_positions : forall s inRange reduce xCenter inner n pos f r pos' x y z, c0 s * IZR x = 1 -> c1 s * IZR y = 1 -> c2 s * IZR z = 1 -> (forall p g a q, inner p g = Some (a, q) -> equivalent n p q) ->
  (forall x, integral3 (rvsub (reduce x) x)) -> embedded s inRange reduce xCenter inner n pos f = Some (r, pos') -> equivalent n pos pos'.
Proof. exact embed_positions. Qed.
Print Assumptions C84_embedding_positions.
Example C84_example : exists r, ewaldIsolated (rdiag 2 2 2) 5 (1/10) (fun _ => 1) 2 (fun _ => 1) (fun x => x) exPos (fun _ => V 0 0 0) (rdiag 0 0 0) = Some r /\ apart 2 exPos /\ c0 (V (1/2) (1/2) 1) * IZR 2 = 1.
Proof. exact example_isolated. Qed.
