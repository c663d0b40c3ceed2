(** Dispersion corrections: energies as sums over all images, forces and lattice derivatives, reference tables, sampling and cache. *)
From Coq Require Import ZArith Reals List.
From Coquelicot Require Import Coquelicot.
From Verif Require Import Base WorkDiv_Model Grid_Model Grid_Spec Vec3_Model Vec3_Facts Coulomb_Model Ions_Model CellMap_Spec VdW_Model VdW_Spec VdW_Proofs2 VdW_Proofs4 VdW_Proofs5 VdW_Proofs7 VdW_Proofs8 VdW_Proofs9.
Import ListNotations.
Local Open Scope R_scope.

(** ** C75 *)
Theorem C75_d2_energy : forall Rl tr rCut nProcs fuel procs B n par pos scaleFac,
  0 < rCut -> (forall k, (k < 3)%nat -> rlen (mrow (mtrans Rl) k) <> 0) -> (0 < nProcs)%Z -> (nG (sampling Rl tr rCut) < Z.of_nat fuel)%Z ->
  allProcs (sampling Rl tr rCut) nProcs fuel (zrange 0 nProcs) = Some procs -> whole_box (sampling Rl tr rCut) B ->
  (forall c, (c < n)%nat -> 0 < p_R0 (par c)) ->
  (forall c1 c2 g, (c1 < n)%nat -> (c2 < n)%nat -> In g B -> distance Rl pos c1 c2 g = 0 \/ 3000002494598603 / 10000000000000000 * (p_R0 (par c1) + p_R0 (par c2)) <= distance Rl pos c1 c2 g) ->
  Etot (energyAndGradD2 Rl n par pos scaleFac 0 procs) =
  - (scaleFac / 2) * rsum (fun c1 => neighbour_sum Rl pos n B (fun _ => true) (fun c2 d => grimme2 (sqrt (p_C6 (par c1) * p_C6 (par c2))) (p_R0 (par c1) + p_R0 (par c2)) d) c1) (seq 0 n).
Proof. exact d2_energy_full. Qed.
Print Assumptions C75_d2_energy.
Example C75_d2_energy_example : exists procs B, allProcs (sampling cube (fun _ => false) 25) 2 (Z.to_nat (nG (sampling cube (fun _ => false) 25) + 1)) (zrange 0 2) = Some procs /\ whole_box (sampling cube (fun _ => false) 25) B /\
  Etot (energyAndGradD2 cube 2 carbons dimer (3/4) 0 procs) =
  - (3/4 / 2) * rsum (fun c1 => neighbour_sum cube dimer 2 B (fun _ => true) (fun c2 d => grimme2 (sqrt (4 * 4)) (1/2 + 1/2) d) c1) (seq 0 2).
Proof. exact ex_d2_full. Qed.

Theorem C75_lennard_jones_energy : forall Rl tr rCut nProcs fuel procs B n par pos scaleFac lj,
  0 < rCut -> (forall k, (k < 3)%nat -> rlen (mrow (mtrans Rl) k) <> 0) -> (0 < nProcs)%Z -> (nG (sampling Rl tr rCut) < Z.of_nat fuel)%Z ->
  allProcs (sampling Rl tr rCut) nProcs fuel (zrange 0 nProcs) = Some procs -> whole_box (sampling Rl tr rCut) B -> lj <> 0 ->
  Etot (energyAndGradD2 Rl n par pos scaleFac lj procs) =
  - (scaleFac / 2) * rsum (fun c1 => neighbour_sum Rl pos n B (fun d => if Rle_dec d lj then true else false) (fun c2 d => lennardJones (sqrt (p_C6 (par c1) * p_C6 (par c2))) (p_R0 (par c1) + p_R0 (par c2)) d) c1) (seq 0 n).
Proof. exact d2_energy_lj. Qed.
Print Assumptions C75_lennard_jones_energy.
Example C75_lennard_jones_energy_example : Etot (energyAndGradD2 cube 2 carbons dimer 1 8 [[]; [(0, 0, 0)%Z]]) =
  - (1 / 2) * rsum (fun c1 => neighbour_sum cube dimer 2 [(0, 0, 0)%Z] (fun d => if Rle_dec d 8 then true else false) (fun c2 d => lennardJones (sqrt (4 * 4)) (1/2 + 1/2) d) c1) (seq 0 2).
Proof. exact ex_lj_full. Qed.

Theorem C75_coordination_numbers : forall Rl tr nProcs fuel procs B n aps sp pos c,
  (forall k, (k < 3)%nat -> rlen (mrow (mtrans Rl) k) <> 0) -> (0 < nProcs)%Z -> (nG (sampling Rl tr 50) < Z.of_nat fuel)%Z ->
  allProcs (sampling Rl tr 50) nProcs fuel (zrange 0 nProcs) = Some procs -> whole_box (sampling Rl tr 50) B -> (c < n)%nat ->
  computeCN aps n sp Rl pos procs c = neighbour_sum Rl pos n B (fun d => if Rle_dec d 50 then true else false) (fun c2 d => counting (k2Rcov (aps (sp c)) + k2Rcov (aps (sp c2))) d) c.
Proof. exact cn_full. Qed.
Print Assumptions C75_coordination_numbers.
Example C75_coordination_numbers_example : computeCN apsEx 2 (fun _ => 0%nat) cube dimer [[]; [(0, 0, 0)%Z]] 1%nat =
  neighbour_sum cube dimer 2 [(0, 0, 0)%Z] (fun d => if Rle_dec d 50 then true else false) (fun c2 d => counting (1/10 + 1/10) d) 1%nat.
Proof. exact (dimer_CN 1 (le_n 2)). Qed.

(** coordination number, C6 and damping radius of a pair, in terms of the sums above *)
Theorem C75_d3_energy : forall Rl tr rCut nProcs fuel1 fuel2 procs1 procs2 B1 B2 (bj : bool) s6 s8 sr6 sr8 (aps : nat -> atomParams) (pps : nat -> nat -> pairParams) n (sp : nat -> nat) pos,
  let CN := fun c => neighbour_sum Rl pos n B2 (fun d => if Rle_dec d 50 then true else false) (fun c2 d => counting (k2Rcov (aps (sp c)) + k2Rcov (aps (sp c2))) d) c in
  let C6 := fun c1 c2 => interpolated (CNref (aps (sp c1))) (CNref (aps (sp c2))) (entry (pp_C6 (pps (sp c1) (sp c2)))) (CN c1) (CN c2) in
  let ratio := fun c1 c2 => 3 * sqrtQ (aps (sp c1)) * sqrtQ (aps (sp c2)) in
  let R0 := fun c1 c2 => if bj then sqrt (ratio c1 c2) else pp_R0 (pps (sp c1) (sp c2)) in
  0 < rCut -> (forall k, (k < 3)%nat -> rlen (mrow (mtrans Rl) k) <> 0) -> (0 < nProcs)%Z ->
  (nG (sampling Rl tr rCut) < Z.of_nat fuel1)%Z -> (nG (sampling Rl tr 50) < Z.of_nat fuel2)%Z ->
  allProcs (sampling Rl tr rCut) nProcs fuel1 (zrange 0 nProcs) = Some procs1 -> allProcs (sampling Rl tr 50) nProcs fuel2 (zrange 0 nProcs) = Some procs2 ->
  whole_box (sampling Rl tr rCut) B1 -> whole_box (sampling Rl tr 50) B2 ->
  (forall a b, pp_R0 (pps a b) = pp_R0 (pps b a)) ->
  (forall a b, nr (pp_C6 (pps a b)) = length (CNref (aps a)) /\ nc (pp_C6 (pps a b)) = length (CNref (aps b))) ->
  (forall a b i j, (i < length (CNref (aps a)))%nat -> (j < length (CNref (aps b)))%nat -> entry (pp_C6 (pps a b)) i j = entry (pp_C6 (pps b a)) j i) ->
  (forall c, (c < n)%nat -> / 10 ^ 40 <= gaussSum (CNref (aps (sp c))) (CN c)) ->
  (bj = true -> forall c1 c2, (c1 < n)%nat -> (c2 < n)%nat -> C6 c1 c2 <> 0) ->
  fst (energyAndGradD3 bj s6 s8 sr6 sr8 aps pps n sp Rl pos rCut (combine procs1 procs2)) =
  - (1/2) * rsum (fun c1 => neighbour_sum Rl pos n B1 (fun d => if Rle_dec d rCut then true else false)
    (fun c2 d => d3attraction bj s6 s8 sr6 sr8 (C6 c1 c2) (C6 c1 c2 * ratio c1 c2) (R0 c1 c2) d) c1) (seq 0 n).
Proof. exact d3_energy_full. Qed.
Print Assumptions C75_d3_energy.
Example C75_d3_energy_example : fst (energyAndGradD3 false 1 (7/10) (12/10) 1 apsEx ppsEx 2 (fun _ => 0%nat) cube dimer 20 [([], []); ([(0, 0, 0)%Z], [(0, 0, 0)%Z])]) =
  - (1/2) * rsum (fun c1 => neighbour_sum cube dimer 2 [(0, 0, 0)%Z] (fun d => if Rle_dec d 20 then true else false)
    (fun c2 d => d3attraction false 1 (7/10) (12/10) 1 (dispersionC6 cube [(0, 0, 0)%Z] apsEx ppsEx 2 (fun _ => 0%nat) dimer c1 c2) (dispersionC6 cube [(0, 0, 0)%Z] apsEx ppsEx 2 (fun _ => 0%nat) dimer c1 c2 * (3 * 1 * 1)) 1 d) c1) (seq 0 2).
Proof. exact ex_d3_full. Qed.

(** ** C76 *)
Theorem C76_d2_gradient : forall n par scaleFac lj (Rl eps : mat R) (pos d : nat -> vec R) (procs : list (list V3)),
  separate Rl pos n (concat procs) ->
  (lj = 0 -> (forall c, (c < n)%nat -> 0 < p_R0 (par c)) /\
    forall c1 c2 g, (c1 < n)%nat -> (c2 < n)%nat -> In g (concat procs) -> distance Rl pos c1 c2 g <> 3000002494598603 / 10000000000000000 * (p_R0 (par c1) + p_R0 (par c2))) ->
  (lj <> 0 -> none_at Rl pos n (concat procs) lj) ->
  let r := energyAndGradD2 Rl n par pos scaleFac lj procs in
  is_derive (fun t => Etot (energyAndGradD2 (strained Rl eps t) n par (displaced pos d t) scaleFac lj procs)) 0 (contraction (E_RRT r) eps - workOf n (forces r) d).
Proof. exact d2_gradient. Qed.
Print Assumptions C76_d2_gradient.
Example C76_d2_gradient_example : forall eps d, let procs := [[(0, 0, 0)%Z; (1, 0, 0)%Z]; [(0, -1, 1)%Z]] in let r := energyAndGradD2 cube 2 carbons dimer (3/4) 0 procs in
  is_derive (fun t => Etot (energyAndGradD2 (strained cube eps t) 2 carbons (displaced dimer d t) (3/4) 0 procs)) 0 (contraction (E_RRT r) eps - workOf 2 (forces r) d).
Proof. exact ex_d2_gradient. Qed.

Theorem C76_d3_gradient : forall bj s6 s8 sr6 sr8 aps pps n sp (Rl eps : mat R) (pos d : nat -> vec R) rCut (procs : list (list V3 * list V3)),
  0 < rCut -> separate Rl pos n (concat (map fst procs)) -> separate Rl pos n (concat (map snd procs)) ->
  none_at Rl pos n (concat (map fst procs)) rCut -> none_at Rl pos n (concat (map snd procs)) 50 ->
  let CN := computeCN aps n sp Rl pos (map snd procs) in
  (forall c, (c < n)%nat -> LsumOf (CNref (aps (sp c))) (CN c) <> / 10 ^ 40) ->
  (bj = true -> forall c1 c2, (c1 < n)%nat -> (c2 < n)%nat -> C6of aps pps sp CN c1 c2 <> 0) ->
  let r := energyAndGradD3 bj s6 s8 sr6 sr8 aps pps n sp Rl pos rCut procs in
  is_derive (fun t => fst (energyAndGradD3 bj s6 s8 sr6 sr8 aps pps n sp (strained Rl eps t) (displaced pos d t) rCut procs)) 0 (contraction (snd (snd r)) eps - workOf n (fst (snd r)) d).
Proof. exact d3_gradient. Qed.
Print Assumptions C76_d3_gradient.
Example C76_d3_gradient_example : forall eps d, let r := energyAndGradD3 true 1 (7/10) (4/10) 5 apsEx ppsEx 2 (fun _ => 0%nat) cube dimer 20 exProcs in
  is_derive (fun t => fst (energyAndGradD3 true 1 (7/10) (4/10) 5 apsEx ppsEx 2 (fun _ => 0%nat) (strained cube eps t) (displaced dimer d t) 20 exProcs)) 0 (contraction (snd (snd r)) eps - workOf 2 (fst (snd r)) d).
Proof. exact ex_d3_gradient. Qed.

Theorem C76_d2_total_force : forall n par scaleFac lj Rl pos procs,
  let f := forces (energyAndGradD2 Rl n par pos scaleFac lj procs) in
  rsum (fun c => c0 (f c)) (seq 0 n) = 0 /\ rsum (fun c => c1 (f c)) (seq 0 n) = 0 /\ rsum (fun c => c2 (f c)) (seq 0 n) = 0.
Proof. exact d2_total_force. Qed.
Print Assumptions C76_d2_total_force.
Theorem C76_d3_total_force : forall bj s6 s8 sr6 sr8 aps pps n sp Rl pos rCut procs,
  let f := fst (snd (energyAndGradD3 bj s6 s8 sr6 sr8 aps pps n sp Rl pos rCut procs)) in
  rsum (fun c => c0 (f c)) (seq 0 n) = 0 /\ rsum (fun c => c1 (f c)) (seq 0 n) = 0 /\ rsum (fun c => c2 (f c)) (seq 0 n) = 0.
Proof. exact d3_total_force. Qed.
Print Assumptions C76_d3_total_force.
Theorem C76_d2_symmetric_stress : forall n par scaleFac lj Rl pos procs,
  let s := E_RRT (energyAndGradD2 Rl n par pos scaleFac lj procs) in m01 s = m10 s /\ m02 s = m20 s /\ m12 s = m21 s.
Proof. exact d2_symmetric_stress. Qed.
Print Assumptions C76_d2_symmetric_stress.
Theorem C76_d3_symmetric_stress : forall bj s6 s8 sr6 sr8 aps pps n sp Rl pos rCut procs,
  let s := snd (snd (energyAndGradD3 bj s6 s8 sr6 sr8 aps pps n sp Rl pos rCut procs)) in m01 s = m10 s /\ m02 s = m20 s /\ m12 s = m21 s.
Proof. exact d3_symmetric_stress. Qed.
Print Assumptions C76_d3_symmetric_stress.

(** ** C77 *)
Theorem C77_layout_refuted : exists tabQ tabRcov nCN tabZ tabCN coeff tabR0 ap1 ap2,
  getAtomParams tabQ tabRcov nCN tabZ tabCN 1 = Some ap1 /\ getAtomParams tabQ tabRcov nCN tabZ tabCN 8 = Some ap2 /\
  (exists i j, (i < length (CNref ap1))%nat /\ (j < length (CNref ap2))%nat /\
    entry (pp_C6 (getPairParams coeff tabR0 ap1 ap2)) i j <> coeff (iCN12 (nth i (iCNref ap1) 0%Z) (nth j (iCNref ap2) 0%Z)) /\
    entry (pp_C6 (getPairParams coeff tabR0 ap1 ap2)) i j <> entry (pp_C6 (getPairParams coeff tabR0 ap2 ap1)) j i).
Proof. exact layout_wrong. Qed.
Print Assumptions C77_layout_refuted.
Theorem C77_layout_same_element : forall coeff tabR0 ap1 ap2, length (CNref ap1) = length (iCNref ap1) -> length (CNref ap2) = length (iCNref ap2) ->
  forall i j, iCNref ap1 = iCNref ap2 -> (i < length (CNref ap1))%nat -> (j < length (CNref ap2))%nat ->
  entry (pp_C6 (getPairParams coeff tabR0 ap1 ap2)) i j = coeff (iCN12 (nth i (iCNref ap1) 0%Z) (nth j (iCNref ap2) 0%Z)).
Proof. exact layout_same. Qed.
Print Assumptions C77_layout_same_element.
Theorem C77_layout_single_reference : forall coeff tabR0 ap1 ap2, length (CNref ap1) = length (iCNref ap1) -> length (CNref ap2) = length (iCNref ap2) ->
  forall i j, (length (CNref ap1) = 1 \/ length (CNref ap2) = 1)%nat -> (i < length (CNref ap1))%nat -> (j < length (CNref ap2))%nat ->
  entry (pp_C6 (getPairParams coeff tabR0 ap1 ap2)) i j = coeff (iCN12 (nth i (iCNref ap1) 0%Z) (nth j (iCNref ap2) 0%Z)).
Proof. exact layout_single. Qed.
Print Assumptions C77_layout_single_reference.
Example C77_layout_example : let ap := AP 1 0 0 [9118/10000; 0] [0; 94]%Z in let he := AP 2 0 0 [0] [1%Z] in
  length (CNref ap) = length (iCNref ap) /\ length (CNref he) = length (iCNref he) /\ length (CNref he) = 1%nat /\ (1 < length (CNref ap))%nat /\
  entry (pp_C6 (getPairParams IZR IZR ap ap)) 0 1 = IZR (iCN12 0 94) /\ entry (pp_C6 (getPairParams IZR IZR ap he)) 1 0 = IZR (iCN12 94 1).
Proof. repeat split; cbn; try reflexivity; repeat constructor. Qed.

Theorem C77_pair_index : forall n, (0 <= n)%Z ->
  (forall a b, iCN12 a b = iCN12 b a) /\
  (forall a b, (0 <= a < n -> 0 <= b < n -> 0 <= iCN12 a b /\ 2 * iCN12 a b < n * (n + 1))%Z) /\
  (forall a b c d, (0 <= a -> 0 <= b -> 0 <= c -> 0 <= d -> iCN12 a b = iCN12 c d -> (a = c /\ b = d) \/ (a = d /\ b = c))%Z) /\
  (forall k, (0 <= k -> 2 * k < n * (n + 1) -> exists a b, 0 <= a <= b /\ b < n /\ iCN12 a b = k)%Z).
Proof. exact (fun n N => conj iCN12_sym (conj (iCN12_range n) (conj iCN12_inj (fun k => iCN12_onto n k N)))). Qed.
Print Assumptions C77_pair_index.
Example C77_pair_index_example : iCN12 94 7 = 4472%Z /\ iCN12 7 94 = 4472%Z. Proof. split; reflexivity. Qed.

Theorem C77_references : forall tabQ tabRcov nCN tabZ tabCN Za ap, getAtomParams tabQ tabRcov nCN tabZ tabCN Za = Some ap ->
  ap_Z ap = Za /\ (1 <= Za <= 94)%Z /\ CNref ap = map tabCN (iCNref ap) /\ NoDup (iCNref ap) /\ forall i, In i (iCNref ap) <-> (0 <= i < nCN)%Z /\ tabZ i = Za.
Proof. exact getAtomParams_refs. Qed.
Print Assumptions C77_references.
Example C77_references_example : exists ap, getAtomParams (fun _ => 0) (fun _ => 0) 254 hoZ hoCN 8 = Some ap /\ iCNref ap = [7; 100; 185]%Z.
Proof. eexists. split; reflexivity. Qed.

Theorem C77_weights : forall refs x, refs <> [] -> (forall i, 0 <= nth i (fst (getL refs x)) 0) /\
  rsum (fun i => nth i (fst (getL refs x)) 0) (seq 0 (length refs)) = 1 /\ rsum (fun i => nth i (snd (getL refs x)) 0) (seq 0 (length refs)) = 0.
Proof. exact weights_sum. Qed.
Print Assumptions C77_weights.
Theorem C77_interpolation_bounds : forall r1 r2 m x1 x2 lo hi, r1 <> [] -> r2 <> [] -> nr m = length r1 -> nc m = length r2 ->
  (forall i j, (i < length r1)%nat -> (j < length r2)%nat -> lo <= entry m i j <= hi) -> lo <= bilinear (fst (getL r1 x1)) m (fst (getL r2 x2)) <= hi.
Proof. exact weights_convex. Qed.
Print Assumptions C77_interpolation_bounds.
Theorem C77_largest_reference : forall l, l <> [] -> (max_element l < length l)%nat /\ forall k, (k < length l)%nat -> nth k l 0 <= nth (max_element l) l 0.
Proof. exact max_element_spec. Qed.
Print Assumptions C77_largest_reference.
Example C77_weights_example : let r := [0; 9925/10000; 19887/10000] in r <> [] /\ rsum (fun i => nth i (fst (getL r 1)) 0) (seq 0 3) = 1 /\ 2 <= bilinear (fst (getL r 1)) (RM 3 1 [2; 5; 3]) (fst (getL [0] 0)) <= 5.
Proof. exact ex_weights. Qed.

Theorem C77_reach_orthogonal : forall Rl cut pos a b g, orthogonal Rl -> (forall k, (k < 3)%nat -> rlen (mrow (mtrans Rl) k) <> 0) -> 0 < cut ->
  (let d := rvsub (pos a) (pos b) in -1 < c0 d < 1 /\ -1 < c1 d < 1 /\ -1 < c2 d < 1) ->
  distance Rl pos a b g <= cut -> let '(x, y, z) := g in let '(sx, sy, sz) := sampling Rl (fun _ => false) cut in (2 * Z.abs x < sx /\ 2 * Z.abs y < sy /\ 2 * Z.abs z < sz)%Z.
Proof. exact sampling_reach. Qed.
Print Assumptions C77_reach_orthogonal.
Example C77_reach_example : orthogonal cube /\ (let d := rvsub (dimer 1) (dimer 0) in -1 < c0 d < 1 /\ -1 < c1 d < 1 /\ -1 < c2 d < 1) /\ distance cube dimer 1 0 (0, 0, 0)%Z <= 20.
Proof. exact ex_reach. Qed.
Theorem C77_reach_refuted : exists Rl pos a b x y z, rdet Rl <> 0 /\ pos a = V 0 0 0 /\ pos b = V 0 0 0 /\ distance Rl pos a b (x, y, z) <= 200 /\
  let '(sx, sy, sz) := sampling Rl (fun _ => false) 200 in ~ (2 * Z.abs x < sx /\ 2 * Z.abs y < sy /\ 2 * Z.abs z < sz)%Z.
Proof. exact sampling_misses. Qed.
Print Assumptions C77_reach_refuted.

Theorem C77_cache : forall table unit1 m z1 z2 sp1 sp2,
  let C6 := fun z => if (z =? -1)%Z then p_C6 unit1 else p_C6 (table z) in let R0 := fun z => if (z =? -1)%Z then p_R0 unit1 else p_R0 (table z) in
  let ok := fun m : cache => forall z1 z2 v, cacheFind (z1, z2) m = Some v -> v = pairCombination C6 R0 z1 z2 in
  ok m -> z1 = (-1)%Z \/ (1 <= z1 <= 118)%Z -> z2 = (-1)%Z \/ (1 <= z2 <= 118)%Z ->
  exists m', getRadialFunction table (fun _ => None) unit1 m z1 z2 sp1 sp2 = Some (pairCombination C6 R0 z1 z2, m') /\ ok m'.
Proof. exact cache_correct. Qed.
Print Assumptions C77_cache.
Example C77_cache_example : exists m', getRadialFunction (fun z => D2P (IZR z) 1) (fun _ => None) (D2P 1 0) [] 8 (-1) 0 (-1) = Some ((sqrt (8 * 1), 1 + 0), m').
Proof. eexists. reflexivity. Qed.
Theorem C77_cache_refuted : exists table vdwOverride unit1 z sp1 sp2 v1 m1 v2 m2 p2,
  getRadialFunction table vdwOverride unit1 [] z (-1) sp1 (-1) = Some (v1, m1) /\
  getRadialFunction table vdwOverride unit1 m1 z (-1) sp2 (-1) = Some (v2, m2) /\
  getParams table vdwOverride z sp2 unit1 = Some p2 /\ snd v2 <> p_R0 p2 + p_R0 unit1.
Proof. exact cache_ignores_species. Qed.
Print Assumptions C77_cache_refuted.
