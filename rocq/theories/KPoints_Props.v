(** Property theorems C27 (k-point folding), C28 (spin expansion) and C29 (symmetry reduction of the k-mesh). *)
From Coq Require Import ZArith Reals List.
From Verif Require Import Base Vec3_Model Lattice_Model Lattice_Spec KPoints_Model KPoints_Spec KPoints_Proofs KPoints_Proofs3 KPoints_Proofs4 KPoints_Proofs5.
Import ListNotations.
Open Scope R_scope.

(** Each k-point is replaced by the complete list of n0*n1*n2 points that it stands for, in order. *)
Theorem C27_fold_complete : forall n qs out, (0 < c0 n)%Z /\ (0 < c1 n)%Z /\ (0 < c2 n)%Z -> kpointsFold n qs = Some out ->
  exists blocks, out = concat blocks /\ Forall2 (folded n) qs blocks.
Proof. exact kpointsFold_spec. Qed.
Print Assumptions C27_fold_complete.

(** The number of points is multiplied by n0*n1*n2, the total weight is unchanged, and distinct points stay distinct. *)
Theorem C27_fold_totals : forall n qs out, (0 < c0 n)%Z /\ (0 < c1 n)%Z /\ (0 < c2 n)%Z -> kpointsFold n qs = Some out ->
  Z.of_nat (List.length out) = (c0 n * c1 n * c2 n * Z.of_nat (List.length qs))%Z /\
  total (map q_w out) = total (map q_w qs) /\
  (ForallOrdPairs (fun p p' => ~ congV (q_k p) (q_k p')) qs -> ForallOrdPairs (fun p p' => ~ congV (q_k p) (q_k p')) out).
Proof. exact fold_totals. Qed.
Print Assumptions C27_fold_totals.

(** Input is refused exactly if the weights do not add up to 1. *)
Theorem C27_fold_refuses_bad_weights : forall n qs,
  kpointsFold n qs = None <-> 1/1000000000000 < Rabs (total (map q_w qs) - 1).
Proof. exact kpointsFold_accepts. Qed.
Print Assumptions C27_fold_refuses_bad_weights.

Example C27_example_two_fold : exists out,
  kpointsFold (V 2 1 1)%Z [QN (V (5/4) 0 (-1/3)) 0 1] = Some out /\ map q_w out = [1/2; 1/2] /\
  map (fun q => c0 (q_k q)) out = [1/8; -(3/8)].
Proof. exact fold_example. Qed.

(** Expansion over spins: every k-point appears once per spin with equal weights, which add up to the number of
    electrons a filled band holds. *)
Theorem C28_spin_expansion : forall st qs, let out := expandSpins st qs in
  List.length out = (channels st * List.length qs)%nat /\
  total (map q_w out) = per_kpoint st * total (map q_w qs) /\
  (st <> SpinZ -> out = map (fun q => QN (q_k q) (q_spin q) (q_w q * per_kpoint st)) qs) /\
  (st = SpinZ -> out = map (fun q => QN (q_k q) 1 (q_w q)) qs ++ map (fun q => QN (q_k q) (-1) (q_w q)) qs).
Proof. exact expandSpins_spec. Qed.
Print Assumptions C28_spin_expansion.

Example C28_example_polarized :
  map q_spin (expandSpins SpinZ [QN (V 0 0 0) 0 (1/4); QN (V (1/2) 0 0) 0 (3/4)]) = [1; 1; -1; -1]%Z /\
  total (map q_w (expandSpins SpinZ [QN (V 0 0 0) 0 (1/4); QN (V (1/2) 0 0) 0 (3/4)])) = 2.
Proof. exact spin_example. Qed.

(** With a lookup that decides equality of k-points, reduction by a group of symmetries (with or without inversion)
    keeps one representative per orbit, with all Brillouin-zone averages unchanged, and returns a valid map. *)
Theorem C29_reduction_correct : forall find sym inv qs nProcs,
  (Z.of_nat (List.length qs) < 2^32)%Z -> (Z.of_nat (List.length sym) < 2^31)%Z -> is_group sym -> distinct_mesh qs ->
  exact_lookup sym qs find -> (0 < nProcs)%Z ->
  exists red m, reduceKmesh find sym inv qs nProcs = Some (red,m) /\ kmesh_reduction sym inv qs red kmapUnpack m.
Proof. exact reduceKmesh_correct. Qed.
Print Assumptions C29_reduction_correct.

(** The same for the actual table of k-points, provided that images within its tolerance of a mesh point are equal to it. *)
Theorem C29_reduction_with_table : forall thr sym inv qs metric n lk nProcs,
  (Z.of_nat (List.length qs) < 2^32)%Z -> (Z.of_nat (List.length sym) < 2^31)%Z -> is_group sym -> distinct_mesh qs ->
  0 < thr -> mkLookup thr (map q_k qs) metric n = Done lk ->
  (forall q neg rot q', In q qs -> In rot sym -> In q' qs -> chord2 (imageOf neg rot (q_k q)) (q_k q') < thr * thr ->
     congV (imageOf neg rot (q_k q)) (q_k q')) -> (0 < nProcs)%Z ->
  exists red m, reduceKmesh (lookupK thr qs lk) sym inv qs nProcs = Some (red,m) /\ kmesh_reduction sym inv qs red kmapUnpack m.
Proof. exact reduceKmesh_lookup. Qed.
Print Assumptions C29_reduction_with_table.

(** The result does not depend on the number of processes, whatever the lookup and symmetries. *)
Theorem C29_process_count_irrelevant : forall find sym inv qs n n', (0 < n)%Z -> (0 < n')%Z ->
  reduceKmesh find sym inv qs n = reduceKmesh find sym inv qs n'.
Proof. exact reduce_procs. Qed.
Print Assumptions C29_process_count_irrelevant.

(** False without closure under products, which is not checked for manually specified symmetries: with the identity and
    a three-fold rotation (but not its square), the weights 1/3, 1/3, 1/3 become 2/3, 2/3. *)
Theorem C29_needs_group_refuted : exists find sym qs, In zid sym /\ closed_under_inverse (zmm cyc cyc :: sym) /\ distinct_mesh qs /\
  exact_lookup sym qs find /\ exists red m, reduceKmesh find sym false qs 1 = Some (red,m) /\
  total (map q_w qs) = 1 /\ total (map q_w red) <> 1.
Proof. exact needs_group. Qed.
Print Assumptions C29_needs_group_refuted.

Example C29_example_threefold : is_group [zid; cyc; cyc2] /\ distinct_mesh mesh3 /\ exact_lookup [zid; cyc; cyc2] mesh3 find3 /\
  exists r m, reduceKmesh find3 [zid; cyc; cyc2] true mesh3 2 = Some ([r],m) /\ q_w r = 1.
Proof. exact threefold_example. Qed.
