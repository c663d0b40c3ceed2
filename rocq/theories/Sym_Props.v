(** Property theorems C34 (space group operations) and C35 (symmetrization). *)
From Coq Require Import ZArith Reals List Lra.
From Coquelicot Require Import Complex.
From Verif Require Import Base Grid_Model Grid_Spec Vec3_Model Sym_Model Sym_Spec Sym_Proofs8 Sym_Proofs9 Sym_Proofs10.
Import ListNotations.
Open Scope R_scope.

(** Composition of operations is composition of the maps, on positions and on reciprocal vectors. *)
Theorem C34_compose : forall p q x k,
  applyReal (sgo_mul p q) x = applyReal p (applyReal q x) /\
  applyRecip (sgo_mul p q) k = applyRecip q (applyRecip p k) /\
  rdot k (applyReal p x) = rdot (applyRecip p k) x + rdot k (sg_a p).
Proof. exact (fun p q x k => conj (mul_real p q x) (conj (mul_recip p q k) (real_recip p k x))). Qed.
Print Assumptions C34_compose.
Theorem C34_monoid : forall p q r, let e := SGO zid (V 0 0 0) in
  sgo_mul p (sgo_mul q r) = sgo_mul (sgo_mul p q) r /\ sgo_mul e p = p /\ sgo_mul p e = p /\ forall x, applyReal e x = x.
Proof. exact (fun p q r => conj (mul_assoc p q r) (conj (mul_id_l p) (conj (mul_id_r p) id_acts))). Qed.
Print Assumptions C34_monoid.
Theorem C34_inverse : forall p, (zdet (sg_rot p) = 1 \/ zdet (sg_rot p) = -1)%Z ->
  sgo_mul (sgo_inv p) p = SGO zid (V 0 0 0) /\ sgo_mul p (sgo_inv p) = SGO zid (V 0 0 0) /\
  (forall x, applyReal (sgo_inv p) (applyReal p x) = x /\ applyReal p (applyReal (sgo_inv p) x) = x).
Proof. exact inv_all. Qed.
Print Assumptions C34_inverse.
Example C34_inverse_example : let p := SGO (M 0 (-1) 0 1 0 0 0 0 1)%Z (V (1/2) 0 (1/4)) in zdet (sg_rot p) = 1%Z /\ sg_rot (sgo_inv p) = M 0%Z 1%Z 0%Z (-1)%Z 0%Z 0%Z 0%Z 0%Z 1%Z.
Proof. split; reflexivity. Qed.

(** Densities: the result is invariant under every operation, symmetric fields are unchanged, the charge is conserved,
    and the result on the mesh is the average over the images of the point. *)
Theorem C35_density : forall S sym, pos3 S -> mesh_group S sym -> exists cls, initSymmIndex S sym = Some cls /\ forall x, let y := symmetrizeTilde sym cls x in
  (forall p, In p sym -> invariant S p y) /\
  ((forall p, In p sym -> invariant S p x) -> forall i, (0 <= i < nr S)%Z -> y i = x i) /\
  y 0%Z = x 0%Z /\
  (forall u, expansion S y (mesh_point S u) = Cmult (RtoC (/ INR (length sym))) (total_c (map (fun p => expansion S x (image S p u)) sym))).
Proof. exact scalar_prop. Qed.
Print Assumptions C35_density.
(** Real fields stay real, bounds are kept, and symmetrizing twice changes nothing more. *)
Theorem C35_density_projection : forall S sym cls x, pos3 S -> mesh_group S sym -> initSymmIndex S sym = Some cls -> let y := symmetrizeTilde sym cls x in
  ((forall u, snd (expansion S x (mesh_point S u)) = 0) -> forall u, snd (expansion S y (mesh_point S u)) = 0) /\
  (forall lo hi, (forall u, lo <= fst (expansion S x (mesh_point S u)) <= hi) -> forall u, lo <= fst (expansion S y (mesh_point S u)) <= hi) /\
  (forall i, (0 <= i < nr S)%Z -> symmetrizeTilde sym cls y i = y i).
Proof. exact preserve_prop. Qed.
Print Assumptions C35_density_projection.
Example C35_density_example : pos3 S211 /\ mesh_group S211 [eOp; iOp half].
Proof. split; [repeat split; reflexivity|]. exact (Build_mesh_group _ _ (pair_group half) fits_half (small_half half)). Qed.

(** Spin density matrices *)
Theorem C35_spin : forall S sym Rl, pos3 S -> mesh_group S sym -> rdet Rl <> 0 -> (forall p, In p sym -> orthogonal (cartesian Rl p)) ->
  exists cls, initSymmIndex S sym = Some cls /\ forall x, let y := symmetrizeSpin Rl sym cls x in
  (forall p, In p sym -> spin_invariant S Rl p y) /\
  ((forall p, In p sym -> spin_invariant S Rl p x) -> forall i, (0 <= i < nr S)%Z -> y i = x i) /\
  density4 (y 0%Z) = density4 (x 0%Z).
Proof. exact spin_prop. Qed.
Print Assumptions C35_spin.
Example C35_spin_example : rdet rid <> 0 /\ forall p, In p [eOp; iOp half] -> orthogonal (cartesian rid p).
Proof. exact (conj rid_det (pair_orth half)). Qed.

(** Forces: invariant, symmetric forces unchanged, and the total force is the average of its images. *)
Theorem C35_forces : forall sym pos atomMap f, space_group sym -> distinct_positions pos ->
  (forall a k, (a < length pos)%nat -> (k < length sym)%nat -> atom_map pos (nth k sym (SGO zid (V 0 0 0))) a (atomMap a k)) ->
  let f' := symmetrizeForces sym atomMap f in
  (forall p, In p sym -> forces_invariant pos p f') /\
  ((forall p, In p sym -> forces_invariant pos p f) -> forall a, (a < length pos)%nat -> f' a = f a) /\
  total_force pos f' = rvscale (/ INR (length sym)) (total_v (map (fun p => rmv (mtrans (mIZR (sg_rot p))) (total_force pos f)) sym)).
Proof. exact forces_prop. Qed.
Print Assumptions C35_forces.
(** A total force that is itself symmetric, in particular zero, is preserved. *)
Theorem C35_total_force : forall sym pos atomMap f, space_group sym -> distinct_positions pos ->
  (forall a k, (a < length pos)%nat -> (k < length sym)%nat -> atom_map pos (nth k sym (SGO zid (V 0 0 0))) a (atomMap a k)) ->
  (forall p, In p sym -> rmv (mtrans (mIZR (sg_rot p))) (total_force pos f) = total_force pos f) ->
  total_force pos (symmetrizeForces sym atomMap f) = total_force pos f.
Proof. exact forces_zero. Qed.
Print Assumptions C35_total_force.
Example C35_forces_example : space_group [eOp; iOp half] /\ distinct_positions pos2 /\
  (forall a k, (a < length pos2)%nat -> (k < length [eOp; iOp half])%nat -> atom_map pos2 (nth k [eOp; iOp half] (SGO zid (V 0 0 0))) a (swap2 a k)) /\
  (forall p, In p [eOp; iOp half] -> rmv (mtrans (mIZR (sg_rot p))) (total_force pos2 f2) = total_force pos2 f2).
Proof. exact forces_ex. Qed.
(** The total force is not preserved in general. *)
Theorem C35_total_force_refuted : exists sym pos atomMap f, space_group sym /\ distinct_positions pos /\
  (forall a k, (a < length pos)%nat -> (k < length sym)%nat -> atom_map pos (nth k sym (SGO zid (V 0 0 0))) a (atomMap a k)) /\
  total_force pos (symmetrizeForces sym atomMap f) <> total_force pos f.
Proof. exact force_lost. Qed.
Print Assumptions C35_total_force_refuted.

(** Stress tensors *)
Theorem C35_tensor : forall Rl sym m, rdet Rl <> 0 -> space_group sym -> let m' := symmetrizeTensor Rl sym m in
  (forall p, In p sym -> tensor_invariant Rl p m') /\
  ((forall p, In p sym -> tensor_invariant Rl p m) -> m' = m) /\
  ((forall p, In p sym -> orthogonal (cartesian Rl p)) -> trace m' = trace m) /\
  (mtrans m = m -> mtrans m' = m').
Proof. exact tensor_sym. Qed.
Print Assumptions C35_tensor.
Example C35_tensor_example : rdet rid <> 0 /\ space_group [eOp; iOp half] /\ (forall p, In p [eOp; iOp half] -> orthogonal (cartesian rid p)).
Proof. exact (conj rid_det (conj (pair_group half) (pair_orth half))). Qed.

(** A mesh that fits all rotations, but not the translations, passes the checks of the code, and there symmetrization is not a projection. *)
Theorem C35_translation_refuted : exists S sym cls x, pos3 S /\ space_group sym /\
  (forall p, In p sym -> orthogonal (cartesian rid p)) /\
  (forall p i j, In p sym -> (i < 3)%nat -> (j < 3)%nat -> exists q : Z, (S_at S i * mget (sg_rot p) i j = q * S_at S j)%Z) /\
  small_mesh S sym /\ initSymmIndex S sym = Some cls /\
  symmetrizeTilde sym cls (symmetrizeTilde sym cls x) 1%Z <> symmetrizeTilde sym cls x 1%Z.
Proof. exact not_projection. Qed.
Print Assumptions C35_translation_refuted.
