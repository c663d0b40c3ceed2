(** Properties of the numerical exchange kernel. *)
From Coq Require Import ZArith Reals List Bool.
From Verif Require Import Base Grid_Model Grid_Spec Vec3_Model Lattice_Model ExKernel_Model ExKernel_Spec ExKernel_Proofs ExKernel_Proofs2 ExKernel_Proofs3 ExKernel_Proofs4.
Import ListNotations.
Local Open Scope R_scope.

(** * C87 *)
(** The sample count of the supercell. *)
Theorem C87_sample_count : forall S super k, pos3 S -> (k < 3)%nat ->
  comp (Ssuper S super) k = (2 * (Z.abs (mget super 0 k) * (comp S 0 / 2 + 1) + Z.abs (mget super 1 k) * (comp S 1 / 2 + 1) + Z.abs (mget super 2 k) * (comp S 2 / 2 + 1)))%Z.
Proof. exact Ssuper_value. Qed.
Print Assumptions C87_sample_count.
(** Every component of the kernel of a k-point difference is read within the supercell array, from the place of its own wave vector. *)
Theorem C87_extraction : forall A S super dk thr g (dataSuper : Z -> A) K, pos3 S -> (forall k, (k < 3)%nat -> 1 <= colSum super k)%Z -> halfBox dk -> thr <= 1/2 -> G_point S g ->
  roundError (rvm dk (mIZR super)) < thr -> even K -> half_stores (Ssuper S super) dataSuper K ->
  exists m, extractExchangeKernel thr (Ssuper S super) super dk dataSuper g = Some (K m) /\ forall k, (k < 3)%nat -> Rabs (IZR (comp m k) - superCoord super g dk k) < thr.
Proof. exact @extract_correct. Qed.
Print Assumptions C87_extraction.
Theorem C87_reduced_differences : forall k0 k, halfBox (dkOf k0 k).
Proof. exact dkOf_box. Qed.
Print Assumptions C87_reduced_differences.
(** The assertion on the integer offset cannot fail. *)
Theorem C87_offset_assertion : forall a b thr, 0 < thr -> circDistanceSquared a b < thr * thr -> roundError (rvsub a b) < thr.
Proof. exact circ_round. Qed.
Print Assumptions C87_offset_assertion.
(** For every pair of k-points on the mesh the factor applied to a component is the kernel at its own wave vector, as long as the shifted component is on the grid. *)
Theorem C87_pair_kernel : forall A S super thr kmesh (dataSuper : Z -> A) kernelData K, pos3 S -> (forall k, (k < 3)%nat -> 1 <= colSum super k)%Z -> 0 < thr -> thr <= 1/2 ->
  even K -> half_stores (Ssuper S super) dataSuper K -> (forall dk, In dk (dkArr kmesh) -> roundError (rvm dk (mIZR super)) < thr) ->
  (forall ik dk, nth_error (dkArr kmesh) ik = Some dk -> full_stores S (kernelData ik) (extractExchangeKernel thr (Ssuper S super) super dk dataSuper)) ->
  forall kDiff g, (exists k, In k kmesh /\ circDistanceSquared (rvsub k (hd (V 0 0 0) kmesh)) kDiff < thr * thr) ->
  (forall dk n, In dk (dkArr kmesh) -> shift_near thr dk kDiff n -> G_point S (add3 g n)) ->
  exists m, numericalKernel thr S kernelData (dkArr kmesh) 0 kDiff g = Some (K m) /\ forall k, (k < 3)%nat -> Rabs (IZR (comp m k) - superCoord super g kDiff k) < thr * (1 + IZR (colSum super k)).
Proof. exact @numerical_correct. Qed.
Print Assumptions C87_pair_kernel.
(** Shifts below half the grid never read outside of the array; they read the component with the same index modulo the sample count. *)
Theorem C87_pair_reads : forall A S super thr kmesh (dataSuper : Z -> A) kernelData K, pos3 S -> (forall k, (k < 3)%nat -> 1 <= colSum super k)%Z -> 0 < thr -> thr <= 1/2 ->
  even K -> half_stores (Ssuper S super) dataSuper K -> (forall dk, In dk (dkArr kmesh) -> roundError (rvm dk (mIZR super)) < thr) ->
  (forall ik dk, nth_error (dkArr kmesh) ik = Some dk -> full_stores S (kernelData ik) (extractExchangeKernel thr (Ssuper S super) super dk dataSuper)) ->
  forall kDiff g, (exists k, In k kmesh /\ circDistanceSquared (rvsub k (hd (V 0 0 0) kmesh)) kDiff < thr * thr) ->
  (forall dk n, In dk (dkArr kmesh) -> shift_near thr dk kDiff n -> forall k, (k < 3)%nat -> - comp S k <= comp g k + comp n k < comp S k)%Z ->
  exists dk n g' m, In dk (dkArr kmesh) /\ shift_near thr dk kDiff n /\ G_point S g' /\ aliased S (add3 g n) g' /\
    numericalKernel thr S kernelData (dkArr kmesh) 0 kDiff g = Some (K m) /\ forall k, (k < 3)%nat -> Rabs (IZR (comp m k) - superCoord super g' dk k) < thr.
Proof. exact @numerical_reads. Qed.
Print Assumptions C87_pair_reads.
Theorem C87_shift_bound : forall S g n, pos3 S -> G_point S g -> (forall k, (k < 3)%nat -> 2 * Z.abs (comp n k) < comp S k)%Z -> forall k, (k < 3)%nat -> (- comp S k <= comp g k + comp n k < comp S k)%Z.
Proof. exact small_shift. Qed.
Print Assumptions C87_shift_bound.
(** At the edge of the grid a shifted component is given the kernel of another wave vector: coordinate -1 instead of 3. *)
Theorem C87_grid_edge_refuted : exists S super thr kmesh kDiff g, pos3 S /\ (forall k, (k < 3)%nat -> 1 <= colSum super k)%Z /\ 0 < thr /\ thr <= 1/2 /\
  (forall dk, In dk (dkArr kmesh) -> roundError (rvm dk (mIZR super)) < thr) /\ (exists k, In k kmesh /\ circDistanceSquared (rvsub k (hd (V 0 0 0) kmesh)) kDiff < thr * thr) /\ G_point S g /\
  forall A (dataSuper : Z -> A) kernelData (K : V3 -> A), even K -> half_stores (Ssuper S super) dataSuper K ->
    (forall ik dk, nth_error (dkArr kmesh) ik = Some dk -> full_stores S (kernelData ik) (extractExchangeKernel thr (Ssuper S super) super dk dataSuper)) ->
    exists m, numericalKernel thr S kernelData (dkArr kmesh) 0 kDiff g = Some (K m) /\ comp m 0 = (-1)%Z /\ superCoord super g kDiff 0 = 3.
Proof. exact edge_wrong. Qed.
Print Assumptions C87_grid_edge_refuted.
(** The kernel of isolated systems, stored on half of the grid. *)
Theorem C87_real_kernel : forall A S (kernel : Z -> A) K g, pos3 S -> G_point S g -> even K -> half_stores S kernel K ->
  (exists m, realKernel S kernel g = Some (K m) /\ aliased S g m) /\ (G_point S (neg3 g) -> realKernel S kernel g = Some (K g)).
Proof. exact @real_correct. Qed.
Print Assumptions C87_real_kernel.
Example C87_example : pos3 (6, 5, 4)%Z /\ (forall k, (k < 3)%nat -> 1 <= colSum exSuper k)%Z /\ Ssuper (6, 5, 4)%Z exSuper = (16, 12, 6)%Z /\ G_point (6, 5, 4)%Z (3, -2, -1)%Z /\
  roundError (rvm (V (-1/2) 0 0) (mIZR exSuper)) < 1/10000 /\ halfBox (V (-1/2) 0 0) /\ @even Z (fun g => let '(x, y, z) := g in x * x + y * y + z * z)%Z.
Proof. exact example_super. Qed.
