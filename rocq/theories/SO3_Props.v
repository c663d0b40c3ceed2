(** Properties of quadratures over molecular orientations. *)
From Coq Require Import List Reals Permutation Lra Lia.
From Verif Require Import Vec3_Model Euler_Model SO3_Model SO3_Spec SO3_Proofs.
Import ListNotations.
Local Open Scope R_scope.

(** C112: the order of the symmetry axis found is between 1 and 12, is a symmetry of the molecule within the threshold,
    and no order up to 12 that is an exact symmetry is missed *)
Theorem C112_axis : forall (th : R) (mol : molecule), 0 < th ->
  (1 <= molZn th mol <= 12)%nat /\ (molZn th mol <> 1%nat -> axisOrderTol th (molZn th mol) mol) /\
  (forall n, (n <= 12)%nat -> axisOrder n mol -> (n <= molZn th mol)%nat).
Proof. exact Zn_largest. Qed.
Print Assumptions C112_axis.
Example C112_axis_ex : 0 < 1/10000 /\ axisOrder 2 bent /\ molZn (1/10000) bent = 2%nat.
Proof. split; [lra|]. split; [exact bent_order|exact bent_Zn]. Qed.

(** the number of samples of the circle is the smallest multiple of that order that is not below the requested one *)
Theorem C112_samples : forall (th : R) nodes weights n (mol : molecule), 0 < th ->
  let q := setup th nodes weights n mol in
  nS1 q = (nS1byZn q * molZn th mol)%nat /\ (n <= nS1 q < n + molZn th mol)%nat.
Proof. exact samples. Qed.
Print Assumptions C112_samples.
Example C112_samples_ex : nS1 (setup (1/10000) [V 0 0 0] [1] 3 bent) = 4%nat.
Proof. unfold setup. rewrite bent_Zn. reflexivity. Qed.

(** the weights of all orientations add up to one, and are positive if those of the nodes are *)
Theorem C112_normalized : forall (th : R) nodes weights n (mol : molecule), 0 < th -> (0 < n)%nat -> total weights <> 0 ->
  let q := setup th nodes weights n mol in sumTo (nOrientations q) (weight q) = 1.
Proof. exact normalized. Qed.
Print Assumptions C112_normalized.
Theorem C112_positive : forall (th : R) nodes weights n (mol : molecule) i, 0 < th -> (0 < n)%nat -> (forall w, In w weights -> 0 < w) ->
  let q := setup th nodes weights n mol in (i < nOrientations q)%nat -> 0 < weight q i.
Proof. exact weights_positive. Qed.
Print Assumptions C112_positive.
Example C112_normalized_ex : total [1; 2] <> 0 /\ (forall w, In w [1; 2] -> 0 < w) /\
  nOrientations (setup (1/10000) [V 0 0 0; V 0 1 0] [1; 2] 3 bent) = 4%nat.
Proof. split; [cbn; lra|]. split; [intros w [<-|[<-|[]]]; lra|]. unfold setup. rewrite bent_Zn. reflexivity. Qed.

(** for every quantity with the symmetry of the molecule the reduced quadrature equals the one over the whole circle *)
Theorem C112_average : forall (th : R) nodes weights n (mol : molecule) (F : mat R -> R),
  0 < th -> (0 < n)%nat -> length nodes = length weights -> total weights <> 0 ->
  (forall m, F (rmm m (rotation (2 * PI / INR (molZn th mol)) 2)) = F m) ->
  let q := setup th nodes weights n mol in
  sumTo (nOrientations q) (fun i => weight q i * F (matrixFromEuler (euler q i))) = fullAverage nodes weights (nS1 q) F.
Proof. exact average. Qed.
Print Assumptions C112_average.
(** in particular for a sum over the rotated positions of a site that the symmetry permutes *)
Theorem C112_site : forall (th : R) nodes weights n (mol : molecule) (site : list (vec R)) (g : vec R -> R),
  0 < th -> (0 < n)%nat -> length nodes = length weights -> total weights <> 0 ->
  Permutation (map (turn (molZn th mol)) site) site ->
  let q := setup th nodes weights n mol in
  sumTo (nOrientations q) (fun i => weight q i * total (map (fun r => g (rmv (matrixFromEuler (euler q i)) r)) site)) =
  fullAverage nodes weights (nS1 q) (fun m => total (map (fun r => g (rmv m r)) site)).
Proof. exact site_average. Qed.
Print Assumptions C112_site.
Example C112_site_ex : Permutation (map (turn (molZn (1/10000) bent)) [V 1 0 1; V (-1) 0 1]) [V 1 0 1; V (-1) 0 1].
Proof. exact bent_perm. Qed.
