(** C72: cells of the Wigner-Seitz supercell and their weights. *)
From Coq Require Import ZArith Reals List Bool Lia Lra.
From Verif Require Import Base Vec3_Model WS_Spec CellMap_Model CellMap_Spec CellMap_Proofs CellMap_Proofs2 CellMap_Proofs4 CellMap_Proofs5.
Import ListNotations.
Local Open Scope R_scope.

(** The assertion of the normalization never fails, each cell occurs once, weights are between 0 and 1,
    and for every pair of sites the weights of the cells equivalent to any given cell add up to 1. *)
Theorem C72_partition_of_unity (Rl : mat R) (super : mat Z) (tr : nat -> bool) (x1 x2 : list (vec R)) (rSmooth thr rc : R) (neigh : list (vec Z)) :
  rdet Rl <> 0 -> zdet super <> 0%Z -> truncation_orthogonal Rl tr -> truncation_diagonal super tr -> contains_cell (rmm Rl (mIZR super)) rc ->
  0 < rSmooth -> 0 < thr -> thr < 1 / 2 -> thr * Rabs (IZR (zdet super)) <= 1 ->
  exists m, getCellMap Rl (rmm Rl (mIZR super)) tr x1 x2 rSmooth thr rc neigh = Some m /\ NoDup (map fst m) /\
    (forall e, In e m -> planar tr (fst e) /\ forall i j, (i < length x1)%nat -> (j < length x2)%nat -> 0 <= snd e i j <= 1) /\
    (forall c (P : vec Z -> bool), planar tr c -> (forall b, P b = true <-> same_cell super c b) -> forall i j, (i < length x1)%nat -> (j < length x2)%nat ->
      rsum (fun e : entry => if P (fst e) then snd e i j else 0) m = 1).
Proof. exact (partition Rl super tr x1 x2 rSmooth thr rc neigh). Qed.
Print Assumptions C72_partition_of_unity.

(** Sums over the map of a function periodic over the supercell (such as the phase factors of a commensurate k-point)
    equal sums over one cell of each class, whatever the smoothing width. *)
Theorem C72_interpolation (Rl : mat R) (super : mat Z) (tr : nat -> bool) (x1 x2 : list (vec R)) (rSmooth thr rc : R) (neigh : list (vec Z)) :
  rdet Rl <> 0 -> zdet super <> 0%Z -> truncation_orthogonal Rl tr -> truncation_diagonal super tr -> contains_cell (rmm Rl (mIZR super)) rc ->
  0 < rSmooth -> 0 < thr -> thr < 1 / 2 -> thr * Rabs (IZR (zdet super)) <= 1 ->
  forall m (f : vec Z -> R) reps i j, getCellMap Rl (rmm Rl (mIZR super)) tr x1 x2 rSmooth thr rc neigh = Some m -> (forall a b, same_cell super a b -> f a = f b) ->
    representatives super (planar tr) reps -> (i < length x1)%nat -> (j < length x2)%nat -> rsum (fun e : entry => snd e i j * f (fst e)) m = rsum f reps.
Proof. exact (interpolation Rl super tr x1 x2 rSmooth thr rc neigh). Qed.
Print Assumptions C72_interpolation.

(** A weight is non-zero only within the smoothing margin of every bounding plane of the supercell. *)
Theorem C72_support (Rl : mat R) (super : mat Z) (tr : nat -> bool) (x1 x2 : list (vec R)) (rSmooth thr rc : R) (neigh : list (vec Z)) :
  rdet Rl <> 0 -> zdet super <> 0%Z -> truncation_orthogonal Rl tr -> truncation_diagonal super tr -> contains_cell (rmm Rl (mIZR super)) rc ->
  0 < rSmooth -> 0 < thr -> thr < 1 / 2 -> thr * Rabs (IZR (zdet super)) <= 1 ->
  forall m e i j n, getCellMap Rl (rmm Rl (mIZR super)) tr x1 x2 rSmooth thr rc neigh = Some m -> In e m -> (i < length x1)%nat -> (j < length x2)%nat -> snd e i j <> 0 -> In n neigh ->
    rlen2 (drOf Rl tr x1 x2 (fst e) i j) < rlen2 (rvsub (drOf Rl tr x1 x2 (fst e) i j) (rmv (rmm Rl (mIZR super)) (vIZR n))) + 2 * rSmooth.
Proof. exact (support Rl super tr x1 x2 rSmooth thr rc neigh). Qed.
Print Assumptions C72_support.

(** Exchanging the two sets of sites reverses the cells and transposes the weights, so interpolated Hermitian matrices stay Hermitian. *)
Theorem C72_reversal (Rl : mat R) (super : mat Z) (tr : nat -> bool) (x1 x2 : list (vec R)) (rSmooth thr rc : R) (neigh : list (vec Z)) :
  rdet Rl <> 0 -> zdet super <> 0%Z -> truncation_orthogonal Rl tr -> truncation_diagonal super tr -> contains_cell (rmm Rl (mIZR super)) rc ->
  0 < rSmooth -> 0 < thr -> thr < 1 / 2 -> thr * Rabs (IZR (zdet super)) <= 1 -> (forall n, In n neigh -> In (zvopp n) neigh) ->
  forall m m', getCellMap Rl (rmm Rl (mIZR super)) tr x1 x2 rSmooth thr rc neigh = Some m -> getCellMap Rl (rmm Rl (mIZR super)) tr x2 x1 rSmooth thr rc neigh = Some m' ->
  forall e, In e m -> exists e', In e' m' /\ fst e' = zvopp (fst e) /\ forall i j, (i < length x1)%nat -> (j < length x2)%nat -> snd e' j i = snd e i j.
Proof. exact (reversal Rl super tr x1 x2 rSmooth thr rc neigh). Qed.
Print Assumptions C72_reversal.

(** A doubled slab meets the hypotheses; its two classes are represented by the cells 0 and 1 along the first direction. *)
Example C72_ex : (rdet rid <> 0 /\ zdet exSuper <> 0%Z /\ 1 / 10000 * Rabs (IZR (zdet exSuper)) <= 1) /\ truncation_orthogonal rid exTr /\ truncation_diagonal exSuper exTr /\
  contains_cell (rmm rid (mIZR exSuper)) 2 /\ representatives exSuper (planar exTr) [V 0 0 0; V 1 0 0]%Z /\ (forall n, In n units -> In (zvopp n) units).
Proof.
  exact (conj ex_det (conj ex_orth (conj ex_diag (conj ex_contains (conj ex_reps (fun n (H : In n units) =>
    match H with or_introl e => or_intror (or_introl (f_equal zvopp e)) | or_intror (or_introl e) => or_introl (f_equal zvopp e)
    | or_intror (or_intror (or_introl e)) => or_intror (or_intror (or_intror (or_introl (f_equal zvopp e))))
    | or_intror (or_intror (or_intror (or_introl e))) => or_intror (or_intror (or_introl (f_equal zvopp e)))
    | or_intror (or_intror (or_intror (or_intror (or_introl e)))) => or_intror (or_intror (or_intror (or_intror (or_intror (or_introl (f_equal zvopp e))))))
    | or_intror (or_intror (or_intror (or_intror (or_intror (or_introl e))))) => or_intror (or_intror (or_intror (or_intror (or_introl (f_equal zvopp e)))))
    | or_intror (or_intror (or_intror (or_intror (or_intror (or_intror f))))) => match f with end end)))))).
Qed.

(** Beyond 1/symmThreshold cells (10000 by default) the test accepts cells which are not equivalent. *)
Theorem C72_equivalence_refuted : exists super a b, equivCell rid (rmm rid (mIZR super)) (1 / 10000) a b = true /\ ~ same_cell super a b.
Proof. exact (ex_intro _ bigSuper (ex_intro _ (V 0 0 0)%Z (ex_intro _ (V 1 0 0)%Z big_confused))). Qed.
Print Assumptions C72_equivalence_refuted.
Theorem C72_equivalence (Rl : mat R) (super : mat Z) (thr : R) (a b : vec Z) : rdet Rl <> 0 -> zdet super <> 0%Z -> 0 < thr -> thr * Rabs (IZR (zdet super)) <= 1 ->
  (equivCell Rl (rmm Rl (mIZR super)) thr a b = true <-> same_cell super a b).
Proof. exact (equiv_iff Rl super thr a b). Qed.
Print Assumptions C72_equivalence.
