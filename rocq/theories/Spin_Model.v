(** Spin densities, magnetization and the local spin-diagonal basis of noncollinear magnetism (C45), and the
    propagation of gradient-corrected functional derivatives to the density over several processes (C67).
    double is idealised as R.  A scalar field is its list of values at the grid points of one process (every process
    holds the whole grid), accessed through an index. *)
From Coq Require Import ZArith Reals List Bool.
From Verif Require Import Base Vec3_Model WorkDiv_Model.
Import ListNotations.
Open Scope R_scope.

(** A ScalarField at one grid point is a number; ScalarFieldArray is a list of fields. *)
Definition field := Z -> R.

(** SCF.cpp lines 253-267, Magnetization::fromSpinDensity.  Only sizes 1, 2, 4 occur (nDensities); other sizes leave null
    or missing entries and are the error value. *)
Definition fromSpinDensity (n : list field) : option (list field) :=
  match n with
  | [n0] => Some [n0]
  | [n0; n1] => Some [(fun i => n0 i + n1 i); (fun i => n0 i - n1 i)]
  | [n0; n1; n2; n3] => Some [(fun i => n0 i + n1 i); (fun i => n0 i - n1 i); (fun i => 2 * n2 i); (fun i => (-2) * n3 i)]
  | _ => None
  end.
(** SCF.cpp lines 268-282, Magnetization::toSpinDensity *)
Definition toSpinDensity (m : list field) : option (list field) :=
  match m with
  | [m0] => Some [m0]
  | [m0; m1] => Some [(fun i => 0.5 * (m0 i + m1 i)); (fun i => 0.5 * (m0 i - m1 i))]
  | [m0; m1; m2; m3] => Some [(fun i => 0.5 * (m0 i + m1 i)); (fun i => 0.5 * (m0 i - m1 i)); (fun i => 0.5 * m2 i); (fun i => (-0.5) * m3 i)]
  | _ => None
  end.

(** array<double*,4> and array<double*,2> at one grid point: the four (two) numbers. *)
Record quad := Q { q0 : R; q1 : R; q2 : R; q3 : R }.

(** ExCorr_internal.h line 29 *)
Definition nCutoff : R := / 10 ^ 16.
(** ExCorr_internal.h lines 84-87 *)
Definition loadSpinVector (x : quad) : R * vec R := (q0 x + q1 x, V (2 * q2 x) (-2 * q3 x) (q0 x - q1 x)).
(** ExCorr_internal.h lines 88-93 *)
Definition accumSpinVectorGrad (E_x0 : R) (E_xVec : vec R) (E_x : quad) : quad :=
  Q (q0 E_x + (E_x0 + c2 E_xVec)) (q1 E_x + (E_x0 - c2 E_xVec)) (q2 E_x + 2 * c0 E_xVec) (q3 E_x - 2 * c1 E_xVec).
(** ExCorr_internal.h lines 96-107 *)
Definition mNormFac (mVec : vec R) : R := 1 / sqrt (rlen2 mVec + nCutoff).
Definition spinDiagonalize_calc (n x : quad) : R * R :=
  let mVec := snd (loadSpinVector n) in
  let mHat := rvscale (mNormFac mVec) mVec in
  let x0 := fst (loadSpinVector x) in let xVec := snd (loadSpinVector x) in
  let xdotmHat := rdot xVec mHat in
  (0.5 * (x0 + xdotmHat), 0.5 * (x0 - xdotmHat)).
(** ExCorr_internal.h lines 110-125; returns the updated (E_n, E_x).  The two output arrays are distinct here;
    ExCorr.cpp line 835 passes the same array twice, see [spinDiagonalizeGrad_same]. *)
Definition E_mVec_of (n x : quad) (E : R * R) : vec R :=
  let mVec := snd (loadSpinVector n) in
  let mHat := rvscale (mNormFac mVec) mVec in
  let xVec := snd (loadSpinVector x) in
  let E_xdotmHat := 0.5 * (fst E - snd E) in
  rvscale (E_xdotmHat * mNormFac mVec) (rvsub xVec (rvscale (rdot xVec mHat) mHat)).
Definition E_xVec_of (n : quad) (E : R * R) : vec R :=
  let mVec := snd (loadSpinVector n) in
  rvscale (0.5 * (fst E - snd E)) (rvscale (mNormFac mVec) mVec).
Definition spinDiagonalizeGrad_calc (n x : quad) (E_xDiag : R * R) (E_n E_x : quad) : quad * quad :=
  (accumSpinVectorGrad 0 (E_mVec_of n x E_xDiag) E_n,
   accumSpinVectorGrad (0.5 * (fst E_xDiag + snd E_xDiag)) (E_xVec_of n E_xDiag) E_x).
(** ExCorr.cpp line 835: x = n and both outputs are E_nIn (the accumulations happen one after the other). *)
Definition spinDiagonalizeGrad_same (n : quad) (E_xDiag : R * R) (E : quad) : quad :=
  accumSpinVectorGrad (0.5 * (fst E_xDiag + snd E_xDiag)) (E_xVec_of n E_xDiag)
    (accumSpinVectorGrad 0 (E_mVec_of n n E_xDiag) E).

(** ** Gradient propagation of ExCorr::operator()
    ExCorr.cpp lines 662-671, 697-714, 733-744 and 863-909 for one functional of the gradient contractions.
    [T i] is the composite I(D(J( . ),i)) of lines 669-671, [Td i] the composite Jdag(D(Idag( . ),i)) of lines 894 and 908.
    [allReduce f] below is the sum over processes of line 742 / 906. *)
Section XC.
  Variable T Td : Z -> field -> field.

  (** spin components of a field at a point, for nInCount = 4 *)
  Definition quadAt (x : Z -> field) (p : Z) : quad := Q (x 0%Z p) (x 1%Z p) (x 2%Z p) (x 3%Z p).
  (** lines 668-672: DnIn[s][i] *)
  Definition Dfields (n : Z -> field) (i : Z) : Z -> field := fun s => T i (n s).
  (** lines 697-714: Dn[s][i] in the diagonal basis (noncollinear), or the input itself (nCount = nInCount) *)
  Definition DnDiag (noncollinear : bool) (n : Z -> field) (i : Z) (s : Z) : field :=
    if noncollinear then
      fun p => let d := spinDiagonalize_calc (quadAt n p) (quadAt (Dfields n i) p) in if (s =? 0)%Z then fst d else snd d
    else Dfields n i s.
  (** directions of process iProc: line 665, TaskDivision(3, mpiWorld).myRange *)
  Definition dirs (nProcs iProc : Z) : list Z := zrange (td_start (stopArr 3 nProcs) iProc) (td_stop (stopArr 3 nProcs) iProc).
  Definition sumOver {A} (l : list A) (f : A -> R) : R := fold_left (fun acc x => acc + f x) l 0.
  (** lines 735-744: contribution of one process to sigma[s1+s2], and the allReduce *)
  Definition sigmaMine (nc : bool) (n : Z -> field) (nProcs iProc s1 s2 : Z) : field :=
    fun p => sumOver (dirs nProcs iProc) (fun i => DnDiag nc n i s1 p * DnDiag nc n i s2 p).
  Definition sigma (nc : bool) (n : Z -> field) (nProcs s1 s2 : Z) : field :=
    fun p => sumOver (zrange 0 nProcs) (fun iProc => sigmaMine nc n nProcs iProc s1 s2 p).
  (** lines 877-885: E_Dni[s] from E_sigma[0..2] (nCount = 1 or 2) *)
  Definition E_Dni (nCount : Z) (Es : Z -> field) (D : Z -> field) (s : Z) : field := fun p =>
    if (nCount =? 1)%Z then 2 * (Es 0%Z p * D 0%Z p)
    else if (s =? 0)%Z then 2 * (Es 0%Z p * D 0%Z p) + Es 1%Z p * D 1%Z p
    else Es 1%Z p * D 0%Z p + 2 * (Es 2%Z p * D 1%Z p).
  (** lines 886-891: conversion to the spin-density-matrix; the first component is what is added to E_n on this process,
      the second replaces E_Dni *)
  Definition quadComp (q : quad) (s : Z) : R := if (s =? 0)%Z then q0 q else if (s =? 1)%Z then q1 q else if (s =? 2)%Z then q2 q else q3 q.
  Definition convertDni (n : Z -> field) (i : Z) (E : Z -> field) : (Z -> field) * (Z -> field) :=
    let g p := spinDiagonalizeGrad_calc (quadAt n p) (quadAt (Dfields n i) p) (E 0%Z p, E 1%Z p) (Q 0 0 0 0) (Q 0 0 0 0) in
    ((fun s p => quadComp (fst (g p)) s), (fun s p => quadComp (snd (g p)) s)).
  (** lines 875-894 on one process for direction i: (increment of E_n, increment of Jdag(E_nTilde)) *)
  Definition propagateDir (nc : bool) (nCount : Z) (n : Z -> field) (Es : Z -> field) (i : Z) : (Z -> field) * (Z -> field) :=
    let E := E_Dni nCount Es (DnDiag nc n i) in
    if nc then let c := convertDni n i E in (fst c, fun s p => - Td i (snd c s) p)
    else ((fun _ _ => 0), fun s p => - Td i (E s) p).
  (** lines 863-909: E_n[s] on process iProc at the end.  E_nTilde is summed over processes (line 906), the increments of
      E_n made inside the loop (line 889) are not.  Jdag is linear, so it is applied before the sum here. *)
  Definition propagateSigma (nc : bool) (nCount : Z) (n Es E_n : Z -> field) (nProcs iProc : Z) (s : Z) : field := fun p =>
    E_n s p + sumOver (dirs nProcs iProc) (fun i => fst (propagateDir nc nCount n Es i) s p)
    + sumOver (zrange 0 nProcs) (fun q => sumOver (dirs nProcs q) (fun i => snd (propagateDir nc nCount n Es i) s p)).
End XC.
