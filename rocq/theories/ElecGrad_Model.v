(** Wavefunction and subspace gradients of the electronic energy, and the steps of the electronic minimizer, for one state.
    Models /repo/jdftx/electronic/ElecVars.cpp lines 416-430 and 469-473 (gradients), 650-657 (orthonormalize), 698 (Hsub),
    ElecInfo.cpp lines 346-357 (smearGrad) and /repo/jdftx/electronic/ElecMinimizer.cpp lines 55-65 (dot), 145-225 (constructor, step, compute),
    250-255 (report) and 262-267 (constrain).
    Doubles are idealised as reals. Wavefunctions are matrices of basis functions by bands, the overlap operator O is a matrix.
    HC, the action of the Hamiltonian on the wavefunctions, is an input. LAPACK results (Cholesky factor, eigenvectors, inverse) are inputs
    with contracts in MatFun_Spec and ElecGrad_Spec. Preconditioning and the sums over states are not modelled. *)
From Coq Require Import Reals.
From Coq Require Fin.
From Coquelicot Require Import Coquelicot.
From Verif Require Import CMat Smear_Model MatFun_Model.
Open Scope C_scope.

Section Gradients.
Context {m n : nat}.
(** C[q] ^ HC: ElecVars.cpp line 698 *)
Definition hsub (Cq HC : mat m n) : mat n n := mmul (madj Cq) HC.
(** HC -= O(C)*Hsub; grad->C = HC*(F*weight): ElecVars.cpp lines 421-422 *)
Definition gradC (O : mat m m) (Cq HC : mat m n) (F : Fin.t n -> R) (w : R) : mat m n :=
  mmul (msub HC (mmul (mmul O Cq) (hsub Cq HC))) (mdiag (fun b => RtoC (F b * w))).
(** contributions to dot of two gradients: ElecMinimizer.cpp lines 59-60 *)
Definition dotC (x y : mat m n) : R := (2 * Re (mtr (mmul (madj x) y)))%R.
Definition dotH (x y : mat n n) : R := Re (mtr (mmul (madj x) y)).
(** smearGrad: ElecInfo.cpp lines 346-357 *)
Definition smearGradMat (ty : SmearingType) (width mu : R) (eps : Fin.t n -> R) (gradF : mat n n) : mat n n :=
  fun i j => RtoC (smearGradFactor ty width mu (eps i) (eps j)) * gradF i j.
(** grad->Haux: ElecVars.cpp lines 471-473; [c] is muEff(dmuContrib,dBzContrib,q), [mu] is muEff(mu,Bz,q) *)
Definition gradHauxMat (ty : SmearingType) (width mu c w : R) (eps : Fin.t n -> R) (Hs : mat n n) : mat n n :=
  let gradF0 := msub Hs (mdiag (fun b => RtoC (eps b))) in
  let gradF := msub gradF0 (mscal (RtoC c) mone) in
  mscal (RtoC w) (daggerSymmetrize (smearGradMat ty width mu eps gradF)).
(** subspace gradient for constant, non-scalar fillings: ElecMinimizer.cpp line 214 *)
Definition gradRotation (F : Fin.t n -> R) (Hs : mat n n) : mat n n :=
  let D := mdiag (fun b => RtoC (F b)) in daggerSymmetrize (mscal Ci (msub (mmul D Hs) (mmul Hs D))).
(** constrain: lines 262-267 *)
Definition constrainC (O : mat m m) (Cq dir : mat m n) : mat m n := msub dir (mmul Cq (mmul (madj Cq) (mmul O dir))).

(** ** Steps *)
Record mstate := MS { sC : mat m n; sEigs : Fin.t n -> R; sRot : mat n n; sRotC : mat n n; sRotCinv : mat n n; sExists : bool }.
(** lines 148-153 *)
Definition initState (Cq : mat m n) (eigs : Fin.t n -> R) : mstate := MS Cq eigs mone mone mone false.
(** line 163: axpy(alpha, rotExists ? dir.C*rotPrevC : dir.C, C) *)
Definition movedC (s : mstate) (alpha : R) (dir : mat m n) : mat m n :=
  madd (sC s) (mscal (RtoC alpha) (if sExists s then mmul dir (sRotC s) else dir)).
(** lines 174-175: the auxiliary matrix that is diagonalized *)
Definition movedH (s : mstate) (alpha : R) (dirH : mat n n) : mat n n :=
  madd (mdiag (fun b => RtoC (sEigs s b))) (mscal (RtoC alpha) (if sExists s then mmul (mmul (madj (sRot s)) dirH) (sRot s) else dirH)).
(** lines 164-167: constant scalar fillings; [Linv] inverts the Cholesky factor of the overlap of the moved wavefunctions *)
Definition stepScalar (s : mstate) (alpha : R) (dir : mat m n) (Linv : mat n n) : mstate :=
  MS (mmul (movedC s alpha dir) (orthoMatrix Linv)) (sEigs s) (sRot s) (sRotC s) (sRotCinv s) (sExists s).
(** lines 168-189: [rot] (with [eigs]) diagonalizes the auxiliary matrix or is the rotation cis(alpha*dir.Haux); [inv] is inv(rotC) *)
Definition stepRot (s : mstate) (alpha : R) (dir : mat m n) (Linv rot : mat n n) (eigs : Fin.t n -> R) (inv : mat n n) : mstate :=
  let rotC := mmul (orthoMatrix Linv) rot in
  MS (mmul (movedC s alpha dir) rotC) eigs (mmul (sRot s) rot) (mmul (sRotC s) rotC) (mmul inv (sRotCinv s)) true.
(** report, lines 250-255 *)
Definition reportState (s : mstate) : mstate :=
  if sExists s then MS (sC s) (sEigs s) (sRot s) (sRot s) (madj (sRot s)) true else s.
(** compute: lines 200-210 *)
Definition rotatedGradC (s : mstate) (g : mat m n) : mat m n := if sExists s then mmul g (sRotCinv s) else g.
Definition rotatedGradH (s : mstate) (g : mat n n) : mat n n := if sExists s then mmul (mmul (sRot s) g) (madj (sRot s)) else g.
End Gradients.
Arguments mstate : clear implicits.
