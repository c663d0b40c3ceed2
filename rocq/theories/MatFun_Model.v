(** Functions of Hermitian and unitary matrices and their gradients.
    Models /repo/jdftx/core/matrixLinalg.cpp lines 214-315 (pow, invsqrt, cis, cisInv, sqrt_grad, cis_grad) and 485-516
    (invTriangular, orthoMatrix), and matrixOperators.cpp lines 356-358 (dagger_symmetrize).
    Doubles are idealised as reals. The LAPACK routines are arguments: what zheevr, zgeev, zpotrf and ztrtri return for A is passed
    as eigenvectors and eigenvalues, or as a factor and its inverse; their contracts are stated in MatFun_Spec.
    None stands for stackTraceExit. The asserts on dimensions hold by the types of the matrices; the asserts of cisInv
    (lines 268 and 272) concern round-off only and are not modelled. *)
From Coq Require Import Reals.
From Coq Require Fin.
From Coquelicot Require Import Coquelicot.
From Verif Require Import CMat Euler_Model.
Open Scope C_scope.

(** MATRIX_FUNC: evecs * matrix(eigOut) * dagger(evecs), matrixLinalg.cpp line 228 *)
Definition matFunc {n} (evecs : mat n n) (eigOut : Fin.t n -> C) : mat n n := mmul (mmul evecs (mdiag eigOut)) (madj evecs).
(** std::pow for a non-negative base: pow(0,0)=1, pow(0,x)=0 for x>0 *)
Definition dpow (x e : R) : R := if Req_EM_T x 0 then (if Req_EM_T e 0 then 1%R else 0%R) else Rpower x e.
(** one eigenvalue of pow: lines 234-246. [handled] is whether isSingular is non-null. Result: eigOut[i], eigs[i] and whether *isSingular is set. *)
Definition powEig (exponent : R) (handled : bool) (eig : R) : option (C * R * bool) :=
  if Rlt_dec exponent 0 then
    if Rle_dec eig 0 then (if handled then Some (RtoC 0, eig, true) else None)
    else Some (RtoC (dpow eig exponent), eig, false)
  else
    if Rlt_dec eig 0 then Some (RtoC 0, 0%R, false)
    else Some (RtoC (dpow eig exponent), eig, false).
(** the loop over eigenvalues, lines 221-224 *)
Fixpoint overEigs {n} (A : Type) : (Fin.t n -> option A) -> option (Fin.t n -> A) :=
  match n with
  | O => fun _ => Some (fun i => Fin.case0 (fun _ => A) i)
  | S k => fun f =>
    match f Fin.F1, overEigs A (fun i => f (Fin.FS i)) with
    | Some a, Some g => Some (fun i => Fin.caseS' i (fun _ => A) a g)
    | _, _ => None
    end
  end.
Fixpoint anyOf {n} : (Fin.t n -> bool) -> bool :=
  match n with O => fun _ => false | S k => fun f => orb (f Fin.F1) (anyOf (fun i => f (Fin.FS i))) end.
(** pow, lines 231-248: the matrix, *Aeigs and *isSingular *)
Definition powMat {n} (exponent : R) (handled : bool) (evecs : mat n n) (eigs : Fin.t n -> R) : option (mat n n * (Fin.t n -> R) * bool) :=
  match overEigs _ (fun i => powEig exponent handled (eigs i)) with
  | None => None
  | Some r => Some (matFunc evecs (fun i => fst (fst (r i))), (fun i => snd (fst (r i))), anyOf (fun i => snd (r i)))
  end.
(** invsqrt, lines 251-253 *)
Definition invsqrt {n} (handled : bool) (evecs : mat n n) (eigs : Fin.t n -> R) := powMat (-1/2) handled evecs eigs.
(** cis(x) = exp(i x): scalar.h *)
Definition ccis (x : R) : C := (cos x, sin x).
(** cis, lines 256-260 *)
Definition cisMat {n} (evecs : mat n n) (eigs : Fin.t n -> R) : mat n n := matFunc evecs (fun i => ccis (eigs i)).
(** cisInv, lines 265-282: right eigenvectors and complex eigenvalues of A *)
Definition cisInvMat {n} (evecs : mat n n) (eigs : Fin.t n -> C) : mat n n := matFunc evecs (fun i => RtoC (atan2 (Im (eigs i)) (Re (eigs i)))).
(** MATRIX_FUNC_GRAD, lines 287-300 *)
Definition gradFunc {n} (factor : Fin.t n -> Fin.t n -> C) (gradIn evecs : mat n n) : mat n n :=
  let gradOut := mmul (mmul (madj evecs) gradIn) evecs in
  mmul (mmul evecs (fun i j => factor i j * gradOut i j)) (madj evecs).
(** sqrt_grad, lines 303-307 *)
Definition sqrtGrad {n} (gradIn evecs : mat n n) (eigs : Fin.t n -> R) : mat n n :=
  gradFunc (fun i j => / RtoC (sqrt (eigs i) + sqrt (eigs j))) gradIn evecs.
(** cis_grad, lines 309-314 *)
Definition cisFactor (ei ej : R) : C :=
  let x := (ej - ei)%R in
  if Rlt_dec (Rabs x) (1 / 10^13) then ((- (1/2) * x)%R, 1%R) else (ccis x - 1) / RtoC x.
Definition cisGrad {n} (gradIn evecs : mat n n) (eigs : Fin.t n -> R) : mat n n :=
  gradFunc (fun i j => cisFactor (eigs i) (eigs j)) gradIn evecs.
(** orthoMatrix, lines 508-516, with upper = false: [Linv] is what invTriangular(cholesky(A,false),false) returns *)
Definition orthoMatrix {n} (Linv : mat n n) : mat n n := madj Linv.
(** dagger_symmetrize, matrixOperators.cpp lines 356-358 *)
Definition daggerSymmetrize {n} (A : mat n n) : mat n n := mscal (RtoC (1/2)) (madd (madj A) A).
