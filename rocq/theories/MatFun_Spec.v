(** Specification of matrix functions. *)
From Coq Require Import Reals.
From Coq Require Fin.
From Coquelicot Require Import Coquelicot.
From Verif Require Import CMat.
Open Scope C_scope.

(** What the eigensolvers guarantee: orthonormal eigenvectors with real or complex eigenvalues. *)
Definition eigensystem {n} (A V : mat n n) (d : Fin.t n -> R) : Prop := unitary V /\ forall i k, mmul A V i k = RtoC (d k) * V i k.
Definition eigensystemC {n} (A V : mat n n) (z : Fin.t n -> C) : Prop := unitary V /\ forall i k, mmul A V i k = z k * V i k.
(** What Cholesky factorization and triangular inversion guarantee. *)
Definition choleskyInverse {n} (A Linv : mat n n) : Prop := exists L, A = mmul L (madj L) /\ mmul Linv L = mone /\ mmul L Linv = mone.
(** positive (semi-)definite *)
Definition quad {n} (A : mat n n) (v : Fin.t n -> C) : C := fsum (fun i => fsum (fun j => Cconj (v i) * (A i j * v j))).
Definition posSemi {n} (A : mat n n) : Prop := hermitian A /\ forall v : Fin.t n -> C, (0 <= Re (quad A v))%R.
Definition posDef {n} (A : mat n n) : Prop := hermitian A /\ forall v : Fin.t n -> C, (exists i, v i <> RtoC 0) -> (0 < Re (quad A v))%R.
(** a path of matrices with its entrywise derivative at a point *)
Definition mderive {n m} (P : R -> mat n m) (t : R) (D : mat n m) : Prop :=
  forall i j, is_derive (fun s => Re (P s i j)) t (Re (D i j)) /\ is_derive (fun s => Im (P s i j)) t (Im (D i j)).
