(** Specification of the exchange operator. *)
From Coq Require Import Reals List.
From Coq Require Fin.
From Coquelicot Require Import Coquelicot.
From Verif Require Import CMat ElecGrad_Spec ExCompute_Model.
Import ListNotations.
Open Scope C_scope.

(** sums over lists *)
Definition sumR {A} (l : list A) (f : A -> R) : R := fold_right (fun x s => (f x + s)%R) 0%R l.
Definition sumC {A} (l : list A) (f : A -> C) : C := fold_right (fun x s => f x + s) 0 l.
Definition sumM {A n k} (l : list A) (f : A -> mat n k) : mat n k := fun i j => sumC l (fun x => f x i j).
(** [<a|A|b>] *)
Definition bracket {n k} (a : Fin.t n -> C) (A : mat n k) (b : Fin.t k -> C) : C := fsum (fun i => Cconj (a i) * fsum (fun j => A i j * b j)).
(** The pair density of an occupied state with real-space components [u s] as a linear map of a wavefunction: the transform J of sum_s conj(u_s) (I_s v). *)
Definition pairMap {ns N m} (I : Fin.t ns -> mat N m) (J : mat N N) (u : Fin.t ns -> Fin.t N -> C) : mat N m :=
  mmul J (fun x g => fsum (fun s => Cconj (u s x) * I s x g)).
(** One occupied state's contribution B^dagger K B to the exchange operator. *)
Definition exchangeTerm {ns N m} (I : Fin.t ns -> mat N m) (J K : mat N N) (u : Fin.t ns -> Fin.t N -> C) : mat m m :=
  mmul (madj (pairMap I J u)) (mmul K (pairMap I J u)).
(** operator order on Hermitian forms *)
Definition formLe {n} (A B : mat n n) : Prop := forall v : Fin.t n -> C, (Re (bracket v A v) <= Re (bracket v B v))%R.
(** column j of a matrix *)
Definition colOf {n k} (A : mat n k) (j : Fin.t k) : Fin.t n -> C := fun i => A i j.
(** (w/2) sum_j F_j <D_j|H|D_j> *)
Definition expectation {n k} (w : R) (F : Fin.t k -> R) (H : mat n n) (D : mat n k) : R :=
  (1/2 * w * rsumF (fun j => (F j * Re (bracket (colOf D j) H (colOf D j)))%R))%R.
(** same span of the columns *)
Definition sameSpan {n k l} (A : mat n k) (B : mat n l) : Prop := (exists T, A = mmul B T) /\ (exists T, B = mmul A T).
(** the number of a band *)
Definition finN {n} (j : Fin.t n) : nat := proj1_sig (Fin.to_nat j).
(** The exchange operator for a state of weight [wq]: every occupied state of every pair contributes with its filling and the weight of the pair. *)
Definition exchangeOp {ns N m} (I : Fin.t ns -> mat N m) (J : mat N N) (wq : R) (nk : nat) (Fk : nat -> R) (kpairs : list (kpairEntry ns N)) : mat m m :=
  sumM (seq 0 nk) (fun bk => sumM kpairs (fun kp => mscal (RtoC (kp_weight _ _ kp * Fk bk / wq)) (exchangeTerm I J (kp_K _ _ kp) (kp_state _ _ kp bk)))).
Definition exchangeOpAll {ns N m} (I : Fin.t ns -> mat N m) (J : mat N N) (wq : R) (ks : list (kstate ns N)) : mat m m :=
  sumM ks (fun k => exchangeOp I J wq (ks_n _ _ k) (ks_F _ _ k) (ks_pairs _ _ k)).
(** weight of a pair of bands: the product of the fillings, or the filling of the upper one in RPA mode *)
Definition pairWeight (rpa : bool) (fk fq ek eq : R) : R := if rpa then (if Rlt_dec ek eq then fq else fk) else (fk * fq)%R.
