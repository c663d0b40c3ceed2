(** The exchange energy and Hamiltonian of pairs of states, and the adaptively compressed exchange operator.
    Models /repo/jdftx/electronic/ExactExchange.cpp lines 103-159 (operator(), prepareHamiltonian, applyHamiltonian), 509-534 (loop over k) and 584-663 (computePair).
    Doubles are idealised as reals.  A column of a wavefunction with all its spinor components is one vector of length [m]; the linear maps
    I(getColumn(.,s)) and J are matrices, and Idag followed by accumColumn and Jdag their conjugate transposes.  O(coulombWfns(.)) is a matrix per pair.
    A null field is a zero field.  The division of the bands among processes is that of ExPairs_Model: here all bands of q are on one process.
    The lattice gradient and progress reports are not modelled. *)
From Coq Require Import Reals List Bool Arith.
From Coq Require Fin.
From Coquelicot Require Import Coquelicot.
From Verif Require Import CMat MatFun_Model.
Import ListNotations.
Open Scope C_scope.

Definition cvec (n : nat) := Fin.t n -> C.
Definition cvadd {n} (a b : cvec n) : cvec n := fun i => a i + b i.
Definition cvzero {n} : cvec n := fun _ => 0.
Definition mvec {n m} (A : mat n m) (v : cvec m) : cvec n := fun i => fsum (fun j => A i j * v j).
(** dot: conjugate of the first argument, no weight (Operators.cpp) *)
Definition cvdot {n} (a b : cvec n) : C := fsum (fun i => Cconj (a i) * b i).

(** all indices in order *)
Fixpoint allFin (n : nat) : list (Fin.t n) := match n with O => [] | S k => Fin.F1 :: map Fin.FS (allFin k) end.
Definition nonzero (x : R) : bool := if Req_EM_T x 0 then false else true.

Section Pair.
  Variables (ns N m : nat).
  (** a transformed k-point: kpair.weight, the real-space state of band bk (lines 609-619) and O(coulombWfns(.)) at q.k-k.k (line 636) *)
  Record kpairEntry := KPair { kp_weight : R; kp_state : nat -> Fin.t ns -> cvec N; kp_K : mat N N }.
  Variables (I : Fin.t ns -> mat N m) (J : mat N N).
  Definition fields := nat -> Fin.t ns -> cvec N.
  (** lines 624-630 *)
  Definition pairFillings (rpaMode : bool) (wk wq fk fq ek eq : R) : R :=
    let wFprod := ((wk * fk) * (wq * fq))%R in
    if rpaMode then (wFprod + (wk * wq) * (if Rlt_dec ek eq then fq * (1 - fk) else fk * (1 - fq)))%R else wFprod.
  Variables (aXX : R) (rpaMode : bool).
  (** one pair of bands: lines 620-644; [a] is EXX and grad_Ipsiq *)
  Definition pairStep (wk wq : R) (Fk ek Fq eq : nat -> R) (Ipsiq : fields) (bk : nat) (kp : kpairEntry) (a : R * fields) (bq : nat) : R * fields :=
    let Ipsik := kp_state kp bk in
    let prefac := (- (1/2) * aXX * kp_weight kp / (wk * wq))%R in
    let wFk := (wk * Fk bk)%R in
    let wFq := (wq * Fq bq)%R in
    let wFprod := pairFillings rpaMode wk wq (Fk bk) (Fq bq) (ek bk) (eq bq) in
    if negb (nonzero wFk) && negb (nonzero wFq) then a else
    let In := fun x => fsum (fun s => Cconj (Ipsik s x) * Ipsiq bq s x) in
    let n := mvec J In in
    let Kn := mvec (kp_K kp) n in
    let E_In := mvec (madj J) Kn in
    ((fst a + (prefac * wFprod) * Re (cvdot n Kn))%R,
     fun b s => if (b =? bq)%nat then (fun x => snd a b s x + RtoC (2 * prefac * wFk) * E_In x * Ipsik s x) else snd a b s).
  (** the loops over k-states, transforms and q-bands of a block: lines 605-646 *)
  Definition blockPairs (wk wq : R) (nk : nat) (Fk ek Fq eq : nat -> R) (kpairs : list kpairEntry) (Ipsiq : fields) (bqStart bqStop : nat) (EXX : R) : R * fields :=
    fold_left (fun a bk => fold_left (fun a kp => fold_left (pairStep wk wq Fk ek Fq eq Ipsiq bk kp) (seq bqStart (bqStop - bqStart)) a) kpairs a) (seq 0 nk) (EXX, fun _ _ => cvzero).
  (** lines 647-653 *)
  Definition accumBlock (grad : fields) (bqStart bqStop : nat) (HCq : nat -> cvec m) : nat -> cvec m :=
    fold_left (fun H bq => fold_left (fun H s => fun b => if (b =? bq)%nat then cvadd (H b) (mvec (madj (I s)) (grad bq s)) else H b)
      (allFin ns) H) (seq bqStart (bqStop - bqStart)) HCq.
  (** computePair: the loop over blocks, lines 590-662; None: division by a zero block size *)
  Definition computePair (blockSize : nat) (wk wq : R) (nk nq : nat) (Fk ek Fq eq : nat -> R) (kpairs : list kpairEntry) (Cq : nat -> cvec m) (HCq : nat -> cvec m) : option (R * (nat -> cvec m)) :=
    if (blockSize =? 0)%nat then None else
    let nBlocks := ((nq + blockSize - 1) / blockSize)%nat in
    let r := fold_left (fun (a : R * (nat -> cvec m) * nat) (iBlock : nat) =>
        let '(EXX, H, bqStart) := a in
        let bqStop := Nat.min (bqStart + blockSize) nq in
        let Ipsiq := fun bq s => mvec (I s) (Cq bq) in
        let p := blockPairs wk wq nk Fk ek Fq eq kpairs Ipsiq bqStart bqStop EXX in
        (fst p, accumBlock (snd p) bqStart bqStop H, bqStop))
      (seq 0 nBlocks) (0%R, HCq, O) in
    Some (fst r).
  (** compute for one q and spin: lines 509-534; the reduced k-states are listed with their weight, number of bands, fillings, eigenvalues and pair transforms *)
  Record kstate := KState { ks_weight : R; ks_n : nat; ks_F : nat -> R; ks_e : nat -> R; ks_pairs : list kpairEntry }.
  Definition computeAll (blockSize : nat) (wq : R) (nq : nat) (Fq eq : nat -> R) (ks : list kstate) (Cq : nat -> cvec m) : option (R * (nat -> cvec m)) :=
    fold_left (fun a k => match a with None => None | Some (E, H) =>
        match computePair blockSize (ks_weight k) wq (ks_n k) nq (ks_F k) (ks_e k) Fq eq (ks_pairs k) Cq H with
        | None => None | Some (dE, H') => Some ((E + dE)%R, H') end end) ks (Some (0%R, fun _ => cvzero)).
End Pair.

(** ** Compressed operator *)
Section Compressed.
  Context {m n : nat}.
  (** prepareHamiltonian for one q: lines 138-142; [W] is the result of compute with aXX=-1, [V] and [d] the eigensystem of C^W; the projectors and isSingular *)
  Definition aceOverlap (Cq W : mat m n) : mat n n := mmul (madj Cq) W.
  Definition acePrepare (W : mat m n) (V : mat n n) (d : Fin.t n -> R) : option (mat m n * bool) :=
    match invsqrt true V d with None => None | Some (is, _, isSingular) => Some (mmul W is, isSingular) end.
End Compressed.
(** applyHamiltonian: lines 153-159; the energy and HCq *)
Definition aceApply {m n l : nat} (aXX weight : R) (psi : mat m n) (Fq : Fin.t l -> R) (Cq HCq : mat m l) : R * mat m l :=
  let psiDagC := mmul (madj psi) Cq in
  (((- (1/2) * aXX * weight) * Re (mtr (mmul (mmul psiDagC (mdiag (fun i => RtoC (Fq i)))) (madj psiDagC))))%R,
   msub HCq (mscal (RtoC aXX) (mmul psi psiDagC))).
(** operator(), line 108: whether the compressed operator is used; omegaACE is None (NAN) until prepareHamiltonian has run *)
Definition useACE (omegaACE : option R) (omega : R) (needStress rpaMode : bool) : bool :=
  match omegaACE with None => false | Some w => (if Req_EM_T omega w then true else false) && negb (needStress || rpaMode) end.
