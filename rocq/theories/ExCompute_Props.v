(** Properties C95 (exchange energy and Hamiltonian of pairs of states) and C96 (compressed exchange operator). *)
From Coq Require Import Reals List Bool Arith.
From Coq Require Fin.
From Coquelicot Require Import Coquelicot.
From Verif Require Import CMat MatFun_Model MatFun_Spec MatFun_Proofs4 ElecGrad_Spec ExCompute_Model ExCompute_Spec ExCompute_Proofs ExCompute_Proofs3 ExCompute_Proofs4 ExCompute_Proofs5.
Import ListNotations.
Open Scope C_scope.

(** For every block size the energy is the sum over pairs and the gradient is the exchange operator applied to every column; columns beyond the given ones are unchanged. *)
Theorem C95_pairs : forall ns N m (I : Fin.t ns -> mat N m) J aXX rpa wk wq nk Fk ek Fq eq kpairs Cq bs nq H, wk <> 0%R -> wq <> 0%R -> (0 < bs)%nat ->
  computePair ns N m I J aXX rpa bs wk wq nk nq Fk ek Fq eq kpairs Cq H =
    Some (sumR (seq 0 nq) (fun bq => sumR (seq 0 nk) (fun bk => sumR kpairs (fun kp =>
        (- (1/2) * aXX * kp_weight _ _ kp * pairWeight rpa (Fk bk) (Fq bq) (ek bk) (eq bq) * Re (bracket (Cq bq) (exchangeTerm I J (kp_K _ _ kp) (kp_state _ _ kp bk)) (Cq bq)))%R))),
      fun b => if (b <? nq)%nat then cvadd (H b) (mvec (mscal (RtoC (- aXX)) (exchangeOp I J wq nk Fk kpairs)) (Cq b)) else H b).
Proof. exact pairs_ok. Qed.
Print Assumptions C95_pairs.

(** The energy is half the expectation value of the returned Hamiltonian. *)
Theorem C95_energy : forall ns N m (I : Fin.t ns -> mat N m) J aXX wq Fq eq ks Cq bs nq, wq <> 0%R -> (0 < bs)%nat -> (forall k, In k ks -> ks_weight _ _ k <> 0%R) ->
  let X := mscal (RtoC (- aXX)) (exchangeOpAll I J wq ks) in
  computeAll ns N m I J aXX false bs wq nq Fq eq ks Cq =
    Some (expectation wq (fun j : Fin.t nq => Fq (finN j)) X (fun i j => Cq (finN j) i), fun b => if (b <? nq)%nat then mvec X (Cq b) else cvzero).
Proof. exact energy_ok. Qed.
Print Assumptions C95_energy.

(** The operator is Hermitian and positive semi-definite for non-negative fillings and a positive semi-definite Coulomb kernel. *)
Theorem C95_semidefinite : forall ns N m (I : Fin.t ns -> mat N m) J wq ks, (0 < wq)%R ->
  (forall k, In k ks -> (forall b, (b < ks_n ns N k)%nat -> (0 <= ks_F ns N k b)%R) /\ forall kp, In kp (ks_pairs ns N k) -> (0 <= kp_weight ns N kp)%R /\ posSemi (kp_K ns N kp)) ->
  posSemi (exchangeOpAll I J wq ks).
Proof. exact opAll_psd. Qed.
Print Assumptions C95_semidefinite.

(** In RPA mode a pair carries the smaller of its fillings when fillings do not increase with energy. *)
Theorem C95_rpa_fillings : forall wk wq fk fq ek eq, ((ek < eq)%R -> (fq <= fk)%R) -> ((eq <= ek)%R -> (fk <= fq)%R) ->
  pairFillings true wk wq fk fq ek eq = (wk * wq * Rmin fk fq)%R.
Proof. exact rpa_ok. Qed.
Print Assumptions C95_rpa_fillings.

Example C95_example : (forall bs, (0 < bs)%nat -> option_map fst (computeAll 1 1 1 (fun _ => exm 1) (exm 1) (1/4) false bs 1 2 exF (fun _ => 0%R) [exState] exCq) = Some (- (9/8))%R) /\
  (forall k, In k [exState] -> (forall b, (b < ks_n 1 1 k)%nat -> (0 <= ks_F 1 1 k b)%R) /\ forall kp, In kp (ks_pairs 1 1 k) -> (0 <= kp_weight 1 1 kp)%R /\ posSemi (kp_K 1 1 kp)).
Proof. split; [exact exCompute|]. intros k [<-|[]]. apply exPair_ok. Qed.

(** The compressed operator always exists, is semi-definite, reproduces the exchange operator on the given orbitals even if they are dependent, and never exceeds it. *)
Theorem C96_compressed_operator : forall m n (K : mat m m) (Cq : mat m n) V d, posSemi K -> eigensystem (aceOverlap Cq (mmul K Cq)) V d ->
  exists psi sing, acePrepare (mmul K Cq) V d = Some (psi, sing) /\ (sing = false <-> posDef (aceOverlap Cq (mmul K Cq))) /\
    posSemi (mmul psi (madj psi)) /\ mmul (mmul psi (madj psi)) Cq = mmul K Cq /\ formLe (mmul psi (madj psi)) K.
Proof. exact ace_main. Qed.
Print Assumptions C96_compressed_operator.

(** On all combinations of the orbitals, energy and Hamiltonian are those of the exchange operator. *)
Theorem C96_exact_on_span : forall m n l (K : mat m m) (Cq : mat m n) V d psi sing aXX w F (T : mat n l) HC, posSemi K -> eigensystem (aceOverlap Cq (mmul K Cq)) V d ->
  acePrepare (mmul K Cq) V d = Some (psi, sing) -> let D := mmul Cq T in let H := mscal (RtoC (- aXX)) K in
  aceApply aXX w psi F D HC = (expectation w F H D, madd HC (mmul H D)).
Proof. exact ace_span. Qed.
Print Assumptions C96_exact_on_span.

(** On any orbitals the energy lies between that of the exchange operator and zero. *)
Theorem C96_bound : forall m n l (K : mat m m) (Cq : mat m n) V d psi sing aXX w F (D HC : mat m l), posSemi K -> eigensystem (aceOverlap Cq (mmul K Cq)) V d ->
  acePrepare (mmul K Cq) V d = Some (psi, sing) -> (0 <= aXX)%R -> (0 <= w)%R -> (forall j, (0 <= F j)%R) ->
  (expectation w F (mscal (RtoC (- aXX)) K) D <= fst (aceApply aXX w psi F D HC) <= 0)%R.
Proof. exact ace_bound. Qed.
Print Assumptions C96_bound.

(** On any orbitals energy and Hamiltonian belong to the same operator. *)
Theorem C96_consistent : forall m n l (psi : mat m n) aXX w F (D HC : mat m l), let A := mmul psi (madj psi) in
  aceApply aXX w psi F D HC = (expectation w F (mscal (RtoC (- aXX)) A) D, madd HC (mmul (mscal (RtoC (- aXX)) A) D)).
Proof. exact ace_apply. Qed.
Print Assumptions C96_consistent.

(** The compressed operator depends only on the span of the orbitals. *)
Theorem C96_span_only : forall m n n' (K : mat m m) (Cq : mat m n) (Cq' : mat m n') V d V' d' psi psi' s s', posSemi K -> sameSpan Cq Cq' ->
  eigensystem (aceOverlap Cq (mmul K Cq)) V d -> eigensystem (aceOverlap Cq' (mmul K Cq')) V' d' ->
  acePrepare (mmul K Cq) V d = Some (psi, s) -> acePrepare (mmul K Cq') V' d' = Some (psi', s') -> mmul psi (madj psi) = mmul psi' (madj psi').
Proof. exact ace_unique. Qed.
Print Assumptions C96_span_only.

(** With the projectors built from the full computation with prefactor -1, the compressed energy and Hamiltonian equal the full ones for every prefactor. *)
Theorem C96_matches_full : forall ns N m (I : Fin.t ns -> mat N m) J aXX wq Fq eq ks Cq bs nq E1 W V d psi s, (0 < wq)%R -> (0 < bs)%nat ->
  (forall k, In k ks -> ks_weight _ _ k <> 0%R /\ (forall b, (b < ks_n ns N k)%nat -> (0 <= ks_F ns N k b)%R) /\ forall kp, In kp (ks_pairs ns N k) -> (0 <= kp_weight ns N kp)%R /\ posSemi (kp_K ns N kp)) ->
  computeAll ns N m I J (-1) false bs wq nq Fq eq ks Cq = Some (E1, W) ->
  let Cm : mat m nq := fun i j => Cq (finN j) i in let Wm : mat m nq := fun i j => W (finN j) i in
  eigensystem (aceOverlap Cm Wm) V d -> acePrepare Wm V d = Some (psi, s) ->
  exists E H, computeAll ns N m I J aXX false bs wq nq Fq eq ks Cq = Some (E, H) /\
    aceApply aXX wq psi (fun j : Fin.t nq => Fq (finN j)) Cm mzero = (E, fun i j => H (finN j) i).
Proof. exact full_ace. Qed.
Print Assumptions C96_matches_full.

(** The compressed operator is used exactly when prepared for the same omega and neither stress nor RPA energies are needed. *)
Theorem C96_when_used : forall st omega str rpa, useACE st omega str rpa = true <-> st = Some omega /\ str = false /\ rpa = false.
Proof. exact use_ok. Qed.
Print Assumptions C96_when_used.

Example C96_example : posSemi exB /\ eigensystem (aceOverlap mone (mmul exB mone)) exV exdB /\ eigensystem (aceOverlap exV (mmul exB exV)) mone exdB /\ sameSpan (mone : mat 2 2) exV /\
  (exists psi, acePrepare (mmul exB mone) exV exdB = Some (psi, true)).
Proof.
  repeat match goal with |- _ /\ _ => split end; [exact exB_semi|exact exACE|exact exACE'|exact exSpan|].
  exact exSingular.
Qed.
