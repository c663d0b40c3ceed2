From Coq Require Import Reals List Bool Arith Lra Lia FunctionalExtensionality.
From Coq Require Fin.
From Coquelicot Require Import Coquelicot.
From Verif Require Import CMat MatFun_Model MatFun_Spec MatFun_Proofs MatFun_Proofs4 ElecGrad_Spec ElecGrad_Proofs ExCompute_Model ExCompute_Spec ExCompute_Proofs ExCompute_Proofs3 ExCompute_Proofs4.
Import ListNotations.
Open Scope C_scope.

(** two states of one k-point, on a grid of one point *)
Definition exc (r : R) : cvec 1 := fun _ => RtoC r.
Definition exm (r : R) : mat 1 1 := fun _ _ => RtoC r.
Definition exPair : kpairEntry 1 1 := KPair 1 1 (1/2) (fun bk _ => exc (match bk with O => 1 | _ => 2 end)) (exm 2).
Definition exState : kstate 1 1 := KState 1 1 (1/2) 2 (fun b => match b with O => 1%R | _ => (1/2)%R end) (fun _ => 0%R) [exPair].
Definition exF (b : nat) : R := match b with O => 1%R | _ => (1/2)%R end.
Definition exCq (b : nat) : cvec 1 := exc (match b with O => 1 | _ => 2 end).
Lemma exPair_ok : ks_weight _ _ exState <> 0%R /\ (forall b, (b < ks_n 1 1 exState)%nat -> (0 <= ks_F 1 1 exState b)%R) /\ forall kp, In kp (ks_pairs 1 1 exState) -> (0 <= kp_weight 1 1 kp)%R /\ posSemi (kp_K 1 1 kp).
Proof.
  split; [cbn; lra|]. split; [intros [|b] _; cbn; lra|]. intros kp [<-|[]]. split; [cbn; lra|]. cbn [kp_K exPair]. split.
  - apply mat_ext. intros i j. unfold madj, exm. apply Cconj_R.
  - intros v. unfold quad, exm. cbn. nra.
Qed.
Lemma exCompute : forall bs, (0 < bs)%nat -> option_map fst (computeAll 1 1 1 (fun _ => exm 1) (exm 1) (1/4) false bs 1 2 exF (fun _ => 0%R) [exState] exCq) = Some (- (9/8))%R.
Proof.
  intros bs Hbs. rewrite energy_ok; [|lra|exact Hbs|intros k [<-|[]]; apply exPair_ok]. cbn [option_map fst]. f_equal.
  unfold expectation, rsumF, exchangeOpAll, exchangeOp, exchangeTerm, pairMap, sumM, sumC, bracket, colOf, mscal, mmul, madj, exState, exPair, exCq, exF, exc, exm, finN.
  cbn. field.
Qed.
Lemma exACE : eigensystem (aceOverlap mone (mmul exB mone)) exV exdB.
Proof. unfold aceOverlap. rewrite mone_r, madj_one, mone_l. exact exB_eig. Qed.
Lemma exACE' : eigensystem (aceOverlap exV (mmul exB exV)) mone exdB.
Proof.
  split; [apply unitary_one|]. intros i k. rewrite mone_r. unfold aceOverlap. destruct exB_eig as [[HV _] He].
  assert (mmul exB exV = mmul exV (mdiag (fun i => RtoC (exdB i)))) as ->. { apply mat_ext. intros a b. rewrite He, mdiag_r. ring. }
  rewrite mmul_assoc, HV, mone_l. unfold mone, mdiag. destruct (Fin.eq_dec i k) as [->|]; [symmetry; apply Cmult_1_r|symmetry; apply Cmult_0_r].
Qed.
Lemma exSpan : sameSpan (mone : mat 2 2) exV.
Proof. destruct exV_unitary as [H1 H2]. split; [exists (madj exV); symmetry; exact H2|exists exV; symmetry; apply mone_l]. Qed.
Lemma exSingular : exists psi, acePrepare (mmul exB mone) exV exdB = Some (psi, true).
Proof.
  eexists. rewrite prepare_some. f_equal. f_equal. apply MatFun_Proofs.anyOf_true. exists (Fin.FS Fin.F1). unfold MatFun_Proofs.powSing. cbn.
  destruct (Rlt_dec _ _) as [_|H]; [|lra]. destruct (Rle_dec 0 0); [reflexivity|lra].
Qed.
