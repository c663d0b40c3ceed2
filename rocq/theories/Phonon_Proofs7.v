From Coq Require Import ZArith Reals List Bool Arith Lra Lia FunctionalExtensionality.
From Verif Require Import Base Vec3_Model Vec3_Facts Ions_Model ExCompute_Spec ExCompute_Proofs Phonon_Model Phonon_Spec Phonon_Proofs Phonon_Proofs2 Phonon_Proofs3 Phonon_Proofs4 Phonon_Proofs5 Phonon_Proofs6.
Import ListNotations.
Import Vec3_Model.
Open Scope R_scope.

Definition box (l0 l1 l2 : list Z) : list (vec Z) := flat_map (fun a => flat_map (fun b => map (fun c => V a b c) l2) l1) l0.
Definition zAtom (i : nat) : vec R := V 0 0 0.
Lemma vecZ_dec (a b : vec Z) : {a = b} + {a <> b}.
Proof. decide equality; apply Z.eq_dec. Qed.
Ltac nd := repeat (constructor; [cbn [In]; intros HH; repeat (destruct HH as [HH|HH]; [discriminate|]); exact HH|]); constructor.
Ltac inopp := intros c Hc; cbn in Hc; repeat (destruct Hc as [<-|Hc]; [cbn; tauto|]); contradiction.

(** ** Three cells in two directions, layers truncated along the third *)
Definition layerCells : list (vec Z) := Eval cbv in box [-1;0;1]%Z [-1;0;1]%Z [0%Z].
Definition oneW : fmatrix := fun _ _ _ => 1.
Definition layerTr (k : nat) : bool := (k =? 2)%nat.
Lemma layer_good : goodCells 1 (3,3,1)%nat (wrapCell (3,3,1)%nat) layerCells oneW.
Proof.
  split; [unfold layerCells; nd|unfold layerCells; inopp|reflexivity|].
  intros i j f _ _. unfold layerCells, oneW. cbv -[Rplus Rmult IZR]. ring.
Qed.
(** forces that twist the layer: along y due to a displacement along x, and opposite *)
Definition twist : forces := fun i R j =>
  match i, R, j with
  | 0%nat, (1%nat, 0%nat, 0%nat), 1%nat => 1 | 1%nat, (1%nat, 0%nat, 0%nat), 0%nat => -1
  | 0%nat, (2%nat, 0%nat, 0%nat), 1%nat => -1 | 1%nat, (2%nat, 0%nat, 0%nat), 0%nat => 1
  | _, _, _ => 0
  end.
Lemma twist_symmetric : symmetricForces 1 (3,3,1)%nat twist.
Proof.
  intros i j [[a b] c] Hi Hj (Ha & Hb & Hc).
  destruct i as [|[|[|i]]]; [..|lia]; destruct j as [|[|[|j]]]; try lia; destruct a as [|[|[|a]]]; try lia; destruct b as [|[|[|b]]]; try lia; destruct c as [|c]; try lia; reflexivity.
Qed.
Lemma twist_nonet : noNetForce 1 (3,3,1)%nat twist.
Proof.
  split.
  - intros i b Hi Hb. destruct i as [|[|[|i]]]; [..|lia]; destruct b as [|[|[|b]]]; try lia; cbv -[Rplus Rmult IZR]; ring.
  - intros i b Hi Hb. destruct i as [|[|[|i]]]; [..|lia]; destruct b as [|[|[|b]]]; try lia; cbv -[Rplus Rmult IZR]; ring.
Qed.
Lemma twist_slope : gammaSlope 1 layerCells (remap (3,3,1)%nat oneW twist) 0 0 1 = 2.
Proof. unfold layerCells. cbv -[Rplus Rmult IZR]. ring. Qed.
Lemma layer_planar : planarCells layerTr layerCells.
Proof. intros c k Hc Hk Ht. destruct k as [|[|[|k]]]; try discriminate. unfold layerCells in Hc. cbn in Hc. repeat (destruct Hc as [<-|Hc]; [reflexivity|]). contradiction. Qed.
Lemma layer_aligned : aligned rid layerTr.
Proof. intros k l Hk Hl Tk Tl. destruct k as [|[|[|k]]]; try discriminate. destruct l as [|[|[|l]]]; try discriminate; try reflexivity; try lia. Qed.
Lemma rid_det : rdet rid <> 0.
Proof. cbv -[Rplus Rmult Rminus Ropp IZR not]. lra. Qed.
Lemma layer_defined : exists F', gammaPrimeFix layerCells oneW rid zAtom 1 9 layerTr (remap (3,3,1)%nat oneW twist) = Some F'.
Proof.
  unfold gammaPrimeFix, corrTensor. destruct (Req_EM_T _ 0) as [E|E]; [exfalso|eexists; reflexivity].
  assert (alphaInv layerCells oneW rid zAtom 1 9 layerTr = M 6 0 0 0 6 0 0 0 1) as A.
  { unfold layerCells. cbv -[Rplus Rmult Rminus Ropp Rinv Rdiv IZR]. f_equal; try field; lra. }
  rewrite A in E. revert E. cbv -[Rplus Rmult Rminus Ropp IZR]. lra.
Qed.

(** ** Cells that span space *)
Definition cubeCells : list (vec Z) := Eval cbv in box [-1;0;1]%Z [-1;0;1]%Z [-1;0;1]%Z.
Lemma cube_good : goodCells 1 (3,3,3)%nat (wrapCell (3,3,3)%nat) cubeCells oneW.
Proof.
  split; [unfold cubeCells; nd|unfold cubeCells; inopp|reflexivity|].
  intros i j f _ _. unfold cubeCells, oneW. cbv -[Rplus Rmult IZR]. ring.
Qed.
Lemma cube_span : (forall c, In c [V 0 0 0; V 1 0 0; V 0 1 0; V 0 0 1]%Z -> In c cubeCells /\ 0 < oneW c 0%nat 0%nat) /\
  rdet (set_rows (rvsub (vIZR (V 1 0 0)%Z) (vIZR (V 0 0 0)%Z)) (rvsub (vIZR (V 0 1 0)%Z) (vIZR (V 0 0 0)%Z)) (rvsub (vIZR (V 0 0 1)%Z) (vIZR (V 0 0 0)%Z))) <> 0.
Proof.
  split.
  - intros c Hc. split; [|unfold oneW; lra]. cbn in Hc. unfold cubeCells. repeat (destruct Hc as [<-|Hc]; [cbn; tauto|]). contradiction.
  - cbv -[Rplus Rmult Rminus Ropp IZR not]. lra.
Qed.

(** ** One cell along a direction that is not truncated *)
Lemma single_cell_none : forall F, gammaPrimeFix layerCells oneW rid zAtom 1 9 (fun _ => false) F = None.
Proof.
  intros F. unfold gammaPrimeFix, corrTensor. destruct (Req_EM_T _ 0) as [E|E]; [reflexivity|exfalso]. apply E.
  assert (alphaInv layerCells oneW rid zAtom 1 9 (fun _ => false) = M 6 0 0 0 6 0 0 0 0) as A.
  { unfold layerCells. cbv -[Rplus Rmult Rminus Ropp Rinv Rdiv IZR]. f_equal; try field; lra. }
  rewrite A. cbv -[Rplus Rmult Rminus Ropp IZR]. lra.
Qed.
(** ** Layers truncated along the third lattice vector, which is along the first Cartesian axis *)
Definition turned : mat R := M 0 0 1 1 0 0 0 1 0.
Lemma turned_det : rdet turned <> 0.
Proof. cbv -[Rplus Rmult Rminus Ropp IZR not]. lra. Qed.
Lemma turned_orth : CellMap_Spec.truncation_orthogonal turned layerTr.
Proof. intros i j Hi Hj Ti Tj. destruct i as [|[|[|i]]]; try discriminate. destruct j as [|[|[|j]]]; try discriminate; try lia; cbv -[Rplus Rmult IZR]; ring. Qed.
Lemma turned_none : forall F, gammaPrimeFix layerCells oneW turned zAtom 1 9 layerTr F = None.
Proof.
  intros F. unfold gammaPrimeFix, corrTensor. destruct (Req_EM_T _ 0) as [E|E]; [reflexivity|exfalso]. apply E.
  assert (alphaInv layerCells oneW turned zAtom 1 9 layerTr = M 0 0 0 0 6 0 0 0 1) as A.
  { unfold layerCells. cbv -[Rplus Rmult Rminus Ropp Rinv Rdiv IZR]. f_equal; try field; lra. }
  rewrite A. cbv -[Rplus Rmult Rminus Ropp IZR]. lra.
Qed.
