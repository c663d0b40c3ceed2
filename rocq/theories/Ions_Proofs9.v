(** Examples. *)
From Coq Require Import String ZArith Reals Bool List Lia Lra.
From Verif Require Import Base SMap Vec3_Model Vec3_Facts Lattice_Model Coulomb_Proofs Sym_Model Sym_Spec Sym_Proofs9 Ions_Model Ions_Spec Ions_Proofs Ions_Proofs4 Ions_Proofs8.
Import ListNotations.
Local Open Scope R_scope.
Lemma dir_ex fixed : constrainLattice rid symI (snd (PfreeOf rid fixed)) false rid = snd (PfreeOf rid fixed).
Proof.
  destruct (PP rid fixed rid_det) as (_ & I & _). unfold constrainLattice, symmetrizeTensor, symI, rotCart. cbn [length]. set (P := snd (PfreeOf rid fixed)) in *.
  replace (rmscale (1/2) (rmadd rid (mtrans rid))) with rid by (v3u; f_equal; field). rewrite rmm_id_r, I, rid_inv. unfold rmsum. cbn [fold_left fold_right]. unfold eOp, iOp, zid, zdiag. cbn [sg_rot]. generalize P. intros [p00 p01 p02 p10 p11 p12 p20 p21 p22].
  replace (INR 2) with 2 by (cbn; ring). v3u. f_equal; field.
Qed.
Lemma path_ex : rdet rid <> 0 /\ space_group symI /\ commensurate symI (fun k => Nat.eqb k 1) /\ (forall p, In p symI -> orthogonal (cartesian rid p)) /\
  let path := lattice_path (fun Rl m => constrainLattice Rl symI (snd (PfreeOf rid (fun k => Nat.eqb k 1))) false m) rid [(1/4, rid)] in (forall Rl, In Rl path -> rdet Rl <> 0).
Proof.
  split. exact rid_det. split. apply pair_group. split. { intros p i j [<-|[<-|[]]] Hi Hj; unfold eOp, iOp, zid, zdiag; cbn [sg_rot]; destruct i as [|[|[|i]]], j as [|[|[|j]]]; try lia; cbn; intros N; try reflexivity; exfalso; apply N; reflexivity. }
  split. apply pair_orth. cbn [lattice_path]. intros Rl [<-|[<-|[]]]. { exact rid_det. }
  rewrite dir_ex, rmm_id_r. destruct (PP rid (fun k => Nat.eqb k 1) rid_det) as (_ & I & _). set (P := snd _) in *. intros Z.
  assert (E : rmm (rmadd rid (rmscale (1/4) P)) (rmsub rid (rmscale (1/5) P)) = rid).
  { transitivity (rmadd rid (rmscale (1/20) (rmsub P (rmm P P)))). { generalize P. intros []. v3u. f_equal; field. } rewrite I. generalize P. intros []. v3u. f_equal; ring. }
  apply (f_equal rdet) in E. rewrite rdet_mm, Z in E. revert E. generalize (rdet (rmsub rid (rmscale (1 / 5) P))). intros r. v3u. lra.
Qed.
Lemma ionic_ex : ionicStep rid (fun _ _ => V 1 2 3) 2 (fun _ _ => V 1 1 1) 0%nat 0%nat = V 3 5 7.
Proof. unfold ionicStep. destruct (isZero 2) eqn:Z. { apply isZero_t in Z. lra. } unfold gaxpy, gmat. v3u. f_equal; ring. Qed.
Lemma lattice_ex : rdet (rmadd rid (rmscale (1/4) rid)) <> 0 /\ rdet (rdiag 1 2 3) <> 0.
Proof. split; v3u; lra. Qed.
Lemma modes_ex : let c := Constraint 1 (V 1 0 2) CPlanar [] in rlen2 (cdir c) <> 0 /\ ctyp c <> CHyperPlane /\ c0 (cdir c) <> 0.
Proof. cbv zeta. cbn [cdir ctyp c0]. split. { v3u. lra. } split. discriminate. lra. Qed.
Lemma strain_ex : let Ro := rdiag 1 2 3 in let e := rdiag (1/10) 0 0 in let s := LState (rmm (rmadd rid e) Ro) e gzero in rdet Ro <> 0 /\ lR s = rmm (rmadd rid (lstrain s)) Ro.
Proof. cbv zeta. split. { v3u. lra. } reflexivity. Qed.
