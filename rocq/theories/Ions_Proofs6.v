(** Momentum in dynamics. *)
From Coq Require Import String ZArith Reals Bool List Lia Lra Psatz.
From Verif Require Import Base SMap Vec3_Model Vec3_Facts Lattice_Model Coulomb_Proofs Sym_Model Sym_Spec Ions_Model Ions_Spec Ions_Proofs Ions_Proofs2 Ions_Proofs3 Ions_Proofs4 Ions_Proofs5.
Import ListNotations.
Local Open Scope R_scope.

Definition along cs mass u (v : grad) : R := total cs (fun sp a => mass sp * rdot u (v sp a)).
Lemma along_momentum cs mass u v : along cs mass u v = rdot u (momentum cs mass v).
Proof.
  unfold along. rewrite (total_ext cs _ (fun sp a => c0 u * (mass sp * c0 (v sp a)) + c1 u * (mass sp * c1 (v sp a)) + c2 u * (mass sp * c2 (v sp a)))) by (intros; destruct (v sp a), u; v3u; ring).
  rewrite !total_plus, !total_scale. unfold momentum. destruct u. v3u. ring.
Qed.
Lemma vec_ext_dot (v w : vec R) : (forall u, rdot u v = rdot u w) -> v = w.
Proof. intros H. assert (E0 := H (V 1 0 0)). assert (E1 := H (V 0 1 0)). assert (E2 := H (V 0 0 1)). destruct v, w. revert E0 E1 E2. v3u. intros. f_equal; lra. Qed.
Lemma along_ext cs mass u v w : same cs v w -> along cs mass u v = along cs mass u w.
Proof. intros H. apply total_ext. intros sp a I. rewrite (H sp a I). reflexivity. Qed.
Lemma along_lin cs mass u k v w : along cs mass u (gaxpy k v w) = k * along cs mass u v + along cs mass u w.
Proof. unfold along. rewrite <- total_scale, <- total_plus. apply total_ext. intros sp a _. unfold gaxpy. destruct u, (v sp a), (w sp a). v3u. ring. Qed.
Lemma momentum_equal cs m v : net cs v = V 0 0 0 -> momentum cs (fun _ => m) v = V 0 0 0.
Proof. unfold net, momentum. intros H. injection H as H0 H1 H2. rewrite !total_scale, H0, H1, H2. f_equal; ring. Qed.

Lemma free_constrain Rl sym am cs e x : rdet Rl <> 0 -> (length sym <= 1)%nat -> unconstrained cs -> same cs (constrain Rl sym am cs e x) (if e then x else zeroMean cs x).
Proof.
  intros D L U sp a I. unfold constrain. rewrite symCart_trivial by assumption.
  assert (P : same cs (perAtom cs (symCart Rl sym am x)) x).
  { intros sp' a' I'. unfold perAtom, applyC. destruct (U sp' a' I') as [M T]. apply isZero_f in M. rewrite M, T. apply symCart_trivial; assumption. }
  assert (H : applyPlanes cs (perAtom cs (symCart Rl sym am x)) = perAtom cs (symCart Rl sym am x)).
  { unfold applyPlanes. replace (hyperplanes cs) with (@nil (string * grad)); [reflexivity|]. unfold hyperplanes. assert (G : forall l, (forall i, In i l -> In i (atoms cs)) -> @nil (string * grad) = fold_left (fun m i => let c := cons_at cs (fst i) (snd i) in
      match ctyp c with CHyperPlane => fold_left (fun m entry => update (snd entry) gzero (fun D => gset D (fst i) (snd i) (fst entry)) m) (hyperplane c) m | _ => m end) l []).
    { induction l as [|[sp' a'] l IH]; intros Hl; [reflexivity|]. cbn [fold_left fst snd]. destruct (U sp' a' (Hl _ (or_introl eq_refl))) as [_ T]. cbv zeta. rewrite T. apply IH. intros; apply Hl; right; assumption. }
    apply G. auto. }
  rewrite H. destruct e.
  - assert (A : anyConstrained cs true = true) by (unfold anyConstrained; apply orb_true_r). rewrite A. apply P, I.
  - assert (A : anyConstrained cs false = false) by (apply any_false; split; [exact U|reflexivity]). rewrite A. apply (zeroMean_ext cs _ _ P sp a I).
Qed.
Lemma relative_free Rl sym am cs x : rdet Rl <> 0 -> (length sym <= 1)%nat -> unconstrained cs -> forall sp a sp' a', In (sp, a) (atoms cs) -> In (sp', a') (atoms cs) ->
  let y := constrain Rl sym am cs false x in rvsub (y sp a) (y sp' a') = rvsub (x sp a) (x sp' a').
Proof.
  intros D L U sp a sp' a' I I'. cbv zeta. rewrite (free_constrain Rl sym am cs false x D L U sp a I), (free_constrain Rl sym am cs false x D L U sp' a' I'). unfold zeroMean.
  generalize (rvscale (1 / INR (length (atoms cs))) (gsumI cs x)) (x sp a) (x sp' a'). intros [p0 p1 p2] [q0 q1 q2] [r0 r1 r2]. v3u. f_equal; ring.
Qed.
(** total Cartesian force *)
Lemma accel_force cs mass Rl F : unconstrained cs -> (forall sp, mass sp <> 0) -> momentum cs mass (accelOf cs mass (rinv Rl) F) = net cs (gmat (mtrans (rinv Rl)) F).
Proof.
  intros U M. assert (E : forall sp a, In (sp, a) (atoms cs) -> rvscale (mass sp) (accelOf cs mass (rinv Rl) F sp a) = gmat (mtrans (rinv Rl)) F sp a).
  { intros sp a I. unfold accelOf, gmat. destruct (U sp a I) as [Z _]. apply isZero_f in Z. rewrite Z. generalize (mtrans (rinv Rl)) (F sp a). intros [i00 i01 i02 i10 i11 i12 i20 i21 i22] [y0 y1 y2]. specialize (M sp). v3u. f_equal; field; exact M. }
  unfold momentum, net. f_equal; apply total_ext; intros sp a I; rewrite <- (E sp a I); destruct (accelOf cs mass (rinv Rl) F sp a); v3u; ring.
Qed.
Lemma momentum_ext cs mass v w : same cs v w -> momentum cs mass v = momentum cs mass w.
Proof. intros H. unfold momentum. f_equal; apply total_ext; intros sp a I; rewrite (H sp a I); reflexivity. Qed.
Lemma momentum_unprojected Rl sym am cs mass F dt n x v : rdet Rl <> 0 -> (length sym <= 1)%nat -> unconstrained cs -> (forall sp, mass sp <> 0) -> force_field cs F -> (forall x, net cs (gmat (mtrans (rinv Rl)) (F x)) = V 0 0 0) ->
  let run n := mdRun Rl (constrain Rl sym am cs true) (fun x => constrain Rl sym am cs true (accelOf cs mass (rinv Rl) (F x))) dt n x v in
  momentum cs mass (gmat Rl (md_vel (run n))) = momentum cs mass (gmat Rl v).
Proof.
  intros D L U M FF Z. cbv zeta. set (C := constrain Rl sym am cs true). set (acc := fun x => C (accelOf cs mass (rinv Rl) (F x))).
  assert (I : forall x, same cs (C x) x) by (intros y; apply (free_constrain Rl sym am cs true y D L U)).
  apply vec_ext_dot. intros u. rewrite <- !along_momentum. rewrite (conserved Rl cs C acc dt (fun _ => True) D); auto.
  - apply along_ext, I.
  - apply along_ext.
  - apply along_lin.
  - intros y. unfold acc. rewrite (along_ext cs mass u _ _ (I _)), along_momentum, accel_force by assumption. rewrite Z. destruct u. v3u. ring.
Qed.
Lemma momentum_zero Rl sym pos am cs m F dt n x v : symmetric_constraints Rl sym pos am cs -> rdet Rl <> 0 -> unconstrained cs -> force_field cs F ->
  momentum cs (fun _ => m) (gmat Rl (md_vel (mdRun Rl (constrain Rl sym am cs false) (fun x => constrain Rl sym am cs false (accelOf cs (fun _ => m) (rinv Rl) (F x))) dt n x v))) = V 0 0 0.
Proof.
  intros HS D U FF. assert (P : parsed cs) by (intros sp a I; cbv zeta; destruct (U sp a I) as [M T]; rewrite T; split; [intros [X|X]; discriminate|discriminate]).
  assert (O : orthogonal_planes cs). { intros g g' _. unfold inner. rewrite (total_ext cs _ (fun _ _ => 0)), total_const; [ring|]. intros sp a I. rewrite !(no_planes cs _ U sp a I). v3u. ring. }
  destruct (md_allowed Rl sym pos am cs false (fun _ => m) F dt HS D P O n x v) as [(_ & _ & N) _]. apply momentum_equal, N; [exact U|reflexivity].
Qed.

(** *** two atoms of different mass *)
Definition free : constraint := Constraint 1 (V 0 0 0) CNone [].
Definition csPair : csys := [[free]; [free]].
Definition massPair (sp : nat) : R := match sp with O => 1 | _ => 3 end.
Definition pull : grad := fun sp _ => match sp with O => V 3 0 0 | _ => V (-3) 0 0 end.
Lemma pair_free : unconstrained csPair.
Proof.
  intros sp a H. apply in_atoms in H. destruct H as [H1 H2]. cbn in H1. assert (S : (sp = 0 \/ sp = 1)%nat) by lia. destruct S as [-> | ->]; cbn in H2; assert (a = 0%nat) by lia; subst a; unfold cons_at, csPair; cbn [nth free moveScale ctyp]; (split; [lra|reflexivity]).
Qed.
Lemma pair_total f : total csPair f = f 0%nat 0%nat + f 1%nat 0%nat.
Proof. unfold total, csPair; cbn [atoms nSpecies nAtoms length seq flat_map nth map app fold_right fst snd]; ring. Qed.
Lemma pair_force : net csPair (gmat (mtrans (rinv rid)) pull) = V 0 0 0.
Proof. unfold net. rewrite !pair_total, rid_inv. unfold gmat, pull. v3u. f_equal; ring. Qed.
Lemma momentum_lost : exists cs mass F dt x v, unconstrained cs /\ (forall sp, 0 < mass sp) /\ force_field cs F /\ (forall x, net cs (gmat (mtrans (rinv rid)) (F x)) = V 0 0 0) /\
  let run n := mdRun rid (constrain rid [] (fun _ a _ => a) cs false) (fun x => constrain rid [] (fun _ a _ => a) cs false (accelOf cs mass (rinv rid) (F x))) dt n x v in
  momentum cs mass (gmat rid (md_vel (run 0%nat))) = V 0 0 0 /\ momentum cs mass (gmat rid (md_vel (run 1%nat))) <> V 0 0 0.
Proof.
  exists csPair, massPair, (fun _ => pull), 1, gzero, gzero.
  assert (D : rdet rid <> 0) by (v3u; lra). assert (L : (length (@nil SpaceGroupOp) <= 1)%nat) by (cbn; lia).
  split; [exact pair_free|]. split; [intros [|sp]; cbn; lra|]. split; [intros x y _ sp a _; reflexivity|]. split; [intros _; exact pair_force|]. cbv zeta.
  set (C := constrain rid [] (fun _ a _ => a) csPair false). assert (CE : forall x, same csPair (C x) (zeroMean csPair x)) by (intros y; apply (free_constrain rid [] (fun _ a _ => a) csPair false y D L pair_free)).
  assert (I0 : In (0, 0)%nat (atoms csPair)) by (apply in_atoms; cbn; lia). assert (I1 : In (1, 0)%nat (atoms csPair)) by (apply in_atoms; cbn; lia).
  assert (Z : forall y sp, (sp < 2)%nat -> C y sp 0%nat = rvsub (y sp 0%nat) (rvscale (1/2) (rvadd (y 0%nat 0%nat) (y 1%nat 0%nat)))).
  { intros y sp Hsp. rewrite (CE y sp 0%nat) by (destruct sp as [|[|]]; [exact I0|exact I1|lia]). unfold zeroMean. rewrite gsumI_net. replace (INR (length (atoms csPair))) with 2 by (cbn; ring). unfold net. rewrite !pair_total.
    destruct (y sp 0%nat), (y 0%nat 0%nat), (y 1%nat 0%nat). v3u. f_equal; ring. }
  assert (Z0 : forall sp, (sp < 2)%nat -> C (gmat rid gzero) sp 0%nat = V 0 0 0) by (intros sp Hs; rewrite Z by lia; unfold gmat, gzero; v3u; f_equal; ring).
  assert (ZA : forall sp, (sp < 2)%nat -> C (accelOf csPair massPair (rinv rid) pull) sp 0%nat = match sp with O => V 2 0 0 | _ => V (-2) 0 0 end).
  { intros sp Hs. rewrite Z by lia. assert (U : forall sp, (sp < 2)%nat -> accelOf csPair massPair (rinv rid) pull sp 0%nat = match sp with O => V 3 0 0 | _ => V (-1) 0 0 end).
    { intros s Hs'. unfold accelOf. rewrite rid_inv. assert (ZZ : isZero (moveScale (cons_at csPair s 0)) = false) by (apply isZero_f; destruct s as [|[|]]; [cbn; lra|cbn; lra|lia]). rewrite ZZ. destruct s as [|[|]]; [| |lia]; unfold massPair, pull; v3u; f_equal; field. }
    rewrite !U by lia. destruct sp as [|[|]]; [| |lia]; v3u; f_equal; field. }
  assert (Y0 : forall sp, (sp < 2)%nat -> gmat rid (gmat (rinv rid) (C (gmat rid gzero))) sp 0%nat = V 0 0 0).
  { intros sp Hs. change (rmv rid (rmv (rinv rid) (C (gmat rid gzero) sp 0%nat)) = V 0 0 0). rewrite Z0 by exact Hs. rewrite rid_inv. v3u. f_equal; ring. }
  split.
  - unfold mdRun. cbn [Nat.iter nat_rect md_vel]. unfold momentum. rewrite !pair_total. fold C. rewrite !Y0 by lia. f_equal; v3u; ring.
  - unfold mdRun. cbn [Nat.iter nat_rect]. unfold mdStep. cbn [md_vel md_pos md_acc]. fold C. unfold momentum. rewrite !pair_total.
    set (w := C (gmat rid (gmat (rinv rid) (C (gmat rid gzero))))). assert (W : forall sp, (sp < 2)%nat -> w sp 0%nat = V 0 0 0) by (intros sp Hs; unfold w; rewrite Z, !Y0 by lia; v3u; f_equal; ring).
    set (a := C (accelOf csPair massPair (rinv rid) pull)). set (w1 := gaxpy _ a (gaxpy _ a w)).
    assert (X : forall sp, (sp < 2)%nat -> gmat rid (gmat (rinv rid) w1) sp 0%nat = a sp 0%nat).
    { intros sp Hs. change (rmv rid (rmv (rinv rid) (rvadd (rvadd (w sp 0%nat) (rvscale (1/2*1) (a sp 0%nat))) (rvscale (1/2*1) (a sp 0%nat)))) = a sp 0%nat). rewrite W by exact Hs. rewrite rid_inv. destruct (a sp 0%nat). v3u. f_equal; field. }
    rewrite !X by lia. unfold a. rewrite !ZA by lia. unfold massPair. intros E. injection E as E _ _. revert E. v3u. lra.
Qed.
