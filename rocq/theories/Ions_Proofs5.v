(** Dynamics. *)
From Coq Require Import String ZArith Reals Bool List Lia Lra Psatz.
From Verif Require Import Base SMap Vec3_Model Vec3_Facts Lattice_Model Coulomb_Proofs Sym_Model Sym_Spec Ions_Model Ions_Spec Ions_Proofs Ions_Proofs2 Ions_Proofs3.
Import ListNotations.
Local Open Scope R_scope.

Lemma iter_r {T} (f : T -> T) n x : Nat.iter (S n) f x = Nat.iter n f (f x).
Proof. induction n as [|n IH]; [reflexivity|]. change (Nat.iter (S (S n)) f x) with (f (Nat.iter (S n) f x)). rewrite IH. reflexivity. Qed.

Section Verlet.
  Variables (Rl : mat R) (cs : csys) (C : grad -> grad) (accel : grad -> grad) (dt : R) (A : grad -> Prop).
  Hypothesis HD : rdet Rl <> 0.
  Hypothesis A_C : forall v, A (C v).
  Hypothesis A_fix : forall v, A v -> same cs (C v) v.
  Hypothesis A_ext : forall v w, same cs v w -> A v -> A w.
  Hypothesis A_lin : forall k v w, A v -> A w -> A (gaxpy k v w).
  Hypothesis A_neg : forall v, A v -> A (neg v).
  Hypothesis A_acc : forall x, A (accel x).
  Hypothesis C_ext : forall v w, same cs v w -> same cs (C v) (C w).
  Hypothesis acc_ext : forall x y, same cs x y -> same cs (accel x) (accel y).
  Definition seq_ (s t : mdstate) : Prop := same cs (md_pos s) (md_pos t) /\ same cs (md_vel s) (md_vel t) /\ same cs (md_acc s) (md_acc t).
  Definition flip (s : mdstate) : mdstate := MD (md_pos s) (neg (md_vel s)) (md_acc s).
  Definition fine (s : mdstate) : Prop := A (gmat Rl (md_vel s)) /\ same cs (md_acc s) (accel (md_pos s)).
  Let step := mdStep Rl C accel dt.
  Lemma Rinv_v v : rmv Rl (rmv (rinv Rl) v) = v. Proof. rewrite <- rmv_mm, rinv_r, rmv_id by exact HD. reflexivity. Qed.
  Lemma Rinv_v' v : rmv (rinv Rl) (rmv Rl v) = v. Proof. rewrite <- rmv_mm, rinv_l, rmv_id by exact HD. reflexivity. Qed.
  Lemma axpy_ext k v w v' w' : same cs v v' -> same cs w w' -> same cs (gaxpy k v w) (gaxpy k v' w').
  Proof. intros H1 H2 sp a H. unfold gaxpy. rewrite (H1 sp a H), (H2 sp a H). reflexivity. Qed.
  Lemma gmat_ext m v w : same cs v w -> same cs (gmat m v) (gmat m w).
  Proof. intros H sp a I. unfold gmat. rewrite (H sp a I). reflexivity. Qed.
  Lemma step_ext_pos m d e k x y : same cs d e -> same cs x y -> same cs (ionicStep m d k x) (ionicStep m e k y).
  Proof. intros H1 H2. unfold ionicStep. destruct (isZero k); [exact H2|]. apply axpy_ext; [apply gmat_ext, H1|exact H2]. Qed.
  Lemma step_ext s t : seq_ s t -> seq_ (step s) (step t).
  Proof.
    intros (P & V & Ac). unfold step, mdStep, seq_. cbn [md_pos md_vel md_acc].
    set (v := gaxpy _ (md_acc s) _). set (w := gaxpy _ (md_acc t) _).
    assert (E : same cs v w) by (apply axpy_ext; [exact Ac|apply C_ext, gmat_ext, V]).
    set (x := ionicStep _ v _ _). set (y := ionicStep _ w _ _). assert (E2 : same cs x y) by (apply step_ext_pos; assumption).
    split; [exact E2|]. split; [|apply acc_ext, E2]. apply gmat_ext, axpy_ext; [apply acc_ext, E2|exact E].
  Qed.
  Lemma seq_trans s t u : seq_ s t -> seq_ t u -> seq_ s u.
  Proof. intros (a & b & c) (a' & b' & c'). repeat split; eapply same_trans; eassumption. Qed.
  Lemma seq_refl s : seq_ s s. Proof. repeat split; apply same_refl. Qed.
  Lemma iter_ext n s t : seq_ s t -> seq_ (Nat.iter n step s) (Nat.iter n step t).
  Proof. intros H. induction n; cbn [Nat.iter nat_rect]; [exact H|]. apply step_ext. exact IHn. Qed.
  Lemma step_fine s : fine s -> fine (step s).
  Proof.
    intros (V & Ac). split; [|apply same_refl]. unfold step, mdStep. cbn [md_vel md_pos]. set (x := ionicStep _ _ _ _). set (v := gaxpy (1/2*dt) (md_acc s) _).
    apply (A_ext (gaxpy (1/2*dt) (accel x) v)).
    - intros sp a _. unfold gmat. rewrite Rinv_v. reflexivity.
    - apply A_lin; [apply A_acc|]. apply A_lin; [apply (A_ext _ _ (same_sym _ _ _ Ac)), A_acc|apply A_C].
  Qed.
  Lemma iter_fine n s : fine s -> fine (Nat.iter n step s).
  Proof. intros H. induction n; cbn [Nat.iter nat_rect]; [exact H|]. apply step_fine, IHn. Qed.
  Lemma step_rev s : fine s -> seq_ (step (flip (step s))) (flip s).
  Proof.
    intros F. assert (F' := step_fine s F). destruct F as (V & Ac). destruct F' as (V' & _).
    unfold step at 1. unfold mdStep. cbn [md_pos md_vel md_acc flip].
    set (v1 := gaxpy (1/2*dt) (md_acc s) (C (gmat Rl (md_vel s)))). set (x1 := md_pos (step s)). set (a1 := md_acc (step s)).
    assert (E0 : same cs (C (gmat Rl (md_vel s))) (gmat Rl (md_vel s))) by (apply A_fix, V).
    assert (E1 : same cs (C (gmat Rl (neg (md_vel (step s))))) (neg (gaxpy (1/2*dt) a1 v1))).
    { assert (Q : same cs (gmat Rl (neg (md_vel (step s)))) (neg (gmat Rl (md_vel (step s))))) by (intros sp a _; unfold gmat, neg; generalize (md_vel (step s) sp a); intros [y0 y1 y2]; destruct Rl; v3u; f_equal; ring).
      eapply same_trans; [apply A_fix|].
      - apply (A_ext _ _ (same_sym _ _ _ Q)), A_neg, V'.
      - eapply same_trans; [exact Q|]. intros sp a _. unfold neg. f_equal. unfold step, mdStep. cbn [md_vel]. unfold gmat. rewrite Rinv_v. reflexivity. }
    set (v2 := gaxpy (1/2*dt) a1 (C _)).
    assert (E2 : same cs v2 (neg v1)).
    { intros sp a H. unfold v2, gaxpy at 1. rewrite (E1 sp a H). unfold neg, gaxpy. generalize (a1 sp a) (v1 sp a). intros [y0 y1 y2] [z0 z1 z2]. v3u. f_equal; ring. }
    set (x2 := ionicStep (rinv Rl) v2 dt x1).
    assert (E3 : same cs x2 (md_pos s)).
    { intros sp a H. unfold x2, x1, step, mdStep, ionicStep. cbn [md_pos]. destruct (isZero dt); [reflexivity|]. fold v1. unfold gaxpy, gmat. rewrite (E2 sp a H). unfold neg.
      generalize (v1 sp a) (md_pos s sp a) (rinv Rl). intros [y0 y1 y2] [z0 z1 z2] [i00 i01 i02 i10 i11 i12 i20 i21 i22]. v3u. f_equal; ring. }
    assert (E4 : same cs (accel x2) (md_acc s)) by (eapply same_trans; [apply acc_ext, E3|apply same_sym, Ac]).
    split; [exact E3|]. split; [|exact E4]. cbn [md_vel flip]. intros sp a H. unfold gmat, gaxpy at 1. rewrite (E4 sp a H), (E2 sp a H). unfold neg. rewrite <- (Rinv_v' (md_vel s sp a)).
    assert (X : v1 sp a = rvadd (rmv Rl (md_vel s sp a)) (rvscale (1/2*dt) (md_acc s sp a))) by (unfold v1, gaxpy; rewrite (E0 sp a H); reflexivity). rewrite X.
    generalize (md_acc s sp a) (rmv Rl (md_vel s sp a)). intros [y0 y1 y2] [z0 z1 z2]. generalize (rinv Rl). intros [i00 i01 i02 i10 i11 i12 i20 i21 i22]. v3u. f_equal; ring.
  Qed.
  Lemma flip_ext s t : seq_ s t -> seq_ (flip s) (flip t).
  Proof. intros (a & b & c). split; [exact a|]. split; [|exact c]. cbn. intros sp i H. unfold neg. rewrite (b sp i H). reflexivity. Qed.
  Lemma iter_rev n s : fine s -> seq_ (Nat.iter n step (flip (Nat.iter n step s))) (flip s).
  Proof.
    intros H. induction n; [apply seq_refl|]. rewrite iter_r. change (Nat.iter (S n) step s) with (step (Nat.iter n step s)). eapply seq_trans; [|exact IHn]. apply iter_ext. apply step_rev. apply iter_fine, H.
  Qed.
  Lemma verlet_rev n x v : let s := mdRun Rl C accel dt n x v in let s' := mdRun Rl C accel dt n (md_pos s) (neg (md_vel s)) in
    same cs (md_pos s') x /\ same cs (gmat Rl (md_vel s')) (neg (C (gmat Rl v))).
  Proof.
    cbv zeta. set (s0 := MD x (gmat (rinv Rl) (C (gmat Rl v))) (accel x)).
    assert (F0 : fine s0). { split; [|apply same_refl]. cbn [md_vel s0]. apply (A_ext (C (gmat Rl v))); [|apply A_C]. intros sp a _. unfold gmat. rewrite Rinv_v. reflexivity. }
    assert (Ev : mdRun Rl C accel dt n x v = Nat.iter n step s0) by reflexivity. rewrite Ev. set (s := Nat.iter n step s0). assert (F := iter_fine n s0 F0). fold s in F.
    unfold mdRun. fold step. set (t0 := MD (md_pos s) _ _). assert (E : seq_ t0 (flip s)).
    { destruct F as (V & Ac). split; [apply same_refl|]. cbn [md_vel md_acc t0 flip]. split; [|apply same_sym, Ac]. intros sp a H. unfold gmat at 1.
      assert (Q : same cs (gmat Rl (neg (md_vel s))) (neg (gmat Rl (md_vel s)))) by (intros sp' a' _; unfold gmat, neg; generalize (md_vel s sp' a'); intros [y0 y1 y2]; destruct Rl; v3u; f_equal; ring).
      rewrite (A_fix (gmat Rl (neg (md_vel s))) (A_ext _ _ (same_sym _ _ _ Q) (A_neg _ V)) sp a H). unfold gmat. apply Rinv_v'. }
    destruct (seq_trans _ _ _ (iter_ext n _ _ E) (iter_rev n s0 F0)) as (P & V & _). split; [exact P|]. intros sp a H. unfold gmat at 1. rewrite (V sp a H). cbn [flip md_vel s0]. unfold neg, gmat.
    set (w := C (gmat Rl v) sp a). fold (gmat Rl v). fold w.
    transitivity (rvscale (-1) (rmv Rl (rmv (rinv Rl) w))); [|rewrite Rinv_v; reflexivity]. change (C (gmat Rl v) sp a) with w. generalize (rmv (rinv Rl) w). clear. intros [y0 y1 y2]. destruct Rl as [i00 i01 i02 i10 i11 i12 i20 i21 i22]. v3u. f_equal; ring.
  Qed.
  (** a linear quantity that vanishes on accelerations is conserved *)
  Variable L : grad -> R.
  Hypothesis L_ext : forall v w, same cs v w -> L v = L w.
  Hypothesis L_lin : forall k v w, L (gaxpy k v w) = k * L v + L w.
  Hypothesis L_acc : forall x, L (accel x) = 0.
  Lemma conserved n x v : L (gmat Rl (md_vel (mdRun Rl C accel dt n x v))) = L (C (gmat Rl v)).
  Proof.
    set (s0 := MD x (gmat (rinv Rl) (C (gmat Rl v))) (accel x)).
    assert (G : forall w, L (gmat Rl (gmat (rinv Rl) w)) = L w) by (intros w; apply L_ext; intros sp a _; unfold gmat; apply Rinv_v).
    assert (F0 : fine s0). { split; [|apply same_refl]. cbn [md_vel s0]. apply (A_ext (C (gmat Rl v))); [|apply A_C]. intros sp a _. unfold gmat. rewrite Rinv_v. reflexivity. }
    change (mdRun Rl C accel dt n x v) with (Nat.iter n step s0). induction n; [apply G|]. cbn [Nat.iter nat_rect]. rewrite <- IHn. clear IHn. fold (Nat.iter n step s0). assert (F := iter_fine n s0 F0). set (s := Nat.iter n step s0) in *. destruct F as (V & Ac).
    unfold step, mdStep. cbn [md_vel]. rewrite G, !L_lin, L_acc, (L_ext (md_acc s) (accel (md_pos s)) Ac), L_acc, (L_ext _ _ (A_fix _ V)). ring.
  Qed.
End Verlet.

(** *** the constraints of the code *)
Lemma ok_neg_all cs extPot v : allowed cs extPot v -> allowed cs extPot (neg v).
Proof.
  intros (A & B & N). split; [|split].
  - intros sp a H. apply ok_scale, A, H.
  - intros g G. rewrite inner_comm, (inner_ext cs (neg v) (gscaleI (-1) v) _ (normal cs g)) by (intros ? ? _; reflexivity). rewrite inner_comm. transitivity (-1 * inner cs (normal cs g) v); [|rewrite (B g G); ring].
    unfold inner. rewrite <- total_scale. apply total_ext. intros sp a _. unfold gscaleI. destruct (v sp a), (normal cs g sp a). v3u. ring.
  - intros U E. specialize (N U E). unfold net in *. injection N as N0 N1 N2. unfold neg. f_equal.
    + rewrite (total_ext cs _ (fun sp a => -1 * c0 (v sp a))), total_scale, N0 by (intros; destruct (v sp a); v3u; ring). ring.
    + rewrite (total_ext cs _ (fun sp a => -1 * c1 (v sp a))), total_scale, N1 by (intros; destruct (v sp a); v3u; ring). ring.
    + rewrite (total_ext cs _ (fun sp a => -1 * c2 (v sp a))), total_scale, N2 by (intros; destruct (v sp a); v3u; ring). ring.
Qed.
Lemma ok_axpy_all cs extPot k v w : allowed cs extPot v -> allowed cs extPot w -> allowed cs extPot (gaxpy k v w).
Proof.
  intros (A & B & N) (A' & B' & N'). split; [|split].
  - intros sp a H. apply ok_add; [apply A', H|apply ok_scale, A, H].
  - intros g G. rewrite inner_axpy, (B g G), (B' g G). ring.
  - intros U E. specialize (N U E). specialize (N' U E). unfold net in *. injection N as N0 N1 N2. injection N' as M0 M1 M2. unfold gaxpy. f_equal.
    + rewrite (total_ext cs _ (fun sp a => c0 (w sp a) + k * c0 (v sp a))), total_plus, total_scale, N0, M0 by (intros; destruct (v sp a), (w sp a); v3u; ring). ring.
    + rewrite (total_ext cs _ (fun sp a => c1 (w sp a) + k * c1 (v sp a))), total_plus, total_scale, N1, M1 by (intros; destruct (v sp a), (w sp a); v3u; ring). ring.
    + rewrite (total_ext cs _ (fun sp a => c2 (w sp a) + k * c2 (v sp a))), total_plus, total_scale, N2, M2 by (intros; destruct (v sp a), (w sp a); v3u; ring). ring.
Qed.
(** displacements that agree on the atoms are constrained alike *)
Lemma perAtom_ext cs x y : same cs x y -> same cs (perAtom cs x) (perAtom cs y).
Proof. intros H sp a I. unfold perAtom. rewrite (H sp a I). reflexivity. Qed.
Lemma planes_ext cs : forall (l : list grad) x y, same cs x y -> same cs (fold_left (applyPlane cs) l x) (fold_left (applyPlane cs) l y).
Proof.
  induction l as [|D l IH]; intros x y H; cbn [fold_left]; [exact H|]. apply IH. unfold applyPlane. destruct (Rlt_dec _ _); [|exact H].
  rewrite !gdotI_inner, (inner_ext cs D D x y (same_refl _ _) H). intros sp a I. unfold gaxpy. rewrite (H sp a I). reflexivity.
Qed.
Lemma zeroMean_ext cs x y : same cs x y -> same cs (zeroMean cs x) (zeroMean cs y).
Proof.
  intros H sp a I. unfold zeroMean. rewrite !gsumI_net, (H sp a I). do 2 f_equal. unfold net. f_equal; apply total_ext; intros; rewrite H; auto.
Qed.
Lemma constrain_ext_gen Rl sym am cs e : (forall x y, same cs x y -> same cs (symCart Rl sym am x) (symCart Rl sym am y)) -> forall x y, same cs x y -> same cs (constrain Rl sym am cs e x) (constrain Rl sym am cs e y).
Proof.
  intros S x y H. unfold constrain. apply S. assert (E : same cs (applyPlanes cs (perAtom cs (symCart Rl sym am x))) (applyPlanes cs (perAtom cs (symCart Rl sym am y)))) by (apply planes_ext, perAtom_ext, S, H).
  destruct (anyConstrained cs e); [exact E|apply zeroMean_ext, E].
Qed.
Lemma accel_ext cs mass invR F G : same cs F G -> same cs (accelOf cs mass invR F) (accelOf cs mass invR G).
Proof. intros H sp a I. unfold accelOf. rewrite (H sp a I). reflexivity. Qed.
Definition acceleration Rl sym am cs extPot mass (F : grad -> grad) (x : grad) : grad := constrain Rl sym am cs extPot (accelOf cs mass (rinv Rl) (F x)).

Section Code.
  Variables (Rl : mat R) (sym : list SpaceGroupOp) (pos : nat -> list (vec R)) (am : nat -> nat -> nat -> nat) (cs : csys) (extPot : bool) (mass : nat -> R) (F : grad -> grad) (dt : R).
  Hypothesis HS : symmetric_constraints Rl sym pos am cs.
  Hypothesis HD : rdet Rl <> 0.
  Hypothesis HP : parsed cs.
  Hypothesis HO : orthogonal_planes cs.
  Hypothesis HF : force_field cs F.
  Let C := constrain Rl sym am cs extPot.
  Let acc := acceleration Rl sym am cs extPot mass F.
  Let A (v : grad) := allowed cs extPot v /\ forall sp a p, In (sp, a) (atoms cs) -> In p sym -> forall b, atom_map (pos sp) p a b -> rmv (mtrans (cartesian Rl p)) (v sp b) = v sp a.
  Lemma sym_local v : (forall p, In p sym -> symmetric Rl pos p v) <-> (forall sp a p, (sp < nSpecies cs \/ nSpecies cs <= sp)%nat -> In p sym -> forall b, atom_map (pos sp) p a b -> rmv (mtrans (cartesian Rl p)) (v sp b) = v sp a).
  Proof. split; intros H; [intros sp a p _ Hp b M; apply (H p Hp sp a b M)|intros p Hp sp a b M; apply (H sp a p ltac:(lia) Hp b M)]. Qed.
  Lemma sp_in sp a b p : atom_map (pos sp) p a b -> In (sp, a) (atoms cs) /\ In (sp, b) (atoms cs).
  Proof.
    intros (x & y & Ex & Ey & _). assert (La : (a < length (pos sp))%nat) by (apply nth_error_Some; congruence). assert (Lb : (b < length (pos sp))%nat) by (apply nth_error_Some; congruence).
    rewrite (sc_len _ _ _ _ _ HS) in La, Lb. assert (S : (sp < nSpecies cs)%nat).
    { destruct (Nat.lt_ge_cases sp (nSpecies cs)) as [X|X]; [exact X|]. unfold nAtoms in La. rewrite nth_overflow in La by exact X. cbn in La. lia. }
    split; apply in_atoms; split; assumption.
  Qed.
  Lemma A_iff v : A v <-> allowed cs extPot v /\ forall p, In p sym -> symmetric Rl pos p v.
  Proof.
    split; intros [H1 H2]; (split; [exact H1|]).
    - intros p Hp sp a b M. apply (H2 sp a p); [apply (sp_in sp a b p M)|exact Hp|exact M].
    - intros sp a p _ Hp b M. apply (H2 p Hp sp a b M).
  Qed.
  Lemma A_ext v w : same cs v w -> A v -> A w.
  Proof.
    intros E [H1 H2]. split; [exact (allowed_ext cs extPot v w E H1)|]. intros sp a p I Hp b M. rewrite <- (E sp a I), <- (E sp b) by (apply (sp_in sp a b p M)). apply (H2 sp a p I Hp b M).
  Qed.
  Lemma A_of v : A (C v).
  Proof. apply A_iff. destruct (sym_combined Rl sym pos am cs HS HD extPot HP HO v) as (X & Y & _). split; assumption. Qed.
  Lemma A_is v : A v -> same cs (C v) v.
  Proof. intros H. apply A_iff in H. destruct (sym_combined Rl sym pos am cs HS HD extPot HP HO v) as (_ & _ & X & _). apply X; apply H. Qed.
  Lemma A_comb k v w : A v -> A w -> A (gaxpy k v w).
  Proof.
    intros [H1 H2] [G1 G2]. split; [apply ok_axpy_all; assumption|]. intros sp a p I Hp b M. unfold gaxpy. rewrite <- (H2 sp a p I Hp b M), <- (G2 sp a p I Hp b M).
    generalize (mtrans (cartesian Rl p)) (v sp b) (w sp b). intros [i00 i01 i02 i10 i11 i12 i20 i21 i22] [y0 y1 y2] [z0 z1 z2]. v3u. f_equal; ring.
  Qed.
  Lemma A_opp v : A v -> A (neg v).
  Proof.
    intros [H1 H2]. split; [apply ok_neg_all; assumption|]. intros sp a p I Hp b M. unfold neg. rewrite <- (H2 sp a p I Hp b M).
    generalize (mtrans (cartesian Rl p)) (v sp b). intros [i00 i01 i02 i10 i11 i12 i20 i21 i22] [y0 y1 y2]. v3u. f_equal; ring.
  Qed.
  Lemma C_ext v w : same cs v w -> same cs (C v) (C w).
  Proof. apply constrain_ext_gen. apply (S_ext Rl sym pos am cs HS). Qed.
  Lemma acc_ext x y : same cs x y -> same cs (acc x) (acc y).
  Proof. intros E. apply C_ext, accel_ext, HF, E. Qed.
  Lemma md_rev n x v : let s := mdRun Rl C acc dt n x v in let s' := mdRun Rl C acc dt n (md_pos s) (neg (md_vel s)) in
    same cs (md_pos s') x /\ same cs (gmat Rl (md_vel s')) (neg (C (gmat Rl v))).
  Proof. apply (verlet_rev Rl cs C acc dt A HD); [exact A_of|exact A_is|exact A_ext|exact A_comb|exact A_opp|intros; apply A_of|exact C_ext|exact acc_ext]. Qed.
  Lemma md_allowed n x v : A (gmat Rl (md_vel (mdRun Rl C acc dt n x v))).
  Proof.
    assert (F1 : fine Rl cs acc A (mdRun Rl C acc dt n x v)).
    { unfold mdRun. apply (iter_fine Rl cs C acc dt A HD A_of A_ext A_comb); [intros; apply A_of|]. split; [|apply same_refl]. cbn [md_vel]. apply (A_ext (C (gmat Rl v))); [|apply A_of].
      intros sp a _. unfold gmat. rewrite <- rmv_mm, rinv_r, rmv_id by exact HD. reflexivity. }
    apply F1.
  Qed.
End Code.

(** *** average of the density *)
Lemma accum_gen dt : dt <> 0 -> forall ns k S, (0 < k)%nat -> nAccumLoop dt k (S / INR k) ns = (S + fold_right Rplus 0 ns) / INR (k + length ns).
Proof.
  intros D. induction ns as [|n l IH]; intros k S K; cbn [nAccumLoop fold_right length].
  - rewrite Nat.add_0_r, Rplus_0_r. reflexivity.
  - assert (P : 0 < INR k) by (apply lt_0_INR, K). replace (S / INR k + dt / (INR k * dt + dt) * (n - S / INR k)) with ((S + n) / INR (Datatypes.S k)).
    + rewrite IH by lia. f_equal; [ring|]. f_equal. lia.
    + rewrite S_INR. field. repeat split; try lra. replace (INR k * dt + dt) with ((INR k + 1) * dt) by ring. apply Rmult_integral_contrapositive_currified; lra.
Qed.
Lemma accum_mean dt n0 ns : dt <> 0 -> ns <> [] -> nAccumLoop dt 0 n0 ns = mean ns.
Proof.
  intros D. destruct ns as [|n l]; [congruence|]. intros _. cbn [nAccumLoop]. replace (n0 + dt / (INR 0 * dt + dt) * (n - n0)) with (n / INR 1) by (cbn; field; exact D).
  rewrite accum_gen by (auto; lia). reflexivity.
Qed.
