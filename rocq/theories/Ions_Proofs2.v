(** The complete set of constraints. *)
From Coq Require Import String ZArith Reals Bool List Lia Lra Psatz Permutation.
From Verif Require Import Base SMap Vec3_Model Vec3_Facts Lattice_Model Coulomb_Proofs Sym_Model Sym_Spec Sym_Proofs Sym_Proofs2 Sym_Proofs8 Ions_Model Ions_Spec Ions_Proofs.
Import ListNotations.
Local Open Scope R_scope.

Lemma zeroMean_fix cs x : net cs x = V 0 0 0 -> same cs (zeroMean cs x) x.
Proof. intros H sp a _. unfold zeroMean. rewrite gsumI_net, H. destruct (x sp a). v3u. f_equal; ring. Qed.
Lemma inner_const cs y v : inner cs y (fun _ _ => v) = rdot (net cs y) v.
Proof.
  unfold inner. rewrite (total_ext cs _ (fun sp a => c0 v * c0 (y sp a) + c1 v * c1 (y sp a) + c2 v * c2 (y sp a))) by (intros; destruct (y sp a), v; v3u; ring).
  rewrite !total_plus, !total_scale. unfold net. destruct v. v3u. ring.
Qed.
Lemma zeroMean_keep cs x y : net cs y = V 0 0 0 -> inner cs y (zeroMean cs x) = inner cs y x.
Proof.
  intros H. unfold zeroMean. set (v := rvscale _ _). rewrite (inner_ext cs y y _ (gaxpy (-1) (fun _ _ => v) x)); [|apply same_refl|].
  - rewrite inner_axpy, inner_const, H. destruct v. v3u. ring.
  - intros sp a _. unfold gaxpy. destruct (x sp a), v. v3u. f_equal; ring.
Qed.
Lemma any_false cs e : anyConstrained cs e = false <-> unconstrained cs /\ e = false.
Proof.
  unfold anyConstrained. rewrite orb_false_iff. split; intros [A B]; (split; [|exact B]).
  - intros sp a H. apply in_atoms in H. destruct H as [H1 H2]. unfold cons_at. set (l := nth sp cs []). assert (Hl : In l cs) by (apply nth_In; exact H1).
    set (c := nth a l _). assert (Hc : In c l) by (apply nth_In; exact H2).
    assert (Q : existsb (fun c => Nat.ltb (getDimension c) 3 || ctyp_eqb (ctyp c) CHyperPlane) l = false).
    { destruct (existsb _ l) eqn:E; [|reflexivity]. rewrite <- A. symmetry. apply existsb_exists. exists l. auto. }
    assert (Q' : (Nat.ltb (getDimension c) 3 || ctyp_eqb (ctyp c) CHyperPlane) = false).
    { destruct (Nat.ltb (getDimension c) 3 || ctyp_eqb (ctyp c) CHyperPlane) eqn:E; [|reflexivity]. rewrite <- Q. symmetry. apply existsb_exists. exists c. auto. }
    unfold getDimension in Q'. destruct (isZero (moveScale c)) eqn:Z; [discriminate|]. apply isZero_f in Z. split; [exact Z|]. destruct (ctyp c); [reflexivity|discriminate|discriminate|discriminate].
  - destruct (existsb _ cs) eqn:E; [|reflexivity]. apply existsb_exists in E. destruct E as (l & Hl & E). apply existsb_exists in E. destruct E as (c & Hc & E).
    apply (In_nth cs l []) in Hl. destruct Hl as (sp & Hsp & El). apply (In_nth l c (Constraint 1 (V 0 0 0) CNone [])) in Hc. destruct Hc as (a & Ha & Ec).
    assert (In (sp, a) (atoms cs)). { apply in_atoms. split; [exact Hsp|]. unfold nAtoms. rewrite El. exact Ha. }
    destruct (A sp a H) as [M T]. unfold cons_at in M, T. rewrite El, Ec in M, T. unfold getDimension in E. apply isZero_f in M. rewrite M, T in E. discriminate.
Qed.

Section Combine.
  Variables (Rl : mat R) (sym : list SpaceGroupOp) (atomMap : nat -> nat -> nat -> nat) (cs : csys) (extPot : bool) (INV : grad -> Prop).
  Let SYM := symCart Rl sym atomMap.
  Hypothesis HP : parsed cs.
  Hypothesis HO : orthogonal_planes cs.
  Hypothesis S_inv : forall x, INV (SYM x).
  Hypothesis S_fix : forall x, INV x -> same cs (SYM x) x.
  Hypothesis S_keep : forall x y, INV y -> inner cs y (SYM x) = inner cs y x.
  Hypothesis S_ok : forall x, (forall sp a, In (sp, a) (atoms cs) -> atom_ok (cons_at cs sp a) (x sp a)) -> forall sp a, In (sp, a) (atoms cs) -> atom_ok (cons_at cs sp a) (SYM x sp a).
  Hypothesis S_net : forall x, net cs x = V 0 0 0 -> net cs (SYM x) = V 0 0 0.
  Hypothesis S_ext : forall x y, same cs x y -> same cs (SYM x) (SYM y).
  Hypothesis N_inv : forall g, INV (normal cs g).
  Let C := constrain Rl sym atomMap cs extPot.
  Definition middle (x : grad) : grad := let x := applyPlanes cs (perAtom cs x) in if anyConstrained cs extPot then x else zeroMean cs x.
  Lemma C_middle x : C x = SYM (middle (SYM x)). Proof. reflexivity. Qed.
  Lemma good : goodPlanes cs (hyperplanes cs).
  Proof. split; [apply planes_sorted|apply planes_normal]. Qed.
  Lemma dirs sp a : In (sp, a) (atoms cs) -> dir_ok (cons_at cs sp a).
  Proof. intros H. destruct (HP sp a H) as [D _]. exact D. Qed.
  Lemma plane_inner g x y : (forall k D, In (k, D) (hyperplanes cs) -> thresholdD < inner cs D D -> inner cs D x = y) -> active cs g -> inner cs (normal cs g) x = y.
  Proof.
    intros H A. destruct (plane_present cs g A) as (k & D & I & K). assert (E := planes_normal cs k D K). unfold active in A. 
    assert (E' : same cs (normal cs g) D). { intros sp a Ha. rewrite (E sp a Ha). apply normal_ieq, I. }
    rewrite (inner_ext cs (normal cs g) D x x); [|exact E'|apply same_refl]. apply (H k D K). rewrite <- (inner_ext cs (normal cs g) D (normal cs g) D) by exact E'. exact A.
  Qed.
  Lemma plane_act k D : In (k, D) (hyperplanes cs) -> thresholdD < inner cs D D -> active cs k.
  Proof. intros H L. assert (E := planes_normal cs k D H). unfold active. rewrite <- (inner_ext cs D _ D _) by exact E. exact L. Qed.
  Lemma no_planes g : unconstrained cs -> forall sp a, In (sp, a) (atoms cs) -> normal cs g sp a = V 0 0 0.
  Proof. intros U sp a H. unfold normal. rewrite (proj2 (U sp a H)). reflexivity. Qed.
  Lemma middle_allowed x : allowed cs extPot (middle x).
  Proof.
    unfold middle. set (z := applyPlanes cs (perAtom cs x)).
    assert (OK : forall sp a, In (sp, a) (atoms cs) -> atom_ok (cons_at cs sp a) (z sp a)).
    { intros sp a H. unfold z, applyPlanes. fold (planesFrom cs (hyperplanes cs) (perAtom cs x)). destruct (ctyp (cons_at cs sp a)) eqn:T.
      4: { destruct (HP sp a H) as [_ M]. specialize (M T). split; [tauto|]. rewrite T. split; intros; discriminate. }
      all: rewrite (planes_at cs sp a H ltac:(congruence) _ good); apply applyC_ok, dirs, H. }
    assert (PL : forall g, active cs g -> inner cs (normal cs g) z = 0).
    { intros g A. apply (plane_inner g z 0); [|exact A]. intros k D K L. apply (planes_remove cs HO _ good) with (k := k); assumption. }
    destruct (anyConstrained cs extPot) eqn:Any.
    - split; [exact OK|]. split; [exact PL|]. intros U E. exfalso. assert (Q := proj2 (any_false cs extPot) (conj U E)). congruence.
    - apply any_false in Any. destruct Any as [U E]. split; [|split].
      + intros sp a H. destruct (U sp a H) as [M T]. split; [tauto|]. rewrite T. split; intros; discriminate.
      + intros g A. exfalso. unfold active in A. rewrite (inner_ext cs _ gzero _ gzero) in A; [rewrite inner_zero_l in A; lra| |]; intros sp a H; apply no_planes; assumption.
      + intros _ _. apply net_zeroMean.
  Qed.
  Lemma middle_fix x : allowed cs extPot x -> same cs (middle x) x.
  Proof.
    intros (A & B & N). unfold middle.
    assert (E1 : same cs (perAtom cs x) x) by (intros sp a H; apply applyC_fix; [apply dirs, H|apply A, H]).
    assert (E2 : same cs (applyPlanes cs (perAtom cs x)) x).
    { eapply same_trans; [apply (planes_fix cs)|exact E1]. intros k D K L. rewrite (inner_ext cs D (normal cs k) (perAtom cs x) x); [|apply planes_normal, K|exact E1]. apply B. apply (plane_act k D K L). }
    destruct (anyConstrained cs extPot) eqn:Any; [exact E2|]. apply any_false in Any. destruct Any as [U E].
    assert (NZ : net cs (applyPlanes cs (perAtom cs x)) = V 0 0 0).
    { rewrite <- (N U E). unfold net. f_equal; apply total_ext; intros sp a H; rewrite (E2 sp a H); reflexivity. }
    eapply same_trans; [apply zeroMean_fix, NZ|exact E2].
  Qed.
  Lemma middle_keep x y : allowed cs extPot y -> inner cs y (middle x) = inner cs y x.
  Proof.
    intros (A & B & N). unfold middle.
    assert (E2 : inner cs y (applyPlanes cs (perAtom cs x)) = inner cs y x).
    { unfold applyPlanes. fold (planesFrom cs (hyperplanes cs) (perAtom cs x)). rewrite planes_keep.
      - apply Rminus_diag_uniq_sym. rewrite <- inner_sub. rewrite inner_comm. unfold inner. rewrite (total_ext cs _ (fun _ _ => 0)), total_const; [ring|]. intros sp a H.
        rewrite <- (applyC_orth (cons_at cs sp a) (x sp a) (y sp a) (dirs sp a H) (A sp a H)). unfold gsub, gaxpy, perAtom. f_equal. destruct (x sp a), (applyC (cons_at cs sp a) _). v3u. f_equal; ring.
      - intros k D K L. rewrite inner_comm. rewrite (inner_ext cs D (normal cs k) y y); [|apply planes_normal, K|apply same_refl]. apply B, (plane_act k D K L). }
    destruct (anyConstrained cs extPot) eqn:Any; [exact E2|]. apply any_false in Any. destruct Any as [U E]. rewrite zeroMean_keep; [exact E2|apply N; assumption].
  Qed.
  Lemma S_allowed x : allowed cs extPot x -> allowed cs extPot (SYM x).
  Proof.
    intros (A & B & N). split; [apply S_ok, A|]. split.
    - intros g G. rewrite S_keep by apply N_inv. apply B, G.
    - intros U E. apply S_net, N; assumption.
  Qed.
  Lemma allowed_ext x y : same cs x y -> allowed cs extPot x -> allowed cs extPot y.
  Proof.
    intros E (A & B & N). split; [|split].
    - intros sp a H. rewrite <- (E sp a H). apply A, H.
    - intros g G. rewrite <- (inner_ext cs (normal cs g) (normal cs g) x y); [apply B, G|apply same_refl|exact E].
    - intros U X. rewrite <- (N U X). unfold net. f_equal; apply total_ext; intros sp a H; rewrite (E sp a H); reflexivity.
  Qed.
  Lemma combined x :
    allowed cs extPot (C x) /\ INV (C x) /\ (allowed cs extPot x -> INV x -> same cs (C x) x) /\ same cs (C (C x)) (C x) /\
    (forall y, allowed cs extPot y -> INV y -> inner cs y (C x) = inner cs y x).
  Proof.
    assert (A : allowed cs extPot (C x)) by (rewrite C_middle; apply S_allowed, middle_allowed).
    assert (I : INV (C x)) by (rewrite C_middle; apply S_inv).
    assert (F : forall z, allowed cs extPot z -> INV z -> same cs (C z) z).
    { intros z Az Iz. rewrite C_middle. assert (E1 : same cs (SYM z) z) by (apply S_fix, Iz). assert (E2 : same cs (middle (SYM z)) z).
      { eapply same_trans; [apply middle_fix|exact E1]. apply S_allowed, Az. }
      eapply same_trans; [apply S_ext, E2|exact E1]. }
    split; [exact A|]. split; [exact I|]. split; [apply F|]. split; [apply F; assumption|].
    intros y Ay Iy. rewrite C_middle. rewrite S_keep by exact Iy. rewrite middle_keep by exact Ay. apply S_keep, Iy.
  Qed.
End Combine.

(** no symmetries *)
Lemma symCart_trivial Rl sym atomMap x : rdet Rl <> 0 -> (length sym <= 1)%nat -> forall sp a, symCart Rl sym atomMap x sp a = x sp a.
Proof.
  intros D L sp a. unfold symCart, gmat, symmetrizeForces. destruct (Nat.leb_spec (length sym) 1); [|lia]. rewrite <- rmv_mm.
  replace (rmm (mtrans (rinv Rl)) (mtrans Rl)) with rid; [destruct (x sp a); v3u; f_equal; ring|]. rewrite <- mtrans_mm, rinv_r by exact D. v3u. reflexivity.
Qed.
Lemma free_combined Rl sym atomMap cs extPot : rdet Rl <> 0 -> (length sym <= 1)%nat -> parsed cs -> orthogonal_planes cs -> forall x, let y := constrain Rl sym atomMap cs extPot x in
  allowed cs extPot y /\ (allowed cs extPot x -> same cs y x) /\ same cs (constrain Rl sym atomMap cs extPot y) y /\ (forall z, allowed cs extPot z -> inner cs z y = inner cs z x).
Proof.
  intros D L P O x. assert (E : forall x, same cs (symCart Rl sym atomMap x) x) by (intros z sp a _; apply symCart_trivial; assumption).
  destruct (combined Rl sym atomMap cs extPot (fun _ => True) P O) with (x := x) as (A & _ & B & C & K); auto.
  - intros z y _. apply inner_ext; [apply same_refl|apply E].
  - intros z H sp a Ha. rewrite (E z sp a Ha). apply H, Ha.
  - intros z H. rewrite <- H. unfold net. f_equal; apply total_ext; intros sp a Ha; rewrite (E z sp a Ha); reflexivity.
  - intros z y H. eapply same_trans; [apply E|]. eapply same_trans; [exact H|apply same_sym, E].
Qed.
