(** Symmetric constraints. *)
From Coq Require Import String ZArith Reals Bool List Lia Lra Psatz Permutation.
From Verif Require Import Base SMap Vec3_Model Vec3_Facts Lattice_Model Coulomb_Proofs Coulomb_Proofs3 Sym_Model Sym_Spec Sym_Proofs Sym_Proofs2 Sym_Proofs7 Sym_Proofs8 Ions_Model Ions_Spec Ions_Proofs Ions_Proofs2.
Import ListNotations.
Local Open Scope R_scope.

Lemma dot_sum {T} v (f : T -> vec R) l : rdot v (vsm (map f l)) = fold_right (fun t acc => rdot v (f t) + acc) 0 l.
Proof. induction l as [|t l IH]; cbn [map wsum fold_right]; [destruct v; v3u; ring|]. rewrite <- IH. generalize (vsm (map f l)) (f t). intros [a0 a1 a2] [b0 b1 b2]. destruct v. v3u. ring. Qed.
Lemma total_sum cs {T} (F : T -> nat -> nat -> R) l : total cs (fun sp a => fold_right (fun t acc => F t sp a + acc) 0 l) = fold_right (fun t acc => total cs (F t) + acc) 0 l.
Proof. induction l as [|t l IH]; cbn [fold_right]; [rewrite total_const; ring|]. rewrite total_plus, IH. reflexivity. Qed.
Lemma fold_same {T} (F : T -> R) x l : (forall t, In t l -> F t = x) -> fold_right (fun t acc => F t + acc) 0 l = INR (length l) * x.
Proof.
  induction l as [|t l IH]; intros H; [cbn; ring|]. cbn [fold_right]. rewrite IH by (intros; apply H; right; assumption). rewrite H by (left; reflexivity).
  change (length (t :: l)) with (S (length l)). rewrite S_INR. ring.
Qed.
Lemma total_perm cs f (m : nat -> nat -> nat) : Permutation (map (fun i => (fst i, m (fst i) (snd i))) (atoms cs)) (atoms cs) -> total cs (fun sp a => f sp (m sp a)) = total cs f.
Proof.
  intros P. unfold total. assert (Q : forall l l' : list (nat * nat), Permutation l l' -> fold_right (fun i acc => f (fst i) (snd i) + acc) 0 l = fold_right (fun i acc => f (fst i) (snd i) + acc) 0 l').
  { induction 1; cbn; lra. }
  rewrite <- (Q _ _ P). clear. induction (atoms cs) as [|i l IH]; [reflexivity|]. cbn. rewrite IH. reflexivity.
Qed.

Section Symmetric.
  Variables (Rl : mat R) (sym : list SpaceGroupOp) (pos : nat -> list (vec R)) (atomMap : nat -> nat -> nat -> nat) (cs : csys).
  Hypothesis HS : symmetric_constraints Rl sym pos atomMap cs.
  Hypothesis HD : rdet Rl <> 0.
  Let op k := opn sym k.
  Let Q k := cartesian Rl (op k).
  Let n := length sym.
  Let HG := sc_group _ _ _ _ _ HS.
  Let HM sp := sc_map _ _ _ _ _ HS sp.
  Let HP sp := sc_pos _ _ _ _ _ HS sp.
  Definition INV (x : grad) : Prop := forall p, In p sym -> symmetric Rl pos p x.
  Lemma at_pos sp a : In (sp, a) (atoms cs) -> (a < length (pos sp))%nat.
  Proof. intros H. apply in_atoms in H. rewrite (sc_len _ _ _ _ _ HS). tauto. Qed.
  Lemma Qt k : mtrans (Q k) = rmm (rmm (mtrans (rinv Rl)) (mtrans (mIZR (sg_rot (op k))))) (mtrans Rl).
  Proof. unfold Q, cartesian. rewrite !mtrans_mm, rmm_assoc. reflexivity. Qed.
  Lemma ctrans p : mtrans (cartesian Rl p) = rmm (rmm (mtrans (rinv Rl)) (mtrans (mIZR (sg_rot p)))) (mtrans Rl).
  Proof. unfold cartesian. rewrite !mtrans_mm, rmm_assoc. reflexivity. Qed.
  Lemma Rt_inv v : rmv (mtrans Rl) (rmv (mtrans (rinv Rl)) v) = v.
  Proof. rewrite <- rmv_mm, <- mtrans_mm, rinv_l by exact HD. destruct v. v3u. f_equal; ring. Qed.
  Lemma Rt_inv' v : rmv (mtrans (rinv Rl)) (rmv (mtrans Rl) v) = v.
  Proof. rewrite <- rmv_mm, <- mtrans_mm, rinv_r by exact HD. destruct v. v3u. f_equal; ring. Qed.
  Lemma rmv_lin m s v : rmv m (rvscale s v) = rvscale s (rmv m v).
  Proof. destruct m, v. v3u. f_equal; ring. Qed.
  Lemma rmv_zero m : rmv m (V 0 0 0) = V 0 0 0.
  Proof. destruct m. v3u. f_equal; ring. Qed.
  Lemma symCart_avg x sp a : In (sp, a) (atoms cs) ->
    symCart Rl sym atomMap x sp a = rvscale (/ INR n) (vsm (map (fun k => rmv (mtrans (Q k)) (x sp (atomMap sp a k))) (seq 0 n))).
  Proof.
    intros H. unfold symCart, gmat. rewrite (symF sym (pos sp) (atomMap sp) HG (HP sp) (HM sp)) by (apply at_pos, H).
    unfold avgF, avg, Sym_Proofs.n. rewrite rmv_lin. rewrite seq_length. f_equal. rewrite vsm_lin; [|apply rmv_zero|intros; apply rmv_add]. f_equal. apply map_ext. intros k.
    unfold LF, lift, actF. rewrite !Nat2Z.id, Qt, !rmv_mm. reflexivity.
  Qed.
  Lemma S_inv x : INV (symCart Rl sym atomMap x).
  Proof.
    intros p Hp sp a b Hab. unfold symCart, gmat. rewrite ctrans, !rmv_mm, Rt_inv. f_equal.
    destruct (forces_sym sym (pos sp) (atomMap sp) HG (HP sp) (HM sp) (fun at_ => rmv (mtrans Rl) (x sp at_))) as [I _]. apply (I p Hp a b Hab).
  Qed.
  Lemma S_fix x : INV x -> same cs (symCart Rl sym atomMap x) x.
  Proof.
    intros I sp a H. unfold symCart, gmat. destruct (forces_sym sym (pos sp) (atomMap sp) HG (HP sp) (HM sp) (fun at_ => rmv (mtrans Rl) (x sp at_))) as (_ & F & _).
    rewrite F; [apply Rt_inv'| |apply at_pos, H]. intros p Hp a' b' Hab. rewrite <- (I p Hp sp a' b' Hab). rewrite ctrans, !rmv_mm, Rt_inv. reflexivity.
  Qed.
  Lemma Q_orth k : (k < n)%nat -> orthogonal (Q k).
  Proof. intros H. apply (sc_orth _ _ _ _ _ HS). apply opn_in, H. Qed.
  Lemma orth_right O : orthogonal O -> rmm O (mtrans O) = rid.
  Proof.
    unfold orthogonal. intros H. assert (D : rdet O <> 0).
    { intros Z. assert (E : rdet (rmm (mtrans O) O) = 1) by (rewrite H; v3u; ring). rewrite rdet_mm, Z in E. lra. }
    rewrite (rinv_unique _ _ D H). apply rinv_r, D.
  Qed.
  Lemma orth_inv O v : orthogonal O -> rmv O (rmv (mtrans O) v) = v.
  Proof. intros H. rewrite <- rmv_mm, (orth_right O H). destruct v. v3u. f_equal; ring. Qed.
  Lemma dot_mt m v w : rdot v (rmv (mtrans m) w) = rdot (rmv m v) w.
  Proof. destruct m, v, w. v3u. ring. Qed.
  Lemma map_perm k : (k < n)%nat -> Permutation (map (fun i => (fst i, atomMap (fst i) (snd i) k)) (atoms cs)) (atoms cs).
  Proof.
    intros Hk. apply injective_self_permutation; [apply atoms_NoDup| |].
    - intros [sp a] H. cbn [fst snd]. apply in_atoms. split; [apply in_atoms in H; tauto|]. rewrite <- (sc_len _ _ _ _ _ HS). apply (map_range sym (pos sp) (atomMap sp) (HM sp)); [apply at_pos, H|exact Hk].
    - intros [sp a] [sp' b] Ha Hb E. cbn [fst snd] in E. inversion E as [[E1 E2]]. subst sp'. f_equal.
      destruct (HM sp a k (at_pos _ _ Ha) Hk) as (x&y&Ex&Ey&A). destruct (HM sp b k (at_pos _ _ Hb) Hk) as (x'&y'&Ex'&Ey'&A').
      apply (HP sp a b x x'); auto. replace y' with y in A' by congruence.
      destruct (gr_inverse _ HG (op k) (opn_in sym k Hk)) as (pi&e&_&_&N&_&I). apply composes_alg in I. destruct I as (I&_). apply neutral_alg in N. destruct N as (N&_). rewrite N in I.
      pose proof (latt_trans _ _ _ A (latt_sym _ _ A')) as (t&X).
      assert (Y : lattice_equal (rmv (mIZR (sg_rot (op k))) x) (rmv (mIZR (sg_rot (op k))) x')).
      { exists t. rewrite <- X. unfold op. fold (opn sym k). destruct (rmv (mIZR (sg_rot (opn sym k))) x) eqn:U1, (rmv (mIZR (sg_rot (opn sym k))) x') eqn:U2. unfold opn, op0 in U1, U2. rewrite U1, U2. destruct (sg_a _). v3u. f_equal; ring. }
      apply (latt_mv (sg_rot pi)) in Y. rewrite <- !rmv_mm, <- mIZR_mm, <- I, mIZR_id, !rmv_id in Y. auto.
  Qed.
  Lemma inner_sym x y : inner cs y (symCart Rl sym atomMap x) =
    / INR n * fold_right (fun k acc => total cs (fun sp a => rdot (rmv (Q k) (y sp a)) (x sp (atomMap sp a k))) + acc) 0 (seq 0 n).
  Proof.
    rewrite <- (total_sum cs (fun k sp a => rdot (rmv (Q k) (y sp a)) (x sp (atomMap sp a k)))), <- total_scale. unfold inner. apply total_ext. intros sp a H. rewrite symCart_avg by exact H.
    rewrite rdot_scale_r. f_equal. rewrite dot_sum. generalize (seq 0 n). intros l. induction l as [|k l IH]; [reflexivity|]. cbn [fold_right]. rewrite IH, dot_mt. reflexivity.
  Qed.
  Lemma n_pos : INR n <> 0.
  Proof. apply not_0_INR. assert (0 < length sym)%nat by (eapply n_sym; first [exact HG|apply (HP 0%nat)|apply (HM 0%nat)]). unfold n. lia. Qed.
  Lemma S_keep x y : INV y -> inner cs y (symCart Rl sym atomMap x) = inner cs y x.
  Proof.
    intros I. rewrite inner_sym. rewrite (fold_same _ (inner cs y x)); [rewrite seq_length; field; apply n_pos|]. intros k Hk. apply in_seq in Hk.
    unfold inner. rewrite <- (total_perm cs (fun sp a => rdot (y sp a) (x sp a)) (fun sp a => atomMap sp a k)) by (apply map_perm; lia). apply total_ext. intros sp a H. f_equal.
    rewrite <- (I (op k) (opn_in sym k ltac:(lia)) sp a (atomMap sp a k)); [|apply HM; [apply at_pos, H|lia]]. apply orth_inv, Q_orth. lia.
  Qed.
  Lemma net_inner x : net cs x = V 0 0 0 <-> forall v, inner cs (fun _ _ => v) x = 0.
  Proof.
    split.
    - intros H v. rewrite inner_comm, inner_const, H. destruct v. v3u. ring.
    - intros H. assert (E : forall v, rdot (net cs x) v = 0) by (intros v; rewrite <- inner_const, inner_comm; apply H). clear H.
      assert (E0 := E (V 1 0 0)). assert (E1 := E (V 0 1 0)). assert (E2 := E (V 0 0 1)). destruct (net cs x) as [a b c]. revert E0 E1 E2. v3u. intros. f_equal; lra.
  Qed.
  Lemma S_net x : net cs x = V 0 0 0 -> net cs (symCart Rl sym atomMap x) = V 0 0 0.
  Proof.
    intros H. apply net_inner. intros v. rewrite inner_sym. rewrite (fold_same _ 0); [ring|]. intros k Hk. apply in_seq in Hk.
    rewrite (total_perm cs (fun sp a => rdot (rmv (Q k) v) (x sp a)) (fun sp a => atomMap sp a k)) by (apply map_perm; lia). apply (proj1 (net_inner x) H).
  Qed.
  Lemma S_ext x y : same cs x y -> same cs (symCart Rl sym atomMap x) (symCart Rl sym atomMap y).
  Proof.
    intros E sp a H. rewrite !symCart_avg by exact H. do 2 f_equal. apply map_ext_in. intros k Hk. apply in_seq in Hk. f_equal. apply E.
    apply in_atoms. split; [apply in_atoms in H; tauto|]. rewrite <- (sc_len _ _ _ _ _ HS). apply (map_range sym (pos sp) (atomMap sp) (HM sp)); [apply at_pos, H|unfold n in Hk; lia].
  Qed.
  Lemma ok_zero c : atom_ok c (V 0 0 0).
  Proof. split; [reflexivity|]. split; [exists 0; destruct (cdir c); v3u; f_equal; ring|intros; destruct (cdir c); v3u; ring]. Qed.
  Lemma ok_add c v w : atom_ok c v -> atom_ok c w -> atom_ok c (rvadd v w).
  Proof.
    intros (A1 & B1 & C1) (A2 & B2 & C2). split; [|split].
    - intros M. rewrite A1, A2 by exact M. v3u. f_equal; ring.
    - intros M T. destruct (B1 M T) as [t ->], (B2 M T) as [u ->]. exists (t + u). destruct (cdir c). v3u. f_equal; ring.
    - intros M T. assert (E1 := C1 M T). assert (E2 := C2 M T). revert E1 E2. clear. destruct v, w, (cdir c). v3u. intros. lra.
  Qed.
  Lemma ok_scale c s v : atom_ok c v -> atom_ok c (rvscale s v).
  Proof.
    intros (A & B & C). split; [|split].
    - intros M. rewrite A by exact M. v3u. f_equal; ring.
    - intros M T. destruct (B M T) as [t ->]. exists (s * t). destruct (cdir c). v3u. f_equal; ring.
    - intros M T. assert (E := C M T). transitivity (s * rdot v (cdir c)); [destruct v, (cdir c); v3u; ring|rewrite E; ring].
  Qed.
  Lemma ok_rot O c c' v : orthogonal O -> same_constraint O c c' -> atom_ok c' v -> atom_ok c (rmv (mtrans O) v).
  Proof.
    intros HO (SM & ST & SD) (A & B & C). split; [|split].
    - intros M. rewrite A by (apply SM, M). apply rmv_zero.
    - intros M T. destruct (B ltac:(intros X; apply M, SM, X) ltac:(congruence)) as [t ->]. destruct (SD (or_introl T)) as (s & _ & ->). exists (t * s).
      rewrite !rmv_lin, <- rmv_mm. unfold orthogonal in HO. rewrite HO. destruct (cdir c). v3u. f_equal; ring.
    - intros M T. assert (E := C ltac:(intros X; apply M, SM, X) ltac:(congruence)). destruct (SD (or_intror T)) as (s & Hs & D). rewrite D in E.
      assert (X : s * rdot (rmv (mtrans O) v) (cdir c) = 0) by (rewrite <- E; destruct O, v, (cdir c); v3u; ring). apply Rmult_integral in X. tauto.
  Qed.
  Lemma S_ok x : (forall sp a, In (sp, a) (atoms cs) -> atom_ok (cons_at cs sp a) (x sp a)) -> forall sp a, In (sp, a) (atoms cs) -> atom_ok (cons_at cs sp a) (symCart Rl sym atomMap x sp a).
  Proof.
    intros A sp a H. rewrite symCart_avg by exact H. apply ok_scale.
    assert (G : forall l, (forall k, In k l -> (k < n)%nat) -> atom_ok (cons_at cs sp a) (vsm (map (fun k => rmv (mtrans (Q k)) (x sp (atomMap sp a k))) l))).
    { induction l as [|k l IH]; intros K; cbn [map wsum]; [apply ok_zero|]. apply ok_add; [|apply IH; intros; apply K; right; assumption].
      assert (Kk : (k < n)%nat) by (apply K; left; reflexivity). assert (MM := HM sp a k (at_pos _ _ H) Kk). apply (ok_rot _ _ (cons_at cs sp (atomMap sp a k))).
      - apply Q_orth, Kk.
      - apply (sc_same _ _ _ _ _ HS); [apply opn_in, Kk|exact MM].
      - apply A. apply in_atoms. split; [apply in_atoms in H; tauto|]. rewrite <- (sc_len _ _ _ _ _ HS). apply (map_range sym (pos sp) (atomMap sp) (HM sp)); [apply at_pos, H|exact Kk]. }
    apply G. intros k Hk. apply in_seq in Hk. lia.
  Qed.
  Lemma sym_combined extPot : parsed cs -> orthogonal_planes cs -> forall x, let y := constrain Rl sym atomMap cs extPot x in
    allowed cs extPot y /\ (forall p, In p sym -> symmetric Rl pos p y) /\ (allowed cs extPot x -> (forall p, In p sym -> symmetric Rl pos p x) -> same cs y x) /\
    same cs (constrain Rl sym atomMap cs extPot y) y /\ (forall z, allowed cs extPot z -> (forall p, In p sym -> symmetric Rl pos p z) -> inner cs z y = inner cs z x).
  Proof.
    intros P O x. apply (combined Rl sym atomMap cs extPot INV P O S_inv S_fix S_keep S_ok S_net S_ext). intros g p Hp. apply (sc_normal _ _ _ _ _ HS), Hp.
  Qed.
End Symmetric.
