(** Examples and counterexamples for constraints. *)
From Coq Require Import String ZArith Reals Bool List Lia Lra Psatz Permutation.
From Verif Require Import Base SMap Vec3_Model Vec3_Facts Lattice_Model Coulomb_Proofs Sym_Model Sym_Spec Sym_Proofs Sym_Proofs2 Sym_Proofs8 Sym_Proofs9 Ions_Model Ions_Spec Ions_Proofs Ions_Proofs2 Ions_Proofs3.
Import ListNotations.
Local Open Scope R_scope.

Lemma rid_inv : rinv rid = rid.
Proof. assert (D : rdet rid <> 0) by (v3u; lra). rewrite <- (rmm_id_r (rinv rid)). apply rinv_l, D. Qed.
Lemma isZero_1 : isZero 1 = false. Proof. apply isZero_f. lra. Qed.

(** *** one atom in two planes that are not orthogonal *)
Definition csTwo : csys := [[Constraint 1 (V 0 0 0) CHyperPlane [(V 1 0 0, "a"%string); (V 1 1 0, "b"%string)]]].
Definition one_atom (v : vec R) : grad := fun _ _ => v.
Lemma two_planes : hyperplanes csTwo = [("a"%string, gset gzero 0 0 (V 1 0 0)); ("b"%string, gset gzero 0 0 (V 1 1 0))].
Proof. reflexivity. Qed.
Lemma two_apply x : applyPlanes csTwo (perAtom csTwo x) 0%nat 0%nat = let v := x 0%nat 0%nat in V (- (c1 v / 2)) (c1 v / 2) (c2 v).
Proof.
  unfold applyPlanes. rewrite two_planes. cbn [map snd fold_left]. unfold applyPlane. rewrite !gdotI_inner.
  assert (P : perAtom csTwo x 0%nat 0%nat = x 0%nat 0%nat) by (unfold perAtom, applyC, csTwo, cons_at; cbn [nth moveScale ctyp]; rewrite isZero_1; reflexivity).
  assert (I : forall y z, inner csTwo y z = rdot (y 0%nat 0%nat) (z 0%nat 0%nat)) by (intros; unfold inner, total, csTwo; cbn [atoms nSpecies nAtoms length seq flat_map nth map app fold_right fst snd]; ring).
  assert (G : forall v, gset gzero 0 0 v 0%nat 0%nat = v) by reflexivity.
  rewrite !I, !G. replace (rdot (V 1 0 0) (V 1 0 0)) with 1 by (v3u; ring). replace (rdot (V 1 1 0) (V 1 1 0)) with 2 by (v3u; ring).
  destruct (Rlt_dec thresholdD 1) as [_|N]; [|exfalso; apply N; unfold thresholdD; lra]. destruct (Rlt_dec thresholdD 2) as [_|N]; [|exfalso; apply N; unfold thresholdD; lra].
  rewrite ?I. unfold gaxpy, gscaleI. rewrite !G, P. cbv zeta. destruct (x 0%nat 0%nat) as [a b c]. v3u. f_equal; field.
Qed.
Lemma two_constrain am x : constrain rid [] am csTwo false x 0%nat 0%nat = let v := x 0%nat 0%nat in V (- (c1 v / 2)) (c1 v / 2) (c2 v).
Proof.
  assert (D : rdet rid <> 0) by (v3u; lra). unfold constrain. rewrite symCart_trivial by (auto; cbn; lia).
  assert (A : anyConstrained csTwo false = true) by (unfold anyConstrained, csTwo; cbn [existsb ctyp]; cbn [ctyp_eqb]; rewrite orb_true_r; reflexivity).
  rewrite A. rewrite two_apply, symCart_trivial by (auto; cbn; lia). reflexivity.
Qed.
Lemma planes_refuted : exists cs g x, parsed cs /\ active cs g /\ let y := constrain rid [] (fun _ a _ => a) cs false x in
  inner cs (normal cs g) y <> 0 /\ ~ same cs (constrain rid [] (fun _ a _ => a) cs false y) y.
Proof.
  exists csTwo, "a"%string, (one_atom (V 0 2 0)).
  assert (I : forall y z, inner csTwo y z = rdot (y 0%nat 0%nat) (z 0%nat 0%nat)) by (intros; unfold inner, total, csTwo; cbn [atoms nSpecies nAtoms length seq flat_map nth map app fold_right fst snd]; ring).
  assert (N : normal csTwo "a" 0%nat 0%nat = V 1 0 0) by reflexivity.
  split; [|split; [|cbv zeta; split]].
  - intros sp a H. apply in_atoms in H. destruct H as [H1 H2]. cbn in H1. assert (sp = 0%nat) by lia. subst sp. cbn in H2. assert (a = 0%nat) by lia. subst a. cbv zeta. unfold cons_at, csTwo. cbn [nth ctyp moveScale cdir].
    split; [intros [X|X]; discriminate|intros _; lra].
  - unfold active. rewrite I, N. v3u. lra.
  - rewrite I, N, two_constrain. unfold one_atom. v3u. lra.
  - intros H. assert (X := H 0%nat 0%nat ltac:(apply in_atoms; cbn; lia)). rewrite !two_constrain in X. cbv zeta in X. rewrite ?two_constrain in X. cbv zeta in X. unfold one_atom in X. cbn [c0 c1 c2] in X. injection X. intros. lra.
Qed.

(** *** two atoms related by inversion, with different planes *)
Definition csInv : csys := [[Constraint 1 (V 0 0 0) CHyperPlane [(V 1 0 0, "a"%string)]; Constraint 1 (V 0 0 0) CHyperPlane [(V 0 1 0, "b"%string)]]].
Definition two_atoms (v w : vec R) : grad := fun _ a => match a with O => v | _ => w end.
Definition symI := [eOp; iOp half].
Lemma inv_planes : hyperplanes csInv = [("a"%string, gset gzero 0 0 (V 1 0 0)); ("b"%string, gset gzero 0 1 (V 0 1 0))].
Proof. reflexivity. Qed.
Lemma inv_inner y z : inner csInv y z = rdot (y 0%nat 0%nat) (z 0%nat 0%nat) + rdot (y 0%nat 1%nat) (z 0%nat 1%nat).
Proof. unfold inner, total, csInv; cbn [atoms nSpecies nAtoms length seq flat_map nth map app fold_right fst snd]; ring. Qed.
Lemma inv_apply x a : (a < 2)%nat -> applyPlanes csInv (perAtom csInv x) 0%nat a =
  match a with O => V 0 (c1 (x 0%nat 0%nat)) (c2 (x 0%nat 0%nat)) | _ => V (c0 (x 0%nat 1%nat)) 0 (c2 (x 0%nat 1%nat)) end.
Proof.
  intros Ha. unfold applyPlanes. rewrite inv_planes. cbn [map snd fold_left]. unfold applyPlane. rewrite !gdotI_inner.
  assert (P : forall b, (b < 2)%nat -> perAtom csInv x 0%nat b = x 0%nat b) by (intros [|[|b]] Hb; try lia; unfold perAtom, applyC, csInv, cons_at; cbn [nth moveScale ctyp]; rewrite isZero_1; reflexivity).
  assert (G : forall v, gset gzero 0 0 v 0%nat 0%nat = v) by reflexivity. assert (G' : forall v, gset gzero 0 1 v 0%nat 1%nat = v) by reflexivity.
  assert (Z : forall v, gset gzero 0 0 v 0%nat 1%nat = V 0 0 0) by reflexivity. assert (Z' : forall v, gset gzero 0 1 v 0%nat 0%nat = V 0 0 0) by reflexivity.
  rewrite !inv_inner, !G, !G', !Z, !Z'. replace (rdot (V 1 0 0) (V 1 0 0) + rdot (V 0 0 0) (V 0 0 0)) with 1 by (v3u; ring). replace (rdot (V 0 0 0) (V 0 0 0) + rdot (V 0 1 0) (V 0 1 0)) with 1 by (v3u; ring).
  destruct (Rlt_dec thresholdD 1) as [_|N]; [|exfalso; apply N; unfold thresholdD; lra].
  rewrite ?inv_inner. unfold gaxpy, gscaleI. rewrite ?G, ?G', ?Z, ?Z', ?P by lia. destruct a as [|[|a]]; [| |lia]; rewrite ?P by lia; rewrite ?G, ?G', ?Z, ?Z'; destruct (x 0%nat 0%nat) as [a0 a1 a2], (x 0%nat 1%nat) as [b0 b1 b2]; v3u; f_equal; field.
Qed.
Lemma inv_sym x a : (a < 2)%nat -> symCart rid symI (fun _ => swap2) x 0%nat a = rvscale (1/2) (rvsub (x 0%nat a) (x 0%nat (1 - a)%nat)).
Proof.
  intros Ha. unfold symCart, gmat, symmetrizeForces, symI. cbn [length Nat.leb seq]. unfold rvsum. cbn [fold_left]. rewrite rid_inv. cbn [nth]. unfold eOp, iOp, zid, zdiag. cbn [sg_rot].
  replace (INR 2) with 2 by (cbn; ring). destruct a as [|[|a]]; [| |lia]; cbn [swap2 Nat.sub]; destruct (x 0%nat 0%nat) as [a0 a1 a2], (x 0%nat 1%nat) as [b0 b1 b2]; v3u; f_equal; field.
Qed.
Lemma inv_constrain x : constrain rid symI (fun _ => swap2) csInv false x 0%nat 0%nat =
  let v := rvscale (1/2) (rvsub (x 0%nat 0%nat) (x 0%nat 1%nat)) in V (c0 v / 2) (c1 v / 2) (c2 v).
Proof.
  unfold constrain. assert (A : anyConstrained csInv false = true) by (unfold anyConstrained, csInv; cbn [existsb ctyp]; cbn [ctyp_eqb]; rewrite orb_true_r; reflexivity).
  rewrite A. rewrite inv_sym by lia. cbn [Nat.sub]. rewrite !inv_apply by lia. cbv iota. rewrite !inv_sym by lia. cbn [Nat.sub]. destruct (x 0%nat 0%nat) as [a0 a1 a2], (x 0%nat 1%nat) as [b0 b1 b2]. v3u. f_equal; field.
Qed.
Lemma inv_constrain1 x : constrain rid symI (fun _ => swap2) csInv false x 0%nat 1%nat =
  let v := rvscale (1/2) (rvsub (x 0%nat 0%nat) (x 0%nat 1%nat)) in V (- (c0 v / 2)) (- (c1 v / 2)) (- c2 v).
Proof.
  unfold constrain. assert (A : anyConstrained csInv false = true) by (unfold anyConstrained, csInv; cbn [existsb ctyp]; cbn [ctyp_eqb]; rewrite orb_true_r; reflexivity).
  rewrite A. rewrite inv_sym by lia. cbn [Nat.sub]. rewrite !inv_apply by lia. cbv iota. rewrite !inv_sym by lia. cbn [Nat.sub]. destruct (x 0%nat 0%nat) as [a0 a1 a2], (x 0%nat 1%nat) as [b0 b1 b2]. v3u. f_equal; field.
Qed.
Lemma sym_planes_refuted : exists cs sym atomMap pos g x, parsed cs /\ orthogonal_planes cs /\ active cs g /\
  space_group sym /\ (forall p, In p sym -> orthogonal (cartesian rid p)) /\ (forall sp, length (pos sp) = nAtoms cs sp) /\ (forall sp, distinct_positions (pos sp)) /\
  (forall sp a k, (a < length (pos sp))%nat -> (k < length sym)%nat -> atom_map (pos sp) (nth k sym (SGO zid (V 0 0 0))) a (atomMap sp a k)) /\
  (forall thr sp a k, 0 < thr -> In (sp, a) (atoms cs) -> (k < length sym)%nat -> isEquivalent thr (cons_at cs sp a) (cons_at cs sp (atomMap sp a k)) (cartesian rid (nth k sym (SGO zid (V 0 0 0)))) = true) /\
  let y := constrain rid sym atomMap cs false x in inner cs (normal cs g) y <> 0 /\ ~ same cs (constrain rid sym atomMap cs false y) y.
Proof.
  destruct forces_ex as (HG & HD & HM & _).
  exists csInv, symI, (fun _ => swap2), (fun sp => match sp with O => pos2 | _ => [] end), "a"%string, (two_atoms (V 4 0 0) (V (-4) 0 0)).
  assert (N : normal csInv "a" 0%nat 0%nat = V 1 0 0) by reflexivity. assert (N' : normal csInv "a" 0%nat 1%nat = V 0 0 0) by reflexivity.
  assert (AT : forall sp a, In (sp, a) (atoms csInv) -> sp = 0%nat /\ (a = 0 \/ a = 1)%nat) by (intros sp a H; apply in_atoms in H; cbn in H; destruct H as [H1 H2]; assert (sp = 0%nat) by lia; subst sp; cbn in H2; lia).
  refine (conj _ (conj _ (conj _ (conj HG (conj (pair_orth half) (conj _ (conj _ (conj _ (conj _ _))))))))).
  - intros sp a H. destruct (AT _ _ H) as [-> [-> | ->]]; cbv zeta; unfold cons_at, csInv; cbn [nth ctyp moveScale cdir]; (split; [intros [X|X]; discriminate|intros _; lra]).
  - intros g g' D. rewrite inv_inner. unfold normal, cons_at, csInv. cbn [nth ctyp hyperplane filter snd]. destruct (ieqb g "a") eqn:E1, (ieqb g' "a") eqn:E2, (ieqb g "b") eqn:E3, (ieqb g' "b") eqn:E4; cbn [map last fst]; try (v3u; ring);
      exfalso; apply D; unfold ieq; unfold ieqb in *; first [apply String.eqb_eq in E1, E2; congruence|apply String.eqb_eq in E3, E4; congruence].
  - unfold active. rewrite inv_inner, N, N'. v3u. lra.
  - intros [|[|sp]]; reflexivity.
  - intros [|sp]; [exact HD|]. intros a b x y E. destruct a; discriminate.
  - intros [|sp]; [exact HM|]. intros a k H. cbn in H. lia.
  - intros thr sp a k T H K. destruct (AT _ _ H) as [-> A]. unfold isEquivalent. assert (L : rlength (V 0 0 0) = 0) by (unfold rlength; replace (rlen2 (V 0 0 0)) with 0 by (v3u; ring); apply sqrt_0).
    assert (B : areBothZero (thr * thr) (V 0 0 0) (V 0 0 0) = true) by (unfold areBothZero, Rltb; rewrite L; destruct (Rlt_dec 0 (thr * thr)) as [_|X]; [reflexivity|exfalso; apply X; nra]).
    assert (W : forall b, (b = 0 \/ b = 1)%nat -> moveScale (cons_at csInv 0 b) = 1 /\ ctyp (cons_at csInv 0 b) = CHyperPlane /\ cdir (cons_at csInv 0 b) = V 0 0 0) by (intros b [-> | ->]; repeat split; reflexivity).
    assert (Sw : (swap2 a k = 0 \/ swap2 a k = 1)%nat) by (destruct k, A as [-> | ->]; cbn; lia).
    destruct (W _ A) as (-> & -> & ->), (W _ Sw) as (-> & -> & ->). rewrite B. replace (1 - 1) with 0 by ring. assert (Z : isZero 0 = true) by (apply isZero_t; reflexivity). rewrite Z. reflexivity.
  - cbv zeta. split.
    + rewrite inv_inner, N, N', inv_constrain. cbv zeta. unfold two_atoms. v3u. lra.
    + intros H. assert (X := H 0%nat 0%nat ltac:(apply in_atoms; cbn; lia)). rewrite inv_constrain in X. rewrite inv_constrain, inv_constrain1 in X. cbv zeta in X. unfold two_atoms in X. revert X. v3u. intros X. injection X. intros. lra.
Qed.

(** *** example of symmetric constraints: planes for one species, a collective constraint for the other *)
Definition csEx : csys :=
  [[Constraint 1 (V 0 0 2) CPlanar []; Constraint 1 (V 0 0 2) CPlanar []];
   [Constraint 1 (V 0 0 0) CHyperPlane [(V 1 0 0, "g"%string)]; Constraint 1 (V 0 0 0) CHyperPlane [(V (-1) 0 0, "G"%string)]]].
Definition posEx (sp : nat) : list (vec R) := match sp with O => pos2 | 1%nat => [V 0 (1/2) 0; V (1/2) (1/2) 0] | _ => [] end.
Lemma ex_atoms sp a : In (sp, a) (atoms csEx) -> (sp = 0 \/ sp = 1)%nat /\ (a = 0 \/ a = 1)%nat.
Proof. intros H; apply in_atoms in H; cbn in H; destruct H as [H1 H2]. assert (S : (sp = 0 \/ sp = 1)%nat) by lia. destruct S as [-> | ->]; cbn in H2; lia. Qed.
Lemma ex_normal g sp a : normal csEx g sp a = match sp, a with 1%nat, O => if ieqb g "g" then V 1 0 0 else V 0 0 0 | 1%nat, 1%nat => if ieqb g "g" then V (-1) 0 0 else V 0 0 0 | _, _ => V 0 0 0 end.
Proof.
  destruct sp as [|[|[|sp]]]; destruct a as [|[|[|a]]]; try reflexivity.
  - unfold normal, cons_at, csEx; cbn [nth ctyp hyperplane filter snd]. destruct (ieqb g "g"); reflexivity.
  - unfold normal, cons_at, csEx; cbn [nth ctyp hyperplane filter snd]. change (ieqb g "G") with (ieqb g "g"). destruct (ieqb g "g"); reflexivity.
Qed.
Lemma ex_parsed : parsed csEx.
Proof. intros sp a H. destruct (ex_atoms _ _ H) as [[-> | ->] [-> | ->]]; cbv zeta; unfold cons_at, csEx; cbn [nth ctyp moveScale cdir]; (split; [intros [X|X]; try discriminate; v3u; lra|intros X; try discriminate; lra]). Qed.
Lemma ex_orth : orthogonal_planes csEx.
Proof.
  intros g g' D. unfold inner. rewrite (total_ext csEx _ (fun _ _ => 0)), total_const; [ring|]. intros sp a H. rewrite !ex_normal.
  destruct (ieqb g "g") eqn:E1, (ieqb g' "g") eqn:E2; [exfalso; apply D; unfold ieq; unfold ieqb in *; apply String.eqb_eq in E1, E2; congruence| | |]; destruct (ex_atoms _ _ H) as [[-> | ->] [-> | ->]]; v3u; ring.
Qed.
Lemma ex_active : active csEx "g".
Proof. unfold active, inner, total, csEx; cbn [atoms nSpecies nAtoms length seq flat_map nth map app fold_right fst snd]. fold csEx. rewrite !ex_normal. change (ieqb "g" "g") with true. cbv iota. v3u. lra. Qed.
Lemma neq_half t : 1/2 <> IZR t.
Proof. intros E. assert (2 * IZR t = 1) by lra. assert (X : IZR (2 * t) = IZR 1) by (rewrite mult_IZR; lra). apply eq_IZR in X. lia. Qed.
Lemma ex_symmetric : symmetric_constraints rid symI posEx (fun _ => swap2) csEx.
Proof.
  destruct forces_ex as (HG & HD & HM & _).
  assert (P1 : distinct_positions (posEx 1)).
  { intros a b x y Ha Hb (t&E). destruct t as [t0 t1 t2]. destruct a as [|[|[|]]], b as [|[|[|]]]; cbn in Ha, Hb; try discriminate; auto; injection Ha as <-; injection Hb as <-; revert E; v3u; intros E; injection E as E0 E1 E2; exfalso.
    - apply (neq_half (- t0)). rewrite opp_IZR. lra.
    - apply (neq_half t0). lra. }
  assert (CQ : forall p, In p symI -> exists s, (s = 1 \/ s = -1) /\ cartesian rid p = rmscale s rid).
  { intros p [<-|[<-|[]]]; [exists 1|exists (-1)]; (split; [auto|]); unfold cartesian; rewrite rid_inv, rmm_id_r, rmm_id_l; unfold eOp, iOp, zid, zdiag; cbn [sg_rot]; v3u; f_equal; ring. }
  assert (MP : forall p sp a b, In p symI -> atom_map (posEx sp) p a b -> (sp < 2)%nat /\ (a < 2)%nat /\ (b < 2)%nat /\ (p = eOp -> b = a) /\ (p = iOp half -> b = (1 - a)%nat)).
  { intros p sp a b Hp (x & y & Ex & Ey & (t & E)). assert (S : (sp < 2)%nat) by (destruct sp as [|[|sp]]; [lia|lia|destruct a; discriminate]).
    assert (La : (a < 2)%nat) by (destruct sp as [|[|sp]]; [| |lia]; destruct a as [|[|a]]; try lia; cbn in Ex; destruct a; discriminate).
    assert (Lb : (b < 2)%nat) by (destruct sp as [|[|sp]]; [| |lia]; destruct b as [|[|b]]; try lia; cbn in Ey; destruct b; discriminate).
    repeat (split; [assumption|]). split; intros ->; destruct t as [t0 t1 t2].
    - destruct sp as [|[|sp]]; [| |lia]; destruct a as [|[|a]], b as [|[|b]]; try lia; cbn in Ex, Ey; injection Ex as <-; injection Ey as <-; revert E; unfold eOp, half, zid, zdiag; cbn [sg_rot sg_a]; v3u; intros E; injection E as E0 E1 E2; exfalso;
        first [apply (neq_half t0); lra|apply (neq_half (- t0)); rewrite opp_IZR; lra].
    - destruct sp as [|[|sp]]; [| |lia]; destruct a as [|[|a]], b as [|[|b]]; try lia; cbn in Ex, Ey; injection Ex as <-; injection Ey as <-; revert E; unfold iOp, half, zid, zdiag; cbn [sg_rot sg_a]; v3u; intros E; injection E as E0 E1 E2; exfalso;
        first [apply (neq_half t0); lra|apply (neq_half (- t0)); rewrite opp_IZR; lra]. }
  constructor.
  - exact HG.
  - exact (pair_orth half).
  - intros [|[|[|sp]]]; reflexivity.
  - intros [|[|sp]]; [exact HD|exact P1|]. intros a b x y E. destruct a; discriminate.
  - intros [|[|sp]]; [exact HM| |intros a k H; cbn in H; lia]. intros a k Ha Hk. cbn in Ha, Hk. unfold atom_map, acts. destruct a as [|[|]]; try lia; destruct k as [|[|]]; try lia; cbn [nth swap2 nth_error posEx symI]; eexists; eexists; (split; [reflexivity|split; [reflexivity|]]).
    + exists (V 0 0 0)%Z. unfold eOp, zid, zdiag; cbn [sg_rot sg_a]. v3u. f_equal; field.
    + exists (V 0 (-1) 0)%Z. unfold iOp, half, zid, zdiag; cbn [sg_rot sg_a]. v3u. f_equal; field.
    + exists (V 0 0 0)%Z. unfold eOp, zid, zdiag; cbn [sg_rot sg_a]. v3u. f_equal; field.
    + exists (V 0 (-1) 0)%Z. unfold iOp, half, zid, zdiag; cbn [sg_rot sg_a]. v3u. f_equal; field.
  - intros sp a b p Hp M. destruct (MP p sp a b Hp M) as (Hs & Ha & Hb & _). destruct (CQ p Hp) as (s & S & ->).
    assert (E : cons_at csEx sp b = cons_at csEx sp a \/ sp = 1%nat) by (destruct sp as [|[|]]; [left|right; reflexivity|lia]; destruct a as [|[|]], b as [|[|]]; try lia; reflexivity).
    destruct E as [-> | ->].
    + split; [tauto|]. split; [reflexivity|]. intros _. exists s. split; [destruct S; lra|]. destruct (cdir (cons_at csEx sp a)). v3u. destruct S as [-> | ->]; f_equal; ring.
    + destruct a as [|[|]], b as [|[|]]; try lia; (split; [cbn; tauto|split; [reflexivity|intros [X|X]; discriminate]]).
  - intros g p Hp sp a b M. destruct (MP p sp a b Hp M) as (Hs & Ha & Hb & M1 & M2). rewrite !ex_normal. destruct Hp as [<-|[<-|[]]].
    + rewrite (M1 eq_refl). unfold cartesian. rewrite rid_inv, rmm_id_r, rmm_id_l. unfold eOp, zid, zdiag. cbn [sg_rot]. destruct sp as [|[|]]; [| |lia]; destruct a as [|[|]]; try lia; try destruct (ieqb g "g"); v3u; f_equal; ring.
    + rewrite (M2 eq_refl). unfold cartesian. rewrite rid_inv, rmm_id_r, rmm_id_l. unfold iOp, zid, zdiag. cbn [sg_rot]. destruct sp as [|[|]]; [| |lia]; destruct a as [|[|]]; try lia; cbn [Nat.sub]; try destruct (ieqb g "g"); v3u; f_equal; ring.
Qed.
