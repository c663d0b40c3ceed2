(** The statements of C35 in the form of the property file. *)
From Coq Require Import ZArith Reals List Bool Lia Lra Permutation.
From Coquelicot Require Import Complex.
From Verif Require Import Base Grid_Model Grid_Spec Vec3_Model Vec3_Facts IntUtil_Model Sym_Model Sym_Spec Sym_Proofs Sym_Proofs2 Sym_Proofs5 Sym_Proofs6 Sym_Proofs7 Sym_Proofs8 Sym_Proofs9.
Import ListNotations.
Open Scope R_scope.

Lemma wsum_fold {W} (z : W) f l : wsum W z f l = fold_right f z l.
Proof. reflexivity. Qed.
Lemma scalar_prop S sym : pos3 S -> mesh_group S sym -> exists cls, initSymmIndex S sym = Some cls /\ forall x, let y := symmetrizeTilde sym cls x in
  (forall p, In p sym -> invariant S p y) /\
  ((forall p, In p sym -> invariant S p x) -> forall i, (0 <= i < nr S)%Z -> y i = x i) /\
  y 0%Z = x 0%Z /\
  (forall u, expansion S y (mesh_point S u) = Cmult (RtoC (/ INR (length sym))) (total_c (map (fun p => expansion S x (image S p u)) sym))).
Proof.
  intros HS [HG HF HR]. exact (scalar_sym S sym HS HG HF HR).
Qed.
Lemma total_pred (P : C -> Prop) l : P (RtoC 0) -> (forall a b, P a -> P b -> P (Cplus a b)) -> List.Forall P l -> P (total_c l).
Proof. intros H0 Ha. induction 1 as [|a l Hp _ IH]; [exact H0|exact (Ha _ _ Hp IH)]. Qed.
Lemma preserve_prop S sym cls x : pos3 S -> mesh_group S sym -> initSymmIndex S sym = Some cls -> let y := symmetrizeTilde sym cls x in
  ((forall u, snd (expansion S x (mesh_point S u)) = 0) -> forall u, snd (expansion S y (mesh_point S u)) = 0) /\
  (forall lo hi, (forall u, lo <= fst (expansion S x (mesh_point S u)) <= hi) -> forall u, lo <= fst (expansion S y (mesh_point S u)) <= hi) /\
  (forall i, (0 <= i < nr S)%Z -> symmetrizeTilde sym cls y i = y i).
Proof.
  intros HS MG E y. destruct (scalar_prop S sym HS MG) as (cls'&E'&H). assert (cls' = cls) by congruence. subst cls'.
  destruct (H x) as (A&B&C0&D). fold y in A, B, C0, D. pose proof MG as [HG HF HR].
  assert (Hn : (0 < length sym)%nat) by (destruct (gr_neutral _ HG) as (e&He&_); destruct sym; [destruct He|cbn; lia]). assert (Hi : 0 < INR (length sym)) by (apply lt_0_INR; auto).
  refine (conj _ (conj _ _)).
  - intros R u. rewrite D. assert (X : snd (total_c (map (fun p => expansion S x (image S p u)) sym)) = 0).
    { apply total_pred. - reflexivity. - intros a b Ha Hb. cbn. lra. - rewrite Forall_map, Forall_forall. intros p Hp. destruct (op_mesh S p u HS (HF p Hp)) as (u'&Eu). unfold image. rewrite Eu. apply R. }
    cbn. rewrite X. ring.
  - intros lo hi R u. rewrite D.
    assert (X : forall l, incl l sym -> INR (length l) * lo <= fst (total_c (map (fun p => expansion S x (image S p u)) l)) <= INR (length l) * hi).
    { induction l as [|p l IH]; intros Hl. - cbn. lra. - cbn [map total_c fold_right length]. rewrite S_INR. fold (total_c (map (fun p => expansion S x (image S p u)) l)). destruct IH as (I1&I2); [intros q Hq; apply Hl; right; auto|].
      destruct (op_mesh S p u HS (HF p (Hl p (or_introl eq_refl)))) as (u'&Eu). unfold image at 1 3. rewrite Eu. pose proof (R u'). cbn [Cplus fst]. lra. }
    destruct (X sym (fun q h => h)) as (X1&X2). cbn [Cmult fst snd RtoC]. set (s := fst _) in *. split.
    + apply (Rmult_le_reg_l (INR (length sym))); auto. replace (INR (length sym) * (/ INR (length sym) * s - 0 * snd (total_c (map (fun p => expansion S x (image S p u)) sym)))) with s by (field; lra). auto.
    + apply (Rmult_le_reg_l (INR (length sym))); auto. replace (INR (length sym) * (/ INR (length sym) * s - 0 * snd (total_c (map (fun p => expansion S x (image S p u)) sym)))) with s by (field; lra). auto.
  - intros i Hi'. destruct (H y) as (_&B'&_). apply B'; auto.
Qed.
Lemma spin_prop S sym Rl : pos3 S -> mesh_group S sym -> rdet Rl <> 0 -> (forall p, In p sym -> orthogonal (cartesian Rl p)) ->
  exists cls, initSymmIndex S sym = Some cls /\ forall x, let y := symmetrizeSpin Rl sym cls x in
  (forall p, In p sym -> spin_invariant S Rl p y) /\
  ((forall p, In p sym -> spin_invariant S Rl p x) -> forall i, (0 <= i < nr S)%Z -> y i = x i) /\
  density4 (y 0%Z) = density4 (x 0%Z).
Proof. intros HS [HG HF HR] HL HO. apply spin_sym; auto. Qed.
Lemma forces_prop sym pos atomMap f : space_group sym -> distinct_positions pos ->
  (forall a k, (a < length pos)%nat -> (k < length sym)%nat -> atom_map pos (nth k sym (SGO zid (V 0 0 0))) a (atomMap a k)) ->
  let f' := symmetrizeForces sym atomMap f in
  (forall p, In p sym -> forces_invariant pos p f') /\
  ((forall p, In p sym -> forces_invariant pos p f) -> forall a, (a < length pos)%nat -> f' a = f a) /\
  total_force pos f' = rvscale (/ INR (length sym)) (total_v (map (fun p => rmv (mtrans (mIZR (sg_rot p))) (total_force pos f)) sym)).
Proof. intros HG HD HM. unfold total_v. rewrite <- wsum_fold. apply (forces_sym sym pos atomMap HG HD HM). Qed.
Lemma forces_zero sym pos atomMap f : space_group sym -> distinct_positions pos ->
  (forall a k, (a < length pos)%nat -> (k < length sym)%nat -> atom_map pos (nth k sym (SGO zid (V 0 0 0))) a (atomMap a k)) ->
  (forall p, In p sym -> rmv (mtrans (mIZR (sg_rot p))) (total_force pos f) = total_force pos f) ->
  total_force pos (symmetrizeForces sym atomMap f) = total_force pos f.
Proof.
  intros HG HD HM H. destruct (forces_prop sym pos atomMap f HG HD HM) as (_&_&->).
  assert (Hn : (0 < length sym)%nat) by (destruct (gr_neutral _ HG) as (e&He&_); destruct sym; [destruct He|cbn; lia]). assert (Hi : INR (length sym) <> 0) by (apply not_0_INR; lia).
  set (t := total_force pos f) in *.
  assert (X : forall l, incl l sym -> total_v (map (fun p => rmv (mtrans (mIZR (sg_rot p))) t) l) = rvscale (INR (length l)) t).
  { induction l as [|p l IH]; intros Hl. - cbn. destruct t. v3_unfold. f_equal; ring. - cbn [map total_v fold_right length]. rewrite S_INR. fold (total_v (map (fun p => rmv (mtrans (mIZR (sg_rot p))) t) l)).
    rewrite IH by (intros q Hq; apply Hl; right; auto). rewrite H by (apply Hl; left; auto). destruct t. v3_unfold. f_equal; ring. }
  rewrite X by (intros q h; exact h). destruct t. v3_unfold. f_equal; field; auto.
Qed.
