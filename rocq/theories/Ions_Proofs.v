(** Constraints on ionic displacements. *)
From Coq Require Import String ZArith Reals Bool List Lia Lra Psatz Permutation.
From Verif Require Import Base SMap Vec3_Model Vec3_Facts Lattice_Model Coulomb_Proofs Sym_Model Sym_Spec Ions_Model Ions_Spec.
Import ListNotations.
Local Open Scope R_scope.

(** sums *)
Lemma gdotI_inner cs x y : gdotI cs x y = inner cs x y.
Proof.
  unfold gdotI, inner, total. assert (G : forall l a, fold_left (fun r i => r + rdot (x (fst i) (snd i)) (y (fst i) (snd i))) l a = a + fold_right (fun i acc => rdot (x (fst i) (snd i)) (y (fst i) (snd i)) + acc) 0 l).
  { induction l as [|i l IH]; intros a; cbn [fold_left fold_right]; [lra|]. rewrite IH. lra. }
  rewrite G. lra.
Qed.
Lemma gsumI_net cs x : gsumI cs x = net cs x.
Proof.
  unfold gsumI, net, total. assert (G : forall l a, fold_left (fun s i => rvadd s (x (fst i) (snd i))) l a = rvadd a
    (V (fold_right (fun i acc => c0 (x (fst i) (snd i)) + acc) 0 l) (fold_right (fun i acc => c1 (x (fst i) (snd i)) + acc) 0 l) (fold_right (fun i acc => c2 (x (fst i) (snd i)) + acc) 0 l))).
  { induction l as [|i l IH]; intros [p q r]; cbn [fold_left fold_right]; [v3u; f_equal; ring|]. rewrite IH. destruct (x (fst i) (snd i)) as [u v w]. cbn [c0 c1 c2]. v3u. f_equal; ring. }
  rewrite G. v3u. f_equal; ring.
Qed.
Lemma total_ext cs f g : (forall sp a, In (sp, a) (atoms cs) -> f sp a = g sp a) -> total cs f = total cs g.
Proof.
  unfold total. induction (atoms cs) as [|[sp a] l IH]; intros H; [reflexivity|]. cbn [fold_right fst snd]. rewrite IH, (H sp a); [reflexivity|left; reflexivity|]. intros sp' a' H'. apply H. right. exact H'.
Qed.
Lemma total_plus cs f g : total cs (fun sp a => f sp a + g sp a) = total cs f + total cs g.
Proof. unfold total. induction (atoms cs) as [|i l IH]; cbn [fold_right]; [lra|]. rewrite IH. lra. Qed.
Lemma total_scale cs k f : total cs (fun sp a => k * f sp a) = k * total cs f.
Proof. unfold total. induction (atoms cs) as [|i l IH]; cbn [fold_right]; [lra|]. rewrite IH. lra. Qed.
Lemma total_const cs k : total cs (fun _ _ => k) = INR (length (atoms cs)) * k.
Proof. unfold total. induction (atoms cs) as [|i l IH]; [cbn; lra|]. cbn [fold_right List.length]. rewrite IH, S_INR. lra. Qed.
Lemma total_nonneg cs f : (forall sp a, 0 <= f sp a) -> 0 <= total cs f.
Proof. intros H. unfold total. induction (atoms cs) as [|i l IH]; cbn [fold_right]; [lra|]. specialize (H (fst i) (snd i)). lra. Qed.
Lemma inner_ext cs x x' y y' : same cs x x' -> same cs y y' -> inner cs x y = inner cs x' y'.
Proof. intros A B. unfold inner. apply total_ext. intros sp a H. rewrite (A sp a H), (B sp a H). reflexivity. Qed.
Lemma inner_comm cs x y : inner cs x y = inner cs y x.
Proof. unfold inner. apply total_ext. intros sp a _. destruct (x sp a), (y sp a). v3u. ring. Qed.
Lemma inner_axpy cs k x y z : inner cs z (gaxpy k x y) = inner cs z y + k * inner cs z x.
Proof.
  unfold inner. rewrite <- total_scale, <- total_plus. apply total_ext. intros sp a _. unfold gaxpy. destruct (x sp a), (y sp a), (z sp a). v3u. ring.
Qed.
Lemma inner_scale cs k x z : inner cs z (gscaleI k x) = k * inner cs z x.
Proof. unfold inner. rewrite <- total_scale. apply total_ext. intros sp a _. unfold gscaleI. destruct (x sp a), (z sp a). v3u. ring. Qed.
Definition gsub (x y : grad) : grad := gaxpy (-1) y x.
Lemma inner_sub cs z x y : inner cs z (gsub x y) = inner cs z x - inner cs z y.
Proof. unfold gsub. rewrite inner_axpy. lra. Qed.
Lemma same_refl cs x : same cs x x. Proof. intros sp a _. reflexivity. Qed.
Lemma same_sym cs x y : same cs x y -> same cs y x. Proof. intros H sp a Ha. symmetry. apply H, Ha. Qed.
Lemma same_trans cs x y z : same cs x y -> same cs y z -> same cs x z.
Proof. intros A B sp a Ha. rewrite (A sp a Ha). apply B, Ha. Qed.
Lemma in_atoms cs sp a : In (sp, a) (atoms cs) <-> (sp < nSpecies cs)%nat /\ (a < nAtoms cs sp)%nat.
Proof.
  unfold atoms. rewrite in_flat_map. split.
  - intros (s & Hs & Ha). apply in_seq in Hs. apply in_map_iff in Ha. destruct Ha as (b & E & Hb). injection E as -> ->. apply in_seq in Hb. lia.
  - intros [A B]. exists sp. split; [apply in_seq; lia|]. apply in_map_iff. exists a. split; [reflexivity|apply in_seq; lia].
Qed.
Lemma atoms_NoDup cs : NoDup (atoms cs).
Proof.
  unfold atoms. assert (G : forall l, NoDup l -> NoDup (flat_map (fun sp => map (fun a => (sp, a)) (seq 0 (nAtoms cs sp))) l)).
  { induction 1 as [|sp l N _ IH]; [constructor|]. cbn [flat_map]. apply NoDup_app_intro.
    - apply FinFun.Injective_map_NoDup; [intros a b E; congruence|apply seq_NoDup].
    - exact IH.
    - intros [s a] H1 H2. apply in_map_iff in H1. destruct H1 as (b & E & _). injection E as <- <-. apply in_flat_map in H2. destruct H2 as (s & Hs & Ha). apply in_map_iff in Ha. destruct Ha as (b' & E & _). injection E as -> _. contradiction. }
  apply G, seq_NoDup.
Qed.

(** one atom *)
Lemma isZero_t x : isZero x = true <-> x = 0.
Proof. unfold isZero. destruct (Req_EM_T x 0); split; congruence. Qed.
Lemma isZero_f x : isZero x = false <-> x <> 0.
Proof. unfold isZero. destruct (Req_EM_T x 0); split; congruence. Qed.
Definition dir_ok (c : constraint) : Prop := ctyp c = CLinear \/ ctyp c = CPlanar -> rlen2 (cdir c) <> 0.
Lemma applyC_ok c v : dir_ok c -> atom_ok c (applyC c v).
Proof.
  intros D. unfold atom_ok, applyC. destruct (isZero (moveScale c)) eqn:Z; [apply isZero_t in Z|apply isZero_f in Z]; (split; [|split]); try tauto; intros M T; rewrite ?T.
  - exists (/ rlen2 (cdir c) * rdot v (cdir c)). destruct (cdir c), v. v3u. f_equal; ring.
  - specialize (D (or_intror T)). destruct (cdir c) as [p q r], v as [x y z]. revert D. v3u. intros D. field. exact D.
Qed.
Lemma applyC_fix c v : dir_ok c -> atom_ok c v -> applyC c v = v.
Proof.
  intros D (A & B & E). unfold applyC. destruct (isZero (moveScale c)) eqn:Z; [apply isZero_t in Z; rewrite A by exact Z; reflexivity|]. apply isZero_f in Z.
  destruct (ctyp c) eqn:T; try reflexivity.
  - destruct (B Z eq_refl) as (t & ->). specialize (D (or_introl T)). destruct (cdir c) as [p q r]. revert D. v3u. intros D. f_equal; field; exact D.
  - rewrite (E Z eq_refl). destruct (cdir c) as [p q r], v as [x y z]. v3u. f_equal; ring.
Qed.
Lemma applyC_orth c v w : dir_ok c -> atom_ok c w -> rdot (rvsub v (applyC c v)) w = 0.
Proof.
  intros D (A & B & E). unfold applyC. destruct (isZero (moveScale c)) eqn:Z; [apply isZero_t in Z; rewrite A by exact Z; generalize v; intros [x y z]; v3u; ring|]. apply isZero_f in Z.
  destruct (ctyp c) eqn:T.
  - destruct v, w. v3u. ring.
  - destruct (B Z eq_refl) as (t & ->). specialize (D (or_introl T)). destruct (cdir c) as [p q r], v as [x y z]. revert D. v3u. intros D. field. exact D.
  - specialize (E Z eq_refl). destruct (cdir c) as [p q r], v as [x y z], w as [f g h]. revert E. v3u. intros E.
    transitivity (/ (p * p + q * q + r * r) * (x * p + y * q + z * r) * (f * p + g * q + h * r)); [ring|rewrite E; ring].
  - destruct v, w. v3u. ring.
Qed.

(** hyperplanes *)
Definition entries (cs : csys) : list (nat * nat * (vec R * string)) :=
  flat_map (fun i => match ctyp (cons_at cs (fst i) (snd i)) with CHyperPlane => map (pair i) (hyperplane (cons_at cs (fst i) (snd i))) | _ => [] end) (atoms cs).
Definition put (m : @smap grad) (e : nat * nat * (vec R * string)) : @smap grad :=
  update (snd (snd e)) gzero (fun D => gset D (fst (fst e)) (snd (fst e)) (fst (snd e))) m.
Lemma hyperplanes_entries cs : hyperplanes cs = fold_left put (entries cs) [].
Proof.
  unfold hyperplanes, entries. generalize (@nil (string * grad)) as m. induction (atoms cs) as [|i l IH]; intros m; [reflexivity|]. cbn [fold_left flat_map]. rewrite fold_left_app, IH. f_equal.
  destruct (ctyp (cons_at cs (fst i) (snd i))); try reflexivity. clear IH. generalize m. induction (hyperplane (cons_at cs (fst i) (snd i))) as [|e h IH']; intros m'; [reflexivity|]. cbn [fold_left map]. rewrite IH'. reflexivity.
Qed.
Definition nfold (g : string) (E : list (nat * nat * (vec R * string))) (D : grad) : grad :=
  fold_left (fun D e => if ieqb g (snd (snd e)) then gset D (fst (fst e)) (snd (fst e)) (fst (snd e)) else D) E D.
Definition val (o : option grad) : grad := match o with Some D => D | None => gzero end.
Lemma find_put g m e : sorted m -> val (find g (put m e)) = (if ieqb g (snd (snd e)) then gset (val (find g m)) (fst (fst e)) (snd (fst e)) (fst (snd e)) else val (find g m)).
Proof.
  intros S. unfold put. destruct (ieqb_spec g (snd (snd e))) as [I|I].
  - rewrite (find_ieq g (snd (snd e))) by exact I. rewrite find_update_same by exact S. cbn [val]. rewrite (find_ieq g (snd (snd e)) m) by exact I. reflexivity.
  - rewrite find_update_other by (auto; intros Q; apply I; symmetry; exact Q). reflexivity.
Qed.
Lemma find_puts g : forall E m, sorted m -> sorted (fold_left put E m) /\ val (find g (fold_left put E m)) = nfold g E (val (find g m)).
Proof.
  induction E as [|e E IH]; intros m S; [split; [exact S|reflexivity]|]. cbn [fold_left nfold]. destruct (IH (put m e)) as [A B]; [apply update_sorted; exact S|]. split; [exact A|].
  rewrite B, find_put by exact S. reflexivity.
Qed.
Definition at_g (g : string) (sp a : nat) (e : nat * nat * (vec R * string)) : bool := Nat.eqb sp (fst (fst e)) && Nat.eqb a (snd (fst e)) && ieqb g (snd (snd e)).
Lemma last_cons_d {A} (x : A) l d d' : last (x :: l) d = last (x :: l) d'.
Proof. revert x. induction l as [|y l IH]; intros x; [reflexivity|]. cbn [last] in *. apply IH. Qed.
Lemma last_cons {A} (x : A) l d : last (x :: l) d = last l x.
Proof. destruct l as [|y l]; [reflexivity|]. cbn [last]. apply (last_cons_d y l d x). Qed.
Lemma nfold_last g sp a : forall E D, nfold g E D sp a = last (map (fun e => fst (snd e)) (filter (at_g g sp a) E)) (D sp a).
Proof.
  induction E as [|e E IH]; intros D; [reflexivity|]. change (nfold g (e :: E) D) with (nfold g E (if ieqb g (snd (snd e)) then gset D (fst (fst e)) (snd (fst e)) (fst (snd e)) else D)). rewrite IH. cbn [filter]. unfold at_g at 2. destruct (ieqb g (snd (snd e))).
  - unfold gset. destruct (Nat.eqb sp (fst (fst e)) && Nat.eqb a (snd (fst e))); cbn [andb]; [|reflexivity]. cbn [map]. rewrite last_cons. reflexivity.
  - rewrite andb_false_r. reflexivity.
Qed.
Lemma filter_entries cs g sp a : forall l, NoDup l -> filter (at_g g sp a) (flat_map (fun i => match ctyp (cons_at cs (fst i) (snd i)) with CHyperPlane => map (pair i) (hyperplane (cons_at cs (fst i) (snd i))) | _ => [] end) l) =
  if in_dec (fun x y : nat * nat => ltac:(decide equality; apply Nat.eq_dec)) (sp, a) l then
    match ctyp (cons_at cs sp a) with CHyperPlane => map (pair (sp, a)) (filter (fun e => ieqb g (snd e)) (hyperplane (cons_at cs sp a))) | _ => [] end
  else [].
Proof.
  assert (F1 : forall i h, i <> (sp, a) -> filter (at_g g sp a) (map (pair i) h) = []).
  { intros i h N. induction h as [|e h IH]; [reflexivity|]. cbn [map filter]. unfold at_g at 1. cbn [fst snd]. destruct (Nat.eqb_spec sp (fst i)) as [E1|E1]; cbn [andb]; [|exact IH].
    destruct (Nat.eqb_spec a (snd i)) as [E2|E2]; cbn [andb]; [|exact IH]. exfalso. apply N. destruct i. cbn in *. congruence. }
  assert (F2 : forall h, filter (at_g g sp a) (map (pair (sp, a)) h) = map (pair (sp, a)) (filter (fun e => ieqb g (snd e)) h)).
  { induction h as [|e h IH]; [reflexivity|]. cbn [map filter]. unfold at_g at 1. cbn [fst snd]. rewrite !Nat.eqb_refl. cbn [andb]. destruct (ieqb g (snd e)); cbn [map]; rewrite IH; reflexivity. }
  induction l as [|i l IH]; intros N; [reflexivity|]. inversion N as [|? ? Ni Nl]; subst. cbn [flat_map]. rewrite filter_app, (IH Nl).
  match goal with |- _ = (if ?d then _ else _) => destruct d as [Hin|Hin] end; match goal with |- (_ ++ (if ?d then _ else _))%list = _ => destruct d as [Hl|Hl] end.
  - assert (Q : i <> (sp, a)) by congruence. replace (filter _ _) with (@nil (nat * nat * (vec R * string))); [reflexivity|]. symmetry. destruct (ctyp (cons_at cs (fst i) (snd i))); try reflexivity. apply F1, Q.
  - destruct Hin as [->|Hin]; [|contradiction]. cbn [fst snd]. rewrite app_nil_r. destruct (ctyp (cons_at cs sp a)); try reflexivity. apply F2.
  - exfalso. apply Hin. right. exact Hl.
  - rewrite app_nil_r. destruct (ctyp (cons_at cs (fst i) (snd i))); try reflexivity. apply F1. intros E. apply Hin. left. exact E.
Qed.
Lemma nfold_normal cs g : same cs (nfold g (entries cs) gzero) (normal cs g).
Proof.
  intros sp a H. rewrite nfold_last. unfold entries. rewrite filter_entries by apply atoms_NoDup. destruct (in_dec _ _ _) as [_|N]; [|contradiction].
  unfold normal. destruct (ctyp (cons_at cs sp a)); try reflexivity. rewrite map_map. cbn [snd]. reflexivity.
Qed.
Lemma planes_sorted cs : sorted (hyperplanes cs).
Proof. rewrite hyperplanes_entries. apply (find_puts ""). constructor. Qed.
Lemma planes_normal cs k D : In (k, D) (hyperplanes cs) -> same cs D (normal cs k).
Proof.
  intros H. assert (S := planes_sorted cs). apply in_find in H; [|exact S]. rewrite hyperplanes_entries in *. destruct (find_puts k (entries cs) []) as [_ B]; [constructor|]. rewrite H in B. cbn [val find] in B. subst D. apply nfold_normal.
Qed.
Lemma ieq_ieqb g g' s : ieq g g' -> ieqb g s = ieqb g' s.
Proof. unfold ieq, ieqb. intros ->. reflexivity. Qed.
Lemma normal_ieq cs g g' : ieq g g' -> forall sp a, normal cs g sp a = normal cs g' sp a.
Proof. intros I sp a. unfold normal. destruct (ctyp (cons_at cs sp a)); try reflexivity. do 2 f_equal. apply filter_ext. intros e. apply ieq_ieqb, I. Qed.
Lemma inner_zero_l cs x : inner cs gzero x = 0.
Proof. unfold inner. rewrite (total_ext cs _ (fun _ _ => 0)), total_const; [ring|]. intros sp a _. unfold gzero. destruct (x sp a). v3u. ring. Qed.
Lemma plane_present cs g : active cs g -> exists k D, ieq g k /\ In (k, D) (hyperplanes cs).
Proof.
  intros A. destruct (find g (hyperplanes cs)) as [D|] eqn:F.
  - apply SMap.find_in in F. destruct F as (k & I & H). exists k, D. auto.
  - exfalso. rewrite hyperplanes_entries in F. destruct (find_puts g (entries cs) []) as [_ B]; [constructor|]. rewrite F in B. cbn [val find] in B. unfold active in A.
    rewrite <- (inner_ext cs gzero _ gzero _) in A; [|rewrite B; apply nfold_normal|rewrite B; apply nfold_normal]. rewrite inner_zero_l in A. lra.
Qed.
(** one hyperplane *)
Lemma applyPlane_inner cs x D y : inner cs y (applyPlane cs x D) = (if Rlt_dec thresholdD (inner cs D D) then inner cs y x - inner cs D x / inner cs D D * inner cs y D else inner cs y x).
Proof.
  unfold applyPlane. rewrite !gdotI_inner. cbv zeta. destruct (Rlt_dec thresholdD (inner cs D D)); [|reflexivity]. rewrite inner_axpy, inner_scale. unfold Rdiv. ring.
Qed.
Lemma applyPlane_fix cs x D : (thresholdD < inner cs D D -> inner cs D x = 0) -> same cs (applyPlane cs x D) x.
Proof.
  intros H sp a _. unfold applyPlane. rewrite !gdotI_inner. cbv zeta. destruct (Rlt_dec thresholdD (inner cs D D)) as [L|L]; [|reflexivity]. rewrite (H L). unfold gaxpy, gscaleI.
  replace (- 0 / inner cs D D) with 0 by (unfold Rdiv; ring). destruct (x sp a), (D sp a). v3u. f_equal; ring.
Qed.
Lemma applyPlane_ext cs x x' D D' : same cs x x' -> same cs D D' -> same cs (applyPlane cs x D) (applyPlane cs x' D').
Proof.
  intros H H' sp a Ha. unfold applyPlane. rewrite !gdotI_inner. cbv zeta. rewrite (inner_ext cs D D' D D') by assumption. rewrite (inner_ext cs D D' x x') by assumption.
  destruct (Rlt_dec _ _); [|apply H, Ha]. unfold gaxpy, gscaleI. rewrite (H sp a Ha), (H' sp a Ha). reflexivity.
Qed.
Definition goodPlanes (cs : csys) (m : @smap grad) : Prop := sorted m /\ forall k D, In (k, D) m -> same cs D (normal cs k).
Definition planesFrom (cs : csys) (m : @smap grad) (x : grad) : grad := fold_left (applyPlane cs) (map snd m) x.
Lemma planes_keep cs y : forall m x, (forall k D, In (k, D) m -> thresholdD < inner cs D D -> inner cs y D = 0) -> inner cs y (planesFrom cs m x) = inner cs y x.
Proof.
  induction m as [|[k D] m IH]; intros x H; [reflexivity|]. unfold planesFrom in *. cbn [map fold_left snd]. rewrite IH by (intros; eapply H; [right; eassumption|assumption]).
  rewrite applyPlane_inner. destruct (Rlt_dec thresholdD (inner cs D D)) as [L|L]; [|reflexivity]. rewrite (H k D (or_introl eq_refl) L). ring.
Qed.
Lemma planes_remove cs : orthogonal_planes cs -> forall m, goodPlanes cs m -> forall x k D, In (k, D) m -> thresholdD < inner cs D D -> inner cs D (planesFrom cs m x) = 0.
Proof.
  intros O. induction m as [|[k0 D0] m IH]; intros [S G] x k D H L; [destruct H|]. unfold planesFrom. cbn [map fold_left snd]. fold (planesFrom cs m (applyPlane cs x D0)).
  apply sorted_head in S. destruct S as [S0 S]. destruct H as [E|H].
  - injection E as -> ->. rewrite planes_keep.
    + rewrite applyPlane_inner. destruct (Rlt_dec thresholdD (inner cs D D)); [|contradiction]. field. unfold thresholdD in L. lra.
    + intros k' D' H' _. rewrite (inner_ext cs D (normal cs k) D' (normal cs k')); [|apply G; left; reflexivity|apply G; right; exact H']. apply O. apply slt_ieq, S0. apply in_map_iff. exists (k', D'). auto.
  - apply (IH (conj S (fun k D H => G k D (or_intror H))) _ k D); assumption.
Qed.
Lemma planes_fix cs : forall m x, (forall k D, In (k, D) m -> thresholdD < inner cs D D -> inner cs D x = 0) -> same cs (planesFrom cs m x) x.
Proof.
  induction m as [|[k D] m IH]; intros x H; [apply same_refl|]. unfold planesFrom in *. cbn [map fold_left snd].
  assert (F : same cs (applyPlane cs x D) x) by (apply applyPlane_fix; apply (H k D); left; reflexivity).
  eapply same_trans; [apply IH|exact F]. intros k' D' H' L'. rewrite (inner_ext cs D' D' _ x); [apply (H k' D'); [right; exact H'|exact L']|apply same_refl|exact F].
Qed.
Lemma planes_at cs sp a : In (sp, a) (atoms cs) -> ctyp (cons_at cs sp a) <> CHyperPlane -> forall m, goodPlanes cs m -> forall x, planesFrom cs m x sp a = x sp a.
Proof.
  intros Ha N. induction m as [|[k D] m IH]; intros [S G] x; [reflexivity|]. unfold planesFrom in *. cbn [map fold_left snd]. apply sorted_head in S. rewrite IH by (split; [tauto|intros; apply G; right; assumption]).
  unfold applyPlane. cbv zeta. destruct (Rlt_dec _ _); [|reflexivity]. unfold gaxpy, gscaleI. rewrite (G k D (or_introl eq_refl) sp a Ha). unfold normal.
  replace (match ctyp (cons_at cs sp a) with CHyperPlane => _ | _ => V 0 0 0 end) with (V 0 0 0) by (destruct (ctyp (cons_at cs sp a)); congruence). destruct (x sp a). v3u. f_equal; ring.
Qed.
(** the mean *)
Lemma net_zeroMean cs x : net cs (zeroMean cs x) = V 0 0 0.
Proof.
  unfold zeroMean. rewrite gsumI_net. set (n := net cs x). assert (E0 : c0 n = total cs (fun sp a => c0 (x sp a))) by reflexivity. assert (E1 : c1 n = total cs (fun sp a => c1 (x sp a))) by reflexivity. assert (E2 : c2 n = total cs (fun sp a => c2 (x sp a))) by reflexivity.
  assert (G : forall (pr : vec R -> R), (forall u v, pr (rvsub u v) = pr u - pr v) -> (forall s v, pr (rvscale s v) = s * pr v) -> pr n = total cs (fun sp a => pr (x sp a)) ->
     total cs (fun sp a => pr (rvsub (x sp a) (rvscale (1 / INR (length (atoms cs))) n))) = 0).
  { intros pr H1 H2 H3. rewrite (total_ext cs _ (fun sp a => pr (x sp a) + - (1 / INR (length (atoms cs)) * pr n))) by (intros; rewrite H1, H2; ring). rewrite total_plus, total_const, <- H3.
    destruct (atoms cs) as [|i l] eqn:Ea; [cbn [List.length]; rewrite H3; unfold total; rewrite Ea; cbn; ring|]. field. apply not_0_INR. discriminate. }
  unfold net. f_equal; apply G; try assumption; intros; repeat match goal with v : vec R |- _ => destruct v end; v3u; ring.
Qed.
