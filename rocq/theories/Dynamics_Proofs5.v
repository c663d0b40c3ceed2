(** Number of degrees of freedom. *)
From Coq Require Import String ZArith Reals Bool List Lia Lra Psatz.
From Coquelicot Require Import Coquelicot.
From Verif Require Import Base SMap Vec3_Model Vec3_Facts Lattice_Model Coulomb_Proofs Sym_Model Sym_Spec Ions_Model Ions_Spec Ions_Proofs Ions_Proofs2 Ions_Proofs6 Dynamics_Model Dynamics_Spec Dynamics_Proofs Dynamics_Proofs2.
Import ListNotations.
Local Open Scope R_scope.
Set Bullet Behavior "Strict Subproofs".

Definition dims (cs : csys) : Z := fold_left (fun n i => n + Z.of_nat (getDimension (cons_at cs (fst i) (snd i))))%Z (atoms cs) 0%Z.
Lemma dims_total cs : IZR (dims cs) = total cs (fun sp a => INR (getDimension (cons_at cs sp a))).
Proof.
  unfold dims. assert (G : forall l n, IZR (fold_left (fun n i => n + Z.of_nat (getDimension (cons_at cs (fst i) (snd i))))%Z l n) = IZR n + fold_right (fun i acc => INR (getDimension (cons_at cs (fst i) (snd i))) + acc) 0 l).
  { induction l as [|i l IH]; intros n; cbn [fold_left fold_right]; [lra|]. rewrite IH, plus_IZR, <- INR_IZR_INZ. lra. }
  rewrite G. unfold total. lra.
Qed.
Lemma no_planes cs : noPlane cs -> hyperplanes cs = [].
Proof.
  intros H. unfold hyperplanes. assert (G : forall l, incl l (atoms cs) -> fold_left (fun m i => let c := cons_at cs (fst i) (snd i) in match ctyp c with
    | CHyperPlane => fold_left (fun m entry => update (snd entry) gzero (fun D => gset D (fst i) (snd i) (fst entry)) m) (hyperplane c) m | _ => m end) l [] = []).
  { induction l as [|[sp a] l IH]; intros Hl; cbn [fold_left fst snd]; [reflexivity|]. assert (N := H sp a (Hl _ (or_introl eq_refl))). cbv zeta.
    destruct (ctyp (cons_at cs sp a)); try (apply IH; intros i Hi; apply Hl; right; exact Hi). congruence. }
  apply G, incl_refl.
Qed.
Lemma constrain_plain Rl sym am cs ext x : rdet Rl <> 0 -> (length sym <= 1)%nat -> noPlane cs ->
  same cs (constrain Rl sym am cs ext x) (if anyConstrained cs ext then perAtom cs x else zeroMean cs (perAtom cs x)).
Proof.
  intros D L N sp a I. unfold constrain. rewrite symCart_trivial by assumption. unfold applyPlanes. rewrite (no_planes cs N). cbn [map fold_left].
  assert (P : same cs (perAtom cs (symCart Rl sym am x)) (perAtom cs x)) by (intros s b _; unfold perAtom; rewrite symCart_trivial by assumption; reflexivity).
  destruct (anyConstrained cs ext); [apply P, I|]. unfold zeroMean. rewrite (P sp a I). f_equal. f_equal. rewrite !gsumI_net. unfold net. f_equal; apply total_ext; intros s b J; rewrite (P s b J); reflexivity.
Qed.
Lemma unit_self sp a k : unit_at sp a k sp a = match k with O => V 1 0 0 | 1%nat => V 0 1 0 | _ => V 0 0 1 end.
Proof. unfold unit_at. rewrite !Nat.eqb_refl. reflexivity. Qed.
Lemma applyC_trace c : (ctyp c = CLinear \/ ctyp c = CPlanar -> rlen2 (cdir c) <> 0) ->
  c0 (applyC c (V 1 0 0)) + c1 (applyC c (V 0 1 0)) + c2 (applyC c (V 0 0 1)) = INR (getDimension c).
Proof.
  intros H. unfold applyC, getDimension. destruct (isZero (moveScale c)); [cbn; lra|]. destruct (ctyp c).
  - cbn. lra.
  - specialize (H (or_introl eq_refl)). destruct (cdir c) as [x y z]. revert H. v3u. intros H. cbn [INR]. field. exact H.
  - specialize (H (or_intror eq_refl)). destruct (cdir c) as [x y z]. revert H. v3u. intros H. cbn [INR]. field. exact H.
  - cbn. lra.
Qed.
Lemma total_single cs sp a (x : R) : In (sp, a) (atoms cs) -> total cs (fun s b => if Nat.eqb s sp && Nat.eqb b a then x else 0) = x.
Proof.
  unfold total. assert (N := atoms_NoDup cs). induction (atoms cs) as [|[s b] l IH]; [intros []|]. inversion N as [|? ? N1 N2]; subst. cbn [fold_right fst snd].
  intros [E|I].
  - injection E as -> ->. rewrite !Nat.eqb_refl. cbn [andb]. enough (Z : fold_right (fun i acc => (if Nat.eqb (fst i) sp && Nat.eqb (snd i) a then x else 0) + acc) 0 l = 0) by lra.
    clear IH N N2. induction l as [|[s b] l IH]; [reflexivity|]. cbn [fold_right fst snd]. rewrite IH by (intros X; apply N1; right; exact X).
    destruct (Nat.eqb_spec s sp) as [->|]; cbn [andb]; [|lra]. destruct (Nat.eqb_spec b a) as [->|]; [|lra]. exfalso. apply N1. left. reflexivity.
  - rewrite IH by assumption. destruct (Nat.eqb_spec s sp) as [->|]; cbn [andb]; [|lra]. destruct (Nat.eqb_spec b a) as [->|]; [|lra]. contradiction.
Qed.
Lemma dim_le c : (getDimension c <= 3)%nat.
Proof. unfold getDimension. destruct (isZero (moveScale c)), (ctyp c); lia. Qed.
Lemma not_any cs : anyConstrained cs false = false -> unconstrained cs.
Proof.
  unfold anyConstrained. rewrite orb_false_r. intros E sp a H. apply in_atoms in H. destruct H as [H1 H2].
  destruct (existsb _ cs) eqn:F; [discriminate|]. assert (X : forall l, In l cs -> existsb (fun c => Nat.ltb (getDimension c) 3 || ctyp_eqb (ctyp c) CHyperPlane) l = false).
  { intros l Hl. destruct (existsb (fun c => Nat.ltb (getDimension c) 3 || ctyp_eqb (ctyp c) CHyperPlane) l) eqn:G; [|reflexivity]. rewrite <- F. symmetry. apply existsb_exists. exists l. auto. }
  assert (I : In (nth sp cs []) cs) by (apply nth_In; exact H1). specialize (X _ I).
  assert (Y : In (cons_at cs sp a) (nth sp cs [])) by (apply nth_In; exact H2).
  destruct (Nat.ltb (getDimension (cons_at cs sp a)) 3 || ctyp_eqb (ctyp (cons_at cs sp a)) CHyperPlane) eqn:G.
  - assert (existsb (fun c => Nat.ltb (getDimension c) 3 || ctyp_eqb (ctyp c) CHyperPlane) (nth sp cs []) = true) by (apply existsb_exists; eexists; split; [exact Y|exact G]). congruence.
  - apply orb_false_iff in G. destruct G as [G1 G2]. apply Nat.ltb_ge in G1. unfold getDimension in G1. revert G1 G2. unfold isZero. destruct (Req_EM_T (moveScale (cons_at cs sp a)) 0); [intros; lia|]. destruct (ctyp (cons_at cs sp a)); cbn; intros; try lia; try discriminate. auto.
Qed.
Lemma free_dim cs sp a : unconstrained cs -> In (sp, a) (atoms cs) -> getDimension (cons_at cs sp a) = 3%nat.
Proof. intros U I. destruct (U sp a I) as [M T]. unfold getDimension. rewrite T. apply isZero_f in M. rewrite M. reflexivity. Qed.
Lemma total_le_strict cs f : (forall sp a, In (sp, a) (atoms cs) -> f sp a <= 3) -> (exists sp a, In (sp, a) (atoms cs) /\ f sp a < 3) -> total cs f < 3 * INR (length (atoms cs)).
Proof.
  unfold total. induction (atoms cs) as [|[s b] l IH]; intros H (sp & a & I & S); [destruct I|]. cbn [fold_right fst snd length]. rewrite S_INR.
  assert (Hb := H s b (or_introl eq_refl)). assert (Hl : forall sp a, In (sp, a) l -> f sp a <= 3) by (intros; apply H; right; assumption).
  destruct I as [E|I].
  - injection E as -> ->. assert (fold_right (fun i acc => f (fst i) (snd i) + acc) 0 l <= 3 * INR (length l)).
    { clear IH S Hb H. induction l as [|[s b] l IH]; cbn [fold_right fst snd length]; [cbn; lra|]. rewrite S_INR. assert (f s b <= 3) by (apply Hl; left; reflexivity). assert (fold_right (fun i acc => f (fst i) (snd i) + acc) 0 l <= 3 * INR (length l)) by (apply IH; intros; apply Hl; right; assumption). lra. }
    lra.
  - assert (fold_right (fun i acc => f (fst i) (snd i) + acc) 0 l < 3 * INR (length l)) by (apply IH; [exact Hl|exists sp, a; auto]). lra.
Qed.
(** movable: some atom can move *)
Theorem dof_count Rl sym am cs k : rdet Rl <> 0 -> (length sym <= 1)%nat -> parsed cs -> noPlane cs -> (exists sp a, In (sp, a) (atoms cs) /\ moveScale (cons_at cs sp a) <> 0) ->
  nDOFof cs = Some k -> gtrace_of cs (constrain Rl sym am cs false) = IZR k.
Proof.
  intros D L P N (sp0 & a0 & I0 & M0). unfold nDOFof, nDimOf. fold (dims cs).
  assert (Pos : (0 < dims cs)%Z).
  { apply lt_IZR. rewrite dims_total. assert (1 <= INR (getDimension (cons_at cs sp0 a0))).
    { unfold getDimension. apply isZero_f in M0. rewrite M0. destruct (ctyp _); cbn; lra. }
    assert (X : total cs (fun s b => if Nat.eqb s sp0 && Nat.eqb b a0 then INR (getDimension (cons_at cs sp0 a0)) else 0) <= total cs (fun sp a => INR (getDimension (cons_at cs sp a)))).
    { unfold total. induction (atoms cs) as [|[s b] l IH]; cbn [fold_right fst snd]; [lra|]. destruct (Nat.eqb_spec s sp0) as [->|]; cbn [andb]; [destruct (Nat.eqb_spec b a0) as [->|]|].
      all: try assert (Y := pos_INR (getDimension (cons_at cs sp0 b))); try assert (Y' := pos_INR (getDimension (cons_at cs s b))).
      all: match goal with |- _ + ?u <= _ + ?w => assert (u <= w) by (clear -l; induction l as [|[s' b'] l IH]; cbn [fold_right fst snd]; [lra|]; destruct (Nat.eqb_spec s' sp0) as [->|]; cbn [andb]; [destruct (Nat.eqb_spec b' a0) as [->|]|]; try (assert (Z := pos_INR (getDimension (cons_at cs sp0 b')))); try (assert (Z' := pos_INR (getDimension (cons_at cs s' b')))); lra) end; lra. }
    rewrite total_single in X by exact I0. lra. }
  replace (Z.eqb (dims cs) 0) with false by (symmetry; apply Z.eqb_neq; lia).
  set (n := length (atoms cs)). assert (Nn : (0 < n)%nat) by (unfold n; destruct (atoms cs); [destruct I0|cbn; lia]).
  unfold gtrace_of. destruct (anyConstrained cs false) eqn:A.
  - assert (F : Z.eqb (dims cs) (3 * Z.of_nat n) = false).
    { apply Z.eqb_neq. intros E. assert (X : IZR (dims cs) = 3 * INR n) by (rewrite E, mult_IZR, <- INR_IZR_INZ; reflexivity). rewrite dims_total in X.
      assert (Y : total cs (fun sp a => INR (getDimension (cons_at cs sp a))) < 3 * INR n); [|lra]. apply total_le_strict.
      - intros sp a _. replace 3 with (INR 3) by (cbn; lra). apply le_INR, dim_le.
      - unfold anyConstrained in A. rewrite orb_false_r in A. apply existsb_exists in A. destruct A as (l & Hl & A). apply existsb_exists in A. destruct A as (c & Hc & A).
        apply (In_nth _ _ []) in Hl. destruct Hl as (sp & H1 & <-). apply (In_nth _ _ (Constraint 1 (V 0 0 0) CNone [])) in Hc. destruct Hc as (a & H2 & <-).
        assert (I : In (sp, a) (atoms cs)) by (apply in_atoms; split; assumption). exists sp, a. split; [exact I|]. fold (cons_at cs sp a) in A. apply orb_true_iff in A. destruct A as [A|A].
        + apply Nat.ltb_lt in A. replace 3 with (INR 3) by (cbn; lra). apply lt_INR. exact A.
        + exfalso. apply (N sp a I). destruct (ctyp (cons_at cs sp a)); try discriminate. reflexivity. }
    rewrite F. replace (Z.eqb (dims cs) 0) with false by (symmetry; apply Z.eqb_neq; lia). intros E. injection E as <-. rewrite dims_total. apply total_ext. intros sp a I.
    assert (Q : forall k, constrain Rl sym am cs false (unit_at sp a k) sp a = perAtom cs (unit_at sp a k) sp a) by (intros j; rewrite (constrain_plain Rl sym am cs false (unit_at sp a j) D L N sp a I), A; reflexivity).
    rewrite !Q. unfold perAtom. rewrite !unit_self. apply applyC_trace. apply (P sp a I).
  - assert (U := not_any cs A). assert (E3 : dims cs = (3 * Z.of_nat n)%Z).
    { apply eq_IZR. rewrite dims_total, (total_ext cs _ (fun _ _ => 3)), total_const, mult_IZR, <- INR_IZR_INZ; [unfold n; ring|]. intros sp a I. rewrite (free_dim cs sp a U I). cbn. lra. }
    rewrite E3, Z.eqb_refl. destruct (Z.eqb_spec (3 * Z.of_nat n - 3) 0) as [|NZ]; [discriminate|]. intros E. injection E as <-.
    rewrite minus_IZR, mult_IZR, <- INR_IZR_INZ. assert (Np : 0 < INR n) by (apply lt_0_INR; exact Nn).
    rewrite (total_ext cs _ (fun _ _ => 3 * (1 - 1 / INR n))); [rewrite total_const; fold n; field; lra|].
    intros sp a I. assert (PA : forall j, same cs (perAtom cs (unit_at sp a j)) (unit_at sp a j)).
    { intros j s b J. unfold perAtom, applyC. destruct (U s b J) as [M T]. apply isZero_f in M. rewrite M, T. reflexivity. }
    assert (Q : forall j, constrain Rl sym am cs false (unit_at sp a j) sp a = rvscale (1 - 1 / INR n) (unit_at sp a j sp a)).
    { intros j. rewrite (constrain_plain Rl sym am cs false (unit_at sp a j) D L N sp a I), A. unfold zeroMean. rewrite (PA j sp a I), gsumI_net. fold n.
      assert (S : net cs (perAtom cs (unit_at sp a j)) = unit_at sp a j sp a).
      { rewrite unit_self. unfold net. rewrite (total_ext cs _ (fun s b => if Nat.eqb s sp && Nat.eqb b a then c0 (unit_at sp a j sp a) else 0)), (total_ext cs (fun s b => c1 _) (fun s b => if Nat.eqb s sp && Nat.eqb b a then c1 (unit_at sp a j sp a) else 0)), (total_ext cs (fun s b => c2 _) (fun s b => if Nat.eqb s sp && Nat.eqb b a then c2 (unit_at sp a j sp a) else 0)).
        - rewrite !total_single, unit_self by exact I. destruct j as [|[|j]]; reflexivity.
        - intros s b J. rewrite (PA j s b J), unit_self. unfold unit_at. destruct (Nat.eqb s sp && Nat.eqb b a), j as [|[|j]]; reflexivity.
        - intros s b J. rewrite (PA j s b J), unit_self. unfold unit_at. destruct (Nat.eqb s sp && Nat.eqb b a), j as [|[|j]]; reflexivity.
        - intros s b J. rewrite (PA j s b J), unit_self. unfold unit_at. destruct (Nat.eqb s sp && Nat.eqb b a), j as [|[|j]]; reflexivity. }
      rewrite S. generalize (unit_at sp a j sp a). intros [x y z]. v3u. f_equal; ring. }
    rewrite !Q, !unit_self. v3u. ring.
Qed.

(** ** Wrong counts *)
Definition csPlane : csys := [[Constraint 1 (V 0 0 0) CHyperPlane [(V 1 0 0, "g"%string)]]].
Definition csFixed : csys := [[Constraint 0 (V 0 0 0) CNone []; Constraint 0 (V 0 0 0) CNone []]].
Lemma isZero_1 : isZero 1 = false. Proof. unfold isZero. destruct (Req_EM_T 1 0); [lra|reflexivity]. Qed.
Lemma isZero_0 : isZero 0 = true. Proof. unfold isZero. destruct (Req_EM_T 0 0); [reflexivity|lra]. Qed.
Lemma plane_count : parsed csPlane /\ nDOFof csPlane = None /\ exists x, allowed csPlane false x /\ ~ same csPlane x gzero.
Proof.
  assert (A : atoms csPlane = [(0, 0)%nat]) by reflexivity. split; [|split].
  - intros sp a I. rewrite A in I. destruct I as [E|[]]. injection E as <- <-. cbn. split; [intros [X|X]; discriminate|intros _; lra].
  - unfold nDOFof, nDimOf. rewrite A. cbn [fold_left fst snd length]. unfold getDimension. cbn [cons_at csPlane nth moveScale ctyp]. rewrite isZero_1. reflexivity.
  - exists (fun _ _ => V 0 1 0). split.
    + split; [|split].
      * intros sp a I. rewrite A in I. destruct I as [E|[]]. injection E as <- <-. cbn. split; [intros X; exfalso; cbn in X; lra|split; intros _ X; discriminate].
      * intros g _. unfold inner, total. rewrite A. cbn [fold_right fst snd]. unfold normal. cbn [cons_at csPlane nth ctyp hyperplane filter map snd]. destruct (ieqb g "g"); cbn [map fst last]; v3u; ring.
      * intros U. specialize (U 0%nat 0%nat). rewrite A in U. destruct (U (or_introl eq_refl)) as [_ X]. discriminate.
    + intros H. specialize (H 0%nat 0%nat). rewrite A in H. specialize (H (or_introl eq_refl)). unfold gzero in H. injection H as H. lra.
Qed.
Lemma fixed_count : parsed csFixed /\ nDOFof csFixed = Some 1%Z /\ forall x, allowed csFixed false x -> same csFixed x gzero.
Proof.
  assert (A : atoms csFixed = [(0, 0)%nat; (0, 1)%nat]) by reflexivity. split; [|split].
  - intros sp a I. rewrite A in I. destruct I as [E|[E|[]]]; injection E as <- <-; cbn; (split; [intros [X|X]; discriminate|discriminate]).
  - unfold nDOFof, nDimOf. rewrite A. cbn [fold_left fst snd length]. unfold getDimension. cbn [cons_at csFixed nth moveScale ctyp]. rewrite isZero_0. reflexivity.
  - intros x (H & _) sp a I. destruct (H sp a I) as [Z _]. apply Z. rewrite A in I. destruct I as [E|[E|[]]]; injection E as <- <-; reflexivity.
Qed.
Lemma ext_count : unconstrained csPair /\ nDOFof csPair = Some 3%Z /\ gtrace_of csPair (constrain rid [] (fun _ a _ => a) csPair true) = 6.
Proof.
  split; [exact pair_free|]. split.
  - unfold nDOFof, nDimOf. change (atoms csPair) with [(0, 0)%nat; (1, 0)%nat]. cbn [fold_left fst snd length]. unfold getDimension. cbn [cons_at csPair nth free moveScale ctyp]. rewrite isZero_1. reflexivity.
  - assert (D : rdet rid <> 0) by (v3u; lra). unfold gtrace_of. rewrite (total_ext csPair _ (fun _ _ => 3)).
    + rewrite total_const. cbn. lra.
    + intros sp a I. rewrite !(free_constrain rid [] (fun _ a _ => a) csPair true _ D (Nat.le_0_l 1) pair_free sp a I), !unit_self. cbn [c0 c1 c2]. lra.
Qed.
