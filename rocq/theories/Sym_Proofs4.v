(** Scalar and spin instances of the averaging (C35). *)
From Coq Require Import ZArith Reals List Bool Lia Lra Permutation FunctionalExtensionality.
From Coquelicot Require Import Complex.
From Verif Require Import Base Grid_Model Grid_Spec Grid_Proofs Vec3_Model Vec3_Facts IntUtil_Model IntUtil_Proofs Sym_Model Sym_Spec Sym_Proofs Sym_Proofs2 Sym_Proofs3.
Import ListNotations.
Open Scope R_scope.

Lemma fold_ext {A X} (f g : X -> A -> X) l : (forall x a, f x a = g x a) -> forall x, fold_left f l x = fold_left g l x.
Proof. intros H. induction l; cbn; auto. intros. rewrite H. auto. Qed.
Lemma csum_wsum {T} (f : T -> C) l : csum f l = wsum C (RtoC 0) Cplus (map f l).
Proof.
  unfold csum. assert (G : forall a, fold_left (fun acc t => Cplus acc (f t)) l a = Cplus a (wsum C (RtoC 0) Cplus (map f l))).
  { induction l; cbn; intros b. - ring. - rewrite IHl. ring. }
  rewrite G. ring.
Qed.
Lemma count_range (l : list SpaceGroupOp) S i : INR (cnt SpaceGroupOp l (act S) i i) = IZR (Z.of_nat (cnt SpaceGroupOp l (act S) i i)).
Proof. apply INR_IZR_INZ. Qed.

Section Scalar.
Variables (S : V3) (sym : list SpaceGroupOp).
Hypothesis HS : pos3 S.
Hypothesis HG : space_group sym.
Hypothesis HF : forall p, In p sym -> fits_mesh S p.
Hypothesis HR : small_mesh S sym.
Definition idrot (p : SpaceGroupOp) (w : C) := w.
Definition avgC := avgW S sym C (RtoC 0) Cplus Csc idrot Cmult.
Lemma step_calc i x : symmetrize_phase_calc (classOf S sym i) x =
  classStep C (RtoC 0) Cplus Csc SpaceGroupOp sym (act S) (LW S C idrot Cmult) (LiW S C idrot Cmult) i (INR (cnt SpaceGroupOp sym (act S) i i)) x.
Proof.
  unfold symmetrize_phase_calc, classStep, scatter, clear, classOf, orbitOf. cbn [cl_index cl_phase cl_mult]. rewrite combine_map, !fold_left_map, map_length. cbn [fst snd].
  assert (E : Cmult (csum (fun ip => Cmult (x (fst ip)) (snd ip)) (map (fun a => (act S i a, phase (gp S i) a)) sym)) (RtoC (1 / IZR (Z.of_nat (length sym) * Z.of_nat (cnt SpaceGroupOp sym (act S) i i)))) =
    Csc (/ (n SpaceGroupOp sym * INR (cnt SpaceGroupOp sym (act S) i i))) (wsum C (RtoC 0) Cplus (map (fun r => LW S C idrot Cmult i r (x (act S i r))) sym))).
  { rewrite csum_wsum, map_map. cbn [fst snd]. unfold Csc. rewrite Cmult_comm. f_equal.
    - f_equal. unfold n. rewrite mult_IZR, <- !INR_IZR_INZ. unfold Rdiv. rewrite Rmult_1_l. auto.
    - f_equal. apply map_ext. intros p. unfold LW, idrot. ring. }
  rewrite E. set (s := Csc _ _). apply fold_ext. intros y p. unfold setAt, setZ, LiW, idrot. apply functional_extensionality. intros k. destruct (Z.eqb k (act S i p)); auto. f_equal. ring.
Qed.
Lemma steps_calc l : forall x, fold_left (fun x cl => symmetrize_phase_calc cl x) (map (classOf S sym) l) x =
  steps C (RtoC 0) Cplus Csc SpaceGroupOp sym (act S) (LW S C idrot Cmult) (LiW S C idrot Cmult) l x.
Proof. induction l; intros x; cbn [map fold_left steps]; auto. rewrite step_calc. apply IHl. Qed.

Ltac csc := intros; unfold Csc, idrot in *; rewrite ?RtoC_plus, ?RtoC_mult; ring.
Lemma avgC_invariant x i p : In p sym -> inD S i -> Cmult (phase (gp S i) p) (avgC x (act S i p)) = avgC x i.
Proof. apply (avgW_invariant S sym HS HG HF C (RtoC 0) Cplus Csc idrot Cmult); try csc; auto. Qed.
Lemma avgC_fixed x i : inD S i -> (forall p, In p sym -> Cmult (phase (gp S i) p) (x (act S i p)) = x i) -> avgC x i = x i.
Proof. apply (avgW_fixed S sym HS HG HF C (RtoC 0) Cplus Csc idrot idrot Cmult); try csc; auto. Qed.
Lemma initC : initSymmIndex S sym = Some (map (classOf S sym) (reps S sym)).
Proof. apply (init_ok S sym HS HG HF HR C (RtoC 0) Cplus Csc idrot idrot Cmult); try csc; auto. Qed.
Lemma neutral_single : length sym = 1%nat -> exists e, sym = [e] /\ neutral e.
Proof. intros L. destruct sym as [|e [|? ?]]; try discriminate. destruct (gr_neutral _ HG) as (e'&[->|[]]&N). exists e'. auto. Qed.
Lemma symmetrizeC x k : inD S k -> symmetrizeTilde sym (map (classOf S sym) (reps S sym)) x k = avgC x k.
Proof.
  intros Hk. unfold symmetrizeTilde. destruct (Nat.eqb_spec (length sym) 1) as [E|_].
  - symmetry. apply avgC_fixed; auto. destruct (neutral_single E) as (e&->&N). intros p [<-|[]]. destruct (proj1 (neutral_alg e) N) as (N1&N2).
    unfold act. rewrite N1, zvm_id, row_gp by auto. destruct N2 as (t&Et). 
    replace (phase (gp S k) e) with (RtoC 1); [ring|]. rewrite <- cis_0. unfold phase.
    apply cis_shift with (k := (c0 (gp S k) * c0 t + c1 (gp S k) * c1 t + c2 (gp S k) * c2 t)%Z).
    destruct (sg_a e) as [a0 a1 a2], t as [t0 t1 t2], (gp S k) as [g0 g1 g2]. unfold rvsub, gvsub, vIZR, vmap, rdot, gdot in *. cbn in *. injection Et as E0 E1 E2.
    rewrite !plus_IZR, !mult_IZR, <- E0, <- E1, <- E2. ring.
  - rewrite steps_calc. apply (all_steps S sym HS HG HF C (RtoC 0) Cplus Csc idrot idrot Cmult); try csc; auto.
Qed.
End Scalar.
