(** Ewald sums: loops as sums, screened interactions. *)
From Coq Require Import ZArith Reals List Bool Lia Lra Psatz.
From Coquelicot Require Import Coquelicot.
From Verif Require Import Base Gauss Grid_Model Vec3_Model Vec3_Facts Lattice_Model RealUtil Basis_Model Coulomb_Model Coulomb_Proofs Coulomb_Proofs3 WS_Model Ions_Model CellMap_Spec CellMap_Proofs
  VdW_Model VdW_Spec VdW_Proofs VdW_Proofs2 VdW_Proofs3 VdW_Proofs4 Ewald_Model Ewald_Spec.
Import ListNotations.
Local Open Scope R_scope.
Set Bullet Behavior "Strict Subproofs".

(** ** The box *)
Definition neg (g : V3) : V3 := (- v0 g, - v1 g, - v2 g)%Z.
Lemma in_boxLoop N x y z : In (x, y, z) (boxLoop N) <-> (Z.abs x <= v0 N /\ Z.abs y <= v1 N /\ Z.abs z <= v2 N)%Z.
Proof.
  unfold boxLoop. rewrite in_flat_map. split.
  - intros (i & Hi & H). apply in_flat_map in H. destruct H as (j & Hj & H). apply in_map_iff in H. destruct H as (k & E & Hk). injection E as -> -> ->.
    apply in_zrange in Hi. apply in_zrange in Hj. apply in_zrange in Hk. lia.
  - intros (A & B & C). exists x. split; [apply in_zrange; lia|]. apply in_flat_map. exists y. split; [apply in_zrange; lia|]. apply in_map_iff. exists z. split; [reflexivity|apply in_zrange; lia].
Qed.
Lemma NoDup_flat {A B} (f : A -> list B) l : NoDup l -> (forall a, NoDup (f a)) -> (forall a b x, In x (f a) -> In x (f b) -> a = b) -> NoDup (flat_map f l).
Proof.
  intros N Nf D. induction N as [|a l NI N IH]; cbn [flat_map]; [constructor|].
  apply NoDup_app_intro; auto. intros x I1 I2. apply in_flat_map in I2. destruct I2 as (b & Ib & Ix). assert (E := D a b x I1 Ix). subst. contradiction.
Qed.
Lemma NoDup_boxLoop N : NoDup (boxLoop N).
Proof.
  unfold boxLoop. apply NoDup_flat; [apply zrange_NoDup| |].
  - intros i. apply NoDup_flat; [apply zrange_NoDup| |].
    + intros j. apply FinFun.Injective_map_NoDup; [|apply zrange_NoDup]. intros a b E. injection E. auto.
    + intros a b x I1 I2. apply in_map_iff in I1. apply in_map_iff in I2. destruct I1 as (? & <- & _), I2 as (? & E & _). injection E. auto.
  - intros a b x I1 I2. apply in_flat_map in I1. apply in_flat_map in I2. destruct I1 as (? & _ & I1), I2 as (? & _ & I2). apply in_map_iff in I1. apply in_map_iff in I2.
    destruct I1 as (? & <- & _), I2 as (? & E & _). injection E. auto.
Qed.
Lemma boxLoop_ok N : centred_box N (boxLoop N).
Proof. split; [apply NoDup_boxLoop|]. intros x y z. rewrite in_boxLoop. destruct N as [[a b] c]. reflexivity. Qed.
Lemma box_neg N (F : V3 -> R) : rsum (fun g => F (neg g)) (boxLoop N) = rsum F (boxLoop N).
Proof.
  rewrite <- rsum_map. apply rsum_perm. apply Permutation.NoDup_Permutation.
  - apply FinFun.Injective_map_NoDup; [|apply NoDup_boxLoop]. intros [[a b] c] [[d e] f] E. unfold neg in E. cbn in E. injection E as E1 E2 E3.
    assert (a = d) by lia. assert (b = e) by lia. assert (c = f) by lia. subst. reflexivity.
  - apply NoDup_boxLoop.
  - intros [[x y] z]. rewrite in_boxLoop, in_map_iff. split.
    + intros ([[a b] c] & E & I). apply in_boxLoop in I. unfold neg in E. cbn in E. injection E as <- <- <-. lia.
    + intros H. exists (-x, -y, -z)%Z. split; [unfold neg; cbn; repeat f_equal; lia|]. apply in_boxLoop. lia.
Qed.
Lemma box_symm N : forall g, In g (boxLoop N) -> In (neg g) (boxLoop N).
Proof. intros [[x y] z] I. apply in_boxLoop in I. unfold neg. cbn [v0 v1 v2 fst snd]. apply in_boxLoop. lia. Qed.

(** ** Screened interactions *)
Section Real.
  Variables (n : nat) (Zc : nat -> R) (sigma : R) (eps : mat R) (d : nat -> vec R).
  Hypothesis Sp : 0 < sigma.
  Definition mR (c1 c2 : nat) (r : R) : R := Zc c1 * Zc c2 * (erfc (eta sigma * r) / r + (2 / sqrt PI) * eta sigma * exp (- (eta sigma * eta sigma) * (r * r))) / (r * r).
  Definition eR (Rl : mat R) (pos : nat -> vec R) c1 c2 iR : R :=
    let q := metric2 (RTR Rl) (sep pos c1 c2 iR) in if test0 q then 1/2 * Zc c1 * Zc c2 * erfc (eta sigma * sqrt q) / sqrt q else 0.
  Definition gR (Rl : mat R) (pos : nat -> vec R) c1 c2 iR : R :=
    let q := metric2 (RTR Rl) (sep pos c1 c2 iR) in
    if test0 q then - mR c1 c2 (sqrt q) * (rdot (rmv (RTR Rl) (sep pos c1 c2 iR)) (d c1) + 1/2 * contraction (Ions_Model.outer (rmv Rl (sep pos c1 c2 iR)) (rmv Rl (sep pos c1 c2 iR))) eps) else 0.
  Definition PhiA (a : acc) : R := Phi n eps d (force a) (latt a).

  Lemma realTerm_E Rl pos c2 c1 a iR : energy (realTerm Rl sigma Zc pos c2 c1 a iR) = energy a + eR Rl pos c1 c2 iR.
  Proof. unfold realTerm, eR, test0. cbv zeta. destruct (Req_EM_T _ 0); cbn [energy]; lra. Qed.
  Lemma realTerm_Phi Rl pos c2 c1 a iR : (c1 < n)%nat -> PhiA (realTerm Rl sigma Zc pos c2 c1 a iR) = PhiA a + gR Rl pos c1 c2 iR.
  Proof.
    intros L1. unfold realTerm, gR, test0, PhiA, Phi. cbv zeta. destruct (Req_EM_T _ 0) as [E|E]; [lra|]. cbn [force latt].
    rewrite work_add, contraction_sub, contraction_scale by auto. rewrite !rdot_scale_l. unfold mR.
    rewrite sqrt_sqrt by apply metric2_RTR_pos. unfold Rdiv. ring.
  Qed.
  Lemma realSum_E Rl pos N a : energy (realSum Rl sigma n Zc pos N a) = energy a + sum2 n (fun c2 c1 => rsum (eR Rl pos c1 c2) (boxLoop N)).
  Proof.
    unfold realSum. apply (fold2 (fun c2 a c1 => fold_left (realTerm Rl sigma Zc pos c2 c1) (boxLoop N) a) energy).
    intros s c2 c1 L2 L1. apply (fold_sum _ energy). intros b g _. apply realTerm_E.
  Qed.
  Lemma realSum_Phi Rl pos N a : PhiA (realSum Rl sigma n Zc pos N a) = PhiA a + sum2 n (fun c2 c1 => rsum (gR Rl pos c1 c2) (boxLoop N)).
  Proof.
    unfold realSum. apply (fold2 (fun c2 a c1 => fold_left (realTerm Rl sigma Zc pos c2 c1) (boxLoop N) a) PhiA).
    intros s c2 c1 L2 L1. apply (fold_sum _ PhiA). intros b g _. apply realTerm_Phi. exact L1.
  Qed.
  (** symmetrised *)
  Definition gS (Rl : mat R) (pos : nat -> vec R) c1 c2 iR : R :=
    let q := metric2 (RTR Rl) (sep pos c1 c2 iR) in
    if test0 q then - (1/2) * mR c1 c2 (sqrt q) * rate Rl (sep pos c1 c2 iR) (rvsub (d c1) (d c2)) eps else 0.
  Lemma sep_neg pos c1 c2 g : sep pos c2 c1 (neg g) = rvscale (-1) (sep pos c1 c2 g).
  Proof.
    unfold sep, cellVec, neg. cbn [v0 v1 v2 fst snd]. rewrite !opp_IZR. generalize (IZR (v0 g)) (IZR (v1 g)) (IZR (v2 g)) (pos c1) (pos c2). intros x y z u v.
    destruct u, v. v3u. f_equal; ring.
  Qed.
  Lemma gR_sym Rl pos N : sum2 n (fun c2 c1 => rsum (gR Rl pos c1 c2) (boxLoop N)) = sum2 n (fun c2 c1 => rsum (gS Rl pos c1 c2) (boxLoop N)).
  Proof.
    assert (D : 2 * sum2 n (fun c2 c1 => rsum (gR Rl pos c1 c2) (boxLoop N)) = 2 * sum2 n (fun c2 c1 => rsum (gS Rl pos c1 c2) (boxLoop N))); [|lra].
    replace (2 * sum2 n (fun c2 c1 => rsum (gR Rl pos c1 c2) (boxLoop N))) with
      (sum2 n (fun c2 c1 => rsum (gR Rl pos c1 c2) (boxLoop N)) + sum2 n (fun c2 c1 => rsum (gR Rl pos c1 c2) (boxLoop N))) by ring.
    rewrite (sum2_swap n (fun c2 c1 => rsum (gR Rl pos c1 c2) (boxLoop N))) at 2. rewrite <- sum2_add.
    replace (2 * sum2 n (fun c2 c1 => rsum (gS Rl pos c1 c2) (boxLoop N))) with (sum2 n (fun c2 c1 => rsum (gS Rl pos c1 c2) (boxLoop N)) + sum2 n (fun c2 c1 => rsum (gS Rl pos c1 c2) (boxLoop N))) by ring.
    rewrite <- sum2_add.
    apply sum2_ext. intros c2 c1 _ _. rewrite <- (box_neg N (gR Rl pos c2 c1)). rewrite <- !rsum_add. apply rsum_ext. intros g _.
    unfold gR, gS. cbv zeta. rewrite sep_neg. set (x := sep pos c1 c2 g).
    assert (E : metric2 (RTR Rl) (rvscale (-1) x) = metric2 (RTR Rl) x) by (rewrite !metric2_RTR; destruct Rl, x; v3u; ring). rewrite E.
    destruct (test0 _); [|ring]. unfold mR, rate.
    assert (E2 : rmv (RTR Rl) (rvscale (-1) x) = rvscale (-1) (rmv (RTR Rl) x)) by (generalize (RTR Rl); intros m; destruct m, x; v3u; f_equal; ring). rewrite E2, rdot_scale_l.
    assert (E3 : Ions_Model.outer (rmv Rl (rvscale (-1) x)) (rmv Rl (rvscale (-1) x)) = Ions_Model.outer (rmv Rl x) (rmv Rl x)).
    { assert (E4 : rmv Rl (rvscale (-1) x) = rvscale (-1) (rmv Rl x)) by (destruct Rl, x; v3u; f_equal; ring). rewrite E4. generalize (rmv Rl x). intros w. destruct w. unfold Ions_Model.outer. v3u. f_equal; ring. }
    rewrite E3. set (v := rmv (RTR Rl) x). replace (rdot v (rvsub (d c1) (d c2))) with (rdot v (d c1) - rdot v (d c2)) by (rewrite !(rdot_comm v); symmetry; apply rdot_subv).
    rewrite (Rmult_comm (Zc c2) (Zc c1)). match goal with |- context [Zc c1 * Zc c2 * ?a / ?b] => set (m := Zc c1 * Zc c2 * a / b) end. lra.
  Qed.
  Lemma eta_pos : 0 < eta sigma.
  Proof. unfold eta. apply Rdiv_lt_0_compat; [apply sqrt_lt_R0; lra|exact Sp]. Qed.
  Lemma screened_derive k r : 0 < r -> is_derive (fun s => k * erfc (eta sigma * s) / s) r (- k * r * ((erfc (eta sigma * r) / r + (2 / sqrt PI) * eta sigma * exp (- (eta sigma * eta sigma) * (r * r))) / (r * r))).
  Proof.
    intros P. assert (De : is_derive (fun s => erfc (eta sigma * s)) r (eta sigma * (- (2 / sqrt PI * gauss (eta sigma * r))))).
    { apply (is_derive_comp (K:=R_AbsRing) (V:=R_NormedModule) erfc (fun s => eta sigma * s) r (- (2 / sqrt PI * gauss (eta sigma * r))) (eta sigma)); [apply is_derive_erfc|].
      auto_derive; [exact Logic.I|ring]. }
    assert (Di : is_derive (fun s => 1 / s) r (- 1 * (1 / r) * (1 / r))).
    { apply (dinv1 (fun s => s)); [apply (is_derive_id (K:=R_AbsRing))|lra]. }
    apply (is_derive_ext (fun s => k * (erfc (eta sigma * s) * (1 / s)))); [intros t; match goal with |- ?a = ?b => change (@eq R a b) end; unfold Rdiv; ring|].
    eapply dval; [apply dscal, (dmul _ _ _ _ _ De Di)|]. cbv beta. unfold gauss. replace (- (eta sigma * r * (eta sigma * r))) with (- (eta sigma * eta sigma) * (r * r)) by ring.
    assert (Q := sqrtPI_pos). field. split; lra.
  Qed.
  Lemma real_derive Rl pos N : separate Rl pos n (boxLoop N) ->
    is_derive (fun t => sum2 n (fun c2 c1 => rsum (eR (strained Rl eps t) (displaced pos d t) c1 c2) (boxLoop N))) 0 (sum2 n (fun c2 c1 => rsum (gR Rl pos c1 c2) (boxLoop N))).
  Proof.
    intros Sep. rewrite gR_sym. unfold sum2.
    apply (rsum_derive (seq 0 n) (fun c2 t => rsum (fun c1 => rsum (eR (strained Rl eps t) (displaced pos d t) c1 c2) (boxLoop N)) (seq 0 n))). intros c2 I2.
    apply (rsum_derive (seq 0 n) (fun c1 t => rsum (eR (strained Rl eps t) (displaced pos d t) c1 c2) (boxLoop N))). intros c1 I1.
    apply (rsum_derive (boxLoop N) (fun g t => eR (strained Rl eps t) (displaced pos d t) c1 c2 g)). intros g I3.
    apply in_seq in I1. apply in_seq in I2. assert (L1 : (c1 < n)%nat) by lia. assert (L2 : (c2 < n)%nat) by lia.
    assert (T := term_derive (qt Rl eps pos d c1 c2 g) (rate Rl (sep pos c1 c2 g) (rvsub (d c1) (d c2)) eps) test0
      (fun r => 1/2 * Zc c1 * Zc c2 * erfc (eta sigma * r) / r) (- (1/2) * sqrt (qt Rl eps pos d c1 c2 g 0) * mR c1 c2 (sqrt (qt Rl eps pos d c1 c2 g 0)))).
    rewrite qt_0 in T. set (q := metric2 (RTR Rl) (sep pos c1 c2 g)) in *.
    assert (G : gS Rl pos c1 c2 g = (if test0 q then - (1/2) * sqrt q * mR c1 c2 (sqrt q) / sqrt q * rate Rl (sep pos c1 c2 g) (rvsub (d c1) (d c2)) eps else 0)).
    { unfold gS. cbv zeta. fold q. unfold test0. destruct (Req_EM_T q 0) as [E|E]; [reflexivity|]. assert (P := metric2_RTR_pos Rl (sep pos c1 c2 g)). fold q in P.
      assert (P2 : 0 < sqrt q) by (apply sqrt_lt_R0; lra). set (m := mR c1 c2 (sqrt q)). field. lra. }
    rewrite G. apply T; clear T G.
    - apply qt_derive.
    - apply metric2_RTR_pos.
    - intros E. apply distance_0 in E. destruct (Sep c1 c2 g L1 L2 I3 E) as [-> ->]. split; [unfold test0; destruct (Req_EM_T 0 0); [reflexivity|lra]|]. intros t. apply qt_self. reflexivity.
    - apply test0_loc.
    - intros P _. eapply dval; [apply screened_derive; apply sqrt_lt_R0; exact P|]. unfold mR. unfold Rdiv. ring.
  Qed.
End Real.
