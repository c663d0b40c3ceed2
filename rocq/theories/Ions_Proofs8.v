(** Fixed lattice vectors along a path, safe steps, vibrations. *)
From Coq Require Import String ZArith Reals Bool List Lia Lra Psatz.
From Verif Require Import Base SMap Vec3_Model Vec3_Facts Lattice_Model Coulomb_Proofs Sym_Model Sym_Spec Sym_Proofs Sym_Proofs2 Sym_Proofs8 Ions_Model Ions_Spec Ions_Proofs Ions_Proofs2 Ions_Proofs3 Ions_Proofs7.
Import ListNotations.
Local Open Scope R_scope.

Lemma mat_ext_mv (a b : mat R) : (forall x, rmv a x = rmv b x) -> a = b.
Proof.
  intros I. assert (I0 := I (V 1 0 0)). assert (I1 := I (V 0 1 0)). assert (I2 := I (V 0 0 1)). revert I0 I1 I2. destruct a as [a00 a01 a02 a10 a11 a12 a20 a21 a22], b as [b00 b01 b02 b10 b11 b12 b20 b21 b22].
  v3u. intros I0 I1 I2. injection I0. injection I1. injection I2. intros. f_equal; lra.
Qed.
Lemma rmv_dot m x y : rdot (rmv m x) y = rdot x (rmv (mtrans m) y).
Proof. destruct m, x, y. v3u. ring. Qed.
Lemma mtt (m : mat R) : mtrans (mtrans m) = m. Proof. destruct m. reflexivity. Qed.
Lemma dot_ext u v : (forall y, rdot y u = rdot y v) -> u = v.
Proof. intros H. assert (E0 := H (V 1 0 0)). assert (E1 := H (V 0 1 0)). assert (E2 := H (V 0 0 1)). destruct u, v. revert E0 E1 E2. v3u. intros. f_equal; lra. Qed.

Section Path.
  Variables (Ro : mat R) (fixed : nat -> bool) (sym : list SpaceGroupOp) (iso : bool).
  Hypothesis HD : rdet Ro <> 0.
  Hypothesis HG : space_group sym.
  Hypothesis HC : commensurate sym fixed.
  Let P := snd (PfreeOf Ro fixed).
  Lemma PP : mtrans P = P /\ rmm P P = P /\ (forall k, (k < 3)%nat -> fixed k = true -> rmv P (lattice_vector Ro k) = V 0 0 0) /\ (forall x, (forall k, (k < 3)%nat -> fixed k = true -> rdot (lattice_vector Ro k) x = 0) -> rmv P x = x).
  Proof. exact (P_props Ro fixed HD). Qed.
  Definition okR (Rl : mat R) : Prop := rdet Rl <> 0 /\ (forall k, (k < 3)%nat -> fixed k = true -> lattice_vector Rl k = lattice_vector Ro k) /\ (forall p, In p sym -> orthogonal (cartesian Rl p)).
  Lemma col_image Rl p k : rdet Rl <> 0 -> (k < 3)%nat -> rmv (cartesian Rl p) (lattice_vector Rl k) =
    rvadd (rvscale (IZR (mget (sg_rot p) 0 k)) (lattice_vector Rl 0)) (rvadd (rvscale (IZR (mget (sg_rot p) 1 k)) (lattice_vector Rl 1)) (rvscale (IZR (mget (sg_rot p) 2 k)) (lattice_vector Rl 2))).
  Proof.
    intros D Hk. unfold cartesian. rewrite !rmv_mm.
    assert (E : rmv (rinv Rl) (lattice_vector Rl k) = match k with O => V 1 0 0 | 1%nat => V 0 1 0 | _ => V 0 0 1 end).
    { assert (E := rinv_l Rl D). revert E. generalize (rinv Rl). intros [i00 i01 i02 i10 i11 i12 i20 i21 i22]. clear. destruct Rl. v3u. intros E. injection E as E0 E1 E2 E3 E4 E5 E6 E7 E8. destruct k as [|[|k]]; unfold lattice_vector; v3u; f_equal; assumption. }
    rewrite E. destruct (sg_rot p) as [z00 z01 z02 z10 z11 z12 z20 z21 z22]. destruct Rl. destruct k as [|[|[|k]]]; [| | |lia]; unfold mget, mrow, vget, lattice_vector; v3u; f_equal; ring.
  Qed.
  Lemma P_image Rl p k : okR Rl -> In p sym -> (k < 3)%nat -> fixed k = true -> rmv P (rmv (cartesian Rl p) (lattice_vector Ro k)) = V 0 0 0.
  Proof.
    intros (D & F & _) Hp Hk K. rewrite <- (F k Hk K), col_image by assumption. destruct PP as (_ & _ & Z & _).
    assert (T : forall i, (i < 3)%nat -> rvscale (IZR (mget (sg_rot p) i k)) (rmv P (lattice_vector Rl i)) = V 0 0 0).
    { intros i Hi. destruct (Z.eq_dec (mget (sg_rot p) i k) 0) as [-> | N].
      - generalize (rmv P (lattice_vector Rl i)). intros [a b c]. v3u. f_equal; ring.
      - assert (Fi : fixed i = true) by (rewrite (HC p i k Hp Hi Hk N); exact K). rewrite (F i Hi Fi). rewrite (Z i Hi Fi). v3u. f_equal; ring. }
    rewrite !rmv_add, !rmv_lin, !T by lia. v3u. f_equal; ring.
  Qed.
  Lemma inverse_op Rl p : okR Rl -> In p sym -> exists q, In q sym /\ cartesian Rl q = mtrans (cartesian Rl p).
  Proof.
    intros (D & _ & O) Hp. destruct (gr_inverse _ HG p Hp) as (q & e & Hq & _ & N & _ & I). apply composes_alg in I. destruct I as (I & _). apply neutral_alg in N. destruct N as (N & _). rewrite N in I.
    exists q. split; [exact Hq|]. assert (E : rmm (cartesian Rl q) (cartesian Rl p) = rid).
    { unfold cartesian. transitivity (rmm (rmm Rl (mIZR (zmm (sg_rot q) (sg_rot p)))) (rinv Rl)); [|rewrite <- I, mIZR_id, rmm_id_r; apply rinv_r, D].
      rewrite mIZR_mm, !rmm_assoc. rewrite <- (rmm_assoc (rmm Rl (mIZR (sg_rot q))) (rinv Rl) Rl). rewrite (rinv_l Rl D), rmm_id_r. reflexivity. }
    assert (DP : rdet (cartesian Rl p) <> 0) by (intros Z; assert (X : rdet (rmm (cartesian Rl q) (cartesian Rl p)) = 1) by (rewrite E; v3u; ring); rewrite rdet_mm, Z in X; lra).
    rewrite (rinv_unique _ _ DP E). symmetry. apply rinv_unique; [exact DP|exact (O p Hp)].
  Qed.
  Lemma P_trans Rl p k : okR Rl -> In p sym -> (k < 3)%nat -> fixed k = true -> rmv P (rmv (mtrans (cartesian Rl p)) (lattice_vector Ro k)) = V 0 0 0.
  Proof. intros O Hp Hk K. destruct (inverse_op Rl p O Hp) as (q & Hq & <-). apply P_image; assumption. Qed.
  Lemma PQP Rl p : okR Rl -> In p sym -> forall x, rmv P (rmv (cartesian Rl p) (rmv P x)) = rmv P (rmv (cartesian Rl p) x).
  Proof.
    intros O Hp x. destruct PP as (S & I & Z & K).  apply dot_ext. intros y. set (Q := cartesian Rl p). set (z := rmv (mtrans Q) (rmv P y)).
    assert (Hz : rmv P z = z).
    { apply K. intros k Hk F. unfold z. rewrite <- rmv_dot. assert (X := P_image Rl p k O Hp Hk F). fold Q in X. rewrite rmv_dot, <- S, <- rmv_dot, <- rmv_dot. rewrite X. destruct y. v3u. ring. }
    assert (M : forall w, rdot y (rmv P (rmv Q w)) = rdot z w).
    { intros w. unfold z. rewrite <- S at 1. rewrite <- rmv_dot. generalize (rmv P y). intros [a b c]. clear. destruct Q, w. v3u. ring. }
    rewrite !M, <- Hz. rewrite !rmv_dot, S, <- rmv_mm, I. reflexivity.
  Qed.
  Lemma PQ_comm Rl p : okR Rl -> In p sym -> rmm P (cartesian Rl p) = rmm (cartesian Rl p) P.
  Proof.
    intros O Hp. destruct PP as (S & I & _).  assert (A : rmm (rmm P (cartesian Rl p)) P = rmm P (cartesian Rl p)) by (apply mat_ext_mv; intros x; rewrite !rmv_mm; apply PQP; assumption).
    destruct (inverse_op Rl p O Hp) as (q & Hq & E). assert (B : rmm (rmm P (cartesian Rl q)) P = rmm P (cartesian Rl q)) by (apply mat_ext_mv; intros x; rewrite !rmv_mm; apply PQP; assumption).
    apply (f_equal mtrans) in B. rewrite E, !mtrans_mm, mtt, S in B. rewrite <- A, <- B, !rmm_assoc. reflexivity.
  Qed.
  Definition direction (Rl m : mat R) : mat R := constrainLattice Rl sym P iso m.
  Lemma dir_invariant Rl m p : okR Rl -> In p sym -> tensor_invariant Rl p (direction Rl m).
  Proof.
    intros O Hp. unfold direction, constrainLattice. set (m1 := rmm (rmm P _) P). destruct O as (D & F & Or). destruct (tensor_sym Rl sym m1 D HG) as (T & _). destruct iso; [|apply T, Hp].
    unfold tensor_invariant. set (Q := cartesian Rl p). set (t := _ / _). assert (C := PQ_comm Rl p (conj D (conj F Or)) Hp). fold Q in C.
    transitivity (rmscale t (rmm (rmm Q P) (mtrans Q))); [generalize P (mtrans Q); intros [] []; destruct Q; v3u; f_equal; ring|]. rewrite <- C, <- rmm_assoc, orth_right by (apply Or, Hp). rewrite rmm_id_r. reflexivity.
  Qed.
  Lemma dir_kill Rl m k : okR Rl -> (k < 3)%nat -> fixed k = true -> rmv (direction Rl m) (lattice_vector Ro k) = V 0 0 0.
  Proof.
    intros O Hk K. unfold direction, constrainLattice. set (m1 := rmm (rmm P _) P). destruct PP as (_ & _ & Z & _). destruct iso.
    - transitivity (rvscale (rtrace (symmetrizeTensor Rl sym m1) / rtrace P) (rmv P (lattice_vector Ro k))); [generalize P (lattice_vector Ro k); intros [] []; v3u; f_equal; ring|]. rewrite (Z k Hk K). v3u. f_equal; ring.
    - unfold symmetrizeTensor. rewrite rmsum_msm. set (s := 1 / _). transitivity (rvscale s (rmv (msm (map (fun op => rmm (rmm (rotCart Rl op) m1) (mtrans (rotCart Rl op))) sym)) (lattice_vector Ro k))); [generalize (msm (map (fun op => rmm (rmm (rotCart Rl op) m1) (mtrans (rotCart Rl op))) sym)) (lattice_vector Ro k); intros [] []; v3u; f_equal; ring|].
      assert (G : forall l, (forall p, In p l -> In p sym) -> rmv (msm (map (fun op => rmm (rmm (rotCart Rl op) m1) (mtrans (rotCart Rl op))) l)) (lattice_vector Ro k) = V 0 0 0).
      { induction l as [|p l IH]; intros Hl; cbn [map wsum]; [generalize (lattice_vector Ro k); intros []; v3u; f_equal; ring|].
        set (A := rmm (rmm (rotCart Rl p) m1) _) in *. set (B := wsum _ _ _ _) in *. replace (rmv (rmadd A B) (lattice_vector Ro k)) with (rvadd (rmv A (lattice_vector Ro k)) (rmv B (lattice_vector Ro k))) by (generalize A B (lattice_vector Ro k); intros [] [] []; v3u; f_equal; ring).
        rewrite IH by (intros; apply Hl; right; assumption). unfold A. rewrite !rmv_mm. change (rotCart Rl p) with (cartesian Rl p). unfold m1. rewrite !rmv_mm, (P_trans Rl p k O (Hl p (or_introl eq_refl)) Hk K), !rmv_zero. v3u. f_equal; ring. }
      rewrite G by auto. v3u. f_equal; ring.
  Qed.
  Lemma step_ok Rl a m : okR Rl -> let Rl' := rmm (rmadd rid (rmscale a (direction Rl m))) Rl in rdet Rl' <> 0 -> okR Rl' /\ (forall p, In p sym -> cartesian Rl' p = cartesian Rl p).
  Proof.
    intros O Rl' D'. set (S := rmadd rid (rmscale a (direction Rl m))) in *. assert (DS : rdet S <> 0) by (intros Z; apply D'; unfold Rl'; rewrite rdet_mm, Z; ring).
    assert (Cm : forall p, In p sym -> rmm S (cartesian Rl p) = rmm (cartesian Rl p) S).
    { intros p Hp. assert (T := dir_invariant Rl m p O Hp). unfold tensor_invariant in T. destruct O as (_ & _ & Or). set (Q := cartesian Rl p) in *. assert (OQ : rmm (mtrans Q) Q = rid) by apply (Or p Hp).
      assert (X : rmm (direction Rl m) Q = rmm Q (direction Rl m)). { rewrite <- T at 1. rewrite <- !rmm_assoc, OQ, rmm_id_r. reflexivity. }
      unfold S. transitivity (rmadd Q (rmscale a (rmm (direction Rl m) Q))); [generalize (direction Rl m); intros []; destruct Q; v3u; f_equal; ring|]. rewrite X. generalize (direction Rl m). intros []. destruct Q. v3u. f_equal; ring. }
    assert (CE : forall p, In p sym -> cartesian Rl' p = cartesian Rl p).
    { intros p Hp. unfold cartesian at 1. unfold Rl'. assert (D := proj1 O). rewrite rinv_mm by assumption.
      transitivity (rmm (rmm S (cartesian Rl p)) (rinv S)); [unfold cartesian; rewrite !rmm_assoc; reflexivity|]. rewrite Cm by exact Hp. rewrite <- rmm_assoc, rinv_r, rmm_id_r by exact DS. reflexivity. }
    split; [|exact CE]. split; [exact D'|]. split.
    - intros k Hk K. destruct O as (D & F & Or). transitivity (rmv S (lattice_vector Rl k)).
      + unfold Rl'. generalize S. intros [s00 s01 s02 s10 s11 s12 s20 s21 s22]. clear. destruct Rl. destruct k as [|[|k]]; unfold lattice_vector; v3u; reflexivity.
      + rewrite (F k Hk K). unfold S. transitivity (rvadd (lattice_vector Ro k) (rvscale a (rmv (direction Rl m) (lattice_vector Ro k)))); [generalize (direction Rl m) (lattice_vector Ro k); intros [] []; v3u; f_equal; ring|].
        rewrite dir_kill by (auto; repeat split; assumption). generalize (lattice_vector Ro k). intros []. v3u. f_equal; ring.
    - intros p Hp. rewrite CE by exact Hp. apply O, Hp.
  Qed.
  Lemma path_ok steps : forall Rl, okR Rl -> (forall R', In R' (lattice_path direction Rl steps) -> rdet R' <> 0) -> forall R', In R' (lattice_path direction Rl steps) -> okR R' /\ (forall p, In p sym -> cartesian R' p = cartesian Rl p).
  Proof.
    induction steps as [|[a m] l IH]; intros Rl O D R' H; cbn [lattice_path] in *.
    - destruct H as [<-|[]]. split; [exact O|reflexivity].
    - destruct H as [<-|H]; [split; [exact O|reflexivity]|]. assert (D1 : rdet (rmm (rmadd rid (rmscale a (direction Rl m))) Rl) <> 0) by (apply D; right; destruct l as [|[a' m'] l]; left; reflexivity).
      destruct (step_ok Rl a m O D1) as (O' & C'). destruct (IH _ O' (fun R'' H'' => D R'' (or_intror H'')) R' H) as (O2 & C2). split; [exact O2|]. intros p Hp. rewrite C2, C' by exact Hp. reflexivity.
  Qed.
End Path.
Lemma fixed_path Ro fixed sym iso steps : rdet Ro <> 0 -> space_group sym -> commensurate sym fixed -> (forall p, In p sym -> orthogonal (cartesian Ro p)) ->
  let path := lattice_path (fun Rl m => constrainLattice Rl sym (snd (PfreeOf Ro fixed)) iso m) Ro steps in
  (forall Rl, In Rl path -> rdet Rl <> 0) -> forall Rl, In Rl path ->
  (forall k, (k < 3)%nat -> fixed k = true -> lattice_vector Rl k = lattice_vector Ro k) /\ (forall p, In p sym -> cartesian Rl p = cartesian Ro p).
Proof.
  intros D G C O path Dp Rl H. assert (OK : okR Ro fixed sym Ro) by (split; [exact D|split; [reflexivity|exact O]]).
  destruct (path_ok Ro fixed sym iso D G C steps Ro OK Dp Rl H) as ((_ & F & _) & E). split; assumption.
Qed.

(** *** safe steps *)
Lemma mnrm2_frob m : mnrm2 m = sqrt (frobenius m).
Proof. unfold mnrm2, frobenius. f_equal. destruct m. v3u. ring. Qed.
Lemma frob_nonneg m : 0 <= frobenius m.
Proof. unfold frobenius. repeat (apply Rplus_le_le_0_compat; [|nra]). nra. Qed.
Lemma nrm_le m x : 0 <= x -> (mnrm2 m <= x <-> frobenius m <= x * x).
Proof.
  intros Hx. rewrite mnrm2_frob. split; intros H.
  - rewrite <- (sqrt_sqrt (frobenius m)) by apply frob_nonneg. assert (0 <= sqrt (frobenius m)) by apply sqrt_pos. nra.
  - rewrite <- (sqrt_square x) by exact Hx. apply sqrt_le_1; [apply frob_nonneg|nra|exact H].
Qed.
Lemma halve_ok strain dir : mnrm2 strain < maxAllowedStrain -> exists d, 0 < d /\ forall a, 0 < a <= d -> mnrm2 (rmadd strain (rmscale a dir)) <= maxAllowedStrain.
Proof.
  intros H. assert (M0 : 0 < maxAllowedStrain) by (unfold maxAllowedStrain; lra). set (M := maxAllowedStrain) in *.
  assert (S : frobenius strain < M * M). { destruct (Rlt_le_dec (frobenius strain) (M * M)) as [X|X]; [exact X|exfalso]. rewrite mnrm2_frob in H. assert (sqrt (M * M) <= sqrt (frobenius strain)) by (apply sqrt_le_1; [nra|apply frob_nonneg|exact X]). rewrite sqrt_square in H0 by lra. lra. }
  set (b := m00 strain * m00 dir + m01 strain * m01 dir + m02 strain * m02 dir + m10 strain * m10 dir + m11 strain * m11 dir + m12 strain * m12 dir + m20 strain * m20 dir + m21 strain * m21 dir + m22 strain * m22 dir).
  assert (E : forall a, frobenius (rmadd strain (rmscale a dir)) = frobenius strain + 2 * a * b + a * a * frobenius dir) by (intros a; unfold frobenius, b; destruct strain, dir; v3u; ring).
  set (g := M * M - frobenius strain). assert (G : 0 < g) by (unfold g; lra). assert (F := frob_nonneg dir). set (f := frobenius dir) in *. set (B := 2 * Rabs b + f + 1). assert (AB := Rabs_pos b). assert (PB : 0 < B) by (unfold B; lra).
  exists (Rmin 1 (g / B)). assert (PG : 0 < g / B) by (apply Rdiv_lt_0_compat; assumption). split; [apply Rmin_glb_lt; lra|]. intros a [A1 A2]. assert (a <= 1) by (eapply Rle_trans; [exact A2|apply Rmin_l]). assert (AG : a <= g / B) by (eapply Rle_trans; [exact A2|apply Rmin_r]).
  apply nrm_le; [lra|]. rewrite E. fold f. assert (aB : a * B <= g). { replace g with (g / B * B) by (field; lra). apply Rmult_le_compat_r; lra. }
  assert (bb : b <= Rabs b) by apply Rle_abs. assert (X1 : 2 * a * b <= 2 * a * Rabs b) by nra. assert (X2 : a * a * f <= a * f) by (assert (a * a <= a) by nra; nra). unfold B in aB. unfold g in aB. lra.
Qed.
Lemma halve_sound fuel strain dir : forall a r, 0 < a -> halve fuel strain dir a = Some r -> 0 < r <= a /\ mnrm2 (rmadd strain (rmscale r dir)) <= maxAllowedStrain.
Proof.
  induction fuel as [|fuel IH]; intros a r Ha H; cbn [halve] in H; destruct (Rlt_dec maxAllowedStrain _) as [L|L]; try discriminate.
  - injection H as <-. lra.
  - destruct (IH (a * (1/2)) r ltac:(lra) H) as (X & Y). split; [lra|exact Y].
  - injection H as <-. lra.
Qed.
Lemma halve_ends strain dir : mnrm2 strain < maxAllowedStrain -> forall a, 0 < a -> exists fuel, forall fuel', (fuel <= fuel')%nat -> halve fuel' strain dir a <> None.
Proof.
  intros H. destruct (halve_ok strain dir H) as (d & Hd & OK).
  assert (G : forall n a, 0 < a -> a * (1/2)^n <= d -> forall fuel', (n <= fuel')%nat -> halve fuel' strain dir a <> None).
  { induction n as [|n IH]; intros a Ha L fuel' Hf.
    - cbn in L. assert (X := OK a ltac:(lra)). destruct fuel'; cbn [halve]; destruct (Rlt_dec _ _); try lra; discriminate.
    - destruct fuel' as [|fuel']; [lia|]. cbn [halve]. destruct (Rlt_dec _ _); [|discriminate]. apply IH; [lra| |lia]. cbn in L. lra. }
  intros a Ha. assert (Dd : 0 < d / a) by (apply Rdiv_lt_0_compat; lra). destruct (pow_lt_1_zero (1/2) ltac:(rewrite Rabs_right; lra) (d / a) Dd) as [n Hn]. exists n. apply G; [exact Ha|].
  specialize (Hn n (le_n n)). rewrite Rabs_right in Hn by (apply Rle_ge, pow_le; lra). apply Rmult_lt_compat_l with (r := a) in Hn; [|exact Ha]. replace (a * (d / a)) with d in Hn by (field; lra). lra.
Qed.
Lemma safe_ok strain dir : mnrm2 strain < maxAllowedStrain -> frobenius dir <> 0 -> exists fuel alpha, (forall fuel', (fuel <= fuel')%nat -> safeStepLattice fuel' strain dir = Some alpha) /\
  0 < alpha /\ alpha * sqrt (frobenius dir) <= 1/2 * (35/100) /\ sqrt (frobenius (rmadd strain (rmscale alpha dir))) <= 35/100.
Proof.
  intros S N. assert (ND : 0 < mnrm2 dir) by (rewrite mnrm2_frob; apply sqrt_lt_R0; assert (X := frob_nonneg dir); lra). set (a0 := 1/2 * maxAllowedStrain / mnrm2 dir).
  assert (A0 : 0 < a0) by (unfold a0, maxAllowedStrain; apply Rdiv_lt_0_compat; lra). destruct (halve_ends strain dir S a0 A0) as (fuel & E).
  assert (Mono : forall n a r, halve n strain dir a = Some r -> forall n', (n <= n')%nat -> halve n' strain dir a = Some r).
  { induction n as [|n IH]; intros a r H n' Hn; cbn [halve] in H; destruct (Rlt_dec _ _) as [L|L] eqn:Q; try discriminate.
    - destruct n'; cbn [halve]; rewrite Q; exact H.
    - destruct n' as [|n']; [lia|]. cbn [halve]. rewrite Q. apply IH; [exact H|lia].
    - destruct n'; cbn [halve]; rewrite Q; exact H. }
  destruct (halve fuel strain dir a0) as [r|] eqn:H; [|exfalso; apply (E fuel (le_n fuel)); exact H]. exists fuel, r. destruct (halve_sound _ _ _ _ _ A0 H) as ((R1 & R2) & R3). split; [|split; [exact R1|split]].
  - intros n' Hn. unfold safeStepLattice. destruct (Rlt_dec _ _); [|lra]. apply (Mono fuel); assumption.
  - rewrite <- mnrm2_frob. apply Rle_trans with (a0 * mnrm2 dir); [apply Rmult_le_compat_r; lra|]. unfold a0, maxAllowedStrain. right. field. lra.
  - rewrite <- mnrm2_frob. exact R3.
Qed.
(** the strain after the step has another term *)
Lemma true_strain Ro d L a s : rdet Ro <> 0 -> lR s = rmm (rmadd rid (lstrain s)) Ro -> let s' := latticeStep false Ro d L a s in
  lR s' = rmm (rmadd rid (lstrain s')) Ro /\ lstrain s' = rmadd (rmadd (lstrain s) (rmscale a L)) (rmscale a (rmm L (lstrain s))).
Proof.
  intros D H. cbv zeta. unfold latticeStep. cbn [lR lstrain]. split.
  - rewrite H. set (X := rmm (rmm (rmadd rid (rmscale a L)) (rmm (rmadd rid (lstrain s)) Ro)) (rinv Ro)). replace (rmadd rid (rmsub X rid)) with X by (destruct X; v3u; f_equal; ring). unfold X. rewrite <- !rmm_assoc, rinv_l, !rmm_id_r by exact D. reflexivity.
  - rewrite H. rewrite <- !rmm_assoc, rinv_r, !rmm_id_r by exact D. generalize (lstrain s). intros []. destruct L. v3u. f_equal; ring.
Qed.
Lemma unsafe_step : exists Ro d L s fuel alpha, rdet Ro <> 0 /\ lR s = rmm (rmadd rid (lstrain s)) Ro /\ sqrt (frobenius (lstrain s)) < 35/100 /\ safeStepLattice fuel (lstrain s) L = Some alpha /\
  35/100 < sqrt (frobenius (lstrain (latticeStep false Ro d L alpha s))).
Proof.
  set (st := rdiag (175/1000) 0 0). set (L := rdiag 1 0 0). exists rid, gzero, L, (LState (rmm (rmadd rid st) rid) st gzero), 0%nat, (175/1000).
  assert (D : rdet rid <> 0) by (v3u; lra). assert (Q : forall x, 0 <= x -> sqrt (frobenius (rdiag x 0 0)) = x) by (intros x Hx; replace (frobenius (rdiag x 0 0)) with (x * x) by (unfold frobenius; v3u; ring); apply sqrt_square, Hx).
  assert (NL : mnrm2 L = 1) by (rewrite mnrm2_frob; apply Q; lra). assert (NS : mnrm2 st = 175/1000) by (rewrite mnrm2_frob; apply Q; lra).
  split; [exact D|]. split; [reflexivity|]. cbn [lstrain]. split; [unfold st; rewrite Q; lra|]. split.
  - unfold safeStepLattice. rewrite NL, NS. destruct (Rlt_dec _ _) as [_|X]; [|exfalso; apply X; unfold maxAllowedStrain; lra]. cbn [halve].
    replace (1 / 2 * maxAllowedStrain / 1) with (175/1000) by (unfold maxAllowedStrain; field). replace (rmadd st (rmscale (175/1000) L)) with (rdiag (35/100) 0 0) by (unfold st, L; v3u; f_equal; field).
    destruct (Rlt_dec _ _) as [X|_]; [|reflexivity]. exfalso. rewrite mnrm2_frob, Q in X by lra. unfold maxAllowedStrain in X. lra.
  - destruct (true_strain rid gzero L (175/1000) (LState (rmm (rmadd rid st) rid) st gzero) D eq_refl) as (_ & E). cbn [lstrain] in E. cbv zeta in E. rewrite E.
    replace (rmadd (rmadd st (rmscale (175/1000) L)) (rmscale (175/1000) (rmm L st))) with (rdiag (35/100 + 175/1000*(175/1000)) 0 0) by (unfold st, L; v3u; f_equal; field). rewrite Q; lra.
Qed.

(** *** vibrations *)
Lemma unit_some v : rlen2 v <> 0 -> exists k, unit_of v = Some (rvscale k v) /\ k <> 0 /\ k * k * rlen2 v = 1.
Proof.
  intros N. assert (0 <= rlen2 v) by (destruct v; v3u; nra). assert (P : 0 < rlength v) by (apply sqrt_lt_R0; lra). unfold unit_of. destruct (Req_EM_T _ _) as [E|_]; [lra|].
  exists (/ rlength v). split; [reflexivity|]. split; [apply Rinv_neq_0_compat; lra|]. assert (S : rlength v * rlength v = rlen2 v) by (apply sqrt_sqrt; lra). rewrite <- S. field. lra.
Qed.
Lemma unit_none v : rlen2 v = 0 -> unit_of v = None.
Proof. intros Z. unfold unit_of, rlength. rewrite Z, sqrt_0. destruct (Req_EM_T 0 0); [reflexivity|lra]. Qed.
Lemma frame_id d a v : rvscale (rlen2 (rcross d a)) v =
  rvadd (rvscale (rlen2 a * rdot d v - rdot d a * rdot a v) d) (rvadd (rvscale (rlen2 d * rdot a v - rdot d a * rdot d v) a) (rvscale (rdot (rcross d a) v) (rcross d a))).
Proof. destruct d, a, v. v3u. f_equal; ring. Qed.
Lemma lagrange d a : rlen2 (rcross d a) = rlen2 d * rlen2 a - rdot d a * rdot d a.
Proof. destruct d, a. v3u. ring. Qed.
Lemma modes_ok c : (ctyp c = CLinear \/ ctyp c = CPlanar -> rlen2 (cdir c) <> 0) -> ctyp c <> CHyperPlane \/ moveScale c = 0 ->
  (moveScale c <> 0 -> ctyp c = CPlanar -> c0 (cdir c) <> 0 \/ c1 (cdir c) <> 0) ->
  exists l, modesOf c = Some l /\ orthonormal l /\ spans l (atom_ok c).
Proof.
  intros HDn HH HZ. unfold modesOf. destruct (isZero (moveScale c)) eqn:Z.
  { apply isZero_t in Z. exists []. split; [reflexivity|]. split; [split; [intros ? []|constructor]|]. intros v. cbn [fold_right]. split; [intros (A & _); apply A, Z|]. intros ->. split; [reflexivity|]. split; intros; contradiction. }
  apply isZero_f in Z. destruct (ctyp c) eqn:T.
  - exists [V 1 0 0; V 0 1 0; V 0 0 1]. split; [reflexivity|]. split.
    + split; [intros u [<-|[<-|[<-|[]]]]; v3u; ring|]. repeat constructor; v3u; ring.
    + intros v. cbn [fold_right]. split; [intros _; destruct v; v3u; f_equal; ring|]. intros _. split; [intros; contradiction|]. rewrite T. split; intros; discriminate.
  - destruct (unit_some (cdir c) (HDn (or_introl eq_refl))) as (k & E & K & L). rewrite E. exists [rvscale k (cdir c)]. split; [reflexivity|]. split.
    + split; [intros u [<-|[]]; rewrite <- L; destruct (cdir c); v3u; ring|]. repeat constructor.
    + intros v. cbn [fold_right]. split.
      * intros (_ & A & _). destruct (A Z T) as [t ->]. transitivity (rvscale (k * k * rlen2 (cdir c) * t) (cdir c)); [rewrite L; destruct (cdir c); v3u; f_equal; ring|]. generalize (cdir c). intros []. v3u. f_equal; ring.
      * intros A. split; [intros; contradiction|]. split; [|intros _ X; congruence]. intros _ _. exists (rdot (rvscale k (cdir c)) v * k). rewrite A at 1. generalize (rdot (rvscale k (cdir c)) v). intros s. destruct (cdir c). v3u. f_equal; ring.
  - specialize (HZ Z eq_refl). specialize (HDn (or_intror eq_refl)). set (d := cdir c) in *. set (a0 := if Rlt_dec _ _ then V 1 0 0 else V 0 0 1).
    set (a := rvsub a0 (rvscale (rdot d a0 / rlen2 d) d)).
    assert (DA : rdot d a = 0) by (transitivity (rdot d a0 - rdot d a0 / rlen2 d * rlen2 d); [unfold a; generalize (rdot d a0 / rlen2 d); intros s; destruct a0, d; v3u; ring|field; exact HDn]).
    assert (DP : 0 < rlen2 d) by (assert (0 <= rlen2 d) by (destruct d; v3u; nra); lra).
    assert (AN : rlen2 a <> 0).
    { intros X. apply rlen2_zero in X. unfold a in X. apply rvsub_eq in X. unfold a0 in X. destruct (Rlt_dec (Rabs (c0 d)) (Rabs (c1 d))) as [Lt|Ge]; set (s := rdot d _ / rlen2 d) in X; clearbody s; revert X; destruct d as [d0 d1 d2]; cbn [c0 c1] in *; v3u; intros X; injection X as X0 X1 X2.
      - assert (d1 <> 0) by (intros ->; rewrite Rabs_R0 in Lt; assert (Q := Rabs_pos d0); lra). assert (s = 0) by (symmetry in X1; apply Rmult_integral in X1; tauto). subst s. lra.
      - assert (d0 <> 0). { intros ->. destruct HZ as [Q|Q]; [apply Q; reflexivity|]. apply Ge. rewrite Rabs_R0. apply Rabs_pos_lt, Q. } assert (s = 0) by (symmetry in X0; apply Rmult_integral in X0; tauto). subst s. lra. }
    set (b := rcross d a). assert (BL : rlen2 b = rlen2 d * rlen2 a) by (unfold b; rewrite lagrange, DA; ring). assert (BN : rlen2 b <> 0) by (rewrite BL; apply Rmult_integral_contrapositive_currified; assumption).
    destruct (unit_some a AN) as (k & E & K & L). destruct (unit_some b BN) as (j & E' & J & L'). rewrite E, E'. exists [rvscale k a; rvscale j b]. split; [reflexivity|].
    assert (AB : rdot a b = 0) by (unfold b; generalize a; intros [x0 x1 x2]; destruct d; v3u; ring). assert (DB : rdot d b = 0) by (unfold b; generalize a; intros [x0 x1 x2]; destruct d; v3u; ring).
    split.
    + split.
      * intros u [<-|[<-|[]]]; [rewrite <- L; generalize a|rewrite <- L'; generalize b]; intros [x0 x1 x2]; v3u; ring.
      * repeat constructor. transitivity (k * j * rdot a b); [generalize a b; intros [x0 x1 x2] [y0 y1 y2]; v3u; ring|rewrite AB; ring].
    + intros v. cbn [fold_right]. split.
      * intros (_ & _ & A). assert (DV : rdot d v = 0) by (transitivity (rdot v d); [destruct d, v; v3u; ring|apply A; [exact Z|exact T]]).
        assert (F := frame_id d a v). fold b in F. rewrite DA, DV in F. assert (KA : rvscale (rlen2 b) v = rvscale (rlen2 b) (rvadd (rvscale (rdot (rvscale k a) v) (rvscale k a)) (rvadd (rvscale (rdot (rvscale j b) v) (rvscale j b)) (V 0 0 0)))).
        { rewrite F. transitivity (rvadd (rvscale (k * k * rlen2 b * rdot a v) a) (rvscale (j * j * rlen2 b * rdot b v) b)).
          - replace (k * k * rlen2 b * rdot a v) with (rlen2 d * rdot a v) by (rewrite BL; transitivity (k * k * rlen2 a * (rlen2 d * rdot a v)); [rewrite L; ring|ring]). rewrite L'. generalize (rdot a v) (rdot b v) (rlen2 d) (rlen2 a). intros s t p q. clear. generalize d a b. intros [d0 d1 d2] [x0 x1 x2] [y0 y1 y2]. v3u. f_equal; ring.
          - generalize (rlen2 b). intros s. generalize a b. intros [x0 x1 x2] [y0 y1 y2]. destruct v. v3u. f_equal; ring. }
        apply (f_equal (rvscale (/ rlen2 b))) in KA. assert (SC : forall w, rvscale (/ rlen2 b) (rvscale (rlen2 b) w) = w) by (intros w; generalize BN; generalize (rlen2 b); intros s Hs; destruct w; v3u; f_equal; field; exact Hs). rewrite !SC in KA. exact KA.
      * intros A. split; [intros; contradiction|]. split; [intros _ X; congruence|]. intros _ _. rewrite A. fold d. generalize (rdot (rvscale k a) v) (rdot (rvscale j b) v). intros s t.
        transitivity (s * k * rdot d a + t * j * rdot d b); [generalize d a b; intros [d0 d1 d2] [x0 x1 x2] [y0 y1 y2]; v3u; ring|rewrite DA, DB; ring].
  - destruct HH as [HH|HH]; contradiction.
Qed.
Lemma modes_z z : modesOf (Constraint 1 (V 0 0 z) CPlanar []) = None.
Proof.
  unfold modesOf. cbn [moveScale ctyp cdir]. assert (Z1 : isZero 1 = false) by (apply isZero_f; lra). rewrite Z1. cbn [c0 c1]. destruct (Rlt_dec _ _) as [X|_]; [lra|]. set (d := V 0 0 z).
  set (a := rvsub _ _). destruct (Req_EM_T z 0) as [Hz|Hz].
  - assert (B : rcross d a = V 0 0 0) by (unfold d; rewrite Hz; generalize a; intros [x0 x1 x2]; v3u; f_equal; ring). rewrite B. rewrite (unit_none (V 0 0 0)) by (v3u; ring). destruct (unit_of a); reflexivity.
  - assert (A : a = V 0 0 0) by (unfold a, d; v3u; f_equal; field; exact Hz). rewrite A. rewrite unit_none by (v3u; ring). reflexivity.
Qed.
Lemma modes_z_ex : exists c, moveScale c = 1 /\ ctyp c = CPlanar /\ rlen2 (cdir c) = 1 /\ modesOf c = None.
Proof. exists (Constraint 1 (V 0 0 1) CPlanar []). split; [reflexivity|]. split; [reflexivity|]. split; [cbn [cdir]; v3u; ring|apply modes_z]. Qed.
Lemma safe_ex : mnrm2 (rdiag (1/10) 0 0) < maxAllowedStrain /\ frobenius (rdiag 1 2 0) <> 0.
Proof.
  split.
  - apply Rle_lt_trans with (1/10); [apply nrm_le; [lra|]; unfold frobenius; v3u; lra|unfold maxAllowedStrain; lra].
  - unfold frobenius. v3u. lra.
Qed.
