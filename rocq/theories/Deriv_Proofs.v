(** Proofs about differential operators in reciprocal space (C65). *)
From Coq Require Import ZArith Reals List Bool Lia Lra.
From Coquelicot Require Import Complex.
From Verif Require Import Base Grid_Model Grid_Spec Grid_Proofs Vec3_Model Vec3_Facts Convert_Model Convert_Spec Convert_Proofs Basis_Model Basis_Spec Basis_Proofs Deriv_Model Deriv_Spec.
Import ListNotations.
Open Scope C_scope.

Ltac cx := unfold Cconj, Cmult, Cminus, Cplus, Copp, RtoC, Re, Im, iota in *; cbn [fst snd] in *.
Ltac cfield := rewrite ?half_eq; f_equal; field.

(** pointwise adjoints *)
Lemma grad_div_adj G S g x w : cdot3 w (gradient_calc G S g x) = - (Cconj (divergence_calc G S g w) * x).
Proof.
  unfold cdot3, gradient_calc, divergence_calc. generalize (Gvec G g). intros [q0 q1 q2]. destruct w as [(a0,b0) (a1,b1) (a2,b2)], x as (x,y), (is_nyquist S g); cx; cbn [c0 c1 c2]; cx; f_equal; ring.
Qed.
Lemma tgrad_tdiv_adj G S g x t : contract (matrixOfTensor t) (matrixOfTensor (tensorGradient_calc G S g x)) = Cconj (tensorDivergence_calc G S g t) * x.
Proof.
  unfold contract, matrixOfTensor, tensorGradient_calc, tensorDivergence_calc. cbn [t_xy t_yz t_zx t_xxr t_yyr m00 m01 m02 m10 m11 m12 m20 m21 m22].
  generalize (Gvec G g). intros [q0 q1 q2]. unfold rlen2, rdot, gdot. cbn [c0 c1 c2]. destruct t as [(a0,b0) (a1,b1) (a2,b2) (a3,b3) (a4,b4)], x as (x,y), (is_nyquist S g); cbn [t_xy t_yz t_zx t_xxr t_yyr]; cx; f_equal; field.
Qed.
Lemma tgrad_value G S g x : is_nyquist S g = false -> let q := Gvec G g in
  matrixOfTensor (tensorGradient_calc G S g x) =
  M (- x * RtoC (c0 q * c0 q - rlen2 q / 3)) (- x * RtoC (c0 q * c1 q)) (- x * RtoC (c0 q * c2 q))
    (- x * RtoC (c1 q * c0 q)) (- x * RtoC (c1 q * c1 q - rlen2 q / 3)) (- x * RtoC (c1 q * c2 q))
    (- x * RtoC (c2 q * c0 q)) (- x * RtoC (c2 q * c1 q)) (- x * RtoC (c2 q * c2 q - rlen2 q / 3)).
Proof.
  intros N q. unfold matrixOfTensor, tensorGradient_calc. rewrite N. fold q. destruct q as [q0 q1 q2], x as (x,y). unfold rlen2, rdot, gdot. cbn [c0 c1 c2 t_xy t_yz t_zx t_xxr t_yyr]. cx. f_equal; f_equal; field.
Qed.
Lemma gradient_value Rl S g x q : rdet Rl <> 0%R -> wave_vector Rl (V 0 0 0)%R (toVec g) q -> is_nyquist S g = false ->
  gradient_calc (gG Rl) S g x = V (Ci * RtoC (c0 q) * x) (Ci * RtoC (c1 q) * x) (Ci * RtoC (c2 q) * x).
Proof.
  intros H W N. apply wave_unique in W; auto. unfold gradient_calc. rewrite N. cbv zeta.
  assert (E : Gvec (gG Rl) g = q). { rewrite W. unfold Gvec. f_equal. apply vec_ext; v3_unfold; ring. }
  rewrite E. clear. destruct q as [q0 q1 q2], x as (x,y). unfold Ci. cx. cbn [c0 c1 c2]. f_equal; f_equal; ring.
Qed.
(** the symmetric traceless projection *)
Lemma tensor_projection m : matrixOfTensor (tensorOfMatrix m) =
  M (m00 m - RtoC (1/3) * (m00 m + m11 m + m22 m)) (RtoC (1/2) * (m01 m + m10 m)) (RtoC (1/2) * (m02 m + m20 m))
    (RtoC (1/2) * (m10 m + m01 m)) (m11 m - RtoC (1/3) * (m00 m + m11 m + m22 m)) (RtoC (1/2) * (m12 m + m21 m))
    (RtoC (1/2) * (m20 m + m02 m)) (RtoC (1/2) * (m21 m + m12 m)) (m22 m - RtoC (1/3) * (m00 m + m11 m + m22 m)).
Proof.
  destruct m as [(a,a') (b,b') (c,c') (d,d') (e,e') (f,f') (g,g') (h,h') (i,i')]. unfold matrixOfTensor, tensorOfMatrix. cbn [t_xy t_yz t_zx t_xxr t_yyr m00 m01 m02 m10 m11 m12 m20 m21 m22]. cx.
  rewrite half_eq. f_equal; f_equal; field.
Qed.
Lemma tensor_traceless t : symmetric_traceless (matrixOfTensor t).
Proof. destruct t as [(a0,b0) (a1,b1) (a2,b2) (a3,b3) (a4,b4)]. unfold symmetric_traceless, matrixOfTensor. cbn [t_xy t_yz t_zx t_xxr t_yyr m00 m01 m02 m10 m11 m12 m20 m21 m22]. repeat split. cx. f_equal; ring. Qed.
Lemma tensor_pack_unpack t : tensorOfMatrix (matrixOfTensor t) = t.
Proof. destruct t as [(a0,b0) (a1,b1) (a2,b2) (a3,b3) (a4,b4)]. unfold tensorOfMatrix, matrixOfTensor. cbn [t_xy t_yz t_zx t_xxr t_yyr m00 m01 m02 m10 m11 m12 m20 m21 m22]. cx. rewrite half_eq. f_equal; f_equal; field. Qed.
Lemma tensor_fixes m : symmetric_traceless m -> matrixOfTensor (tensorOfMatrix m) = m.
Proof.
  destruct m as [(a,a') (b,b') (c,c') (d,d') (e,e') (f,f') (g,g') (h,h') (i,i')]. rewrite tensor_projection. unfold symmetric_traceless. cbn [m00 m01 m02 m10 m11 m12 m20 m21 m22]. intros (E1&E2&E3&E4).
  injection E1 as -> ->. injection E2 as -> ->. injection E3 as -> ->. rewrite E4. clear. cx. f_equal; f_equal; field.
Qed.
Lemma tensor_selfadjoint m n : contract (matrixOfTensor (tensorOfMatrix m)) n = contract m (matrixOfTensor (tensorOfMatrix n)).
Proof.
  rewrite !tensor_projection. unfold contract. cbn [m00 m01 m02 m10 m11 m12 m20 m21 m22].
  destruct m as [(a,a') (b,b') (c,c') (d,d') (e,e') (f,f') (g,g') (h,h') (i,i')], n as [(k,k') (l,l') (o,o') (p,p') (q,q') (r,r') (s,s') (t,t') (u,u')]. cbn [m00 m01 m02 m10 m11 m12 m20 m21 m22]. cx. f_equal; field.
Qed.
(** l-th order operators *)
Lemma lPhase_conj l : Cconj (lPhase l) = RtoC ((-1) ^ l) * lPhase l.
Proof.
  assert (P : ((-1) ^ l = cos (INR l * PI) /\ sin (INR l * PI) = 0)%R).
  { induction l as [|l (IH&IH')].
    - cbn [pow INR]. rewrite Rmult_0_l, cos_0, sin_0. auto.
    - rewrite S_INR, Rmult_plus_distr_r, Rmult_1_l, neg_cos, neg_sin, IH'. split; [|ring]. cbn [pow]. rewrite IH. ring. }
  destruct P as (P&Q). rewrite P. unfold lPhase. cx. set (t := (INR l * 0.5 * PI)%R).
  assert (E : (INR l * PI = 2 * t)%R) by (unfold t; lra). rewrite E in *. rewrite cos_2a. rewrite sin_2a in Q.
  pose proof (sin2_cos2 t) as SC. unfold Rsqr in SC. set (c := cos t) in *. set (s := sin t) in *.
  assert (Q' : (s * c = 0)%R) by lra. f_equal.
  - replace ((c * c - s * s) * c - 0 * s)%R with (c * (c * c + s * s) - 2 * s * (s * c))%R by ring. rewrite Q'. rewrite Rplus_comm in SC. rewrite SC. ring.
  - replace ((c * c - s * s) * s + 0 * c)%R with (2 * c * (s * c) - s * (s * s + c * c))%R by ring. rewrite Q', SC. ring.
Qed.
Lemma sign_sq l : ((-1) ^ l * (-1) ^ l = 1)%R.
Proof. induction l as [|l IH]; cbn [pow]; [ring|]. replace (-1 * (-1) ^ l * (-1 * (-1) ^ l))%R with ((-1) ^ l * (-1) ^ l)%R by ring. auto. Qed.
Lemma ldot_scale Y : forall w p, length w = length Y -> ldot w (map (fun y => p * RtoC y) Y) = Cconj (lDiv_sum Y w) * p.
Proof.
  induction Y as [|y Y IH]; intros [|v w] p; cbn; try discriminate; intros E; [cx; f_equal; ring|]. rewrite IH by lia.
  destruct v as (a,b), p as (p,p'), (lDiv_sum Y w) as (d,d'). cx. f_equal; ring.
Qed.
Lemma ldiv_adj l nyq Y w x : length w = length Y -> ldot w (lGradient_calc l nyq Y x) = RtoC ((-1) ^ l) * (Cconj (lDivergence_calc l nyq Y w) * x).
Proof.
  intros E. unfold lGradient_calc, lDivergence_calc. rewrite ldot_scale by auto. destruct nyq.
  - generalize ((-1) ^ l)%R, (lDiv_sum Y w). intros a (c,d). destruct x as (x,y). cx. f_equal; ring.
  - assert (F : lPhase l = RtoC ((-1) ^ l) * Cconj (lPhase l)).
    { rewrite lPhase_conj, Cmult_assoc, <- RtoC_mult, sign_sq. destruct (lPhase l). cx. f_equal; ring. }
    rewrite F at 1. generalize ((-1) ^ l)%R, (lDiv_sum Y w), (lPhase l). intros a (c,d) (e,f). destruct x as (x,y). cx. f_equal; ring.
Qed.
(** field level *)
Definition dP (S : V3) (P : Z -> C) : R :=
  let S2 := (v2 S / 2 + 1)%Z in
  let S01 := (v0 S * v1 S)%Z in
  Re (RtoC 2 * zsum (zrange 0 (nG S)) (fun i => P (i * 1)%Z) - zsum (zrange 0 S01) (fun i => P (i * S2)%Z)
     - (if (S2 =? 1)%Z then RtoC 0 else zsum (zrange 0 S01) (fun i => P (i * S2 + S2 - 1)%Z))).
Lemma dot_dP S X Y : dotTilde S X Y = dP S (fun i => Cconj (X i) * Y i). Proof. reflexivity. Qed.
Lemma zsum_ext l f g : (forall i, In i l -> f i = g i) -> zsum l f = zsum l g.
Proof. induction l as [|a l IH]; cbn; intros H; auto. rewrite (H a), IH; auto. Qed.
Lemma zsum_add l f g : zsum l (fun i => f i + g i) = zsum l f + zsum l g.
Proof. induction l as [|a l IH]; cbn; [cx; f_equal; ring|]. rewrite IH. destruct (f a), (g a), (zsum l f), (zsum l g). cx. f_equal; ring. Qed.
Lemma zsum_opp l f : zsum l (fun i => - f i) = - zsum l f.
Proof. induction l as [|a l IH]; cbn; [cx; f_equal; ring|]. rewrite IH. destruct (f a), (zsum l f). cx. f_equal; ring. Qed.
Lemma dP_ext S P Q : (forall i, P i = Q i) -> dP S P = dP S Q.
Proof. intros H. unfold dP. rewrite (zsum_ext _ _ (fun i => Q (i * 1)%Z)), (zsum_ext _ (fun i => P (i * (v2 S / 2 + 1))%Z) (fun i => Q (i * (v2 S / 2 + 1))%Z)), (zsum_ext _ (fun i => P (i * (v2 S / 2 + 1) + (v2 S / 2 + 1) - 1)%Z) (fun i => Q (i * (v2 S / 2 + 1) + (v2 S / 2 + 1) - 1)%Z)); auto. Qed.
Lemma dP_add S P Q : dP S (fun i => P i + Q i) = (dP S P + dP S Q)%R.
Proof.
  unfold dP. rewrite !zsum_add. destruct (v2 S / 2 + 1 =? 1)%Z; repeat match goal with |- context [zsum ?l ?f] => destruct (zsum l f) end; cx; ring.
Qed.
Lemma dP_opp S P : dP S (fun i => - P i) = (- dP S P)%R.
Proof.
  unfold dP. rewrite !zsum_opp. destruct (v2 S / 2 + 1 =? 1)%Z; repeat match goal with |- context [zsum ?l ?f] => destruct (zsum l f) end; cx; ring.
Qed.
Definition dot3 S (W X : Z -> vec C) : R := (dotTilde S (fun i => c0 (W i)) (fun i => c0 (X i)) + dotTilde S (fun i => c1 (W i)) (fun i => c1 (X i)) + dotTilde S (fun i => c2 (W i)) (fun i => c2 (X i)))%R.
Lemma field_adj G S X W : dot3 S W (gradientF G S X) = (- dotTilde S (divergenceF G S W) X)%R.
Proof.
  unfold dot3. rewrite !dot_dP, <- !dP_add, <- dP_opp. apply dP_ext. intros i. unfold gradientF, divergenceF, pointwise. rewrite <- grad_div_adj. reflexivity.
Qed.
Definition dotT S (A B : Z -> tensor) : R := dP S (fun i => contract (matrixOfTensor (A i)) (matrixOfTensor (B i))).
Lemma dotT_parts S A B : dotT S A B =
  (2 * (dotTilde S (fun i => t_xy (A i)) (fun i => t_xy (B i)) + dotTilde S (fun i => t_yz (A i)) (fun i => t_yz (B i)) + dotTilde S (fun i => t_zx (A i)) (fun i => t_zx (B i)))
   + dotTilde S (fun i => t_xxr (A i)) (fun i => t_xxr (B i)) + dotTilde S (fun i => t_yyr (A i)) (fun i => t_yyr (B i))
   + dotTilde S (fun i => (t_xxr (A i) + t_yyr (A i))%C) (fun i => (t_xxr (B i) + t_yyr (B i))%C))%R.
Proof.
  replace (2 * (dotTilde S (fun i => t_xy (A i)) (fun i => t_xy (B i)) + dotTilde S (fun i => t_yz (A i)) (fun i => t_yz (B i)) + dotTilde S (fun i => t_zx (A i)) (fun i => t_zx (B i))))%R
    with (dotTilde S (fun i => t_xy (A i)) (fun i => t_xy (B i)) + dotTilde S (fun i => t_yz (A i)) (fun i => t_yz (B i)) + dotTilde S (fun i => t_zx (A i)) (fun i => t_zx (B i))
     + dotTilde S (fun i => t_xy (A i)) (fun i => t_xy (B i)) + dotTilde S (fun i => t_yz (A i)) (fun i => t_yz (B i)) + dotTilde S (fun i => t_zx (A i)) (fun i => t_zx (B i)))%R by ring.
  rewrite !dot_dP, <- !dP_add. apply dP_ext. intros i. unfold contract, matrixOfTensor. cbn [m00 m01 m02 m10 m11 m12 m20 m21 m22]. destruct (A i) as [(a0,b0) (a1,b1) (a2,b2) (a3,b3) (a4,b4)], (B i) as [(d0,e0) (d1,e1) (d2,e2) (d3,e3) (d4,e4)].
  cbn [t_xy t_yz t_zx t_xxr t_yyr]. cx. f_equal; ring.
Qed.
Lemma field_tadj G S X A : dotT S A (tensorGradientF G S X) = dotTilde S (tensorDivergenceF G S A) X.
Proof. unfold dotT. rewrite dot_dP. apply dP_ext. intros i. unfold tensorGradientF, tensorDivergenceF, pointwise. apply tgrad_tdiv_adj. Qed.
(** real fields *)
Definition herm3 (S : V3) (W : Z -> vec C) : Prop := hermitian_half S (fun i => c0 (W i)) /\ hermitian_half S (fun i => c1 (W i)) /\ hermitian_half S (fun i => c2 (W i)).
Lemma is_nyq_false S g : is_nyquist S g = false <-> (2 * v0 g <> v0 S /\ 2 * v1 g <> v1 S /\ 2 * v2 g <> v2 S)%Z.
Proof. unfold is_nyquist. rewrite !orb_false_iff, !Z.eqb_neq. lia. Qed.
Lemma mirror_pair S g g' : pos3 S -> halfG_point S g -> halfG_point S g' -> same_mod S g' (neg3 g) ->
  is_nyquist S g' = is_nyquist S g /\ (is_nyquist S g = false -> g' = neg3 g).
Proof.
  destruct S as ((a,b),c), g as ((x,y),z), g' as ((x',y'),z'). intros (Ha&Hb&Hc) (Gx&Gy&Gz) (Gx'&Gy'&Gz') (Ex&Ey&Ez).
  apply opp_dim in Ex; [|lia..]. apply opp_dim in Ey; [|lia..]. apply opp_dim in Ez; [|lia..].
  assert (N : is_nyquist (a,b,c) (x,y,z) = false -> (x',y',z') = (-x,-y,-z)%Z).
  { rewrite is_nyq_false. cbn [v0 v1 v2 fst snd]. intros (A&B&C). f_equal; [f_equal|]; lia. }
  split; auto. destruct (is_nyquist (a,b,c) (x,y,z)) eqn:E.
  - destruct (is_nyquist (a,b,c) (x',y',z')) eqn:E'; auto. exfalso. apply is_nyq_false in E'. cbn [v0 v1 v2 fst snd] in E'.
    assert (E2 : is_nyquist (a,b,c) (x,y,z) = false) by (apply is_nyq_false; cbn [v0 v1 v2 fst snd]; lia). congruence.
  - apply is_nyq_false in E. apply is_nyq_false. cbn [v0 v1 v2 fst snd] in *. specialize (N eq_refl). injection N. lia.
Qed.
Lemma coefH_pointwise {A} (f : V3 -> A -> C) S (x : Z -> A) g : pos3 S -> halfG_point S g -> coefH S (pointwise f S x) g = f g (x (row_major S (v2 S / 2 + 1) g)).
Proof.
  intros H G. unfold coefH, pointwise. rewrite third_v2. f_equal. set (i := row_major S (v2 S / 2 + 1) g).
  destruct (halfG_init_spec S i H (half_row_range S g H G)) as (G'&E). apply (half_row_inj S); auto.
Qed.
Lemma Gvec_neg G g : Gvec G (neg3 g) = rvopp (Gvec G g).
Proof. destruct g as ((x,y),z). unfold Gvec, toVec, neg3. cbn [v0 v1 v2 fst snd]. destruct G. v3_unfold. rewrite !opp_IZR. f_equal; ring. Qed.
Lemma div_hermitian G S W : pos3 S -> herm3 S W -> hermitian_half S (divergenceF G S W).
Proof.
  intros H (H0&H1&H2) g g' P P' E. unfold divergenceF. rewrite !coefH_pointwise by auto. destruct (mirror_pair S g g' H P P' E) as (N&F).
  specialize (H0 g g' P P' E). specialize (H1 g g' P P' E). specialize (H2 g g' P P' E). unfold coefH in H0, H1, H2. rewrite third_v2 in *.
  unfold divergence_calc. rewrite N. destruct (is_nyquist S g).
  - generalize (c0 (W (row_major S (v2 S / 2 + 1) g'))), (c1 (W (row_major S (v2 S / 2 + 1) g'))), (c2 (W (row_major S (v2 S / 2 + 1) g'))), (c0 (W (row_major S (v2 S / 2 + 1) g))), (c1 (W (row_major S (v2 S / 2 + 1) g))), (c2 (W (row_major S (v2 S / 2 + 1) g))).
    intros (a,a') (b,b') (c,c') (d,d') (e,e') (f,f'). cx. f_equal; ring.
  - rewrite (F eq_refl) at 1 3 5. rewrite Gvec_neg, H0, H1, H2.
    generalize (Gvec G g), (c0 (W (row_major S (v2 S / 2 + 1) g))), (c1 (W (row_major S (v2 S / 2 + 1) g))), (c2 (W (row_major S (v2 S / 2 + 1) g))).
    intros [q0 q1 q2] (d,d') (e,e') (f,f'). unfold rvopp, gvopp. cbn [c0 c1 c2 vmap]. cx. f_equal; ring.
Qed.
Lemma grad_hermitian G S X : pos3 S -> hermitian_half S X -> herm3 S (gradientF G S X).
Proof.
  intros H HX.
  assert (K0 : forall g g', halfG_point S g -> halfG_point S g' -> same_mod S g' (neg3 g) -> let i := row_major S (v2 S / 2 + 1) g in let i' := row_major S (v2 S / 2 + 1) g' in
     gradient_calc G S g' (X i') = vmap Cconj (gradient_calc G S g (X i))).
  { intros g g' P P' E i i'. destruct (mirror_pair S g g' H P P' E) as (N&F). specialize (HX g g' P P' E). unfold coefH in HX. rewrite third_v2 in HX. fold i i' in HX. rewrite HX.
    unfold gradient_calc. rewrite N. destruct (is_nyquist S g) eqn:Q.
    - destruct (X i) as (x,y). unfold vmap. cbn [c0 c1 c2]. cx. f_equal; f_equal; ring.
    - rewrite (F eq_refl), Gvec_neg. generalize (Gvec G g). intros [q0 q1 q2]. destruct (X i) as (x,y). unfold vmap, rvopp, gvopp, vmap. cbn [c0 c1 c2]. cx. f_equal; f_equal; ring. }
  unfold herm3, gradientF. refine (conj _ (conj _ _)); intros g g' P P' E.
  - change (fun i => c0 (pointwise (gradient_calc G S) S X i)) with (pointwise (fun g x => c0 (gradient_calc G S g x)) S X). rewrite !coefH_pointwise by auto. rewrite (K0 g g' P P' E). reflexivity.
  - change (fun i => c1 (pointwise (gradient_calc G S) S X i)) with (pointwise (fun g x => c1 (gradient_calc G S g x)) S X). rewrite !coefH_pointwise by auto. rewrite (K0 g g' P P' E). reflexivity.
  - change (fun i => c2 (pointwise (gradient_calc G S) S X i)) with (pointwise (fun g x => c2 (gradient_calc G S g x)) S X). rewrite !coefH_pointwise by auto. rewrite (K0 g g' P P' E). reflexivity.
Qed.
(** D keeps the Nyquist frequencies: the derivative of a real field is not a real field *)
Lemma D_not_hermitian : exists S X, pos3 S /\ hermitian_half S X /\ ~ hermitian_half S (DF (V 1 0 0)%R S X).
Proof.
  exists (4,1,1)%Z, (fun _ => RtoC 1). split; [cbn; lia|]. split.
  - intros g g' _ _ _. unfold coefH. cx. f_equal. ring.
  - intros HH. assert (P : pos3 (4,1,1)%Z) by (cbn; lia). assert (G : halfG_point (4,1,1)%Z (2,0,0)%Z) by (cbn; lia).
    specialize (HH (2,0,0)%Z (2,0,0)%Z G G). unfold DF in HH. rewrite coefH_pointwise in HH by auto. unfold D_calc, toVec in HH. cbn [v0 v1 v2 fst snd] in HH.
    assert (X : same_mod (4,1,1)%Z (2,0,0)%Z (neg3 (2,0,0)%Z)) by (cbn; auto). specialize (HH X). cx. v3_unfold. injection HH. lra.
Qed.
Lemma field_tadj_parts G S X A : let B := tensorGradientF G S X in
  (2 * (dotTilde S (fun i => t_xy (A i)) (fun i => t_xy (B i)) + dotTilde S (fun i => t_yz (A i)) (fun i => t_yz (B i)) + dotTilde S (fun i => t_zx (A i)) (fun i => t_zx (B i)))
   + dotTilde S (fun i => t_xxr (A i)) (fun i => t_xxr (B i)) + dotTilde S (fun i => t_yyr (A i)) (fun i => t_yyr (B i))
   + dotTilde S (fun i => (t_xxr (A i) + t_yyr (A i))%C) (fun i => (t_xxr (B i) + t_yyr (B i))%C) = dotTilde S (tensorDivergenceF G S A) X)%R.
Proof. intros B. rewrite <- dotT_parts. apply field_tadj. Qed.
