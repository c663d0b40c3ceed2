(** The minimizer on quadratic energies. *)
From Coq Require Import Reals ZArith List Bool Arith Lia Lra.
From Verif Require Import XR_Model XR_Facts VecOps Converge_Model Minimize_Model Minimize_Spec Minimize_Proofs LBFGS_Spec LinSolve_Model LinSolve_Spec LinSolve_Proofs LinSolve_Proofs3 MinQuad_Spec.
Import ListNotations.
Open Scope R_scope.

Section Q.
Context {V : Type} (o : Objective V V) (p : MinParams) (v : VectorOps V) (A K : V -> V) (b : V) (c : R).
Hypothesis laws : vector_laws v.
Hypothesis linA : linear v A.
Hypothesis symA : symmetric v A.
Hypothesis Q : quadratic_energy o v A K b c.
Notation "x ** y" := (v_dot v x y) (at level 40).
Definition En x := x ** A x / 2 - b ** x + c.
Definition Gr x := v_add v (A x) (v_scal v (-1) b).

Lemma linadd x y : A (v_add v x y) = v_add v (A x) (A y). Proof. apply linA. Qed.
Lemma linscal a x : A (v_scal v a x) = v_scal v a (A x). Proof. apply linA. Qed.
Lemma En_line x d a : En (v_add v x (v_scal v a d)) = En x + a * (Gr x ** d) + a * a / 2 * (A d ** d).
Proof.
  unfold En, Gr. rewrite linadd, linscal. rewrite !(vl_dot_add v laws), !(vl_dot_scal v laws).
  rewrite !(dotC v laws (v_add v x (v_scal v a d)) _), !(vl_dot_add v laws), !(vl_dot_scal v laws).
  rewrite (dotC v laws (v_add v (A x) _) d), !(vl_dot_add v laws), !(vl_dot_scal v laws).
  rewrite (symA x d), (dotC v laws (A x) x), (dotC v laws d (A x)), (symA x d), (dotC v laws d b), (dotC v laws (A d) x). field.
Qed.
Lemma Gr_line x d a : Gr (v_add v x (v_scal v a d)) = axpy v a (A d) (Gr x).
Proof. unfold Gr, axpy. rewrite linadd, linscal. rewrite <- !(vl_add_assoc v laws). f_equal. apply (vl_add_comm v laws). Qed.
Lemma step2 x d a a' : v_add v (v_add v x (v_scal v a d)) (v_scal v (a' - a) d) = v_add v x (v_scal v a' d).
Proof. rewrite <- (vl_add_assoc v laws), <- (vl_scal_plus v laws). f_equal. f_equal. ring. Qed.

Variables (tm red inc : R).
Hypothesis Htm : mp_alphaTmin p = Fin tm. Hypothesis Hred : mp_reduce p = Fin red. Hypothesis Hinc : mp_increase p = Fin inc.
Hypothesis Ptm : 0 < tm. Hypothesis Pinc : 1 <= inc. Hypothesis Pri : red * inc <= 1.
Lemma test_exact d x k : Gr x ** d < 0 -> 0 < A d ** d -> forall aT al aP, tm <= aT -> (0 < k)%nat -> exists aP',
  quadTest o p k d (Fin (En x)) (Fin (Gr x ** d)) (Fin aT) al (Fin aP) (v_add v x (v_scal v aP d)) =
  TestEnd (Fin (- (Gr x ** d) / (A d ** d))) (Fin aP') (v_add v x (v_scal v aP' d)).
Proof.
  intros G D. set (as_ := - (Gr x ** d) / (A d ** d)). assert (Pa : 0 < as_) by (apply Rdiv_lt_0_compat; lra). induction k as [|k IH]; intros aT al aP Ha Hk; [lia|]. cbn [quadTest].
  rewrite Htm. replace (xltb (Fin aT) (Fin tm)) with false by (symmetry; cbn; apply Rltb_false; lra).
  cbn [xsub xopp xadd]. rewrite (qe_step _ _ _ _ _ _ Q). replace (aT + - aP) with (aT - aP) by ring. rewrite step2. rewrite (qe_E _ _ _ _ _ _ Q). fold (En (v_add v x (v_scal v aT d))). rewrite En_line. cbn [isfin negb xmul xsub xopp xadd xdiv].
  destruct (Req_EM_T _ 0) as [Z|N].
  { exfalso. assert (0 < aT * aT * (A d ** d)) by (apply Rmult_lt_0_compat; [apply Rmult_lt_0_compat; lra|lra]). lra. }
  replace (1 / 2 * (aT * aT) * (Gr x ** d) / _) with as_. 2:{ unfold as_. field. split; lra. }
  replace (xltb (Fin as_) (Fin 0)) with false by (symmetry; cbn; apply Rltb_false; lra). cbn [xdiv]. destruct (Req_EM_T aT 0) as [Z|_]; [lra|].
  rewrite Hinc, Hred. destruct (Rlt_dec inc (as_ / aT)) as [L|L].
  { replace (xltb (Fin inc) (Fin (as_ / aT))) with true by (symmetry; cbn; apply Rltb_true; lra). cbn [xmul]. destruct k as [|k]. { exists aT. reflexivity. }
    apply IH; [|lia]. apply Rle_trans with (aT * 1); [lra|]. apply Rmult_le_compat_l; lra. }
  { replace (xltb (Fin inc) (Fin (as_ / aT))) with false by (symmetry; cbn; apply Rltb_false; lra). destruct (Req_EM_T as_ 0) as [Z|_]; [lra|].
    replace (xltb (Fin (aT / as_)) (Fin red)) with false. { exists aT. reflexivity. }
    symmetry. cbn. apply Rltb_false. assert (as_ <= inc * aT). { apply Rnot_lt_le in L. apply (Rmult_le_compat_r aT) in L; [|lra]. unfold Rdiv in L. rewrite Rmult_assoc, Rinv_l, Rmult_1_r in L; lra. }
    apply (Rmult_le_reg_r as_); [lra|]. unfold Rdiv. rewrite Rmult_assoc, Rinv_l, Rmult_1_r by lra.
    destruct (Rle_dec red 0) as [Z|Z]. { apply Rle_trans with 0; [|lra]. assert (0 <= (- red) * as_) by (apply Rmult_le_pos; lra). lra. }
    apply Rle_trans with (red * (inc * aT)); [apply Rmult_le_compat_l; lra|]. rewrite <- Rmult_assoc. rewrite <- (Rmult_1_l aT) at 2. apply Rmult_le_compat_r; lra. }
Qed.
Theorem quad_exact x d aT al : (0 < mp_nAdjust p)%Z -> Gr x ** d < 0 -> 0 < A d ** d -> tm <= aT ->
  let a := - (Gr x ** d) / (A d ** d) in let y := v_add v x (v_scal v a d) in
  linminQuad o p x d (Fin aT) al (ob_E o x) (ob_g o x) (ob_Kg o x) = mkLR true (Fin a) (ob_E o y) (ob_g o y) (ob_Kg o y) y.
Proof.
  intros NA G D Ha a y. unfold linminQuad. rewrite (proj1 (qe_ops _ _ _ _ _ _ Q)), (qe_g _ _ _ _ _ _ Q). fold (Gr x).
  replace (xleb (Fin 0) (Fin (Gr x ** d))) with false by (symmetry; cbn; apply Rleb_false; lra). rewrite (qe_E _ _ _ _ _ _ Q). fold (En x).
  destruct (test_exact d x (Z.to_nat (mp_nAdjust p)) G D aT al 0 Ha ltac:(lia)) as (aP & T). rewrite (vl_scal_zero v laws), (vl_add_zero v laws) in T. rewrite T. cbn [isfin negb].
  destruct (Z.to_nat (mp_nAdjust p)) as [|k] eqn:Ek; [lia|]. cbn [quadStep xsub xopp xadd]. fold a. rewrite (qe_step _ _ _ _ _ _ Q). replace (a + - aP) with (a - aP) by ring. rewrite step2. fold y. rewrite (qe_E _ _ _ _ _ _ Q y). fold (En y). cbn [isfin negb].
  assert (L : En y <= En x). { unfold y. rewrite En_line. unfold a. set (g := Gr x ** d) in *. set (w := A d ** d) in *. replace (En x + - g / w * g + - g / w * (- g / w) / 2 * w) with (En x - g * g / w / 2) by (field; lra).
    assert (0 <= g * g / w). { apply Rmult_le_pos; [|left; apply Rinv_0_lt_compat; lra]. assert (X := Rle_0_sqr g). exact X. } lra. }
  replace (xltb (Fin (En x)) (Fin (En y))) with false by (symmetry; cbn; apply Rltb_false; lra). reflexivity.
Qed.
End Q.

Section L.
Context {V : Type} (o : Objective V V) (p : MinParams) (v : VectorOps V) (A K : V -> V) (b : V) (c : R).
Hypothesis laws : vector_laws v.
Hypothesis linA : linear v A.
Hypothesis linK : linear v K.
Hypothesis symA : symmetric v A.
Hypothesis symK : symmetric v K.
Hypothesis defA : definite v A.
Hypothesis defK : definite v K.
Hypothesis Q : quadratic_energy o v A K b c.
Variables (t0 tm red inc thr : R).
Hypothesis Ht0 : mp_alphaTstart p = Fin t0. Hypothesis Htm : mp_alphaTmin p = Fin tm. Hypothesis Hred : mp_reduce p = Fin red. Hypothesis Hinc : mp_increase p = Fin inc.
Hypothesis Ptm : 0 < tm. Hypothesis Pt0 : tm <= t0. Hypothesis Pinc : 1 <= inc. Hypothesis Pri : red * inc <= 1. Hypothesis NA : (0 < mp_nAdjust p)%Z.
Hypothesis Sch : cg_scheme p.
Hypothesis Nt : norm_threshold p thr.
Notation "x ** y" := (v_dot v x y) (at level 40).
Notation Gr := (Gr v A b). Notation En := (En v A b c).
Notation dotC := (dotC v laws).

Definition dec (q : list xr) : Prop := forall l1 x y l2, q = l1 ++ x :: y :: l2 -> exists a a', x = Fin a /\ y = Fin a' /\ a' < a.
Definition ChkOK (chk : EdiffCheck) (E : R) : Prop := ed_thr chk = Fin 0 /\ (0 < ed_n chk)%nat /\ (ed_q chk = [] \/ (dec (ed_q chk) /\ exists l a, ed_q chk = l ++ [Fin a] /\ E < a)).
Lemma dec_tl x q : dec (x :: q) -> dec q.
Proof. intros D l1 y z l2 E. apply (D (x :: l1) y z l2). rewrite E. reflexivity. Qed.
Lemma dec_snoc l a a' : dec (l ++ [Fin a]) -> a' < a -> dec ((l ++ [Fin a]) ++ [Fin a']).
Proof.
  intros D L l1 x y l2 E. destruct (exists_last (l := y :: l2)) as (l3 & w & E3); [discriminate|]. assert (E' : (l ++ [Fin a]) ++ [Fin a'] = (l1 ++ x :: l3) ++ [w]). { rewrite E. rewrite <- app_assoc. cbn [app]. rewrite <- E3. reflexivity. }
  apply app_inj_tail in E'. destruct E' as (E1 & <-). destruct l3 as [|y' l3].
  { injection E3 as -> ->. apply app_inj_tail in E1. destruct E1 as (_ & <-). exists a, a'. auto. }
  { injection E3 as -> ->. apply (D l1 x y' l3). exact E1. }
Qed.
Lemma chk_ok chk E : ChkOK chk E -> exists chk', ediffCheck chk (Fin E) = (chk', false) /\ forall E', E' < E -> ChkOK chk' E'.
Proof.
  intros (T & N & H). unfold ediffCheck. assert (S1 : forall E', E' < E -> ChkOK (EDC [Fin E] (ed_n chk) (ed_thr chk)) E').
  { intros E' L. split; [exact T|]. split; [exact N|]. right. split. { intros l1 x y l2 F. destruct l1 as [|? [|? l1]]; discriminate. } exists [], E. split; [reflexivity|exact L]. }
  destruct H as [->|(D & l & a & Eq & L)]; [cbn [rev]; eexists; split; [reflexivity|exact S1]|]. rewrite Eq, rev_app_distr. cbn [rev app].
  replace (xleb (Fin a) (Fin E)) with false by (symmetry; cbn; apply Rleb_false; lra).
  assert (D2 : dec ((l ++ [Fin a]) ++ [Fin E])) by (apply dec_snoc; [rewrite <- Eq; auto|auto]). set (q1 := (l ++ [Fin a]) ++ [Fin E]) in *. set (q2 := if length q1 =? ed_n chk + 2 then tl q1 else q1).
  assert (D3 : dec q2 /\ exists l' , q2 = l' ++ [Fin E]).
  { unfold q2. destruct (length q1 =? ed_n chk + 2); [|split; [auto|exists (l ++ [Fin a]); reflexivity]]. unfold q1 in *. destruct l as [|x l]; cbn [app tl] in *. { split; [apply (dec_tl _ _ D2)|exists []; reflexivity]. } { split; [apply (dec_tl _ _ D2)|eexists; reflexivity]. } }
  destruct D3 as (D3 & l' & E3). eexists. split.
  { f_equal. destruct (length q2 =? ed_n chk + 1) eqn:E4; [|reflexivity]. apply Nat.eqb_eq in E4. destruct q2 as [|x [|y q2]]; [cbn in E4; lia|cbn in E4; lia|]. destruct (D3 [] x y q2 eq_refl) as (a1 & a2 & -> & -> & L2).
    cbn [anyLargeDrop]. rewrite T. cbn [xsub xopp xadd]. replace (xltb (Fin a2) (Fin (a1 + - 0))) with true by (symmetry; cbn; apply Rltb_true; lra). reflexivity. }
  { intros E' L'. split; [exact T|]. split; [exact N|]. right. split; [exact D3|]. exists l', E. split; auto. }
Qed.
Lemma gr_res x : Gr x = v_scal v (-1) (axpy v (-1) (A x) b).
Proof.
  unfold MinQuad_Proofs.Gr, axpy. rewrite (vl_scal_add v laws), <- (vl_scal_mult v laws). replace (-1 * -1) with 1 by ring. rewrite (vl_scal_one v laws). apply (vl_add_comm v laws).
Qed.
Lemma neg_neg x y : v_scal v (-1) x ** v_scal v (-1) y = x ** y.
Proof. rewrite (vl_dot_scal v laws), dotC, (vl_dot_scal v laws), dotC. ring. Qed.
Lemma neg_r x y : x ** v_scal v (-1) y = - (x ** y). Proof. rewrite (vl_dot_scal v laws). ring. Qed.
Lemma neg_l x y : v_scal v (-1) x ** y = - (x ** y). Proof. rewrite dotC, neg_r, dotC. ring. Qed.
Lemma Kneg x : K (v_scal v (-1) x) = v_scal v (-1) (K x). Proof. apply linK. Qed.
Lemma oE x : ob_E o x = Fin (En x). Proof. apply (qe_E _ _ _ _ _ _ Q). Qed.
Lemma oG x : ob_g o x = v_scal v (-1) (axpy v (-1) (A x) b). Proof. rewrite (qe_g _ _ _ _ _ _ Q). apply gr_res. Qed.
Lemma oK x : ob_Kg o x = v_scal v (-1) (K (axpy v (-1) (A x) b)). Proof. rewrite (qe_Kg _ _ _ _ _ _ Q), oG, Kneg. reflexivity. Qed.
Lemma odot x y : ob_dot o x y = Fin (x ** y). Proof. apply (qe_ops _ _ _ _ _ _ Q). Qed.

Definition PrevOK (force : bool) (r d dM gPrev : V) (rzP : R) (gKP : xr) : Prop :=
  (force = true /\ rzP = 0) \/ (force = false /\ dM = d /\ 0 < rzP /\ gKP = Fin rzP /\ exists rP, gPrev = v_scal v (-1) rP /\ r ** K rP = 0 /\ r ** d = 0 /\ rP ** d = rzP).
Lemma dir_match force r d dM gPrev rzP gKP x : PrevOK force r d dM gPrev rzP gKP -> 0 < r ** K r ->
  let beta := newBeta o p force (v_scal v (-1) r) (v_scal v (-1) (K r)) gPrev dM (Fin (r ** K r)) gKP in
  ob_constrain o x (ob_axpy o (Fin (-1)) (v_scal v (-1) (K r)) (ob_scale o beta dM)) = newdir v (K r) d (r ** K r) rzP.
Proof.
  intros P Pr. cbv zeta. rewrite (qe_constrain _ _ _ _ _ _ Q). destruct (qe_ops _ _ _ _ _ _ Q) as (_ & O2 & O3). unfold newdir, newBeta. destruct P as [(-> & ->)|(-> & -> & Pz & -> & rP & -> & Z1 & Z2 & Z3)].
  { rewrite O2, O3, <- (vl_scal_mult v laws). replace (-1 * -1) with 1 by ring. rewrite (vl_scal_one v laws), (vl_scal_zero v laws). rewrite (proj2 (Reqb_true 0 0) eq_refl). rewrite (vl_add_comm v laws). apply (vl_add_zero v laws). }
  rewrite (proj2 (Reqb_false rzP 0)) by lra. rewrite !odot, !neg_neg, !neg_l, !neg_r, Z2, (dotC d rP), Z3. rewrite <- (symK rP r), (dotC (K rP) r), Z1.
  set (bt := r ** K r / rzP). assert (0 < bt) by (apply Rdiv_lt_0_compat; auto).
  assert (B : (match mp_dir p with FletcherReeves => xdiv (Fin (r ** K r)) (Fin rzP) | PolakRibiere => xdiv (xsub (Fin (r ** K r)) (Fin 0)) (Fin rzP) | HestenesStiefel => xdiv (xsub (Fin (r ** K r)) (Fin 0)) (xsub (Fin (- 0)) (Fin (- rzP))) | _ => Fin 0 end) = Fin bt).
  { destruct Sch as (Sd & _). assert (N : rzP <> 0) by lra. assert (X1 : r ** K r + - 0 = r ** K r) by ring. assert (X2 : - 0 + - - rzP = rzP) by ring. destruct Sd as [-> | [-> | ->]]; cbn [xsub xopp xadd xdiv]; rewrite ?X1, ?X2; destruct (Req_EM_T rzP 0); [contradiction|reflexivity|contradiction|reflexivity|contradiction|reflexivity]. }
  rewrite B. replace (xltb (Fin bt) (Fin 0)) with false by (symmetry; cbn; apply Rltb_false; lra). rewrite O2, O3, <- (vl_scal_mult v laws). replace (-1 * -1) with 1 by ring. reflexivity.
Qed.
Lemma kn_ok r Kg : 0 < r ** K r -> xltb (xabs (knorm o p (Fin (r ** K r)) Kg)) (mp_knormThr p) = Rltb (rzNorm (mp_nDim p) (r ** K r)) thr.
Proof.
  intros P. destruct Nt as (Tk & Pt & Pn & Hm & _). unfold knorm, xcopysign, rzNorm. rewrite Hm, Tk. cbn [xabs xdiv]. destruct (Req_EM_T (mp_nDim p) 0) as [Z|_]; [lra|].
  assert (0 <= Rabs (r ** K r) / mp_nDim p) by (apply Rmult_le_pos; [apply Rabs_pos|left; apply Rinv_0_lt_compat; auto]). unfold xsqrt. destruct (Rlt_dec _ 0) as [L|_]; [lra|].
  replace (xltb (Fin (r ** K r)) (Fin 0)) with false by (symmetry; cbn; apply Rltb_false; lra). cbn [xabs xltb]. rewrite Rabs_Rabsolu, Rabs_right; [reflexivity|]. apply Rle_ge, sqrt_pos.
Qed.
Lemma kn_ok0 r Kg : r ** K r = 0 -> xltb (xabs (knorm o p (Fin (r ** K r)) Kg)) (mp_knormThr p) = true.
Proof.
  intros ->. destruct Nt as (Tk & Pt & Pn & Hm & _). unfold knorm, xcopysign. rewrite Hm, Tk. cbn [xabs xdiv]. destruct (Req_EM_T (mp_nDim p) 0) as [Z|_]; [lra|].
  rewrite Rabs_R0. unfold Rdiv. rewrite Rmult_0_l. unfold xsqrt. destruct (Rlt_dec 0 0) as [L|_]; [lra|]. rewrite sqrt_0. replace (xltb (Fin 0) (Fin 0)) with false by (symmetry; cbn; apply Rltb_false; lra). cbn [xabs xltb]. rewrite !Rabs_R0. apply Rltb_true. auto.
Qed.
Lemma pos r : r ** K r <> 0 -> 0 < r ** K r. Proof. intros N. apply defK. exists (K r). auto. Qed.
Lemma min_conv k iter chk x r gPrev dM force aT al gKP n : r = axpy v (-1) (A x) b -> Rltb (rzNorm (mp_nDim p) (r ** K r)) thr = true ->
  minLoop o p (fun _ => false) k iter chk (ob_E o x) (ob_g o x) (ob_Kg o x) gPrev dM force aT al gKP x n = MinDone (ob_E o x) x n.
Proof.
  intros Er C. assert (CK : xltb (xabs (knorm o p (ob_dot o (ob_g o x) (ob_Kg o x)) (ob_Kg o x))) (mp_knormThr p) = true).
  { rewrite odot. replace (ob_g o x ** ob_Kg o x) with (r ** K r) by (rewrite oG, oK, <- Er, neg_neg; reflexivity). destruct (Req_dec (r ** K r) 0) as [Z|N]; [apply kn_ok0; auto|rewrite kn_ok; auto; apply pos; auto]. }
  assert (CV : forall e, converged p (knorm o p (ob_dot o (ob_g o x) (ob_Kg o x)) (ob_Kg o x)) e = true). { intros e. unfold converged. rewrite CK. destruct Nt as (_ & _ & _ & _ & Hc & _). rewrite Hc. destruct e; reflexivity. }
  destruct k; cbn [minLoop]; rewrite (qe_report _ _ _ _ _ _ Q); destruct (ediffCheck chk (ob_E o x)) as (chk', e); rewrite CV; reflexivity.
Qed.
Lemma axpy_res x d a r : r = axpy v (-1) (A x) b -> axpy v (- a) (A d) r = axpy v (-1) (A (axpy v a d x)) b.
Proof.
  intros ->. unfold axpy. rewrite (proj1 linA), (proj2 linA), (vl_scal_add v laws), <- (vl_scal_mult v laws). rewrite <- (vl_add_assoc v laws). do 3 f_equal. ring.
Qed.
Lemma loop_match k : forall iter jter chk x r d rzP tr rs ds gPrev dM force aT al gKP n,
  r = axpy v (-1) (A x) b -> Inv v A K rs ds r d rzP -> r ** K r <> 0 -> Rltb (rzNorm (mp_nDim p) (r ** K r)) thr = false -> tm <= aT -> ChkOK chk (En x) -> PrevOK force r d dM gPrev rzP gKP ->
  let out := solveLoop v A K (fun _ => false) k jter (mp_nDim p) thr x r (K r) d (r ** K r) rzP tr in
  exists y, so_state out = Some y /\ (length tr <= length (so_trace out))%nat /\
    minLoop o p (fun _ => false) k iter chk (ob_E o x) (ob_g o x) (ob_Kg o x) gPrev dM force (Fin aT) al gKP x n = MinDone (ob_E o y) y (n + (length (so_trace out) - length tr))%nat.
Proof.
  induction k as [|k IH]; intros iter jter chk x r d rzP tr rs ds gPrev dM force aT al gKP n Er I NZ NC Ha CO PO out.
  all: assert (EG : ob_g o x = v_scal v (-1) r) by (rewrite oG, <- Er; reflexivity).
  all: assert (EK : ob_Kg o x = v_scal v (-1) (K r)) by (rewrite oK, <- Er; reflexivity).
  all: assert (P := pos r NZ).
  all: assert (CV : converged p (knorm o p (Fin (r ** K r)) (v_scal v (-1) (K r))) false = false) by (unfold converged; rewrite kn_ok, NC by auto; destruct (mp_convergeAll p); reflexivity).
  all: destruct (chk_ok chk (En x) CO) as (chk' & EC & CO').
  { exists x. cbn in out. unfold out. cbn [so_state so_trace]. split; [reflexivity|]. split; [lia|]. cbn [minLoop]. rewrite (qe_report _ _ _ _ _ _ Q), EG, EK, odot, neg_neg, oE, EC, CV. cbn [isfin negb]. rewrite Nat.sub_diag, Nat.add_0_r. reflexivity. }
  cbn [minLoop]. rewrite (qe_report _ _ _ _ _ _ Q), EG, EK, odot, neg_neg, oE, EC, CV. cbn [isfin negb]. rewrite (dir_match _ _ _ _ _ _ _ x PO P).
  unfold out. cbn [solveLoop]. fold (newdir v (K r) d (r ** K r) rzP). destruct (inv_dir v A K laws symK rs ds r d rzP I NZ) as (D1 & D2 & D3). assert (I1 := inv_step v A K laws symA symK rs ds r d rzP I NZ). cbv zeta in I1. set (d1 := newdir v (K r) d (r ** K r) rzP) in *.
  assert (PW : 0 < A d1 ** d1). { rewrite dotC. apply defA. exists r. rewrite dotC, D1. auto. }
  rewrite (proj2 (Reqb_false _ 0)) by lra. specialize (I1 ltac:(lra)). rewrite (qe_safe _ _ _ _ _ _ Q). replace (xmin (Fin aT) PInf) with (Fin aT) by reflexivity.
  assert (EQ : linmin o p x d1 (Fin aT) al (Fin (En x)) (v_scal v (-1) r) (v_scal v (-1) (K r)) = linminQuad o p x d1 (Fin aT) al (ob_E o x) (ob_g o x) (ob_Kg o x)).
  { rewrite oE, EG, EK. unfold linmin. destruct Sch as ([-> | [-> | ->]] & [->| ->]); reflexivity. }
  rewrite EQ. assert (GD : Gr x ** d1 = - (r ** K r)) by (rewrite gr_res, <- Er, neg_l, D1; reflexivity).
  rewrite (quad_exact o p v A K b c laws linA symA Q tm red inc Htm Hred Hinc Ptm Pinc Pri x d1 aT al NA) by (auto; lra).
  rewrite GD. replace (- - (r ** K r) / (A d1 ** d1)) with (r ** K r / (A d1 ** d1)) by (unfold Rdiv; ring). set (a := r ** K r / (A d1 ** d1)) in *. assert (Pa : 0 < a) by (apply Rdiv_lt_0_compat; lra). change (v_add v x (v_scal v a d1)) with (axpy v a d1 x).
  assert (EnL : En (axpy v a d1 x) < En x). { unfold axpy. rewrite (En_line v A b c laws linA symA). rewrite GD. unfold a. replace (En x + r ** K r / (A d1 ** d1) * - (r ** K r) + r ** K r / (A d1 ** d1) * (r ** K r / (A d1 ** d1)) / 2 * (A d1 ** d1)) with (En x - (r ** K r) * a / 2) by (unfold a; field; lra). assert (0 < (r ** K r) * a) by (apply Rmult_lt_0_compat; auto). lra. }
  assert (Er1 := axpy_res x d1 a r Er). set (x1 := axpy v a d1 x) in *. set (r1 := axpy v (- a) (A d1) r) in *. cbn [lr_ok lr_alpha lr_E lr_g lr_Kg lr_st].
  destruct (Rltb (rzNorm (mp_nDim p) (r1 ** K r1)) thr) eqn:C1.
  { exists x1. cbn [so_state so_trace]. rewrite app_length. cbn [length]. split; [reflexivity|]. split; [lia|]. rewrite min_conv with (r := r1) by auto. f_equal. lia. }
  assert (HaT : exists aT', tm <= aT' /\ (if mp_updateTest p then if xltb (Fin a) (mp_alphaTmin p) then mp_alphaTstart p else Fin a else Fin aT) = Fin aT').
  { rewrite Htm, Ht0. cbn [xltb]. destruct (mp_updateTest p); [|exists aT; auto]. destruct (Rltb a tm) eqn:L; [exists t0; auto|]. apply Rltb_false in L. exists a. auto. }
  destruct HaT as (aT' & Ha' & ->). destruct I1 as (J1 & J2 & J3).
  destruct (IH (S iter) (S jter) chk' x1 r1 d1 (r ** K r) (tr ++ [mkIt x1 r1 (r1 ** K r1)]) (r :: rs) (d1 :: ds) (v_scal v (-1) r) d1 false aT' (Fin a) (Fin (r ** K r)) (S n)) as (y & Y1 & Y2 & Y3); auto.
  { split; [auto|]. split; auto. }
  { destruct Nt as (_ & Pt & _). apply (thr_nz (mp_nDim p) thr); auto. }
  { right. split; [reflexivity|]. split; [reflexivity|]. split; [auto|]. split; [reflexivity|]. exists r. split; [reflexivity|]. split; [apply J2; left; auto|]. split; [apply J1; left; auto|exact D1]. }
  exists y. split; [exact Y1|]. rewrite app_length in Y2, Y3. cbn [length] in Y2, Y3. split; [lia|]. rewrite Y3. f_equal. lia.
Qed.
End L.

Theorem min_solve V (o : Objective V V) p v A K b c thr : vector_laws v -> linear v A -> linear v K -> symmetric v A -> symmetric v K -> definite v A -> definite v K ->
  quadratic_energy o v A K b c -> step_settings p -> cg_scheme p -> norm_threshold p thr -> forall x,
  let out := solve v A K (fun _ => false) (mp_nIter p) (mp_nDim p) thr b x in
  exists y, so_state out = Some y /\ minimize o p (fun _ => false) x = LDone (ob_E o y) y (length (so_trace out) - 1).
Proof.
  intros laws linA linK symA symK defA defK Q (t0 & tm & red & inc & H1 & H2 & H3 & H4 & P1 & P2 & P3 & P4 & P5) Sch Nt x.
  assert (M : minimize o p (fun _ => false) x = match minimizeCG o p (fun _ => false) x with MinDone E st' n => LDone E st' n | MinDie st' => LDie st' end).
  { unfold minimize. destruct Sch as ([-> | [-> | ->]] & _); reflexivity. }
  rewrite M. unfold minimizeCG, solve. set (r := axpy v (-1) (A x) b). cbv zeta. destruct (Rltb (rzNorm (mp_nDim p) (v_dot v r (K r))) thr) eqn:C.
  { exists x. split; [reflexivity|]. rewrite (min_conv o p v A K b c laws linK defK Q thr Nt) with (r := r) by auto. reflexivity. }
  rewrite H1.
  destruct (start_ok v A K r r x 0) as [I _]. assert (NZ : v_dot v r (K r) <> 0) by (destruct Nt as (_ & Pt & _); apply (thr_nz (mp_nDim p) thr); auto).
  destruct (loop_match o p v A K b c laws linA linK symA symK defA defK Q t0 tm red inc thr H1 H2 H3 H4 P1 P2 P3 P4 P5 Sch Nt (Z.to_nat (mp_nIter p)) 0 0
    (mkEdiffCheck (mp_nEdiff p) (mp_ediffThr p)) x r r 0 [mkIt x r (v_dot v r (K r))] [] [] (ob_g o x) (ob_constrain o x (ob_Kg o x)) true t0 (Fin t0) (Fin 0) 0 eq_refl I NZ C P2) as (y & Y1 & Y2 & Y3).
  { destruct Nt as (_ & _ & _ & _ & _ & Te & Ne). unfold mkEdiffCheck. rewrite Te. split; [cbn; rewrite Rabs_R0; reflexivity|]. split; [exact Ne|]. left. reflexivity. }
  { left. auto. }
  exists y. split; [exact Y1|]. rewrite Y3. reflexivity.
Qed.

(** Lines 101-107 of linminQuad: with all energies finite the test step is never reduced. *)
Theorem no_reduce {St V} (o : Objective St V) p t red inc : mp_reduce p = Fin red -> mp_increase p = Fin inc -> 1 <= inc -> red * inc <= 1 -> 0 < t -> (forall st, isfin (ob_E o st) = true) ->
  forall k d E gd al st a aP st', (0 < k)%nat -> quadTest o p k d E gd (Fin t) al (Fin 0) st = TestEnd a aP st' -> exists t', aP = Fin t' /\ t <= t'.
Proof.
  intros Hr Hi Pi Pri Pt F k d E gd al st a aP st' Hk. assert (G : forall k t1 al a0 st, (0 < k)%nat -> t <= t1 -> quadTest o p k d E gd (Fin t1) al a0 st = TestEnd a aP st' -> exists t', aP = Fin t' /\ t <= t').
  { clear k Hk al st. induction k as [|k IH]; intros t1 al a0 st Hk Ht; [lia|]. cbn [quadTest]. destruct (xltb (Fin t1) (mp_alphaTmin p)); [discriminate|]. rewrite F. cbn [negb].
    match goal with |- context [xdiv ?x ?y] => set (a1 := xdiv x y) end. destruct (xltb a1 (Fin 0)) eqn:L0; [discriminate|]. rewrite Hi, Hr.
    assert (GO : forall k t2 al, t1 <= t2 -> (k = O \/ (0 < k)%nat) -> (forall t1 al a0 st, (0 < k)%nat -> t <= t1 -> quadTest o p k d E gd (Fin t1) al a0 st = TestEnd a aP st' -> exists t', aP = Fin t' /\ t <= t') ->
      forall st, quadTest o p k d E gd (Fin t2) al (Fin t1) st = TestEnd a aP st' -> exists t', aP = Fin t' /\ t <= t').
    { clear IH. intros k' t2 al' L2 [-> | Hk'] IH st2; [cbn [quadTest]; intros X; injection X as _ <- _; exists t1; auto|]. apply IH; [auto|lra]. }
    destruct (xltb (Fin inc) (xdiv a1 (Fin t1))) eqn:L1. { cbn [xmul]. apply GO; [|lia|exact IH]. assert (t1 * 1 <= t1 * inc) by (apply Rmult_le_compat_l; lra). lra. }
    assert (L2 : xltb (xdiv (Fin t1) a1) (Fin red) = false).
    { destruct a1 as [r1| | |]; cbn [xdiv xltb] in *; try reflexivity; try discriminate.
      { destruct (Req_EM_T r1 0) as [-> | N]. { unfold xinf. destruct (Rlt_dec 0 t1); [reflexivity|lra]. } destruct (Req_EM_T t1 0) as [Z|_]; [lra|]. cbn in L1. apply Rltb_false in L0, L1. cbn. apply Rltb_false.
        assert (r1 <= inc * t1). { apply (Rmult_le_compat_r t1) in L1; [|lra]. unfold Rdiv in L1. rewrite Rmult_assoc, Rinv_l, Rmult_1_r in L1; lra. }
        apply (Rmult_le_reg_r r1); [lra|]. unfold Rdiv. rewrite Rmult_assoc, Rinv_l, Rmult_1_r by lra. destruct (Rle_dec red 0) as [Z|Z]. { assert (0 <= (- red) * r1) by (apply Rmult_le_pos; lra). lra. }
        apply Rle_trans with (red * (inc * t1)); [apply Rmult_le_compat_l; lra|]. rewrite <- Rmult_assoc. rewrite <- (Rmult_1_l t1) at 2. apply Rmult_le_compat_r; lra. }
      { destruct (Rlt_dec t1 0); [lra|]. discriminate. } }
    rewrite L2. intros X. injection X as _ <- _. exists t1. auto. }
  apply G; auto; lra.
Qed.
