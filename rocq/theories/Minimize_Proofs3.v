(** Reasons for stopping, mixing factors and the scaling of L-BFGS. *)
From Coq Require Import Reals ZArith List Bool Arith Lia Lra.
From Verif Require Import XR_Model XR_Facts VecOps Converge_Model Minimize_Model Minimize_Spec Minimize_Proofs LBFGS_Spec.
Import ListNotations.
Open Scope R_scope.

Lemma xabs_sqrt x : xabs (xsqrt x) = xsqrt x.
Proof. destruct x; cbn; auto. destruct (Rlt_dec r 0); cbn; auto. rewrite Rabs_right; auto. apply Rle_ge, sqrt_pos. Qed.
Lemma xabs_abs x : xabs (xabs x) = xabs x. Proof. destruct x; cbn; auto. rewrite Rabs_Rabsolu. auto. Qed.
Lemma xabs_opp x : xabs (xopp x) = xabs x. Proof. destruct x; cbn; auto. rewrite Rabs_Ropp. auto. Qed.
Lemma xabs_copysign x y : xabs (xcopysign x y) = xabs x. Proof. unfold xcopysign. destruct (xltb _ _); rewrite ?xabs_opp, xabs_abs; auto. Qed.
Lemma ediffRun_snoc c Es E : ediffRun c (Es ++ [E]) = fst (ediffCheck (ediffRun c Es) E).
Proof. revert c. induction Es as [|a Es IH]; intros c; cbn [app ediffRun]; auto. Qed.

Section M.
Context {St V : Type} (o : Objective St V) (p : MinParams) (kill : nat -> bool).
Definition chk0 := mkEdiffCheck (mp_nEdiff p) (mp_ediffThr p).
Lemma grad_norm_knorm st : xabs (knorm o p (ob_dot o (ob_g o st) (ob_Kg o st)) (ob_Kg o st)) = grad_norm o p st.
Proof. unfold knorm, grad_norm. destruct (mp_maxThr p); [reflexivity|]. rewrite xabs_copysign, xabs_sqrt. reflexivity. Qed.
Lemma criteria Es st : converged p (knorm o p (ob_dot o (ob_g o st) (ob_Kg o st)) (ob_Kg o st)) (snd (ediffCheck (ediffRun chk0 Es) (ob_E o st))) = true -> criteria_met o p Es st.
Proof.
  unfold converged, criteria_met. rewrite grad_norm_knorm. fold chk0. destruct (mp_convergeAll p), (xltb (grad_norm o p st) (mp_knormThr p)), (snd (ediffCheck _ _)); cbn; intros; auto; discriminate.
Qed.
Definition reason (N : nat) (st' : St) : Prop :=
  exists iter Es, (iter <= N)%nat /\
   (kill iter = true \/ criteria_met o p Es st' /\ length Es = iter \/ isfin (ob_dot o (ob_g o st') (ob_Kg o st')) = false \/ isfin (ob_E o st') = false \/ iter = N \/ failed_gradient_step o p st').
Lemma minLoop_stop k : forall iter chk E g Kg gP d force aT al gKP st n Es, E = ob_E o st -> g = ob_g o st -> Kg = ob_Kg o st -> chk = ediffRun chk0 Es -> length Es = iter ->
  match minLoop o p kill k iter chk E g Kg gP d force aT al gKP st n with MinDone E' st' n' => reason (iter + k) st' | MinDie _ => mp_abort p = true end.
Proof.
  induction k as [|k IH]; intros iter chk E g Kg gP d force aT al gKP st n Es -> -> -> -> L; cbn [minLoop].
  all: destruct (kill iter) eqn:KI; [exists iter, Es; split; [lia|left; auto]|].
  all: set (q := match ob_report o iter st with Some _ => _ | None => _ end).
  all: assert (Q : exists st1 f, q = (st1, ob_E o st1, ob_g o st1, ob_Kg o st1, f)) by (unfold q; destruct (ob_report o iter st); eauto).
  all: destruct Q as (st1&f&->).
  all: assert (CR := criteria Es st1); destruct (ediffCheck (ediffRun chk0 Es) (ob_E o st1)) as (chk'&eC) eqn:EC; cbn [snd] in CR.
  all: destruct (converged _ _ _); [exists iter, Es; split; [lia|right; left; auto]|].
  all: destruct (isfin (ob_dot o (ob_g o st1) (ob_Kg o st1))) eqn:F1; cbn [negb]; [|exists iter, Es; split; [lia|right; right; left; auto]].
  all: destruct (isfin (ob_E o st1)) eqn:F2; cbn [negb]; [|exists iter, Es; split; [lia|right; right; right; left; auto]].
  { exists iter, Es. split; [lia|]. right; right; right; right; left. lia. }
  set (beta := newBeta o p f (ob_g o st1) (ob_Kg o st1) gP d (ob_dot o (ob_g o st1) (ob_Kg o st1)) gKP). set (d1 := ob_constrain o st1 _). set (aT1 := xmin aT (ob_safe o st1 d1)).
  assert (LC := linmin_consistent o p st1 d1 aT1 al). cbv zeta in LC. replace (iter + S k)%nat with (S iter + k)%nat by lia.
  assert (EC' : chk' = ediffRun chk0 (Es ++ [ob_E o st1])) by (rewrite ediffRun_snoc, EC; reflexivity). assert (L' : length (Es ++ [ob_E o st1]) = S iter) by (rewrite app_length; cbn; lia).
  destruct (lr_ok (linmin o p st1 d1 aT1 al (ob_E o st1) (ob_g o st1) (ob_Kg o st1))) eqn:OK.
  { destruct (LC eq_refl) as (L1&L2&L3). apply (IH _ _ _ _ _ _ _ _ _ _ _ _ _ _ L1 L2 L3 EC' L'). }
  destruct (mp_abort p); [reflexivity|]. destruct (xnz beta) eqn:XB.
  { apply (IH _ _ _ _ _ _ _ _ _ _ _ _ _ _ eq_refl eq_refl eq_refl EC' L'). }
  { exists (S iter), Es. split; [lia|]. do 5 right. exists st1, d, aT1, al, beta. split; [exact XB|]. split; [exact OK|reflexivity]. }
Qed.
Theorem minimizeCG_stop st E st' n : mp_dir p <> LBFGS -> minimize o p kill st = LDone E st' n -> reason (Z.to_nat (mp_nIter p)) st'.
Proof.
  intros ND. assert (M : minimize o p kill st = match minimizeCG o p kill st with MinDone E st' n => LDone E st' n | MinDie st' => LDie st' end) by (unfold minimize; destruct (mp_dir p); congruence).
  rewrite M. unfold minimizeCG. assert (G := minLoop_stop (Z.to_nat (mp_nIter p)) 0 (mkEdiffCheck (mp_nEdiff p) (mp_ediffThr p)) _ _ _ (ob_g o st) (ob_constrain o st (ob_Kg o st)) true (mp_alphaTstart p) (mp_alphaTstart p) (Fin 0) st 0%nat [] eq_refl eq_refl eq_refl eq_refl eq_refl).
  destruct (minLoop _ _ _ _ _ _ _ _ _ _ _ _ _ _ _ _ _); [|discriminate]. intros X. injection X as <- <- <-. exact G.
Qed.

(** mixing factor *)
Theorem beta_spec (v : VectorOps V) g Kg gP KgP d : uses_ops o v -> vector_laws v -> mp_dir p <> LBFGS -> mp_dir p <> SteepestDescent ->
  v_dot v gP KgP <> 0 -> v_dot v (v_add v g (v_scal v (-1) gP)) d <> 0 ->
  newBeta o p false g Kg gP d (ob_dot o g Kg) (ob_dot o gP KgP) = Fin (cg_beta v (mp_dir p) g Kg gP KgP d) /\ newBeta o p true g Kg gP d (ob_dot o g Kg) (ob_dot o gP KgP) = Fin 0.
Proof.
  intros (Od & _ & _) L N1 N2 NZ NY. split; [|reflexivity]. unfold newBeta, cg_beta. rewrite !Od. cbn [xsub xopp xadd xdiv].
  assert (Y : forall w, v_dot v (v_add v g (v_scal v (-1) gP)) w = v_dot v g w - v_dot v gP w). { intros w. rewrite (vl_dot_comm v L), (vl_dot_add v L), (vl_dot_scal v L), (vl_dot_comm v L w g), (vl_dot_comm v L w gP). ring. }
  assert (C : forall b, (if xltb (Fin b) (Fin 0) then Fin 0 else Fin b) = Fin (Rmax 0 b)). { intros b. cbn [xltb]. unfold Rltb. destruct (Rlt_dec b 0); f_equal; [rewrite Rmax_left|rewrite Rmax_right]; lra. }
  rewrite !Y in *. rewrite (vl_dot_comm v L d gP). change (v_dot v g Kg + - v_dot v gP Kg) with (v_dot v g Kg - v_dot v gP Kg). change (v_dot v g d + - v_dot v gP d) with (v_dot v g d - v_dot v gP d).
  destruct (mp_dir p); try congruence; destruct (Req_EM_T _ 0); try contradiction; apply C.
Qed.

(** scaling of L-BFGS *)
Definition GammaOK (tr : list (Entry V)) (gam : xr) : Prop :=
  match rev tr with [] => gam = Fin 0
  | e :: _ => match en_change e with
    | Appended h => exists st st', en_Kg e = ob_Kg o st /\ h_Ky h = ob_axpy o (Fin 1) (ob_Kg o st') (ob_scale o (Fin (-1)) (ob_Kg o st)) /\
        let y := ob_axpy o (Fin 1) (ob_g o st') (ob_scale o (Fin (-1)) (ob_g o st)) in gam = xdiv (ob_dot o y (h_s h)) (ob_dot o y (h_Ky h))
    | _ => gam = Fin 0 end end.
Definition GoodTr (tr : list (Entry V)) : Prop := forall l e l', tr = l ++ e :: l' -> GammaOK l (en_gamma e).
Lemma GoodTr_snoc tr e : GoodTr tr -> GammaOK tr (en_gamma e) -> GoodTr (tr ++ [e]).
Proof.
  intros G H l x l' E. destruct (exists_last (l := x :: l')) as (l3 & w & E3); [discriminate|]. rewrite E3 in E. rewrite app_assoc in E. apply app_inj_tail in E. destruct E as (E1 & <-).
  destruct l3 as [|y l3]; injection E3 as -> ->. { rewrite app_nil_r in E1. subst. exact H. } { apply (G l y l3). exact E1. }
Qed.
Lemma lbfgs_gamma k : forall iter chk E g Kg h gam al st nl tr, E = ob_E o st -> g = ob_g o st -> Kg = ob_Kg o st -> GoodTr tr -> GammaOK tr gam ->
  GoodTr (snd (lbfgsLoop o p kill k iter chk E g Kg h gam al st nl tr)).
Proof.
  induction k as [|k IH]; intros iter chk E g Kg h gam al st nl tr -> -> -> T GO; cbn [lbfgsLoop]; (destruct (kill iter); [exact T|]).
  { destruct (ob_report o iter st) as [st1|]; cbv iota beta; destruct (ediffCheck chk _); destruct (converged _ _ _); try exact T;
    (destruct (negb _); [exact T|]); (destruct (negb _); exact T). }
  set (q := match ob_report o iter st with Some _ => _ | None => _ end).
  assert (Q : exists st1 h1 f, q = (st1, ob_E o st1, ob_g o st1, ob_Kg o st1, h1, f)) by (unfold q; destruct (ob_report o iter st); eauto).
  destruct Q as (st1&h1&f&->). destruct (ediffCheck chk _) as (chk'&eC). destruct (converged _ _ _); [exact T|].
  destruct (negb _); [exact T|]. destruct (negb _); [exact T|].
  destruct (lbfgsDir _ _ _ _) as [d0|]; [|exact T]. destruct (makeRoom _ _) as [h2|]; [|exact T].
  set (d1 := ob_constrain _ _ _). set (aT1 := xmin _ _).
  pose proof (linmin_consistent o p st1 d1 aT1 al) as LC. cbv zeta in LC.
  set (r := linmin _ _ _ _ _ _ _ _ _) in *.
  assert (T2 : forall c, GoodTr (tr ++ [mkEntry f h1 gam (ob_Kg o st1) d0 c])) by (intros c; apply GoodTr_snoc; auto).
  assert (G2 : forall c, (forall x, c <> Appended x) -> GammaOK (tr ++ [mkEntry f h1 gam (ob_Kg o st1) d0 c]) (Fin 0)). { intros c Hc. unfold GammaOK. rewrite rev_app_distr. cbn [rev app en_change]. destruct c; try reflexivity. exfalso. eapply Hc. reflexivity. }
  destruct (lr_ok r).
  { destruct (LC eq_refl) as (L1&L2&L3). apply IH; auto. unfold GammaOK. rewrite rev_app_distr. cbn [rev app en_change en_Kg h_s h_Ky]. exists st1, (lr_st r). rewrite L2, L3. auto. }
  destruct (mp_abort p); [apply T2|]. destruct (negb _); [|apply T2]. apply IH; auto. apply G2. discriminate.
Qed.
Theorem lBFGS_gamma st l e l' : snd (lBFGS o p kill st) = l ++ e :: l' -> match rev l with [] => en_gamma e = Fin 0
  | e0 :: _ => match en_change e0 with
    | Appended h => exists st st', en_Kg e0 = ob_Kg o st /\ h_Ky h = ob_axpy o (Fin 1) (ob_Kg o st') (ob_scale o (Fin (-1)) (ob_Kg o st)) /\
        let y := ob_axpy o (Fin 1) (ob_g o st') (ob_scale o (Fin (-1)) (ob_g o st)) in en_gamma e = xdiv (ob_dot o y (h_s h)) (ob_dot o y (h_Ky h))
    | _ => en_gamma e = Fin 0 end end.
Proof. intros H. apply (lbfgs_gamma (Z.to_nat (mp_nIter p)) 0 _ _ _ _ [] (Fin 0) (Fin 0) st 0 [] eq_refl eq_refl eq_refl) in H; [exact H| |reflexivity]. intros [|? ?] ? ? X; discriminate. Qed.
End M.
