(** Proofs about L-BFGS (C11). *)
From Coq Require Import Reals ZArith List Bool Arith Lia Lra.
From Verif Require Import XR_Model VecOps XR_Facts Converge_Model Minimize_Model Minimize_Spec Minimize_Proofs Minimize_Proofs2 LBFGS_Spec.
Import ListNotations.
Open Scope R_scope.

(** ** The two loops *)
Section D.
Context {St V : Type} (o : Objective St V) (v : VectorOps V).
Hypothesis ops : uses_ops o v.
Hypothesis laws : vector_laws v.

Lemma loop1_app rh1 rh2 st d : loop1 o (rh1 ++ rh2) st d = let '(st1, d1) := loop1 o rh1 st d in loop1 o rh2 st1 d1.
Proof. revert st d. induction rh1 as [|h rh1 IH]; intros; cbn; auto. Qed.
Lemma loop1_stack rh : forall st d, loop1 o rh st d = (fst (loop1 o rh [] d) ++ st, snd (loop1 o rh [] d)).
Proof.
  induction rh as [|h rh IH]; intros st d; cbn; auto. rewrite IH. rewrite (IH [_]). cbn. rewrite <- app_assoc. reflexivity.
Qed.
Lemma loop1_len rh : forall d, length (fst (loop1 o rh [] d)) = length rh.
Proof. induction rh as [|h rh IH]; intros d; cbn; auto. rewrite loop1_stack. cbn. rewrite app_length, IH. cbn. lia. Qed.
Lemma loop2_app h1 h2 : forall s1 s2 d, length s1 = length h1 ->
  loop2 o (h1 ++ h2) (s1 ++ s2) d = match loop2 o h1 s1 d with Some d1 => loop2 o h2 s2 d1 | None => None end.
Proof.
  induction h1 as [|h h1 IH]; intros [|a s1] s2 d H; cbn in *; try discriminate; auto.
Qed.

(** The code's two loops compute the BFGS operator of the list, newest pair last. *)
Lemma twoloop_bfgs gamma ts : gamma <> 0 -> forall x,
  let '(stack, d) := loop1 o (rev (map entryOf ts)) [] x in
  loop2 o (map entryOf ts) stack (ob_scale o (Fin gamma) d) = Some (bfgs v gamma (rev ts) x).
Proof.
  destruct ops as (Od&Os&Oa). intros Hg. induction ts as [|t ts IH] using rev_ind; intros x.
  - cbn. rewrite Os. reflexivity.
  - rewrite !map_app, !rev_app_distr. cbn [map rev app]. destruct t as ((s&u)&rho). cbn [loop1 entryOf].
    rewrite loop1_stack. cbn [h_rho h_s h_Ky bfgs]. rewrite Od. cbn [xmul xopp]. rewrite Oa.
    set (x1 := v_add v x _). specialize (IH x1). destruct (loop1 o (rev (map entryOf ts)) [] x1) as (stk&d1) eqn:L. cbn [fst snd].
    rewrite loop2_app.
    + rewrite IH. cbn [loop2 h_rho h_s h_Ky]. rewrite Od. cbn [xmul xsub xadd xopp]. rewrite Oa. f_equal.
      set (w := bfgs v gamma (rev ts) x1).
      rewrite Rplus_comm, (vl_scal_plus v laws), (vl_add_assoc v laws). reflexivity.
    + pose proof (loop1_len (rev (map entryOf ts)) x1) as LL. rewrite L in LL. cbn in LL. rewrite LL, rev_length. reflexivity.
Qed.

Lemma lbfgsDir_bfgs gamma ts x : lbfgsDir o (map entryOf ts) (Fin gamma) x = Some (v_scal v (-1) (bfgs v (scaleOf gamma) (rev ts) x)).
Proof.
  destruct ops as (Od&Os&Oa). unfold lbfgsDir, scaleOf.
  destruct (Req_EM_T gamma 0) as [->|n].
  - pose proof (twoloop_bfgs 1 ts ltac:(lra) x) as T. destruct (loop1 o (rev (map entryOf ts)) [] x) as (stk&d).
    unfold xnz, Reqb. destruct (Req_EM_T 0 0); [|congruence]. cbn [negb]. rewrite Os in T. rewrite (vl_scal_one v laws) in T. rewrite T, Os. reflexivity.
  - pose proof (twoloop_bfgs gamma ts n x) as T. destruct (loop1 o (rev (map entryOf ts)) [] x) as (stk&d).
    unfold xnz, Reqb. destruct (Req_EM_T gamma 0); [congruence|]. cbn [negb]. rewrite T, Os. reflexivity.
Qed.

Lemma dot_zero x : v_dot v x (v_zero v) = 0.
Proof. rewrite <- (vl_scal_zero v laws x), (vl_dot_scal v laws). ring. Qed.
Lemma scal_of_zero a : v_scal v a (v_zero v) = v_zero v.
Proof. rewrite <- (vl_scal_zero v laws (v_zero v)) at 1. rewrite <- (vl_scal_mult v laws), Rmult_0_r. apply (vl_scal_zero v laws). Qed.
Lemma bfgs_zero gamma ts : bfgs v gamma ts (v_zero v) = v_zero v.
Proof.
  induction ts as [|((s&u)&rho) ts IH]; cbn; [apply scal_of_zero|].
  rewrite dot_zero, Rmult_0_r, Ropp_0. rewrite (vl_scal_zero v laws u), (vl_add_zero v laws), IH, dot_zero, Rmult_0_r, Ropp_0.
  rewrite (vl_scal_zero v laws s), !(vl_add_zero v laws). reflexivity.
Qed.
(** Secant equation for the newest pair. *)
Lemma bfgs_secant gamma s u rho ts : rho * v_dot v s u = 1 -> bfgs v gamma ((s,u,rho) :: ts) u = s.
Proof.
  intros H. cbn [bfgs]. rewrite H. 
  assert (X : v_add v u (v_scal v (-1) u) = v_zero v).
  { rewrite <- (vl_scal_one v laws u) at 1. rewrite <- (vl_scal_plus v laws). replace (1 + -1) with 0 by ring. apply (vl_scal_zero v laws). }
  replace (-(1)) with (-1) by ring. rewrite X, bfgs_zero, dot_zero, Rmult_0_r, Ropp_0, (vl_scal_zero v laws), (vl_add_zero v laws).
  rewrite (vl_scal_one v laws). rewrite (vl_add_comm v laws). apply (vl_add_zero v laws).
Qed.
End D.

(** ** The history *)
Section H.
Context {St V : Type} (o : Objective St V) (p : MinParams) (kill : nat -> bool).

Lemma lastn_snoc {A} n (l : list A) x : (0 < n)%nat ->
  lastn n (l ++ [x]) = (if length (lastn n l) =? n then tl (lastn n l) else lastn n l) ++ [x].
Proof.
  intros Hn. unfold lastn. rewrite app_length, skipn_length. cbn [length].
  destruct (Nat.eqb_spec (length l - (length l - n)) n) as [e|e].
  - replace (length l + 1 - n)%nat with (S (length l - n)) by lia. rewrite skipn_app.
    replace (S (length l - n) - length l)%nat with 0%nat by lia. cbn [skipn]. f_equal.
    generalize (length l - n)%nat. clear. intros a. revert l. induction a; intros [|b l]; cbn; auto. 
  - replace (length l + 1 - n)%nat with 0%nat by lia. replace (length l - n)%nat with 0%nat by lia. reflexivity.
Qed.
Lemma lastn_len {A} n (l : list A) : (length (lastn n l) <= n)%nat.
Proof. unfold lastn. rewrite skipn_length. lia. Qed.
Lemma lastn_nil {A} n : lastn n (@nil A) = [].
Proof. unfold lastn. destruct n; reflexivity. Qed.

Lemma accepted_app acc t1 t2 : accepted acc (t1 ++ t2) = accepted (V:=V) (accepted acc t1) t2.
Proof. revert acc. induction t1 as [|e t1 IH]; intros; cbn; auto. Qed.


Lemma good_snoc n tr e : good_trace o n tr -> uses_newest n tr e -> lbfgsDir o (en_hist e) (en_gamma e) (en_Kg e) = Some (en_dir e) ->
  good_trace o n (tr ++ [e]).
Proof.
  intros G U D before e' after H.
  destruct (destruct_list after) as [(y&l&E)|E].
  2: { subst after. apply app_inj_tail in H. destruct H as (->&->). split; auto. split; auto.
       red in U. rewrite U. destruct (en_reset e'); [cbn; lia|apply lastn_len]. }
  destruct (exists_last (l:=after)) as (aft&z&Ha). { rewrite E. discriminate. }
  clear E. subst after. change (before ++ e' :: aft ++ [z]) with (before ++ (e' :: aft) ++ [z]) in H. rewrite app_assoc in H.
  apply app_inj_tail in H. destruct H as (->&->). apply (G before e' aft). reflexivity.
Qed.

Lemma lbfgsLoop_good n k : forall iter chk E g Kg h gam al st nl tr, mp_history p = Z.of_nat n -> (0 < n)%nat ->
  good_trace o n tr -> h = lastn n (accepted [] tr) ->
  good_trace o n (snd (lbfgsLoop o p kill k iter chk E g Kg h gam al st nl tr)) /\
  fst (lbfgsLoop o p kill k iter chk E g Kg h gam al st nl tr) <> LUndefined.
Proof.
  induction k as [|k IH]; intros iter chk E g Kg h gam al st nl tr Hp Hn G Hh; cbn [lbfgsLoop]; (destruct (kill iter); [split; [auto|discriminate]|]).
  - destruct (ob_report o iter st) as [st1|]; cbv iota beta; destruct (ediffCheck chk _); destruct (converged _ _ _); try (split; [auto|discriminate]);
    (destruct (negb _); [split; [auto|discriminate]|]); (destruct (negb _); split; [auto|discriminate|auto|discriminate]).
  - set (q := match ob_report o iter st with Some _ => _ | None => _ end).
    assert (Q : exists st1 e1 g1 K1 (f : bool), q = (st1, e1, g1, K1, if f then [] else h, f)) by (unfold q; destruct (ob_report o iter st); [exists s, (ob_E o s), (ob_g o s), (ob_Kg o s), true|exists st, E, g, Kg, false]; reflexivity).
    destruct Q as (st1&e1&g1&K1&f&->). set (h1 := if f then [] else h). destruct (ediffCheck chk _) as (chk'&eC). destruct (converged _ _ _); [split; [auto|discriminate]|].
    destruct (negb _); [split; [auto|discriminate]|]. destruct (negb _); [split; [auto|discriminate]|].
    assert (Hl1 : h1 = if f then [] else lastn n (accepted [] tr)) by (unfold h1; destruct f; auto).
    assert (Hd : exists d0, lbfgsDir o h1 gam K1 = Some d0).
    { unfold lbfgsDir. pose proof (loop1_len o (rev h1) K1) as LL. destruct (loop1 o (rev h1) [] K1) as (stk&d). cbn in LL. rewrite rev_length in LL.
      set (dd := if xnz gam then _ else _). clearbody dd. clear - LL. revert stk LL dd. induction h1 as [|x h1 IH]; intros [|a stk] LL dd; cbn in *; try discriminate; eauto. }
    destruct Hd as (d0&Hd). rewrite Hd.
    assert (Hr : makeRoom p h1 = Some (if length h1 =? n then tl h1 else h1)).
    { unfold makeRoom. rewrite Hp. destruct (Z.eqb_spec (Z.of_nat (length h1)) (Z.of_nat n)) as [e|e].
      - destruct (Nat.eqb_spec (length h1) n); [|lia]. destruct h1; [cbn in e; lia|reflexivity].
      - destruct (Nat.eqb_spec (length h1) n); [lia|reflexivity]. }
    rewrite Hr. set (h2 := if length h1 =? n then tl h1 else h1) in *.
    set (d1 := ob_constrain _ _ _). set (aT1 := xmin _ _).
    set (r := linmin _ _ _ _ _ _ _ _ _) in *.
    assert (GG : forall c, good_trace o n (tr ++ [mkEntry f h1 gam K1 d0 c])).
    { intros c. apply good_snoc; auto. }
    destruct (lr_ok r).
    + apply IH; auto. rewrite accepted_app. cbn [accepted en_reset en_change].
      rewrite lastn_snoc by auto. f_equal. unfold h2. rewrite Hl1. destruct f; [rewrite lastn_nil|]; reflexivity.
    + destruct (mp_abort p); [split; [apply GG|discriminate]|]. destruct (negb _).
      * apply IH; auto. rewrite accepted_app. cbn [accepted en_reset en_change]. rewrite lastn_nil. reflexivity.
      * split; [apply GG|discriminate].
Qed.

Lemma lBFGS_history n st : mp_history p = Z.of_nat n -> (0 < n)%nat -> good_trace o n (snd (lBFGS o p kill st)) /\ fst (lBFGS o p kill st) <> LUndefined.
Proof.
  intros Hp Hn. unfold lBFGS. apply lbfgsLoop_good; auto.
  intros before e after H. destruct before; discriminate.
Qed.

Hypothesis meth : mp_linmin p = CubicWolfe \/ mp_linmin p = Relax \/ (mp_linmin p = DirUpdateRecommended /\ mp_dir p = LBFGS).
Hypothesis add : additive_steps o.
Hypothesis fin : finite_params p.
Hypothesis start : isfin (mp_alphaTstart p) = true.
Hypothesis safe : forall st d, ob_safe o st d <> MInf.
Lemma linmin_progress st d al E g Kg : reports_progress o st d (linmin o p st d (xmin (mp_alphaTstart p) (ob_safe o st d)) al E g Kg).
Proof.
  assert (F : isfin (xmin (mp_alphaTstart p) (ob_safe o st d)) = true) by (apply xmin_fin; auto).
  unfold linmin. destruct meth as [->|[->|(->&->)]].
  - destruct (mp_dir p); apply cubic_contract; auto.
  - destruct (mp_dir p); apply relax_contract; auto.
  - apply cubic_contract; auto.
Qed.
Lemma lbfgsLoop_pairs k : forall iter chk E g Kg h gam al st nl tr, E = ob_E o st -> g = ob_g o st -> Kg = ob_Kg o st ->
  (forall e x, In e tr -> en_change e = Appended x -> pair_of o x) ->
  forall e x, In e (snd (lbfgsLoop o p kill k iter chk E g Kg h gam al st nl tr)) -> en_change e = Appended x -> pair_of o x.
Proof.
  induction k as [|k IH]; intros iter chk E g Kg h gam al st nl tr -> -> -> T; cbn [lbfgsLoop]; (destruct (kill iter); [exact T|]).
  - destruct (ob_report o iter st) as [st1|]; cbv iota beta; destruct (ediffCheck chk _); destruct (converged _ _ _); try exact T;
    (destruct (negb _); [exact T|]); (destruct (negb _); exact T).
  - set (q := match ob_report o iter st with Some _ => _ | None => _ end).
    assert (Q : exists st1 h1 f, q = (st1, ob_E o st1, ob_g o st1, ob_Kg o st1, h1, f)) by (unfold q; destruct (ob_report o iter st); eauto).
    destruct Q as (st1&h1&f&->). destruct (ediffCheck chk _) as (chk'&eC). destruct (converged _ _ _); [exact T|].
    destruct (negb _); [exact T|]. destruct (negb _); [exact T|].
    destruct (lbfgsDir _ _ _ _) as [d0|]; [|exact T]. destruct (makeRoom _ _) as [h2|]; [|exact T].
    set (d1 := ob_constrain _ _ _). set (aT1 := xmin _ _).
    pose proof (linmin_consistent o p st1 d1 aT1 al) as LC. cbv zeta in LC.
    set (r := linmin _ _ _ _ _ _ _ _ _) in *. destruct (lr_ok r).
    + destruct (LC eq_refl) as (L1&L2&L3). apply IH; auto. intros e x He Hx. apply in_app_or in He. destruct He as [He|[<-|[]]]; [eauto|].
      cbn in Hx. injection Hx as <-. destruct (linmin_progress st1 d1 al (ob_E o st1) (ob_g o st1) (ob_Kg o st1)) as (a&P1&P2). change (linmin _ _ _ _ _ _ _ _ _) with r in P1, P2.
      exists st1, (lr_st r), d1, a. cbn [h_s h_Ky h_rho]. rewrite L2, L3, P1. auto.
    + assert (T2 : forall c, (forall x, c <> Appended x) -> forall e x, In e (tr ++ [mkEntry f h1 gam (ob_Kg o st1) d0 c]) -> en_change e = Appended x -> pair_of o x).
      { intros c Hc e x He Hx. apply in_app_or in He. destruct He as [He|[<-|[]]]; [eauto|]. cbn in Hx. exfalso. exact (Hc x Hx). }
      destruct (mp_abort p); [apply T2; discriminate|]. destruct (negb _).
      * apply IH; auto. apply T2. discriminate.
      * apply T2. discriminate.
Qed.
Lemma lBFGS_pairs st e x : In e (snd (lBFGS o p kill st)) -> en_change e = Appended x -> pair_of o x.
Proof. unfold lBFGS. apply lbfgsLoop_pairs; auto. intros ? ? []. Qed.
End H.

(** With Kg = g, the newest pair satisfies the secant equation. *)
Lemma secant_plain {St V} (o : Objective St V) (v : VectorOps V) (h : Hist V) (older : list (V*V*R)) gamma :
  uses_ops o v -> vector_laws v -> (forall st, ob_Kg o st = ob_g o st) -> pair_of o h -> v_dot v (h_Ky h) (h_s h) <> 0 ->
  lbfgsDir o (map entryOf older ++ [h]) (Fin gamma) (h_Ky h) = Some (v_scal v (-1) (h_s h)).
Proof.
  intros O L K (st&st'&d&a&H0&H1&H2&H3) N.
  destruct h as [s u rho]. cbn [h_s h_Ky h_rho] in *. rewrite <- !K, <- H2 in H3. destruct O as (Od&Os&Oa).
  rewrite Od in H3. cbn in H3. destruct (Req_EM_T _ 0); [contradiction|]. subst rho.
  replace (map entryOf older ++ [mkHist s u (Fin (1 / v_dot v u s))]) with (map entryOf (older ++ [(s,u,1 / v_dot v u s)])) by (rewrite map_app; reflexivity).
  rewrite (lbfgsDir_bfgs o v (conj Od (conj Os Oa)) L). rewrite rev_app_distr. cbn [rev app]. rewrite (bfgs_secant v L); auto.
  rewrite (vl_dot_comm v L s u). field. auto.
Qed.

(** With a preconditioner the secant equation fails: the remembered factor is 1/(s.y) where 1/(s.Ky) would be needed. *)
Definition ops1 : VectorOps R := VO Rplus Rmult 0 Rmult.
Lemma ops1_laws : vector_laws ops1.
Proof. constructor; cbn; intros; ring. Qed.
Lemma obj1_ops f f' K : uses_ops (obj1 f f' K) ops1.
Proof. split; [|split]; cbn; intros; auto. Qed.
(** E(x) = x^2/2 with preconditioner K = 2: after one accepted step the newest pair violates the secant equation. *)
Lemma secant_refuted : exists (o : Objective R R) (h : Hist R) gamma,
  uses_ops o ops1 /\ additive_steps o /\ pair_of o h /\ (forall st, ob_Kg o st = 2 * ob_g o st) /\ (exists y, ob_dot o y (h_s h) = Fin 1 /\ gamma = xdiv (ob_dot o y (h_s h)) (ob_dot o y (h_Ky h))) /\ lbfgsDir o [h] gamma (h_Ky h) = Some (-3) /\ h_s h = 1.
Proof.
  set (o := obj1 (fun x => Fin (x*x/2)) (fun x => x) 2).
  exists o, (mkHist 1 2 (Fin 1)), (Fin (1/2)).
  split; [apply obj1_ops|]. split; [apply obj1_additive|]. split.
  - exists (-1), 0, 1, 1. cbn. split; [ring|]. split; [ring|]. split; [ring|]. destruct (Req_EM_T _ 0); [exfalso; lra|]. f_equal. field.
  - split; [reflexivity|]. split; [exists 1|].
    + cbn. split; [f_equal; ring|]. destruct (Req_EM_T (1*2) 0); [exfalso; lra|]. f_equal. field.
    + split; [|reflexivity].
      replace [mkHist 1 2 (Fin 1)] with (map (entryOf (V:=R)) [(1,2,1)]) by reflexivity.
      rewrite (lbfgsDir_bfgs o ops1 (obj1_ops _ _ _) ops1_laws). f_equal. unfold scaleOf. destruct (Req_EM_T (1/2) 0); [exfalso; lra|]. cbn. field.
Qed.

(** One accepted step on a parabola fills the history with one pair. *)
Lemma lbfgs_example : let o := obj1 (fun x => Fin (x*x)) (fun x => 2*x) (1/2) in
  let p := defaults LBFGS DirUpdateRecommended 1 in
  exists e, snd (lBFGS o p (fun _ => false) 1) = [e] /\ en_hist e = [] /\ en_dir e = -1 /\
    en_change e = Appended (mkHist (-1) (-1) (Fin (1/2))).
Proof.
  intros o p. unfold lBFGS. change (Z.to_nat (mp_nIter p)) with 1%nat. 
  set (chk := mkEdiffCheck _ _). cbn [lbfgsLoop]. cbn [ob_report o obj1]. fold o.
  assert (C : ediffCheck chk (ob_E o 1) = (EDC [ob_E o 1] 2 (xabs (Fin 0)), false)) by reflexivity. rewrite C.
  assert (NC : forall kn, converged p kn false = false).
  { intros kn. unfold converged. change (mp_knormThr p) with (Fin 0). change (mp_convergeAll p) with false.
    replace (xltb (xabs kn) (Fin 0)) with false; [reflexivity|]. symmetry. destruct kn; cbn; auto. apply Rltb_false. apply Rabs_pos. }
  rewrite NC. change (negb (isfin (ob_dot o (ob_g o 1) (ob_Kg o 1)))) with false. change (negb (isfin (ob_E o 1))) with false. cbv iota.
  assert (D : lbfgsDir o [] (Fin 0) (ob_Kg o 1) = Some (-1)).
  { unfold lbfgsDir. cbn [rev loop1 loop2]. unfold xnz, Reqb. destruct (Req_EM_T 0 0); [|congruence]. cbn. f_equal. field. }
  rewrite D. change (makeRoom p []) with (Some (@nil (Hist R))). cbv iota.
  change (ob_constrain o 1 (-1)) with (-1).
  assert (M : xmin (mp_alphaTstart p) (ob_safe o 1 (-1)) = Fin 1). { unfold xmin. cbn. unfold Rltb. destruct (Rlt_dec _ 1); [exfalso; lra|reflexivity]. }
  rewrite M.
  assert (L : linmin o p 1 (-1) (Fin 1) (Fin 0) (ob_E o 1) (ob_g o 1) (ob_Kg o 1) = mkLR true (Fin 1) (Fin (0*0)) (2*0) (1/2*(2*0)) 0).
  { unfold linmin. change (mp_linmin p) with DirUpdateRecommended. change (mp_dir p) with LBFGS. cbv iota. unfold linminCubicWolfe.
    assert (G1 : ob_dot o (ob_g o 1) (-1) = Fin (-2)) by (cbn; f_equal; ring). rewrite G1.
    replace (xleb (Fin 0) (Fin (-2))) with false by (symmetry; cbn; apply Rleb_false; lra).
    change (Z.to_nat _) with (S 3). generalize 3%nat; intros kk. cbn [cubicLoop].
    assert (S1 : ob_step o 1 (-1) (xsub (Fin 1) (Fin 0)) = 0) by (cbn; ring). rewrite S1.
    assert (D1 : ob_dot o (ob_g o 0) (-1) = Fin 0) by (cbn; f_equal; ring). rewrite D1.
    change (ob_E o 0) with (Fin (0*0)). change (ob_E o 1) with (Fin (1*1)). cbn [isfin negb]. change (mp_wolfeE p) with (Fin (1/10000)). change (mp_wolfeG p) with (Fin (9/10)). cbn [xmul xadd xleb].
    match goal with |- context[Rleb ?a ?b && Rleb ?c ?d] => replace (Rleb a b) with true by (symmetry; apply Rleb_true; lra);
      replace (Rleb c d) with true by (symmetry; apply Rleb_true; lra) end. reflexivity. }
  rewrite L. cbn [lr_ok lr_alpha lr_E lr_g lr_Kg lr_st app].
  match goal with |- context[mkEntry false [] (Fin 0) ?a ?b ?c] => set (ent := mkEntry false [] (Fin 0) a b c) end.
  exists ent. split.
  - clearbody ent. clear. repeat match goal with |- context[match ?x with _ => _ end] => destruct x end; reflexivity.
  - split; [reflexivity|]. split; [reflexivity|]. unfold ent. cbn. f_equal.
    destruct (Req_EM_T _ 0); [exfalso; lra|]. f_equal; [ring|field|f_equal; field].
Qed.
Lemma beta_ex : v_dot ops1 1 1 <> 0 /\ v_dot ops1 (v_add ops1 3 (v_scal ops1 (-1) 1)) (-2) <> 0.
Proof. cbn. split; lra. Qed.
