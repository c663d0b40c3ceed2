(** Geometry: mesh points in the Wigner-Seitz cell and on its boundary. *)
From Coq Require Import ZArith Reals List Bool Lia Lra Psatz Permutation.
From Verif Require Import Base Vec3_Model Vec3_Facts RealUtil Coulomb_Model Coulomb_Proofs WS_Model WS_Spec WS_Proofs WS_Proofs2 WS_Proofs3 IntUtil_Model IntUtil_Proofs CellMap_Model CellMap_Spec CellMap_Proofs2 CellMap_Proofs3 Embed_Model Embed_Spec.
Import ListNotations.
Local Open Scope R_scope.

Definition posS (S : vec Z) : Prop := (0 < c0 S)%Z /\ (0 < c1 S)%Z /\ (0 < c2 S)%Z.
Definition hmul (S n : vec Z) : vec Z := (V (c0 S * c0 n) (c1 S * c1 n) (c2 S * c2 n))%Z.
Lemma frac_mesh S q : meshPoint q S = frac S q.
Proof. unfold meshPoint, frac, Rdiv. f_equal; ring. Qed.
Lemma frac_add S q n : posS S -> frac S (zvadd q (hmul S n)) = rvadd (frac S q) (vIZR n).
Proof.
  intros (A & B & C). apply IZR_lt in A, B, C. destruct S as [s t u], q as [a b c], n as [d e f]. unfold frac, hmul, zvadd, gvadd, vIZR, vmap. cbn [c0 c1 c2] in *. rewrite !plus_IZR, !mult_IZR. v3u. f_equal; field; lra.
Qed.
Lemma frac_inj S q q' : posS S -> frac S q = frac S q' -> q = q'.
Proof.
  intros (A & B & C) E. apply IZR_lt in A, B, C. destruct S as [s t u], q as [a b c], q' as [d e f]. unfold frac in E. cbn [c0 c1 c2] in *. injection E as E0 E1 E2.
  f_equal; apply eq_IZR; [apply (Rmult_eq_reg_r (/ IZR s))|apply (Rmult_eq_reg_r (/ IZR t))|apply (Rmult_eq_reg_r (/ IZR u))]; auto; apply Rinv_neq_0_compat; lra.
Qed.
(** congruence modulo the mesh *)
Definition congr (S q q' : vec Z) : Prop := exists n, q' = zvadd q (hmul S n).
Lemma congr_sym S q q' : congr S q q' -> congr S q' q.
Proof. intros (n & ->). exists (zvopp n). destruct S as [s t u], q as [a b c], n as [d e f]. unfold hmul, zvadd, gvadd, zvopp, gvopp, vmap. cbn [c0 c1 c2]. f_equal; ring. Qed.
Lemma congr_trans S a b c : congr S a b -> congr S b c -> congr S a c.
Proof. intros (n & ->) (m & ->). exists (zvadd n m). destruct S as [s t u], a as [a0 a1 a2], n as [d e f], m as [g h i]. unfold hmul, zvadd, gvadd. cbn [c0 c1 c2]. f_equal; ring. Qed.
Lemma mod_eq_iff a b s : (0 < s)%Z -> (a mod s = b mod s <-> exists n, b = a + s * n)%Z.
Proof.
  intros P. split.
  { intros E. exists (b / s - a / s)%Z. assert (A := Z.div_mod a s ltac:(lia)). assert (B := Z.div_mod b s ltac:(lia)). nia. }
  { intros (n & ->). rewrite Z.mul_comm, Z.mod_add by lia. reflexivity. }
Qed.
Lemma flat_iff S q q' : posS S -> (flatMod S q = flatMod S q' <-> congr S q q').
Proof.
  intros (A & B & C). destruct S as [s t u], q as [a b c], q' as [d e f]. unfold flatMod, congr. cbn [c0 c1 c2] in *.
  assert (Ra := Z.mod_pos_bound a s A). assert (Rb := Z.mod_pos_bound b t B). assert (Rc := Z.mod_pos_bound c u C). assert (Rd := Z.mod_pos_bound d s A). assert (Re := Z.mod_pos_bound e t B). assert (Rf := Z.mod_pos_bound f u C). split.
  { intros E. assert (Ec : (c mod u = f mod u)%Z). { apply (f_equal (fun z => z mod u)%Z) in E. rewrite !(Z.add_comm _ (_ mod u)), !Z.mod_add, !Z.mod_mod in E by lia. exact E. }
    rewrite Ec in E. apply Z.add_cancel_r in E. apply Z.mul_cancel_r in E; [|lia].
    assert (Eb : (b mod t = e mod t)%Z). { apply (f_equal (fun z => z mod t)%Z) in E. rewrite !(Z.add_comm _ (_ mod t)), !Z.mod_add, !Z.mod_mod in E by lia. exact E. }
    rewrite Eb in E. apply Z.add_cancel_r in E. apply Z.mul_cancel_r in E; [|lia]. apply mod_eq_iff in E; [|auto]. apply mod_eq_iff in Eb; [|auto]. apply mod_eq_iff in Ec; [|auto].
    destruct E as (x & ->), Eb as (y & ->), Ec as (z & ->). exists (V x y z). reflexivity. }
  { intros ([x y z] & E). unfold zvadd, gvadd, hmul in E. cbn [c0 c1 c2] in E. injection E as -> -> ->. rewrite !(Z.mul_comm s), !(Z.mul_comm t), !(Z.mul_comm u), !Z.mod_add by lia. reflexivity. }
Qed.
Lemma flat_range S q : posS S -> (0 <= flatMod S q < points S)%Z.
Proof.
  intros (A & B & C). destruct S as [s t u], q as [a b c]. unfold flatMod, points. cbn [c0 c1 c2] in *.
  assert (Ra := Z.mod_pos_bound a s A). assert (Rb := Z.mod_pos_bound b t B). assert (Rc := Z.mod_pos_bound c u C). assert (X : (0 <= (a mod s) * t + b mod t < s * t)%Z) by nia. set (w := ((a mod s) * t + b mod t)%Z) in *. split; [nia|]. assert (w + 1 <= s * t)%Z by lia. assert ((w + 1) * u <= s * t * u)%Z by (apply Z.mul_le_mono_nonneg_r; lia). lia.
Qed.
Lemma ivOf_flat S i : posS S -> (0 <= i < points S)%Z -> flatMod S (ivOf S i) = i.
Proof.
  intros (A & B & C) R. destruct S as [s t u]. unfold flatMod, points, ivOf in *. cbn [c0 c1 c2] in *. rewrite !Z.mod_mod by lia.
  assert (E1 := Z.div_mod i u ltac:(lia)). assert (E2 := Z.div_mod (i / u) t ltac:(lia)). assert (M1 := Z.mod_pos_bound i u C). assert (M2 := Z.mod_pos_bound (i / u) t B).
  rewrite <- Z.div_div by lia. assert (0 <= i / u / t < s)%Z. { split; [apply Z.div_pos; [apply Z.div_pos; lia|lia]|]. apply Z.div_lt_upper_bound; [lia|]. apply Z.div_lt_upper_bound; [lia|]. nia. }
  rewrite (Z.mod_small (i / u / t) s) by lia. nia.
Qed.
Lemma wrapRem_mod a n : (0 < n)%Z -> wrapRem a n = (a mod n)%Z.
Proof.
  intros P. unfold wrapRem. assert (A := Z.rem_mod a n ltac:(lia)). assert (B := Z.mod_pos_bound (Z.abs a) n P). rewrite (Z.abs_eq n) in A by lia.
  destruct (Z.le_gt_cases 0 a) as [Q|Q].
  { rewrite Z.rem_mod_nonneg by lia. assert (X := Z.mod_pos_bound a n P). destruct (Z.ltb_spec (a mod n) 0); lia. }
  { rewrite Z.sgn_neg, Z.abs_neq in * by lia. destruct (Z.ltb_spec (Z.rem a n) 0) as [L|L].
    { replace (Z.rem a n + n)%Z with (n - (- a) mod n)%Z by lia. symmetry. rewrite <- (Z.opp_involutive a) at 1. rewrite Z.mod_opp_l_nz; [reflexivity|lia|lia]. }
    { assert (Z0 : ((- a) mod n = 0)%Z) by lia. rewrite A, Z0. rewrite <- (Z.opp_involutive a) at 1. rewrite Z.mod_opp_l_z; lia. } }
Qed.
Lemma lin_flat S a b c q : (a = c0 q mod c0 S -> b = c1 q mod c1 S -> c = c2 q mod c2 S -> lin S (V a b c) = flatMod S q)%Z.
Proof. intros -> -> ->. unfold lin, flatMod. cbn [c0 c1 c2]. ring. Qed.

Section Geo.
  Variables (Rl : mat R) (faces : list face) (tr : nat -> bool) (S Se : vec Z).
  Hypothesis DR : rdet Rl <> 0.
  Hypothesis VF : List.Forall (fun f => nonzero (img f) /\ f = bisector Rl (img f)) faces.
  Hypothesis BC : bounds_cell Rl (map img faces).
  Hypothesis PS : posS S.
  Hypothesis DB : doubled tr S Se.
  Hypothesis TO : truncation_orthogonal Rl tr.
  Hypothesis RS : resolved Rl S (map img faces) tol.
  Hypothesis FT : fits16 Rl S.

  Lemma PSe : posS Se.
  Proof.
    destruct PS as (A & B & C). assert (D0 := DB 0%nat ltac:(lia)). assert (D1 := DB 1%nat ltac:(lia)). assert (D2 := DB 2%nat ltac:(lia)). cbn [vget] in *.
    unfold posS. destruct (tr 0%nat), (tr 1%nat), (tr 2%nat); lia.
  Qed.
  Lemma congr_coarse q q' : congr Se q q' -> congr S q q'.
  Proof.
    intros (n & ->). assert (D0 := DB 0%nat ltac:(lia)). assert (D1 := DB 1%nat ltac:(lia)). assert (D2 := DB 2%nat ltac:(lia)). cbn [vget] in *.
    exists (V ((if tr 0%nat then 2 else 1) * c0 n) ((if tr 1%nat then 2 else 1) * c1 n) ((if tr 2%nat then 2 else 1) * c2 n))%Z. unfold hmul, zvadd, gvadd. cbn [c0 c1 c2]. rewrite D0, D1, D2. f_equal; ring.
  Qed.
  (** reduction on a mesh *)
  Lemma mesh_reduce T iv : posS T -> exists fuel0 r, (forall fuel, (fuel0 <= fuel)%nat -> reduceMesh fuel faces T iv = Some r) /\ congr T iv r /\ forall l, closer Rl (2 * tol) (frac T r) l.
  Proof.
    intros PT. assert (P := PT). destruct P as (A & B & C). destruct (nearest Rl faces DR VF BC (meshPoint iv T)) as (n & y & H1 & (l & H2) & _ & H4).
    assert (E := H1 n (le_n n)). rewrite mesh_ok in E by auto. destruct (reduceMesh n faces T iv) as [r|] eqn:Er; [|discriminate]. cbn [option_map] in E. injection E as E. rewrite frac_mesh in E.
    exists n, r. split; [|split].
    { intros fuel L. assert (E2 := H1 fuel L). rewrite mesh_ok in E2 by auto. destruct (reduceMesh fuel faces T iv) as [r'|]; [|discriminate]. cbn [option_map] in E2. injection E2 as E2. rewrite frac_mesh in E2.
      f_equal. apply (frac_inj T); auto. congruence. }
    { exists l. apply (frac_inj T); [auto|]. rewrite frac_add by auto. rewrite E, H2, frac_mesh. reflexivity. }
    { rewrite E. exact H4. }
  Qed.
  Lemma exact_cell q : (forall l, In l (map img faces) \/ In (zvopp l) (map img faces) -> closer Rl (2 * tol) (frac S q) l) -> in_cell Rl (frac S q).
  Proof.
    intros H. apply BC. intros l I. assert (Q : forall l, In l (map img faces) \/ In (zvopp l) (map img faces) -> closer Rl 0 (frac S q) l).
    { intros k K. assert (A := H k K). destruct (RS q k K) as [B _]. unfold closer in *. destruct (Rlt_dec (cart2 Rl (rvsub (frac S q) (vIZR k)) - cart2 Rl (frac S q)) 0) as [L|]; [|lra]. specialize (B L). lra. }
    split; apply Q; [auto|]. right. replace (zvopp (zvopp l)) with l; [auto|]. destruct l as [a b c]. unfold zvopp, gvopp, vmap. cbn [c0 c1 c2]. f_equal; ring.
  Qed.
  (** interior points *)
  Lemma plane_nz l : In l (map img faces) -> nonzero l.
  Proof. intros I. apply in_map_iff in I. destruct I as (f & <- & I). rewrite Forall_forall in VF. apply VF. auto. Qed.
  Lemma nz_pos l : nonzero l -> 0 < cart2 Rl (vIZR l).
  Proof.
    intros N. assert (P := cart_pos Rl (vIZR l)). destruct (Req_dec (cart2 Rl (vIZR l)) 0) as [E|E]; [|lra]. exfalso. apply N. apply cart_zero in E; [|auto]. destruct l as [a b c]. unfold vIZR, vmap in E. cbn [c0 c1 c2] in E.
    injection E as E0 E1 E2. f_equal; apply eq_IZR; auto.
  Qed.
  Lemma scale_up (x : vec R) (ls : list (vec Z)) : (forall l, In l ls -> 0 < cart2 Rl (vIZR l) /\ 2 * Rabs (ip Rl x (vIZR l)) < cart2 Rl (vIZR l)) -> exists t, 1 < t /\ forall l, In l ls -> 2 * (t * Rabs (ip Rl x (vIZR l))) <= cart2 Rl (vIZR l).
  Proof.
    induction ls as [|l ls IH]; intros H. { exists 2. split; [lra|intros l []]. }
    destruct IH as (t & T & Ht); [intros; apply H; right; auto|]. destruct (H l (or_introl eq_refl)) as [P Q]. set (a := Rabs (ip Rl x (vIZR l))) in *. set (b := cart2 Rl (vIZR l)) in *. assert (A : 0 <= a) by apply Rabs_pos.
    assert (G : exists u, 1 < u /\ 2 * (u * a) <= b). { destruct (Req_dec a 0) as [->|Na]; [exists 2; split; lra|]. exists (b / (2 * a)). split; [apply (Rmult_lt_reg_r (2 * a)); [lra|]; unfold Rdiv; rewrite Rmult_assoc, Rinv_l by lra; lra|]. right. field. lra. }
    destruct G as (u & U & Hu). exists (Rmin t u). assert (M1 := Rmin_l t u). assert (M2 := Rmin_r t u). split; [apply Rmin_glb_lt; auto|]. intros k [<-|I].
    { eapply Rle_trans; [|exact Hu]. fold a. apply Rmult_le_compat_l; [lra|]. apply Rmult_le_compat_r; auto. }
    { eapply Rle_trans; [|exact (Ht k I)]. apply Rmult_le_compat_l; [lra|]. apply Rmult_le_compat_r; [apply Rabs_pos|auto]. }
  Qed.
  Lemma ip_scale t x y : ip Rl (rvscale t x) y = t * ip Rl x y.
  Proof. unfold ip. destruct Rl, x, y. v3u. ring. Qed.
  Lemma interior x l : (forall k, In k (map img faces) -> 2 * Rabs (ip Rl x (vIZR k)) < cart2 Rl (vIZR k)) -> nonzero l -> 2 * ip Rl x (vIZR l) < cart2 Rl (vIZR l).
  Proof.
    intros H N. destruct (scale_up x (map img faces)) as (t & T & Ht). { intros k K. split; [apply nz_pos, plane_nz, K|auto]. }
    assert (C : in_cell Rl (rvscale t x)).
    { apply BC. intros k K. specialize (Ht k K). assert (E : vIZR (zvopp k) = rvopp (vIZR k)). { destruct k as [a b c]. unfold zvopp, gvopp, vIZR, vmap. cbn [c0 c1 c2]. rewrite !opp_IZR. reflexivity. }
      assert (U := Rle_abs (ip Rl x (vIZR k))). assert (W := Rle_abs (- ip Rl x (vIZR k))). rewrite Rabs_Ropp in W. rewrite !closer_iff, E, ip_opp, cart_opp, ip_scale. split; nra. }
    assert (Q := C l). rewrite closer_iff, ip_scale in Q. assert (P := nz_pos l N). destruct (Rle_dec (ip Rl x (vIZR l)) 0); [lra|]. nra.
  Qed.
  (** the test of the code *)
  Definition g_of (x : vec R) (l : vec Z) : R := cart2 Rl (vIZR l) - 2 * Rabs (ip Rl x (vIZR l)).
  Definition onBd (x : vec R) : Prop := in_cell Rl x /\ exists l, In l (map img faces) /\ g_of x l = 0.
  Lemma g_sign q l : In l (map img faces) -> (g_of (frac S q) l < 0 -> g_of (frac S q) l < - (2 * tol) * cart2 Rl (vIZR l)) /\ (0 < g_of (frac S q) l -> 4 * tol * cart2 Rl (vIZR l) <= g_of (frac S q) l * g_of (frac S q) l).
  Proof.
    intros I. unfold g_of. destruct (Rle_dec 0 (ip Rl (frac S q) (vIZR l))) as [L|L].
    { rewrite (Rabs_right _ (Rle_ge _ _ L)). assert (X := RS q l (or_introl I)). cbv zeta in X. rewrite cart_sub1 in X. replace (cart2 Rl (vIZR l) - 2 * ip Rl (frac S q) (vIZR l)) with (cart2 Rl (frac S q) - 2 * ip Rl (frac S q) (vIZR l) + cart2 Rl (vIZR l) - cart2 Rl (frac S q)) by ring. exact X. }
    { rewrite Rabs_left by lra. assert (X := RS q (zvopp l)).
      assert (E : vIZR (zvopp l) = rvopp (vIZR l)). { destruct l as [a b c]. unfold zvopp, gvopp, vIZR, vmap. cbn [c0 c1 c2]. rewrite !opp_IZR. reflexivity. }
      assert (OO : zvopp (zvopp l) = l). { destruct l as [a b c]. unfold zvopp, gvopp, vmap. cbn [c0 c1 c2]. f_equal; ring. }
      rewrite OO in X. specialize (X (or_intror I)). cbv zeta in X. rewrite cart_sub1, E, ip_opp, cart_opp in X.
      replace (cart2 Rl (vIZR l) - 2 * - ip Rl (frac S q) (vIZR l)) with (cart2 Rl (frac S q) - 2 * - ip Rl (frac S q) (vIZR l) + cart2 Rl (vIZR l) - cart2 Rl (frac S q)) by ring. exact X. }
  Qed.
  Lemma dDiff_g x f : In f faces -> 1 / 2 * (1 - Rabs (rdot (eqn f) x)) = g_of x (img f) / (2 * cart2 Rl (vIZR (img f))) /\ 0 < cart2 Rl (vIZR (img f)).
  Proof.
    intros I. rewrite Forall_forall in VF. destruct (VF f I) as [N E]. assert (P := nz_pos _ N). split; [|auto]. rewrite E at 1. rewrite eqn_ip, Rabs_mult. unfold g_of. rewrite (Rabs_right (2 / _)). { field. lra. }
    apply Rle_ge. apply Rlt_le. apply Rdiv_lt_0_compat; lra.
  Qed.
  Lemma bd_loop q : forall l m, (forall f, In f l -> In f faces) -> (match m with Some v => 0 <= v | None => True end) ->
    (onBoundaryLoop Rl l (frac S q) m = true <-> (forall f, In f l -> 0 <= g_of (frac S q) (img f)) /\ ((exists f, In f l /\ g_of (frac S q) (img f) = 0) \/ exists v, m = Some v /\ v < tol)).
  Proof.
    induction l as [|f l IH]; intros m R M; cbn [onBoundaryLoop].
    { split. { destruct m as [v|]; [|discriminate]. destruct (Rlt_dec v tol); [|discriminate]. intros _. split; [intros f []|right; eauto]. } { intros [_ [(f & [] & _)|(v & -> & L)]]. destruct (Rlt_dec v tol); [auto|lra]. } }
    destruct (dDiff_g (frac S q) f (R f (or_introl eq_refl))) as [E P]. rewrite E. set (g := g_of (frac S q) (img f)) in *. set (L2 := cart2 Rl (vIZR (img f))) in *.
    destruct (g_sign q (img f)) as [G1 G2]; [apply in_map, R; left; auto|]. fold g L2 in G1, G2. assert (Tp : 0 < tol) by (unfold tol; lra).
    assert (DN : g / (2 * L2) < - tol <-> g < 0). { split; intros H. { apply Rnot_le_lt. intros K. assert (0 <= g / (2 * L2)) by (apply Rmult_le_pos; [auto|left; apply Rinv_0_lt_compat; lra]). lra. }
      { specialize (G1 H). apply (Rmult_lt_reg_r (2 * L2)); [lra|]. unfold Rdiv. rewrite Rmult_assoc, Rinv_l by lra. lra. } }
    rewrite metric_cart. fold L2. set (d2 := g / (2 * L2) * (g / (2 * L2)) * L2).
    assert (D2 : d2 = g * g / (4 * L2)) by (unfold d2; field; lra).
    assert (DP : 0 <= d2). { rewrite D2. apply Rmult_le_pos; [nra|left; apply Rinv_0_lt_compat; lra]. }
    assert (DZ : 0 <= g -> (d2 < tol <-> g = 0)).
    { intros Gp. split; intros H. { destruct (Req_dec g 0) as [|Ng]; [auto|]. exfalso. assert (X : 0 < g) by lra. specialize (G2 X). assert (tol <= d2); [|lra]. rewrite D2. apply (Rmult_le_reg_r (4 * L2)); [lra|]. unfold Rdiv. rewrite Rmult_assoc, Rinv_l by lra. lra. }
      { rewrite D2, H. unfold Rdiv. lra. } }
    destruct (Rlt_dec (g / (2 * L2)) (- tol)) as [B|B].
    { split; [discriminate|]. intros [H _]. assert (X := H f (or_introl eq_refl)). fold g in X. apply DN in B. lra. }
    assert (Gp : 0 <= g). { destruct (Rlt_dec g 0) as [X|]; [apply DN in X; lra|lra]. } specialize (DZ Gp).
    rewrite IH; [|intros; apply R; right; auto|destruct m as [v|]; [destruct (Rlt_dec d2 v)|]; auto]. split.
    { intros [H1 H2]. split. { intros h [<-|I]; auto. } destruct H2 as [(h & I & Z)|(v & Ev & Lv)]; [left; exists h; split; [right; auto|auto]|].
      destruct m as [w|]. { destruct (Rlt_dec d2 w); injection Ev as <-; [left; exists f; split; [left; auto|apply DZ; auto]|right; eauto]. } { injection Ev as <-. left. exists f. split; [left; auto|apply DZ; auto]. } }
    { intros [H1 H2]. split; [intros; apply H1; right; auto|]. destruct H2 as [(h & [<-|I] & Z)|(v & -> & Lv)].
      { right. fold g in Z. apply DZ in Z. destruct m as [w|]; [|eauto]. destruct (Rlt_dec d2 w); [eauto|]. exists w. split; [auto|lra]. }
      { left. eauto. } { right. destruct (Rlt_dec d2 v); [exists d2; split; [auto|lra]|eauto]. } }
  Qed.
  Lemma bd_iff q : onBoundary Rl faces (frac S q) = true <-> onBd (frac S q).
  Proof.
    unfold onBoundary. rewrite bd_loop; [|auto|exact I]. unfold onBd. split.
    { intros [H1 [(f & J & Z)|(v & E & _)]]; [|discriminate]. split; [|exists (img f); split; [apply in_map; auto|auto]].
      apply BC. intros l K. apply in_map_iff in K. destruct K as (h & <- & K). specialize (H1 h K). unfold g_of in H1.
      assert (E : vIZR (zvopp (img h)) = rvopp (vIZR (img h))). { destruct (img h) as [a b c]. unfold zvopp, gvopp, vIZR, vmap. cbn [c0 c1 c2]. rewrite !opp_IZR. reflexivity. }
      rewrite !closer_iff, E, ip_opp, cart_opp. assert (U := Rle_abs (ip Rl (frac S q) (vIZR (img h)))). assert (W := Rle_abs (- ip Rl (frac S q) (vIZR (img h)))). rewrite Rabs_Ropp in W. split; lra. }
    { intros [C (l & J & Z)]. split; [|apply in_map_iff in J; destruct J as (f & <- & J); left; eauto]. intros f K. unfold g_of.
      assert (A := C (img f)). assert (B := C (zvopp (img f))). assert (E : vIZR (zvopp (img f)) = rvopp (vIZR (img f))). { destruct (img f) as [a b c]. unfold zvopp, gvopp, vIZR, vmap. cbn [c0 c1 c2]. rewrite !opp_IZR. reflexivity. }
      rewrite closer_iff in A, B. rewrite E, ip_opp, cart_opp in B. unfold Rabs. destruct (Rcase_abs (ip Rl (frac S q) (vIZR (img f)))); lra. }
  Qed.
  (** two different points of the cell that are equivalent are on the boundary *)
  Lemma shared x n : in_cell Rl x -> in_cell Rl (rvadd x (vIZR n)) -> nonzero n -> onBd x.
  Proof.
    intros C C' N. split; [auto|]. assert (A := C (zvopp n)). assert (E : vIZR (zvopp n) = rvopp (vIZR n)). { destruct n as [a b c]. unfold zvopp, gvopp, vIZR, vmap. cbn [c0 c1 c2]. rewrite !opp_IZR. reflexivity. }
    assert (B := C' n). unfold closer in A, B. replace (rvsub (rvadd x (vIZR n)) (vIZR n)) with x in B. 2:{ destruct x, (vIZR n). v3u. f_equal; ring. }
    replace (rvsub x (vIZR (zvopp n))) with (rvadd x (vIZR n)) in A. 2:{ rewrite E. destruct x, (vIZR n). v3u. f_equal; ring. }
    destruct (Classical_Prop.classic (exists l, In l (map img faces) /\ g_of x l = 0)) as [|NE]; [auto|]. exfalso.
    assert (I : 2 * ip Rl x (vIZR (zvopp n)) < cart2 Rl (vIZR (zvopp n))).
    { apply interior. { intros k K. assert (G : 0 <= g_of x k).
        { unfold g_of. assert (A1 := C k). assert (B1 := C (zvopp k)). assert (Ek : vIZR (zvopp k) = rvopp (vIZR k)). { destruct k as [a b c]. unfold zvopp, gvopp, vIZR, vmap. cbn [c0 c1 c2]. rewrite !opp_IZR. reflexivity. }
          rewrite closer_iff in A1, B1. rewrite Ek, ip_opp, cart_opp in B1. unfold Rabs. destruct (Rcase_abs (ip Rl x (vIZR k))); lra. }
        destruct (Req_dec (g_of x k) 0) as [Z|Z]; [destruct NE; eauto|]. unfold g_of in *. lra. }
      intros Q. apply N. destruct n as [a b c]. unfold zvopp, gvopp, vmap in Q. cbn [c0 c1 c2] in Q. injection Q as Q0 Q1 Q2. f_equal; lia. }
    assert (X := cart_sub1 Rl x (vIZR (zvopp n))). replace (rvsub x (vIZR (zvopp n))) with (rvadd x (vIZR n)) in X. 2:{ rewrite E. destruct x, (vIZR n). v3u. f_equal; ring. }
    rewrite Rmult_0_l, Rplus_0_r in *. lra.
  Qed.
End Geo.
