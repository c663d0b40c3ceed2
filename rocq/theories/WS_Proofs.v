(** Reduction to the Wigner-Seitz cell. *)
From Coq Require Import ZArith Reals List Bool Lia Lra Psatz.
From Verif Require Import Base Vec3_Model Vec3_Facts Lattice_Model RealUtil Coulomb_Model Coulomb_Proofs WS_Model WS_Spec.
Import ListNotations.
Local Open Scope R_scope.

Definition ip (Rl : mat R) (x y : vec R) : R := rdot (rmv Rl x) (rmv Rl y).
Lemma metric_cart Rl v : metric2 (RTR Rl) v = cart2 Rl v.
Proof. unfold cart2, RTR, metric2. destruct Rl, v. v3u. ring. Qed.
Lemma eqn_ip Rl a x : rdot (eqn (bisector Rl a)) x = 2 / cart2 Rl (vIZR a) * ip Rl x (vIZR a).
Proof. unfold bisector. cbn [eqn]. rewrite metric_cart. generalize (2 / cart2 Rl (vIZR a)) (vIZR a). intros k v. unfold ip, RTR. destruct Rl, v, x. v3u. ring. Qed.
Lemma cart_sub Rl x l k : cart2 Rl (rvsub x (rvscale k l)) = cart2 Rl x - 2 * k * ip Rl x l + k * k * cart2 Rl l.
Proof. unfold cart2, ip. destruct Rl, x, l. v3u. ring. Qed.
Lemma cart_sub1 Rl x l : cart2 Rl (rvsub x l) = cart2 Rl x - 2 * ip Rl x l + cart2 Rl l.
Proof. unfold cart2, ip. destruct Rl, x, l. v3u. ring. Qed.
Lemma cart_pos Rl x : 0 <= cart2 Rl x.
Proof. unfold cart2. assert (H : forall v, 0 <= rlen2 v). { intros [a b c]. v3u. nra. } apply H. Qed.
Lemma closer_iff Rl e x l : closer Rl e x l <-> 2 * ip Rl x (vIZR l) <= (1 + e) * cart2 Rl (vIZR l).
Proof. unfold closer. rewrite cart_sub1. split; lra. Qed.
Lemma rlen2_zero v : rlen2 v = 0 -> v = V 0 0 0.
Proof. destruct v as [a b c]. v3u. intros H. assert (a = 0) by nra. assert (b = 0) by nra. assert (c = 0) by nra. subst. reflexivity. Qed.
Lemma cart_zero Rl x : rdet Rl <> 0 -> cart2 Rl x = 0 -> x = V 0 0 0.
Proof.
  intros D E. apply rlen2_zero in E. replace x with (rmv rid x) by (destruct x; v3u; f_equal; ring).
  rewrite <- (rinv_l Rl D), rmv_mm, E. generalize (rinv Rl). intros m. destruct m. v3u. f_equal; ring.
Qed.
Lemma cart_lattice Rl l : rdet Rl <> 0 -> nonzero l -> 0 < cart2 Rl (vIZR l).
Proof.
  intros D N. assert (P := cart_pos Rl (vIZR l)). destruct (Req_dec (cart2 Rl (vIZR l)) 0) as [E|E]; [|lra].
  exfalso. apply N. apply cart_zero in E; [|exact D]. destruct l as [a b c]. injection E as E0 E1 E2. apply eq_IZR in E0, E1, E2. subst. reflexivity.
Qed.
Lemma vIZR_opp l : vIZR (zvopp l) = rvopp (vIZR l).
Proof. destruct l as [a b c]. unfold zvopp, gvopp, vmap, vIZR. v3u. rewrite !opp_IZR. reflexivity. Qed.
Lemma cart_opp Rl l : cart2 Rl (rvopp l) = cart2 Rl l.
Proof. unfold cart2. destruct Rl, l. v3u. ring. Qed.
Lemma ip_opp Rl x l : ip Rl x (rvopp l) = - ip Rl x l.
Proof. unfold ip. destruct Rl, l, x. v3u. ring. Qed.

(** one face *)
Definition valid (Rl : mat R) (f : face) : Prop := nonzero (img f) /\ f = bisector Rl (img f).
Definition fdist (f : face) (x : vec R) : R := 1/2 * (1 + rdot (eqn f) x).
Lemma fdist_valid Rl f x : valid Rl f -> fdist f x = 1/2 * (1 + 2 / cart2 Rl (vIZR (img f)) * ip Rl x (vIZR (img f))).
Proof. intros [_ F]. unfold fdist. replace (eqn f) with (eqn (bisector Rl (img f))) by (rewrite <- F; reflexivity). rewrite eqn_ip. reflexivity. Qed.
Lemma outside_false d : outside d = false <-> - tol <= d <= 1 + tol.
Proof. unfold outside. destruct (Rlt_dec d (- tol)), (Rlt_dec (1 + tol) d); split; try discriminate; try lra; intros; try lra; reflexivity. Qed.
Lemma drop n d : n = rfloor d -> outside d = true -> 2 * tol <= IZR n * (2 * d - 1) - IZR n * IZR n.
Proof.
  intros -> O. assert (B := rfloor_bounds d). set (n := rfloor d) in *. unfold outside, tol in *.
  destruct (Rlt_dec d (- (1 / 100000000))) as [L|L].
  - assert (N : (n < 0)%Z) by (apply lt_IZR; lra). destruct (Z.eq_dec n (-1)) as [->|Q].
    + lra.
    + assert (IZR n <= -2) by (apply (IZR_le n (-2)); lia). nra.
  - destruct (Rlt_dec (1 + 1 / 100000000) d) as [G|G]; [|discriminate].
    assert (N : (0 < n)%Z). { assert (0 < n + 0)%Z; [|lia]. apply lt_IZR. rewrite plus_IZR. lra. }
    destruct (Z.eq_dec n 1) as [->|Q].
    + lra.
    + assert (2 <= IZR n) by (apply (IZR_le 2 n); lia). nra.
Qed.
Lemma face_drop Rl f x : rdet Rl <> 0 -> valid Rl f -> outside (fdist f x) = true ->
  cart2 Rl (rvsub x (rvscale (IZR (rfloor (fdist f x))) (vIZR (img f)))) <= cart2 Rl x - 2 * tol * cart2 Rl (vIZR (img f)).
Proof.
  intros D W O. destruct (W) as [N _]. assert (P := cart_lattice Rl (img f) D N). rewrite cart_sub. assert (Q := drop _ _ eq_refl O).
  set (n := rfloor (fdist f x)) in *. assert (E : ip Rl x (vIZR (img f)) = (2 * fdist f x - 1) * cart2 Rl (vIZR (img f)) / 2).
  { rewrite (fdist_valid Rl f x W). field. lra. }
  rewrite E. set (N2 := cart2 Rl (vIZR (img f))) in *. set (d := fdist f x) in *. clearbody n d N2. unfold tol in *. nra.
Qed.
Lemma reduceFace_eq x c f : reduceFace (x, c) f = if outside (fdist f x) then (rvsub x (rvscale (IZR (rfloor (fdist f x))) (vIZR (img f))), true) else (x, c).
Proof. reflexivity. Qed.
Definition zsub_mul (n : Z) (l : vec Z) : vec Z := V (- (n * c0 l))%Z (- (n * c1 l))%Z (- (n * c2 l))%Z.
Lemma equiv_refl x : equivalent x x.
Proof. exists (V 0 0 0)%Z. destruct x. v3u. f_equal; ring. Qed.
Lemma equiv_trans x y z : equivalent x y -> equivalent y z -> equivalent x z.
Proof. intros [l ->] [m ->]. exists (zvadd l m). destruct x, l, m. unfold zvadd. v3u. rewrite !plus_IZR. f_equal; ring. Qed.
Lemma equiv_step x n l : equivalent x (rvsub x (rvscale (IZR n) (vIZR l))).
Proof. exists (zsub_mul n l). unfold zsub_mul. destruct x, l. v3u. rewrite !opp_IZR, !mult_IZR. f_equal; ring. Qed.
(** a pass over the faces *)
Lemma pass Rl m : rdet Rl <> 0 -> 0 <= m -> forall faces x c, List.Forall (fun f => valid Rl f /\ m <= cart2 Rl (vIZR (img f))) faces ->
  let r := fold_left reduceFace faces (x, c) in
  equivalent x (fst r) /\ cart2 Rl (fst r) <= cart2 Rl x /\
  ((snd r = true /\ (c = true \/ cart2 Rl (fst r) <= cart2 Rl x - 2 * tol * m)) \/
   (snd r = false /\ c = false /\ fst r = x /\ List.Forall (fun f => - tol <= fdist f x <= 1 + tol) faces)).
Proof.
  intros D M. induction faces as [|f l IH]; intros x c H.
  - cbn. split; [apply equiv_refl|]. split; [lra|]. destruct c; [left; auto|right; auto].
  - inversion H as [|? ? [Vf Mf] Hl]; subst. cbn [fold_left]. rewrite reduceFace_eq. destruct (outside (fdist f x)) eqn:O.
    + assert (Q := face_drop Rl f x D Vf O). set (x' := rvsub x _) in *.
      destruct (IH x' true Hl) as (E & L & A). assert (Ex : equivalent x x') by apply equiv_step. assert (T : 0 < tol) by (unfold tol; lra).
      assert (cart2 Rl x' <= cart2 Rl x - 2 * tol * m) by nra.
      split; [eapply equiv_trans; eassumption|]. split; [nra|]. destruct A as [[A _]|(A & B & _)]; [|discriminate].
      left. split; [exact A|]. right. lra.
    + destruct (IH x c Hl) as (E & L & A). split; [exact E|]. split; [exact L|]. destruct A as [A|(A & B & C & G)]; [left; exact A|right].
      repeat split; auto. constructor; [apply outside_false; exact O|exact G].
Qed.
(** a positive lower bound of the face distances *)
Lemma min_face Rl faces : rdet Rl <> 0 -> List.Forall (valid Rl) faces -> exists m, 0 < m /\ List.Forall (fun f => valid Rl f /\ m <= cart2 Rl (vIZR (img f))) faces.
Proof.
  intros D. induction 1 as [|f l Vf _ (m & Pm & H)]; [exists 1; split; [lra|constructor]|].
  assert (P := cart_lattice Rl (img f) D (proj1 Vf)). exists (Rmin m (cart2 Rl (vIZR (img f)))). split; [apply Rmin_pos; lra|].
  constructor; [split; [exact Vf|apply Rmin_r]|]. eapply List.Forall_impl; [|exact H]. intros g [Vg Lg]. split; [exact Vg|].
  eapply Rle_trans; [apply Rmin_l|exact Lg].
Qed.
Lemma reduce_ok Rl faces : rdet Rl <> 0 -> List.Forall (valid Rl) faces -> forall x, exists fuel0 y,
  (forall fuel, (fuel0 <= fuel)%nat -> reduce fuel faces x = Some y) /\
  equivalent x y /\ cart2 Rl y <= cart2 Rl x /\ List.Forall (fun f => - tol <= fdist f y <= 1 + tol) faces.
Proof.
  intros D H. destruct (min_face Rl faces D H) as (m & Pm & Hm). assert (T : 0 < tol) by (unfold tol; lra).
  assert (G : forall k x, cart2 Rl x < INR k * (2 * tol * m) -> exists y, (forall fuel, (k <= fuel)%nat -> reduce fuel faces x = Some y) /\
    equivalent x y /\ cart2 Rl y <= cart2 Rl x /\ List.Forall (fun f => - tol <= fdist f y <= 1 + tol) faces).
  { induction k as [|k IH]; intros x L.
    - cbn in L. assert (P := cart_pos Rl x). lra.
    - rewrite S_INR in L. assert (Q := pass Rl m D (Rlt_le _ _ Pm) faces x false Hm). cbv zeta in Q.
      destruct (fold_left reduceFace faces (x, false)) as [x' c'] eqn:E. cbn [fst snd] in Q. destruct Q as (Ex & Le & [[Qc [Qd|Qd]]|(Qc & _ & Qx & Qf)]).
      + discriminate.
      + destruct (IH x') as (y & A & B & C & F); [nra|]. exists y. split; [|split; [eapply equiv_trans; eassumption|split; [lra|exact F]]].
        intros fuel Hf. destruct fuel as [|fuel]; [lia|]. cbn [reduce]. rewrite E, Qc. apply A. lia.
      + subst x' c'. exists x. split; [|split; [apply equiv_refl|split; [lra|exact Qf]]]. intros fuel Hf. destruct fuel as [|fuel]; [lia|]. cbn [reduce]. rewrite E. reflexivity. }
  intros x. assert (Hk : exists k, cart2 Rl x / (2 * tol * m) < INR k).
  { exists (Z.to_nat (Z.max 0 (up (cart2 Rl x / (2 * tol * m))))). rewrite INR_IZR_INZ, Z2Nat.id by lia. destruct (archimed (cart2 Rl x / (2 * tol * m))) as [U _].
    eapply Rlt_le_trans; [exact U|]. apply IZR_le. lia. }
  destruct Hk as [k Hk].
  assert (Pp : 0 < 2 * tol * m) by nra. destruct (G k x) as (y & A); [|exists k, y; exact A].
  apply (Rmult_lt_compat_r (2 * tol * m)) in Hk; [|exact Pp]. unfold Rdiv in Hk. rewrite Rmult_assoc, Rinv_l, Rmult_1_r in Hk by lra. exact Hk.
Qed.
(** the result is in the cell up to tolerance, when the faces bound the cell *)
Lemma fdist_bound Rl f y : rdet Rl <> 0 -> valid Rl f -> (- tol <= fdist f y <= 1 + tol) ->
  closer Rl (2 * tol) y (img f) /\ closer Rl (2 * tol) y (zvopp (img f)).
Proof.
  intros D W B. destruct (W) as [N _]. assert (P := cart_lattice Rl (img f) D N). rewrite !closer_iff, vIZR_opp, cart_opp, ip_opp.
  rewrite (fdist_valid Rl f y W) in B. set (N2 := cart2 Rl (vIZR (img f))) in *. set (i := ip Rl y (vIZR (img f))) in *.
  assert (E : 2 / N2 * i * N2 = 2 * i) by (field; lra). set (q := 2 / N2 * i) in *. split; nra.
Qed.
Lemma cell_tol Rl faces y : rdet Rl <> 0 -> List.Forall (valid Rl) faces -> bounds_cell Rl (map img faces) -> List.Forall (fun f => - tol <= fdist f y <= 1 + tol) faces ->
  forall l, closer Rl (2 * tol) y l.
Proof.
  intros D V C H l. assert (T : 0 < tol) by (unfold tol; lra). set (k := 1 / (1 + 2 * tol)). assert (K : 0 < k) by (unfold k; apply Rdiv_lt_0_compat; lra).
  assert (Ek : k * (1 + 2 * tol) = 1) by (unfold k; field; lra).
  assert (Q : in_cell Rl (rvscale k y)).
  { apply C. intros f' Hf'. apply in_map_iff in Hf'. destruct Hf' as (f & <- & Hf). rewrite List.Forall_forall in V, H. destruct (fdist_bound Rl f y D (V f Hf) (H f Hf)) as [A B].
    rewrite closer_iff in A, B. rewrite !closer_iff.
    assert (S : forall w, ip Rl (rvscale k y) w = k * ip Rl y w) by (intros w; unfold ip; destruct Rl, y, w; v3u; ring). rewrite !S.
    set (N1 := cart2 Rl (vIZR (img f))) in *. set (N3 := cart2 Rl (vIZR (zvopp (img f)))) in *.
    apply (Rmult_le_compat_l k) in A; [|lra]. apply (Rmult_le_compat_l k) in B; [|lra]. replace (k * ((1 + 2 * tol) * N1)) with (k * (1 + 2 * tol) * N1) in A by ring. replace (k * ((1 + 2 * tol) * N3)) with (k * (1 + 2 * tol) * N3) in B by ring. rewrite Ek in A, B. split; lra. }
  specialize (Q l). rewrite closer_iff in *. 
  assert (S : ip Rl (rvscale k y) (vIZR l) = k * ip Rl y (vIZR l)) by (generalize (vIZR l); intros w; unfold ip; destruct Rl, y, w; v3u; ring). rewrite S in Q.
  apply (Rmult_le_compat_l (1 + 2 * tol)) in Q; [|lra]. replace ((1 + 2 * tol) * (2 * (k * ip Rl y (vIZR l)))) with (2 * ip Rl y (vIZR l) * (k * (1 + 2 * tol))) in Q by ring. rewrite Ek in Q. lra.
Qed.
(** mesh version *)
Lemma mesh_step S iv c f : (0 < c0 S)%Z -> (0 < c1 S)%Z -> (0 < c2 S)%Z ->
  reduceFace (meshPoint iv S, c) f = (meshPoint (fst (reduceMeshFace S (iv, c) f)) S, snd (reduceMeshFace S (iv, c) f)).
Proof.
  intros P0 P1 P2. destruct S as [s0 s1 s2], iv as [i0 i1 i2]. cbn [c0 c1 c2] in P0, P1, P2. apply IZR_lt in P0, P1, P2. unfold reduceMeshFace, reduceFace.
  cbn [c0 c1 c2]. replace (1 / 2 * (1 + rdot (eqn f) (meshPoint (V i0 i1 i2) (V s0 s1 s2)))) with
    (1/2 * (1 + (0 + c0 (eqn f) * IZR i0 * (1 / IZR s0) + c1 (eqn f) * IZR i1 * (1 / IZR s1) + c2 (eqn f) * IZR i2 * (1 / IZR s2))))
    by (unfold meshPoint; destruct (eqn f) as [e0 e1 e2]; v3u; ring).
  set (d := 1/2 * _). destruct (outside d); [|reflexivity]. cbn [fst snd]. f_equal. unfold meshPoint. cbn [c0 c1 c2]. rewrite !minus_IZR, !mult_IZR.
  destruct f as [[a0 a1 a2] eq]. cbn [img c0 c1 c2]. v3u. f_equal; field; lra.
Qed.
Lemma mesh_pass S : (0 < c0 S)%Z -> (0 < c1 S)%Z -> (0 < c2 S)%Z -> forall faces iv c,
  fold_left reduceFace faces (meshPoint iv S, c) = (meshPoint (fst (fold_left (reduceMeshFace S) faces (iv, c))) S, snd (fold_left (reduceMeshFace S) faces (iv, c))).
Proof.
  intros P0 P1 P2. induction faces as [|f l IH]; intros iv c; cbn [fold_left]; [reflexivity|].
  rewrite mesh_step by assumption. destruct (reduceMeshFace S (iv, c) f) as [iv' c']. cbn [fst snd]. apply IH.
Qed.
Lemma mesh_ok S faces : (0 < c0 S)%Z -> (0 < c1 S)%Z -> (0 < c2 S)%Z -> forall fuel iv,
  reduce fuel faces (meshPoint iv S) = option_map (fun r => meshPoint r S) (reduceMesh fuel faces S iv).
Proof.
  intros P0 P1 P2. induction fuel as [|fuel IH]; intros iv; [reflexivity|]. cbn [reduce reduceMesh]. rewrite mesh_pass by assumption.
  destruct (fold_left (reduceMeshFace S) faces (iv, false)) as [iv' c']. cbn [fst snd]. destruct c'; [apply IH|reflexivity].
Qed.
