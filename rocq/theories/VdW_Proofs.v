(** Pair sums: accumulation, geometry and derivatives. *)
From Coq Require Import ZArith Reals List Bool Lia Lra Psatz.
From Coquelicot Require Import Coquelicot.
From Verif Require Import Base WorkDiv_Model Grid_Model Vec3_Model Vec3_Facts Lattice_Model RealUtil Coulomb_Model Coulomb_Proofs Coulomb_Proofs3 WS_Model Ions_Model CellMap_Spec CellMap_Proofs VdW_Model VdW_Spec.
Import ListNotations.
Local Open Scope R_scope.
Set Bullet Behavior "Strict Subproofs".

(** ** Sums *)
Lemma rsum_cons' {A} (f : A -> R) a l : rsum f (a :: l) = f a + rsum f l. Proof. reflexivity. Qed.
Lemma rsum_nil' {A} (f : A -> R) : rsum f [] = 0. Proof. reflexivity. Qed.
#[global] Opaque rsum.
Lemma rsum_derive {A} (l : list A) (f : A -> R -> R) (f' : A -> R) t :
  (forall a, In a l -> is_derive (f a) t (f' a)) -> is_derive (fun s => rsum (fun a => f a s) l) t (rsum f' l).
Proof.
  induction l as [|a l IH]; intros H.
  - apply (is_derive_ext (fun _ => 0)); [intros; reflexivity|]. rewrite rsum_nil'. apply (is_derive_const (V:=R_NormedModule)).
  - apply (is_derive_ext (fun s => f a s + rsum (fun a => f a s) l)); [intros; reflexivity|]. rewrite rsum_cons'.
    apply (is_derive_plus (V:=R_NormedModule)); [apply H; left; auto|apply IH; intros; apply H; right; auto].
Qed.
Lemma fold_sum {A S} (step : S -> A -> S) (val : S -> R) (f : A -> R) l s :
  (forall s a, In a l -> val (step s a) = val s + f a) -> val (fold_left step l s) = val s + rsum f l.
Proof.
  revert s. induction l as [|a l IH]; intros s H; cbn [fold_left]; [rewrite rsum_nil'; lra|].
  rewrite IH by (intros; apply H; right; auto). rewrite H by (left; auto). rewrite rsum_cons'. lra.
Qed.
Lemma rsum_concat {A} (f : A -> R) ls : rsum (fun l => rsum f l) ls = rsum f (concat ls).
Proof. induction ls as [|l ls IH]; [reflexivity|]. rewrite rsum_cons'. cbn [concat]. rewrite rsum_app, IH. reflexivity. Qed.
Lemma rsum_opp {A} (f : A -> R) l : rsum (fun a => - f a) l = - rsum f l.
Proof. induction l; rewrite ?rsum_cons', ?rsum_nil'; lra. Qed.
Lemma rsum_at n c (v : R) : (c < n)%nat -> rsum (fun d => if (d =? c)%nat then v else 0) (seq 0 n) = v.
Proof.
  intros L. assert (G : forall m k, rsum (fun d => if (d =? c)%nat then v else 0) (seq k m) = if ((k <=? c) && (c <? k + m))%nat%bool then v else 0).
  { induction m as [|m IH]; intros k; cbn [seq].
    - rewrite rsum_nil'. destruct (Nat.leb_spec k c), (Nat.ltb_spec c (k + 0)); cbn; lia || lra.
    - rewrite rsum_cons', IH. destruct (Nat.eqb_spec k c), (Nat.leb_spec (S k) c), (Nat.leb_spec k c), (Nat.ltb_spec c (S k + m)), (Nat.ltb_spec c (k + S m)); cbn; lia || lra. }
  rewrite G. destruct (Nat.leb_spec 0 c), (Nat.ltb_spec c (0 + n)); cbn; lia || lra.
Qed.

(** ** Linear functionals of the accumulators *)
Lemma rdot_addv u v w : rdot (rvadd u v) w = rdot u w + rdot v w. Proof. destruct u, v, w. v3u. ring. Qed.
Lemma rdot_subv u v w : rdot (rvsub u v) w = rdot u w - rdot v w. Proof. destruct u, v, w. v3u. ring. Qed.
Lemma work_gen n (F G : nat -> vec R) d c (k : R) : (c < n)%nat ->
  (forall e, rdot (G e) (d e) = rdot (F e) (d e) + if (e =? c)%nat then k else 0) -> workOf n G d = workOf n F d + k.
Proof.
  intros L H. unfold workOf. transitivity (rsum (fun e => rdot (F e) (d e)) (seq 0 n) + rsum (fun e => if (e =? c)%nat then k else 0) (seq 0 n)); [|rewrite (rsum_at n c k L); reflexivity].
  rewrite <- rsum_add. apply rsum_ext. intros e _. apply H.
Qed.
Lemma work_add n F c v d : (c < n)%nat -> workOf n (addAt rvadd F c v) d = workOf n F d + rdot v (d c).
Proof. intros L. apply (work_gen n _ _ _ c); auto. intros e. unfold addAt. destruct (Nat.eqb_spec e c); [subst; apply rdot_addv|ring]. Qed.
Lemma work_sub n F c v d : (c < n)%nat -> workOf n (addAt rvsub F c v) d = workOf n F d - rdot v (d c).
Proof. intros L. replace (workOf n F d - rdot v (d c)) with (workOf n F d + - rdot v (d c)) by ring. apply (work_gen n _ _ _ c); auto. intros e. unfold addAt. destruct (Nat.eqb_spec e c); [subst; rewrite rdot_subv; ring|ring]. Qed.
Lemma contraction_sub a b e : contraction (rmsub a b) e = contraction a e - contraction b e.
Proof. destruct a, b, e. unfold contraction, rmsub, rmadd, gmsub, gmadd. v3u. ring. Qed.
Lemma contraction_add a b e : contraction (rmadd a b) e = contraction a e + contraction b e.
Proof. destruct a, b, e. unfold contraction, rmsub, rmadd, gmsub, gmadd. v3u. ring. Qed.
Lemma contraction_scale s a e : contraction (rmscale s a) e = s * contraction a e.
Proof. destruct a, e. unfold contraction. v3u. ring. Qed.
Lemma work_zero n d : workOf n (fun _ => vzero) d = 0.
Proof. unfold workOf. rewrite <- (rsum_zero (seq 0 n)). apply rsum_ext. intros c _. unfold vzero. destruct (d c). v3u. ring. Qed.
Lemma contraction_zero e : contraction mzero e = 0. Proof. destruct e. unfold contraction, mzero. cbn. ring. Qed.

(** ** Geometry *)
Lemma metric2_RTR Rl x : metric2 (RTR Rl) x = rlen2 (rmv Rl x).
Proof. destruct Rl, x. unfold metric2, RTR. v3u. ring. Qed.
(** rate of change of half the squared length *)
Definition rate (Rl : mat R) (x dx : vec R) (eps : mat R) : R := rdot (rmv (RTR Rl) x) dx + contraction (Ions_Model.outer (rmv Rl x) (rmv Rl x)) eps.
Lemma rate_vec Rl x dx eps : rate Rl x dx eps = rdot (rmv Rl x) (rvadd (rmv Rl dx) (rmv eps (rmv Rl x))).
Proof.
  unfold rate, RTR. rewrite rmv_mm. set (r := rmv Rl x). replace (rdot (rmv (mtrans Rl) r) dx) with (rdot r (rmv Rl dx)).
  - generalize (rmv Rl dx). clearbody r. intros w. destruct r, w, eps. unfold contraction, Ions_Model.outer. v3u. ring.
  - clearbody r. destruct Rl, r, dx. v3u. ring.
Qed.
Lemma sep_displaced pos d c1 c2 iR t : sep (displaced pos d t) c1 c2 iR = rvadd (sep pos c1 c2 iR) (rvscale t (rvsub (d c1) (d c2))).
Proof. unfold sep, displaced. generalize (cellVec iR) (pos c1) (pos c2) (d c1) (d c2). intros a b c e f. destruct a, b, c, e, f. v3u. f_equal; ring. Qed.
Lemma strained_mv Rl eps t v : rmv (strained Rl eps t) v = rvadd (rmv Rl v) (rvscale t (rmv eps (rmv Rl v))).
Proof.
  unfold strained. rewrite rmv_mm. generalize (rmv Rl v). clear. intros w. destruct w, eps. v3u. f_equal; ring.
Qed.
Definition qt (Rl eps : mat R) (pos d : nat -> vec R) (c1 c2 : nat) (iR : V3) (t : R) : R := metric2 (RTR (strained Rl eps t)) (sep (displaced pos d t) c1 c2 iR).
Lemma poly_len2 (a b c : vec R) : is_derive (fun t => rlen2 (rvadd (rvadd a (rvscale t b)) (rvscale (t*t) c))) 0 (2 * rdot a b).
Proof.
  destruct a as [a0 a1 a2], b as [b0 b1 b2], c as [g0 g1 g2].
  apply (is_derive_ext (fun t => (a0 + b0 * t + g0 * (t*t)) * (a0 + b0 * t + g0 * (t*t)) + (a1 + b1 * t + g1 * (t*t)) * (a1 + b1 * t + g1 * (t*t)) + (a2 + b2 * t + g2 * (t*t)) * (a2 + b2 * t + g2 * (t*t)))).
  - intros t. match goal with |- ?a = ?b => change (@eq R a b) end. v3u. ring.
  - auto_derive; [auto|]. v3u. ring.
Qed.
Lemma qt_poly Rl eps pos d c1 c2 iR t : let x := sep pos c1 c2 iR in let dx := rvsub (d c1) (d c2) in
  qt Rl eps pos d c1 c2 iR t = rlen2 (rvadd (rvadd (rmv Rl x) (rvscale t (rvadd (rmv Rl dx) (rmv eps (rmv Rl x))))) (rvscale (t*t) (rmv eps (rmv Rl dx)))).
Proof.
  cbv zeta. unfold qt. rewrite metric2_RTR, strained_mv, sep_displaced. f_equal. generalize (sep pos c1 c2 iR) (rvsub (d c1) (d c2)). intros x dx.
  rewrite rmv_add. assert (E : rmv Rl (rvscale t dx) = rvscale t (rmv Rl dx)) by (destruct Rl, dx; v3u; f_equal; ring). rewrite E. clear E.
  generalize (rmv Rl x) (rmv Rl dx). clear. intros a b. destruct a, b, eps. v3u. f_equal; ring.
Qed.
Lemma qt_derive Rl eps pos d c1 c2 iR :
  is_derive (qt Rl eps pos d c1 c2 iR) 0 (2 * rate Rl (sep pos c1 c2 iR) (rvsub (d c1) (d c2)) eps).
Proof.
  apply (is_derive_ext (fun t => rlen2 (rvadd (rvadd (rmv Rl (sep pos c1 c2 iR)) (rvscale t (rvadd (rmv Rl (rvsub (d c1) (d c2))) (rmv eps (rmv Rl (sep pos c1 c2 iR)))))) (rvscale (t*t) (rmv eps (rmv Rl (rvsub (d c1) (d c2)))))))).
  - intros t. symmetry. apply qt_poly.
  - rewrite rate_vec. apply poly_len2.
Qed.
Lemma qt_0 Rl eps pos d c1 c2 iR : qt Rl eps pos d c1 c2 iR 0 = metric2 (RTR Rl) (sep pos c1 c2 iR).
Proof.
  rewrite qt_poly, metric2_RTR. f_equal. generalize (rmv Rl (sep pos c1 c2 iR)) (rmv Rl (rvsub (d c1) (d c2))). clear. intros a b. destruct a, b, eps. v3u. f_equal; ring.
Qed.
Lemma qt_self Rl eps pos d c iR t : iR = (0, 0, 0)%Z -> qt Rl eps pos d c c iR t = 0.
Proof.
  intros ->. unfold qt. rewrite metric2_RTR. unfold sep, cellVec. cbn [v0 v1 v2 fst snd]. generalize (displaced pos d t c). intros p.
  replace (rvadd (V 0 0 0) (rvsub p p)) with (V 0 0 0) by (destruct p; v3u; f_equal; ring). destruct (strained Rl eps t). v3u. ring.
Qed.
Lemma distance_sep Rl pos c1 c2 g : distance Rl pos c1 c2 g = sqrt (metric2 (RTR Rl) (sep pos c1 c2 g)).
Proof. destruct g as [[x y] z]. unfold distance, sep, cellVec. rewrite metric2_RTR. reflexivity. Qed.
Lemma metric2_RTR_pos Rl x : 0 <= metric2 (RTR Rl) x. Proof. rewrite metric2_RTR. apply rlen2_pos. Qed.
Lemma distance_0 Rl pos c1 c2 g : distance Rl pos c1 c2 g = 0 <-> metric2 (RTR Rl) (sep pos c1 c2 g) = 0.
Proof.
  rewrite distance_sep. assert (P := metric2_RTR_pos Rl (sep pos c1 c2 g)). split; intros H; [apply sqrt_eq_0; auto|rewrite H; apply sqrt_0].
Qed.

(** a term depending on the squared distance through its root, with a switch that is constant near the point *)
Lemma term_derive (q : R -> R) (D : R) (test : R -> bool) (h : R -> R) (h' : R) :
  is_derive q 0 (2 * D) -> 0 <= q 0 ->
  (q 0 = 0 -> test 0 = false /\ forall t, q t = 0) ->
  (0 < q 0 -> locally (q 0) (fun y => test y = test (q 0))) ->
  (0 < q 0 -> test (q 0) = true -> is_derive h (sqrt (q 0)) h') ->
  is_derive (fun t => if test (q t) then h (sqrt (q t)) else 0) 0 (if test (q 0) then h' / sqrt (q 0) * D else 0).
Proof.
  intros Dq P Z L Dh. destruct (Req_EM_T (q 0) 0) as [E|E].
  - destruct (Z E) as [T A]. rewrite E, T. apply (is_derive_ext (fun _ => 0)); [intros t; rewrite A, T; reflexivity|apply (is_derive_const (V:=R_NormedModule))].
  - assert (P' : 0 < q 0) by lra. specialize (L P'). specialize (Dh P').
    assert (C : continuous q 0) by (apply (ex_derive_continuous (K:=R_AbsRing) (V:=R_NormedModule)); eexists; exact Dq).
    assert (L' : locally 0 (fun t => test (q t) = test (q 0))) by (apply (C (fun y => test y = test (q 0))); exact L).
    destruct (test (q 0)) eqn:T.
    + apply (is_derive_ext_loc (fun t => h (sqrt (q t)))).
      { revert L'. apply filter_imp. intros t Ht. rewrite Ht. reflexivity. }
      assert (S : is_derive (fun t => sqrt (q t)) 0 (/ sqrt (q 0) * D)).
      { replace (/ sqrt (q 0) * D) with ((2 * D) * / (2 * sqrt (q 0))) by (field; assert (0 < sqrt (q 0)) by (apply sqrt_lt_R0; auto); lra).
        apply (is_derive_comp (K:=R_AbsRing) (V:=R_NormedModule) sqrt q 0 (/ (2 * sqrt (q 0))) (2 * D)); [|exact Dq].
        apply is_derive_Reals. apply derivable_pt_lim_sqrt. auto. }
      replace (h' / sqrt (q 0) * D) with ((/ sqrt (q 0) * D) * h') by (unfold Rdiv; ring).
      apply (is_derive_comp (K:=R_AbsRing) (V:=R_NormedModule) h (fun t => sqrt (q t)) 0 h' (/ sqrt (q 0) * D)); [apply Dh; auto|exact S].
    + apply (is_derive_ext_loc (fun _ => 0)); [revert L'; apply filter_imp; intros t Ht; rewrite Ht; reflexivity|apply (is_derive_const (V:=R_NormedModule))].
Qed.
