(** Hard sphere functional: proofs. *)
From Coq Require Import ZArith Reals List Bool Lia Lra Psatz.
From Coquelicot Require Import Coquelicot.
From Verif Require Import Base Vec3_Model Vec3_Facts Spline_Proofs Cavity_Proofs2 Deriv_Model FMT_Model FMT_Spec.
Import ListNotations.
Open Scope R_scope.
Local Lemma half_is : 0.5 = / 2. Proof. lra. Qed.
Ltac req := match goal with |- ?a = ?b => change (@eq R a b) end.

Lemma vTmv_spec m v : mul_vTmv m v = rdot v (rmv (full m) v).
Proof. destruct m, v. unfold mul_vTmv, full. v3_unfold. cbn. ring. Qed.
Lemma trace_spec m : trace_cubed m = rtrace (rmm (full m) (rmm (full m) (full m))).
Proof. destruct m. unfold trace_cubed, full, rtrace, gtrace. v3_unfold. cbn. ring. Qed.
Lemma vTmv_derive m v dm dv g a b :
  let acc := mul_vTmv_grad g m v (a, b) in
  is_derive (fun t : R => g * mul_vTmv (rtadd m (rtscale t dm)) (rvadd v (rvscale t dv))) 0
    (rtdot (fst acc) dm - rtdot a dm + (rdot (snd acc) dv - rdot b dv)).
Proof.
  destruct m, v, dm, dv, a, b. cbn zeta. unfold mul_vTmv, mul_vTmv_grad, rtdot, rtadd, rtscale. v3_unfold. cbn.
  auto_derive; auto. ring.
Qed.
Lemma trace_derive m dm g a :
  is_derive (fun t : R => g * trace_cubed (rtadd m (rtscale t dm))) 0 (rtdot (trace_cubed_grad g m a) dm - rtdot a dm).
Proof. destruct m, dm, a. unfold trace_cubed, trace_cubed_grad, rtdot, rtadd, rtscale. cbn. auto_derive; auto. ring. Qed.

Lemma kernel_adjoint nyq G n g : cpair g (tensorKernel_calc nyq G n) = (Cconj (tensorKernel_grad_calc nyq G g) * n)%C.
Proof.
  destruct g as [[] [] [] [] []], n, G. unfold cpair, tensorKernel_calc, tensorKernel_grad_calc, rlen2. v3_unfold.
  destruct nyq; apply injective_projections; cbn; req; field.
Qed.
(** the kernel is -n (G G^T - G^2/3), which is traceless *)
Lemma kernel_traceless G n : matrixOfTensor (tensorKernel_calc false G n) =
  let k a b (diag : bool) := (- n * RtoC (a * b - if diag then rlen2 G / 3 else 0))%C in
  M (k (c0 G) (c0 G) true) (k (c0 G) (c1 G) false) (k (c0 G) (c2 G) false)
    (k (c1 G) (c0 G) false) (k (c1 G) (c1 G) true) (k (c1 G) (c2 G) false)
    (k (c2 G) (c0 G) false) (k (c2 G) (c1 G) false) (k (c2 G) (c2 G) true).
Proof.
  destruct n, G. unfold matrixOfTensor, tensorKernel_calc, rlen2. v3_unfold. cbn [t_xy t_yz t_zx t_xxr t_yyr].
  f_equal; apply injective_projections; cbn; req; field.
Qed.

Lemma f2_derive x : 0 < x < 1 -> x <> 0.002 -> is_derive (fun x : R => fst (WB_f2 x)) x (snd (WB_f2 x)).
Proof.
  intros Hx NE. unfold WB_f2. destruct (Rlt_dec x 0.002) as [L|L]; cbn [snd].
  - apply (is_derive_ext_loc (fun x : R => 1 + x * x * ((1/9) + x * (1/18 + x * (1/30))))).
    + apply (filter_imp (fun y => 0 < y < 0.002)); [|apply near; lra]. intros y Hy. destruct (Rlt_dec y 0.002); [reflexivity|lra].
    + auto_derive; auto. field.
  - apply (is_derive_ext_loc (fun x : R => 1 + (1/3) * (2 - x + 2 * (1 - x) * ln (1 - x) / x))).
    + apply (filter_imp (fun y => 0.002 < y < 1)); [|apply near; lra]. intros y Hy. destruct (Rlt_dec y 0.002); [lra|reflexivity].
    + auto_derive; [repeat split; lra|]. change (1 - x) with (1 + - x). generalize (ln (1 + - x)). intros lx. req. field. split; lra.
Qed.
Lemma f3_derive x : 0 < x < 1 -> x <> 0.005 -> is_derive (fun x : R => fst (WB_f3 x)) x (snd (WB_f3 x)).
Proof.
  intros Hx NE. unfold WB_f3. destruct (Rlt_dec x 0.005) as [L|L]; cbn [snd].
  - apply (is_derive_ext_loc (fun x : R => 1 + x * (-4/9 + x * (1/18 + x * (1/45 + x * (1/90)))))).
    + apply (filter_imp (fun y => 0 < y < 0.005)); [|apply near; lra]. intros y Hy. destruct (Rlt_dec y 0.005); [reflexivity|lra].
    + auto_derive; auto. field.
  - apply (is_derive_ext_loc (fun x : R => 1 - (x * (2 + x * (-3 + x * 2)) + 2 * (1 - x) * (1 - x) * ln (1 - x)) / (3 * x * x))).
    + apply (filter_imp (fun y => 0.005 < y < 1)); [|apply near; lra]. intros y Hy. destruct (Rlt_dec y 0.005); [lra|reflexivity].
    + auto_derive; [repeat split; nra|]. change (1 - x) with (1 + - x). generalize (ln (1 + - x)). intros lx. req. field. split; lra.
Qed.

(** energy as a function of (n0, n3, comb2, comb3) *)
Definition comb2 (n : wden) := w1 n * w2 n - rdot (w1v n) (w2v n).
Definition comb3 (n : wden) := w2 n * (w2 n * w2 n - 3 * rlen2 (w2v n)) + 9 * (mul_vTmv (w2m n) (w2v n) - 0.5 * trace_cubed (w2m n)).
Definition phiE (n0 n3 k2 k3 : R) : R :=
  n0 * ln (1 / (1 - n3)) + 1 / (1 - n3) * (fst (WB_f2 n3) * k2 + 1 / (1 - n3) * ((1 / (24 * PI)) * fst (WB_f3 n3) * k3)).
Definition inside (n : wden) := 0 <= w0 n /\ 0 <= w1 n /\ 0 <= w2 n /\ 0 <= w3 n < 1.
Lemma phi_inside n : inside n -> exists g, phiFMT_calc n = Some (phiE (w0 n) (w3 n) (comb2 n) (comb3 n), g).
Proof.
  intros (A & B & C & D). unfold phiFMT_calc, phiE, comb2, comb3.
  destruct (Rlt_dec (w0 n) 0); [lra|]. destruct (Rlt_dec (w1 n) 0); [lra|]. destruct (Rlt_dec (w2 n) 0); [lra|]. destruct (Rlt_dec (w3 n) 0); [lra|].
  destruct (Rle_dec 1 (w3 n)); [lra|]. destruct (WB_f2 (w3 n)) as [f2 f2'], (WB_f3 (w3 n)) as [f3 f3']. cbn [fst].
  destruct (mul_vTmv_grad _ _ _ _). eexists. reflexivity.
Qed.
Lemma comb2_derive n d : is_derive (fun t : R => comb2 (wmove n d t)) 0
  (w1 d * w2 n + w1 n * w2 d - (rdot (w1v d) (w2v n) + rdot (w1v n) (w2v d))).
Proof. destruct n as [n0 n1 n2 n3 [x0 x1 x2] [y0 y1 y2] m], d as [e0 e1 e2 e3 [z0 z1 z2] [u0 u1 u2] q]. unfold comb2, wmove. cbn [w0 w1 w2 w3 w1v w2v w2m]. v3_unfold. auto_derive; auto. ring. Qed.
Definition comb3' n d := let '(gm, gv) := mul_vTmv_grad 9 (w2m n) (w2v n) (rt0, V 0 0 0) in
  3 * w2 d * (w2 n * w2 n - rlen2 (w2v n)) - 6 * w2 n * rdot (w2v n) (w2v d) + rtdot (trace_cubed_grad (-0.5 * 9) (w2m n) gm) (w2m d) + rdot gv (w2v d).
Lemma comb3_derive n d : is_derive (fun t : R => comb3 (wmove n d t)) 0 (comb3' n d).
Proof.
  unfold comb3, comb3', wmove. cbn [w0 w1 w2 w3 w1v w2v w2m].
  pose proof (vTmv_derive (w2m n) (w2v n) (w2m d) (w2v d) 9 rt0 (V 0 0 0)) as D1. cbv zeta in D1.
  destruct (mul_vTmv_grad 9 (w2m n) (w2v n) (rt0, V 0 0 0)) as [gm gv]. cbn [fst snd] in D1.
  pose proof (trace_derive (w2m n) (w2m d) (-0.5 * 9) gm) as D2.
  assert (D3 : is_derive (fun t : R => (w2 n + t * w2 d) * ((w2 n + t * w2 d) * (w2 n + t * w2 d) - 3 * rlen2 (rvadd (w2v n) (rvscale t (w2v d))))) 0
     (3 * w2 d * (w2 n * w2 n - rlen2 (w2v n)) - 6 * w2 n * rdot (w2v n) (w2v d))).
  { destruct (w2v n), (w2v d). unfold rlen2. v3_unfold. auto_derive; auto. ring. }
  apply (is_derive_ext (fun t : R => (w2 n + t * w2 d) * ((w2 n + t * w2 d) * (w2 n + t * w2 d) - 3 * rlen2 (rvadd (w2v n) (rvscale t (w2v d))))
     + 9 * mul_vTmv (rtadd (w2m n) (rtscale t (w2m d))) (rvadd (w2v n) (rvscale t (w2v d))) + (-0.5 * 9) * trace_cubed (rtadd (w2m n) (rtscale t (w2m d))))).
  { intros t. req. lra. }
  evar_last. apply (is_derive_plus (V := R_NormedModule)); [apply (is_derive_plus (V := R_NormedModule)); [exact D3|exact D1]|exact D2].
  unfold plus; cbn. unfold rt0, rtdot. cbn. replace (rdot (V 0 0 0) (w2v d)) with 0 by (destruct (w2v d); v3_unfold; ring). req. ring.
Qed.
Lemma phiE_derive n0 d0 n3 d3 (k2 k3 : R -> R) (k2' k3' : R) : 0 < n3 < 1 -> n3 <> 0.002 -> n3 <> 0.005 -> is_derive k2 0 k2' -> is_derive k3 0 k3' ->
  let pole := 1 / (1 - n3) in let f2 := fst (WB_f2 n3) in let f3 := fst (WB_f3 n3) in
  is_derive (fun t : R => phiE (n0 + t * d0) (n3 + t * d3) (k2 t) (k3 t)) 0
   (ln pole * d0 + pole * f2 * k2' + pole * pole * (1 / (24 * PI)) * f3 * k3' +
    (pole * (n0 + pole * (f2 * k2 0 + pole * ((1 / (12 * PI)) * f3 * k3 0)))
     + pole * (snd (WB_f2 n3) * k2 0 + pole * ((1 / (24 * PI)) * snd (WB_f3 n3) * k3 0))) * d3).
Proof.
  intros H N2 N3 D2 D3 pole f2 f3.
  pose proof (f2_derive n3 H N2) as E2. pose proof (f3_derive n3 H N3) as E3.
  assert (L3 : is_derive (fun t : R => n3 + t * d3) 0 d3) by (auto_derive; auto; ring).
  assert (P : is_derive (fun t : R => 1 / (1 - (n3 + t * d3))) 0 (pole * pole * d3)).
  { unfold pole. auto_derive; [replace (n3 + 0 * d3) with n3 by ring; lra|]. replace (n3 + 0 * d3) with n3 by ring. field. lra. }
  assert (LP : is_derive (fun t : R => ln (1 / (1 - (n3 + t * d3)))) 0 (pole * d3)).
  { evar_last. apply (is_derive_comp ln (fun t : R => 1 / (1 - (n3 + t * d3)))); [|exact P].
    apply is_derive_ln. replace (n3 + 0 * d3) with n3 by ring. apply Rdiv_lt_0_compat; lra.
    unfold scal; cbn. unfold mult; cbn. unfold pole. replace (n3 + 0 * d3) with n3 by ring. field. lra. }
  assert (F2 : is_derive (fun t : R => fst (WB_f2 (n3 + t * d3))) 0 (d3 * snd (WB_f2 n3))).
  { apply (is_derive_comp (V := R_NormedModule) (fun x : R => fst (WB_f2 x)) (fun t : R => n3 + t * d3)); [|exact L3].
    replace (n3 + 0 * d3) with n3 by ring. exact E2. }
  assert (F3 : is_derive (fun t : R => fst (WB_f3 (n3 + t * d3))) 0 (d3 * snd (WB_f3 n3))).
  { apply (is_derive_comp (V := R_NormedModule) (fun x : R => fst (WB_f3 x)) (fun t : R => n3 + t * d3)); [|exact L3].
    replace (n3 + 0 * d3) with n3 by ring. exact E3. }
  unfold phiE. evar_last.
  - apply (is_derive_plus (V := R_NormedModule)).
    + apply (is_derive_mult (K := R_AbsRing)); [|exact LP|apply Rmult_comm]. instantiate (1 := d0). auto_derive; auto; ring.
    + apply (is_derive_mult (K := R_AbsRing)); [exact P| |apply Rmult_comm].
      apply (is_derive_plus (V := R_NormedModule)).
      * apply (is_derive_mult (K := R_AbsRing)); [exact F2|exact D2|apply Rmult_comm].
      * apply (is_derive_mult (K := R_AbsRing)); [exact P| |apply Rmult_comm].
        apply (is_derive_mult (K := R_AbsRing)); [|exact D3|apply Rmult_comm]. apply is_derive_scal. exact F3.
  - unfold plus, mult; cbn. replace (n3 + 0 * d3) with n3 by ring. fold pole f2 f3.
    replace (n0 + 0 * d0) with n0 by ring. generalize (ln pole). intros lp. pose proof PI_RGT_0. req. field. lra.
Qed.

Lemma fmt_derive n d : 0 < w0 n -> 0 < w1 n -> 0 < w2 n -> 0 < w3 n < 1 -> w3 n <> 0.002 -> w3 n <> 0.005 ->
  exists phi g, phiFMT_calc n = Some (phi 0, g) /\ locally 0 (fun t : R => exists gt, phiFMT_calc (wmove n d t) = Some (phi t, gt)) /\
    is_derive phi 0 (wpair g d).
Proof.
  intros P0 P1 P2 P3 N2 N3.
  set (phi := fun t : R => phiE (w0 n + t * w0 d) (w3 n + t * w3 d) (comb2 (wmove n d t)) (comb3 (wmove n d t))).
  assert (PD := phiE_derive (w0 n) (w0 d) (w3 n) (w3 d) (fun t => comb2 (wmove n d t)) (fun t => comb3 (wmove n d t)) _ _ P3 N2 N3 (comb2_derive n d) (comb3_derive n d)).
  cbv zeta in PD. fold phi in PD.
  assert (M0 : wmove n d 0 = n).
  { destruct n as [n0 n1 n2 n3 [x0 x1 x2] [y0 y1 y2] [m0 m1 m2 m3 m4]], d as [e0 e1 e2 e3 [z0 z1 z2] [u0 u1 u2] [q0 q1 q2 q3 q4]]. unfold wmove, rtadd, rtscale. cbn [w0 w1 w2 w3 w1v w2v w2m r_xy r_yz r_zx r_xxr r_yyr]. v3_unfold. f_equal; try ring; f_equal; ring. }
  destruct (phi_inside n) as [g Hg]; [unfold inside; lra|].
  exists phi, g. split; [|split].
  - unfold phi. rewrite M0. rewrite Hg. do 3 f_equal; ring.
  - assert (LN : forall a b, is_derive (fun t : R => a + t * b) 0 b) by (intros a b; auto_derive; auto; ring).
    assert (L : forall a b, 0 < a -> locally 0 (fun t : R => 0 < a + t * b < a + 1)).
    { intros a b Ha. apply (loc_between _ 0 b); [apply LN|]. lra. }
    assert (L3 : locally 0 (fun t : R => 0 < w3 n + t * w3 d < 1)). { apply (loc_between _ 0 (w3 d)); [apply LN|lra]. }
    generalize (filter_and _ _ (L _ (w0 d) P0) (filter_and _ _ (L _ (w1 d) P1) (filter_and _ _ (L _ (w2 d) P2) L3))).
    apply filter_imp. intros t (T0 & T1 & T2 & T3). unfold phi. destruct (phi_inside (wmove n d t)) as [gt Hgt]; [unfold inside, wmove; cbn; lra|].
    exists gt. exact Hgt.
  - evar_last; [exact PD|]. cbv beta. rewrite M0. clear PD phi M0.
    unfold phiFMT_calc in Hg. destruct (Rlt_dec (w0 n) 0); [lra|]. destruct (Rlt_dec (w1 n) 0); [lra|]. destruct (Rlt_dec (w2 n) 0); [lra|]. destruct (Rlt_dec (w3 n) 0); [lra|].
    destruct (Rle_dec 1 (w3 n)); [lra|]. fold (comb2 n) in Hg. fold (comb3 n) in Hg.
    destruct (WB_f2 (w3 n)) as [f2 f2'], (WB_f3 (w3 n)) as [f3 f3']. cbn [fst snd] in *.
    assert (PP : 0 < 1 / (1 - w3 n)) by (apply Rdiv_lt_0_compat; lra).
    revert Hg. generalize (ln (1 / (1 - w3 n))). set (pole := 1 / (1 - w3 n)) in *. clearbody pole. intros lp Hg.
    unfold comb3'. revert Hg. generalize (comb2 n) (comb3 n). intros k2 k3 Hg.
    unfold mul_vTmv_grad in Hg. injection Hg as _ <-.
    pose proof PI_RGT_0 as PIP. revert PIP. generalize PI. intros pi PIP.
    clear - PIP. replace (-0.5) with (- / 2) by lra.
    unfold wpair, mul_vTmv_grad, trace_cubed_grad, rtdot. cbn [w0 w1 w2 w3 w1v w2v w2m r_xy r_yz r_zx r_xxr r_yyr].
    destruct n as [n0 n1 n2 n3 [x0 x1 x2] [y0 y1 y2] [m0 m1 m2 m3 m4]], d as [e0 e1 e2 e3 [z0 z1 z2] [u0 u1 u2] [q0 q1 q2 q3 q4]].
    unfold rlen2, rt0. cbn [w0 w1 w2 w3 w1v w2v w2m r_xy r_yz r_zx r_xxr r_yyr]. v3_unfold. cbn [r_xy r_yz r_zx r_xxr r_yyr]. req. field. lra.
Qed.
