(** C48: derivatives of the hard sphere mixture functional.  Only theorems closed by [exact], examples and assumptions. *)
From Coq Require Import ZArith Reals List Bool Lra.
From Coquelicot Require Import Coquelicot.
From Verif Require Import Base Vec3_Model Vec3_Facts Deriv_Model FMT_Model FMT_Spec FMT_Proofs FMT_Proofs2.
Import ListNotations.
Open Scope R_scope.

(** all accumulated gradients (n0, n1, n2, n3, n1v, n2v, n2m) at once: the energy density is differentiable along every
    straight line of weighted densities, with derivative the pairing of the returned gradients with the direction *)
Theorem C48_fmt_gradient : forall n d, 0 < w0 n -> 0 < w1 n -> 0 < w2 n -> 0 < w3 n < 1 -> w3 n <> 0.002 -> w3 n <> 0.005 ->
  exists phi g, phiFMT_calc n = Some (phi 0, g) /\ locally 0 (fun t : R => exists gt, phiFMT_calc (wmove n d t) = Some (phi t, gt)) /\
    is_derive phi 0 (wpair g d).
Proof. exact fmt_derive. Qed.
Print Assumptions C48_fmt_gradient.
(** at the switch between series and closed form the scale functions jump, hence the energy has no derivative at all *)
Theorem C48_fmt_branch_refuted : exists n d, 0 < w0 n /\ 0 < w1 n /\ 0 < w2 n /\ 0 < w3 n < 1 /\ (exists r, phiFMT_calc n = Some r) /\
  forall l, ~ is_derive (fun t : R => phiOf (wmove n d t)) 0 l.
Proof. exact fmt_branch. Qed.
Print Assumptions C48_fmt_branch_refuted.
(** size of the branch mismatch of f2: the series misses (at least) its next term *)
Theorem C48_f2_series_gap : forall x, 0 < x < 1 ->
  x ^ 5 / 45 < (1 + (1/3) * (2 - x + 2 * (1 - x) * ln (1 - x) / x)) - (1 + x * x * ((1/9) + x * (1/18 + x * (1/30)))).
Proof. exact f2_gap. Qed.
Print Assumptions C48_f2_series_gap.
Theorem C48_fmt_domain : forall n, (0 <= w0 n -> 0 <= w1 n -> 0 <= w2 n -> 1 <= w3 n -> phiFMT_calc n = None) /\
  ((w0 n < 0 \/ w1 n < 0 \/ w2 n < 0 \/ w3 n < 0) -> phiFMT_calc n = Some (0, wd0)).
Proof. exact fmt_guard. Qed.
Print Assumptions C48_fmt_domain.
Example C48_fmt_ex : exists p g, phiFMT_calc (WD 1 1 1 (1/2) (V 1 0 0) (V 0 1 0) (RT 1 0 0 1 0)) = Some (p, g) /\ w0 g = ln (1 / (1 - 1/2)) /\ w1 g = 1 / (1 - 1/2) * (fst (WB_f2 (1/2)) * 1).
Proof.
  unfold phiFMT_calc. cbn [w0 w1 w2 w3]. destruct (Rlt_dec 1 0); [lra|]. destruct (Rlt_dec (1/2) 0); [lra|]. destruct (Rle_dec 1 (1/2)); [lra|].
  destruct (WB_f2 (1/2)), (WB_f3 (1/2)). eexists _, _. split; [reflexivity|split; reflexivity].
Qed.

Theorem C48_bond_gradient : forall Rhm scale n d, 0 < Rhm -> 0 < b0 n -> 0 < b2 n -> 0 < b3 n < 1 -> rlen2 (b2v n) <> b2 n * b2 n ->
  is_derive (fun t : R => fst (phiBond_calc Rhm scale (bmove n d t))) 0 (bpair (snd (phiBond_calc Rhm scale n)) d).
Proof. exact bond_derive. Qed.
Print Assumptions C48_bond_gradient.
(** the vector correction factor is clamped at zero, which leaves a kink at |n2v| = n2 *)
Theorem C48_bond_kink_refuted : exists Rhm scale n d, 0 < Rhm /\ 0 < scale /\ 0 < b0 n /\ 0 < b2 n /\ 0 < b3 n < 1 /\
  ~ is_derive (fun t : R => fst (phiBond_calc Rhm scale (bmove n d t))) 0 (bpair (snd (phiBond_calc Rhm scale n)) d).
Proof. exact bond_kink. Qed.
Print Assumptions C48_bond_kink_refuted.
Example C48_bond_ex : rlen2 (b2v (BD 1 1 (1/2) (V (1/2) 0 0))) <> b2 (BD 1 1 (1/2) (V (1/2) 0 0)) * b2 (BD 1 1 (1/2) (V (1/2) 0 0)).
Proof. cbn. unfold rlen2. v3_unfold. lra. Qed.

(** tensor contractions: values and gradients *)
Theorem C48_vTmv_value : forall m v, mul_vTmv m v = rdot v (rmv (full m) v).
Proof. exact vTmv_spec. Qed.
Print Assumptions C48_vTmv_value.
Theorem C48_vTmv_gradient : forall m v dm dv g a b, let acc := mul_vTmv_grad g m v (a, b) in
  is_derive (fun t : R => g * mul_vTmv (rtadd m (rtscale t dm)) (rvadd v (rvscale t dv))) 0
    (rtdot (fst acc) dm - rtdot a dm + (rdot (snd acc) dv - rdot b dv)).
Proof. exact vTmv_derive. Qed.
Print Assumptions C48_vTmv_gradient.
Theorem C48_trace_cubed_value : forall m, trace_cubed m = rtrace (rmm (full m) (rmm (full m) (full m))).
Proof. exact trace_spec. Qed.
Print Assumptions C48_trace_cubed_value.
Theorem C48_trace_cubed_gradient : forall m dm g a,
  is_derive (fun t : R => g * trace_cubed (rtadd m (rtscale t dm))) 0 (rtdot (trace_cubed_grad g m a) dm - rtdot a dm).
Proof. exact trace_derive. Qed.
Print Assumptions C48_trace_cubed_gradient.
Example C48_tensor_ex : mul_vTmv (RT 1 2 3 4 5) (V 1 1 1) = 12 /\ trace_cubed (RT 1 0 0 0 0) = 0 /\ trace_cubed (RT 0 0 0 1 0) = 0 /\ trace_cubed (RT 0 0 0 1 1) = -6.
Proof. unfold mul_vTmv, trace_cubed. cbn. repeat split; ring. Qed.

(** the reciprocal space tensor kernel is -n (G G^T - G^2/3), and its gradient routine is its adjoint *)
Theorem C48_kernel_value : forall G n, matrixOfTensor (tensorKernel_calc false G n) =
  let k a b (diag : bool) := (- n * RtoC (a * b - if diag then rlen2 G / 3 else 0))%C in
  M (k (c0 G) (c0 G) true) (k (c0 G) (c1 G) false) (k (c0 G) (c2 G) false)
    (k (c1 G) (c0 G) false) (k (c1 G) (c1 G) true) (k (c1 G) (c2 G) false)
    (k (c2 G) (c0 G) false) (k (c2 G) (c1 G) false) (k (c2 G) (c2 G) true).
Proof. exact kernel_traceless. Qed.
Print Assumptions C48_kernel_value.
Theorem C48_kernel_adjoint : forall nyq G n g, cpair g (tensorKernel_calc nyq G n) = (Cconj (tensorKernel_grad_calc nyq G g) * n)%C.
Proof. exact kernel_adjoint. Qed.
Print Assumptions C48_kernel_adjoint.
Example C48_kernel_ex : t_xy (tensorKernel_calc false (V 1 2 0) (RtoC 3)) = RtoC (-6).
Proof. cbn. apply injective_projections; cbn; ring. Qed.
