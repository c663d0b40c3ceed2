(** Mixed fundamental measure theory of hard sphere mixtures (C48).
    Models /repo/jdftx/fluid/MixedFMT_internal.h lines 30-195, at one grid point; double is R.  Gradient accumulation
    (+=) is represented by the increments. *)
From Coq Require Import ZArith Reals List Bool.
From Coquelicot Require Import Complex.
From Verif Require Import Base Vec3_Model Grid_Model Deriv_Model.
Import ListNotations.
Open Scope R_scope.

(** ** tensorKernel_calc, lines 31-41, and tensorKernel_grad_calc, lines 44-57 *)
Definition tensorKernel_calc (nyq : bool) (Gvec : vec R) (nTilde : C) : tensor :=
  let minus_n := (if nyq then RtoC 0 else - nTilde)%C in
  let Gsq := rlen2 Gvec in
  T5 (minus_n * RtoC (c0 Gvec) * RtoC (c1 Gvec))%C (minus_n * RtoC (c1 Gvec) * RtoC (c2 Gvec))%C (minus_n * RtoC (c2 Gvec) * RtoC (c0 Gvec))%C
     (minus_n * RtoC (c0 Gvec * c0 Gvec - (1/3) * Gsq))%C (minus_n * RtoC (c1 Gvec * c1 Gvec - (1/3) * Gsq))%C.
Definition tensorKernel_grad_calc (nyq : bool) (Gvec : vec R) (g : tensor) : C :=
  let Gsq := rlen2 Gvec in
  let temp := if nyq then RtoC 0 else
    (t_xy g * RtoC (c0 Gvec) * RtoC (c1 Gvec) + t_yz g * RtoC (c1 Gvec) * RtoC (c2 Gvec) + t_zx g * RtoC (c2 Gvec) * RtoC (c0 Gvec)
     + t_xxr g * RtoC (c0 Gvec * c0 Gvec - (1/3) * Gsq) + t_yyr g * RtoC (c1 Gvec * c1 Gvec - (1/3) * Gsq))%C in
  (- temp)%C.

(** real symmetric traceless tensors: core/tensor3.h lines 33-78 *)
Record rtensor := RT { r_xy : R; r_yz : R; r_zx : R; r_xxr : R; r_yyr : R }.
Definition rt0 : rtensor := RT 0 0 0 0 0.
Definition rtadd (a b : rtensor) : rtensor := RT (r_xy a + r_xy b) (r_yz a + r_yz b) (r_zx a + r_zx b) (r_xxr a + r_xxr b) (r_yyr a + r_yyr b).
Definition rtscale (s : R) (a : rtensor) : rtensor := RT (r_xy a * s) (r_yz a * s) (r_zx a * s) (r_xxr a * s) (r_yyr a * s).

(** ** mul_vTmv, lines 60-63, and its gradient, lines 65-75 *)
Definition mul_vTmv (m : rtensor) (v : vec R) : R :=
  2 * (r_xy m * c0 v * c1 v + r_yz m * c1 v * c2 v + r_zx m * c2 v * c0 v)
  + r_xxr m * c0 v * c0 v + r_yyr m * c1 v * c1 v - (r_xxr m + r_yyr m) * c2 v * c2 v.
Definition mul_vTmv_grad (grad_mul : R) (m : rtensor) (v : vec R) (acc : rtensor * vec R) : rtensor * vec R :=
  let '(gm, gv) := acc in
  (RT (r_xy gm + (2 * grad_mul) * c0 v * c1 v) (r_yz gm + (2 * grad_mul) * c1 v * c2 v) (r_zx gm + (2 * grad_mul) * c2 v * c0 v)
      (r_xxr gm + grad_mul * (c0 v * c0 v - c2 v * c2 v)) (r_yyr gm + grad_mul * (c1 v * c1 v - c2 v * c2 v)),
   V (c0 gv + (2 * grad_mul) * (r_xy m * c1 v + r_zx m * c2 v + r_xxr m * c0 v))
     (c1 gv + (2 * grad_mul) * (r_xy m * c0 v + r_yz m * c2 v + r_yyr m * c1 v))
     (c2 gv + (2 * grad_mul) * (r_yz m * c1 v + r_zx m * c0 v - (r_xxr m + r_yyr m) * c2 v))).

(** ** trace_cubed, lines 79-81, and its gradient, lines 83-89 *)
Definition trace_cubed (m : rtensor) : R :=
  -3 * (-2 * r_xy m * r_yz m * r_zx m + r_yz m ^ 2 * r_xxr m - r_xy m ^ 2 * (r_xxr m + r_yyr m)
        + r_yyr m * (r_zx m ^ 2 + r_xxr m * (r_xxr m + r_yyr m))).
Definition trace_cubed_grad (g : R) (m : rtensor) (gm : rtensor) : rtensor :=
  RT (r_xy gm + (6 * g) * (r_yz m * r_zx m + r_xy m * (r_xxr m + r_yyr m)))
     (r_yz gm + (6 * g) * (r_xy m * r_zx m - r_yz m * r_xxr m))
     (r_zx gm + (6 * g) * (r_xy m * r_yz m - r_zx m * r_yyr m))
     (r_xxr gm + (-3 * g) * (- r_xy m ^ 2 + r_yz m ^ 2 + r_yyr m * (2 * r_xxr m + r_yyr m)))
     (r_yyr gm + (-3 * g) * (- r_xy m ^ 2 + r_zx m ^ 2 + r_xxr m * (r_xxr m + 2 * r_yyr m))).

(** ** White-Bear mark II scale functions, lines 92-113: (value, derivative) *)
Definition WB_f2 (x : R) : R * R :=
  if Rlt_dec x 0.002 then
    (1 + x * x * ((1/9) + x * (1/18 + x * (1/30))), x * ((2/9) + x * (3/18 + x * (4/30))))
  else
    (1 + (1/3) * (2 - x + 2 * (1 - x) * ln (1 - x) / x), (-1/3) * (x * (2 + x) + 2 * ln (1 - x)) / (x * x)).
Definition WB_f3 (x : R) : R * R :=
  if Rlt_dec x 0.005 then
    (1 + x * (-4/9 + x * (1/18 + x * (1/45 + x * (1/90)))), -4/9 + x * (2/18 + x * (3/45 + x * (4/90))))
  else
    (1 - (x * (2 + x * (-3 + x * 2)) + 2 * (1 - x) * (1 - x) * ln (1 - x)) / (3 * x * x),
     2 * (1 - x) * (x * (2 + x) + 2 * ln (1 - x)) / (3 * x * x * x)).

(** weighted densities at a grid point, also used for their gradients *)
Record wden := WD { w0 : R; w1 : R; w2 : R; w3 : R; w1v : vec R; w2v : vec R; w2m : rtensor }.
Definition wd0 : wden := WD 0 0 0 0 (V 0 0 0) (V 0 0 0) rt0.

(** ** phiFMT_calc, lines 116-160: energy density and gradient increments; None = NAN *)
Definition phiFMT_calc (n : wden) : option (R * wden) :=
  let n0 := w0 n in let n1 := w1 n in let n2 := w2 n in let n3 := w3 n in
  if Rlt_dec n0 0 then Some (0, wd0) else if Rlt_dec n1 0 then Some (0, wd0)
  else if Rlt_dec n2 0 then Some (0, wd0) else if Rlt_dec n3 0 then Some (0, wd0)
  else if Rle_dec 1 n3 then None
  else
  let n1v := w1v n in let n2v := w2v n in let n2m := w2m n in
  let tensorPart := mul_vTmv n2m n2v - 0.5 * trace_cubed n2m in
  let n1v_n2v := rdot n1v n2v in
  let n2vsq := rlen2 n2v in
  let pole := 1 / (1 - n3) in
  let '(f2, f2prime) := WB_f2 n3 in let comb2 := n1 * n2 - n1v_n2v in
  let '(f3, f3prime) := WB_f3 n3 in let comb3 := n2 * (n2 * n2 - 3 * n2vsq) + 9 * tensorPart in
  let phi := n0 * ln pole + pole * (f2 * comb2 + pole * ((1 / (24 * PI)) * f3 * comb3)) in
  let phi_n0 := ln pole in
  let phi_n1 := pole * (f2 * n2) in
  let phi_n2 := pole * (f2 * n1 + pole * ((1 / (8 * PI)) * f3 * (n2 * n2 - n2vsq))) in
  let phi_n3 := pole * (n0 + pole * (f2 * comb2 + pole * ((1 / (12 * PI)) * f3 * comb3)))
                + pole * (f2prime * comb2 + pole * ((1 / (24 * PI)) * f3prime * comb3)) in
  let phi_n1v := rvscale (- pole * f2) n2v in
  let phi_n2v := rvscale (- pole) (rvadd (rvscale f2 n1v) (rvscale (pole * f3 * n2 / (4 * PI)) n2v)) in
  let phi_tensorPart := pole * pole * f3 * (9 / (24 * PI)) in
  let '(gm, gv) := mul_vTmv_grad phi_tensorPart n2m n2v (rt0, phi_n2v) in
  let gm := trace_cubed_grad (-0.5 * phi_tensorPart) n2m gm in
  Some (phi, WD phi_n0 phi_n1 phi_n2 phi_n3 phi_n1v gv gm).

(** ** phiBond_calc, lines 163-195: (phi, grad_n0, grad_n2, grad_n3, grad_n2v) *)
Record bden := BD { b0 : R; b2 : R; b3 : R; b2v : vec R }.
Definition zetaOf (n2 n2vsq : R) : R :=
  if Rle_dec n2 0 then 0 else if Rlt_dec (n2 * n2) n2vsq then 0 else 1 - n2vsq / (n2 * n2).
Definition phiBond_calc (Rhm scale : R) (n : bden) : R * bden :=
  let n0 := b0 n in let n2 := b2 n in let n3 := b3 n in
  if Rlt_dec n0 0 then (0, BD 0 0 0 (V 0 0 0)) else if Rlt_dec n2 0 then (0, BD 0 0 0 (V 0 0 0))
  else if Rlt_dec n3 0 then (0, BD 0 0 0 (V 0 0 0))
  else
  let pole := 1 / (1 - n3) in
  let n2v := b2v n in let n2vsq := rlen2 n2v in
  let zeta := zetaOf n2 n2vsq in
  let zeta_n2 := if Req_EM_T zeta 0 then 0 else 2 * n2vsq / (n2 * n2 * n2) in
  let zeta_n2v := if Req_EM_T zeta 0 then V 0 0 0 else rvscale (-2 / (n2 * n2)) n2v in
  let gContact := pole * (1 + zeta * pole * (Rhm * n2 + pole * (2/9) * (Rhm * n2) ^ 2)) in
  let gContact_n2 := zeta * pole ^ 2 * (Rhm + pole * (4/9) * Rhm ^ 2 * n2) in
  let gContact_n3 := pole ^ 2 * (1 + zeta * pole * (2 * Rhm * n2 + pole * (6/9) * (Rhm * n2) ^ 2)) in
  let gContact_zeta := pole ^ 2 * (Rhm * n2 + pole * (2/9) * (Rhm * n2) ^ 2) in
  let phi := - scale * n0 * ln gContact in
  let phi_n0 := - scale * ln gContact in
  let phi_n2 := - scale * n0 * gContact_n2 / gContact in
  let phi_n3 := - scale * n0 * gContact_n3 / gContact in
  let phi_zeta := - scale * n0 * gContact_zeta / gContact in
  (phi, BD phi_n0 (phi_n2 + phi_zeta * zeta_n2) phi_n3 (rvscale phi_zeta zeta_n2v)).
