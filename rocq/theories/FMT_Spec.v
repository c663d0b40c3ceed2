(** Independent statements for the hard sphere functionals (C48). *)
From Coq Require Import ZArith Reals List Bool.
From Coquelicot Require Import Coquelicot.
From Verif Require Import Base Vec3_Model Deriv_Model FMT_Model.
Open Scope R_scope.
(** the full 3x3 matrix of a symmetric traceless tensor *)
Definition full (m : rtensor) : mat R :=
  M (r_xxr m) (r_xy m) (r_zx m) (r_xy m) (r_yyr m) (r_yz m) (r_zx m) (r_yz m) (- (r_xxr m + r_yyr m)).
Definition rtdot (a b : rtensor) : R := r_xy a * r_xy b + r_yz a * r_yz b + r_zx a * r_zx b + r_xxr a * r_xxr b + r_yyr a * r_yyr b.
(** straight-line motion of all weighted densities, and the pairing of a gradient with it *)
Definition wmove (n d : wden) (t : R) : wden :=
  WD (w0 n + t * w0 d) (w1 n + t * w1 d) (w2 n + t * w2 d) (w3 n + t * w3 d)
     (rvadd (w1v n) (rvscale t (w1v d))) (rvadd (w2v n) (rvscale t (w2v d))) (rtadd (w2m n) (rtscale t (w2m d))).
Definition wpair (g d : wden) : R :=
  w0 g * w0 d + w1 g * w1 d + w2 g * w2 d + w3 g * w3 d + rdot (w1v g) (w1v d) + rdot (w2v g) (w2v d) + rtdot (w2m g) (w2m d).
Definition bmove (n d : bden) (t : R) : bden :=
  BD (b0 n + t * b0 d) (b2 n + t * b2 d) (b3 n + t * b3 d) (rvadd (b2v n) (rvscale t (b2v d))).
Definition bpair (g d : bden) : R := b0 g * b0 d + b2 g * b2 d + b3 g * b3 d + rdot (b2v g) (b2v d).
Definition cpair (g d : tensor) : C :=
  (Cconj (t_xy g) * t_xy d + Cconj (t_yz g) * t_yz d + Cconj (t_zx g) * t_zx d + Cconj (t_xxr g) * t_xxr d + Cconj (t_yyr g) * t_yyr d)%C.
