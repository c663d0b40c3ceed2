(** Specification vocabulary for spin densities: Pauli matrices, 2x2 Hermitian matrices, directional derivatives. *)
From Coq Require Import ZArith Reals List.
From Coquelicot Require Import Complex.
From Verif Require Import Base Vec3_Model Spin_Model.
Import ListNotations.
Open Scope R_scope.

(** 2x2 complex matrices *)
Record m2 := M2 { uu : C; ud : C; du : C; dd : C }.
Definition m2mul (a b : m2) : m2 :=
  M2 (uu a * uu b + ud a * du b)%C (uu a * ud b + ud a * dd b)%C (du a * uu b + dd a * du b)%C (du a * ud b + dd a * dd b)%C.
Definition m2tr (a : m2) : C := (uu a + dd a)%C.
Definition m2det (a : m2) : C := (uu a * dd a - ud a * du a)%C.
Definition m2comb (a b c d : R) : m2 := (* a I + b sigma_x + c sigma_y + d sigma_z *)
  M2 (RtoC a + RtoC d)%C (RtoC b - Ci * RtoC c)%C (RtoC b + Ci * RtoC c)%C (RtoC a - RtoC d)%C.
(** The Hermitian matrix stored in the four components up-up, dn-dn, Re(up-dn), Im(up-dn). *)
Definition spin_matrix (x : quad) : m2 := M2 (RtoC (q0 x)) (q2 x, q3 x) (q2 x, - q3 x) (RtoC (q1 x)).
(** Projector on spin along/against the vector u: (1 +- u.sigma)/2 *)
Definition projector (u : vec R) : m2 := m2comb (1/2) (c0 u / 2) (c1 u / 2) (c2 u / 2).

(** real eigenvalue of a 2x2 Hermitian matrix *)
Definition eigenvalue (a : m2) (l : R) : Prop := m2det (M2 (uu a - RtoC l) (ud a) (du a) (dd a - RtoC l))%C = 0%C.
(** positive semidefinite: real non-negative diagonal and determinant *)
Definition psd (x : quad) : Prop := 0 <= q0 x /\ 0 <= q1 x /\ q2 x * q2 x + q3 x * q3 x <= q0 x * q1 x.

Definition qdot (a b : quad) : R := q0 a * q0 b + q1 a * q1 b + q2 a * q2 b + q3 a * q3 b.
Definition qline (a d : quad) (t : R) : quad := Q (q0 a + t * q0 d) (q1 a + t * q1 d) (q2 a + t * q2 d) (q3 a + t * q3 d).
Definition qadd (a b : quad) : quad := Q (q0 a + q0 b) (q1 a + q1 b) (q2 a + q2 b) (q3 a + q3 b).

(** pointwise equality of field arrays *)
Definition same_fields (a b : list field) : Prop := Forall2 (fun f g : field => forall i, f i = g i) a b.

(** ** Whole-grid inner product over points 0..N-1 *)
Definition gdot2 (N : nat) (a b : field) : R := fold_right (fun p acc => a (Z.of_nat p) * b (Z.of_nat p) + acc) 0 (seq 0 N).
Definition sumn (K : nat) (f : nat -> R) : R := fold_right (fun k acc => f k + acc) 0 (seq 0 K).

(** ** Gradient propagation: the operators *)
(** the discrete derivatives are linear, and [Td i] is minus their adjoint on the grid points 0..N-1 *)
Definition linear_op (T : Z -> field -> field) : Prop := forall i a b t p, T i (fun q => a q + t * b q) p = T i a p + t * T i b p.
Definition minus_adjoint (N : nat) (T Td : Z -> field -> field) : Prop := forall i a b, gdot2 N a (T i b) = - gdot2 N (Td i a) b.
(** a straight line in the space of spin densities *)
Definition nline (n dn : Z -> field) (t : R) : Z -> field := fun s p => n s p + t * dn s p.
(** sum over the spin components s = 0..K-1 of the inner products *)
Definition spin_dot (K N : nat) (V dn : Z -> field) : R := sumn K (fun s => gdot2 N (V (Z.of_nat s)) (dn (Z.of_nat s))).
(** the three gradient contractions as sums over all directions *)
Definition contraction (D : Z -> Z -> field) (s1 s2 : Z) : field := fun p => D 0%Z s1 p * D 0%Z s2 p + D 1%Z s1 p * D 1%Z s2 p + D 2%Z s1 p * D 2%Z s2 p.
(** first-order functional: sum over the grid of the contractions weighted with fixed E_sigma *)
Definition weighted1 (N : nat) (Es : Z -> field) (D : Z -> Z -> field) : R := gdot2 N (Es 0%Z) (contraction D 0 0).
Definition weighted2 (N : nat) (Es : Z -> field) (D : Z -> Z -> field) : R :=
  gdot2 N (Es 0%Z) (contraction D 0 0) + gdot2 N (Es 1%Z) (contraction D 0 1) + gdot2 N (Es 2%Z) (contraction D 1 1).
