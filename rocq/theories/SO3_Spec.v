(** Independent statements about quadratures over orientations. *)
From Coq Require Import List Reals.
From Verif Require Import Vec3_Model Euler_Model.
Import ListNotations.
Local Open Scope R_scope.

(** f 0 + ... + f (n-1) *)
Fixpoint sumTo (n : nat) (f : nat -> R) : R := match n with O => 0 | S k => sumTo k f + f k end.
Definition total (l : list R) : R := fold_right Rplus 0 l.
(** the average over the whole circle at each node, sampled at [n] equidistant angles, averaged with the given weights *)
Definition fullAverage (nodes : list (vec R)) (weights : list R) (n : nat) (F : mat R -> R) : R :=
  total (map (fun p => snd p / total weights *
    (sumTo n (fun k => F (matrixFromEuler (V (c0 (fst p)) (c1 (fst p)) (c2 (fst p) + 2 * PI * (INR k / INR n))))) / INR n))
    (combine nodes weights)).
(** the axis of symmetry has order [n]: turning by a full turn over [n] maps each position of a site to one of the same site,
    exactly or within [tol] *)
Definition turn (n : nat) (r : vec R) : vec R :=
  V (cos (2 * PI / INR n) * c0 r + sin (2 * PI / INR n) * c1 r) (cos (2 * PI / INR n) * c1 r - sin (2 * PI / INR n) * c0 r) (c2 r).
Definition dist2 (u v : vec R) : R := Rsqr (c0 u - c0 v) + Rsqr (c1 u - c1 v) + Rsqr (c2 u - c2 v).
Definition axisOrder (n : nat) (mol : list (list (vec R))) : Prop := forall site r, In site mol -> In r site -> In (turn n r) site.
Definition axisOrderTol (tol : R) (n : nat) (mol : list (list (vec R))) : Prop :=
  forall site r, In site mol -> In r site -> exists r', In r' site /\ dist2 (turn n r) r' < tol * tol.
