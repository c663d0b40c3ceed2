(** Specification of real spherical harmonics. *)
From Coq Require Import ZArith Reals List.
From Coquelicot Require Import Coquelicot.
From Verif Require Import Vec3_Model.
Import ListNotations.
Local Open Scope R_scope.

Definition isUnit (q : vec R) : Prop := c0 q * c0 q + c1 q * c1 q + c2 q * c2 q = 1.
(** integral over the unit sphere, by the cylindrical coordinates u = cos theta and phi *)
Definition sphereInt (f : vec R -> R) (I : R) : Prop :=
  exists g : R -> R, (forall u, -1 <= u <= 1 -> is_RInt (fun phi => f (V (sqrt (1 - u * u) * cos phi) (sqrt (1 - u * u) * sin phi) u)) 0 (2 * PI) (g u)) /\ is_RInt g (-1) 1 I.
(** Legendre polynomials *)
Fixpoint legendre2 (l : nat) (t : R) : R * R :=
  match l with
  | O => (1, t)
  | S l => let '(a, b) := legendre2 l t in (b, ((2 * INR l + 3) * t * b - (INR l + 1) * a) / (INR l + 2))
  end.
Definition legendre (l : nat) (t : R) : R := fst (legendre2 l t).
(** supported orders *)
Definition supported (l m : Z) : Prop := (0 <= l <= 6 /\ - l <= m <= l)%Z.
(** value of an expansion in harmonics Y *)
Definition expansion (Y : Z -> Z -> R) (ts : list (Z * Z * R)) : R := fold_right (fun t s => snd t * Y (fst (fst t)) (snd (fst t)) + s) 0 ts.
(** sum over the orders of a degree *)
Definition sumOrders (l : nat) (f : Z -> R) : R := fold_right (fun k s => f (Z.of_nat k - Z.of_nat l)%Z + s) 0 (seq 0 (2 * l + 1)).
