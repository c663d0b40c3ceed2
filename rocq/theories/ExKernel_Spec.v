(** Specification of the numerical exchange kernel. *)
From Coq Require Import ZArith Reals List.
From Verif Require Import Base Vec3_Model Grid_Spec.
Import ListNotations.
Local Open Scope Z_scope.

(** an array holds the even function K on the half of the grid kept for real fields *)
Definition even {A} (K : Z*Z*Z -> A) : Prop := forall g, K (neg3 g) = K g.
Definition half_stores {A} (S : Z*Z*Z) (a : Z -> A) (K : Z*Z*Z -> A) : Prop :=
  forall g, halfG_point S g -> a (row_major S (snd S / 2 + 1) g) = K g.
(** an array holds K on the whole grid *)
Definition full_stores {A} (S : Z*Z*Z) (a : Z -> A) (K : Z*Z*Z -> option A) : Prop :=
  forall g, G_point S g -> K g = Some (a (row_major S (snd S) g)).
(** sums of absolute values of the columns *)
Definition colSum (m : mat Z) (k : nat) : Z := Z.abs (mget m 0 k) + Z.abs (mget m 1 k) + Z.abs (mget m 2 k).
Definition comp (g : Z*Z*Z) (k : nat) : Z := let '(x, y, z) := g in match k with O => x | 1%nat => y | _ => z end.
(** the supercell coordinate k of the wave vector with unit-cell coordinates (g + d) *)
Definition superCoord (super : mat Z) (g : Z*Z*Z) (d : vec R) (k : nat) : R :=
  ((IZR (comp g 0) + c0 d) * IZR (mget super 0 k) + (IZR (comp g 1) + c1 d) * IZR (mget super 1 k) + (IZR (comp g 2) + c2 d) * IZR (mget super 2 k))%R.
(** the two vectors differ by a multiple of the sample counts *)
Definition aliased (S g g' : Z*Z*Z) : Prop :=
  let '(a, b, c) := S in let '(x, y, z) := g in let '(x', y', z') := g' in x mod a = x' mod a /\ y mod b = y' mod b /\ z mod c = z' mod c.
Definition add3 (g n : Z*Z*Z) : Z*Z*Z := let '(x, y, z) := g in let '(a, b, c) := n in (x + a, y + b, z + c).
(** kDiff - dk is the integer vector n up to thr *)
Definition shift_near (thr : R) (dk kDiff : vec R) (n : Z*Z*Z) : Prop :=
  (Rabs (c0 kDiff - c0 dk - IZR (comp n 0)) < thr /\ Rabs (c1 kDiff - c1 dk - IZR (comp n 1)) < thr /\ Rabs (c2 kDiff - c2 dk - IZR (comp n 2)) < thr)%R.
(** the zone around the origin *)
Definition halfBox (d : vec R) : Prop := (- (1/2) <= c0 d <= 1/2 /\ - (1/2) <= c1 d <= 1/2 /\ - (1/2) <= c2 d <= 1/2)%R.
