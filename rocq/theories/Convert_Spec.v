(** Fourier coefficients of fields on a grid, stored for all points or for the half space. *)
From Coq Require Import ZArith Reals List.
From Coquelicot Require Import Complex.
From Verif Require Import Base Grid_Spec.
Open Scope Z_scope.

Definition third (S : Z*Z*Z) : Z := let '(a,b,c) := S in c.
(** coefficient at g (g modulo the sample counts) *)
Definition coefF (S : Z*Z*Z) (v : Z -> C) (g : Z*Z*Z) : C := v (row_major S (third S) g).
(** coefficient at a point of the half space *)
Definition coefH (S : Z*Z*Z) (h : Z -> C) (g : Z*Z*Z) : C := h (row_major S (third S / 2 + 1) g).
(** g' = g modulo the sample counts *)
Definition same_mod (S g g' : Z*Z*Z) : Prop :=
  let '(a,b,c) := S in let '(x,y,z) := g in let '(x',y',z') := g' in x mod a = x' mod a /\ y mod b = y' mod b /\ z mod c = z' mod c.
Definition hermitian_full (S : Z*Z*Z) (v : Z -> C) : Prop := forall g, coefF S v (neg3 g) = Cconj (coefF S v g).
(** coefficients of a real field: points of the half space whose mirror is in the half space hold conjugate values *)
Definition hermitian_half (S : Z*Z*Z) (h : Z -> C) : Prop :=
  forall g g', halfG_point S g -> halfG_point S g' -> same_mod S g' (neg3 g) -> coefH S h g' = Cconj (coefH S h g).
(** g is not at the Nyquist frequency of the smaller grid along a direction in which the grids differ *)
Definition no_split (S S' g : Z*Z*Z) : Prop :=
  let '(a,b,c) := S in let '(a',b',c') := S' in let '(x,y,z) := g in
  (a <> a' -> 2 * x <> Z.min a a') /\ (b <> b' -> 2 * y <> Z.min b b') /\ (c <> c' -> 2 * z <> Z.min c c').
