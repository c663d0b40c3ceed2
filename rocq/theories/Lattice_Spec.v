(** What lattice reduction and periodic lookup are required to do, independent of the algorithms. *)
From Coq Require Import ZArith Reals List.
From Verif Require Import Vec3_Model.
Import ListNotations.

(** x is an integer combination of the columns of R *)
Definition in_lattice (Rl : mat R) (x : vec R) : Prop :=
  exists n0 n1 n2 : Z,
    c0 x = (m00 Rl * IZR n0 + m01 Rl * IZR n1 + m02 Rl * IZR n2)%R /\
    c1 x = (m10 Rl * IZR n0 + m11 Rl * IZR n1 + m12 Rl * IZR n2)%R /\
    c2 x = (m20 Rl * IZR n0 + m21 Rl * IZR n1 + m22 Rl * IZR n2)%R.

(** squared length of a*x + b*y + c*z *)
Definition combo2 (x y z : vec R) (a b c : R) : R :=
  ((a * c0 x + b * c0 y + c * c0 z) * (a * c0 x + b * c0 y + c * c0 z)
   + (a * c1 x + b * c1 y + c * c1 z) * (a * c1 x + b * c1 y + c * c1 z)
   + (a * c2 x + b * c2 y + c * c2 z) * (a * c2 x + b * c2 y + c * c2 z))%R.
Definition len2 (x : vec R) : R := (c0 x * c0 x + c1 x * c1 x + c2 x * c2 x)%R.

(** Replacing x by x + i y + j z (with i, j in {-1,0,1}) does not lower the root-mean-square length of the
    three vectors by more than the tolerance. *)
Definition not_shortened (thr : R) (x y z : vec R) : Prop :=
  forall i j : Z, (-1 <= i <= 1)%Z -> (-1 <= j <= 1)%Z ->
  (sqrt (len2 x + len2 y + len2 z) - thr <= sqrt (combo2 x y z 1 (IZR i) (IZR j) + len2 y + len2 z))%R.
Definition lattice_reduced (thr : R) (Rl : mat R) : Prop :=
  not_shortened thr (col0 Rl) (col1 Rl) (col2 Rl) /\
  not_shortened thr (col1 Rl) (col2 Rl) (col0 Rl) /\
  not_shortened thr (col2 Rl) (col0 Rl) (col1 Rl).

(** two points coincide modulo lattice translations to within [eps] in every coordinate *)
Definition same_mod1 (eps : R) (a b : vec R) : Prop :=
  exists n0 n1 n2 : Z,
    (Rabs (c0 a - c0 b - IZR n0) <= eps /\ Rabs (c1 a - c1 b - IZR n1) <= eps /\ Rabs (c2 a - c2 b - IZR n2) <= eps)%R.

(** sum of the squared chord lengths between the coordinates placed on unit circles; it vanishes exactly when the
    points differ by integers *)
Definition chord2 (a b : vec R) : R :=
  (4 * (sin (PI * (c0 a - c0 b)))^2 + 4 * (sin (PI * (c1 a - c1 b)))^2 + 4 * (sin (PI * (c2 a - c2 b)))^2)%R.
