(** Specification for the tetrahedron method (C42, C43). *)
From Coq Require Import ZArith Reals List.
From Coquelicot Require Import Coquelicot.
Import ListNotations.
Open Scope R_scope.

(** Bernstein polynomial of degree three *)
Definition bern (b : R * R * R * R) (t : R) : R :=
  let '(b0, b1, b2, b3) := b in b0*(1-t)^3 + b1*(3*t*(1-t)^2) + b2*(3*(1-t)*t^2) + b3*t^3.
Definition piece : Type := (R * R) * (R * R * R * R).
Definition pieceAt (p : piece) (E : R) : R := bern (snd p) ((E - fst (fst p)) / (snd (fst p) - fst (fst p))).
(** value at E (not an end point of any piece) of a collection of pieces *)
Definition inside (E : R) (p : piece) : bool := if Rlt_dec (fst (fst p)) E then (if Rlt_dec E (snd (fst p)) then true else false) else false.
Fixpoint density (ps : list piece) (E : R) : R :=
  match ps with [] => 0 | p :: l => (if inside E p then pieceAt p E else 0) + density l E end.
(** total integral: of the pieces, and of the delta functions *)
Fixpoint integrals (ps : list piece) : R :=
  match ps with [] => 0 | p :: l => RInt (pieceAt p) (fst (fst p)) (snd (fst p)) + integrals l end.
Fixpoint masses (ds : list (R * R)) : R := match ds with [] => 0 | d :: l => snd d + masses l end.

(** Area under a piecewise linear curve *)
Fixpoint area (l : list (R * R)) : R :=
  match l with
  | p :: ((q :: _) as l') => (fst q - fst p) * (snd p + snd q) / 2 + area l'
  | _ => 0
  end.
Fixpoint rsuml (l : list R) : R := match l with [] => 0 | x :: l' => x + rsuml l' end.

(** A linear function on a tetrahedron of volume vol with values e0..e3 at the corners, and a linear weight with values w0..w3.
    A point is given by its barycentric coordinates with respect to corners 1, 2, 3. *)
Definition pt : Type := R * R * R.
Definition lin (f0 f1 f2 f3 : R) (p : pt) : R := let '(x1, x2, x3) := p in (1-x1-x2-x3)*f0 + x1*f1 + x2*f2 + x3*f3.
Definition det3 (p q r : pt) : R :=
  let '(p1, p2, p3) := p in let '(q1, q2, q3) := q in let '(r1, r2, r3) := r in
  p1*(q2*r3-q3*r2) - p2*(q1*r3-q3*r1) + p3*(q1*r2-q2*r1).
(** The pyramid from corner 0 over a triangle p, q, r in the plane of energy E has volume vol*|det3 p q r|, and it is a third of
    the area times the height: the density of states of the triangle is three times that volume over E - e0.
    The weight enters through its average over the triangle. *)
Definition triangleDensity (vol e0 E : R) (w : pt -> R) (p q r : pt) : R :=
  3 * vol * Rabs (det3 p q r) / (E - e0) * ((w p + w q + w r) / 3).
(** Intersection of the plane of energy E with the edge between two corners *)
Definition at2 (c d : pt) (f : R) : pt :=
  let '(c1, c2, c3) := c in let '(d1, d2, d3) := d in (c1 + f*(d1-c1), c2 + f*(d2-c2), c3 + f*(d3-c3)).
Definition P0 : pt := (0, 0, 0). Definition P1 : pt := (1, 0, 0). Definition P2 : pt := (0, 1, 0). Definition P3 : pt := (0, 0, 1).
Definition cut (E : R) (c d : pt) (ec ed : R) : pt := at2 c d ((E-ec)/(ed-ec)).
(** Density of states at E: the slice of the tetrahedron is a triangle, or a quadrilateral between the two middle energies *)
Definition sliceDensity (vol e0 e1 e2 e3 w0 w1 w2 w3 E : R) : R :=
  let w := lin w0 w1 w2 w3 in
  if Rle_dec E e0 then 0
  else if Rle_dec E e1 then triangleDensity vol e0 E w (cut E P0 P1 e0 e1) (cut E P0 P2 e0 e2) (cut E P0 P3 e0 e3)
  else if Rle_dec E e2 then triangleDensity vol e0 E w (cut E P0 P2 e0 e2) (cut E P0 P3 e0 e3) (cut E P1 P3 e1 e3)
                          + triangleDensity vol e0 E w (cut E P0 P2 e0 e2) (cut E P1 P3 e1 e3) (cut E P1 P2 e1 e2)
  else if Rle_dec E e3 then triangleDensity vol e0 E w (cut E P0 P3 e0 e3) (cut E P1 P3 e1 e3) (cut E P2 P3 e2 e3)
  else 0.

(** Position of a point of the unit cube relative to a tetrahedron with integer corners: barycentric coordinates all positive *)
Definition strictlyInside (c0 c1 c2 c3 x : R * R * R) : Prop :=
  exists a0 a1 a2 a3, 0 < a0 /\ 0 < a1 /\ 0 < a2 /\ 0 < a3 /\ a0 + a1 + a2 + a3 = 1 /\
    (let '(x0, x1, x2) := x in let '(p0, p1, p2) := c0 in let '(q0, q1, q2) := c1 in let '(r0, r1, r2) := c2 in let '(s0, s1, s2) := c3 in
     x0 = a0*p0 + a1*q0 + a2*r0 + a3*s0 /\ x1 = a0*p1 + a1*q1 + a2*r1 + a3*s1 /\ x2 = a0*p2 + a1*q2 + a2*r2 + a3*s2).

(** A collection of intervals and delta functions without a gap: every energy between two of its nodes is covered by an interval *)
Definition nodeOf (ps : list piece) (ds : list (R * R)) (x : R) : Prop :=
  (exists p, In p ps /\ (x = fst (fst p) \/ x = snd (fst p))) \/ (exists d, In d ds /\ x = fst d).
Definition gapless (ps : list piece) (ds : list (R * R)) : Prop :=
  forall lo hi x, nodeOf ps ds lo -> nodeOf ps ds hi -> lo < x < hi -> exists p, In p ps /\ fst (fst p) <= x <= snd (fst p).
Definition proper (ps : list piece) : Prop := forall p, In p ps -> fst (fst p) < snd (fst p).
(** pieces that follow one another with matching values *)
Definition b0of (p : piece) : R := let '(_, (x, _, _, _)) := p in x.
Definition b3of (p : piece) : R := let '(_, (_, _, _, x)) := p in x.
Fixpoint joined (l : list piece) : Prop := match l with p :: ((q :: _) as l') => snd (fst p) = fst (fst q) /\ b3of p = b0of q /\ joined l' | _ => True end.
(** tables with at least two nodes, in increasing order *)
Fixpoint increasing (l : list (R * R)) : Prop :=
  match l with p :: ((q :: _) as l') => fst p < fst q /\ increasing l' | _ => True end.
Definition table (l : list (R * R)) : Prop := (2 <= List.length l)%nat /\ increasing l.

(** Tetrahedra of one band: corners with energies in increasing order (as left by the sort) *)
Definition tetra : Type := R * ((R * R) * (R * R) * (R * R) * (R * R)).
Definition cornersOf (t : tetra) : list (R * R) := let '(_, (q0, q1, q2, q3)) := t in [q0; q1; q2; q3].
Definition ordered (t : tetra) : Prop := let '(_, (q0, q1, q2, q3)) := t in fst q0 <= fst q1 <= fst q2 /\ fst q2 <= fst q3.
Definition share (t u : tetra) : Prop := exists q r, In q (cornersOf t) /\ In r (cornersOf u) /\ fst q = fst r.
Inductive linked (ts : list tetra) : tetra -> tetra -> Prop :=
| linked_refl : forall t, linked ts t t
| linked_step : forall t u v, In u ts -> share t u -> linked ts u v -> linked ts t v.
Definition connected (ts : list tetra) : Prop := forall t u, In t ts -> In u ts -> linked ts t u.
(** volume times mean corner weight *)
Definition tetraWeight (t : tetra) : R := let '(vol, (q0, q1, q2, q3)) := t in vol * ((snd q0 + snd q1 + snd q2 + snd q3) / 4).
