(** Allowed displacements of constrained atoms. *)
From Coq Require Import String ZArith Reals Bool List.
From Verif Require Import Base SMap Vec3_Model Lattice_Model Sym_Model Sym_Spec Ions_Model.
Import ListNotations.
Local Open Scope R_scope.

(** displacement allowed for one atom *)
Definition atom_ok (c : constraint) (v : vec R) : Prop :=
  (moveScale c = 0 -> v = V 0 0 0) /\
  (moveScale c <> 0 -> ctyp c = CLinear -> exists t, v = rvscale t (cdir c)) /\
  (moveScale c <> 0 -> ctyp c = CPlanar -> rdot v (cdir c) = 0).
(** sums over the atoms *)
Definition total (cs : csys) (f : nat -> nat -> R) : R := fold_right (fun i acc => f (fst i) (snd i) + acc) 0 (atoms cs).
Definition inner (cs : csys) (x y : grad) : R := total cs (fun sp a => rdot (x sp a) (y sp a)).
Definition net (cs : csys) (x : grad) : vec R := V (total cs (fun sp a => c0 (x sp a))) (total cs (fun sp a => c1 (x sp a))) (total cs (fun sp a => c2 (x sp a))).
(** normal of the hyperplane of a group of atoms; labels do not distinguish case, the last entry of an atom counts *)
Definition normal (cs : csys) (g : string) : grad := fun sp a =>
  let c := cons_at cs sp a in
  match ctyp c with
  | CHyperPlane => last (map fst (filter (fun e => ieqb g (snd e)) (hyperplane c))) (V 0 0 0)
  | _ => V 0 0 0
  end.
Definition active (cs : csys) (g : string) : Prop := 1 / 10000000000 < inner cs (normal cs g) (normal cs g).
(** no atom is constrained *)
Definition unconstrained (cs : csys) : Prop := forall sp a, In (sp, a) (atoms cs) ->
  moveScale (cons_at cs sp a) <> 0 /\ ctyp (cons_at cs sp a) = CNone.
Definition allowed (cs : csys) (extPot : bool) (x : grad) : Prop :=
  (forall sp a, In (sp, a) (atoms cs) -> atom_ok (cons_at cs sp a) (x sp a)) /\
  (forall g, active cs g -> inner cs (normal cs g) x = 0) /\
  (unconstrained cs -> extPot = false -> net cs x = V 0 0 0).
Definition same (cs : csys) (x y : grad) : Prop := forall sp a, In (sp, a) (atoms cs) -> x sp a = y sp a.
(** what the parser guarantees: non-zero directions, and constraints only on atoms that may move *)
Definition parsed (cs : csys) : Prop := forall sp a, In (sp, a) (atoms cs) -> let c := cons_at cs sp a in
  (ctyp c = CLinear \/ ctyp c = CPlanar -> rlen2 (cdir c) <> 0) /\ (ctyp c = CHyperPlane -> moveScale c <> 0).
(** hyperplanes of different groups are orthogonal *)
Definition orthogonal_planes (cs : csys) : Prop := forall g g', ~ ieq g g' -> inner cs (normal cs g) (normal cs g') = 0.

(** symmetric displacements, and constraints that respect the symmetry; pos are the positions of the atoms of each species *)
Definition symmetric (Rl : mat R) (pos : nat -> list (vec R)) (p : SpaceGroupOp) (x : grad) : Prop :=
  forall sp a b, atom_map (pos sp) p a b -> rmv (mtrans (cartesian Rl p)) (x sp b) = x sp a.
Definition same_constraint (Q : mat R) (c c' : constraint) : Prop :=
  (moveScale c = 0 <-> moveScale c' = 0) /\ ctyp c = ctyp c' /\
  (ctyp c = CLinear \/ ctyp c = CPlanar -> exists s, s <> 0 /\ cdir c' = rvscale s (rmv Q (cdir c))).
Record symmetric_constraints (Rl : mat R) (sym : list SpaceGroupOp) (pos : nat -> list (vec R)) (atomMap : nat -> nat -> nat -> nat) (cs : csys) : Prop := {
  sc_group : space_group sym;
  sc_orth : forall p, In p sym -> orthogonal (cartesian Rl p);
  sc_len : forall sp, length (pos sp) = nAtoms cs sp;
  sc_pos : forall sp, distinct_positions (pos sp);
  sc_map : forall sp a k, (a < length (pos sp))%nat -> (k < length sym)%nat -> atom_map (pos sp) (nth k sym (SGO zid (V 0 0 0))) a (atomMap sp a k);
  sc_same : forall sp a b p, In p sym -> atom_map (pos sp) p a b -> same_constraint (cartesian Rl p) (cons_at cs sp a) (cons_at cs sp b);
  sc_normal : forall g p, In p sym -> symmetric Rl pos p (normal cs g) }.

(** *** Dynamics *)
Definition neg (x : grad) : grad := fun sp a => rvscale (-1) (x sp a).
(** total momentum of Cartesian velocities *)
Definition momentum (cs : csys) (mass : nat -> R) (v : grad) : vec R :=
  V (total cs (fun sp a => mass sp * c0 (v sp a))) (total cs (fun sp a => mass sp * c1 (v sp a))) (total cs (fun sp a => mass sp * c2 (v sp a))).
(** forces that depend only on the positions of the atoms *)
Definition force_field (cs : csys) (F : grad -> grad) : Prop := forall x y, same cs x y -> same cs (F x) (F y).
Definition mean (l : list R) : R := fold_right Rplus 0 l / INR (length l).

(** *** Trial steps *)
Definition coincide (x y : grad) : Prop := forall sp a, x sp a = y sp a.

(** *** Fixed lattice vectors *)
Definition lattice_vector (Rl : mat R) (k : nat) : vec R := match k with O => V (m00 Rl) (m10 Rl) (m20 Rl) | 1%nat => V (m01 Rl) (m11 Rl) (m21 Rl) | _ => V (m02 Rl) (m12 Rl) (m22 Rl) end.
(** rotations do not mix fixed and free lattice vectors: LatticeMinimizer.cpp lines 107-115 *)
Definition commensurate (sym : list SpaceGroupOp) (fixed : nat -> bool) : Prop :=
  forall p i j, In p sym -> (i < 3)%nat -> (j < 3)%nat -> mget (sg_rot p) i j <> 0%Z -> fixed i = fixed j.
(** sum of squares of the entries *)
Definition frobenius (m : mat R) : R := (m00 m)^2 + (m01 m)^2 + (m02 m)^2 + (m10 m)^2 + (m11 m)^2 + (m12 m)^2 + (m20 m)^2 + (m21 m)^2 + (m22 m)^2.
(** orthonormal basis of the directions in which one atom may move *)
Definition orthonormal (l : list (vec R)) : Prop :=
  (forall u, In u l -> rlen2 u = 1) /\ ForallOrdPairs (fun u v => rdot u v = 0) l.
Definition spans (l : list (vec R)) (P : vec R -> Prop) : Prop :=
  forall v, P v <-> v = fold_right (fun u acc => rvadd (rvscale (rdot u v) u) acc) (V 0 0 0) l.
(** lattice after a sequence of steps along constrained directions *)
Fixpoint lattice_path (dir : mat R -> mat R -> mat R) (Rl : mat R) (steps : list (R * mat R)) : list (mat R) :=
  match steps with
  | [] => [Rl]
  | (alpha, m) :: l => Rl :: lattice_path dir (rmm (rmadd rid (rmscale alpha (dir Rl m))) Rl) l
  end.
