(** What symmetry means, independent of the code: space groups, symmetric fields, forces and tensors. *)
From Coq Require Import ZArith Reals List.
From Coquelicot Require Import Complex.
From Verif Require Import Base Grid_Model Vec3_Model Sym_Model.
Import ListNotations.
Open Scope R_scope.

(** equal up to a lattice vector *)
Definition lattice_equal (x y : vec R) : Prop := exists t : vec Z, rvsub x y = vIZR t.
Definition same_op (p q : SpaceGroupOp) : Prop := sg_rot p = sg_rot q /\ lattice_equal (sg_a p) (sg_a q).
(** map of positions *)
Definition acts (p : SpaceGroupOp) (x y : vec R) : Prop := lattice_equal (rvadd (rmv (mIZR (sg_rot p)) x) (sg_a p)) y.
(** A finite set of distinct operations, closed under composition and inverse as maps modulo lattice vectors. *)
Definition composes (p q r : SpaceGroupOp) : Prop := forall x y z, acts q x y -> acts p y z -> acts r x z.
Definition neutral (p : SpaceGroupOp) : Prop := forall x, acts p x x.
Record space_group (sym : list SpaceGroupOp) : Prop := {
  gr_distinct : ForallOrdPairs (fun p q => ~ same_op p q) sym;
  gr_compose : forall p q, In p sym -> In q sym -> exists r, In r sym /\ composes p q r;
  gr_neutral : exists e, In e sym /\ neutral e;
  gr_inverse : forall p, In p sym -> exists q e, In q sym /\ In e sym /\ neutral e /\ composes p q e /\ composes q p e }.

(** the mesh is mapped to itself, by rotations and translations *)
Definition S_at (S : V3) (k : nat) : Z := match k with O => v0 S | 1%nat => v1 S | _ => v2 S end.
Definition fits_mesh (S : V3) (p : SpaceGroupOp) : Prop :=
  (forall i j, (i < 3)%nat -> (j < 3)%nat -> exists q : Z, (S_at S i * mget (sg_rot p) i j = q * S_at S j)%Z) /\
  (forall i, (i < 3)%nat -> exists q : Z, IZR (S_at S i) * vget (sg_a p) i = IZR q).

(** Plane-wave expansion of coefficients x (by grid index) at position r *)
Definition expansion (S : V3) (x : Z -> C) (r : vec R) : C :=
  fold_right (fun i acc => Cplus (Cmult (x i) (cis (2 * PI * rdot (vIZR (toV (fullG_init S i))) r))) acc) (RtoC 0) (zrange 0 (nr S)).
(** mesh point with integer coordinates u *)
Definition mesh_point (S : V3) (u : vec Z) : vec R := V (IZR (c0 u) / IZR (v0 S)) (IZR (c1 u) / IZR (v1 S)) (IZR (c2 u) / IZR (v2 S)).
(** the field on the mesh is unchanged by the operation *)
Definition invariant (S : V3) (p : SpaceGroupOp) (x : Z -> C) : Prop :=
  forall u, expansion S x (rvadd (rmv (mIZR (sg_rot p)) (mesh_point S u)) (sg_a p)) = expansion S x (mesh_point S u).
(** indices fit the 16-bit helper used for wrapping *)
Definition in_box (S : V3) (g : vec Z) : Prop := (- v0 S < 2 * c0 g <= v0 S /\ - v1 S < 2 * c1 g <= v1 S /\ - v2 S < 2 * c2 g <= v2 S)%Z.
Definition small_mesh (S : V3) (sym : list SpaceGroupOp) : Prop :=
  (v0 S < 65536 /\ v1 S < 65536 /\ v2 S < 65536)%Z /\
  forall p g, In p sym -> in_box S g -> let w := zvm g (sg_rot p) in (-32768 <= c0 w < 32768 /\ -32768 <= c1 w < 32768 /\ -32768 <= c2 w < 32768)%Z.

(** Spin density matrices: number density, magnetization, and their transformation (the magnetization is a pseudovector) *)
Definition density4 (w : C4) : C := Cplus (up w) (dn w).
Definition magnet4 (w : C4) : vec C := V (Cmult (RtoC 2) (re w)) (Cmult (RtoC (-2)) (im w)) (Cminus (up w) (dn w)).
Definition expansionV (S : V3) (m : Z -> vec C) (r : vec R) : vec C :=
  V (expansion S (fun i => c0 (m i)) r) (expansion S (fun i => c1 (m i)) r) (expansion S (fun i => c2 (m i)) r).
Definition cartesian (Rl : mat R) (p : SpaceGroupOp) : mat R := rmm (rmm Rl (mIZR (sg_rot p))) (rinv Rl).
Definition rotate_c (O : mat R) (v : vec C) : vec C := gmv Cplus Cmult (mmap RtoC O) v.
Definition orthogonal (O : mat R) : Prop := rmm (mtrans O) O = rid.
Definition spin_invariant (S : V3) (Rl : mat R) (p : SpaceGroupOp) (x : Z -> C4) : Prop :=
  forall u, let r := mesh_point S u in let r' := rvadd (rmv (mIZR (sg_rot p)) r) (sg_a p) in let O := cartesian Rl p in
  expansion S (fun i => density4 (x i)) r' = expansion S (fun i => density4 (x i)) r /\
  expansionV S (fun i => magnet4 (x i)) r' = rotate_c (rmscale (rdet O) O) (expansionV S (fun i => magnet4 (x i)) r).

(** Forces (in lattice coordinates: gradients with respect to fractional positions) of atoms at positions pos *)
Definition atom_map (pos : list (vec R)) (p : SpaceGroupOp) (a b : nat) : Prop :=
  exists x y, nth_error pos a = Some x /\ nth_error pos b = Some y /\ acts p x y.
Definition distinct_positions (pos : list (vec R)) : Prop :=
  forall a b x y, nth_error pos a = Some x -> nth_error pos b = Some y -> lattice_equal x y -> a = b.
(** the force field is unchanged by the operation: moving atom a along with its image b = p(a) *)
Definition forces_invariant (pos : list (vec R)) (p : SpaceGroupOp) (f : nat -> vec R) : Prop :=
  forall a b, atom_map pos p a b -> rmv (mtrans (mIZR (sg_rot p))) (f b) = f a.
Definition total_force (pos : list (vec R)) (f : nat -> vec R) : vec R := fold_right (fun a acc => rvadd (f a) acc) (V 0 0 0) (seq 0 (length pos)).
Definition tensor_invariant (Rl : mat R) (p : SpaceGroupOp) (m : mat R) : Prop :=
  let O := cartesian Rl p in rmm (rmm O m) (mtrans O) = m.
Definition trace (m : mat R) : R := mget m 0 0 + mget m 1 1 + mget m 2 2.
Definition total_c (l : list C) : C := fold_right Cplus (RtoC 0) l.
Definition total_v (l : list (vec R)) : vec R := fold_right rvadd (V 0 0 0) l.
(** image of the mesh point u under p *)
Definition image (S : V3) (p : SpaceGroupOp) (u : vec Z) : vec R := rvadd (rmv (mIZR (sg_rot p)) (mesh_point S u)) (sg_a p).
(** A group whose operations map the mesh to itself, with indices in range of the 16-bit wrapping.  Symmetries::checkFFTbox checks the
    rotations; the translations are not checked (see C35_translation_refuted). *)
Record mesh_group (S : V3) (sym : list SpaceGroupOp) : Prop := {
  mg_group : space_group sym;
  mg_fits : forall p, In p sym -> fits_mesh S p;
  mg_small : small_mesh S sym }.
