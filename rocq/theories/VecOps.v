(** Vectors handled through their operations only (the Vector template parameter of the solvers). *)
From Coq Require Import Reals.
Open Scope R_scope.

(** A real vector space with inner product, as far as needed. *)
Record VectorOps (V : Type) := VO { v_add : V -> V -> V; v_scal : R -> V -> V; v_zero : V; v_dot : V -> V -> R }.
Arguments v_add {V}. Arguments v_scal {V}. Arguments v_zero {V}. Arguments v_dot {V}. Arguments VO {V}.
Record vector_laws {V} (v : VectorOps V) : Prop := VL {
  vl_add_comm : forall x y, v_add v x y = v_add v y x;
  vl_add_assoc : forall x y z, v_add v x (v_add v y z) = v_add v (v_add v x y) z;
  vl_add_zero : forall x, v_add v x (v_zero v) = x;
  vl_scal_add : forall a x y, v_scal v a (v_add v x y) = v_add v (v_scal v a x) (v_scal v a y);
  vl_scal_plus : forall a b x, v_scal v (a + b) x = v_add v (v_scal v a x) (v_scal v b x);
  vl_scal_mult : forall a b x, v_scal v (a * b) x = v_scal v a (v_scal v b x);
  vl_scal_one : forall x, v_scal v 1 x = x;
  vl_scal_zero : forall x, v_scal v 0 x = v_zero v;
  vl_dot_comm : forall x y, v_dot v x y = v_dot v y x;
  vl_dot_add : forall x y z, v_dot v x (v_add v y z) = v_dot v x y + v_dot v x z;
  vl_dot_scal : forall a x y, v_dot v x (v_scal v a y) = a * v_dot v x y }.
