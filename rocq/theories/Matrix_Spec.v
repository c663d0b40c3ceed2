(** Reference matrix algebra for C54-C56, independent of memory layout loops. *)
From Coq Require Import ZArith List Bool Reals.
From Coquelicot Require Import Complex.
From Verif Require Import Base Matrix_Model.
Import ListNotations.
Open Scope Z_scope.

(** Entry (i,j) of a matrix. *)
Definition entry (m : matrix) (i j : Z) : C := mcell m (nr m * j + i).
Definition dims_ok (m : matrix) : Prop := 0 <= nr m /\ 0 <= nc m.
Definition in_mat (m : matrix) (i j : Z) : Prop := 0 <= i < nr m /\ 0 <= j < nc m.
(** Sum of f 0 .. f (n-1). *)
Definition Csum (f : Z -> C) (n : Z) : C := fold_right (fun i acc => Cplus (f i) acc) (RtoC 0) (zrange 0 n).
(** Entry (i,j) denoted by a view: scale times the (transposed, conjugated) entry of the sub-matrix. *)
Definition view_entry (v : view) (i j : Z) : C :=
  Cmult (RtoC (vscale v))
    (match vop v with
     | NoTrans => entry (vmat v) (viStart v + i) (vjStart v + j)
     | Trans => entry (vmat v) (viStart v + j) (vjStart v + i)
     | ConjTrans => Cconj (entry (vmat v) (viStart v + j) (vjStart v + i))
     end).
(** The view selects a sub-matrix of its matrix. *)
Definition view_ok (v : view) : Prop :=
  dims_ok (vmat v) /\ 0 <= viStart v /\ 0 <= viDelta v /\ viStart v + viDelta v <= nr (vmat v) /\
  0 <= vjStart v /\ 0 <= vjDelta v /\ vjStart v + vjDelta v <= nc (vmat v).
(** Requested strided range start, start+step, ... < stop lies inside 0..n-1 and is not empty. *)
Definition range_ok (n start step stop : Z) : Prop := 0 <= start < stop /\ stop <= n /\ 0 < step.
(** Position x of the big matrix is the k-th of the strided range. *)
Definition at_pos (start step stop k x : Z) : Prop := 0 <= k /\ x = start + k * step /\ x < stop.
(** Entry (r,c) of the block diagonal matrix made of nBlocks copies of blk scaled by phases. *)
Definition tiled_entry (blk : matrix) (phase : Z -> C) (r c : Z) : C :=
  if (r / nr blk =? c / nc blk) then Cmult (phase (r / nr blk)) (entry blk (r mod nr blk) (c mod nc blk)) else RtoC 0.
(** Equality of buffers up to pointwise equality of the cells. *)
Definition beq (b1 b2 : buf) : Prop := len b1 = len b2 /\ forall a, cell b1 a = cell b2 a.
Definition req (r1 r2 : res buf) : Prop :=
  match r1, r2 with
  | Ok b1, Ok b2 => beq b1 b2
  | OutOfBounds, OutOfBounds => True
  | Rejected, Rejected => True
  | _, _ => False
  end.
(** alpha*s + beta*old, the old content being ignored when beta = 0. *)
Definition gemmVal (al be s old : C) : C := if Ceq_dec be (RtoC 0) then Cmult al s else Cplus (Cmult al s) (Cmult be old).
