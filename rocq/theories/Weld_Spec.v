(** What welding must do (C44). *)
From Coq Require Import Reals List.
Import ListNotations.
Open Scope R_scope.

Definition total (l : list R) : R := fold_right Rplus 0 l.
(** the order of the entries of l is kept by l' *)
Definition keeps_order (l l' : list R) : Prop := forall i j, (i < List.length l)%nat -> (j < List.length l)%nat -> nth i l 0 <= nth j l 0 -> nth i l' 0 <= nth j l' 0.
(** any two entries are either equal or further apart than tol *)
Definition separated (tol : R) (l : list R) : Prop := forall a b, In a l -> In b l -> a <> b -> tol < Rabs (a - b).
