(** What the mixing history should contain. *)
From Coq Require Import Reals List Arith.
From Verif Require Import VecOps Pulay_Model.
Import ListNotations.
Open Scope R_scope.

Fixpoint total (l : list R) : R := match l with [] => 0 | x :: l' => x + total l' end.
(** The last n elements of a list. *)
Definition lastn {X} (n : nat) (l : list X) : list X := skipn (length l - n) l.
(** Linear combination. *)
Fixpoint combo {V} (v : VectorOps V) (c : list R) (xs : list V) : V :=
  match c, xs with a :: c', x :: xs' => v_add v (v_scal v a x) (combo v c' xs') | _, _ => v_zero v end.
(** A metric is linear and symmetric. *)
Definition metric_ok {V} (v : VectorOps V) (M : V -> V) : Prop :=
  (forall x y, v_dot v x (M y) = v_dot v y (M x)) /\
  (forall x y, M (v_add v x y) = v_add v (M x) (M y)) /\ (forall a x, M (v_scal v a x) = v_scal v a (M x)).
(** The overlap matrix holds the inner products of the residuals. *)
Definition overlaps {V} (v : VectorOps V) (M : V -> V) (rs : list V) (ov : Mat) : Prop :=
  forall i j x y, nth_error rs i = Some x -> nth_error rs j = Some y -> ov i j = v_dot v x (M y).
(** Variables and residuals correspond, and are at most h. *)
Definition bounded {V} (h : nat) (o : PulayObj V) : Prop := length (po_vars o) = length (po_res o) /\ (length (po_res o) <= h)%nat.
(** sum over k < n *)
Definition sum_to (n : nat) (f : nat -> R) : R := total (map f (seq 0 n)).
Definition right_inverse (n : nat) (A B : Mat) : Prop :=
  forall i j, (i < n)%nat -> (j < n)%nat -> sum_to n (fun k => A i k * B k j) = if Nat.eqb i j then 1 else 0.

(** A run of mixing steps, starting with the history of [o] and the variable [x]: every step remembers the variable and the
    residual of a cycle that started from it, dropping the oldest beyond h; its overlaps are inner products; the next
    variable is the combination of remembered variables and preconditioned residuals. *)
Fixpoint good_run {S V} (v : VectorOps V) (sys : Mixable S V) (h : nat) (o : PulayObj V) (x : V) (tr : list (Mix V)) : Prop :=
  match tr with
  | [] => True
  | m :: tr' => exists s dE r, let ob := mi_obj m in
      mx_get sys s = x /\ r = v_add v (mx_get sys (fst (fst (mx_cycle sys dE s)))) (v_scal v (-1) x) /\
      po_vars ob = lastn h (po_vars o ++ [x]) /\ po_res ob = lastn h (po_res o ++ [r]) /\
      overlaps v (mx_metric sys) (po_res ob) (po_ov ob) /\ length (mi_alpha m) = length (po_res ob) /\
      mi_var m = v_add v (combo v (mi_alpha m) (po_vars ob)) (combo v (mi_alpha m) (map (mx_precond sys) (po_res ob))) /\
      good_run v sys h ob (mi_var m) tr'
  end.
(** setVariable followed by getVariable returns the variable, and reporting does not change it. *)
Definition stores {S V} (sys : Mixable S V) : Prop := forall y s, mx_get sys (mx_set sys y s) = y.
