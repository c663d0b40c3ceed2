(** The limited-memory BFGS approximation to the inverse Hessian, as in the literature, and the history it is built on. *)
From Coq Require Import Reals ZArith List Bool.
From Verif Require Import XR_Model VecOps Minimize_Model.
Import ListNotations.
Open Scope R_scope.

(** BFGS updates of the inverse Hessian, H' = (1 - rho s u^T) H (1 - rho u s^T) + rho s s^T, applied to a vector;
    newest pair first. *)
Fixpoint bfgs {V} (v : VectorOps V) (gamma : R) (newest_first : list (V * V * R)) (x : V) : V :=
  match newest_first with
  | [] => v_scal v gamma x
  | (s, u, rho) :: older =>
      let x1 := v_add v x (v_scal v (- (rho * v_dot v s x)) u) in
      let w := bfgs v gamma older x1 in
      v_add v (v_add v w (v_scal v (- (rho * v_dot v u w)) s)) (v_scal v (rho * v_dot v s x) s)
  end.

(** The vector operations of the objective are those of the vector space. *)
Definition uses_ops {St V} (o : Objective St V) (v : VectorOps V) : Prop :=
  (forall x y, ob_dot o x y = Fin (v_dot v x y)) /\
  (forall a x, ob_scale o (Fin a) x = v_scal v a x) /\
  (forall a x y, ob_axpy o (Fin a) x y = v_add v y (v_scal v a x)).

(** History entries with finite factors. *)
Definition entryOf {V} (t : V * V * R) : Hist V := match t with (s, u, rho) => mkHist s u (Fin rho) end.

(** The last n members of a list. *)
Definition lastn {A} (n : nat) (l : list A) : list A := skipn (length l - n) l.

(** Pairs accepted since the last clearing of the history, oldest first. *)
Fixpoint accepted {V} (acc : list (Hist V)) (tr : list (Entry V)) : list (Hist V) :=
  match tr with
  | [] => acc
  | e :: tr => let acc := if en_reset e then [] else acc in
               accepted (match en_change e with Appended h => acc ++ [h] | _ => [] end) tr
  end.

(** An iteration that follows the iterations [before] used exactly the n newest pairs. *)
Definition uses_newest {V} (n : nat) (before : list (Entry V)) (e : Entry V) : Prop :=
  en_hist e = (if en_reset e then [] else lastn n (accepted [] before)).

(** A remembered pair: displacement and change of the preconditioned gradient between two states, with the inverse of
    the inner product of displacement and change of gradient. *)
Definition pair_of {St V} (o : Objective St V) (h : Hist V) : Prop := exists st st' d a,
  st' = ob_step o st d (Fin a) /\ h_s h = ob_scale o (Fin a) d /\
  h_Ky h = ob_axpy o (Fin 1) (ob_Kg o st') (ob_scale o (Fin (-1)) (ob_Kg o st)) /\
  h_rho h = xdiv (Fin 1) (ob_dot o (ob_axpy o (Fin 1) (ob_g o st') (ob_scale o (Fin (-1)) (ob_g o st))) (h_s h)).

(** All iterations of a run used exactly the n newest pairs, and their direction comes from these. *)
Definition good_trace {St V} (o : Objective St V) (n : nat) (tr : list (Entry V)) : Prop :=
  forall before e after, tr = before ++ e :: after -> uses_newest n before e /\ (length (en_hist e) <= n)%nat /\
    lbfgsDir o (en_hist e) (en_gamma e) (en_Kg e) = Some (en_dir e).

(** There is no scaling before the first accepted step (gamma zero). *)
Definition scaleOf (g : R) : R := if Req_EM_T g 0 then 1 else g.
