(** Model of LinearSolvableIndefinite::MINRES, /repo/jdftx/perturb/LinearSolver.h lines 183-247.
    A is hessian and Ks is Ksqrt; K is precondition.  Vectors are handled through [VectorOps]; a vector that has become
    infinite or undefined through a division by zero is None (all later comparisons are then false).
    Reals for doubles; logging is left out. *)
From Coq Require Import Reals ZArith List Bool Arith.
From Verif Require Import XR_Model VecOps LinSolve_Model.
Import ListNotations.
Open Scope R_scope.

Section MINRES.
Context {V : Type} (v : VectorOps V) (A K Ks : V -> V) (kill : nat -> bool).

(** line 209: Ksqrt, hessian, Ksqrt *)
Definition scaled (x : V) : V := Ks (A (Ks x)).
(** line 187: r = -Ksqrt.b - Ksqrt.A.Ksqrt.x *)
Definition startRes (b x : V) : V := Ks (axpy v (-1) b (v_scal v (-1) (A (Ks x)))).

(** variables of the loop: state, v, vold, w, wtt and the scalars *)
Record Mst := MS { m_y : V; m_v : option V; m_vold : V; m_w : V; m_wtt : V; m_beta : R; m_bt : R; m_c : R; m_s : R; m_rho : R }.
(** iterates: state and rho *)
Record Mout := MO { mo_conv : bool; mo_iter : nat; mo_state : option V; mo_trace : list (V * R) }.
Record MParams := MP { mp_nIter : Z; mp_tol : R; mp_diff : R }.

(** lines 208-228 for a finite v; None if c = 0/0 *)
Definition minStep (st : Mst) (vk : V) : option Mst :=
  let vhat := axpy v (- m_beta st) (m_vold st) (scaled vk) in
  let alpha := v_dot v vk vhat in
  let vhat := axpy v (- alpha) vk vhat in
  let beta := sqrt (v_dot v vhat vhat) in
  let vnew := if Reqb beta 0 then None else Some (v_scal v (1 / beta) vhat) in
  let l1 := m_s st * alpha - m_c st * m_bt st in
  let l2 := m_s st * beta in
  let alphatilde := - m_s st * m_bt st - m_c st * alpha in
  let betatilde := m_c st * beta in
  let l0 := sqrt (alphatilde * alphatilde + beta * beta) in
  if Reqb l0 0 then None else
  let c := alphatilde / l0 in
  let s := beta / l0 in
  let wt := axpy v (- l1) (m_w st) (m_wtt st) in
  let wtt := match vnew with Some x => axpy v (- l2) (m_w st) x | None => m_wtt st end in    (* undefined together with v *)
  let w := v_scal v (1 / l0) wt in
  Some (MS (axpy v (m_rho st * c) w (m_y st)) vnew vk w wtt beta betatilde c s (s * m_rho st)).

(** lines 202, 230: rho/sqrt(fabs(rKr)) *)
Definition mRelErr (rho rKr : R) : xr := xdiv (Fin rho) (Fin (sqrt (Rabs rKr))).

(** lines 205-246; k = nIterations - iter *)
Fixpoint minLoop (p : MParams) (k iter : nat) (rKr : R) (st : Mst) (errPrev : xr) (consec : nat) (tr : list (V * R)) : Mout :=
  match k with
  | O => MO false iter (Some (Ks (m_y st))) tr
  | S k =>
      if kill iter then MO false iter (Some (Ks (m_y st))) tr else
      match (match m_v st with Some vk => minStep st vk | None => None end) with
      | None => MO false (runOut kill (S k) iter) None tr
      | Some st =>
          let tr := tr ++ [(m_y st, m_rho st)] in
          let err := mRelErr (m_rho st) rKr in
          if xltb err (Fin (mp_tol p)) then MO true iter (Some (Ks (m_y st))) tr else                 (* 233 *)
          let consec := if xltb (xdiv (xsub errPrev err) err) (Fin (mp_diff p)) then S consec else O in (* 235-238 *)
          if Nat.leb 2 consec then MO false iter (Some (Ks (m_y st))) tr                                (* 240 *)
          else minLoop p k (S iter) rKr st err consec tr
      end
  end.

(** lines 183-203; the initial vold and w are copies of the state *)
Definition MINRES (p : MParams) (b x : V) : Mout :=
  let r := startRes b x in
  let rho := sqrt (v_dot v r r) in
  let vv := v_scal v (1 / rho) r in
  let st := MS x (if Reqb rho 0 then None else Some vv) x x vv 0 0 (-1) 0 rho in
  let rKr := v_dot v b (K b) in
  minLoop p (Z.to_nat (mp_nIter p)) 0 rKr st (mRelErr rho rKr) 0 [(x, rho)].
End MINRES.
Arguments Mst : clear implicits. Arguments Mout : clear implicits.
