(** Model of the convergence checkers of jdftx/core/Minimize.h and jdftx/core/Pulay.h.  Energies and norms are
    idealised doubles ([xr]); a std::deque is a list with its front first. *)
From Coq Require Import Reals List Bool Arith.
From Verif Require Import XR_Model.
Import ListNotations.
Open Scope R_scope.

(** jdftx/core/Minimize.h 106-112, 360: class EdiffCheck (a deque of energies, nDiff and |threshold|) *)
Record EdiffCheck := EDC { ed_q : list xr; ed_n : nat; ed_thr : xr }.
Definition mkEdiffCheck (nDiff : nat) (threshold : xr) : EdiffCheck := EDC [] nDiff (xabs threshold).

(** jdftx/core/Minimize.h 368-370: loop over i looking for at(i+1) < at(i)-threshold *)
Fixpoint anyLargeDrop (thr : xr) (q : list xr) : bool :=
  match q with
  | a :: ((b :: _) as q') => xltb b (xsub a thr) || anyLargeDrop thr q'
  | _ => false
  end.

(** jdftx/core/Minimize.h 361-374: EdiffCheck::checkConvergence *)
Definition ediffCheck (c : EdiffCheck) (E : xr) : EdiffCheck * bool :=
  match rev (ed_q c) with
  | [] => (EDC [E] (ed_n c) (ed_thr c), false)                        (* 362: first element *)
  | back :: _ =>
      if xleb back E then (EDC [E] (ed_n c) (ed_thr c), false)       (* 363: E >= back() *)
      else
        let q1 := ed_q c ++ [E] in                                    (* 365 *)
        let q2 := if length q1 =? ed_n c + 2 then tl q1 else q1 in     (* 366: pop_front *)
        (EDC q2 (ed_n c) (ed_thr c),
         if length q2 =? ed_n c + 1 then negb (anyLargeDrop (ed_thr c) q2) else false)   (* 367-373 *)
  end.

(** jdftx/core/Pulay.h 94-98: class NormCheck *)
Record NormCheck := NC { nc_h : list bool; nc_n : nat; nc_thr : xr }.
Definition mkNormCheck (nCheck : nat) (threshold : xr) : NormCheck := NC [] nCheck (xabs threshold).
(** jdftx/core/Pulay.h 99-109: NormCheck::checkConvergence *)
Definition normCheck (c : NormCheck) (norm : xr) : NormCheck * bool :=
  let h1 := nc_h c ++ [xltb (xabs norm) (nc_thr c)] in
  let h2 := if length h1 =? nc_n c + 1 then tl h1 else h1 in
  (NC h2 (nc_n c) (nc_thr c), if length h2 =? nc_n c then forallb (fun b => b) h2 else false).

(** The checker after a sequence of calls, and the answer of the last call. *)
Fixpoint ediffRun (c : EdiffCheck) (Es : list xr) : EdiffCheck :=
  match Es with [] => c | E :: Es' => ediffRun (fst (ediffCheck c E)) Es' end.
Fixpoint normRun (c : NormCheck) (xs : list xr) : NormCheck :=
  match xs with [] => c | x :: xs' => normRun (fst (normCheck c x)) xs' end.
