(** Model of Pulay mixing, jdftx/core/Pulay.h.  Variables are handled through [VectorOps]; the overlap matrix is a function
    of row and column (entries never set keep their initial, arbitrary value); energies are idealised doubles. *)
From Coq Require Import Reals ZArith List Bool Arith.
From Verif Require Import XR_Model VecOps Converge_Model.
Import ListNotations.
Open Scope R_scope.

Definition Mat := nat -> nat -> R.
Definition mset (m : Mat) (i j : nat) (x : R) : Mat := fun a b => if Nat.eqb a i && Nat.eqb b j then x else m a b.

(** jdftx/core/Pulay.h 78-81: data members of Pulay (without the parameters) *)
Record PulayObj (V : Type) := PO { po_vars : list V; po_res : list V; po_ov : Mat }.
Arguments PO {V}. Arguments po_vars {V}. Arguments po_res {V}. Arguments po_ov {V}.
(** jdftx/core/PulayParams.h: the parameters used by the loop *)
Record PulayParams := PP { pp_nIter : Z; pp_ediffThr : xr; pp_resThr : xr; pp_history : nat }.

(** jdftx/core/Pulay.h 52-75: interface implemented by the derived class; cycle returns new state, energy and extra values *)
Record Mixable (S V : Type) := MX {
  mx_get : S -> V; mx_set : V -> S -> S; mx_cycle : xr -> S -> S * xr * list xr;
  mx_metric : V -> V; mx_precond : V -> V; mx_report : nat -> S -> S }.
Arguments mx_get {S V}. Arguments mx_set {S V}. Arguments mx_cycle {S V}. Arguments mx_metric {S V}. Arguments mx_precond {S V}. Arguments mx_report {S V}. Arguments MX {S V}.

Section P.
Context {S V : Type} (v : VectorOps V) (sys : Mixable S V) (inv : nat -> Mat -> Mat) (kill : nat -> bool).

(** jdftx/core/Pulay.h 132-139: drop the oldest member of a full history.  [None]: erase() on an empty vector *)
Definition dropOldest (history : nat) (o : PulayObj V) : option (PulayObj V) :=
  let ndim := length (po_res o) in
  if Nat.leb history ndim then
    match po_vars o, po_res o with
    | _ :: vs, _ :: rs =>
        let ov := if Nat.ltb 1 ndim
                  then fun i j => if Nat.ltb i (ndim-1) && Nat.ltb j (ndim-1) then po_ov o (i+1)%nat (j+1)%nat else po_ov o i j
                  else po_ov o in
        Some (PO vs rs ov)
    | _, _ => None
    end
  else Some o.

(** jdftx/core/Pulay.h 200-204, and 262-266 of loadState: set row and column k of the overlap from the first residuals *)
Fixpoint setOverlaps (M : V) (k : nat) (j : nat) (rs : list V) (ov : Mat) : Mat :=
  match rs with
  | [] => ov
  | r :: rs' => let d := v_dot v r M in setOverlaps M k (j+1)%nat rs' (mset (mset ov j k d) k j d)
  end.

(** jdftx/core/Pulay.h 207-213: overlap matrix bordered by ones *)
Definition bordered (n : nat) (ov : Mat) : Mat :=
  fun i j => if Nat.ltb i n && Nat.ltb j n then ov i j else if Nat.ltb i n || Nat.ltb j n then 1 else 0.
(** jdftx/core/Pulay.h 214-217: mixing coefficients *)
Definition alphas (n : nat) (ov : Mat) : list R := map (fun j => inv (n+1)%nat (bordered n ov) j n) (seq 0 n).
(** jdftx/core/Pulay.h 220-224: mixed variable *)
Definition mixed (al : list R) (vars ress : list V) : V :=
  fold_left (fun x ajr => let '(a, (y, r)) := ajr in
    v_add v (v_add v x (v_scal v a y)) (v_scal v a (mx_precond sys r))) (combine al (combine vars ress)) (v_zero v).

(** jdftx/core/Pulay.h 185-191: extra convergence checks, up to the first that fires *)
Fixpoint extraChecks (cs : list NormCheck) (xs : list xr) : list NormCheck * bool :=
  match cs, xs with
  | c :: cs', x :: xs' =>
      let '(c1, b) := normCheck c x in
      if b then (c1 :: cs', true) else let '(r, b') := extraChecks cs' xs' in (c1 :: r, b')
  | _, _ => (cs, false)
  end.

(** One mixing step as recorded in the trace: object, coefficients and new variable *)
Record Mix := mkMix { mi_obj : PulayObj V; mi_alpha : list R; mi_var : V }.
Inductive Ended := Limit | Stopped | IsNaN | BadErase.
Record PulayOut := mkPO { out_obj : PulayObj V; out_sys : S; out_E : xr; out_end : Ended; out_trace : list Mix }.

(** jdftx/core/Pulay.h 130-227: the loop; k = nIterations - iter *)
Fixpoint pulayLoop (pp : PulayParams) (k iter : nat) (o : PulayObj V) (s : S) (E dE : xr)
    (ec : EdiffCheck) (rc : NormCheck) (xc : list NormCheck) (tr : list Mix) : PulayOut :=
  match k with
  | O => mkPO o s E Limit tr
  | Datatypes.S k =>
      match dropOldest (pp_history pp) o with
      | None => mkPO o s E BadErase tr
      | Some o1 =>
          let x := mx_get sys s in
          let vars := po_vars o1 ++ [x] in                                                        (* 143 *)
          let '(s1, E1, extra) := mx_cycle sys dE s in                                             (* 147 *)
          let dE1 := xsub E1 E in
          let r := v_add v (mx_get sys s1) (v_scal v (-1) x) in                                    (* 153, 230-234 *)
          let ress := po_res o1 ++ [r] in
          let norm := Fin (sqrt (v_dot v r r)) in                                                 (* 155 *)
          let s1 := mx_report sys iter s1 in                                                       (* 169 *)
          let o2 := PO vars ress (po_ov o1) in
          if isnan E1 then mkPO o2 s1 E1 IsNaN tr else                                            (* 172-175 *)
          let '(ec1, c1) := ediffCheck ec E1 in
          let '(rc1, c2) := if c1 then (rc, true) else normCheck rc norm in
          let '(xc1, c3) := if c2 then (xc, true) else extraChecks xc extra in
          if c3 || kill iter then mkPO o2 s1 E1 Stopped tr else                                   (* 193 *)
          let n := length ress in
          let ov := setOverlaps (mx_metric sys r) (n-1)%nat 0 ress (po_ov o1) in                   (* 197-204 *)
          let al := alphas n ov in
          let y := mixed al vars ress in
          let o3 := PO vars ress ov in
          pulayLoop pp k (Datatypes.S iter) o3 (mx_set sys y s1) E1 dE1 ec1 rc1 xc1 (tr ++ [mkMix o3 al y])
      end
  end.
(** jdftx/core/Pulay.h 117-128: minimize *)
Definition pulayMinimize (pp : PulayParams) (o : PulayObj V) (s : S) (E0 : xr) (extraThr : list xr) : PulayOut :=
  pulayLoop pp (Z.to_nat (pp_nIter pp)) 0 o s E0 (xsub E0 (Fin 0))
    (fst (ediffCheck (mkEdiffCheck 2 (pp_ediffThr pp)) E0)) (mkNormCheck 2 (pp_resThr pp)) (map (mkNormCheck 2) extraThr) [].

(** jdftx/core/Pulay.h 282-285 *)
Definition clearState (o : PulayObj V) : PulayObj V := PO [] [] (po_ov o).

(** *** History files: [ser] gives the [sz] bytes of a variable and [deser] reads them *)
Section File.
Context {Byte : Type} (ser : V -> list Byte) (deser : list Byte -> V) (sz : nat).
(** jdftx/core/Pulay.h 270-280 (the head process) *)
Definition saveState (o : PulayObj V) : list Byte :=
  concat (map (fun xr => ser (fst xr) ++ ser (snd xr)) (combine (po_vars o) (po_res o))).
(** jdftx/core/Pulay.h 253-256 *)
Fixpoint readPairs (n : nat) (f : list Byte) : list V * list V :=
  match n with
  | O => ([], [])
  | Datatypes.S n =>
      let x := deser (firstn sz f) in let f1 := skipn sz f in
      let r := deser (firstn sz f1) in let f2 := skipn sz f1 in
      let '(xs, rs) := readPairs n f2 in (x :: xs, r :: rs)
  end.
(** jdftx/core/Pulay.h 260-267: rows i, i+1, ... of the overlap of [done ++ rs] *)
Fixpoint loadOverlaps (done rs : list V) (ov : Mat) : Mat :=
  match rs with
  | [] => ov
  | r :: rs' => loadOverlaps (done ++ [r]) rs' (setOverlaps (mx_metric sys r) (length done) 0 (done ++ [r]) ov)
  end.
(** jdftx/core/Pulay.h 236-268; [None]: die, or division by zero for empty variables *)
Definition loadState (pp : PulayParams) (o : PulayObj V) (f : list Byte) : option (PulayObj V) :=
  let cyc := (2 * sz)%nat in
  if Nat.eqb cyc 0 then None else
  let n0 := (length f / cyc)%nat in
  let '(off, n) := if Nat.ltb (pp_history pp) n0 then ((n0 - pp_history pp)%nat, pp_history pp) else (O, n0) in
  if Nat.eqb (length f mod cyc) 0 then
    let '(xs, rs) := readPairs n (skipn (off * cyc) f) in
    Some (PO xs rs (loadOverlaps [] rs (po_ov o)))
  else None.
End File.
End P.
Arguments PulayOut : clear implicits. Arguments Mix : clear implicits.
