(** Model of the minimizers of jdftx/core/Minimize.h, Minimize_linmin.h and Minimize_lBFGS.h.
    Scalars are idealised doubles ([xr]: reals, infinities and not-a-number).  The state and the vectors are of
    arbitrary types with arbitrary operations, collected in [Objective]; compute() is a function of the state, with the
    same energy whether or not gradients are requested.  Printing, timing, clone() and sync() (identity on one process)
    are left out.  A raised kill signal is an arbitrary predicate on iterations. *)
From Coq Require Import Reals ZArith List Bool Arith.
From Verif Require Import XR_Model Converge_Model.
Import ListNotations.
Open Scope R_scope.

(** jdftx/core/Minimize.h 36-67: the Minimizable interface together with the vector-space operations of its Vector *)
Record Objective (St V : Type) := Obj {
  ob_step : St -> V -> xr -> St;              (* step(dir, alpha) *)
  ob_E : St -> xr;                            (* energy returned by compute *)
  ob_g : St -> V;                             (* gradient set by compute *)
  ob_Kg : St -> V;                            (* preconditioned gradient set by compute *)
  ob_report : nat -> St -> option St;         (* report(iter): new state if it modified the state *)
  ob_constrain : St -> V -> V;                (* constrain(dir) *)
  ob_safe : St -> V -> xr;                    (* safeStepSize(dir) *)
  ob_dot : V -> V -> xr;
  ob_scale : xr -> V -> V;                    (* v *= a *)
  ob_axpy : xr -> V -> V -> V;                (* axpy(a, X, Y): Y += a*X *)
  ob_max : V -> xr }.                         (* maxCalculator *)
Arguments ob_step {St V}. Arguments ob_E {St V}. Arguments ob_g {St V}. Arguments ob_Kg {St V}.
Arguments ob_report {St V}. Arguments ob_constrain {St V}. Arguments ob_safe {St V}. Arguments ob_dot {St V}.
Arguments ob_scale {St V}. Arguments ob_axpy {St V}. Arguments ob_max {St V}. Arguments Obj {St V}.

(** jdftx/core/MinimizeParams.h 32-46 *)
Inductive DirUpdate := PolakRibiere | FletcherReeves | HestenesStiefel | LBFGS | SteepestDescent.
Inductive LinminMethod := DirUpdateRecommended | Relax | Quad | CubicWolfe.
(** jdftx/core/MinimizeParams.h 29-88: MinimizeParams without the output parameters *)
Record MinParams := MP {
  mp_dir : DirUpdate; mp_linmin : LinminMethod; mp_nIter : Z; mp_nDim : R; mp_history : Z;
  mp_knormThr : xr; mp_maxThr : bool; mp_ediffThr : xr; mp_nEdiff : nat; mp_convergeAll : bool;
  mp_alphaTstart : xr; mp_alphaTmin : xr; mp_updateTest : bool; mp_reduce : xr; mp_increase : xr; mp_nAdjust : Z;
  mp_wolfeE : xr; mp_wolfeG : xr; mp_abort : bool }.

(** A double used as a truth value: true unless zero *)
Definition xnz (x : xr) : bool := match x with Fin r => negb (Reqb r 0) | _ => true end.

Section Linmin.
Context {St V : Type} (o : Objective St V) (p : MinParams).

(** Outcome of a line minimizer: return value, reference arguments alpha, E, g, Kg and the state of the objective *)
Record LR := mkLR { lr_ok : bool; lr_alpha : xr; lr_E : xr; lr_g : V; lr_Kg : V; lr_st : St }.

(** jdftx/core/Minimize_linmin.h 37-49: linminRelax *)
Definition linminRelax (st : St) (d : V) (alphaT : xr) : LR :=
  let st' := ob_step o st d alphaT in
  mkLR (isfin (ob_E o st')) alphaT (ob_E o st') (ob_g o st') (ob_Kg o st') st'.

(** jdftx/core/Minimize_linmin.h 68-109: outcome of the loop over test steps *)
Inductive TestOutcome :=
| TestQuit (alpha : xr) (st : St)                      (* 69-73: alphaT below threshold, return false *)
| TestWrongCurvature (alpha : xr) (st : St)            (* 87-94: return true *)
| TestEnd (alpha alphaPrev : xr) (st : St).            (* 108 or attempts used up: continue at 110 *)
Fixpoint quadTest (k : nat) (d : V) (E gdotd alphaT alpha alphaPrev : xr) (st : St) : TestOutcome :=
  match k with
  | O => TestEnd alpha alphaPrev st
  | S k =>
      if xltb alphaT (mp_alphaTmin p) then TestQuit alphaPrev st else
      let st1 := ob_step o st d (xsub alphaT alphaPrev) in                                         (* 75 *)
      let ET := ob_E o st1 in
      if negb (isfin ET) then quadTest k d E gdotd (xmul alphaT (mp_reduce p)) alpha alphaT st1 else
      let alpha1 := xdiv (xmul (xmul (Fin (1/2)) (xmul alphaT alphaT)) gdotd)
                         (xsub (xadd (xmul alphaT gdotd) E) ET) in                                    (* 85 *)
      if xltb alpha1 (Fin 0) then TestWrongCurvature alpha1 st1 else
      if xltb (mp_increase p) (xdiv alpha1 alphaT) then                                             (* 95 *)
        quadTest k d E gdotd (xmul alphaT (mp_increase p)) alpha1 alphaT st1 else
      if xltb (xdiv alphaT alpha1) (mp_reduce p) then                                               (* 101 *)
        quadTest k d E gdotd (xmul alphaT (mp_reduce p)) alpha1 alphaT st1 else
      TestEnd alpha1 alphaT st1
  end.

(** jdftx/core/Minimize_linmin.h 117-141: the loop over actual steps and the final test *)
Fixpoint quadStep (k : nat) (d : V) (Eorig E : xr) (g Kg : V) (alpha alphaPrev : xr) (st : St) : LR :=
  match k with
  | O => mkLR (negb (negb (isfin E) || xltb Eorig E)) alpha E g Kg st                               (* 136-141 *)
  | S k =>
      let st1 := ob_step o st d (xsub alpha alphaPrev) in
      let E1 := ob_E o st1 in let g1 := ob_g o st1 in let Kg1 := ob_Kg o st1 in
      if negb (isfin E1) then quadStep k d Eorig E1 g1 Kg1 (xmul alpha (mp_reduce p)) alpha st1 else
      if xltb Eorig E1 then quadStep k d Eorig E1 g1 Kg1 (xmul alpha (mp_reduce p)) alpha st1 else
      mkLR (negb (negb (isfin E1) || xltb Eorig E1)) alpha E1 g1 Kg1 st1
  end.

(** jdftx/core/Minimize_linmin.h 53-142: linminQuad; [alpha] is the value of the reference argument on entry *)
Definition linminQuad (st : St) (d : V) (alphaT alpha E : xr) (g Kg : V) : LR :=
  let gdotd := ob_dot o g d in
  if xleb (Fin 0) gdotd then mkLR false (Fin 0) E g Kg st else                                       (* 60-64 *)
  match quadTest (Z.to_nat (mp_nAdjust p)) d E gdotd alphaT alpha (Fin 0) st with
  | TestQuit a st' => mkLR false a E g Kg st'
  | TestWrongCurvature a st' => mkLR true a (ob_E o st') (ob_g o st') (ob_Kg o st') st'
  | TestEnd a aPrev st' =>
      if negb (isfin E) then mkLR false aPrev E g Kg st'                                              (* 110-114 *)
      else quadStep (Z.to_nat (mp_nAdjust p)) d E E g Kg a aPrev st'
  end.

(** jdftx/core/Minimize_linmin.h 178-203: location of the next point of the cubic line search *)
Definition cubicNext (alphaPrev alpha Eprev E gdotdPrev gdotd : xr) : xr :=
  let dA := xsub alpha alphaPrev in
  let Ep0 := xmul gdotdPrev dA in
  let Ep1 := xmul gdotd dA in
  let deltaE := xsub E Eprev in
  let A := xmul (Fin 3) (xsub (xadd Ep0 Ep1) (xmul (Fin 2) deltaE)) in
  let B := xsub (xadd (xmul (Fin 2) Ep0) Ep1) (xmul (Fin 3) deltaE) in
  let C := Ep0 in
  let det := xsub (xmul B B) (xmul A C) in
  let tMin :=
    if xleb (Fin 0) det then
      let disc := xsqrt det in
      let tOpt := if xltb (Fin 0) B then xdiv (xadd B disc) A else xdiv C (xsub B disc) in
      let Eopt := xadd Eprev (xmul tOpt (xadd C (xmul tOpt (xadd (xopp B) (xdiv (xmul tOpt A) (Fin 3)))))) in
      if isfin tOpt && xleb Eopt E && xleb Eopt Eprev then tOpt else NaN
    else NaN in
  let tMin' :=
    if isfin tMin then xmax (xmin tMin (mp_increase p)) (xsub (Fin 1) (mp_increase p))
    else if xleb Ep1 (Fin 0) then mp_increase p else xsub (Fin 1) (mp_increase p) in
  xadd alphaPrev (xmul tMin' dA).

(** jdftx/core/Minimize_linmin.h 162-217: loop of the cubic line search; k = nAlphaAdjustMax + 1 - s *)
Fixpoint cubicLoop (k : nat) (d : V) (E0 gdotd0 alpha alphaPrev alphaState Eprev gdotdPrev : xr) (st : St) : LR :=
  let st1 := ob_step o st d (xsub alpha alphaState) in
  let E := ob_E o st1 in let g := ob_g o st1 in let Kg := ob_Kg o st1 in
  let gdotd := ob_dot o g d in
  match k with
  | O => mkLR (negb (negb (isfin E) || xltb E0 E)) alpha E g Kg st1                                  (* 167, 216-217 *)
  | S k =>
      if negb (isfin E) then                                                                        (* 169-174 *)
        cubicLoop k d E0 gdotd0 (xadd alphaPrev (xmul (mp_reduce p) (xsub alpha alphaPrev))) alphaPrev alpha Eprev gdotdPrev st1
      else
      let alphaNew := cubicNext alphaPrev alpha Eprev E gdotdPrev gdotd in
      if xleb E (xadd E0 (xmul (xmul (mp_wolfeE p) alpha) gdotd0)) && xleb (xmul (mp_wolfeG p) gdotd0) gdotd
      then mkLR true alpha E g Kg st1                                                               (* 205-208 *)
      else if xltb E Eprev then cubicLoop k d E0 gdotd0 alphaNew alpha alpha E gdotd st1              (* 212-213 *)
      else cubicLoop k d E0 gdotd0 alphaNew alphaPrev alpha Eprev gdotdPrev st1
  end.

(** jdftx/core/Minimize_linmin.h 146-218: linminCubicWolfe *)
Definition linminCubicWolfe (st : St) (d : V) (alphaT alpha E : xr) (g Kg : V) : LR :=
  let gdotd := ob_dot o g d in
  if xleb (Fin 0) gdotd then mkLR false (Fin 0) E g Kg st else
  cubicLoop (Z.to_nat (mp_nAdjust p + 1)) d E gdotd alphaT (Fin 0) (Fin 0) E gdotd st.

(** jdftx/core/Minimize.h 302-317: getLinmin *)
Definition linmin (st : St) (d : V) (alphaT alpha E : xr) (g Kg : V) : LR :=
  match mp_linmin p, mp_dir p with
  | Relax, _ | DirUpdateRecommended, SteepestDescent => linminRelax st d alphaT
  | CubicWolfe, _ | DirUpdateRecommended, LBFGS => linminCubicWolfe st d alphaT alpha E g Kg
  | Quad, _ | DirUpdateRecommended, _ => linminQuad st d alphaT alpha E g Kg
  end.
End Linmin.
Arguments LR : clear implicits. Arguments TestOutcome : clear implicits.

Section Minimize.
Context {St V : Type} (o : Objective St V) (p : MinParams) (kill : nat -> bool).

(** Result of a minimization: returned energy, state left behind and number of line minimizations; or die() *)
Inductive MinResult := MinDone (E : xr) (st : St) (nLinmin : nat) | MinDie (st : St).

(** jdftx/core/Minimize.h 165: the reported norm of the gradient *)
Definition knorm (gK : xr) (Kg : V) : xr :=
  if mp_maxThr p then ob_max o Kg else xcopysign (xsqrt (xdiv (xabs gK) (Fin (mp_nDim p)))) gK.
(** jdftx/core/Minimize.h 196-209: whether the convergence criteria are met *)
Definition converged (kn : xr) (eConv : bool) : bool :=
  let n := ((if xltb (xabs kn) (mp_knormThr p) then 1 else 0) + (if eConv then 1 else 0))%nat in
  Nat.leb (if mp_convergeAll p then 2 else 1)%nat n.
(** jdftx/core/Minimize.h 171-193: mixing factor of the previous direction *)
Definition newBeta (force : bool) (g Kg gPrev d : V) (gK gKPrev : xr) : xr :=
  if force then Fin 0 else
  let dotgd := ob_dot o g d in
  let dotgPrevKg := ob_dot o gPrev Kg in
  let b := match mp_dir p with
           | FletcherReeves => xdiv gK gKPrev
           | PolakRibiere => xdiv (xsub gK dotgPrevKg) gKPrev
           | HestenesStiefel => xdiv (xsub gK dotgPrevKg) (xsub dotgd (ob_dot o d gPrev))
           | _ => Fin 0
           end in
  if xltb b (Fin 0) then Fin 0 else b.

(** jdftx/core/Minimize.h 155-263: main loop; k = nIterations - iter *)
Fixpoint minLoop (k iter : nat) (chk : EdiffCheck) (E : xr) (g Kg gPrev d : V) (force : bool)
    (alphaT alpha gKPrev : xr) (st : St) (nLin : nat) : MinResult :=
  if kill iter then MinDone E st nLin else
  let '(st, E, g, Kg, force) :=                                                                   (* 157-162 *)
    match ob_report o iter st with
    | Some st' => (st', ob_E o st', ob_g o st', ob_Kg o st', true)
    | None => (st, E, g, Kg, force)
    end in
  let gK := ob_dot o g Kg in
  let kn := knorm gK Kg in
  let beta := newBeta force g Kg gPrev d gK gKPrev in
  let '(chk, eConv) := ediffCheck chk E in
  if converged kn eConv then MinDone E st nLin else                                               (* 209 *)
  if negb (isfin gK) then MinDone E st nLin else                                                  (* 213 *)
  if negb (isfin E) then MinDone E st nLin else                                                   (* 217 *)
  match k with
  | O => MinDone E st nLin                                                                        (* 221 *)
  | S k =>
      let d1 := ob_constrain o st (ob_axpy o (Fin (-1)) Kg (ob_scale o beta d)) in                  (* 226-227 *)
      let alphaT := xmin alphaT (ob_safe o st d1) in                                                (* 230 *)
      let r := linmin o p st d1 alphaT alpha E g Kg in
      if lr_ok r then
        let alphaT' := if mp_updateTest p
                       then (if xltb (lr_alpha r) (mp_alphaTmin p) then mp_alphaTstart p else lr_alpha r)
                       else alphaT in
        minLoop k (S iter) chk (lr_E r) (lr_g r) (lr_Kg r) g d1 false alphaT' (lr_alpha r) gK (lr_st r) (S nLin)
      else if mp_abort p then MinDie (lr_st r)                                                     (* 240 *)
      else
        let st' := ob_step o (lr_st r) d1 (xopp (lr_alpha r)) in                                    (* 245 *)
        if xnz beta
        then minLoop k (S iter) chk (ob_E o st') (ob_g o st') (ob_Kg o st') g d1 true alphaT (lr_alpha r) gK st' (S nLin)
        else MinDone (ob_E o st') st' (S nLin)                                                     (* 258 *)
  end.

(** One remembered change of variable and of preconditioned gradient: jdftx/core/Minimize_lBFGS.h 43-47 *)
Record Hist := mkHist { h_s : V; h_Ky : V; h_rho : xr }.

(** jdftx/core/Minimize_lBFGS.h 109-113: first loop, from the newest (rbegin) to the oldest entry; the stack is
    returned with its top first *)
Fixpoint loop1 (rh : list Hist) (stack : list xr) (d : V) : list xr * V :=
  match rh with
  | [] => (stack, d)
  | h :: rh => let a := xmul (h_rho h) (ob_dot o (h_s h) d) in
               loop1 rh (a :: stack) (ob_axpy o (xopp a) (h_Ky h) d)
  end.
(** jdftx/core/Minimize_lBFGS.h 115-119: second loop, from the oldest to the newest entry; popping an empty stack (which
    would be undefined behaviour) yields None *)
Fixpoint loop2 (hs : list Hist) (stack : list xr) (d : V) : option V :=
  match hs with
  | [] => Some d
  | h :: hs => match stack with
               | [] => None
               | a :: stack => let b := xmul (h_rho h) (ob_dot o (h_Ky h) d) in
                               loop2 hs stack (ob_axpy o (xsub a b) (h_s h) d)
               end
  end.
(** jdftx/core/Minimize_lBFGS.h 108-120: the search direction (before constrain) *)
Definition lbfgsDir (history : list Hist) (gamma : xr) (Kg : V) : option V :=
  let '(stack, d) := loop1 (rev history) [] Kg in
  let d := if xnz gamma then ob_scale o gamma d else d in
  match loop2 history stack d with
  | Some d => Some (ob_scale o (Fin (-1)) d)
  | None => None
  end.

(** What one iteration of lBFGS did: the history and scaling its direction was computed from, the preconditioned
    gradient, the direction, and whether it cleared the history or appended an entry *)
Inductive Change := Cleared | Appended (h : Hist) | Stopped.
Record Entry := mkEntry { en_reset : bool; en_hist : list Hist; en_gamma : xr; en_Kg : V; en_dir : V; en_change : Change }.
Inductive LResult := LDone (E : xr) (st : St) (nLinmin : nat) | LDie (st : St) | LUndefined.

(** jdftx/core/Minimize_lBFGS.h 121: drop the oldest entry of a full history; pop_front of an empty list is undefined *)
Definition makeRoom (history : list Hist) : option (list Hist) :=
  if Z.eqb (Z.of_nat (length history)) (mp_history p)
  then match history with [] => None | _ :: h => Some h end
  else Some history.

(** jdftx/core/Minimize_lBFGS.h 56-162: main loop; k = nIterations - iter.  [tr] records what each iteration did *)
Fixpoint lbfgsLoop (k iter : nat) (chk : EdiffCheck) (E : xr) (g Kg : V) (history : list Hist) (gamma alpha : xr)
    (st : St) (nLin : nat) (tr : list Entry) : LResult * list Entry :=
  if kill iter then (LDone E st nLin, tr) else
  let '(st, E, g, Kg, history, reset) :=                                                            (* 58-63 *)
    match ob_report o iter st with
    | Some st' => (st', ob_E o st', ob_g o st', ob_Kg o st', [], true)
    | None => (st, E, g, Kg, history, false)
    end in
  let gK := ob_dot o g Kg in
  let kn := if mp_maxThr p then ob_max o Kg else xsqrt (xdiv gK (Fin (mp_nDim p))) in                 (* 66 *)
  let '(chk, eConv) := ediffCheck chk E in
  if converged kn eConv then (LDone E st nLin, tr) else
  if negb (isfin gK) then (LDone E st nLin, tr) else
  if negb (isfin E) then (LDone E st nLin, tr) else
  match k with
  | O => (LDone E st nLin, tr)
  | S k =>
      match lbfgsDir history gamma Kg, makeRoom history with
      | Some d0, Some hist1 =>
          let d := ob_constrain o st d0 in                                                            (* 122 *)
          let alphaT := xmin (mp_alphaTstart p) (ob_safe o st d) in                                   (* 126 *)
          let r := linmin o p st d alphaT alpha E g Kg in
          if lr_ok r then
            let s := ob_scale o (lr_alpha r) d in                                                     (* 153 *)
            let Ky := ob_axpy o (Fin 1) (lr_Kg r) (ob_scale o (Fin (-1)) Kg) in                        (* 154 *)
            let y := ob_axpy o (Fin 1) (lr_g r) (ob_scale o (Fin (-1)) g) in                           (* 155 *)
            let ydots := ob_dot o y s in
            let h := mkHist s Ky (xdiv (Fin 1) ydots) in
            let gamma' := xdiv ydots (ob_dot o y Ky) in                                               (* 158 *)
            lbfgsLoop k (S iter) chk (lr_E r) (lr_g r) (lr_Kg r) (hist1 ++ [h]) gamma' (lr_alpha r) (lr_st r) (S nLin)
              (tr ++ [mkEntry reset history gamma Kg d0 (Appended h)])
          else if mp_abort p then (LDie (lr_st r), tr ++ [mkEntry reset history gamma Kg d0 Stopped])
          else
            let st' := ob_step o (lr_st r) d (xopp (lr_alpha r)) in                                   (* 131 *)
            if negb (Nat.eqb (length hist1) 0)                                                        (* 133 *)
            then lbfgsLoop k (S iter) chk (ob_E o st') (ob_g o st') (ob_Kg o st') [] (Fin 0) (lr_alpha r) st' (S nLin)
                   (tr ++ [mkEntry reset history gamma Kg d0 Cleared])
            else (LDone (ob_E o st') st' (S nLin), tr ++ [mkEntry reset history gamma Kg d0 Stopped])  (* 147 *)
      | _, _ => (LUndefined, tr)
      end
  end.

(** jdftx/core/Minimize_lBFGS.h 31-163: lBFGS *)
Definition lBFGS (st : St) : LResult * list Entry :=
  lbfgsLoop (Z.to_nat (mp_nIter p)) 0 (mkEdiffCheck (mp_nEdiff p) (mp_ediffThr p)) (ob_E o st) (ob_g o st) (ob_Kg o st)
    [] (Fin 0) (Fin 0) st 0 [].

(** jdftx/core/Minimize.h 121-264: minimize for the conjugate gradient and steepest descent schemes.  fdTest is modelled
    separately.  gPrev is unset before the first iteration (its value is then not used because force is set). *)
Definition minimizeCG (st : St) : MinResult :=
  let Kg := ob_Kg o st in
  minLoop (Z.to_nat (mp_nIter p)) 0 (mkEdiffCheck (mp_nEdiff p) (mp_ediffThr p)) (ob_E o st) (ob_g o st) Kg
    (ob_g o st) (ob_constrain o st Kg) true (mp_alphaTstart p) (mp_alphaTstart p) (Fin 0) st 0.
(** jdftx/core/Minimize.h 124: choice of algorithm *)
Definition minimize (st : St) : LResult :=
  match mp_dir p with
  | LBFGS => fst (lBFGS st)
  | _ => match minimizeCG st with MinDone E st' n => LDone E st' n | MinDie st' => LDie st' end
  end.

(** jdftx/core/Minimize.h 289-298: the steps of the finite difference test along dx, and the final undoing *)
Fixpoint fdSteps (fuel : nat) (dx : V) (delta deltaPrev : R) (st : St) : option St :=
  if Rleb delta 10 then
    match fuel with
    | O => None
    | S fuel => fdSteps fuel dx (delta * 10) delta (ob_step o st dx (Fin (delta - deltaPrev)))
    end
  else Some (ob_step o st dx (Fin (- deltaPrev))).
Definition fdTest (st : St) (dx : V) : option St := fdSteps 20 dx (1/1000000000) 0 st.
End Minimize.
Arguments MinResult : clear implicits. Arguments LResult : clear implicits. Arguments Hist : clear implicits.
Arguments Entry : clear implicits. Arguments Change : clear implicits.
