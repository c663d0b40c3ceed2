(** Model of the tetrahedron method (C42, C43): jdftx/electronic/TetrahedralDOS.cpp 28-101 and 198-535.
    Doubles are idealised to real numbers.  The loops over the weight functions act on each of them independently and in
    the same way, and the nodes do not depend on the weights: the model carries one weight function. *)
From Coq Require Import ZArith Reals List Bool.
From Verif Require Import Base Vec3_Model.
Import ListNotations.
Open Scope R_scope.

(** ** Constructor *)
(** 57-62: integer offsets of the eight corners; corner 4*a + 2*b + c has i = (a*s0, b*s1, c*s2) *)
Definition corner (s : vec Z) (v : nat) : vec Z :=
  V (Z.of_nat (Nat.div v 4) * c0 s)%Z (Z.of_nat (Nat.modulo (Nat.div v 2) 2) * c1 s)%Z (Z.of_nat (Nat.modulo v 2) * c2 s)%Z.
(** 65-71 *)
Definition cellVerts : list (nat * nat * nat * nat) :=
  [(0, 2, 3, 7); (0, 3, 1, 7); (0, 1, 5, 7); (0, 5, 4, 7); (0, 4, 6, 7); (0, 6, 2, 7)]%nat.
(** 91-94; GT*(v[j]-v[0]) with v[j] = v0 + inv(GT)*GTsup*i *)
Definition rbox (a b c : vec R) : R := gbox Rplus Rmult Rminus a b c.
Definition tetVolume (GT GTsup : mat R) (s : vec Z) (v0 : vec R) (t : nat * nat * nat * nat) : R :=
  let dk := fun j => rmv (rmm (rinv GT) GTsup) (vIZR (corner s j)) in
  let v := fun j => rvadd v0 (dk j) in
  let '(p0, p1, p2, p3) := t in
  rbox (rmv GT (rvsub (v p1) (v p0))) (rmv GT (rvsub (v p2) (v p0))) (rmv GT (rvsub (v p3) (v p0))).
(** 76-100: the volumes of all tetrahedra, normalised to add up to weightSum *)
Definition rawVolumes (GT GTsup : mat R) (s : vec Z) (kmesh : list (vec R)) : list R :=
  flat_map (fun v0 => map (tetVolume GT GTsup s v0) cellVerts) kmesh.
Definition volumes (GT GTsup : mat R) (s : vec Z) (kmesh : list (vec R)) (weightSum : R) : list R :=
  let raw := rawVolumes GT GTsup s kmesh in
  let Vtot := fold_left Rplus raw 0 in
  map (fun v => v * (weightSum / Vtot)) raw.
(** 43-54: the signs with the shortest body diagonal; d is the length of GTsup*s *)
Definition signChoices : list (vec Z) := [V 1 (-1) (-1); V 1 (-1) 1; V 1 1 (-1); V 1 1 1]%Z.
Definition sBest (GTsup : mat R) : option (vec Z) :=
  option_map snd (fold_left (fun best s => let d := sqrt (rlen2 (rmv GTsup (vIZR s))) in
    match best with Some (dMin, _) => if Rlt_dec d dMin then Some (d, s) else best | None => Some (d, s) end) signChoices None).

(** ** Spline pieces *)
Definition b4 : Type := R * R * R * R.
Definition interval : Type := R * R.
Definition zero4 : b4 := (0, 0, 0, 0).
Definition add4 (a b : b4) : b4 := let '(a0, a1, a2, a3) := a in let '(b0, b1, b2, b3) := b in (a0 + b0, a1 + b1, a2 + b2, a3 + b3).
(** 202: ordering of intervals *)
Definition intLt (i j : interval) : bool :=
  if Req_EM_T (fst i) (fst j) then (if Rlt_dec (snd i) (snd j) then true else false) else (if Rlt_dec (fst i) (fst j) then true else false).
(** map[key] += v with creation of a zero entry; std::map<Interval,CsplineElem> in increasing order of the keys *)
Fixpoint pieceAdd (key : interval) (v : b4) (m : list (interval * b4)) : list (interval * b4) :=
  match m with
  | [] => [(key, add4 zero4 v)]
  | (k, b) :: m' => if intLt key k then (key, add4 zero4 v) :: m
                    else if intLt k key then (k, b) :: pieceAdd key v m' else (k, add4 b v) :: m'
  end.
(** deltas[e] += v *)
Fixpoint deltaAdd (e v : R) (m : list (R * R)) : list (R * R) :=
  match m with
  | [] => [(e, 0 + v)]
  | (k, b) :: m' => if Rlt_dec e k then (e, 0 + v) :: m else if Rlt_dec k e then (k, b) :: deltaAdd e v m' else (k, b + v) :: m'
  end.
Record cspline := { pieces : list (interval * b4); deltas : list (R * R) }.
(** 217-224 *)
Definition bvalue (b : b4) (t : R) : R :=
  let '(b0, b1, b2, b3) := b in
  let c0 := b0 + t*(b1-b0) in let c1 := b1 + t*(b2-b1) in let c2 := b2 + t*(b3-b2) in
  let d0 := c0 + t*(c1-c0) in let d1 := c1 + t*(c2-c1) in
  d0 + t*(d1-d0).
(** 226-234 *)
Definition bderiv (b : b4) (t : R) : R :=
  let '(b0, b1, b2, b3) := b in
  let c0 := 3*(b1-b0) in let c1 := 3*(b2-b1) in let c2 := 3*(b3-b2) in
  let d0 := c0 + t*(c1-c0) in let d1 := c1 + t*(c2-c1) in
  d0 + t*(d1-d0).

(** ** accumTetrahedron, 243-304; the vertices (energy, weight) in the order left by std::sort *)
Definition vertex : Type := R * R.
Definition gt (a b : R) : bool := if Rlt_dec b a then true else false.
Definition accumTetrahedron (vol : R) (q0 q1 q2 q3 : vertex) (wdos : cspline) : cspline :=
  let '(e0, w0) := q0 in let '(e1, w1) := q1 in let '(e2, w2) := q2 in let '(e3, w3) := q3 in
  if Req_EM_T e3 e0 then
    {| pieces := pieces wdos; deltas := deltaAdd e0 (vol * (1/4) * (w0 + w1 + w2 + w3)) (deltas wdos) |}
  else
    let inv_e30 := 1/(e3-e0) in
    let A := inv_e30 * vol in
    let E13_0 := (e1-e0)*inv_e30 in
    let E20_3 := (e3-e2)*inv_e30 in
    let E12_0 := if gt e2 e0 then (e1-e0)/(e2-e0) else 0 in
    let E21_3 := if gt e3 e1 then (e3-e2)/(e3-e1) else 0 in
    let wa := w0 + (w3-w0)*E13_0 in
    let wb := w0 + (w2-w0)*E12_0 in
    let wc := w3 + (w0-w3)*E20_3 in
    let wd := w3 + (w1-w3)*E21_3 in
    let m := pieces wdos in
    let m := if gt e1 e0 then pieceAdd (e0,e1) (0, 0, A*E12_0*w0, A*E12_0*(w1+wb+wa)) m else m in
    let m := if gt e2 e1 then pieceAdd (e1,e2)
        (A*E12_0*(w1+wb+wa), A*(w1 + (1/3)*(2*wa+wb + E12_0*(2*w2+wc))), A*(w2 + (1/3)*(2*wc+wd + E21_3*(2*w1+wa))), A*E21_3*(w2+wc+wd)) m else m in
    let m := if gt e3 e2 then pieceAdd (e2,e3) (A*E21_3*(w2+wc+wd), A*E21_3*w3, 0, 0) m else m in
    {| pieces := m; deltas := deltas wdos |}.

(** ** coalesceIntervals, 307-400 *)
(** std::set<double>: increasing list without duplicates *)
Fixpoint setInsert (e : R) (l : list R) : list R :=
  match l with
  | [] => [e]
  | k :: l' => if Rlt_dec e k then e :: l else if Rlt_dec k e then k :: setInsert e l' else l
  end.
(** 309-315 *)
Definition nodes (cs : cspline) : list R :=
  fold_left (fun s d => setInsert (fst d) s) (deltas cs)
    (fold_left (fun s p => setInsert (snd (fst p)) (setInsert (fst (fst p)) s)) (pieces cs) []).
(** 331-350: from node e (with value v and slope d) over the following nodes up to eStop *)
Fixpoint splitPiece (eStart eStop inv_de : R) (b : b4) (e v d : R) (following : list R) (combined : list (interval * b4)) : option (list (interval * b4)) :=
  if Req_EM_T e eStop then Some combined
  else match following with
  | [] => None
  | eNext :: l =>
    let tNext := (eNext-eStart)*inv_de in
    let vNext := bvalue b tNext in
    let dNext := bderiv b tNext * inv_de in
    splitPiece eStart eStop inv_de b eNext vNext dNext l
      (pieceAdd (e, eNext) (v, v + (1/3)*(eNext-e)*d, vNext - (1/3)*(eNext-e)*dNext, vNext) combined)
  end.
(** e.find(eStart): the nodes after eStart *)
Fixpoint findNode (e : R) (l : list R) : option (list R) :=
  match l with [] => None | k :: l' => if Req_EM_T k e then Some l' else findNode e l' end.
(** 319-351 *)
Fixpoint splitAll (ns : list R) (ps : list (interval * b4)) (combined : list (interval * b4)) : option (list (interval * b4)) :=
  match ps with
  | [] => Some combined
  | ((eStart, eStop), b) :: ps' =>
    match findNode eStart ns with
    | None => None
    | Some following =>
      let inv_de := 1/(eStop-eStart) in
      let t := (eStart-eStart)*inv_de in
      match splitPiece eStart eStop inv_de b eStart (bvalue b t) (bderiv b t * inv_de) following combined with
      | None => None
      | Some c => splitAll ns ps' c
      end
    end
  end.
Fixpoint findDelta (e : R) (l : list (R * R)) : option R :=
  match l with [] => None | (k, v) :: l' => if Req_EM_T k e then Some v else findDelta e l' end.
(** 353-376: cur is the current interval, l the following ones; the assertion of line 358 is the outcome None *)
Fixpoint fixDisc (ds : list (R * R)) (cur : interval * b4) (l : list (interval * b4)) : option (list (interval * b4)) :=
  let '((e0, e1), (x0, x1, x2, x3)) := cur in
  match l with
  | [] => Some [cur]
  | ((f0, f1), (y0, y1, y2, y3)) :: l' =>
    if Req_EM_T f0 e1 then
      let h := e1 - e0 in
      let hNext := f1 - f0 in
      let integral := h*x3 + hNext*y0 + match findDelta e1 ds with Some v => 4*v | None => 0 end in
      let wMean := integral/(h + hNext) in
      match fixDisc ds ((f0, f1), (wMean, y1, y2, y3)) l' with
      | Some r => Some (((e0, e1), (x0, x1, x2, wMean)) :: r)
      | None => None
      end
    else None
  end.
(** 378-395 *)
Definition addBottom (ds : list (R * R)) (l : list (interval * b4)) : list (interval * b4) :=
  match ds, l with
  | (d, v) :: _, ((e0, e1), (x0, x1, x2, x3)) :: l' => if Req_EM_T d e0 then ((e0, e1), (x0 + v*(4/(e1-e0)), x1, x2, x3)) :: l' else l
  | _, _ => l
  end.
Definition addTop (ds : list (R * R)) (l : list (interval * b4)) : list (interval * b4) :=
  match rev ds, rev l with
  | (d, v) :: _, ((e0, e1), (x0, x1, x2, x3)) :: l' => if Req_EM_T d e1 then rev (((e0, e1), (x0, x1, x2, x3 + v*(4/(e1-e0)))) :: l') else l
  | _, _ => l
  end.
(** 307-400.  Without any piece, lines 353-354 dereference the end of an empty map: None. *)
Definition coalesceIntervals (cs : cspline) : option cspline :=
  match splitAll (nodes cs) (pieces cs) [] with
  | None => None
  | Some [] => None
  | Some (cur :: rest) =>
    match fixDisc (deltas cs) cur rest with
    | None => None
    | Some l => Some {| pieces := addTop (deltas cs) (addBottom (deltas cs) l); deltas := [] |}
    end
  end.

(** ** convertLspline, 406-437: list of (energy, value) *)
Definition lspline : Type := list (R * R).
Definition convertPiece (p : interval * b4) : lspline :=
  let '((e0, e3), (b0, b1, b2, b3)) := p in
  let e1 := (1/3)*(2*e0 + e3) in
  let e2 := (1/3)*(e0 + 2*e3) in
  [(e1, (13/60)*b0 + 0.60*b1 + 0.15*b2 + (1/30)*b3);
   (e2, (13/60)*b3 + 0.60*b2 + 0.15*b1 + (1/30)*b0);
   (e3, b3)].
(** without any interval the assertion of line 435 fails: None *)
Definition convertLspline (ps : list (interval * b4)) : option lspline :=
  match ps with
  | [] => None
  | ((e0, _), (b0, _, _, _)) :: _ => Some ((e0, b0) :: flat_map convertPiece ps)
  end.

(** ** mergeLsplines, 440-511 *)
Definition memR (e : R) (l : list R) : bool := if in_dec Req_EM_T e l then true else false.
(** the neighbours of e in a set *)
Fixpoint prevOf (e : R) (l : list R) : option R :=
  match l with
  | a :: ((b :: _) as l') => if Req_EM_T b e then Some a else prevOf e l'
  | _ => None
  end.
Fixpoint nextOf (e : R) (l : list R) : option R :=
  match l with
  | a :: ((b :: _) as l') => if Req_EM_T a e then Some b else nextOf e l'
  | _ => None
  end.
Definition front (l : lspline) : R := match l with [] => 0 | p :: _ => fst p end.
Definition back (l : lspline) : R := fst (last l (0, 0)).
Definition toSet (l : list R) : list R := fold_left (fun s e => setInsert e s) l [].
(** 442-448 *)
Definition eSet (ls : list lspline) : list R := toSet (flat_map (map fst) ls).
Definition leftSet (ls : list lspline) : list R := toSet (map front ls).
Definition rightSet (ls : list lspline) : list R := toSet (map back ls).
(** 449-453 *)
Definition isBoundary (ls : list lspline) (e : R) : bool := xorb (memR e (leftSet ls)) (memR e (rightSet ls)).
(** 455-473; None is the use of an iterator outside the set *)
Definition startScale (ls : list lspline) (e : R) : option R :=
  if isBoundary ls e then Some 1
  else match prevOf e (eSet ls), nextOf e (eSet ls) with Some m, Some p => Some ((p-e)/(p-m)) | _, _ => None end.
Definition stopScale (ls : list lspline) (e : R) : option R :=
  if isBoundary ls e then Some 1
  else match prevOf e (eSet ls), nextOf e (eSet ls) with Some m, Some p => Some ((e-m)/(p-m)) | _, _ => None end.
(** 475-482: the output grid with duplicated boundary nodes *)
Definition grid (ls : list lspline) : lspline := flat_map (fun e => if isBoundary ls e then [(e, 0); (e, 0)] else [(e, 0)]) (eSet ls).
(** 492-508: walk over the output from the entry cIter (the head of [out]), with the current input interval (l, r) and the rest of the input *)
Fixpoint walk (sStart sStop eStart eStop : R) (l r : R * R) (rest : lspline) (out : lspline) : option lspline :=
  match out with
  | [] => None
  | (e, v) :: out' =>
    let t := (e - fst l)/(fst r - fst l) in
    let s := if Req_EM_T e eStop then sStop else if Req_EM_T e eStart then sStart else 1 in
    let v' := v + s * ((1-t) * snd l + t * snd r) in
    if Req_EM_T e eStop then Some ((e, v') :: out')
    else match out' with
    | [] => None
    | (eNext, _) :: _ =>
      (* 502-507 *)
      match (if Rlt_dec (fst r) eNext
             then match rest with n :: rest' => walk sStart sStop eStart eStop r n rest' out' | [] => None end
             else walk sStart sStop eStart eStop l r rest out') with
      | Some o => Some ((e, v') :: o)
      | None => None
      end
    end
  end.
(** 485-486: skip to the last of the entries of the starting energy, then walk *)
Fixpoint addLspline (sStart sStop eStart eStop : R) (l r : R * R) (rest : lspline) (out : lspline) : option lspline :=
  match out with
  | [] => None
  | (e, v) :: out' =>
    match out' with
    | (e', _) :: _ => if Rle_dec e' eStart
                      then match addLspline sStart sStop eStart eStop l r rest out' with Some o => Some ((e, v) :: o) | None => None end
                      else walk sStart sStop eStart eStop l r rest out
    | [] => walk sStart sStop eStart eStop l r rest out
    end
  end.
Fixpoint mergeInto (ls todo : list lspline) (out : lspline) : option lspline :=
  match todo with
  | [] => Some out
  | s :: todo' =>
    match s, startScale ls (front s), stopScale ls (back s) with
    | l :: r :: rest, Some sStart, Some sStop =>
      match addLspline sStart sStop (front s) (back s) l r rest out with Some o => mergeInto ls todo' o | None => None end
    | _, _, _ => None
    end
  end.
Definition mergeLsplines (ls : list lspline) : option lspline := mergeInto ls ls (grid ls).

(** ** getDOS, 514-535: for each band the tetrahedra (volume, sorted vertices) *)
Definition tet : Type := R * (vertex * vertex * vertex * vertex).
Definition bandSpline (ts : list tet) : cspline :=
  fold_left (fun cs t => let '(vol, (q0, q1, q2, q3)) := t in accumTetrahedron vol q0 q1 q2 q3 cs) ts {| pieces := []; deltas := [] |}.
Definition bandDOS (Etol : R) (ts : list tet) : option lspline :=
  let wdos := bandSpline ts in
  match pieces wdos, deltas wdos with
  | [], [(eDelta, wDelta)] => Some [(eDelta - 0.5*Etol, 0); (eDelta, wDelta * (2/Etol)); (eDelta + 0.5*Etol, 0)]
  | _, _ => match coalesceIntervals wdos with Some c => convertLspline (pieces c) | None => None end
  end.
Fixpoint allBands (Etol : R) (bands : list (list tet)) : option (list lspline) :=
  match bands with
  | [] => Some []
  | ts :: l => match bandDOS Etol ts, allBands Etol l with Some b, Some r => Some (b :: r) | _, _ => None end
  end.
Definition getDOS (Etol : R) (bands : list (list tet)) : option lspline :=
  match allBands Etol bands with Some ls => mergeLsplines ls | None => None end.
