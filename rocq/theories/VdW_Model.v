(** Dispersion corrections.
    Models /repo/jdftx/electronic/VanDerWaalsD2.cpp lines 33-67 (vdwPairEnergyAndGrad), 169-220 (energyAndGrad), 274-321 (getParams, getRadialFunction) and
    /repo/jdftx/electronic/VanDerWaalsD3.cpp lines 26-90 (parameters), 149-173 (pair potentials), 177-272 (energyAndGrad), 276-302 (computeCN),
    306-342 (propagateCNgradient), 359-365 (setNeighborSampling).
    Real idealisation of double; int is unbounded.  Atoms are numbered 0..n-1, their positions a function of the number.  The lattice derivative E_RRT is always
    computed (E_RRTptr non-null).  allReduce adds the values of the processes; each process is represented by the list of cells it loops over.
    The reference tables of D3 enter as functions. *)
From Coq Require Import ZArith Reals List Bool.
From Verif Require Import Base WorkDiv_Model Grid_Model Vec3_Model Lattice_Model Coulomb_Model WS_Model Ions_Model CellMap_Spec.
Import ListNotations.
Local Open Scope R_scope.

Definition cellVec (iR : V3) : vec R := V (IZR (v0 iR)) (IZR (v1 iR)) (IZR (v2 iR)).
(** iR + (atoms[c1].pos - atoms[c2].pos): VanDerWaalsD2.cpp line 192, VanDerWaalsD3.cpp lines 215, 288, 320 *)
Definition sep (pos : nat -> vec R) (c1 c2 : nat) (iR : V3) : vec R := rvadd (cellVec iR) (rvsub (pos c1) (pos c2)).
(** cellWeight: VanDerWaalsD2.cpp line 196, VanDerWaalsD3.cpp lines 219, 292, 325 *)
Definition cellWeight (iR : V3) : R := if (v2 iR =? 0)%Z then 1/2 else 1.
(** a[c] += v for an array a *)
Definition addAt {A} (add : A -> A -> A) (a : nat -> A) (c : nat) (v : A) : nat -> A := fun d => if (d =? c)%nat then add (a d) v else a d.
Definition vzero : vec R := V 0 0 0.
Definition mzero : mat R := M 0 0 0 0 0 0 0 0 0.

(** number of sampled cells: VanDerWaalsD2.cpp lines 174-177, VanDerWaalsD3.cpp lines 360-362 *)
Definition nSample (Rl : mat R) (isTruncated : nat -> bool) (rCut : R) (k : nat) : Z :=
  (1 + 2 * (if isTruncated k then 0 else rceil (rCut / rlen (mrow (mtrans Rl) k))))%Z.
Definition sampling (Rl : mat R) (isTruncated : nat -> bool) (rCut : R) : V3 :=
  (nSample Rl isTruncated rCut 0, nSample Rl isTruncated rCut 1, nSample Rl isTruncated rCut 2).
(** the cells visited by process iProc: VanDerWaalsD2.cpp lines 178-179, VanDerWaalsD3.cpp lines 363-364 and the loops; nCellsHlf is nG S *)
Definition procCells (S : V3) (nProcs iProc : Z) (fuel : nat) : option (list V3) :=
  option_map (map snd) (THREAD_halfGspaceLoop S fuel (td_start (stopArr (nG S) nProcs) iProc) (td_stop (stopArr (nG S) nProcs) iProc)).
Fixpoint allProcs (S : V3) (nProcs : Z) (fuel : nat) (ps : list Z) : option (list (list V3)) :=
  match ps with
  | [] => Some []
  | p :: ps' => match procCells S nProcs p fuel, allProcs S nProcs fuel ps' with Some l, Some ls => Some (l :: ls) | _, _ => None end
  end.

(** ** D2 *)
(** vdwPairEnergyAndGrad: VanDerWaalsD2.cpp lines 33-67; value and derivative *)
Definition rRegularize : R := 3000002494598603 / 10000000000000000.
Definition eRegularize : R := 114064201325433 / 100000000000000000.
Definition vdwPair (r C6 R0 lj : R) : R * R :=
  if Req_EM_T lj 0 then
    let invR0 := 1 / R0 in let rByR0 := r * invR0 in
    if Rlt_dec rByR0 rRegularize then (eRegularize * C6 * invR0 ^ 6, 0)
    else
      let d := 20 in
      let exponential := exp (- d * (rByR0 - 1)) in
      let fdamp := 1 / (1 + exponential) in
      let fdamp_r := (fdamp * fdamp) * exponential * (d * invR0) in
      let invr := 1 / r in
      let C6invr6 := C6 * invr ^ 6 in
      let C6invr6_r := (-6 / r) * C6invr6 in
      (C6invr6 * fdamp, C6invr6_r * fdamp + C6invr6 * fdamp_r)
  else if Rlt_dec lj r then (0, 0)
  else
    let invr := 1 / r in let invr6 := invr ^ 6 in let R06 := R0 ^ 6 in
    ((C6 * invr6) * (1 - 1/2 * R06 * invr6), 6 * (C6 * invr6) * invr * (R06 * invr6 - 1)).

Record d2acc := D2 { Etot : R; forces : nat -> vec R; E_RRT : mat R }.
Record d2par := D2P { p_C6 : R; p_R0 : R }.
Section D2.
  Variables (Rl : mat R) (n : nat) (par : nat -> d2par) (pos : nat -> vec R) (scaleFac lj : R).
  (** lines 190-206 *)
  Definition d2cell (c1 c2 : nat) (C6 R0 : R) (a : d2acc) (iR : V3) : d2acc :=
    let x := sep pos c1 c2 iR in
    let rSq := metric2 (RTR Rl) x in
    if Req_EM_T rSq 0 then a else
    let r := sqrt rSq in
    let w := cellWeight iR in
    let E_r := snd (vdwPair r C6 R0 lj) in
    let E_x := rvscale (w * scaleFac * E_r / r) (rmv (RTR Rl) x) in
    let rVec := rmv Rl x in
    D2 (Etot a - w * scaleFac * fst (vdwPair r C6 R0 lj))
       (addAt rvsub (addAt rvadd (forces a) c1 E_x) c2 E_x)
       (rmsub (E_RRT a) (rmscale (w * scaleFac * E_r / r) (Ions_Model.outer rVec rVec))).
  (** lines 181-208, on one process; par holds getParams of the atoms *)
  Definition d2pair (cells : list V3) (c1 : nat) (a : d2acc) (c2 : nat) : d2acc :=
    fold_left (d2cell c1 c2 (sqrt (p_C6 (par c1) * p_C6 (par c2))) (p_R0 (par c1) + p_R0 (par c2))) cells a.
  Definition d2local (cells : list V3) : d2acc :=
    fold_left (fun a c1 => fold_left (d2pair cells c1) (seq 0 n) a) (seq 0 n) (D2 0 (fun _ => vzero) mzero).
  (** lines 209-220: reduction over processes *)
  Definition d2reduce (a b : d2acc) : d2acc := D2 (Etot a + Etot b) (fun c => rvadd (forces a c) (forces b c)) (rmadd (E_RRT a) (E_RRT b)).
  Definition energyAndGradD2 (procs : list (list V3)) : d2acc := fold_left (fun a cells => d2reduce a (d2local cells)) procs (D2 0 (fun _ => vzero) mzero).
End D2.

(** getParams: lines 274-282; None is a failed assertion.  unitParticle is the constant of VanDerWaalsD2.h line 36 *)
Definition unitParticle : Z := (-1)%Z.
Definition getParams (table : Z -> d2par) (vdwOverride : Z -> option d2par) (atomicNumber sp : Z) (unit1 : d2par) : option d2par :=
  if (atomicNumber =? unitParticle)%Z then Some unit1
  else match (if (0 <=? sp)%Z then vdwOverride sp else None) with
       | Some p => Some p
       | None => if (0 <? atomicNumber)%Z && (atomicNumber <=? 118)%Z then Some (table atomicNumber) else None
       end.
(** getRadialFunction: lines 285-321.  The cache is a map from pairs of atomic numbers; the radial function is represented by the parameters C6, R0 it is computed from *)
Definition cache := list ((Z * Z) * (R * R)).
Fixpoint cacheFind (k : Z * Z) (m : cache) : option (R * R) :=
  match m with [] => None | (k', v) :: m' => if ((fst k =? fst k')%Z && (snd k =? snd k')%Z)%bool then Some v else cacheFind k m' end.
Definition getRadialFunction (table : Z -> d2par) (vdwOverride : Z -> option d2par) (unit1 : d2par) (m : cache) (atomicNumber1 atomicNumber2 sp1 sp2 : Z) : option ((R * R) * cache) :=
  let k := (Z.min atomicNumber1 atomicNumber2, Z.max atomicNumber1 atomicNumber2) in
  match cacheFind k m with
  | Some v => Some (v, m)
  | None =>
    match getParams table vdwOverride atomicNumber1 sp1 unit1, getParams table vdwOverride atomicNumber2 sp2 unit1 with
    | Some p1, Some p2 => let v := (sqrt (p_C6 p1 * p_C6 p2), p_R0 p1 + p_R0 p2) in Some (v, (k, v) :: m)
    | _, _ => None
    end
  end.

(** ** D3 *)
(** matrix as used here: real entries, column-major data (core/matrix.h line 62: index(i,j) = nr*j+i) *)
Record rmatrix := RM { nr : nat; nc : nat; mdata : list R }.
Definition entry (m : rmatrix) (i j : nat) : R := nth (nr m * j + i)%nat (mdata m) 0.
(** trace(transpose(L1) * C6 * L2).real() *)
Definition bilinear (L1 : list R) (m : rmatrix) (L2 : list R) : R :=
  rsum (fun j => rsum (fun i => nth i L1 0 * entry m i j) (seq 0 (nr m)) * nth j L2 0) (seq 0 (nc m)).

(** constants: VanDerWaalsD3_data.h lines 34-38 *)
Definition k1 : R := 16.
Definition k3 : R := 4.
Definition alpha6 : nat := 14.
Definition alpha8 : nat := 16.
(** AtomParams, PairParams: VanDerWaalsD3.h lines 32-46 *)
Record atomParams := AP { ap_Z : Z; sqrtQ : R; k2Rcov : R; CNref : list R; iCNref : list Z }.
Record pairParams := PP { pp_R0 : R; pp_C6 : rmatrix }.
Section Tables.
  (** sqrtQ[], k2Rcov[], C6::Z[], C6::CN[], C6::nCN, C6::coeff[], R0_Angstrom[]*Angstrom *)
  Variables (tabQ tabRcov : Z -> R) (nCN : Z) (tabZ : Z -> Z) (tabCN : Z -> R) (coeff : Z -> R) (tabR0 : Z -> R).
  (** getAtomParams: VanDerWaalsD3.cpp lines 26-39; None is die *)
  Definition getAtomParams (Za : Z) : option atomParams :=
    if ((Za <? 1) || (94 <? Za))%Z%bool then None
    else Some (AP Za (tabQ (Za - 1)%Z) (tabRcov (Za - 1)%Z)
      (map tabCN (filter (fun iCN => (Za =? tabZ iCN)%Z) (zrange 0 nCN))) (filter (fun iCN => (Za =? tabZ iCN)%Z) (zrange 0 nCN))).
  (** index into the coefficients of pairs of reference states: lines 83-85 *)
  Definition iCN12 (iCN1 iCN2 : Z) : Z := let iMin := Z.min iCN1 iCN2 in let iMax := Z.max iCN1 iCN2 in ((iMax * (iMax + 1)) / 2 + iMin)%Z.
  (** getPairParams: lines 71-89; the data of the matrix are written consecutively *)
  Definition getPairParams (ap1 ap2 : atomParams) : pairParams :=
    let iZmin := (Z.min (ap_Z ap1) (ap_Z ap2) - 1)%Z in
    let iZmax := (Z.max (ap_Z ap1) (ap_Z ap2) - 1)%Z in
    let iZ12 := ((iZmax * (iZmax + 1)) / 2 + iZmin)%Z in
    PP (tabR0 iZ12)
       (RM (length (CNref ap1)) (length (CNref ap2))
           (flat_map (fun iCN1 => map (fun iCN2 => coeff (iCN12 iCN1 iCN2)) (iCNref ap2)) (iCNref ap1))).
End Tables.

(** std::max_element(..)-begin: first position of the largest element *)
Fixpoint maxIdx (l : list R) (i best : nat) (vbest : R) : nat :=
  match l with [] => best | v :: l' => if Rlt_dec vbest v then maxIdx l' (S i) i v else maxIdx l' (S i) best vbest end.
Definition max_element (l : list R) : nat := match l with [] => 0%nat | v :: l' => maxIdx l' 1 0 v end.
(** getL: lines 41-68; L and its derivative *)
Definition Lraw (observedCN CNi : R) : R := exp (- k3 * (observedCN - CNi) ^ 2).
Definition Lraw' (observedCN CNi : R) : R := (- 2 * k3) * (observedCN - CNi) * Lraw observedCN CNi.
Definition LsumOf (CN : list R) (observedCN : R) : R := fold_left (fun s CNi => s + Lraw observedCN CNi) CN 0.
Definition LprimeSumOf (CN : list R) (observedCN : R) : R := fold_left (fun s CNi => s + Lraw' observedCN CNi) CN 0.
Definition underflow : R := / 10 ^ 40.
Definition getL (CN : list R) (observedCN : R) : list R * list R :=
  let Lsum := LsumOf CN observedCN in
  let LprimeSum := LprimeSumOf CN observedCN in
  if Rlt_dec Lsum underflow then
    (map (fun i => if (i =? max_element CN)%nat then 1 else 0) (seq 0 (length CN)), map (fun _ => 0) CN)
  else
    let invLsum := 1 / Lsum in
    (map (fun CNi => Lraw observedCN CNi * invLsum) CN,
     map (fun CNi => invLsum * (Lraw' observedCN CNi - (invLsum * LprimeSum) * Lraw observedCN CNi)) CN).

(** vdWpotential: lines 149-162; value and derivative *)
Definition vdWpotential (m alpha : nat) (invr R0 : R) : R * R :=
  let pot := invr ^ m in
  let pot_r := (- INR m) * pot * invr in
  let damp_term := 6 * (R0 * invr) ^ alpha in
  let damp_term_r := (- INR alpha) * damp_term * invr in
  let damp := 1 / (1 + damp_term) in
  let damp_r := - damp_term_r * damp * damp in
  (pot * damp, pot_r * damp + pot * damp_r).
(** vdWpotentialBJ: lines 165-173 *)
Definition vdWpotentialBJ (m : nat) (r R0 a1 a2 : R) : R * R :=
  let subcdamp := a1 * R0 + a2 in
  let cdamp := subcdamp ^ m in
  let rn := r ^ m in
  let E := 1 / (rn + cdamp) in
  (E, - INR m * r ^ (m - 1) * E * E).

Record d3acc := D3A { E12_C6 : R; E12_C8 : R; forces3 : nat -> vec R; E_RRT3 : mat R }.
Record d3tot := D3T { E6 : R; E8 : R; E_CN : nat -> R; forcesT : nat -> vec R; E_RRTT : mat R }.
Section D3.
  Variables (dampBJ : bool) (s6 s8 sr6 sr8 : R).
  Variables (aps : nat -> atomParams) (pps : nat -> nat -> pairParams).
  Variables (n : nat) (sp : nat -> nat) (Rl : mat R) (pos : nat -> vec R).
  Definition rCutCN : R := 50.

  (** computeCN: lines 276-302, on one process *)
  Definition CNcell (c1 c2 : nat) (k2RcovSum : R) (CN : nat -> R) (iR : V3) : nat -> R :=
    let x := sep pos c1 c2 iR in
    let rSq := metric2 (RTR Rl) x in
    if Req_EM_T rSq 0 then CN else if Rle_dec rSq (rCutCN * rCutCN) then
      let r := sqrt rSq in
      let CNterm := cellWeight iR / (1 + exp (- k1 * (k2RcovSum / r - 1))) in
      addAt Rplus (addAt Rplus CN c1 CNterm) c2 CNterm
    else CN.
  Definition CNlocal (cells : list V3) : nat -> R :=
    fold_left (fun CN c1 => fold_left (fun CN c2 =>
      fold_left (CNcell c1 c2 (k2Rcov (aps (sp c1)) + k2Rcov (aps (sp c2)))) cells CN) (seq 0 n) CN) (seq 0 n) (fun _ => 0).
  Definition computeCN (procs : list (list V3)) : nat -> R := fold_left (fun CN cells => fun c => CN c + CNlocal cells c) procs (fun _ => 0).

  (** propagateCNgradient: lines 306-342, on one process; the forces and E_RRT are accumulated *)
  Definition propCell (ECN : nat -> R) (c1 c2 : nat) (k2RcovSum : R) (a : (nat -> vec R) * mat R) (iR : V3) : (nat -> vec R) * mat R :=
    let x := sep pos c1 c2 iR in
    let rSq := metric2 (RTR Rl) x in
    if Req_EM_T rSq 0 then a else if Rle_dec rSq (rCutCN * rCutCN) then
      let r := sqrt rSq in
      let invr := 1 / r in
      let E_CNterm := ECN c1 + ECN c2 in
      let expTerm := exp (- k1 * (k2RcovSum * invr - 1)) in
      let expTerm_r := expTerm * k1 * (k2RcovSum * invr * invr) in
      let E_r_by_r := (- invr * E_CNterm * cellWeight iR * expTerm_r) / (1 + expTerm) ^ 2 in
      let E_x := rvscale E_r_by_r (rmv (RTR Rl) x) in
      let rVec := rmv Rl x in
      (addAt rvadd (addAt rvsub (fst a) c1 E_x) c2 E_x, rmadd (snd a) (rmscale E_r_by_r (Ions_Model.outer rVec rVec)))
    else a.
  Definition propagateCNgradient (cells : list V3) (ECN : nat -> R) (a : (nat -> vec R) * mat R) : (nat -> vec R) * mat R :=
    fold_left (fun a c1 => fold_left (fun a c2 =>
      fold_left (propCell ECN c1 c2 (k2Rcov (aps (sp c1)) + k2Rcov (aps (sp c2)))) cells a) (seq 0 n) a) (seq 0 n) a.

  (** energyAndGrad: the loop over cells, lines 213-243 *)
  Definition terms (r R0 : R) : (R * R) * (R * R) :=
    if dampBJ then (vdWpotentialBJ 6 r R0 sr6 sr8, vdWpotentialBJ 8 r R0 sr6 sr8)
    else (vdWpotential 6 alpha6 (1 / r) (sr6 * R0), vdWpotential 8 alpha8 (1 / r) (sr8 * R0)).
  Definition d3cell (rCut : R) (c1 c2 : nat) (C6 C8 R0 : R) (a : d3acc) (iR : V3) : d3acc :=
    let x := sep pos c1 c2 iR in
    let rSq := metric2 (RTR Rl) x in
    if Req_EM_T rSq 0 then a else if Rle_dec rSq (rCut * rCut) then
      let r := sqrt rSq in
      let w := cellWeight iR in
      let invr := 1 / r in
      let t6 := fst (terms r R0) in let t8 := snd (terms r R0) in
      let E_r_by_r := (- invr * w) * (C6 * s6 * snd t6 + C8 * s8 * snd t8) in
      let E_x := rvscale E_r_by_r (rmv (RTR Rl) x) in
      let rVec := rmv Rl x in
      D3A (E12_C6 a - w * s6 * fst t6) (E12_C8 a - w * s8 * fst t8)
          (addAt rvadd (addAt rvsub (forces3 a) c1 E_x) c2 E_x)
          (rmadd (E_RRT3 a) (rmscale E_r_by_r (Ions_Model.outer rVec rVec)))
    else a.
  (** one pair of atoms: lines 199-251 *)
  Definition ratio8by6 (c1 c2 : nat) : R := 3 * sqrtQ (aps (sp c1)) * sqrtQ (aps (sp c2)).
  Definition Lof (CN : nat -> R) (c : nat) : list R * list R := getL (CNref (aps (sp c))) (CN c).
  Definition C6of (CN : nat -> R) (c1 c2 : nat) : R := bilinear (fst (Lof CN c1)) (pp_C6 (pps (sp c1) (sp c2))) (fst (Lof CN c2)).
  Definition R0of (CN : nat -> R) (c1 c2 : nat) : R :=
    let C6 := C6of CN c1 c2 in let C8 := C6 * ratio8by6 c1 c2 in
    if dampBJ then sqrt (C8 / C6) else pp_R0 (pps (sp c1) (sp c2)).
  Definition d3pair (rCut : R) (CN : nat -> R) (cells : list V3) (c1 : nat) (a : d3tot) (c2 : nat) : d3tot :=
    let m := pp_C6 (pps (sp c1) (sp c2)) in
    let L1 := fst (Lof CN c1) in let L1prime := snd (Lof CN c1) in
    let L2 := fst (Lof CN c2) in let L2prime := snd (Lof CN c2) in
    let ratio := ratio8by6 c1 c2 in
    let C6 := bilinear L1 m L2 in
    let C8 := C6 * ratio in
    let R0 := R0of CN c1 c2 in
    let q := fold_left (d3cell rCut c1 c2 C6 C8 R0) cells (D3A 0 0 (forcesT a) (E_RRTT a)) in
    let E12_C6_tot := E12_C6 q + E12_C8 q * ratio in
    D3T (E6 a + E12_C6 q * C6) (E8 a + E12_C8 q * C8)
        (addAt Rplus (addAt Rplus (E_CN a) c1 (E12_C6_tot * bilinear L1prime m L2)) c2 (E12_C6_tot * bilinear L1 m L2prime))
        (forces3 q) (E_RRT3 q).
  Definition d3local (rCut : R) (CN : nat -> R) (cells : list V3) : d3tot :=
    fold_left (fun a c1 => fold_left (d3pair rCut CN cells c1) (seq 0 n) a) (seq 0 n) (D3T 0 0 (fun _ => 0) (fun _ => vzero) mzero).
  (** lines 177-272: a process has its cells for the energy (first) and for the coordination numbers (second) *)
  Definition energyAndGradD3 (rCut : R) (procs : list (list V3 * list V3)) : R * ((nat -> vec R) * mat R) :=
    let CN := computeCN (map snd procs) in
    let loc := map (fun p => d3local rCut CN (fst p)) procs in
    let E6 := fold_left (fun s l => s + E6 l) loc 0 in
    let E8 := fold_left (fun s l => s + E8 l) loc 0 in
    let ECN := fold_left (fun (s : nat -> R) l => fun c => s c + E_CN l c) loc (fun _ => 0) in
    let fs := map (fun p => let l := d3local rCut CN (fst p) in propagateCNgradient (snd p) ECN (forcesT l, E_RRTT l)) procs in
    (E6 + E8,
     (fold_left (fun (s : nat -> vec R) f => fun c => rvadd (s c) (fst f c)) fs (fun _ => vzero), fold_left (fun s f => rmadd s (snd f)) fs mzero)).
End D3.
