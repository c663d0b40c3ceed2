(** Ewald sums.
    Models /repo/jdftx/core/CoulombPeriodic.cpp lines 26-133 (EwaldPeriodic), /repo/jdftx/core/CoulombSlab.cpp lines 26-178 (EwaldSlab),
    /repo/jdftx/core/CoulombIsolated.cpp lines 30-78 (EwaldIsolated) and /repo/jdftx/core/Coulomb.cpp lines 130-146 (splitEfield), 250-313 (energyAndGrad), 315-325 (getEfieldPotential_sub).
    Real idealisation of double; int is unbounded.  Atoms are numbered 0..n-1, with charges and positions functions of the number.
    The lattice derivative E_RRT is always computed (E_RRTptr non-null); forces and E_RRT are accumulated onto the values passed in.
    EwaldWire (numerically tabulated special functions) is not modelled. *)
From Coq Require Import ZArith Reals List Bool.
From Verif Require Import Base Gauss Grid_Model Vec3_Model Lattice_Model Basis_Model Coulomb_Model WS_Model Ions_Model VdW_Model.
Import ListNotations.
Local Open Scope R_scope.

(** CoulombKernel::nSigmasPerWidth: CoulombKernel.cpp line 28; DBL_EPSILON is 2^-52 *)
Definition nSigmasPerWidth : R := 1 + sqrt (- 2 * ln (/ 2 ^ 52)).
(** lengths of lattice vectors and of reciprocal lattice vectors *)
Definition colLen (Rl : mat R) (k : nat) : R := rlen (mrow (mtrans Rl) k).
Definition rowLen (Rl : mat R) (k : nat) : R := rlen (mrow (gG Rl) k).
(** the three nested loops over -N..N *)
Definition boxLoop (N : V3) : list V3 :=
  flat_map (fun i0 => flat_map (fun i1 => map (fun i2 => (i0, i1, i2)) (zrange (- v2 N) (v2 N + 1))) (zrange (- v1 N) (v1 N + 1))) (zrange (- v0 N) (v0 N + 1)).

(** ** EwaldPeriodic *)
(** constructor: CoulombPeriodic.cpp lines 42-53 *)
Definition sigmaPeriodic (Rl : mat R) (n : nat) : R :=
  Rpower (colLen Rl 0 / rowLen Rl 0 * (colLen Rl 1 / rowLen Rl 1) * (colLen Rl 2 / rowLen Rl 2) / IZR (Z.max 1 (Z.of_nat n))) (1/6).
Definition Nreal1 (Rl : mat R) (sigma : R) (k : nat) : Z := (1 + rceil (nSigmasPerWidth * rowLen Rl k * sigma / (2 * PI)))%Z.
Definition Nrecip1 (Rl : mat R) (sigma : R) (k : nat) : Z := (1 + rceil (nSigmasPerWidth * colLen Rl k / (2 * PI * sigma)))%Z.
Definition NrealP (Rl : mat R) (sigma : R) : V3 := (Nreal1 Rl sigma 0, Nreal1 Rl sigma 1, Nreal1 Rl sigma 2).
Definition NrecipP (Rl : mat R) (sigma : R) : V3 := (Nrecip1 Rl sigma 0, Nrecip1 Rl sigma 1, Nrecip1 Rl sigma 2).

(** a.pos[k] -= floor(0.5 + a.pos[k] - pos0[k]): CoulombPeriodic.cpp lines 79-81 (pos0 = 0), CoulombSlab.cpp lines 81-83 *)
Definition centred1 (x p0 : R) : R := x - IZR (rfloor (1/2 + x - p0)).
Definition centred (p0 x : vec R) : vec R := V (centred1 (c0 x) (c0 p0)) (centred1 (c1 x) (c1 p0)) (centred1 (c2 x) (c2 p0)).
Record acc := Acc { energy : R; force : nat -> vec R; latt : mat R }.

Section Common.
  Variables (Rl : mat R) (sigma : R) (n : nat) (Zc : nat -> R) (pos : nat -> vec R).
  Definition eta : R := sqrt (1/2) / sigma.
  (** one term of the real-space sum: CoulombPeriodic.cpp lines 91-101, CoulombSlab.cpp lines 93-103 *)
  Definition realTerm (c2 c1 : nat) (a : acc) (iR : V3) : acc :=
    let x := sep pos c1 c2 iR in
    let rSq := metric2 (RTR Rl) x in
    if Req_EM_T rSq 0 then a else
    let r := sqrt rSq in
    let m := Zc c1 * Zc c2 * (erfc (eta * r) / r + (2 / sqrt PI) * eta * exp (- (eta * eta) * rSq)) / rSq in
    let rVec := rmv Rl x in
    Acc (energy a + 1/2 * Zc c1 * Zc c2 * erfc (eta * r) / r) (addAt rvadd (force a) c1 (rvscale m (rmv (RTR Rl) x)))
        (rmsub (latt a) (rmscale (1/2 * m) (Ions_Model.outer rVec rVec))).
  (** lines 86-102; 88-104 *)
  Definition realSum (Nreal : V3) (a : acc) : acc :=
    fold_left (fun a c2 => fold_left (fun a c1 => fold_left (realTerm c2 c1) (boxLoop Nreal) a) (seq 0 n) a) (seq 0 n) a.
  Definition ZsqTot : R := fold_left (fun s c => s + Zc c * Zc c) (seq 0 n) 0.
  Definition Ztot : R := fold_left (fun s c => s + Zc c) (seq 0 n) 0.

  (** complex numbers as pairs; cis: scalar.h *)
  Definition cis (x : R) : R * R := (cos x, sin x).
  Definition phase (iG : V3) (c : nat) : R * R := cis (- 2 * PI * rdot (cellVec iG) (pos c)).
  (** structure factor: CoulombPeriodic.cpp lines 113-115 *)
  Definition structureFactor (iG : V3) : R * R :=
    fold_left (fun s c => (fst s + Zc c * fst (phase iG c), snd s + Zc c * snd (phase iG c))) (seq 0 n) (0, 0).
  Definition normC (s : R * R) : R := fst s * fst s + snd s * snd s.
  (** (SG.conj() * z).imag() *)
  Definition imConjMul (s z : R * R) : R := fst s * snd z - snd s * fst z.
  (** lines 110-127 *)
  Definition recipTerm (a : acc) (iG : V3) : acc :=
    let Gsq := metric2 (gGGT Rl) (cellVec iG) in
    if Req_EM_T Gsq 0 then a else
    let SG := structureFactor iG in
    let eG := 4 * PI * exp (- (1/2) * (sigma * sigma) * Gsq) / (Gsq * Rabs (rdet Rl)) in
    let f := fold_left (fun f c => addAt rvsub f c (rvscale (eG * Zc c * 2 * PI * imConjMul SG (phase iG c)) (cellVec iG))) (seq 0 n) (force a) in
    let Gcart := rvm (cellVec iG) (gG Rl) in
    let m := eG * (sigma * sigma + 2 / Gsq) in
    Acc (energy a + 1/2 * eG * normC SG) f
        (rmadd (latt a) (rmscale (1/2 * normC SG) (rmsub (rmscale m (Ions_Model.outer Gcart Gcart)) (rmscale eG rid)))).
  (** energyAndGrad on reduced positions: lines 61-76, 82-131 *)
  Definition ewaldPeriodicAt (Nreal Nrecip : V3) (f : nat -> vec R) (s : mat R) : acc :=
    let e0 := 1/2 * (4 * PI) * (Ztot * Ztot) * (- (1/2) * (sigma * sigma)) / Rabs (rdet Rl) in
    let E := e0 - 1/2 * ZsqTot * eta * (2 / sqrt PI) in
    if Req_EM_T ZsqTot 0 then Acc 0 f s else
    let a := fold_left recipTerm (boxLoop Nrecip) (realSum Nreal (Acc E f (rmscale (- e0) rid))) in
    Acc (energy a) (force a) (rmadd s (latt a)).
End Common.
(** energyAndGrad: CoulombPeriodic.cpp lines 60-132 *)
Definition ewaldPeriodic (Rl : mat R) (sigma : R) (Nreal Nrecip : V3) (n : nat) (Zc : nat -> R) (pos : nat -> vec R) (f : nat -> vec R) (s : mat R) : acc :=
  ewaldPeriodicAt Rl sigma n Zc (fun c => centred (V 0 0 0) (pos c)) Nreal Nrecip f s.

(** ** EwaldSlab *)
(** constructor: CoulombSlab.cpp lines 43-55 *)
Definition sigmaSlab (Rl : mat R) (iDir : nat) : R :=
  let s := fold_left (fun s k => if Nat.eqb k iDir then s else s * (colLen Rl k / rowLen Rl k)) [0; 1; 2]%nat 1 in Rpower (5 * s) (1/4).
Definition NrealS (Rl : mat R) (sigma : R) (iDir : nat) : V3 :=
  let N k := if Nat.eqb k iDir then 0%Z else Nreal1 Rl sigma k in (N 0%nat, N 1%nat, N 2%nat).
Definition NrecipS (Rl : mat R) (sigma : R) (iDir : nat) : V3 :=
  let N k := if Nat.eqb k iDir then 0%Z else Nrecip1 Rl sigma k in (N 0%nat, N 1%nat, N 2%nat).

Definition unit3 (k : nat) (v : R) : vec R := V (if Nat.eqb k 0 then v else 0) (if Nat.eqb k 1 then v else 0) (if Nat.eqb k 2 then v else 0).
Definition comp (v : vec R) (k : nat) : R := match k with O => c0 v | 1%nat => c1 v | _ => c2 v end.
Record pairAcc := PA { E12 : R; E12_r12 : vec R; p_latt : mat R; p_zz : R }.
Section Slab.
  Variables (Rl : mat R) (sigma : R) (iDir : nat) (ionMargin : R) (n : nat) (Zc : nat -> R) (pos : nat -> vec R).
  (** L: line 107 *)
  Definition slabL : R := sqrt (rdot (mrow (mtrans Rl) iDir) (mrow (mtrans Rl) iDir)).
  Definition volPrefac : R := PI * slabL / Rabs (rdet Rl).
  (** value, derivative with respect to z and minus the derivative with respect to G over G: lines 125-144; None: skipped as negligible *)
  Definition zTerms (Gsq z12 : R) : option (R * R * R) :=
    let eta := sqrt (1/2) / sigma in
    let sigmaSq := sigma * sigma in
    if Req_EM_T Gsq 0 then
      let erfz := erf (eta * z12) in
      let gauss := exp (- (eta * eta) * z12 * z12) in
      Some (- z12 * erfz - 1 / (eta * sqrt PI) * gauss, - erfz, 0)
    else
      let G := sqrt Gsq in
      if Rlt_dec 100 (Rabs (G * z12)) then None else
      let expPlus := exp (G * z12) in let expMinus := 1 / expPlus in
      let erfcPlus := erfc (eta * (sigmaSq * G + z12)) in
      let erfcMinus := erfc (eta * (sigmaSq * G - z12)) in
      let zTerm := (1/2 / G) * (expPlus * erfcPlus + expMinus * erfcMinus) in
      let zTermPrime := 1/2 * (expPlus * erfcPlus - expMinus * erfcMinus) in
      Some (zTerm, zTermPrime, (zTerm - z12 * zTermPrime + sigma * sqrt (2 / PI) * exp (- (1/2 * sigmaSq * Gsq + (eta * eta) * z12 * z12))) / Gsq).
  (** lines 123-154 *)
  Definition slabTerm (prefac : R) (r12 : vec R) (z12 : R) (a : pairAcc) (iG : V3) : pairAcc :=
    let arg := 2 * PI * rdot (cellVec iG) r12 in
    let c := cos arg in let s := sin arg in
    match zTerms (metric2 (gGGT Rl) (cellVec iG)) z12 with
    | None => a
    | Some (zTerm, zTermPrime, m) =>
      let Gcart := rvm (cellVec iG) (gG Rl) in
      PA (E12 a + prefac * c * zTerm)
         (rvadd (rvadd (E12_r12 a) (rvscale (prefac * - s * zTerm * (2 * PI)) (cellVec iG))) (unit3 iDir (prefac * c * zTermPrime * slabL)))
         (rmadd (p_latt a) (rmscale (prefac * c * m) (Ions_Model.outer Gcart Gcart)))
         (p_zz a + prefac * c * zTermPrime * z12)
    end.
  (** lines 110-164; E_RRTzz is carried along; None: die *)
  Definition slabPair (Nrecip : V3) (c1 : nat) (o : option (acc * R)) (c2 : nat) : option (acc * R) :=
    match o with
    | None => None
    | Some (a, zz) =>
      let prefac := volPrefac * Zc c1 * Zc c2 * (if Nat.eqb c1 c2 then 1 else 2) in
      let r12 := rvsub (pos c1) (pos c2) in
      let z12 := slabL * comp r12 iDir in
      if Rle_dec (1/2 * slabL - ionMargin) (Rabs z12) then None else
      let p := fold_left (slabTerm prefac r12 z12) (boxLoop Nrecip) (PA 0 (V 0 0 0) (latt a) zz) in
      Some (Acc (energy a + E12 p) (addAt rvadd (addAt rvsub (force a) c1 (E12_r12 p)) c2 (E12_r12 p))
                (rmsub (p_latt p) (rmscale (E12 p) rid)),
            p_zz p + E12 p)
    end.
  (** lines 62-74, 84-175 on reduced positions *)
  Definition ewaldSlabAt (Nreal Nrecip : V3) (f : nat -> vec R) (s : mat R) : option acc :=
    let eta := sqrt (1/2) / sigma in
    let ZZ := ZsqTot n Zc in
    if Req_EM_T ZZ 0 then Some (Acc 0 f s) else
    let a := realSum Rl sigma n Zc pos Nreal (Acc (- (1/2) * ZZ * eta * (2 / sqrt PI)) f (rdiag 0 0 0)) in
    match fold_left (fun o c1 => fold_left (slabPair Nrecip c1) (seq 0 (S c1)) o) (seq 0 n) (Some (a, 0)) with
    | None => None
    | Some (b, zz) =>
      let col := mrow (mtrans Rl) iDir in
      let zHat := rvscale (1 / rlen col) col in
      Some (Acc (energy b) (force b) (rmadd s (rmadd (latt b) (rmscale zz (Ions_Model.outer zHat zHat)))))
    end.
End Slab.
(** energyAndGrad: CoulombSlab.cpp lines 62-178 *)
Definition ewaldSlab (Rl : mat R) (sigma : R) (iDir : nat) (ionMargin : R) (Nreal Nrecip : V3) (n : nat) (Zc : nat -> R) (pos : nat -> vec R) (f : nat -> vec R) (s : mat R) : option acc :=
  if Nat.eqb n 0 then Some (Acc 0 f s)
  else ewaldSlabAt Rl sigma iDir ionMargin n Zc (fun c => centred (unit3 iDir (comp (pos 0%nat) iDir)) (pos c)) Nreal Nrecip f s.

(** ** EwaldIsolated *)
Section Isolated.
  (** Rc: zero for Wigner-Seitz truncation; boundaryDistance and reduce: methods of the Wigner-Seitz cell *)
  Variables (Rl : mat R) (Rc ionMargin : R) (boundaryDistance : vec R -> R) (n : nat) (Zc : nat -> R).
  (** CoulombIsolated.cpp lines 53-73; None: die *)
  Definition isoPair (pos : nat -> vec R) (c1 : nat) (o : option acc) (c2 : nat) : option acc :=
    match o with
    | None => None
    | Some a =>
      let x := rvsub (pos c1) (pos c2) in
      let rSq := metric2 (RTR Rl) x in let r := sqrt rSq in
      if (if Req_EM_T Rc 0 then (if Rle_dec (boundaryDistance x) ionMargin then true else false) else (if Rle_dec (Rc - ionMargin) r then true else false)) then None else
      let dE := (Zc c1 * Zc c2) / r in
      let m := dE / rSq in
      let dF := rvscale m (rmv (RTR Rl) x) in
      let rVec := rmv Rl x in
      Some (Acc (energy a + dE) (addAt rvsub (addAt rvadd (force a) c1 dF) c2 dF) (rmsub (latt a) (rmscale m (Ions_Model.outer rVec rVec))))
    end.
  (** lines 41-77 *)
  Definition ewaldIsolated (reduce : vec R -> vec R) (pos : nat -> vec R) (f : nat -> vec R) (s : mat R) : option acc :=
    let p c := rvadd (pos 0%nat) (reduce (rvsub (pos c) (pos 0%nat))) in
    fold_left (fun o c1 => fold_left (isoPair p c1) (seq 0 c1) o) (seq 0 n) (Some (Acc 0 f s)).
End Isolated.

(** ** Electric field *)
(** splitEfield: Coulomb.cpp lines 130-146 *)
Definition symmThreshold : R := 1 / 10000.
Definition RT_E (thr : R) (Rl : mat R) (E : vec R) (k : nat) : R :=
  let v := comp (rmv (mtrans Rl) E) k in if Rlt_dec (Rabs (v / colLen Rl k)) (rlen E * thr) then 0 else v.
Definition splitEfield (thr : R) (isTrunc : nat -> bool) (Rl : mat R) (E : vec R) : (nat -> R) * (nat -> R) :=
  (fun k => if isTrunc k then RT_E thr Rl E k else 0, fun k => if isTrunc k then 0 else RT_E thr Rl E k).
(** energy of a unit charge: lines 307, 322 *)
Definition fieldTerm (rw : (nat -> R) * (nat -> R)) (x : vec R) (k : nat) : R :=
  fst rw k * comp x k + snd rw k * sin (2 * PI * comp x k) / (2 * PI).
(** lines 299-311 *)
Definition fieldAtom (rw : (nat -> R) * (nat -> R)) (xCenter : vec R) (Zc : nat -> R) (pos : nat -> vec R) (a : R * (nat -> vec R)) (c : nat) : R * (nat -> vec R) :=
  let x := rvsub (pos c) xCenter in
  fold_left (fun a k => (fst a + Zc c * fieldTerm rw x k, addAt rvsub (snd a) c (unit3 k (Zc c * (fst rw k + snd rw k * cos (2 * PI * comp x k)))))) [0; 1; 2]%nat a.
Definition fieldAtoms (rw : (nat -> R) * (nat -> R)) (xCenter : vec R) (n : nat) (Zc : nat -> R) (pos : nat -> vec R) (a : R * (nat -> vec R)) : R * (nat -> vec R) :=
  fold_left (fieldAtom rw xCenter Zc pos) (seq 0 n) a.
(** potential at a mesh point: lines 319-323; reduce: Wigner-Seitz reduction *)
Definition fieldPotential (rw : (nat -> R) * (nat -> R)) (reduce : vec R -> vec R) (xCenter x : vec R) : R :=
  let y := reduce (rvsub x xCenter) in fold_left (fun V k => V - fieldTerm rw y k) [0; 1; 2]%nat 0.
(** energyAndGrad: lines 250-296 with embedding; inRange: check of the margins; inner: energyAndGrad of the Ewald object *)
Definition diag3 (s v : vec R) : vec R := V (c0 s * c0 v) (c1 s * c1 v) (c2 s * c2 v).
Definition inv3 (s : vec R) : vec R := V (1 / c0 s) (1 / c1 s) (1 / c2 s).
Definition embedded (embedScale : vec R) (inRange : vec R -> bool) (reduce : vec R -> vec R) (xCenter : vec R)
  (inner : (nat -> vec R) -> (nat -> vec R) -> option (acc * (nat -> vec R))) (n : nat) (pos f : nat -> vec R) : option (acc * (nat -> vec R)) :=
  let p c := reduce (rvsub (pos c) xCenter) in
  if forallb (fun c => inRange (p c)) (seq 0 n) then
    match inner (fun c => diag3 embedScale (p c)) (fun c => diag3 (inv3 embedScale) (f c)) with
    | None => None
    | Some (a, pos') => Some (Acc (energy a) (fun c => diag3 embedScale (force a c)) (latt a), fun c => rvadd xCenter (diag3 (inv3 embedScale) (pos' c)))
    end
  else None.
(** energyAndGrad with an electric field, after the Ewald object: lines 298-312.  The lattice derivative is left as it is. *)
Definition withField (thr : R) (isTrunc : nat -> bool) (Rl : mat R) (E xCenter : vec R) (n : nat) (Zc : nat -> R) (pos : nat -> vec R) (a : acc) : acc :=
  if Req_EM_T (rlen2 E) 0 then a
  else let r := fieldAtoms (splitEfield thr isTrunc Rl E) xCenter n Zc pos (energy a, force a) in Acc (fst r) (snd r) (latt a).
