(** Force matrices of phonons: symmetrization, cell map, first moment, Brillouin zone quadrature and free energies.
    Models /repo/jdftx/phonon/Phonon.cpp lines 79-102 (remapping), 117-121 (omegaSq), 175-214 (free energies), 230-245 (getCell, getUnit), 248-303 (quadrature),
    372-434 (dgradSymmetrize), 437-529 (forceMatrixGammaPrimeFix) and 532-556 (forceMatrixHermCheck).
    Doubles are idealised as reals, int is unbounded.  A mode is a number m with atom m/3 and direction m mod 3 (modes are generated in the order species, atom, direction);
    the forces dgrad[iMode][sp][iCell*nAtomsSp+jAtom][jDir] are d iMode iCell jMode.  A std::vector parallel to the cell map is a function of the cell. *)
From Coq Require Import ZArith Reals List Bool Arith.
From Coquelicot Require Import Coquelicot.
From Verif Require Import Base Vec3_Model Ions_Model MatFun_Model.
Import ListNotations.
Local Open Scope R_scope.

(** ** Cells of the supercell *)
Definition sup3 : Type := nat * nat * nat.
(** loops over cells of the supercell, last index fastest: lines 396-400, 402-406 *)
Definition supCells (s : sup3) : list sup3 := let '(s0, s1, s2) := s in list_prod (list_prod (seq 0 s0) (seq 0 s1)) (seq 0 s2).
Definition prodSup (s : sup3) : nat := let '(s0, s1, s2) := s in (s0 * s1 * s2)%nat.
(** getCell: lines 230-236 *)
Definition getCell (s : sup3) (unit : nat) : sup3 :=
  let '(s0, s1, s2) := s in
  let c2 := (unit mod s2)%nat in let u := (unit / s2)%nat in
  let c1 := (u mod s1)%nat in let u := (u / s1)%nat in (u, c1, c2).
(** positiveRemainder (Util.h) and getUnit: lines 238-243; also lines 87-89 *)
Definition posRem (x : Z) (n : nat) : nat := Z.to_nat (x mod Z.of_nat n).
Definition wrapCell (s : sup3) (c : vec Z) : sup3 := let '(s0, s1, s2) := s in (posRem (c0 c) s0, posRem (c1 c) s1, posRem (c2 c) s2).
Definition getUnit (s : sup3) (c : vec Z) : nat := let '(s0, s1, s2) := s in ((posRem (c0 c) s0 * s1 + posRem (c1 c) s1) * s2 + posRem (c2 c) s2)%nat.

(** ** Refinement in reciprocal space *)
Definition csumOn {A} (l : list A) (f : A -> C) : C := fold_left (fun s x => Cplus s (f x)) l (RtoC 0).
Definition rsumOn {A} (l : list A) (f : A -> R) : R := fold_left (fun s x => s + f x) l 0.
(** matrix products of the given size *)
Definition nmul (n : nat) (A B : nat -> nat -> C) : nat -> nat -> C := fun i j => csumOn (seq 0 n) (fun k => Cmult (A i k) (B k j)).
(** cis(dot(ik, xR_2pi)): lines 391-407 *)
Definition phase (s R k : sup3) : C :=
  let '(s0, s1, s2) := s in let '(R0, R1, R2) := R in let '(k0, k1, k2) := k in
  ccis (INR k0 * ((2 * PI) * (INR R0 / INR s0)) + INR k1 * ((2 * PI) * (INR R1 / INR s1)) + INR k2 * ((2 * PI) * (INR R2 / INR s2))).
(** proj = (1/nAtoms) mask mask^dagger: lines 424-429 *)
Definition projTrans (nAtoms m1 m2 : nat) : R := if (m1 mod 3 =? m2 mod 3)%nat then 1 / INR nAtoms else 0.
Definition cproj (nAtoms m1 m2 : nat) : C := RtoC (projTrans nAtoms m1 m2).
Definition isGamma (k : sup3) : bool := let '(k0, k1, k2) := k in ((k0 =? 0) && (k1 =? 0) && (k2 =? 0))%nat.
(** dgradSymmetrize: lines 372-433; column-major F(iMode*nModes+jMode) reshaped to nModes x nModes has row jMode and column iMode *)
Definition forwardF (nModes : nat) (s : sup3) (d : nat -> sup3 -> nat -> R) (k : sup3) : nat -> nat -> C :=
  fun j i => csumOn (supCells s) (fun R => Cmult (RtoC (d i R j)) (phase s R k)).
Definition correctK (nModes nAtoms : nat) (k : sup3) (Fk : nat -> nat -> C) : nat -> nat -> C :=
  let Fk := fun a b => Cmult (RtoC (1/2)) (Cplus (Cconj (Fk b a)) (Fk a b)) in
  if isGamma k then
    let p := cproj nAtoms in
    let pF := nmul nModes p Fk in let Fp := nmul nModes Fk p in
    fun a b => Cplus (Fk a b) (Cminus (Cminus (nmul nModes pF p a b) (Fp a b)) (pF a b))
  else Fk.
Definition dgradSymmetrize (nAtoms : nat) (s : sup3) (d : nat -> sup3 -> nat -> R) : nat -> sup3 -> nat -> R :=
  let nModes := (3 * nAtoms)%nat in
  fun i R j => Re (Cmult (csumOn (supCells s) (fun k => Cmult (correctK nModes nAtoms k (forwardF nModes s d k) j i) (Cconj (phase s R k)))) (RtoC (1 / INR (prodSup s)))).

(** ** Cell map: the cells and weight(iAtom,jAtom) of each *)
Definition fmatrix : Type := vec Z -> nat -> nat -> R.
(** lines 79-102 *)
Definition remap (s : sup3) (weight : fmatrix) (d : nat -> sup3 -> nat -> R) : fmatrix :=
  fun c m1 m2 => weight c (m1 / 3)%nat (m2 / 3)%nat * d m1 (wrapCell s c) m2.

Section GammaPrime.
  Variables (cells : list (vec Z)) (weight : fmatrix) (Rl : mat R) (xAtoms : nat -> vec R) (nAtoms nSup : nat) (isTruncated : nat -> bool).
  Definition vacc {A} (l : list A) (f : A -> vec R) : vec R := fold_left (fun s x => rvadd s (f x)) l (V 0 0 0).
  Definition macc {A} (l : list A) (f : A -> mat R) : mat R := fold_left (fun s x => rmadd s (f x)) l (M 0 0 0 0 0 0 0 0 0).
  Definition atomPairs : list (nat * nat) := list_prod (seq 0 nAtoms) (seq 0 nAtoms).
  (** line 452 *)
  Definition drAtoms (c : vec Z) (i j : nat) : vec R := rmv Rl (rvsub (rvadd (vIZR c) (xAtoms j)) (xAtoms i)).
  (** lines 442-463 *)
  Definition gammaErr (F : fmatrix) (a b : nat) : vec R :=
    vacc cells (fun c => vacc atomPairs (fun p => rvscale (F c (3 * fst p + a)%nat (3 * snd p + b)%nat) (drAtoms c (fst p) (snd p)))).
  Definition firstMoment (i j : nat) : vec R := vacc cells (fun c => rvscale (weight c i j) (drAtoms c i j)).
  Definition secondMoment : mat R := macc cells (fun c => macc atomPairs (fun p => rmscale (weight c (fst p) (snd p)) (Ions_Model.outer (drAtoms c (fst p) (snd p)) (drAtoms c (fst p) (snd p))))).
  (** lines 464-484 *)
  Definition nAtomsInv : R := 1 / INR nAtoms.
  Definition rowMean (i : nat) : vec R := vacc (seq 0 nAtoms) (fun j => rvscale nAtomsInv (firstMoment i j)).
  Definition colMean (j : nat) : vec R := vacc (seq 0 nAtoms) (fun i => rvscale nAtomsInv (firstMoment i j)).
  Definition allMean : vec R := vacc (seq 0 nAtoms) (fun i => vacc (seq 0 nAtoms) (fun j => rvscale nAtomsInv (rvscale nAtomsInv (firstMoment i j)))).
  Definition transShift (i j : nat) : vec R := rvscale (1 / INR nSup) (rvsub (rvsub allMean (rowMean i)) (colMean j)).
  Definition transMoment : mat R := macc atomPairs (fun p => Ions_Model.outer (firstMoment (fst p) (snd p)) (transShift (fst p) (snd p))).
  (** lines 485-490 *)
  Definition alphaInv : mat R :=
    fold_left (fun m iDir => if isTruncated iDir then mset m iDir iDir 1 else m) (seq 0 3) (rmadd secondMoment transMoment).
  (** lines 491-496; None: inverse of a singular matrix *)
  Definition corrTensor (F : fmatrix) : option (nat -> nat -> vec R) :=
    if Req_EM_T (rdet alphaInv) 0 then None else Some (fun a b => rvopp (rmv (rinv alphaInv) (gammaErr F a b))).
  (** lines 497-513 *)
  Definition dFmat (g : nat -> nat -> vec R) : fmatrix :=
    fun c m1 m2 => weight c (m1 / 3)%nat (m2 / 3)%nat * rdot (drAtoms c (m1 / 3) (m2 / 3)) (g (m1 mod 3) (m2 mod 3))%nat.
  Definition dFsum (g : nat -> nat -> vec R) (m1 m2 : nat) : R := rsumOn cells (fun c => dFmat g c m1 m2).
  (** lines 514-520 *)
  Definition rmulN (A B : nat -> nat -> R) : nat -> nat -> R := fun i j => rsumOn (seq 0 (3 * nAtoms)) (fun k => A i k * B k j).
  Definition dF0mat (g : nat -> nat -> vec R) : nat -> nat -> R :=
    let p := projTrans nAtoms in let S := dFsum g in
    fun m1 m2 => 1 / INR nSup * (rmulN (rmulN p S) p m1 m2 - rmulN S p m1 m2 - rmulN p S m1 m2).
  (** the corrected force matrix: lines 511 and 521-536 *)
  Definition gammaPrimeFix (F : fmatrix) : option fmatrix :=
    match corrTensor F with
    | None => None
    | Some g => Some (fun c m1 m2 => F c m1 m2 + dFmat g c m1 m2 + dF0mat g m1 m2 * weight c (m1 / 3)%nat (m2 / 3)%nat)
    end.
  (** forceMatrixHermCheck, lines 541-553: the number of cells paired with their opposite, in the order of the map *)
  Definition hermCount : nat :=
    fold_left (fun n i => fold_left (fun n j =>
      let ci := nth i cells (V 0 0 0)%Z in let cj := nth j cells (V 0 0 0)%Z in
      let r := zvadd ci cj in
      if ((c0 r * c0 r + c1 r * c1 r + c2 r * c2 r =? 0)%Z && (i <=? j)%nat) then (n + (if (i =? j)%nat then 1 else 2))%nat else n)
      (seq 0 (length cells)) n) (seq 0 (length cells)) 0%nat.
End GammaPrime.

(** division by the square roots of the masses: lines 112-121 *)
Definition omegaSqOf (invsqrtM : nat -> R) (F : fmatrix) : fmatrix := fun c m1 m2 => invsqrtM m1 * F c m1 m2 * invsqrtM m2.
(** omegaSq at a wavevector: lines 178-183, with the phase of a lattice vector; real and imaginary parts *)
Definition omegaSqAt (cells : list (vec Z)) (W : fmatrix) (q : vec R) (m1 m2 : nat) : C :=
  csumOn cells (fun c => Cmult (ccis (2 * PI * rdot (vIZR c) q)) (RtoC (W c m1 m2))).

(** ** Brillouin zone quadrature *)
(** abscissae and weights by |i|: lines 253-255 (index N-|i|) *)
Definition gaussX (i : Z) : R :=
  match Z.abs i with
  | 3%Z => 949107912342758524526189684047851 / 10^33
  | 2%Z => 741531185599394439863864773280788 / 10^33
  | 1%Z => 405845151377397166906606412076961 / 10^33
  | _ => 0
  end.
Definition gaussW (i : Z) : R :=
  match Z.abs i with
  | 3%Z => 129484966168869693270611432679082 / 10^33
  | 2%Z => 279705391489276667901467771423780 / 10^33
  | 1%Z => 381830050505118944950369775488975 / 10^33
  | _ => 417959183673469387755102040816327 / 10^33
  end.
(** LOOP, ABSCISSA and WEIGHT: lines 259-261 *)
Definition dimRange (N : nat) (dim : bool) : list Z := if dim then map (fun k => (Z.of_nat k - Z.of_nat N)%Z) (seq 0 (2 * N + 1)) else [0%Z].
Definition abscissa (h : R) (g : R) (dim : bool) (i : Z) : R := g + (if dim then h * gaussX i * (if (0 <? i)%Z then 1 else -1) else 0).
Definition gweight (h : R) (dim : bool) (i : Z) : R := if dim then h * gaussW i else 1.
(** addQuadratureBZ_box: lines 250-280 *)
Definition quadBox (scale : R) (g : vec R) (d0 d1 d2 : bool) : list (vec R * R) :=
  let h := (1/2) * scale in
  map (fun i => (V (abscissa h (c0 g) d0 (fst (fst i))) (abscissa h (c1 g) d1 (snd (fst i))) (abscissa h (c2 g) d2 (snd i)),
                 gweight h d0 (fst (fst i)) * gweight h d1 (snd (fst i)) * gweight h d2 (snd i)))
    (list_prod (list_prod (dimRange 3 d0) (dimRange 3 d1)) (dimRange 3 d2)).
(** addQuadratureBZ_scale: lines 283-292 *)
Definition quadScale (scale : R) (d0 d1 d2 : bool) : list (vec R * R) :=
  flat_map (fun i => let '(a, b, c) := i in
      if ((a * a + b * b + c * c =? 0)%Z) then [] else quadBox (scale / 3) (V (scale / 3 * IZR a) (scale / 3 * IZR b) (scale / 3 * IZR c)) d0 d1 d2)
    (list_prod (list_prod (dimRange 1 d0) (dimRange 1 d1)) (dimRange 1 d2)).
(** getQuadratureBZ: lines 293-303; None if the loop over scales does not end within the fuel *)
Fixpoint quadLoop (fuel : nat) (scale : R) (d0 d1 d2 : bool) : option (list (vec R * R)) :=
  match fuel with
  | O => None
  | S f => if Rlt_dec (1 / 1000) scale then
             match quadLoop f (scale / 3) d0 d1 d2 with None => None | Some l => Some (quadScale scale d0 d1 d2 ++ l) end
           else Some []
  end.
Definition quadratureBZ (fuel : nat) (t0 t1 t2 : bool) : option (list (vec R * R)) := quadLoop fuel 1 (negb t0) (negb t1) (negb t2).

(** ** Free energies: lines 196-205, one wavevector of weight w *)
Record vib := Vib { ZPE : R; Evib : R; Avib : R }.
Definition vibAdd (T w : R) (a : vib) (omegaSqEig : R) : vib :=
  if Rle_dec omegaSqEig 0 then a else
  let omega := sqrt omegaSqEig in
  let expM := exp (- omega / T) in
  Vib (ZPE a + w * ((1/2) * omega)) (Evib a + w * ((1/2) * omega + omega * expM / (1 - expM))) (Avib a + w * ((1/2) * omega + T * ln (1 - expM))).
Definition vibAll (T : R) (points : list (R * list R)) : vib :=
  fold_left (fun a p => fold_left (vibAdd T (fst p)) (snd p) a) points (Vib 0 0 0).
(** ** Warning about imaginary frequencies: lines 174-175, 187-194 and 215-220, on one process; points: |k|^2, k and the eigenvalues in ascending order *)
Definition imagStep (st : R * R * Z) (ik : nat) (p : R * vec R * list R) : R * R * Z :=
  let '(kSqMaxIm, omegaSqMin, ikMin) := st in
  let e0 := nth 0 (snd p) 0 in
  if Rle_dec e0 0 then
    let kSqMaxIm := Rmax kSqMaxIm (fst (fst p)) in
    if Rlt_dec e0 omegaSqMin then (kSqMaxIm, e0, Z.of_nat ik) else (kSqMaxIm, omegaSqMin, ikMin)
  else st.
Definition imagScan (points : list (R * vec R * list R)) : R * R * Z :=
  fold_left (fun st ip => imagStep st (fst ip) (snd ip)) (combine (seq 0 (length points)) points) (0, 0, (-1)%Z).
Inductive warning := NoWarning | Strongest (kMax omegaMax : R) (k : vec R) | OutOfRange.
Definition imagWarning (points : list (R * vec R * list R)) : warning :=
  let '(kSqMaxIm, omegaSqMin, ikMin) := imagScan points in
  if Req_EM_T kSqMaxIm 0 then NoWarning else
  if (ikMin <? 0)%Z then OutOfRange else
  match nth_error points (Z.to_nat ikMin) with None => OutOfRange | Some p => Strongest (sqrt kSqMaxIm) (sqrt (- omegaSqMin)) (snd (fst p)) end.
