(** Ionic and lattice degrees of freedom.
    Models /repo/jdftx/electronic/SpeciesInfo.cpp lines 42-68 and 93-101, IonicMinimizer.cpp lines 84-187, 189-203, 271-282, 311-323, 344-401,
    LatticeMinimizer.cpp lines 67-81, 117-130, 140-175, 238-259, IonicDynamics.cpp lines 103-125, 177-182, 258-291 and
    Vibrations.cpp lines 82-107.
    Real idealisation of double.  An IonicGradient is a function of species and atom, with the numbers of atoms taken from the list of
    constraints.  The electronic state (wavefunction drag and orthonormalization) is not modelled. *)
From Coq Require Import String ZArith Reals Bool List.
From Verif Require Import Base SMap Vec3_Model Lattice_Model Sym_Model.
Import ListNotations.
Local Open Scope R_scope.

(** SpeciesInfo.h lines 60-70 *)
Inductive ctype := CNone | CLinear | CPlanar | CHyperPlane.
Record constraint := Constraint { moveScale : R; cdir : vec R; ctyp : ctype; hyperplane : list (vec R * string) }.
(** truth value of a double: "not moveScale" *)
Definition isZero (x : R) : bool := if Req_EM_T x 0 then true else false.
(** SpeciesInfo.cpp lines 94-101 *)
Definition applyC (c : constraint) (grad : vec R) : vec R :=
  if isZero (moveScale c) then V 0 0 0
  else match ctyp c with
       | CLinear => rvscale (/ rlen2 (cdir c)) (rvscale (rdot grad (cdir c)) (cdir c))
       | CPlanar => rvsub grad (rvscale (/ rlen2 (cdir c)) (rvscale (rdot grad (cdir c)) (cdir c)))
       | _ => grad
       end.
(** lines 61-68 *)
Definition getDimension (c : constraint) : nat :=
  if isZero (moveScale c) then 0%nat else match ctyp c with CLinear => 1%nat | CPlanar => 2%nat | _ => 3%nat end.
(** lines 42-59 *)
Definition rlength (v : vec R) : R := sqrt (rlen2 v).
Definition Rltb (x y : R) : bool := if Rlt_dec x y then true else false.
Definition isParallel (thr : R) (x y : vec R) : bool := Rltb (Rabs (1 - Rabs (rdot x y / (rlength x * rlength y)))) thr.
Definition areBothZero (thrSq : R) (x y : vec R) : bool := Rltb (rlength x) thrSq && Rltb (rlength y) thrSq.
Definition areBothNonZero (thrSq : R) (x y : vec R) : bool := Rltb thrSq (rlength x) && Rltb thrSq (rlength y).
Definition ctyp_eqb (a b : ctype) : bool :=
  match a, b with CNone, CNone | CLinear, CLinear | CPlanar, CPlanar | CHyperPlane, CHyperPlane => true | _, _ => false end.
Definition isEquivalent (thr : R) (c c' : constraint) (transform : mat R) : bool :=
  if negb (isZero (moveScale c - moveScale c')) then false
  else if negb (ctyp_eqb (ctyp c) (ctyp c')) then false
  else ctyp_eqb (ctyp c) CNone || areBothZero (thr * thr) (cdir c) (cdir c')
       || (areBothNonZero (thr * thr) (cdir c) (cdir c') && isParallel thr (rmv transform (cdir c)) (cdir c')).

(** *** IonicGradient *)
Definition grad := nat -> nat -> vec R.
Definition csys := list (list constraint).
Definition nSpecies (cs : csys) : nat := length cs.
Definition nAtoms (cs : csys) (sp : nat) : nat := length (nth sp cs []).
Definition cons_at (cs : csys) (sp at_ : nat) : constraint := nth at_ (nth sp cs []) (Constraint 1 (V 0 0 0) CNone []).
(** order of the nested loops over species and atoms *)
Definition atoms (cs : csys) : list (nat * nat) := flat_map (fun sp => map (fun a => (sp, a)) (seq 0 (nAtoms cs sp))) (seq 0 (nSpecies cs)).
(** lines 84-99, 132-150, 164-170 *)
Definition gaxpy (alpha : R) (x y : grad) : grad := fun sp a => rvadd (y sp a) (rvscale alpha (x sp a)).
Definition gdotI (cs : csys) (x y : grad) : R := fold_left (fun result i => result + rdot (x (fst i) (snd i)) (y (fst i) (snd i))) (atoms cs) 0.
Definition gmat (m : mat R) (x : grad) : grad := fun sp a => rmv m (x sp a).
Definition gscaleI (s : R) (x : grad) : grad := fun sp a => rvscale s (x sp a).
Definition gzero : grad := fun _ _ => V 0 0 0.
Definition gset (x : grad) (sp a : nat) (v : vec R) : grad := fun sp' a' => if Nat.eqb sp' sp && Nat.eqb a' a then v else x sp' a'.

(** IonicMinimizer::IonicMinimizer lines 175-186; extPot: e.iInfo.ionicGaussianPotentials.size() is not 0 *)
Definition anyConstrained (cs : csys) (extPot : bool) : bool :=
  existsb (fun sp => existsb (fun c => Nat.ltb (getDimension c) 3 || ctyp_eqb (ctyp c) CHyperPlane) sp) cs || extPot.

(** SymmetrizeCartesian: lines 346-350; rmv of the transpose is the contravariant conversion *)
Definition symCart (Rl : mat R) (sym : list SpaceGroupOp) (atomMap : nat -> nat -> nat -> nat) (x : grad) : grad :=
  let x := gmat (mtrans Rl) x in
  let x : grad := fun sp => symmetrizeForces sym (atomMap sp) (x sp) in
  gmat (mtrans (rinv Rl)) x.
(** lines 353-358 *)
Definition perAtom (cs : csys) (x : grad) : grad := fun sp a => applyC (cons_at cs sp a) (x sp a).
(** lines 362-377 *)
Definition hyperplanes (cs : csys) : @smap grad :=
  fold_left (fun m i =>
    let c := cons_at cs (fst i) (snd i) in
    match ctyp c with
    | CHyperPlane => fold_left (fun m entry => update (snd entry) gzero (fun D => gset D (fst i) (snd i) (fst entry)) m) (hyperplane c) m
    | _ => m
    end) (atoms cs) [].
(** lines 378-383 *)
Definition thresholdD : R := 1 / 10000000000.
Definition applyPlane (cs : csys) (x D : grad) : grad :=
  let Dsq := gdotI cs D D in
  if Rlt_dec thresholdD Dsq then gaxpy 1 (gscaleI (- gdotI cs D x / Dsq) D) x else x.
Definition applyPlanes (cs : csys) (x : grad) : grad := fold_left (applyPlane cs) (map snd (hyperplanes cs)) x.
(** lines 385-397 *)
Definition gsumI (cs : csys) (x : grad) : vec R := fold_left (fun s i => rvadd s (x (fst i) (snd i))) (atoms cs) (V 0 0 0).
Definition zeroMean (cs : csys) (x : grad) : grad :=
  let xMean := rvscale (1 / INR (length (atoms cs))) (gsumI cs x) in fun sp a => rvsub (x sp a) xMean.
(** constrain: lines 344-401 *)
Definition constrain (Rl : mat R) (sym : list SpaceGroupOp) (atomMap : nat -> nat -> nat -> nat) (cs : csys) (extPot : bool) (x : grad) : grad :=
  let x := symCart Rl sym atomMap x in
  let x := perAtom cs x in
  let x := applyPlanes cs x in
  let x := if anyConstrained cs extPot then x else zeroMean cs x in
  symCart Rl sym atomMap x.

(** *** Trial steps *)
(** IonicMinimizer::step: lines 203, 271-282 *)
Definition ionicStep (invR : mat R) (dir : grad) (alpha : R) (atpos : grad) : grad :=
  let dpos := gmat (rmscale alpha invR) dir in
  if isZero alpha then atpos else gaxpy 1 dpos atpos.
(** state changed by LatticeMinimizer::step: lattice vectors, strain, positions in lattice coordinates *)
Record lstate := LState { lR : mat R; lstrain : mat R; lpos : grad }.
(** LatticeMinimizer::step: lines 141-143, 152, 168-175; gInfo.invR is inv(gInfo.R) after every gInfo.update() *)
Definition latticeStep (ionicOnly : bool) (Rorig : mat R) (dirIonic : grad) (dirLattice : mat R) (alpha : R) (s : lstate) : lstate :=
  let pos := ionicStep (rinv (lR s)) dirIonic alpha (lpos s) in
  if ionicOnly then LState (lR s) (lstrain s) pos
  else let R' := rmm (rmadd rid (rmscale alpha dirLattice)) (lR s) in
       LState R' (rmsub (rmm R' (rinv Rorig)) rid) pos.
(** column and outer product: core/matrix3.h lines 40 and 170-176 *)
Definition mcol (m : mat R) (k : nat) : vec R := match k with O => col0 m | 1%nat => col1 m | _ => col2 m end.
Definition outer (a b : vec R) : mat R :=
  M (c0 a * c0 b) (c0 a * c1 b) (c0 a * c2 b) (c1 a * c0 b) (c1 a * c1 b) (c1 a * c2 b) (c2 a * c0 b) (c2 a * c1 b) (c2 a * c2 b).
(** Pfree: lines 117-130; fixed k: lattMoveScale is zero or the direction is truncated *)
Definition fixStep (Rorig : mat R) (st : list (vec R) * mat R) (k : nat) : list (vec R) * mat R :=
  let '(vFixed, Pfree) := st in
  let vk := mcol Rorig k in
  let vk := fold_left (fun vk vPrev => rvsub vk (rvscale (rdot vPrev vk) vPrev)) vFixed vk in
  let vk := rvscale (1 / rlength vk) vk in
  ((vFixed ++ [vk])%list, rmsub Pfree (outer vk vk)).
Definition PfreeOf (Rorig : mat R) (fixed : nat -> bool) : list (vec R) * mat R :=
  fold_left (fun st k => if fixed k then fixStep Rorig st k else st) [0;1;2]%nat ([], rid).
(** the lattice part of constrain: lines 242-247 *)
Definition constrainLattice (Rl : mat R) (sym : list SpaceGroupOp) (Pfree : mat R) (isotropic : bool) (m : mat R) : mat R :=
  let m := rmscale (1/2) (rmadd m (mtrans m)) in
  let m := rmm (rmm Pfree m) Pfree in
  let m := symmetrizeTensor Rl sym m in
  if isotropic then rmscale (rtrace m / rtrace Pfree) Pfree else m.
(** safeStepSize, lattice criterion: lines 252-255; None: the loop has not ended within the fuel *)
Definition maxAllowedStrain : R := 35 / 100.
Definition mnrm2 (m : mat R) : R := sqrt (rnrm2sq m).
Fixpoint halve (fuel : nat) (strain dir : mat R) (alpha : R) : option R :=
  if Rlt_dec maxAllowedStrain (mnrm2 (rmadd strain (rmscale alpha dir))) then
    match fuel with O => None | S fuel' => halve fuel' strain dir (alpha * (1/2)) end
  else Some alpha.
Definition safeStepLattice (fuel : nat) (strain dir : mat R) : option R :=
  let alphaMaxLattice := 1/2 * maxAllowedStrain / mnrm2 dir in
  if Rlt_dec (mnrm2 strain) maxAllowedStrain then halve fuel strain dir alphaMaxLattice else Some alphaMaxLattice.

(** *** Dynamics without thermostat *)
(** acceleration from forces in lattice coordinates: IonicMinimizer::compute lines 309, 313-322 in dynamics mode, before constrain; mass in atomic units *)
Definition accelOf (cs : csys) (mass : nat -> R) (invR : mat R) (forces : grad) : grad :=
  fun sp a => rvscale (if isZero (moveScale (cons_at cs sp a)) then 0 else -1 / mass sp) (rmv (rmscale (-1) (mtrans invR)) (forces sp a)).
Record mdstate := MD { md_pos : grad; md_vel : grad; md_acc : grad }.
(** one iteration of IonicDynamics::run, lines 271-282 with accelV = 0; positions and velocities are in lattice coordinates *)
Definition mdStep (Rl : mat R) (C : grad -> grad) (accel : grad -> grad) (dt : R) (s : mdstate) : mdstate :=
  let vel := C (gmat Rl (md_vel s)) in
  let vel := gaxpy (1/2 * dt) (md_acc s) vel in
  let pos := ionicStep (rinv Rl) vel dt (md_pos s) in
  let acc := accel pos in
  let vel := gaxpy (1/2 * dt) acc vel in
  MD pos (gmat (rinv Rl) vel) acc.
(** lines 263, 265-283; the first thermostat(getVelocities()) stores the constrained velocities *)
Definition mdRun (Rl : mat R) (C : grad -> grad) (accel : grad -> grad) (dt : R) (nSteps : nat) (pos vel : grad) : mdstate :=
  Nat.iter nSteps (mdStep Rl C accel dt) (MD pos (gmat (rinv Rl) (C (gmat Rl vel))) (accel pos)).
(** accumulated density at one point, lines 262 and 285-289: ns are the densities after each step *)
Fixpoint nAccumLoop (dt : R) (iter : nat) (nAccum : R) (ns : list R) : R :=
  match ns with
  | [] => nAccum
  | n :: l =>
    let t := INR iter * dt in
    let fracNew := dt / (t + dt) in
    nAccumLoop dt (S iter) (nAccum + fracNew * (n - nAccum)) l
  end.

(** *** Vibrations: directions of motion of an atom, Vibrations.cpp lines 82-107.  None: die, or a division by zero *)
Definition unit_of (v : vec R) : option (vec R) := if Req_EM_T (rlength v) 0 then None else Some (rvscale (/ rlength v) v).
Definition modesOf (c : constraint) : option (list (vec R)) :=
  if isZero (moveScale c) then Some []
  else match ctyp c with
  | CNone => Some [V 1 0 0; V 0 1 0; V 0 0 1]
  | CPlanar =>
    let d := cdir c in
    let a := if Rlt_dec (Rabs (c0 d)) (Rabs (c1 d)) then V 1 0 0 else V 0 0 1 in
    let a := rvsub a (rvscale (rdot d a / rlen2 d) d) in
    let b := rcross d a in
    match unit_of a, unit_of b with Some a', Some b' => Some [a'; b'] | _, _ => None end
  | CLinear => match unit_of (cdir c) with Some a => Some [a] | None => None end
  | CHyperPlane => None
  end.
