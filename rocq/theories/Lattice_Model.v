(** Lattice-vector reduction and periodic point lookup.
    Models /repo/jdftx/core/LatticeUtils.cpp lines 28-68 and /repo/jdftx/core/LatticeUtils.h lines 89-156.
    Doubles are idealised as real numbers; the integer transformation matrices are unbounded integers.
    The global [symmThreshold] (settable by a command) is the argument [thr];
    [symmThresholdSq] is its square (LatticeUtils.cpp line 29 and the symmetry-threshold command). *)
From Coq Require Import ZArith Reals List.
From Verif Require Import Base Vec3_Model.
Import ListNotations.

(** floor() of a double, and round() (half away from zero), followed by conversion to int *)
Definition rfloor (x : R) : Z := Int_part x.
Definition rround (x : R) : Z :=
  if Rle_dec 0 x then rfloor (x + 1/2)%R else (- rfloor (- x + 1/2))%Z.

(** ** reduceMatrix<double>, LatticeUtils.cpp lines 32-63 *)
Record rstate := RS { rs_R : mat R; rs_t : mat Z; rs_tInv : mat Z }.
(** d(k2,k1)=i, d(k3,k1)=j on top of the identity: lines 44-46 *)
Definition red_d (k1 : nat) (i j : Z) : mat Z :=
  let k2 := Nat.modulo (k1+1) 3 in let k3 := Nat.modulo (k1+2) 3 in
  mset (mset zid k2 k1 i) k3 k1 j.
(** the body of the innermost loop: lines 43-56 *)
Definition red_try (thr : R) (acc : rstate * bool) (kij : nat * Z * Z) : rstate * bool :=
  let '(k1,i,j) := kij in
  let '(st,changed) := acc in
  let d := red_d k1 i j in
  let dInv := red_d k1 (-i) (-j) in
  let Rproposed := rmm (rs_R st) (mIZR d) in
  if Rlt_dec (rnrm2 Rproposed) (rnrm2 (rs_R st) - thr)
  then (RS Rproposed (zmm (rs_t st) d) (zmm dInv (rs_tInv st)), true)
  else acc.
(** the order of the loops on k1, i and j: lines 38-42 *)
Definition red_moves : list (nat * Z * Z) :=
  flat_map (fun k1 => flat_map (fun i => map (fun j => (k1,i,j)) [-1;0;1]%Z) [-1;0;1]%Z) [0;1;2]%nat.
Definition red_sweep (thr : R) (st : rstate) : rstate * bool :=
  fold_left (red_try thr) red_moves (st,false).
(** while(true) { ...; if(!changed) break; }: lines 36-59; [None] only if the fuel runs out *)
Fixpoint red_loop (fuel : nat) (thr : R) (st : rstate) : option rstate :=
  match fuel with
  | O => None
  | S fuel' => let '(st',changed) := red_sweep thr st in
               if changed then red_loop fuel' thr st' else Some st'
  end.
Definition reduceMatrix (fuel : nat) (thr : R) (Rlat : mat R) : option rstate :=
  red_loop fuel thr (RS Rlat zid zid).

(** ** PeriodicLookup, LatticeUtils.h lines 94-156
    [lk_S] is the member S, [lk_idx] the member indices (one list of point numbers per mesh cell).
    The template argument T enters only through getCoord, so [points] is the list of coordinates.
    [None] = access outside the vector [indices] (undefined behaviour in the code). *)
Record lookup := LK { lk_S : vec Z; lk_idx : list (list nat) }.
(** wrap to [0,S): lines 101-102 *)
Definition wrap_cell (S iv : Z) : Z :=
  let iv1 := if (iv <? 0)%Z then (iv + S)%Z else iv in
  if (S <=? iv1)%Z then (iv1 - S)%Z else iv1.
Definition meshIndex (S iv : vec Z) : Z :=
  let i0 := wrap_cell (c0 S) (c0 iv) in
  let i1 := wrap_cell (c1 S) (c1 iv) in
  let i2 := wrap_cell (c2 S) (c2 iv) in
  (i0 + c0 S * (i1 + c1 S * i2))%Z.
(** indices[i], indices[i].push_back(p) *)
Definition idx_get (idx : list (list nat)) (i : Z) : option (list nat) :=
  if (i <? 0)%Z then None else nth_error idx (Z.to_nat i).
Fixpoint push_at (idx : list (list nat)) (i : nat) (p : nat) : option (list (list nat)) :=
  match idx, i with
  | [], _ => None
  | l :: idx', O => Some ((l ++ [p]) :: idx')
  | l :: idx', S i' => match push_at idx' i' p with None => None | Some r => Some (l :: r) end
  end.
Definition idx_push (idx : list (list nat)) (i : Z) (p : nat) : option (list (list nat)) :=
  if (i <? 0)%Z then None else push_at idx (Z.to_nat i) p.
(** v[k] -= floor(v[k]): lines 130, 142 *)
Definition frac (x : R) : R := (x - IZR (rfloor x))%R.
(** iv[k] = int(floor(v[k]*S[k] + 0.5)): line 131 *)
Definition cell1 (S : Z) (x : R) : Z := rfloor (x * IZR S + 1/2)%R.
(** addPoint: lines 126-134 *)
Definition addPoint (lk : lookup) (iPoint : nat) (p : vec R) : option lookup :=
  let iv := V (cell1 (c0 (lk_S lk)) (frac (c0 p))) (cell1 (c1 (lk_S lk)) (frac (c1 p)))
              (cell1 (c2 (lk_S lk)) (frac (c2 p))) in
  match idx_push (lk_idx lk) (meshIndex (lk_S lk) iv) iPoint with
  | None => None
  | Some idx => Some (LK (lk_S lk) idx)
  end.
Fixpoint addPoints (lk : lookup) (iPoint : nat) (ps : list (vec R)) : option lookup :=
  match ps with
  | [] => Some lk
  | p :: ps' => match addPoint lk iPoint p with None => None | Some lk' => addPoints lk' (S iPoint) ps' end
  end.
(** pow(x, 1./3) for x >= 0 *)
Definition cbrt (x : R) : R := if Req_EM_T x 0 then 0%R else Rpower x (1/3)%R.
(** the sample counts: lines 112-115 *)
Definition sampleCount (metric : mat R) (nPoints : nat) : vec Z :=
  let s0 := sqrt (m00 metric) in let s1 := sqrt (m11 metric) in let s2 := sqrt (m22 metric) in
  let f := cbrt (INR nPoints / (s0*s1*s2))%R in
  V (Z.max 1 (rround (s0*f)%R)) (Z.max 1 (rround (s1*f)%R)) (Z.max 1 (rround (s2*f)%R)).
(** the constructor: lines 110-122; [Rejected] is the assertion failure of line 116 *)
Inductive outcome (A : Type) := Done (a : A) | AssertFails | OutOfRange.
Arguments Done {A} _. Arguments AssertFails {A}. Arguments OutOfRange {A}.
Definition mkLookup (thr : R) (points : list (vec R)) (metric : mat R) (nTarget : nat) : outcome lookup :=
  let S := sampleCount metric (Nat.max (List.length points) nTarget) in
  let small k := Rlt_dec (thr * IZR k)%R (1/2)%R in
  if small (c0 S) then if small (c1 S) then if small (c2 S) then
    match addPoints (LK S (repeat [] (Z.to_nat (c0 S * c1 S * c2 S)))) 0 points with
    | None => OutOfRange
    | Some lk => Done lk
    end
  else AssertFails else AssertFails else AssertFails.
(** the first point of a cell that matches: lines 150-153; [tagOK] is the optional test on the tag array *)
Fixpoint find_in (thr : R) (points : list (vec R)) (tagOK : nat -> bool) (v : vec R) (l : list nat) : option nat :=
  match l with
  | [] => None
  | i :: l' => match nth_error points i with
               | Some p => if Rlt_dec (circDistanceSquared v p) (thr*thr)%R
                           then if tagOK i then Some i else find_in thr points tagOK v l'
                           else find_in thr points tagOK v l'
               | None => find_in thr points tagOK v l'
               end
  end.
(** the cells in the order of the loops of lines 147-149 *)
Definition cells_of (thr : R) (S : vec Z) (v : vec R) : list (vec Z) :=
  let lo s x := cell1 s (x - thr)%R in let hi s x := cell1 s (x + thr)%R in
  flat_map (fun i0 => flat_map (fun i1 => map (fun i2 => V i0 i1 i2)
     (zrange (lo (c2 S) (c2 v)) (hi (c2 S) (c2 v) + 1)))
     (zrange (lo (c1 S) (c1 v)) (hi (c1 S) (c1 v) + 1)))
     (zrange (lo (c0 S) (c0 v)) (hi (c0 S) (c0 v) + 1)).
Fixpoint find_cells (thr : R) (points : list (vec R)) (tagOK : nat -> bool) (lk : lookup) (v : vec R)
  (cells : list (vec Z)) : outcome (option nat) :=
  match cells with
  | [] => Done None
  | iv :: cells' =>
      match idx_get (lk_idx lk) (meshIndex (lk_S lk) iv) with
      | None => OutOfRange
      | Some l => match find_in thr points tagOK v l with
                  | Some i => Done (Some i)
                  | None => find_cells thr points tagOK lk v cells'
                  end
      end
  end.
(** find: lines 139-155 ([None] = string::npos) *)
Definition lookup_find (thr : R) (points : list (vec R)) (tagOK : nat -> bool) (lk : lookup) (v : vec R)
  : outcome (option nat) :=
  let v' := V (frac (c0 v)) (frac (c1 v)) (frac (c2 v)) in
  find_cells thr points tagOK lk v' (cells_of thr (lk_S lk) v').
