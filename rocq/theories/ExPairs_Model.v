(** Pairs of k-points and distribution of bands in the exact exchange.
    Models /repo/jdftx/electronic/ExactExchange.cpp lines 264-322 (transforms of the k-mesh), 367-384 (pairs and costs), 390-422 (division of the bands among processes)
    and 459-506 (messages that redistribute the wavefunctions).
    int and size_t are unbounded, double is idealised to the real numbers; vectors are lists. *)
From Coq Require Import ZArith Reals List Bool Arith.
From Verif Require Import Base Vec3_Model.
Import ListNotations.

(** ** Pair transforms *)
(** lines 266-272 *)
Record Ktransform := KT { kt_sym : SpaceGroupOp; kt_invert : Z; kt_multiplicity : nat }.
Definition meqb (a b : mat Z) : bool :=
  ((m00 a =? m00 b) && (m01 a =? m01 b) && (m02 a =? m02 b) && (m10 a =? m10 b) && (m11 a =? m11 b) && (m12 a =? m12 b) && (m20 a =? m20 b) && (m21 a =? m21 b) && (m22 a =? m22 b))%Z.
Definition kt_eqb (thr : R) (a b : Ktransform) : bool :=
  if negb (kt_invert a =? kt_invert b)%Z then false
  else if negb (meqb (sg_rot (kt_sym a)) (sg_rot (kt_sym b))) then false
  else if Rlt_dec (circDistanceSquared (sg_a (kt_sym a)) (sg_a (kt_sym b))) (thr * thr)%R then true else false.
(** lines 287-291 *)
Definition netTransform (ki kj : Ktransform) : Ktransform := KT (sgo_mul (kt_sym ki) (sgo_inv (kt_sym kj))) (kt_invert ki * kt_invert kj) 1.
(** lines 292-303: the second component counts new entries *)
Fixpoint addTransform (thr : R) (kt : Ktransform) (l : list Ktransform) : list Ktransform * nat :=
  match l with
  | [] => ([kt], 1%nat)
  | p :: l' => if kt_eqb thr p kt then (KT (kt_sym p) (kt_invert p) (S (kt_multiplicity p)) :: l', 0%nat) else let r := addTransform thr kt l' in (p :: fst r, snd r)
  end.
(** lines 278-307, with the transforms chosen for each mesh point: [mesh] lists the reduced index and the chosen transform; [transforms iq jq] *)
Definition table := nat -> nat -> list Ktransform.
Definition setTable (t : table) (i j : nat) (l : list Ktransform) : table := fun i' j' => if (i' =? i)%nat && (j' =? j)%nat then l else t i' j'.
Definition scoreStep (thr : R) (a : table * nat) (p : (nat * Ktransform) * (nat * Ktransform)) : table * nat :=
  let '((iq, ki), (jq, kj)) := p in
  let r := addTransform thr (netTransform ki kj) (fst a iq jq) in
  (setTable (fst a) iq jq (fst r), (snd a + snd r)%nat).
Definition score (thr : R) (mesh : list (nat * Ktransform)) : table * nat :=
  fold_left (scoreStep thr) (flat_map (fun p => map (pair p) mesh) mesh) (fun _ _ => [], 0%nat).
(** lines 311-322: the candidates of a mesh point *)
Definition candidates (thr : R) (sym : list SpaceGroupOp) (invertList : list Z) (kq kmesh : vec R) : list Ktransform :=
  flat_map (fun inv => flat_map (fun op => if Rlt_dec (circDistanceSquared (rvscale (IZR inv) (applyRecip op kq)) kmesh) (thr * thr)%R then [KT op inv 0] else []) sym) invertList.
(** lines 374-378 *)
Definition pairK (kq : vec R) (kt : Ktransform) : vec R := rvscale (IZR (kt_invert kt)) (applyRecip (kt_sym kt) kq).
Definition pairWeight (spinWeight : R) (nMesh : nat) (kt : Ktransform) : R := (spinWeight * (/ (INR nMesh * INR nMesh)) * INR (kt_multiplicity kt))%R.
(** line 383 *)
Definition jCost (qCount : nat) (t : table) (jq : nat) : nat := fold_left (fun s iq => (s + length (t iq jq))%nat) (seq 0 qCount) 0%nat.

(** ** Division of the bands *)
(** lines 394-401: cumulative costs *)
Definition jCostPrev (nBands : nat) (cost : list nat) : list nat :=
  fold_left (fun l c => l ++ [last l 0 + c])%nat (flat_map (fun c => repeat c nBands) cost) [0]%nat.
(** std::lower_bound on a sorted range: position of the first element not less than x *)
Fixpoint lowerBound (l : list nat) (x : nat) : nat := match l with [] => 0%nat | y :: l' => if (x <=? y)%nat then 0%nat else S (lowerBound l' x) end.
(** lines 403-409 *)
Definition startIndex (nProcs nBands : nat) (cost : list nat) (jProc : nat) : nat :=
  let p := jCostPrev nBands cost in lowerBound p (jProc * last p 0 / nProcs)%nat.
Definition iqStart (nProcs nBands : nat) (cost : list nat) (jProc : nat) : nat := (startIndex nProcs nBands cost jProc / nBands)%nat.
Definition bStart (nProcs nBands : nat) (cost : list nat) (jProc : nat) : nat := (startIndex nProcs nBands cost jProc - iqStart nProcs nBands cost jProc * nBands)%nat.
(** lines 414-421 *)
Record LocalState := LS { ls_iq : nat; ls_bStart : nat; ls_bStop : nat }.
Definition localStates (nBands iq0 b0 iq1 b1 : nat) : list LocalState :=
  let nLocal := (iq1 - iq0 + (if (b1 =? 0)%nat then 0 else 1))%nat in
  map (fun iLocal => let iq := (iq0 + iLocal)%nat in LS iq (if (iq =? iq0)%nat then b0 else 0%nat) (if (iq =? iq1)%nat then b1 else nBands)) (seq 0 nLocal).
Definition statesOf (nProcs nBands : nat) (cost : list nat) (jProc : nat) : list LocalState :=
  localStates nBands (iqStart nProcs nBands cost jProc) (bStart nProcs nBands cost jProc) (iqStart nProcs nBands cost (S jProc)) (bStart nProcs nBands cost (S jProc)).

(** ** Messages *)
(** the quantities transferred, with state, first band and the other process *)
Inductive item := ItemC | ItemF | ItemE.
Inductive message := Send (what : item) (iq b dest : nat) | Recv (what : item) (iq b src : nat).
(** requests are slots: requests.push_back appends an empty one, and a non-blocking operation writes its handle to the slot it is given (&requests.back()) *)
Record comm := CM { posted : list message; slots : list (option message) }.
Definition pushBack (c : comm) : comm := CM (posted c) (slots c ++ [None]).
Definition atBack (m : message) (c : comm) : comm := CM (posted c ++ [m]) (removelast (slots c) ++ [Some m]).
(** lines 461-505 on the process [me]; [whose] is the owner of a state; rpa as in rpaMode *)
Definition exchangeOne (me : nat) (whose : nat -> nat) (rpa : bool) (c : comm) (p : nat * LocalState) : comm :=
  let '(jProc, ls) := p in let iq := ls_iq ls in let b := ls_bStart ls in
  if (jProc =? me)%nat then
    if (whose iq =? me)%nat then c else
    let c := atBack (Recv ItemC iq b (whose iq)) (pushBack c) in
    let c := atBack (Recv ItemF iq b (whose iq)) (pushBack c) in
    if rpa then atBack (Recv ItemE iq b (whose iq)) (pushBack c) else c
  else if (whose iq =? me)%nat then
    let c := atBack (Send ItemC iq b jProc) (pushBack c) in
    let c := atBack (Send ItemF iq b jProc) c in
    if rpa then atBack (Send ItemE iq b jProc) c else c
  else c.
Definition redistribute (me : nat) (whose : nat -> nat) (rpa : bool) (chunks : list (nat * LocalState)) : comm := fold_left (exchangeOne me whose rpa) chunks (CM [] []).
(** line 506: waitAll completes the operations whose handles are in the slots *)
Definition waited (c : comm) : list message := flat_map (fun s => match s with Some m => [m] | None => [] end) (slots c).
