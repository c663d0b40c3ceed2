(** Model of TetrahedralDOS::weldEigenvalues (C44): jdftx/electronic/TetrahedralDOS.cpp 119-139.
    Doubles are idealised to real numbers; the array of eigenvalues is a list. *)
From Coq Require Import Reals List.
Import ListNotations.
Open Scope R_scope.

(** 122: std::multimap insertion, after the entries with equal keys *)
Fixpoint mmInsert (p : R * nat) (l : list (R * nat)) : list (R * nat) :=
  match l with
  | [] => [p]
  | q :: l' => if Rlt_dec (fst p) (fst q) then p :: l else q :: mmInsert p l'
  end.
(** 120-122 *)
Fixpoint number (i : nat) (eigs : list R) : list (R * nat) := match eigs with [] => [] | e :: l => (e, i) :: number (S i) l end.
Definition eigMap (eigs : list R) : list (R * nat) := fold_left (fun m p => mmInsert p m) (number 0 eigs) [].
(** 124-130: the entries after i that belong to its cluster, and the rest *)
Fixpoint clusterEnd (Etol ePrev : R) (l : list (R * nat)) : list (R * nat) * list (R * nat) :=
  match l with
  | [] => ([], [])
  | q :: l' => if Rle_dec (fst q) (ePrev + Etol) then let (c, r) := clusterEnd Etol (fst q) l' in (q :: c, r) else ([], l)
  end.
(** eigs[i] = v *)
Fixpoint setEig (l : list R) (i : nat) (v : R) : list R :=
  match l, i with
  | [], _ => []
  | _ :: l', O => v :: l'
  | a :: l', S i' => a :: setEig l' i' v
  end.
(** 132-134 *)
Definition clusterMean (c : list (R * nat)) : R := fold_left (fun s k => s + fst k) c 0 / INR (List.length c).
(** 123-138; the fuel is the number of entries *)
Fixpoint weldLoop (fuel : nat) (Etol : R) (l : list (R * nat)) (eigs : list R) : option (list R) :=
  match l with
  | [] => Some eigs
  | i :: l' => match fuel with
    | O => None
    | S f => let (c, r) := clusterEnd Etol (fst i) l' in
             let eMean := clusterMean (i :: c) in
             weldLoop f Etol r (fold_left (fun es k => setEig es (snd k) eMean) (i :: c) eigs)
    end
  end.
Definition weldEigenvalues (Etol : R) (eigs : list R) : option (list R) := weldLoop (List.length eigs) Etol (eigMap eigs) eigs.
