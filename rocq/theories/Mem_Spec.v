(** What an allocator and a usage report should guarantee. *)
From Coq Require Import ZArith List Bool String Permutation.
From Verif Require Import Mem_Model.
Import ListNotations.
Open Scope Z_scope.

(** Blocks (address, size) that share no byte and have different addresses. *)
Definition apart (a b : Z * Z) : Prop := fst a <> fst b /\ (fst a + snd a <= fst b \/ fst b + snd b <= fst a).
(** The underlying allocator hands out memory apart from all that is live. *)
Definition allocator_ok (raw : World -> Z -> option Z) : Prop :=
  forall w size p, 0 <= size -> raw w size = Some p -> forall b, In b (w_live w) -> apart (p, size) b.
Fixpoint bytes (l : list (Z * Z)) : Z := match l with [] => 0 | b :: l' => snd b + bytes l' end.
Definition cached (m : MC) : list (Z * Z) := map (fun e => (snd e, fst e)) (cache m).

(** Blocks in use and blocks in the cache are exactly the live ones, all apart, with correct totals. *)
Record consistent (m : MC) : Prop := {
  co_live : Permutation (w_live (world m)) (allocated m ++ cached m);
  co_apart : ForallOrdPairs apart (w_live (world m));
  co_size : forall b, In b (w_live (world m)) -> 0 <= snd b;
  co_alloc : allocatedTot m = bytes (allocated m);
  co_cache : cacheTot m = bytes (cached m);
  co_all : overallTot m = bytes (w_live (world m)) /\ overallTot m = allocatedTot m + cacheTot m }.

(** *** Usage reports *)
Definition delta (c : string) (e : Event) : Z :=
  match e with Add c' n => if String.eqb c' c then n else 0 | Remove c' n => if String.eqb c' c then - n else 0 end.
Definition delta_total (e : Event) : Z := match e with Add _ n => n | Remove _ n => - n end.
Fixpoint zsum (l : list Z) : Z := match l with [] => 0 | x :: l' => x + zsum l' end.
(** bytes in use after the first k events *)
Definition used (d : Event -> Z) (k : nat) (evs : list Event) : Z := zsum (map d (firstn k evs)).
(** p is the maximum over time of the bytes in use *)
Definition is_peak (d : Event -> Z) (evs : list Event) (p : Z) : Prop :=
  (forall k, used d k evs <= p) /\ exists k, p = used d k evs.
Definition sizes_ok (evs : list Event) : Prop := forall e, In e evs -> match e with Add _ n | Remove _ n => 0 <= n end.
Definition cat_of (e : Event) : string := match e with Add c _ | Remove c _ => c end.

(** *** Objects *)
(** address of the block in use by object i, if it has any bytes *)
Definition holds (s : Sys) (i : nat) (cap : Z) : Prop := 0 < ob_n (sy_obj s i) /\ In (ob_c (sy_obj s i), cap) (allocated (sy_mc s)).
Definition sizes (P : Z -> Prop) (ops : list ObjOp) : Prop := forall i c n g, In (Init i c n g) ops -> P n.
Definition touches (o : ObjOp) (i : nat) : Prop := match o with Init j _ _ _ | Release j => i = j | Move j k => i = j \/ i = k end.
(** bytes of objects 0..N-1 in a category *)
Definition in_category (c : string) (s : Sys) (i : nat) : Z := if String.eqb (ob_cat (sy_obj s i)) c then ob_n (sy_obj s i) else 0.
Definition category_bytes (c : string) (s : Sys) (N : nat) : Z := zsum (map (in_category c s) (seq 0 N)).
Definition total_bytes (s : Sys) (N : nat) : Z := zsum (map (fun i => ob_n (sy_obj s i)) (seq 0 N)).
