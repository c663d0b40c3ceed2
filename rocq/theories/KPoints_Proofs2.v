(** Proofs about reduceKmesh: closed form of the map of k-points. *)
From Coq Require Import ZArith Reals List Lia Lra Bool.
From Verif Require Import Base WorkDiv_Model WorkDiv_Proofs Vec3_Model Vec3_Facts KPoints_Model KPoints_Spec KPoints_Proofs.
Import ListNotations.
Open Scope Z_scope.

Definition lmin (l : list Z) : Z := fold_left Z.min l kmapNone.
Lemma fold_min_acc l a : fold_left Z.min l a = Z.min a (lmin l) \/ kmapNone < a.
Proof.
  destruct (Z_lt_le_dec kmapNone a); [auto|left]. unfold lmin.
  assert (G : forall l a b, a <= b -> fold_left Z.min l a = Z.min a (fold_left Z.min l b)).
  { clear. induction l as [|x l IH]; intros a b H; cbn; [lia|]. rewrite (IH (Z.min a x) (Z.min b x)) by lia.
    assert (fold_left Z.min l (Z.min b x) <= Z.min b x).
    { clear. generalize (Z.min b x) as y. clear. induction l as [|z l IH]; intros y; cbn; [lia|]. specialize (IH (Z.min y z)). lia. }
    lia. }
  apply G; auto.
Qed.
Lemma lmin_app l1 l2 : lmin (l1 ++ l2) = Z.min (lmin l1) (lmin l2).
Proof.
  unfold lmin at 1. rewrite fold_left_app. fold (lmin l1).
  assert (lmin l1 <= kmapNone). { unfold lmin. generalize kmapNone. induction l1 as [|z l IH]; intros y; cbn; [lia|]. specialize (IH (Z.min y z)). lia. }
  destruct (fold_min_acc l2 (lmin l1)); [auto|lia].
Qed.
Lemma lmin_le l x : In x l -> lmin l <= x.
Proof.
  intros H. apply in_split in H as (l1&l2&->). rewrite lmin_app. change (x :: l2) with ([x] ++ l2). rewrite lmin_app.
  unfold lmin at 2. cbn. lia.
Qed.
Lemma lmin_in l : In (lmin l) l \/ lmin l = kmapNone.
Proof.
  unfold lmin. generalize kmapNone. induction l as [|x l IH]; intros a; cbn; auto.
  destruct (IH (Z.min a x)) as [H|H]; auto. rewrite H. destruct (Z.min_spec a x) as [(_&->)|(_&->)]; auto.
Qed.

Lemma upd_map (f : nat -> Z) n i e :
  upd (map f (seq 0 n)) i e = map (fun d => if Nat.eqb d i then Z.min (f d) e else f d) (seq 0 n).
Proof.
  unfold upd. rewrite map_length, seq_length. generalize 0%nat as s. induction n as [|n IH]; intros s; cbn; auto. f_equal. apply IH.
Qed.

Section Reduce.
  Variable find : vec R -> option nat.
  Variable sym : list (mat Z).
  Variable useInv : bool.
  Variable qs : list qnum.
  Notation n := (List.length qs).

  (** entries proposed for destination d by a list of trips *)
  Definition dest (t : Z * bool * Z) : option nat :=
    let '(iSrc,neg,iSym) := t in
    match nth_error qs (Z.to_nat iSrc), nth_error sym (Z.to_nat iSym) with
    | Some q, Some rot => find (kimage neg rot (q_k q))
    | _, _ => None
    end.
  Definition packT (t : Z * bool * Z) : Z := let '(iSrc,neg,iSym) := t in kmapPack iSrc neg iSym.
  Definition hits (d : nat) (l : list (Z * bool * Z)) : list Z :=
    map packT (filter (fun t => match dest t with Some j => Nat.eqb j d | None => false end) l).
  Lemma hits_app d a b : hits d (a ++ b) = hits d a ++ hits d b.
  Proof. unfold hits. rewrite filter_app, map_app. reflexivity. Qed.

  Lemma kmap_step_map (f : nat -> Z) t :
    kmap_step find sym qs (map f (seq 0 n)) t =
    map (fun d => match dest t with Some j => if Nat.eqb d j then Z.min (f d) (packT t) else f d | None => f d end) (seq 0 n).
  Proof.
    unfold kmap_step, dest, packT. destruct t as [[iSrc neg] iSym].
    destruct (nth_error qs _); [|reflexivity]. destruct (nth_error sym _); [|reflexivity].
    destruct (find _); [|reflexivity]. rewrite upd_map. reflexivity.
  Qed.
  Lemma kmap_fold_map l (f : nat -> Z) :
    fold_left (kmap_step find sym qs) l (map f (seq 0 n)) = map (fun d => fold_left Z.min (hits d l) (f d)) (seq 0 n).
  Proof.
    revert f. induction l as [|t l IH]; intros f; cbn [fold_left].
    - apply map_ext. reflexivity.
    - rewrite kmap_step_map, IH. apply map_ext. intros d. unfold hits. cbn [filter].
      destruct (dest t) as [j|]; auto. rewrite (Nat.eqb_sym d j). destruct (Nat.eqb j d); reflexivity.
  Qed.
  Lemma repeat_map (c : Z) s k : repeat c k = map (fun _ => c) (seq s k).
  Proof. revert s. induction k; intros s; cbn; auto. f_equal. apply IHk. Qed.
  Lemma kmap_proc_eq a b : kmap_proc find sym useInv qs a b = map (fun d => lmin (hits d (kmap_trips sym useInv a b))) (seq 0 n).
  Proof. unfold kmap_proc. rewrite (repeat_map kmapNone 0), kmap_fold_map. reflexivity. Qed.

  Lemma zip_min_map (f g : nat -> Z) k s : zip_min (map f (seq s k)) (map g (seq s k)) = map (fun d => Z.min (f d) (g d)) (seq s k).
  Proof. unfold zip_min. revert s. induction k; intros s; cbn; auto. f_equal. apply IHk. Qed.
  Lemma trips_app a b c : a <= b <= c -> kmap_trips sym useInv a c = kmap_trips sym useInv a b ++ kmap_trips sym useInv b c.
  Proof. intros H. unfold kmap_trips. rewrite <- (zrange_app a b c) by auto. rewrite flat_map_app. reflexivity. Qed.

  Lemma kmap_all_eq nProcs : 0 < nProcs ->
    kmap_all find sym useInv qs nProcs = map (fun d => lmin (hits d (kmap_trips sym useInv 0 (Z.of_nat n)))) (seq 0 n).
  Proof.
    intros Hp. unfold kmap_all. set (arr := stopArr (Z.of_nat n) nProcs).
    assert (G : forall ps (f : nat -> Z), (forall d, f d <= kmapNone) ->
      fold_left zip_min (map (fun p => kmap_proc find sym useInv qs (td_start arr p) (td_stop arr p)) ps) (map f (seq 0 n)) =
      map (fun d => Z.min (f d) (lmin (hits d (flat_map (fun p => kmap_trips sym useInv (td_start arr p) (td_stop arr p)) ps)))) (seq 0 n)).
    { induction ps as [|p ps IH]; intros f Hf; cbn [map fold_left flat_map].
      - apply map_ext. intros d. unfold lmin, hits. cbn. specialize (Hf d). lia.
      - rewrite kmap_proc_eq, zip_min_map, IH.
        + apply map_ext. intros d. rewrite hits_app, lmin_app. lia.
        + intros d. specialize (Hf d). lia. }
    rewrite (repeat_map kmapNone 0), G by (intros; lia). apply map_ext. intros d.
    assert (E : flat_map (fun p => kmap_trips sym useInv (td_start arr p) (td_stop arr p)) (zrange 0 nProcs) = kmap_trips sym useInv 0 (Z.of_nat n)).
    { unfold kmap_trips. rewrite <- (td_partition (Z.of_nat n) nProcs) by lia. fold arr.
      induction (zrange 0 nProcs) as [|p ps IH]; cbn; auto. rewrite flat_map_app, IH. reflexivity. }
    rewrite E. assert (lmin (hits d (kmap_trips sym useInv 0 (Z.of_nat n))) <= kmapNone); [|lia].
    unfold lmin. generalize kmapNone, (hits d (kmap_trips sym useInv 0 (Z.of_nat n))). intros y l. revert y. induction l as [|z l IH]; intros y; cbn; [lia|]. specialize (IH (Z.min y z)). lia.
  Qed.

  Lemma kmap_procs_irrelevant nProcs : 0 < nProcs -> reduceKmesh find sym useInv qs nProcs = reduceKmesh find sym useInv qs 1.
  Proof. intros H. unfold reduceKmesh. rewrite !kmap_all_eq by lia. reflexivity. Qed.
End Reduce.

(** ** Packing *)
Lemma pack_unpack s neg i : 0 <= s -> 0 <= i < 2^31 -> kmapUnpack (kmapPack s neg i) = (s,neg,i).
Proof.
  intros Hs Hi. unfold kmapUnpack, kmapPack. set (b := if neg then 2^31 else 0).
  assert (Hb : b = 0 \/ b = 2^31) by (unfold b; destruct neg; auto).
  assert (E1 : (s * 2^32 + b + i) / 2^32 = s).
  { symmetry. apply Z.div_unique with (b + i); [|ring]. left. change (2^32) with (2*2^31). destruct Hb; lia. }
  assert (E3 : (s * 2^32 + b + i) mod 2^31 = i).
  { symmetry. apply Z.mod_unique with (s*2 + (if neg then 1 else 0)); [lia|]. change (2^32) with (2*2^31). unfold b. destruct neg; ring. }
  assert (E2 : Z.testbit (s * 2^32 + b + i) 31 = neg).
  { assert (T := Z.testbit_spec' (s*2^32 + b + i) 31 ltac:(lia)).
    assert (D : (s * 2^32 + b + i) / 2^31 = s*2 + (if neg then 1 else 0)).
    { symmetry. apply Z.div_unique with i; [lia|]. change (2^32) with (2*2^31). unfold b. destruct neg; ring. }
    rewrite D, (Z.add_comm (s*2)), Z.mod_add in T by lia. destruct neg, (Z.testbit _ _); cbn in T; try reflexivity; discriminate. }
  rewrite E1, E2, E3. reflexivity.
Qed.
Lemma pack_src_le s neg i s' neg' i' : 0 <= i < 2^31 -> 0 <= i' < 2^31 -> kmapPack s neg i <= kmapPack s' neg' i' -> s <= s'.
Proof.
  intros Hi Hi'. unfold kmapPack. change (2^32) with (2*2^31). set (P := 2^31) in *. assert (HP : 0 < P) by reflexivity. clearbody P.
  intros H. assert (s * (2*P) < (s'+1) * (2*P)); [|nia].
  destruct neg, neg'; lia.
Qed.
