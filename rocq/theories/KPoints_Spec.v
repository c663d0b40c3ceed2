(** What k-point folding and reduction are required to do. *)
From Coq Require Import ZArith Reals List.
From Verif Require Import Vec3_Model KPoints_Model.
Import ListNotations.
Open Scope R_scope.

Fixpoint total (l : list R) : R := match l with [] => 0 | x :: l' => x + total l' end.
(** equality modulo integers *)
Definition cong1 (x y : R) : Prop := exists n : Z, x - y = IZR n.
Definition congV (a b : vec R) : Prop := cong1 (c0 a) (c0 b) /\ cong1 (c1 a) (c1 b) /\ cong1 (c2 a) (c2 b).
(** component-wise product with the folding *)
Definition timesV (n : vec Z) (k : vec R) : vec R := V (IZR (c0 n) * c0 k) (IZR (c1 n) * c1 k) (IZR (c2 n) * c2 k).
Definition centred (x : R) : Prop := -(1/2) < x <= 1/2.

(** [b] is the complete list of n0*n1*n2 k-points equivalent to [q] under folding *)
Record folded (n : vec Z) (q : qnum) (b : list qnum) : Prop := {
  fd_count : Z.of_nat (List.length b) = (c0 n * c1 n * c2 n)%Z;
  fd_weight : total (map q_w b) = q_w q;
  fd_equal_weights : forall p p', In p b -> In p' b -> q_w p = q_w p';
  fd_spin : forall p, In p b -> q_spin p = q_spin q;
  fd_centred : forall p, In p b -> centred (c0 (q_k p)) /\ centred (c1 (q_k p)) /\ centred (c2 (q_k p));
  fd_multiple : forall p, In p b -> congV (timesV n (q_k p)) (q_k q);
  fd_complete : forall k, congV (timesV n k) (q_k q) -> exists p, In p b /\ congV (q_k p) k;
  fd_distinct : ForallOrdPairs (fun p p' => ~ congV (q_k p) (q_k p')) b
}.

(** electrons that a k-point of weight 1 can hold per band: two without spin or in both spin channels together, one for spinors *)
Definition per_kpoint (st : SpinType) : R := match st with SpinNone | SpinZ => 2 | SpinVector | SpinOrbit => 1 end.
Definition channels (st : SpinType) : nat := match st with SpinZ => 2 | SpinNone | SpinVector | SpinOrbit => 1 end.

(** the group of operations k -> +/- k*rot *)
Definition closed_under_products (sym : list (mat Z)) : Prop := forall a b, In a sym -> In b sym -> In (zmm a b) sym.
Definition closed_under_inverse (sym : list (mat Z)) : Prop :=
  forall a, In a sym -> exists b, In b sym /\ zmm a b = zid /\ zmm b a = zid.
Definition is_group (sym : list (mat Z)) : Prop :=
  In zid sym /\ closed_under_products sym /\ closed_under_inverse sym.
(** k-points i and j are related by a symmetry (or, if [inv], by a symmetry followed by inversion) *)
Definition related (sym : list (mat Z)) (inv : bool) (k k' : vec R) : Prop :=
  exists rot, In rot sym /\
   (congV (rvm k (mIZR rot)) k' \/ (inv = true /\ congV (rvm (rvopp k) (mIZR rot)) k')).

(** no two entries of the mesh are equal modulo integers *)
Definition distinct_mesh (qs : list qnum) : Prop :=
  forall i j a b, nth_error qs i = Some a -> nth_error qs j = Some b -> congV (q_k a) (q_k b) -> i = j.
Definition imageOf (neg : bool) (rot : mat Z) (k : vec R) : vec R := rvm (if neg then rvopp k else k) (mIZR rot).
(** [find] decides which mesh point (if any) an image of a mesh point is equal to modulo integers *)
Definition exact_lookup (sym : list (mat Z)) (qs : list qnum) (find : vec R -> option nat) : Prop :=
  forall q neg rot, In q qs -> In rot sym ->
    match find (imageOf neg rot (q_k q)) with
    | Some d => exists q', nth_error qs d = Some q' /\ congV (imageOf neg rot (q_k q)) (q_k q')
    | None => forall q', In q' qs -> ~ congV (imageOf neg rot (q_k q)) (q_k q')
    end.
(** [red] and [m] are a correct symmetry reduction of the mesh [qs] and map onto it; [unpack] reads an entry of [m] *)
Record kmesh_reduction (sym : list (mat Z)) (inv : bool) (qs red : list qnum) (unpack : Z -> Z * bool * Z) (m : list Z) : Prop := {
  kr_weight : total (map q_w red) = total (map q_w qs);
  kr_average : forall f : vec R -> R, (forall k k', related sym inv k k' -> f k = f k') ->
    total (map (fun q => q_w q * f (q_k q)) red) = total (map (fun q => q_w q * f (q_k q)) qs);
  kr_covers : forall q, In q qs -> exists r, In r red /\ related sym inv (q_k r) (q_k q);
  kr_one_per_orbit : ForallOrdPairs (fun r r' => ~ related sym inv (q_k r) (q_k r')) red;
  kr_from_mesh : forall r, In r red -> exists q, In q qs /\ q_k r = q_k q /\ q_spin r = q_spin q;
  kr_length : List.length m = List.length qs;
  kr_map : forall d q, nth_error qs d = Some q -> exists e ir neg i r rot,
    nth_error m d = Some e /\ unpack e = (Z.of_nat ir,neg,i) /\ nth_error red ir = Some r /\ nth_error sym (Z.to_nat i) = Some rot /\
    (neg = true -> inv = true) /\ congV (imageOf neg rot (q_k r)) (q_k q)
}.
