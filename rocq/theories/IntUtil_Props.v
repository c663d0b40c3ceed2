(** Properties C59 and C60. *)
From Coq Require Import ZArith List Lia Bool.
From Verif Require Import Base Grid_Model FFTBox_Model IntUtil_Model IntUtil_Proofs.
Import ListNotations.
Open Scope Z_scope.

(** C59: positiveRemainder is the mathematical remainder within its declared 16 bit ranges. *)
Theorem C59_positive_remainder : forall x y, -32768 <= x < 32768 -> 0 < y < 65536 -> positiveRemainder x y = Some (x mod y).
Proof. exact positiveRemainder_ok. Qed.
Print Assumptions C59_positive_remainder.
(** Callers pass int; beyond 16 bits the result is wrong. *)
Theorem C59_positive_remainder_all_ints_refuted : exists x y, 0 < y < 2^31 /\ 0 <= x < y /\ positiveRemainder x y <> Some (x mod y).
Proof. exists 40000, 50000. split; [lia|]. split; [lia|]. vm_compute. discriminate. Qed.
Print Assumptions C59_positive_remainder_all_ints_refuted.

(** C59: ceildiv is the least integer whose multiple of den reaches num. *)
Theorem C59_ceildiv_is_ceiling : forall num den q, 0 < den -> - den < num -> (num <= q*den <-> ceildiv num den <= q).
Proof. exact ceildiv_least. Qed.
Print Assumptions C59_ceildiv_is_ceiling.
(** C59: floorMultiple is the greatest multiple of den not exceeding num. *)
Theorem C59_floorMultiple_is_greatest : forall num den, 0 < den -> 0 <= num ->
  (den | floorMultiple num den) /\ floorMultiple num den <= num /\ forall m, (den | m) -> m <= num -> m <= floorMultiple num den.
Proof. exact floorMultiple_spec. Qed.
Print Assumptions C59_floorMultiple_is_greatest.
(** C59: gcd terminates for all integers, with the greatest common divisor up to sign. *)
Theorem C59_gcd : forall fuel x y, Z.abs y < Z.of_nat fuel -> exists g, gcd_loop fuel x y = Some g /\ Z.abs g = Z.gcd x y.
Proof. exact gcd_loop_signed. Qed.
Print Assumptions C59_gcd.
(** C59: gcdReduce of a nonzero vector is a parallel vector with coprime components. *)
Theorem C59_gcdReduce : forall a b c, (a,b,c) <> (0,0,0) -> exists N, forall fuel, (N <= fuel)%nat ->
  exists g a' b' c', gcdReduce fuel (a,b,c) = Some (a',b',c') /\ a = g*a' /\ b = g*b' /\ c = g*c' /\
    Z.abs g = Z.gcd (Z.gcd a b) c /\ Z.gcd (Z.gcd a' b') c' = 1.
Proof. exact gcdReduce_signed. Qed.
Print Assumptions C59_gcdReduce.
(** The sign is not always kept: (0,0,-2) is reduced to (0,0,1). *)
Theorem C59_gcdReduce_keeps_direction_refuted : exists a b c a' b' c', gcdReduce 10 (a,b,c) = Some (a',b',c') /\ c < 0 < c' /\ a = 0 /\ b = 0.
Proof. exists 0, 0, (-2), 0, 0, 1. split; [vm_compute; reflexivity|]. lia. Qed.
Print Assumptions C59_gcdReduce_keeps_direction_refuted.
(** The zero vector leads to a division by zero. *)
Theorem C59_gcdReduce_total_refuted : exists d, forall fuel, gcdReduce fuel d = None.
Proof. exists (0,0,0). intros [|fuel]; reflexivity. Qed.
Print Assumptions C59_gcdReduce_total_refuted.
(** C59: wrappedIndex is the row major index of the coordinates modulo the box, up to the second zone. *)
Theorem C59_wrappedIndex : forall i S, (forall k, 0 <= get i k < 2 * get S k) ->
  wrappedIndex i S = v2 i mod v2 S + v2 S * (v1 i mod v1 S + v1 S * (v0 i mod v0 S)).
Proof. exact wrappedIndex_mod. Qed.
Print Assumptions C59_wrappedIndex.

Example C59_examples : positiveRemainder (-7) 5 = Some 3 /\ ceildiv 7 3 = 3 /\ floorMultiple 7 3 = 6 /\
  gcd_loop 20 (-12) 18 = Some 6 /\ gcdReduce 20 (4,-6,10) = Some (-2,3,-5) /\ wrappedIndex (3,5,4) (2,4,4) = 4*(1+4*1).
Proof. repeat split; vm_compute; reflexivity. Qed.

(** C60: for any number of processes and any messages of nonzero characters: no process stops if all messages are empty,
    otherwise all stop, each printing all the messages in order of rank. *)
Theorem C60_errors_reach_all : forall msgs, Forall (Forall (fun c => c <> 0)) msgs ->
  checkErrors msgs = if forallb (fun s => match s with [] => true | _ => false end) msgs
                     then map (fun _ => Continues) msgs
                     else map (fun _ => Stops (concat msgs ++ [10])) msgs.
Proof. exact checkErrors_spec. Qed.
Print Assumptions C60_errors_reach_all.
Example C60_example : checkErrors [[];[65;66];[];[67]] = repeat (Stops [65;66;67;10]) 4 /\ checkErrors [[];[]] = [Continues;Continues].
Proof. split; vm_compute; reflexivity. Qed.
