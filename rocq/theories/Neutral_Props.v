(** Properties of the density constraints of fluid mixtures. *)
From Coq Require Import List Reals Lra.
From Coquelicot Require Import Coquelicot.
From Verif Require Import Neutral_Model Neutral_Spec Neutral_Proofs.
Import ListNotations.
Local Open Scope R_scope.

(** C113: if the loop ends by its convergence test, the scaled densities have a net charge below the tolerance *)
Theorem C113_neutral : forall Qtol ext (l : list species) b p, 0 < Qtol -> (forall s, In s l -> 0 < fixedN s -> count0 s <> 0) ->
  (exists s, In s l /\ charge s <> 0 /\ ~ 0 < fixedN s) -> solve Qtol ext (map toComp l) = Scaled b p true ->
  Rabs (ext + addup (fun s => charge s * (Nscale b (toComp s) * count0 s)) l) < Qtol /\
  netCharge ext b l = ext + addup (fun s => charge s * (Nscale b (toComp s) * count0 s)) l.
Proof. exact neutral. Qed.
Print Assumptions C113_neutral.
Example C113_neutral_ex : (forall s, In s salt -> 0 < fixedN s -> count0 s <> 0) /\ (exists s, In s salt /\ charge s <> 0 /\ ~ 0 < fixedN s) /\
  exists b p, solve 1 0 (map toComp salt) = Scaled b p true.
Proof. exact salt_ok. Qed.

(** the net charge is strictly decreasing in the potential shift, so that at most one shift is neutral *)
Theorem C113_unique : forall ext (l : list species) b b', (forall s, In s l -> ~ 0 < fixedN s -> 0 < count0 s) ->
  (exists s, In s l /\ charge s <> 0 /\ ~ 0 < fixedN s) -> b < b' -> netCharge ext b' l < netCharge ext b l.
Proof. exact decreasing. Qed.
Print Assumptions C113_unique.
Example C113_unique_ex : (forall s, In s salt -> ~ 0 < fixedN s -> 0 < count0 s) /\ (exists s, In s salt /\ charge s <> 0 /\ ~ 0 < fixedN s).
Proof. exact salt_pos. Qed.

(** neutrality is not always reached: the loop is left after ten iterations although a neutral shift exists *)
Theorem C113_iterations_refuted : exists Qtol ext (l : list species), 0 < Qtol /\ (exists b, netCharge ext b l = 0) /\
  exists b p, solve Qtol ext (map toComp l) = Scaled b p false /\ Qtol < Rabs (netCharge ext b l).
Proof. exact iterations. Qed.
Print Assumptions C113_iterations_refuted.

(** the derivatives returned for the scale factors of free species are those of the scale factors that keep the cell neutral *)
Theorem C113_derivatives : forall (l : list varying) (ext beta : R -> R) (t ext' : R),
  is_derive ext t ext' -> (forall v, In v l -> is_derive (vCount v) t (vRate v)) -> (forall v, In v l -> ~ 0 < vFixed v -> 0 < vCount v t) ->
  (exists v, In v l /\ vCharge v <> 0 /\ ~ 0 < vFixed v) -> ex_derive beta t ->
  locally t (fun u => netCharge (ext u) (beta u) (map (at_time u) l) = 0) ->
  let cv v := toComp (at_time t v) in let Qprime := snd (Qtot (beta t) (N0Q (map cv l))) in
  forall v, In v l -> vCharge v <> 0 -> ~ 0 < vFixed v ->
  is_derive (fun u => Nscale (beta u) (toComp (at_time u v))) t
    (addup (fun w => Nscale_N0 (beta t) Qprime false (cv v) (cv w) * vRate w) l + Nscale_Qfixed (beta t) Qprime (cv v) * ext').
Proof. exact scale_free. Qed.
Print Assumptions C113_derivatives.
(** and those for species with a fixed count are those of the ratio of the counts *)
Theorem C113_fixed : forall (v : varying) (beta : R -> R) (t Qprime : R), 0 < vFixed v -> vCount v t <> 0 -> is_derive (vCount v) t (vRate v) ->
  is_derive (fun u => Nscale (beta u) (toComp (at_time u v))) t (Nscale_N0 (beta t) Qprime true (toComp (at_time t v)) (toComp (at_time t v)) * vRate v).
Proof. exact scale_fixed. Qed.
Print Assumptions C113_fixed.
Example C113_derivatives_ex : let l := [Varying 0 1 (fun u => exp u) 1; Varying 0 (-1) (fun u => exp (- u)) (-1)] in
  (forall v, In v l -> is_derive (vCount v) 0 (vRate v)) /\ (forall v, In v l -> ~ 0 < vFixed v -> 0 < vCount v 0) /\
  locally 0 (fun u => netCharge 0 u (map (at_time u) l) = 0).
Proof. exact varying_ok. Qed.
