(** What initial fillings should satisfy. *)
From Coq Require Import Reals List ZArith.
From Verif Require Import Fillings_Model.
Import ListNotations.
Open Scope R_scope.

Fixpoint total (l : list R) : R := match l with [] => 0 | x :: r => x + total r end.
(** electrons held by states with the given weights *)
Definition electrons (weights : list R) (F : list (list R)) : R := total (map (fun wF => fst wF * total (snd wF)) (combine weights F)).
(** fillings of one state: full bands, then at most one partly filled band, then empty bands *)
Definition aufbau (F : list R) (f : R) : Prop :=
  exists full part, F = repeat 1 full ++ part /\ (part = [] \/ exists x n, part = x :: repeat 0 n /\ 0 <= x <= 1) /\ total F = f.
(** number of spin channels, and the total weight of the k-points in each of them *)
Definition n_channels (st : SpinType) : nat := match st with SpinZ => 2 | SpinNone | SpinVector | SpinOrbit => 1 end.
Definition channel_total (st : SpinType) : R := match st with SpinNone => 2 | SpinZ | SpinVector | SpinOrbit => 1 end.
