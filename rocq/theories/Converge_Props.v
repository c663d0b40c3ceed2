(** Property theorems C08: convergence checks. *)
From Coq Require Import Reals List.
From Verif Require Import XR_Model Converge_Model Converge_Spec Converge_Proofs.
Import ListNotations.
Open Scope R_scope.

(** The energy test fires exactly when each of the last n changes is a decrease by at most the threshold,
    whatever happened before. *)
Theorem C08_energy_check : forall n thr l E, (1 <= n)%nat ->
  (snd (ediffCheck (ediffRun (mkEdiffCheck n (Fin thr)) (map Fin l)) (Fin E)) = true <->
   last_changes n (small_decrease thr) (l ++ [E])).
Proof. exact ediff_correct. Qed.
Print Assumptions C08_energy_check.

(** The documented criterion also counts vanishing changes and increases; the code does not. *)
Theorem C08_energy_check_documented_refuted : exists n thr l E, (1 <= n)%nat /\ 0 < thr /\
  last_changes n (small_change thr) (l ++ [E]) /\ snd (ediffCheck (ediffRun (mkEdiffCheck n (Fin thr)) (map Fin l)) (Fin E)) = false.
Proof. exact ediff_constant_refuted. Qed.
Print Assumptions C08_energy_check_documented_refuted.

(** Energies that are not numbers are reported as converged. *)
Theorem C08_energy_check_nan_refuted : forall thr E0, 0 < thr ->
  snd (ediffCheck (ediffRun (mkEdiffCheck 2 (Fin thr)) [Fin E0; NaN]) NaN) = true.
Proof. exact ediff_nan_refuted. Qed.
Print Assumptions C08_energy_check_nan_refuted.

(** The norm test fires exactly when the last n norms are below the threshold. *)
Theorem C08_norm_check : forall n thr l x, (1 <= n)%nat ->
  (snd (normCheck (normRun (mkNormCheck n (Fin thr)) (map Fin l)) (Fin x)) = true <->
   last_all n (fun a => Rabs a < Rabs thr) (l ++ [x])).
Proof. exact norm_correct. Qed.
Print Assumptions C08_norm_check.

Example C08_example_energy : last_changes 2 (small_decrease (1/10)) ([3;1;2;1;19/20] ++ [9/10]) /\
  ~ last_changes 2 (small_decrease (1/10)) ([3;1;2;1] ++ [19/20]).
Proof. exact ediff_example. Qed.
Example C08_example_norm : last_all 2 (fun a => Rabs a < Rabs (1/2)) ([1;1/4] ++ [-1/4]).
Proof. exact norm_example. Qed.
