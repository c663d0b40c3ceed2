(** C44: welding nearly degenerate eigenvalues. *)
From Coq Require Import Reals List Lra Lia.
From Verif Require Import Weld_Model Weld_Spec Weld_Proofs.
Import ListNotations.
Open Scope R_scope.

Theorem C44_sum : forall Etol eigs, exists r, weldEigenvalues Etol eigs = Some r /\ List.length r = List.length eigs /\ total r = total eigs.
Proof. exact weld_total. Qed.
Print Assumptions C44_sum.
Theorem C44_order : forall Etol eigs, 0 <= Etol -> exists r, weldEigenvalues Etol eigs = Some r /\ keeps_order eigs r /\ separated Etol r.
Proof. exact weld_order. Qed.
Print Assumptions C44_order.
Theorem C44_common_value : forall Etol eigs, 0 <= Etol -> exists r, weldEigenvalues Etol eigs = Some r /\
  forall i j, (i < List.length eigs)%nat -> (j < List.length eigs)%nat -> Rabs (nth i eigs 0 - nth j eigs 0) <= Etol -> nth i r 0 = nth j r 0.
Proof. exact weld_close. Qed.
Print Assumptions C44_common_value.
Theorem C44_unchanged : forall Etol eigs, separated Etol eigs -> weldEigenvalues Etol eigs = Some eigs.
Proof. exact weld_unchanged. Qed.
Print Assumptions C44_unchanged.

Example ex44_close : exists r, weldEigenvalues (1/10) [3; 1; 21/20; 9] = Some r /\ nth 1 r 0 = nth 2 r 0 /\ total r = 3 + (1 + (21/20 + (9 + 0))).
Proof.
  destruct (C44_common_value (1/10) [3; 1; 21/20; 9]) as (r & E & H); [lra|]. exists r. split; [exact E|]. split.
  - apply H; cbn; try lia. unfold Rabs. destruct (Rcase_abs _); lra.
  - destruct (C44_sum (1/10) [3; 1; 21/20; 9]) as (r' & E' & _ & T). rewrite E in E'. injection E' as <-. exact T.
Qed.
Example ex44_separated : separated (1/10) [3; 1; 1; 9].
Proof. intros a b Ha Hb N. cbn in Ha, Hb. unfold Rabs. destruct (Rcase_abs _); intuition (subst; lra). Qed.
