(** C33: state-resolved files are independent of the number of processes. *)
From Coq Require Import ZArith List Bool Lia.
From Verif Require Import Base WorkDiv_Model WorkDiv_Proofs StateIO_Model StateIO_Proofs.
Import ListNotations.
Open Scope Z_scope.

(** Whatever was written by [nProcs] processes, collectively in any interleaving or through the head process, is read by any
    of [nProcs'] processes at the same state: the data held by the process that owned the state when writing. *)
Theorem C33_read_back_any_process_count : forall A nStates nProcs nProcs' nRows nCols (M : Z -> Z -> list A) f p,
  0 <= nStates -> 0 < nProcs -> 0 < nProcs' -> 0 <= nRows -> 0 <= nCols ->
  nStates * nRows < 2^31 -> nStates * nRows * nCols < 2^31 ->
  (forall p q, 0 <= p < nProcs -> td_start (stopArr nStates nProcs) p <= q < td_stop (stopArr nStates nProcs) p -> Z.of_nat (length (M p q)) = nRows * nCols) ->
  (collectiveWrite nStates nProcs nRows nCols M f \/ safeWrite nStates nProcs M = Some f) -> 0 <= p < nProcs' ->
  readProc nStates nProcs' nRows nCols f p =
    Some (map (fun q => (q, M (td_whose (stopArr nStates nProcs) q) q)) (zrange (td_start (stopArr nStates nProcs') p) (td_stop (stopArr nStates nProcs') p))).
Proof. exact @roundtrip. Qed.
Print Assumptions C33_read_back_any_process_count.

(** The collective write always completes with some file, and the write through the head process never waits for a message
    that is not sent. *)
Theorem C33_writes_complete : forall A nStates nProcs nRows nCols (M : Z -> Z -> list A),
  0 <= nStates -> 0 < nProcs -> 0 <= nRows -> 0 <= nCols -> nStates * nRows < 2^31 -> nStates * nRows * nCols < 2^31 ->
  (forall p q, 0 <= p < nProcs -> td_start (stopArr nStates nProcs) p <= q < td_stop (stopArr nStates nProcs) p -> Z.of_nat (length (M p q)) = nRows * nCols) ->
  (exists f, collectiveWrite nStates nProcs nRows nCols M f) /\ (exists f, safeWrite nStates nProcs M = Some f).
Proof.
  exact (fun A nS nP nR nC M a b c d e g h => conj (collective_exists nS nP nR nC M a b c d e g)
    (match safe_good nS nP nR nC M a b c d h with ex_intro _ f (conj E _) => ex_intro _ f E end)).
Qed.
Print Assumptions C33_writes_complete.

(** The size of the file is nStates times the size of a state. *)
Theorem C33_file_layout : forall A nStates nProcs nRows nCols (M : Z -> Z -> list A) f, 0 <= nStates -> 0 < nProcs -> 0 <= nRows -> 0 <= nCols ->
  (forall p q, 0 <= p < nProcs -> td_start (stopArr nStates nProcs) p <= q < td_stop (stopArr nStates nProcs) p -> Z.of_nat (length (M p q)) = nRows * nCols) ->
  collectiveWrite nStates nProcs nRows nCols M f ->
  e_len f = nStates * (nRows * nCols) /\
  forall q b, 0 <= q < nStates -> 0 <= b < nRows * nCols -> e_at f (q * (nRows * nCols) + b) = nth_error (M (td_whose (stopArr nStates nProcs) q) q) (Z.to_nat b).
Proof. exact @collective_good. Qed.
Print Assumptions C33_file_layout.

(** The offsets are computed in int: 100 states of 5000 x 5000 matrices overflow (undefined behaviour) in every process. *)
Theorem C33_offset_overflow_refuted : forall A (f : efile A) p, readProc 100 4 5000 5000 f p = None.
Proof. exact (fun A f p => eq_refl). Qed.
Print Assumptions C33_offset_overflow_refuted.

(** five states of two bands written by 2 processes and read by 3 *)
Definition exM (p q : Z) : list Z := [100*q + p; 100*q + 10 + p].
Example C33_ex_write : exists f, safeWrite 5 2 exM = Some f /\ readProc 5 3 2 1 f 1 = Some [(1, [100; 110]); (2, [201; 211])].
Proof. eexists. split; vm_compute; reflexivity. Qed.
Example C33_ex_hyp : forall p q, 0 <= p < 2 -> td_start (stopArr 5 2) p <= q < td_stop (stopArr 5 2) p -> Z.of_nat (length (exM p q)) = 2 * 1.
Proof. intros. reflexivity. Qed.
