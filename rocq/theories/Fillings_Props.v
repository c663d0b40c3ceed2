(** C32: initial fillings hold exactly the requested number of electrons. *)
From Coq Require Import Reals List ZArith Bool Lra Lia.
From Verif Require Import Fillings_Model Fillings_Spec Fillings_Proofs Fillings_Proofs2.
Import ListNotations.
Open Scope R_scope.

(** Calculated fillings: when the number of bands is chosen by the code, or the given number can hold each spin channel, the
    fillings are between 0 and 1 and their weighted sum is the number of electrons (sum over spin channels).
    The weights of each spin channel add up to the spin weight (established for the k-point set in C28 and C29). *)
Theorem C32_calculated_fillings : forall st fu Q M sp mult nAt nB qs nEl nBands F, (0 <= nB)%Z ->
  (forall s, (s < n_channels st)%nat -> channelWeight s qs = channel_total st) -> (st <> SpinZ -> channelWeight 1 qs = 0) ->
  (nB = 0%Z \/ forall s, (s < n_channels st)%nat -> nsElectrons st Q M sp s / channel_total st <= IZR nB) ->
  setup st fu Q M sp mult nAt nB qs None = Some (nEl, nBands, F) ->
  nEl = total (map (nsElectrons st Q M sp) (seq 0 (n_channels st))) /\
  electrons (map q_weight qs) F = nEl /\ length F = length qs /\
  Forall (fun Fq => length Fq = Z.to_nat nBands /\ Forall (fun x => 0 <= x <= 1) Fq) F.
Proof. exact setup_calc. Qed.
Print Assumptions C32_calculated_fillings.

(** The number of electrons is the valence charge plus the excess charge, and the channel difference is the magnetization. *)
Theorem C32_electron_count : forall st Q M sp, 
  total (map (nsElectrons st Q M sp) (seq 0 (n_channels st))) =
    (match st with SpinZ => Q | _ => Q + M end) + total (map (fun s => fst s * INR (snd s)) sp) /\
  nsElectrons SpinZ Q M sp 0 - nsElectrons SpinZ Q M sp 1 = M.
Proof. exact count. Qed.
Print Assumptions C32_electron_count.

(** Bands are filled from the bottom. *)
Theorem C32_lowest_bands_first : forall n f, 0 <= f <= INR n -> aufbau (fillLowest n f) f.
Proof. exact fill_aufbau. Qed.
Print Assumptions C32_lowest_bands_first.

(** With automatic band number and non-negative channels the set-up never stops with an error. *)
Theorem C32_automatic_bands_suffice : forall st fu Q M sp mult nAt qs, (forall s, (s < n_channels st)%nat -> 0 <= nsElectrons st Q M sp s) ->
  exists r, setup st fu Q M sp mult nAt 0 qs None = Some r.
Proof. exact setup_auto. Qed.
Print Assumptions C32_automatic_bands_suffice.

(** Fillings read from a file with any number of bands: the electron count of every state is preserved exactly, and the
    fillings stay in the range allowed for them. *)
Theorem C32_fillings_from_file : forall st fu Q M sp mult nAt nB qs Fin nEl nBands F,
  setup st fu Q M sp mult nAt nB qs (Some Fin) = Some (nEl, nBands, F) ->
  electrons (map q_weight qs) F = nEl /\ nEl = electrons (map q_weight qs) Fin / channel_total st /\
  Forall2 (fun fin f => total f = total fin / channel_total st) Fin F /\
  Forall (fun Fq => length Fq = Z.to_nat nBands /\ Forall (fun f => fMin <= f <= fMax) Fq) F.
Proof. exact setup_file. Qed.
Print Assumptions C32_fillings_from_file.

(** As stated, for every given number of bands, the property is false: 6 electrons with magnetization 4 and 3 bands pass
    all checks (3 bands times 2 spins hold 6 electrons) but the majority channel needs 5 bands; 2 electrons are lost. *)
Theorem C32_given_bands_refuted : exists F,
  setup SpinZ FillingsConst 0 4 [(6, 1%nat)] 1 0 3 [QN 1 1; QN (-1) 1] None = Some (6, 3%Z, F) /\
  electrons (map q_weight [QN 1 1; QN (-1) 1]) F = 4.
Proof. exact lost_electrons. Qed.
Print Assumptions C32_given_bands_refuted.

(** a spin-polarized system satisfying the hypotheses of the first theorem: 3 electrons, magnetization 1 *)
Example C32_ex : exists nEl nBands F, setup SpinZ FillingsConst 0 1 [(3, 1%nat)] 1 0 0 [QN 1 1; QN (-1) 1] None = Some (nEl, nBands, F) /\
  electrons (map q_weight [QN 1 1; QN (-1) 1]) F = 3.
Proof.
  destruct (C32_automatic_bands_suffice SpinZ FillingsConst 0 1 [(3, 1%nat)] 1 0 [QN 1 1; QN (-1) 1]) as ([[n b] F]&E).
  - intros s Hs. cbn in Hs. assert (s = 0 \/ s = 1)%nat as [-> | ->] by lia; unfold nsElectrons, qNet; cbn; lra.
  - exists n, b, F. split; auto. destruct (C32_calculated_fillings SpinZ FillingsConst 0 1 [(3, 1%nat)] 1 0 0 [QN 1 1; QN (-1) 1] n b F) as (H1&H2&_); auto; try lia.
    + intros s Hs. cbn in Hs. assert (s = 0 \/ s = 1)%nat as [-> | ->] by lia; unfold channelWeight; cbn; lra.
    + congruence.
    + rewrite H2, H1. rewrite (proj1 (C32_electron_count SpinZ 0 1 [(3, 1%nat)])). cbn. lra.
Qed.
