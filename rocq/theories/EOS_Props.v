(** C50: equations of state.  Only theorems closed by [exact], examples and assumptions. *)
From Coq Require Import ZArith Reals List Bool Lra.
From Coquelicot Require Import Coquelicot.
From Verif Require Import Base LDA_Model LDA_Proofs EOS_Model EOS_Spec EOS_Proofs.
Open Scope R_scope.

(** [exact_at f N]: f is defined (not NAN) near N, and the second component at N is the derivative of the first *)
Theorem C50_getAhs : forall T N Vhs, Vhs * N < 1 -> exact_at (fun N => getAhs T N Vhs) N.
Proof. exact getAhs_exact. Qed.
Print Assumptions C50_getAhs.
(** and the hard sphere term is that of the Carnahan-Starling equation of state *)
Theorem C50_carnahan_starling : forall T N Vhs A A', T <> 0 -> getAhs T N Vhs = Some (A, A') ->
  1 + N * A' / T = (1 + (Vhs * N) + (Vhs * N) ^ 2 - (Vhs * N) ^ 3) / (1 - Vhs * N) ^ 3.
Proof. exact carnahan_starling. Qed.
Print Assumptions C50_carnahan_starling.
Theorem C50_vapor_pressure_term : forall nc n, 0 < nc -> 0 < n -> is_derive (fun n : R => fst (getVPphiInt nc n)) n (snd (getVPphiInt nc n)).
Proof. exact vp_derive. Qed.
Print Assumptions C50_vapor_pressure_term.
(** Jeffery-Austin, with the parameters of its constructor at temperature T *)
Theorem C50_JeffereyAustin : forall T N Vhs, ja_b (JA_init T) <> 0 -> 0 < N -> ja_lambda (JA_init T) * ja_b (JA_init T) * N < 1 -> Vhs * N < 1 ->
  exact_at (fun N => JA_calc (JA_init T) N Vhs) N.
Proof. exact JA_exact. Qed.
Print Assumptions C50_JeffereyAustin.
(** the exclusion volume is positive up to the Boyle temperature (1408.4 K), so the first hypothesis holds there *)
Theorem C50_JeffereyAustin_volume : forall T, 0 < T <= ja_TB -> 0 < ja_b (JA_init T).
Proof. exact ja_b_pos. Qed.
Print Assumptions C50_JeffereyAustin_volume.
(** Tao-Mason, any parameters *)
Theorem C50_TaoMason : forall p N Vhs, 0 < N -> tm_lambda p * tm_b p * N < 1 -> Vhs * N < 1 -> exact_at (fun N => TM_calc p N Vhs) N.
Proof. exact TM_exact. Qed.
Print Assumptions C50_TaoMason.
Theorem C50_uniform_fluid : forall eos nPos N0, 0 < nPos -> exact_at eos (N0 * (1 / nPos)) -> exact_at (computeUniform eos nPos) N0.
Proof. exact uniform_exact. Qed.
Print Assumptions C50_uniform_fluid.
(** a molecule with a sphere of the van der Waals radius excludes a quarter of b *)
Theorem C50_vdwRadius : forall b, 0 < b -> hsVolume (vdwRadius b) = b / 4.
Proof. exact vdw_volume. Qed.
Print Assumptions C50_vdwRadius.
Example C50_ex : getAhs 1 (1/2) 1 = Some (1 * (1 / (1 - 1 * (1/2)) * (1 / (1 - 1 * (1/2)))) * (1 * (1/2)) * (4 - 3 * (1 * (1/2))), 1 * 1 * (1 / (1 - 1 * (1/2)) * (1 / (1 - 1 * (1/2))) * (1 / (1 - 1 * (1/2)))) * 2 * (2 - 1 * (1/2)))
  /\ getAhs 1 2 1 = None.
Proof. unfold getAhs. destruct (Rle_dec 1 (1 * (1/2))); [lra|]. destruct (Rle_dec 1 (1 * 2)); [|lra]. split; reflexivity. Qed.
Example C50_TM_ex : let p := mkTM 1 (1/2) (1/2) 1 1 1 in 0 < 1 /\ tm_lambda p * tm_b p * 1 < 1 /\ (1/3) * 1 < 1 /\ exists r, TM_calc p 1 (1/3) = Some r.
Proof. cbn. repeat split; try lra. unfold TM_calc, getAhs. cbn. destruct (Rlt_dec 1 0); [lra|]. destruct (Rle_dec _ 0); [lra|]. destruct (Rle_dec 1 _); [lra|]. eexists; reflexivity. Qed.
