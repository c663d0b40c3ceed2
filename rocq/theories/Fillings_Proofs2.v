(** Counting electrons, and a case where they are lost. *)
From Coq Require Import Reals List ZArith Bool Lra Lia.
From Verif Require Import Fillings_Model Fillings_Spec Fillings_Proofs.
Import ListNotations.
Open Scope R_scope.

Lemma ns_eq st Q M sp s : nsElectrons st Q M sp s = qNet st Q M s + total (map (fun x => fst x * INR (snd x)) sp) / INR (nSpins st).
Proof.
  unfold nsElectrons. rewrite sumR_acc. f_equal. induction sp as [|x l IH]; cbn [map total]; [unfold Rdiv; lra|]. rewrite IH. unfold Rdiv. ring.
Qed.
Lemma count st Q M sp : 
  total (map (nsElectrons st Q M sp) (seq 0 (nSpins st))) =
    (match st with SpinZ => Q | _ => Q + M end) + total (map (fun s => fst s * INR (snd s)) sp) /\
  nsElectrons SpinZ Q M sp 0 - nsElectrons SpinZ Q M sp 1 = M.
Proof.
  split; [rewrite channels|]; rewrite ?ns_eq; unfold qNet; cbn [nSpins INR].
  - destruct st; cbn [total]; rewrite ?ns_eq; unfold qNet; cbn [nSpins INR]; field.
  - field.
Qed.
Lemma lost_electrons : exists F,
  setup SpinZ FillingsConst 0 4 [(6, 1%nat)] 1 0 3 [QN 1 1; QN (-1) 1] None = Some (6, 3%Z, F) /\
  electrons (map q_weight [QN 1 1; QN (-1) 1]) F = 4.
Proof.
  unfold setup. rewrite channels.
  assert (E0 : nsElectrons SpinZ 0 4 [(6, 1%nat)] 0 = 5) by (unfold nsElectrons, qNet; cbn; lra).
  assert (E1 : nsElectrons SpinZ 0 4 [(6, 1%nat)] 1 = 1) by (unfold nsElectrons, qNet; cbn; lra).
  rewrite E0, E1. cbn [existsb]. destruct (Rlt_dec 5 0); [lra|]. destruct (Rlt_dec 1 0); [lra|]. cbn [orb]. unfold chooseBands.
  replace (3 =? 0)%Z with false by reflexivity.
  replace (sumR (fun x => x) [5; 1]) with 6 by (unfold sumR; cbn; lra).
  destruct (3 <? _)%Z eqn:E.
  - exfalso. apply Z.ltb_lt in E. assert (zceil (6 / (INR (nSpins SpinZ) * spinWeight SpinZ)) <= 3)%Z; [|lia]. apply zceil_le. cbn. lra.
  - eexists. split; [reflexivity|]. unfold electrons. cbn [map combine total fst snd q_weight].
    unfold index. cbn [q_spin]. replace (1 <? 0)%Z with false by reflexivity. replace (-1 <? 0)%Z with true by reflexivity. cbn [nth].
    change (Z.to_nat 3) with 3%nat. rewrite !fill_total_min by (unfold spinWeight; lra). unfold spinWeight.
    rewrite Rmin_right by (cbn; lra). rewrite Rmin_left by (cbn; lra). cbn. lra.
Qed.
