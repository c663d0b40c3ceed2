(** Elementary facts about extended reals. *)
From Coq Require Import Reals Bool Lra.
From Verif Require Import XR_Model.
Open Scope R_scope.

Lemma Rltb_true a b : Rltb a b = true <-> a < b.
Proof. unfold Rltb. destruct (Rlt_dec a b); split; intros; auto; discriminate. Qed.
Lemma Rltb_false a b : Rltb a b = false <-> b <= a.
Proof. unfold Rltb. destruct (Rlt_dec a b); split; intros; auto; try discriminate; lra. Qed.
Lemma Rleb_true a b : Rleb a b = true <-> a <= b.
Proof. unfold Rleb. destruct (Rle_dec a b); split; intros; auto; discriminate. Qed.
Lemma Rleb_false a b : Rleb a b = false <-> b < a.
Proof. unfold Rleb. destruct (Rle_dec a b); split; intros; auto; try discriminate; lra. Qed.
Lemma Reqb_true a b : Reqb a b = true <-> a = b.
Proof. unfold Reqb. destruct (Req_EM_T a b); split; intros; auto; discriminate. Qed.
Lemma Reqb_false a b : Reqb a b = false <-> a <> b.
Proof. unfold Reqb. destruct (Req_EM_T a b); split; intros; auto; try discriminate; contradiction. Qed.
Lemma xltb_fin a b : xltb (Fin a) (Fin b) = true <-> a < b.
Proof. apply Rltb_true. Qed.
Lemma xleb_fin a b : xleb (Fin a) (Fin b) = true <-> a <= b.
Proof. apply Rleb_true. Qed.
Lemma isfin_ex x : isfin x = true <-> exists r, x = Fin r.
Proof. destruct x; cbn; split; intros H; try discriminate; eauto; destruct H; discriminate. Qed.
Lemma xltb_nfin x : isfin x = false -> xltb x (Fin 0) = true -> x = MInf.
Proof. destruct x; cbn; intros; auto; discriminate. Qed.
Lemma xmin_fin a b : isfin a = true -> b <> MInf -> isfin (xmin a b) = true.
Proof.
  unfold xmin. intros Ha Hb. destruct (xltb b a) eqn:E; auto. destruct a; try discriminate.
  destruct b; cbn in *; auto; try discriminate; congruence.
Qed.
Lemma xmin_fin2 a b : isfin a = true -> isfin b = true -> isfin (xmin a b) = true.
Proof. unfold xmin. destruct (xltb b a); auto. Qed.
Lemma xmax_fin2 a b : isfin a = true -> isfin b = true -> isfin (xmax a b) = true.
Proof. unfold xmax. destruct (xltb a b); auto. Qed.
