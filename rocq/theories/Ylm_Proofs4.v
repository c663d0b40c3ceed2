(** Integrals of monomials over the unit sphere, and orthonormality of the harmonics. *)
From Coq Require Import ZArith QArith Qreals Reals List Bool Lra Lia Qabs.
From Coquelicot Require Import Coquelicot.
From Verif Require Import Base Vec3_Model Ylm_Model Ylm_Spec Poly_Proofs Ylm_Proofs Ylm_Proofs3.
Import ListNotations.
Import Vec3_Model.
Open Scope R_scope.

Lemma is_RInt_ext' (f g : R -> R) a b (I : R) : (forall x : R, @eq R (f x) (g x)) -> is_RInt f a b I -> is_RInt g a b I.
Proof. intros E. apply is_RInt_ext. intros x _. apply E. Qed.
Lemma is_RInt_eq (f : R -> R) a b (I J : R) : @eq R I J -> is_RInt f a b I -> is_RInt f a b J. Proof. intros ->. exact (fun H => H). Qed.
Lemma FTC (F f : R -> R) a b : (forall x : R, is_derive F x (f x)) -> (forall x : R, continuous f x) -> is_RInt f a b (F b - F a).
Proof. intros D C. apply (is_RInt_derive F f a b); intros x _; [apply D|apply C]. Qed.
Lemma cont_derive (f : R -> R) x : ex_derive f x -> continuous f x. Proof. exact (@ex_derive_continuous R_AbsRing R_NormedModule f x). Qed.

(** ** azimuth *)
Fixpoint kc (i : nat) : Q := match i with O => 1%Q | S i' => match i' with O => 0%Q | S i'' => (Z.of_nat i' # Pos.of_succ_nat i') * kc i'' end end.
Fixpoint kq (j : nat) : nat -> Q :=
  match j with
  | O => kc
  | S j' => match j' with O => fun _ => 0%Q | S j'' => fun i => (kq j'' i - kq j'' (i + 2)%nat)%Q end
  end.
Lemma two_step (P : nat -> Prop) : P 0%nat -> P 1%nat -> (forall n, P n -> P (S (S n))) -> forall n, P n.
Proof. intros H0 H1 H2 n. enough (P n /\ P (S n)) by tauto. induction n as [|n [A B]]; [tauto|]. split; [exact B|apply H2; exact A]. Qed.
Lemma cos_step i : is_RInt (fun t => (INR i + 2) * cos t ^ (i + 2) - (INR i + 1) * cos t ^ i) 0 (2 * PI) 0.
Proof.
  eapply is_RInt_eq; [|apply (FTC (fun t => cos t ^ (i + 1) * sin t))].
  - cbv beta. rewrite sin_2PI, sin_0. ring.
  - intros t. auto_derive; [exact I|]. replace (i + 2)%nat with (S (S i)) by lia. replace (i + 1)%nat with (S i) by lia. cbn [Nat.pred]. rewrite S_INR. cbn [pow].
    pose proof (sin2_cos2 t) as E. unfold Rsqr in E. apply Rminus_diag_uniq. transitivity ((INR i + 1) * cos t ^ i * (1 - (sin t * sin t + cos t * cos t))); [cbn [pow]; ring|rewrite E; ring].
  - intros t. apply cont_derive. auto_derive. exact I.
Qed.
Lemma kc_ok : forall i, is_RInt (fun t => cos t ^ i) 0 (2 * PI) (2 * PI * Q2R (kc i)).
Proof.
  apply two_step.
  - cbn [kc pow]. eapply is_RInt_eq; [|apply (is_RInt_const (V := R_NormedModule) 0 (2 * PI) 1)]. change (scal (2 * PI - 0) 1) with ((2 * PI - 0) * 1). rewrite RMicromega.Q2R_1. ring.
  - cbn [kc]. eapply is_RInt_eq; [|apply (FTC sin)].
    + rewrite sin_2PI, sin_0, RMicromega.Q2R_0. ring.
    + intros t. auto_derive; [exact I|ring].
    + intros t. apply cont_derive. auto_derive. exact I.
  - intros i IH. cbn [kc]. pose proof (cos_step i) as A. pose proof (is_RInt_plus _ _ _ _ _ _ A (is_RInt_scal _ _ _ (INR i + 1) _ IH)) as B. pose proof (is_RInt_scal _ _ _ (/ (INR i + 2)) _ B) as C.
    eapply is_RInt_eq; [|eapply is_RInt_ext'; [|exact C]].
    + change (/ (INR i + 2) * (0 + (INR i + 1) * (2 * PI * Q2R (kc i))) = 2 * PI * Q2R ((Z.of_nat (S i) # Pos.of_succ_nat (S i)) * kc i)). rewrite Q2R_mult. unfold Q2R at 2. cbn [Qnum Qden].
      replace (Z.pos (Pos.of_succ_nat (S i))) with (Z.of_nat (S (S i))) by lia. rewrite <- !INR_IZR_INZ, !S_INR. field. pose proof (pos_INR i). lra.
    + intros t. change (/ (INR i + 2) * (((INR i + 2) * cos t ^ (i + 2) - (INR i + 1) * cos t ^ i) + (INR i + 1) * cos t ^ i) = cos t ^ (S (S i))). replace (i + 2)%nat with (S (S i)) by lia. field. pose proof (pos_INR i). lra.
Qed.
Lemma kq_ok : forall j i, is_RInt (fun t => cos t ^ i * sin t ^ j) 0 (2 * PI) (2 * PI * Q2R (kq j i)).
Proof.
  apply (two_step (fun j => forall i, is_RInt (fun t => cos t ^ i * sin t ^ j) 0 (2 * PI) (2 * PI * Q2R (kq j i)))).
  - intros i. cbn [kq pow]. eapply is_RInt_ext'; [|apply kc_ok]. intros t. cbv beta. ring.
  - intros i. cbn [kq]. eapply is_RInt_eq; [|apply (FTC (fun t => - (cos t ^ (S i) / INR (S i))))].
    + cbv beta. rewrite cos_2PI, cos_0, RMicromega.Q2R_0. ring.
    + intros t. auto_derive; [exact I|]. cbn [Nat.pred pow]. change (match i with | 0%nat => 1 | S _ => INR i + 1 end) with (INR (S i)). field. apply not_0_INR. lia.
    + intros t. apply cont_derive. auto_derive. exact I.
  - intros j IH i. cbn [kq]. pose proof (is_RInt_minus _ _ _ _ _ _ (IH i) (IH (i + 2)%nat)) as A. eapply is_RInt_eq; [|eapply is_RInt_ext'; [|exact A]].
    + change (2 * PI * Q2R (kq j i) - 2 * PI * Q2R (kq j (i + 2)) = 2 * PI * Q2R (kq j i - kq j (i + 2))). rewrite Q2R_minus. ring.
    + intros t. change (cos t ^ i * sin t ^ j - cos t ^ (i + 2) * sin t ^ j = cos t ^ i * sin t ^ S (S j)). rewrite pow_add. cbn [pow]. pose proof (sin2_cos2 t) as E. unfold Rsqr in E. replace (sin t * (sin t * sin t ^ j)) with ((sin t * sin t) * sin t ^ j) by ring. replace (sin t * sin t) with (1 - cos t * cos t) by lra. ring.
Qed.
Lemma kc_odd : forall i, Nat.even i = false -> Q2R (kc i) = 0.
Proof. apply (two_step (fun i => Nat.even i = false -> Q2R (kc i) = 0)); [discriminate|intros _; apply RMicromega.Q2R_0|]. intros i IH H. cbn [kc]. rewrite Q2R_mult, (IH H). ring. Qed.
Lemma kq_odd : forall j i, Nat.even (i + j) = false -> Q2R (kq j i) = 0.
Proof.
  apply (two_step (fun j => forall i, Nat.even (i + j) = false -> Q2R (kq j i) = 0)).
  - intros i H. apply kc_odd. rewrite Nat.add_0_r in H. exact H.
  - intros i _. apply RMicromega.Q2R_0.
  - intros j IH i H. cbn [kq]. rewrite Q2R_minus. replace (i + S (S j))%nat with (S (S (i + j))) in H by lia. rewrite (IH i H), (IH (i + 2)%nat); [ring|]. replace (i + 2 + j)%nat with (S (S (i + j))) by lia. exact H.
Qed.
(** ** polar coordinate *)
Fixpoint jq (n : nat) : nat -> Q :=
  match n with
  | O => fun k => if Nat.even k then (2 # Pos.of_succ_nat k) else 0%Q
  | S n => fun k => (jq n k - jq n (k + 2)%nat)%Q
  end.
Lemma jq_ok : forall n k, is_RInt (fun u => (1 - u * u) ^ n * u ^ k) (-1) 1 (Q2R (jq n k)).
Proof.
  induction n as [|n IH]; intros k; cbn [jq].
  - eapply is_RInt_eq; [|apply (FTC (fun u => u ^ (S k) / INR (S k)))].
    + cbv beta. rewrite pow1, (sign_even (S k)), Nat.even_succ, <- Nat.negb_even. destruct (Nat.even k); cbn [negb]; unfold Q2R; cbn [Qnum Qden].
      * replace (IZR (Z.pos (Pos.of_succ_nat k))) with (INR (S k)) by (rewrite INR_IZR_INZ; f_equal; lia). field. apply not_0_INR. lia.
      * lra.
    + intros u. auto_derive; [exact I|]. cbn [Nat.pred pow]. change (match k with | 0%nat => 1 | S _ => INR k + 1 end) with (INR (S k)). field. apply not_0_INR. lia.
    + intros u. apply cont_derive. auto_derive. exact I.
  - pose proof (is_RInt_minus _ _ _ _ _ _ (IH k) (IH (k + 2)%nat)) as A. eapply is_RInt_eq; [|eapply is_RInt_ext'; [|exact A]].
    + rewrite Q2R_minus. reflexivity.
    + intros u. change ((1 - u * u) ^ n * u ^ k - (1 - u * u) ^ n * u ^ (k + 2) = (1 - u * u) ^ S n * u ^ k). rewrite pow_add. cbn [pow]. ring.
Qed.
(** ** sphere *)
Definition mq (i j k : nat) : Q := if Nat.even (i + j) then kq j i * jq (Nat.div2 (i + j)) k else 0%Q.
Lemma moment i j k : sphereInt (fun q => c0 q ^ i * c1 q ^ j * c2 q ^ k) (2 * PI * Q2R (mq i j k)).
Proof.
  exists (fun u => sqrt (1 - u * u) ^ (i + j) * u ^ k * (2 * PI * Q2R (kq j i))). split.
  - intros u Hu. pose proof (is_RInt_scal _ _ _ (sqrt (1 - u * u) ^ (i + j) * u ^ k) _ (kq_ok j i)) as A. eapply is_RInt_ext'; [|exact A].
    intros t. cbn [c0 c1 c2]. change (sqrt (1 - u * u) ^ (i + j) * u ^ k * (cos t ^ i * sin t ^ j) = (sqrt (1 - u * u) * cos t) ^ i * (sqrt (1 - u * u) * sin t) ^ j * u ^ k). rewrite !Rpow_mult_distr, pow_add. ring.
  - unfold mq. destruct (Nat.even (i + j)) eqn:E.
    + pose proof (is_RInt_scal _ _ _ (2 * PI * Q2R (kq j i)) _ (jq_ok (Nat.div2 (i + j)) k)) as A. eapply is_RInt_eq; [|eapply is_RInt_ext; [|exact A]].
      * rewrite Q2R_mult. change (2 * PI * Q2R (kq j i) * Q2R (jq (Nat.div2 (i + j)) k) = 2 * PI * (Q2R (kq j i) * Q2R (jq (Nat.div2 (i + j)) k))). ring.
      * intros u Hu. rewrite Rmin_left, Rmax_right in Hu by lra. change (2 * PI * Q2R (kq j i) * ((1 - u * u) ^ Nat.div2 (i + j) * u ^ k) = sqrt (1 - u * u) ^ (i + j) * u ^ k * (2 * PI * Q2R (kq j i))).
        assert (sqrt (1 - u * u) ^ (i + j) = (1 - u * u) ^ Nat.div2 (i + j)) as P; [|rewrite P; ring].
        apply Nat.even_spec in E as [n En]. rewrite En, Nat.div2_double, pow_mult. f_equal. cbn [pow]. rewrite Rmult_1_r. apply sqrt_sqrt. nra.
    + rewrite (kq_odd j i E), RMicromega.Q2R_0. eapply is_RInt_eq; [|eapply is_RInt_ext'; [|apply (is_RInt_const (V := R_NormedModule) (-1) 1 0)]].
      * change ((1 - -1) * 0 = 2 * PI * 0). ring.
      * intros u. cbv beta. ring.
Qed.
Lemma sphereInt_ext f g I : (forall q, isUnit q -> f q = g q) -> sphereInt f I -> sphereInt g I.
Proof.
  intros E [h [A B]]. exists h. split; [|exact B]. intros u Hu. eapply is_RInt_ext'; [|exact (A u Hu)]. intros t. apply E. unfold isUnit. cbn [c0 c1 c2].
  pose proof (sin2_cos2 t) as S. unfold Rsqr in S. assert (sqrt (1 - u * u) * sqrt (1 - u * u) = 1 - u * u) as Q by (apply sqrt_sqrt; nra). nra.
Qed.
Lemma sphereInt_eq f I J : I = J -> sphereInt f I -> sphereInt f J. Proof. intros ->. exact (fun H => H). Qed.
Lemma sphereInt_plus f g I J : sphereInt f I -> sphereInt g J -> sphereInt (fun q => f q + g q) (I + J).
Proof. intros [h [A B]] [k [C D]]. exists (fun u => h u + k u). split; [|exact (is_RInt_plus _ _ _ _ _ _ B D)]. intros u Hu. exact (is_RInt_plus _ _ _ _ _ _ (A u Hu) (C u Hu)). Qed.
Lemma sphereInt_scal c f I : sphereInt f I -> sphereInt (fun q => c * f q) (c * I).
Proof. intros [h [A B]]. exists (fun u => c * h u). split; [|exact (is_RInt_scal _ _ _ c _ B)]. intros u Hu. exact (is_RInt_scal _ _ _ c _ (A u Hu)). Qed.
Lemma sphereInt_zero : sphereInt (fun _ => 0) 0.
Proof. eapply sphereInt_eq; [|eapply sphereInt_ext; [|exact (sphereInt_scal 0 _ _ (moment 0 0 0))]]; [ring|]. intros q _. cbv beta. ring. Qed.
Lemma is_RInt_uniq (f : R -> R) a b (I J : R) : is_RInt f a b I -> is_RInt f a b J -> I = J.
Proof. intros A B. rewrite <- (is_RInt_unique _ _ _ _ A). exact (is_RInt_unique _ _ _ _ B). Qed.
Lemma sphereInt_unique f I J : sphereInt f I -> sphereInt f J -> I = J.
Proof.
  intros [h [A B]] [k [C D]]. apply (is_RInt_uniq k (-1) 1); [|exact D]. eapply is_RInt_ext; [|exact B]. intros u Hu. rewrite Rmin_left, Rmax_right in Hu by lra. apply (is_RInt_uniq _ _ _ _ _ (A u ltac:(lra)) (C u ltac:(lra))).
Qed.
(** ** polynomials *)
Definition mtab : list (list (list Q)) := Eval vm_compute in map (fun k => map (fun j => map (fun i => Qred (mq i j k)) (seq 0 (13 - j - k))) (seq 0 (13 - k))) (seq 0 13).
Definition mt (i j k : nat) : Q := nth i (nth j (nth k mtab []) []) (mq i j k).
Lemma mtab_check : forallb (fun k => forallb (fun j => forallb (fun i => Qeq_bool (mt i j k) (mq i j k)) (seq 0 (13 - j - k))) (seq 0 (13 - k))) (seq 0 13) = true.
Proof. vm_cast_no_check (eq_refl true). Qed.
Lemma mtab_rows : forallb (fun k => (length (nth k mtab []) =? 13 - k)%nat && forallb (fun j => (length (nth j (nth k mtab []) []) =? 13 - j - k)%nat) (seq 0 (13 - k))) (seq 0 13) = true.
Proof. vm_cast_no_check (eq_refl true). Qed.
Lemma mt_ok i j k : Q2R (mt i j k) = Q2R (mq i j k).
Proof.
  destruct (Nat.lt_ge_cases (i + j + k) 13) as [L|L].
  - apply Qeq_eqR. apply Qeq_bool_iff. pose proof mtab_check as H. rewrite forallb_forall in H. specialize (H k ltac:(apply in_seq; lia)). rewrite forallb_forall in H. specialize (H j ltac:(apply in_seq; lia)). rewrite forallb_forall in H. exact (H i ltac:(apply in_seq; lia)).
  - unfold mt. rewrite nth_overflow; [reflexivity|]. pose proof mtab_rows as H. rewrite forallb_forall in H.
    destruct (Nat.lt_ge_cases k 13) as [Lk|Lk]; [|rewrite (nth_overflow mtab) by (cbn [mtab length]; lia); destruct j; cbn; lia].
    specialize (H k ltac:(apply in_seq; lia)). apply andb_true_iff in H as [H1 H2]. apply Nat.eqb_eq in H1.
    destruct (Nat.lt_ge_cases j (13 - k)) as [Lj|Lj]; [|rewrite (nth_overflow (nth k mtab [])) by lia; cbn; lia].
    rewrite forallb_forall in H2. specialize (H2 j ltac:(apply in_seq; lia)). apply Nat.eqb_eq in H2. lia.
Qed.
Fixpoint m1 (j k i : nat) (l : list Q) : Q := match l with [] => 0%Q | c :: l => if Qeq_bool c 0 then m1 j k (S i) l else Qred (c * mt i j k + m1 j k (S i) l) end.
Fixpoint m2 (k j : nat) (l : list (list Q)) : Q := match l with [] => 0%Q | c :: l => Qred (m1 j k 0 c + m2 k (S j) l) end.
Fixpoint m3 (k : nat) (l : list (list (list Q))) : Q := match l with [] => 0%Q | c :: l => Qred (m2 k 0 c + m3 (S k) l) end.
Lemma m1_ok j k l : forall i, sphereInt (fun q => c0 q ^ i * c1 q ^ j * c2 q ^ k * pev 1 (vecEnv q) l) (2 * PI * Q2R (m1 j k i l)).
Proof.
  induction l as [|c l IH]; intros i; cbn [m1].
  - rewrite RMicromega.Q2R_0. eapply sphereInt_eq; [|eapply sphereInt_ext; [|exact sphereInt_zero]]; [ring|]. intros q _. change (0 = c0 q ^ i * c1 q ^ j * c2 q ^ k * 0). ring.
  - assert (Q2R (if Qeq_bool c 0 then m1 j k (S i) l else Qred (c * mt i j k + m1 j k (S i) l)) = Q2R c * Q2R (mq i j k) + Q2R (m1 j k (S i) l)) as ->.
    { destruct (Qeq_bool c 0) eqn:E; [apply Qeq_bool_iff in E; rewrite (Qeq_eqR _ _ E), RMicromega.Q2R_0; ring|]. rewrite Q2R_red, Q2R_plus, Q2R_mult, mt_ok. reflexivity. }
    eapply sphereInt_eq; [|eapply sphereInt_ext; [|exact (sphereInt_plus _ _ _ _ (sphereInt_scal (Q2R c) _ _ (moment i j k)) (IH (S i)))]]; [ring|].
    intros q _. change (Q2R c * (c0 q ^ i * c1 q ^ j * c2 q ^ k) + c0 q ^ S i * c1 q ^ j * c2 q ^ k * pev 1 (vecEnv q) l = c0 q ^ i * c1 q ^ j * c2 q ^ k * (Q2R c + c0 q * pev 1 (vecEnv q) l)). cbn [pow]. ring.
Qed.
Lemma m2_ok k l : forall j, sphereInt (fun q => c1 q ^ j * c2 q ^ k * pev 2 (vecEnv q) l) (2 * PI * Q2R (m2 k j l)).
Proof.
  induction l as [|c l IH]; intros j; cbn [m2].
  - rewrite RMicromega.Q2R_0. eapply sphereInt_eq; [|eapply sphereInt_ext; [|exact sphereInt_zero]]; [ring|]. intros q _. change (0 = c1 q ^ j * c2 q ^ k * 0). ring.
  - rewrite Q2R_red, Q2R_plus. eapply sphereInt_eq; [|eapply sphereInt_ext; [|exact (sphereInt_plus _ _ _ _ (m1_ok j k c 0) (IH (S j)))]]; [ring|].
    intros q _. change (c0 q ^ 0 * c1 q ^ j * c2 q ^ k * pev 1 (vecEnv q) c + c1 q ^ S j * c2 q ^ k * pev 2 (vecEnv q) l = c1 q ^ j * c2 q ^ k * (pev 1 (vecEnv q) c + c1 q * pev 2 (vecEnv q) l)). cbn [pow]. ring.
Qed.
Lemma m3_ok l : forall k, sphereInt (fun q => c2 q ^ k * pev 3 (vecEnv q) l) (2 * PI * Q2R (m3 k l)).
Proof.
  induction l as [|c l IH]; intros k; cbn [m3].
  - rewrite RMicromega.Q2R_0. eapply sphereInt_eq; [|eapply sphereInt_ext; [|exact sphereInt_zero]]; [ring|]. intros q _. change (0 = c2 q ^ k * 0). ring.
  - rewrite Q2R_red, Q2R_plus. eapply sphereInt_eq; [|eapply sphereInt_ext; [|exact (sphereInt_plus _ _ _ _ (m2_ok k c 0) (IH (S k)))]]; [ring|].
    intros q _. change (c1 q ^ 0 * c2 q ^ k * pev 2 (vecEnv q) c + c2 q ^ S k * pev 3 (vecEnv q) l = c2 q ^ k * (pev 2 (vecEnv q) c + c2 q * pev 3 (vecEnv q) l)). cbn [pow]. ring.
Qed.
Lemma expr_int e : vars 3 e = true -> sphereInt (fun q => ev e (vecEnv q)) (2 * PI * Q2R (m3 0 (norm 3 e))).
Proof. intros Hv. eapply sphereInt_ext; [|exact (m3_ok (norm 3 e) 0)]. intros q _. cbv beta. rewrite (norm_ok 3 (vecEnv q) e Hv). cbn [pow]. ring. Qed.
(** ** orthonormality: polynomials divided by a coefficient have small ones *)
Fixpoint pscale (n : nat) (c : Q) : poly n -> poly n := match n return poly n -> poly n with O => fun q => Qred (c * q) | S n => map (pscale n c) end.
Lemma pscale_ok n c env : forall p, pev n env (pscale n c p) = Q2R c * pev n env p.
Proof.
  induction n as [|n IH]; intros p; [cbn [pscale pev]; rewrite Q2R_red, Q2R_mult; reflexivity|].
  induction p as [|x p IHp]; [change (0 = Q2R c * 0); ring|]. change (pev n env (pscale n c x) + env n * pev (S n) env (pscale (S n) c p) = Q2R c * (pev n env x + env n * pev (S n) env p)). rewrite IHp, IH. ring.
Qed.
Definition firstnz (l : list Q) : Q := fold_right (fun c s => if Qeq_bool c 0 then s else c) 0%Q l.
Definition lead (p : poly 3) : Q := firstnz (map (fun r => firstnz (map firstnz r)) p).
Definition prim (p : poly 3) : poly 3 := pscale 3 (/ lead p) p.
Lemma prim_ok p env : Qeq_bool (lead p) 0 = false -> pev 3 env p = Q2R (lead p) * pev 3 env (prim p).
Proof.
  intros H. unfold prim. rewrite pscale_ok. apply Qeq_bool_neq in H. rewrite Q2R_inv by exact H. field. intros E. apply H. apply eqR_Qeq. rewrite E. symmetry. apply RMicromega.Q2R_0.
Qed.
Definition prims : list ((Z * Z) * poly 3) := map (fun a => (a, prim (norm 3 (yE (fst a) (snd a))))) allLM.
Definition sameLM (a b : Z * Z) : bool := Z.eqb (fst a) (fst b) && Z.eqb (snd a) (snd b).
Lemma lead_check : forallb (fun a => negb (Qeq_bool (lead (norm 3 (yE (fst a) (snd a)))) 0)) allLM = true.
Proof. vm_cast_no_check (eq_refl true). Qed.
Lemma ortho_check : (let L := prims in forallb (fun a => forallb (fun b => sameLM (fst a) (fst b) || Qeq_bool (m3 0 (pmul 3 (snd a) (snd b))) 0) L) L) = true.
Proof. vm_cast_no_check (eq_refl true). Qed.
Lemma norm_check : forallb (fun a => Qle_bool (Qabs (m3 0 (norm 3 (EMul (yE (fst a) (snd a)) (yE (fst a) (snd a)))) - 2 * inv4pi)) (5 # 100000000000000000)) allLM = true.
Proof. vm_cast_no_check (eq_refl true). Qed.
Lemma ylm_prim l m q : supported l m -> Ylm l m q = Q2R (lead (norm 3 (yE l m))) * pev 3 (vecEnv q) (prim (norm 3 (yE l m))).
Proof.
  intros S. rewrite <- prim_ok; [rewrite norm_ok by (apply ylm_vars; exact S); reflexivity|]. pose proof lead_check as H. rewrite forallb_forall in H. specialize (H (l, m) (in_allLM _ _ S)). apply negb_true_iff in H. exact H.
Qed.
Lemma ylm_orthogonal : forall l m l' m', supported l m -> supported l' m' -> (l, m) <> (l', m') -> sphereInt (fun q => Ylm l m q * Ylm l' m' q) 0.
Proof.
  intros l m l' m' S S' N. set (p := prim (norm 3 (yE l m))). set (p' := prim (norm 3 (yE l' m'))).
  assert (Q2R (m3 0 (pmul 3 p p')) = 0) as Z0.
  { pose proof ortho_check as H. cbv zeta in H. rewrite forallb_forall in H. specialize (H ((l, m), p) ltac:(apply in_map_iff; exists (l, m); split; [reflexivity|apply in_allLM; exact S])). rewrite forallb_forall in H.
    specialize (H ((l', m'), p') ltac:(apply in_map_iff; exists (l', m'); split; [reflexivity|apply in_allLM; exact S'])). apply orb_true_iff in H as [H|H].
    - unfold sameLM in H. cbn [fst snd] in H. apply andb_true_iff in H as [A B]. apply Z.eqb_eq in A, B. congruence.
    - apply Qeq_bool_iff, Qeq_eqR in H. cbn [snd] in H. rewrite H. apply RMicromega.Q2R_0. }
  eapply sphereInt_eq; [|eapply sphereInt_ext; [|exact (sphereInt_scal (Q2R (lead (norm 3 (yE l m))) * Q2R (lead (norm 3 (yE l' m')))) _ _ (m3_ok (pmul 3 p p') 0))]].
  - rewrite Z0. ring.
  - intros q _. cbv beta. rewrite (ylm_prim l m q S), (ylm_prim l' m' q S'). fold p p'. rewrite (pmul_ok 3 (vecEnv q) p p'). cbn [pow]. ring.
Qed.
Lemma ylm_normalised : forall l m, supported l m -> exists I, sphereInt (fun q => Ylm l m q * Ylm l m q) I /\ Rabs (I - 1) <= 4 / 10 ^ 16.
Proof.
  intros l m S. set (e := EMul (yE l m) (yE l m)). exists (2 * PI * Q2R (m3 0 (norm 3 e))). pose proof (ylm_vars _ _ S) as Vr.
  split; [exact (expr_int e ltac:(cbn [vars e]; rewrite Vr; reflexivity))|].
  pose proof norm_check as H. rewrite forallb_forall in H. specialize (H (l, m) (in_allLM _ _ S)). apply Qle_bool_iff, Qle_Rle in H. cbn [fst snd] in H. fold e in H. rewrite Q2R_abs, Q2R_minus, Q2R_mult in H. replace (Q2R 2) with 2 in H by (unfold Q2R; cbn; lra).
  replace (Q2R (5 # 100000000000000000)) with (5 / 10 ^ 17) in H by (unfold Q2R; cbn [Qnum Qden]; lra). set (M := Q2R (m3 0 (norm 3 e))) in *. pose proof inv4pi_ok as I. pose proof PI_bounds as [L U]. assert (0 < PI) as P by lra.
  replace (2 * PI * M - 1) with (2 * PI * ((M - 2 * Q2R inv4pi) - 2 * (1 / (4 * PI) - Q2R inv4pi))) by (field; lra).
  rewrite Rabs_mult, Rabs_pos_eq by lra. assert (Rabs (M - 2 * Q2R inv4pi - 2 * (1 / (4 * PI) - Q2R inv4pi)) <= 5 / 10 ^ 17 + 2 * (1 / 10 ^ 23)) as B.
  { eapply Rle_trans; [apply Rabs_triang|]. rewrite Rabs_Ropp, Rabs_mult, (Rabs_pos_eq 2) by lra. lra. }
  eapply Rle_trans; [apply Rmult_le_compat_l; [lra|exact B]|]. lra.
Qed.
