(** Kinetic energy, stress, chains of thermostats and strain rates. *)
From Coq Require Import ZArith Reals Bool List Lia Lra Psatz.
From Coquelicot Require Import Coquelicot.
From Verif Require Import Base Vec3_Model Vec3_Facts Lattice_Model Coulomb_Proofs Sym_Model Sym_Spec Sym_Proofs7 Sym_Proofs8 Ions_Model Ions_Spec Ions_Proofs Ions_Proofs2 VdW_Proofs3 Dynamics_Model Dynamics_Spec.
Import ListNotations.
Local Open Scope R_scope.
Set Bullet Behavior "Strict Subproofs".

(** ** Loops over the atoms *)
Lemma fold_total cs (f : nat -> nat -> R) a : fold_left (fun acc i => acc + f (fst i) (snd i)) (atoms cs) a = a + total cs f.
Proof.
  unfold total. generalize a. induction (atoms cs) as [|i l IH]; intros b; cbn [fold_left fold_right]; [lra|]. rewrite IH. lra.
Qed.
Lemma metric_len (Rl : mat R) (u : vec R) : metric2 (rmm (mtrans Rl) Rl) u = rlen2 (rmv Rl u).
Proof. destruct Rl, u. unfold metric2. v3u. ring. Qed.
Lemma back (Rl : mat R) (v : vec R) : rdet Rl <> 0 -> rmv Rl (rmv (rinv Rl) v) = v.
Proof. intros H. rewrite <- rmv_mm, rinv_r, rmv_id by exact H. reflexivity. Qed.
Lemma ke_kinetic cs mass Rl v : rdet Rl <> 0 -> computeKE cs mass Rl (gmat (rinv Rl) v) = kinetic cs mass v.
Proof.
  intros H. unfold computeKE. rewrite (fold_total cs (fun sp a => 1 / 2 * mass sp * metric2 (rmm (mtrans Rl) Rl) (gmat (rinv Rl) v sp a))).
  unfold kinetic. rewrite Rplus_0_l. apply total_ext. intros sp a _. rewrite metric_len. unfold gmat. rewrite (back Rl _ H). destruct (v sp a). v3u. ring.
Qed.
Lemma contract_sub L A B : contract L (rmsub A B) = contract L A - contract L B.
Proof. destruct L, A, B. unfold contract. v3u. ring. Qed.
Lemma contract_add L A B : contract L (rmadd A B) = contract L A + contract L B.
Proof. destruct L, A, B. unfold contract. v3u. ring. Qed.
Lemma contract_scale L k A : contract L (rmscale k A) = k * contract L A.
Proof. destruct L, A. unfold contract. v3u. ring. Qed.
Lemma contract_comm A B : contract A B = contract B A.
Proof. destruct A, B. unfold contract. v3u. ring. Qed.
Lemma contract_id L : contract L rid = rtrace L.
Proof. destruct L. unfold contract. v3u. ring. Qed.
Lemma contract_zero L : contract L (rdiag 0 0 0) = 0.
Proof. destruct L. unfold contract. v3u. ring. Qed.
Lemma contract_outer L v : contract L (outer v v) = rdot (rmv L v) v.
Proof. destruct L, v. unfold contract, outer. v3u. ring. Qed.
Lemma contract_self L : rtrace (rmm (mtrans L) L) = contract L L.
Proof. destruct L. unfold contract. v3u. ring. Qed.
Lemma stress_contract cs mass Rl L s0 v : rdet Rl <> 0 ->
  contract L (totalStress cs mass Rl s0 (gmat (rinv Rl) v)) = contract L s0 - 1 / rdet Rl * power cs mass (gmat L v) v.
Proof.
  intros H. unfold totalStress, power, total. set (D := rdet Rl) in *. generalize s0. induction (atoms cs) as [|[sp a] l IH]; intros s; cbn [fold_left fold_right fst snd].
  - lra.
  - rewrite IH, contract_sub, contract_scale. replace (rmv Rl (gmat (rinv Rl) v sp a)) with (v sp a) by (symmetry; apply (back Rl _ H)). rewrite contract_outer.
    match goal with |- _ - ?k * _ - _ * ?x = _ - _ * (?y + ?x') => replace y with (mass sp * rdot (rmv L (v sp a)) (v sp a)) by reflexivity; generalize x end.
    intros T. field. exact H.
Qed.

(** ** Chains *)
Lemma chain_sum n n0 T w2 first v k : w2 <> 0 -> (k < n)%nat ->
  fold_right (fun j acc => (if Nat.eqb j 0 then n0 else 1) * T * (v j * chainAccel n w2 first n0 v j / w2 + v j) + acc) 0 (seq 0 (S k))
  = n0 * T * v 0%nat * (first / w2 + 1) - (if Nat.ltb (k + 1) n then (if Nat.eqb k 0 then n0 else 1) * T * (v k)^2 * v (k + 1)%nat / w2 else 0).
Proof.
  intros W. induction k as [|k IH]; intros K.
  - cbn [seq fold_right Nat.eqb]. unfold chainAccel. destruct (Nat.ltb (0 + 1) n); field; exact W.
  - rewrite seq_S, fold_right_app. cbn [fold_right]. rewrite Nat.add_0_l.
    assert (G : forall (f : nat -> R) l x, fold_right (fun j acc => f j + acc) x l = fold_right (fun j acc => f j + acc) 0 l + x) by (clear; induction l; intros; cbn; [lra|]; rewrite IHl; lra).
    rewrite (G (fun j => (if Nat.eqb j 0 then n0 else 1) * T * (v j * chainAccel n w2 first n0 v j / w2 + v j))), IH by lia.
    assert (E : Nat.ltb (k + 1) n = true) by (apply Nat.ltb_lt; lia). rewrite E.
    replace (Nat.eqb (S k) 0) with false by reflexivity.
    assert (A : chainAccel n w2 first n0 v (S k) = (if Nat.eqb k 0 then n0 else 1) * (v k)^2 - w2 - (if Nat.ltb (S k + 1) n then v (S k) * v (S k + 1)%nat else 0)).
    { clear. unfold chainAccel. destruct (Nat.ltb (S k + 1) n); destruct k as [|k]; cbn [Nat.sub Nat.eqb]; ring. }
    rewrite A. replace (k + 1)%nat with (S k) by lia. set (e := if Nat.eqb k 0 then n0 else 1).
    destruct (Nat.ltb (S k + 1) n); field; exact W.
Qed.
Lemma chain_rate n n0 T w2 first v : w2 <> 0 -> (0 < n)%nat ->
  fold_right (fun j acc => (if Nat.eqb j 0 then n0 else 1) * T * (v j * chainAccel n w2 first n0 v j / w2 + v j) + acc) 0 (seq 0 n)
  = n0 * T * v 0%nat * (first / w2 + 1).
Proof.
  intros W N. destruct n as [|k]; [lia|]. rewrite (chain_sum (S k) n0 T w2 first v k W) by lia.
  replace (Nat.ltb (k + 1) (S k)) with false by (symmetry; apply Nat.ltb_ge; lia). lra.
Qed.
Lemma chain_derive n n0 T w2 first (v eta : R -> nat -> R) t : w2 <> 0 -> (0 < n)%nat ->
  (forall j, (j < n)%nat -> is_derive (fun s => v s j) t (chainAccel n w2 first n0 (v t) j)) -> (forall j, is_derive (fun s => eta s j) t (v t j)) ->
  is_derive (fun s => chain_energy n n0 T w2 (v s) (eta s)) t (n0 * T * v t 0%nat * (first / w2 + 1)).
Proof.
  intros W N Dv De. rewrite <- (chain_rate n n0 T w2 first (v t) W N). unfold chain_energy.
  assert (Hl : forall j, In j (seq 0 n) -> (j < n)%nat) by (intros j Hj; apply in_seq in Hj; lia). revert Hl.
  generalize (seq 0 n). induction l as [|j l IH]; intros Hl; cbn [fold_right]; [apply dconst|]. apply dplus; [|apply IH; intros i Hi; apply Hl; right; exact Hi].
  assert (Dj := Dv j (Hl j (or_introl eq_refl))).
  apply dscal. apply dplus; [|apply De]. apply (is_derive_ext (fun s => / w2 * (1/2 * (v s j * v s j)))).
  { intros s. match goal with |- ?a = ?b => change (@eq R a b) end. field. exact W. }
  eapply dval; [apply dscal, dscal, dmul; apply Dj|]. cbv beta. match goal with |- ?a = ?b => change (@eq R a b) end. field. exact W.
Qed.

(** ** Strain rates *)
Lemma trace_mm A B : rtrace (rmm A B) = rtrace (rmm B A).
Proof. destruct A, B. v3u. ring. Qed.
Lemma contract_trace L A : mtrans L = L -> contract L A = rtrace (rmm L A).
Proof. intros E. rewrite <- E at 2. destruct L, A. unfold contract. v3u. ring. Qed.
Lemma rmm_assoc3 (A B C : mat R) : rmm (rmm A B) C = rmm A (rmm B C). Proof. destruct A, B, C. v3u. f_equal; ring. Qed.
Lemma rotCart_cartesian Rl p : rotCart Rl p = cartesian Rl p. Proof. reflexivity. Qed.
Lemma trace_add A B : rtrace (rmadd A B) = rtrace A + rtrace B. Proof. destruct A, B. v3u. ring. Qed.
Lemma trace_scale k A : rtrace (rmscale k A) = k * rtrace A. Proof. destruct A. v3u. ring. Qed.
Lemma contract_sym_part L A : mtrans L = L -> contract L (rmscale (1/2) (rmadd A (mtrans A))) = contract L A.
Proof.
  intros E. rewrite contract_scale, contract_add. assert (F : contract L (mtrans A) = contract L A).
  { rewrite <- E at 1. destruct L, A. unfold contract. v3u. ring. } rewrite F. lra.
Qed.
Lemma contract_PP L P A : mtrans L = L -> rmm (rmm P L) P = L -> contract L (rmm (rmm P A) P) = contract L A.
Proof.
  intros E F. rewrite !(contract_trace L) by exact E. rewrite <- !rmm_assoc3. rewrite trace_mm. rewrite <- !rmm_assoc3, F. reflexivity.
Qed.
Lemma orth_other Q : orthogonal Q -> rmm Q (mtrans Q) = rid.
Proof.
  intros H. destruct (orth_det Q H) as [E|E]; assert (D : rdet Q <> 0) by lra.
  all: assert (F : mtrans Q = rinv Q) by (transitivity (rmm (mtrans Q) (rmm Q (rinv Q))); [rewrite rinv_r by exact D; destruct (mtrans Q); v3u; f_equal; ring|rewrite rmm_assoc, H; destruct (rinv Q); v3u; f_equal; ring]).
  all: rewrite F; apply rinv_r; exact D.
Qed.
Lemma contract_conj L Q A : mtrans L = L -> orthogonal Q -> rmm (rmm Q L) (mtrans Q) = L -> contract L (rmm (rmm Q A) (mtrans Q)) = contract L A.
Proof.
  intros E O F. rewrite !(contract_trace L) by exact E. rewrite <- F at 1.
  replace (rmm (rmm (rmm Q L) (mtrans Q)) (rmm (rmm Q A) (mtrans Q))) with (rmm Q (rmm (rmm L (rmm (rmm (mtrans Q) Q) A)) (mtrans Q))) by (rewrite !rmm_assoc3; reflexivity).
  rewrite O. replace (rmm rid A) with A by (destruct A; v3u; f_equal; ring). rewrite trace_mm, rmm_assoc3, O.
  f_equal. destruct (rmm L A). v3u. f_equal; ring.
Qed.
Lemma contract_tensor L Rl sym A : mtrans L = L -> sym <> [] -> (forall p, In p sym -> orthogonal (cartesian Rl p)) ->
  (forall p, In p sym -> rmm (rmm (cartesian Rl p) L) (mtrans (cartesian Rl p)) = L) -> contract L (symmetrizeTensor Rl sym A) = contract L A.
Proof.
  intros E N O I. unfold symmetrizeTensor. rewrite contract_scale.
  assert (G : forall l a, incl l sym -> contract L (fold_left (fun acc op => rmadd acc (rmm (rmm (rotCart Rl op) A) (mtrans (rotCart Rl op)))) l a) = contract L a + INR (length l) * contract L A).
  { induction l as [|p l IH]; intros a Hl; cbn [fold_left]; [cbn; lra|]. rewrite IH by (intros q Hq; apply Hl; right; exact Hq). rewrite contract_add. rewrite rotCart_cartesian.
    assert (Hp : In p sym) by (apply Hl; left; reflexivity). rewrite (contract_conj L _ A E (O p Hp) (I p Hp)). cbn [length]. rewrite S_INR. lra. }
  unfold rmsum. rewrite G by apply incl_refl. rewrite contract_zero. field. apply not_0_INR. destruct sym; [congruence|discriminate].
Qed.
Lemma trace_tensor Rl sym A : sym <> [] -> (forall p, In p sym -> orthogonal (cartesian Rl p)) -> rtrace (symmetrizeTensor Rl sym A) = rtrace A.
Proof.
  intros N O. rewrite <- !contract_id, (contract_comm _ rid), (contract_comm _ rid). apply contract_tensor; [reflexivity|exact N|exact O|].
  intros p Hp. replace (rmm (cartesian Rl p) rid) with (cartesian Rl p) by (destruct (cartesian Rl p); v3u; f_equal; ring). apply orth_other, O, Hp.
Qed.
Lemma strain_projection Rl sym P iso L A : strain_ok Rl sym P iso L -> sym <> [] -> (forall p, In p sym -> orthogonal (cartesian Rl p)) ->
  mtrans P = P -> rmm P P = P -> rtrace P <> 0 -> contract L (constrainLattice Rl sym P iso A) = contract L A.
Proof.
  intros (E & F & I & J) N O Ps PP Pt. unfold constrainLattice. set (S1 := rmscale (1/2) (rmadd A (mtrans A))).
  destruct iso.
  - destruct (J eq_refl) as (k & ->). rewrite contract_scale, trace_tensor by auto.
    assert (X : contract (rmscale k P) P = k * rtrace P). { rewrite contract_comm, contract_scale, contract_trace, PP; auto. }
    rewrite X. assert (Y : rtrace (rmm (rmm P S1) P) = contract P A).
    { rewrite trace_mm, <- rmm_assoc3, PP, <- contract_trace by auto. apply contract_sym_part, Ps. }
    rewrite Y, (contract_comm (rmscale k P)), contract_scale, (contract_comm A P). field. exact Pt.
  - rewrite contract_tensor, contract_PP; auto. apply contract_sym_part, E.
Qed.
