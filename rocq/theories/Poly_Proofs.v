(** Normal forms of polynomial expressions, with rational coefficients. *)
From Coq Require Import ZArith QArith Qreals Reals List Bool Lra Lia Qabs.
From Coquelicot Require Import Coquelicot.
From Verif Require Import Base Ylm_Model.
Import ListNotations.
Open Scope R_scope.

Fixpoint poly (n : nat) : Type := match n with O => Q | S n => list (poly n) end.
(** variable n-1-depth ... the outermost list is the variable n-1 *)
Fixpoint pev (n : nat) (env : nat -> R) : poly n -> R :=
  match n return poly n -> R with
  | O => fun q => Q2R q
  | S n => fix go (l : list (poly n)) : R := match l with [] => 0 | c :: l' => pev n env c + env n * go l' end
  end.
Fixpoint pconst (n : nat) (q : Q) : poly n := match n return poly n with O => q | S n => [pconst n q] end.
Definition pzero (n : nat) : poly n := match n return poly n with O => 0%Q | S n => [] end.
Definition isz (n : nat) : poly n -> bool := match n return poly n -> bool with O => fun q => Qeq_bool q 0 | S n => fun l => match l with [] => true | _ => false end end.
Definition pcons (n : nat) (c : poly n) (l : poly (S n)) : poly (S n) := match l with [] => if isz n c then [] else [c] | _ => c :: l end.
Fixpoint padd (n : nat) : poly n -> poly n -> poly n :=
  match n return poly n -> poly n -> poly n with
  | O => fun a b => Qred (a + b)
  | S n => fix go (a b : list (poly n)) : list (poly n) :=
      match a, b with
      | [], _ => b | _, [] => a
      | x :: a', y :: b' => pcons n (padd n x y) (go a' b')
      end
  end.
Fixpoint popp (n : nat) : poly n -> poly n := match n return poly n -> poly n with O => fun a => Qopp a | S n => map (popp n) end.
Fixpoint pmul (n : nat) : poly n -> poly n -> poly n :=
  match n return poly n -> poly n -> poly n with
  | O => fun a b => Qred (a * b)
  | S n => fix go (a b : list (poly n)) : list (poly n) :=
      match a with
      | [] => []
      | x :: a' => padd (S n) (if isz n x then [] else map (pmul n x) b) (match go a' b with [] => [] | r => pzero n :: r end)
      end
  end.
Fixpoint pvar (n i : nat) : poly n :=
  match n return poly n with O => 0%Q | S n => if (i =? n)%nat then [pzero n; pconst n 1] else [pvar n i] end.
Fixpoint norm (n : nat) (e : expr) : poly n :=
  match e with
  | EV i => pvar n i | EC q => pconst n q
  | EAdd a b => padd n (norm n a) (norm n b) | ESub a b => padd n (norm n a) (popp n (norm n b)) | EMul a b => pmul n (norm n a) (norm n b) | EOpp a => popp n (norm n a)
  end.
(** sum of the magnitudes of the coefficients *)
Fixpoint pabs (n : nat) : poly n -> Q :=
  match n return poly n -> Q with
  | O => fun q => Qabs q
  | S n => fix go (l : list (poly n)) : Q := match l with [] => 0%Q | c :: l' => Qred (pabs n c + go l') end
  end.

Lemma pev_cons n env c (l : poly (S n)) : pev (S n) env (c :: l) = pev n env c + env n * pev (S n) env l. Proof. reflexivity. Qed.
Lemma pev_nil n env : pev (S n) env [] = 0. Proof. reflexivity. Qed.
Lemma pev_zero n env : pev n env (pzero n) = 0. Proof. destruct n; [apply RMicromega.Q2R_0|reflexivity]. Qed.
Lemma pev_const n env q : pev n env (pconst n q) = Q2R q.
Proof. induction n as [|n IH]; [reflexivity|]. cbn [pconst]. rewrite pev_cons, pev_nil, IH. ring. Qed.
Lemma isz_ok n env c : isz n c = true -> pev n env c = 0.
Proof. destruct n; cbn [isz]; intros H; [apply Qeq_bool_iff in H; apply Qeq_eqR in H; cbn [pev]; rewrite H; apply RMicromega.Q2R_0|destruct c; [reflexivity|discriminate]]. Qed.
Lemma pcons_ok n env c l : pev (S n) env (pcons n c l) = pev n env c + env n * pev (S n) env l.
Proof. unfold pcons. destruct l as [|y l]; [|apply pev_cons]. destruct (isz n c) eqn:E; [rewrite (isz_ok n env c E); change (0 = 0 + env n * 0); ring|rewrite pev_cons; reflexivity]. Qed.
Lemma Q2R_red q : Q2R (Qred q) = Q2R q. Proof. apply Qeq_eqR, Qred_correct. Qed.
Lemma padd_ok n env : forall a b, pev n env (padd n a b) = pev n env a + pev n env b.
Proof.
  induction n as [|n IH]; intros a b; [cbn [padd pev]; rewrite Q2R_red; apply Q2R_plus|].
  revert b. induction a as [|x a IHa]; intros b; [change (padd (S n) [] b) with b; rewrite pev_nil; ring|].
  destruct b as [|y b]; [change (padd (S n) (x :: a) []) with (x :: a); rewrite pev_nil; ring|].
  change (padd (S n) (x :: a) (y :: b)) with (pcons n (padd n x y) (padd (S n) a b)). rewrite pcons_ok, IHa, IH, !pev_cons. ring.
Qed.
Lemma popp_ok n env : forall a, pev n env (popp n a) = - pev n env a.
Proof.
  induction n as [|n IH]; intros a; [apply Q2R_opp|]. induction a as [|x a IHa]; [cbn; ring|].
  change (popp (S n) (x :: a)) with (popp n x :: popp (S n) a). rewrite !pev_cons, IH, IHa. ring.
Qed.
Lemma pmul_ok n env : forall a b, pev n env (pmul n a b) = pev n env a * pev n env b.
Proof.
  induction n as [|n IH]; intros a b; [cbn [pmul pev]; rewrite Q2R_red; apply Q2R_mult|].
  induction a as [|x a IHa]; [change (pmul (S n) [] b) with (@nil (poly n)); change (0 = 0 * pev (S n) env b); ring|].
  change (pmul (S n) (x :: a) b) with (padd (S n) (if isz n x then [] else map (pmul n x) b) (match pmul (S n) a b with [] => [] | r => pzero n :: r end)).
  rewrite padd_ok, pev_cons. assert (pev (S n) env (match pmul (S n) a b with [] => [] | r => pzero n :: r end) = env n * (pev (S n) env a * pev (S n) env b)) as ->.
  { rewrite <- IHa. destruct (pmul (S n) a b) as [|c r]; [change (0 = env n * 0); ring|change (pev n env (pzero n) + env n * pev (S n) env (c :: r) = env n * pev (S n) env (c :: r)); rewrite pev_zero; ring]. }
  assert (pev (S n) env (if isz n x then [] else map (pmul n x) b) = pev n env x * pev (S n) env b) as ->; [|ring].
  destruct (isz n x) eqn:E; [rewrite (isz_ok n env x E); change (0 = 0 * pev (S n) env b); ring|]. clear IHa. induction b as [|y b IHb]; [change (0 = pev n env x * 0); ring|]. cbn [map]. rewrite !pev_cons, IH, IHb. ring.
Qed.
Lemma pvar_ok n env i : (i < n)%nat -> pev n env (pvar n i) = env i.
Proof.
  induction n as [|n IH]; intros H; [lia|]. cbn [pvar]. destruct (Nat.eqb_spec i n) as [->|N].
  - rewrite !pev_cons, pev_nil, pev_zero, pev_const, RMicromega.Q2R_1. ring.
  - rewrite pev_cons, pev_nil, IH by lia. ring.
Qed.
Fixpoint vars (n : nat) (e : expr) : bool :=
  match e with EV i => (i <? n)%nat | EC _ => true | EAdd a b | ESub a b | EMul a b => vars n a && vars n b | EOpp a => vars n a end.
Lemma norm_ok n env e : vars n e = true -> pev n env (norm n e) = ev e env.
Proof.
  induction e; cbn [vars norm ev]; intros H; rewrite ?andb_true_iff in H; try match type of H with _ /\ _ => destruct H as [H1 H2] end.
  - apply pvar_ok. apply Nat.ltb_lt. exact H.
  - apply pev_const.
  - rewrite padd_ok, IHe1, IHe2 by assumption. reflexivity.
  - rewrite padd_ok, popp_ok, IHe1, IHe2 by assumption. reflexivity.
  - rewrite pmul_ok, IHe1, IHe2 by assumption. reflexivity.
  - rewrite popp_ok, IHe by assumption. reflexivity.
Qed.
Lemma Q2R_abs q : Q2R (Qabs q) = Rabs (Q2R q).
Proof.
  destruct (Qlt_le_dec q 0) as [L|L].
  - rewrite (Qeq_eqR _ _ (Qabs_neg q (Qlt_le_weak _ _ L))), Q2R_opp. apply Qlt_Rlt in L. rewrite RMicromega.Q2R_0 in L. rewrite Rabs_left by exact L. reflexivity.
  - rewrite (Qeq_eqR _ _ (Qabs_pos q L)). apply Qle_Rle in L. rewrite RMicromega.Q2R_0 in L. rewrite Rabs_right by (apply Rle_ge; exact L). reflexivity.
Qed.
Lemma pabs_ok n env : (forall i, (i < n)%nat -> Rabs (env i) <= 1) -> forall p, Rabs (pev n env p) <= Q2R (pabs n p).
Proof.
  induction n as [|n IH]; intros H p; [cbn [pev pabs]; rewrite Q2R_abs; lra|].
  induction p as [|c p IHp]; [rewrite pev_nil, Rabs_R0; change (pabs (S n) []) with 0%Q; rewrite RMicromega.Q2R_0; lra|].
  change (pabs (S n) (c :: p)) with (Qred (pabs n c + pabs (S n) p)). rewrite Q2R_red, Q2R_plus, pev_cons.
  eapply Rle_trans; [apply Rabs_triang|]. apply Rplus_le_compat; [apply IH; intros i Hi; apply H; lia|].
  rewrite Rabs_mult. eapply Rle_trans; [|exact IHp]. rewrite <- (Rmult_1_l (Rabs (pev (S n) env p))) at 2. apply Rmult_le_compat_r; [apply Rabs_pos|apply H; lia].
Qed.
(** a bound for the difference of two expressions *)
Definition close (n : nat) (eps : Q) (a b : expr) : bool := vars n a && vars n b && Qle_bool (pabs n (norm n (ESub a b))) eps.
Lemma close_ok n eps a b env : close n eps a b = true -> (forall i, (i < n)%nat -> Rabs (env i) <= 1) -> Rabs (ev a env - ev b env) <= Q2R eps.
Proof.
  unfold close. rewrite !andb_true_iff. intros [[Ha Hb] Hc] H. change (ev a env - ev b env) with (ev (ESub a b) env). rewrite <- (norm_ok n) by (cbn [vars]; rewrite Ha, Hb; reflexivity).
  eapply Rle_trans; [apply pabs_ok; exact H|]. apply Qle_Rle. apply Qle_bool_iff. exact Hc.
Qed.
(** equality of two expressions *)
Fixpoint allz (n : nat) : poly n -> bool := match n return poly n -> bool with O => fun q => Qeq_bool q 0 | S n => forallb (allz n) end.
Lemma allz_ok n env : forall p, allz n p = true -> pev n env p = 0.
Proof.
  induction n as [|n IH]; intros p H; [exact (isz_ok 0 env p H)|]. induction p as [|c p IHp]; [reflexivity|]. change (forallb (allz n) (c :: p) = true) in H. cbn [forallb] in H. apply andb_true_iff in H. destruct H as [Hc Hp].
  rewrite pev_cons, (IH c Hc), (IHp Hp). ring.
Qed.
Definition same (n : nat) (a b : expr) : bool := vars n a && vars n b && allz n (norm n (ESub a b)).
Lemma same_ok n a b env : same n a b = true -> ev a env = ev b env.
Proof.
  unfold same. rewrite !andb_true_iff. intros [[Ha Hb] Hc]. assert (ev (ESub a b) env = 0) as E; [|cbn [ev] in E; lra].
  rewrite <- (norm_ok n) by (cbn [vars]; rewrite Ha, Hb; reflexivity). apply allz_ok. exact Hc.
Qed.
(** substitution and derivative *)
Fixpoint subst (s : nat -> expr) (e : expr) : expr :=
  match e with EV i => s i | EC q => EC q | EAdd a b => EAdd (subst s a) (subst s b) | ESub a b => ESub (subst s a) (subst s b) | EMul a b => EMul (subst s a) (subst s b) | EOpp a => EOpp (subst s a) end.
Lemma subst_ok s e env : ev (subst s e) env = ev e (fun i => ev (s i) env).
Proof. induction e; cbn [subst ev]; rewrite ?IHe1, ?IHe2, ?IHe; reflexivity. Qed.
Lemma ev_ext e env env' : (forall i, env i = env' i) -> ev e env = ev e env'.
Proof. intros H. induction e; cbn [ev]; rewrite ?IHe1, ?IHe2, ?IHe, ?H; reflexivity. Qed.
Fixpoint dE (v : nat) (e : expr) : expr :=
  match e with
  | EV i => if (i =? v)%nat then EC 1 else EC 0 | EC _ => EC 0 | EAdd a b => EAdd (dE v a) (dE v b) | ESub a b => ESub (dE v a) (dE v b)
  | EMul a b => EAdd (EMul (dE v a) b) (EMul a (dE v b)) | EOpp a => EOpp (dE v a)
  end.
Definition upd (env : nat -> R) (v : nat) (t : R) : nat -> R := fun i => if (i =? v)%nat then t else env i.
Lemma upd_self env v i : upd env v (env v) i = env i. Proof. unfold upd. destruct (Nat.eqb_spec i v) as [->|]; reflexivity. Qed.
Lemma dE_ok v e env t : is_derive (fun s => ev e (upd env v s)) t (ev (dE v e) (upd env v t)).
Proof.
  induction e; cbn [dE ev].
  - unfold upd at 1. destruct (Nat.eqb_spec i v) as [->|N]; cbn [ev].
    + rewrite RMicromega.Q2R_1. apply (is_derive_id (K := R_AbsRing)).
    + rewrite RMicromega.Q2R_0. apply (is_derive_const (K := R_AbsRing) (V := R_NormedModule)).
  - rewrite RMicromega.Q2R_0. apply (is_derive_const (K := R_AbsRing) (V := R_NormedModule)).
  - apply (is_derive_plus (K := R_AbsRing) (V := R_NormedModule)); assumption.
  - apply (is_derive_minus (K := R_AbsRing) (V := R_NormedModule)); assumption.
  - apply (is_derive_mult (K := R_AbsRing)); try assumption. intros; apply Rmult_comm.
  - apply (is_derive_opp (K := R_AbsRing) (V := R_NormedModule)); assumption.
Qed.
