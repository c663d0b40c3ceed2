(** Finite complex matrices indexed by Fin.t, with Leibniz equality (functional extensionality).
    Used by the models of /repo/jdftx/core/matrix.h (class matrix, operators of matrixOperators.cpp). *)
From Coq Require Import Reals Lra FunctionalExtensionality Arith.
From Coq Require Fin.
From Coquelicot Require Import Coquelicot.
Open Scope C_scope.

Fixpoint fsum {n : nat} : (Fin.t n -> C) -> C :=
  match n with O => fun _ => 0 | S k => fun f => f Fin.F1 + fsum (fun i => f (Fin.FS i)) end.
Definition mat (n m : nat) : Type := Fin.t n -> Fin.t m -> C.
Definition madd {n m} (A B : mat n m) : mat n m := fun i j => A i j + B i j.
Definition msub {n m} (A B : mat n m) : mat n m := fun i j => A i j - B i j.
Definition mscal {n m} (c : C) (A : mat n m) : mat n m := fun i j => c * A i j.
Definition mmul {n m k} (A : mat n m) (B : mat m k) : mat n k := fun i j => fsum (fun l => A i l * B l j).
Definition mzero {n m} : mat n m := fun _ _ => 0.
Definition mdiag {n} (d : Fin.t n -> C) : mat n n := fun i j => if Fin.eq_dec i j then d i else 0.
Definition mone {n} : mat n n := mdiag (fun _ => 1).
Definition madj {n m} (A : mat n m) : mat m n := fun i j => Cconj (A j i).
Definition mtr {n} (A : mat n n) : C := fsum (fun i => A i i).
Definition hermitian {n} (A : mat n n) : Prop := madj A = A.
Definition unitary {n} (A : mat n n) : Prop := mmul (madj A) A = mone /\ mmul A (madj A) = mone.

Declare Scope mat_scope.
Delimit Scope mat_scope with M.
Infix "*" := mmul : mat_scope.
Infix "+" := madd : mat_scope.
Infix "-" := msub : mat_scope.
Notation "A ^H" := (madj A) (at level 5, format "A ^H") : mat_scope.

(** ** Sums *)
Lemma fsum_ext : forall n (f g : Fin.t n -> C), (forall i, f i = g i) -> fsum f = fsum g.
Proof. intros n f g H. f_equal. apply functional_extensionality. exact H. Qed.
Lemma fsum_0 : forall n, fsum (fun _ : Fin.t n => 0) = 0.
Proof. induction n; cbn; [reflexivity|]. rewrite IHn. ring. Qed.
Lemma fsum_add : forall n (f g : Fin.t n -> C), fsum (fun i => f i + g i) = fsum f + fsum g.
Proof. induction n; intros; cbn; [ring|]. rewrite IHn. ring. Qed.
Lemma fsum_sub : forall n (f g : Fin.t n -> C), fsum (fun i => f i - g i) = fsum f - fsum g.
Proof. induction n; intros; cbn; [ring|]. rewrite IHn. ring. Qed.
Lemma fsum_scal : forall n c (f : Fin.t n -> C), fsum (fun i => c * f i) = c * fsum f.
Proof. induction n; intros; cbn; [ring|]. rewrite IHn. ring. Qed.
Lemma fsum_scal_r : forall n c (f : Fin.t n -> C), fsum (fun i => f i * c) = fsum f * c.
Proof. induction n; intros; cbn; [ring|]. rewrite IHn. ring. Qed.
Lemma fsum_swap : forall n m (f : Fin.t n -> Fin.t m -> C), fsum (fun i => fsum (fun j => f i j)) = fsum (fun j => fsum (fun i => f i j)).
Proof.
  induction n; intros; cbn; [symmetry; apply fsum_0|]. rewrite IHn, <- fsum_add. reflexivity.
Qed.
Lemma Cconj_add : forall a b, Cconj (a + b) = Cconj a + Cconj b.
Proof. intros [a1 a2] [b1 b2]. apply injective_projections; cbn; ring. Qed.
Lemma Cconj_sub : forall a b, Cconj (a - b) = Cconj a - Cconj b.
Proof. intros [a1 a2] [b1 b2]. apply injective_projections; cbn; ring. Qed.
Lemma Cconj_mul : forall a b, Cconj (a * b) = Cconj a * Cconj b.
Proof. intros [a1 a2] [b1 b2]. apply injective_projections; cbn; ring. Qed.
Lemma Cconj_conj : forall a, Cconj (Cconj a) = a.
Proof. intros [a1 a2]. apply injective_projections; cbn; ring. Qed.
Lemma Cconj_R : forall r : R, Cconj r = r.
Proof. intros r. apply injective_projections; cbn; ring. Qed.
Lemma Cconj_0 : Cconj 0 = 0. Proof. apply Cconj_R. Qed.
Lemma Cconj_1 : Cconj 1 = 1. Proof. apply Cconj_R. Qed.
Lemma fsum_conj : forall n (f : Fin.t n -> C), Cconj (fsum f) = fsum (fun i => Cconj (f i)).
Proof. induction n; intros; cbn; [apply Cconj_0|]. rewrite Cconj_add, IHn. reflexivity. Qed.
Lemma eq_dec_FS : forall n (i j : Fin.t n) (A : Type) (a b : A), (if Fin.eq_dec (Fin.FS i) (Fin.FS j) then a else b) = (if Fin.eq_dec i j then a else b).
Proof.
  intros. destruct (Fin.eq_dec i j) as [->|H]; destruct (Fin.eq_dec (Fin.FS _) (Fin.FS _)) as [E|E]; try reflexivity; [contradiction E; reflexivity|].
  apply Fin.FS_inj in E. contradiction.
Qed.
Lemma fsum_delta : forall n (i : Fin.t n) (a : Fin.t n -> C), fsum (fun j => if Fin.eq_dec i j then a j else 0) = a i.
Proof.
  induction i; intros a; cbn [fsum].
  - destruct (Fin.eq_dec Fin.F1 Fin.F1); [|contradiction]. rewrite (fsum_ext _ _ (fun _ => 0)); [rewrite fsum_0; ring|]. intros j. destruct (Fin.eq_dec Fin.F1 (Fin.FS j)) as [E|E]; [discriminate E|reflexivity].
  - destruct (Fin.eq_dec (Fin.FS i) Fin.F1) as [E|E]; [discriminate E|]. rewrite (fsum_ext _ _ (fun j => if Fin.eq_dec i j then a (Fin.FS j) else 0)); [rewrite IHi; ring|]. intros j. apply eq_dec_FS.
Qed.
(** real parts *)
Lemma fsum_re : forall n (f : Fin.t n -> C), Re (fsum f) = Re (fsum (fun i => RtoC (Re (f i)))).
Proof. induction n; intros; cbn; [reflexivity|]. specialize (IHn (fun i => f (Fin.FS i))). cbn in IHn. unfold Re in *. rewrite IHn. reflexivity. Qed.

(** ** Matrix algebra *)
Lemma mat_ext : forall n m (A B : mat n m), (forall i j, A i j = B i j) -> A = B.
Proof. intros. apply functional_extensionality; intros i. apply functional_extensionality; intros j. apply H. Qed.
Lemma mmul_assoc : forall n m k l (A : mat n m) (B : mat m k) (D : mat k l), mmul A (mmul B D) = mmul (mmul A B) D.
Proof.
  intros. apply mat_ext. intros i j. unfold mmul.
  transitivity (fsum (fun p => fsum (fun q => A i p * B p q * D q j))).
  - apply fsum_ext. intros p. rewrite <- fsum_scal. apply fsum_ext. intros; ring.
  - rewrite fsum_swap. apply fsum_ext. intros q. rewrite <- fsum_scal_r. reflexivity.
Qed.
Lemma mmul_add_l : forall n m k (A B : mat n m) (D : mat m k), mmul (madd A B) D = madd (mmul A D) (mmul B D).
Proof. intros. apply mat_ext. intros. unfold mmul, madd. rewrite <- fsum_add. apply fsum_ext. intros; ring. Qed.
Lemma mmul_add_r : forall n m k (A : mat n m) (B D : mat m k), mmul A (madd B D) = madd (mmul A B) (mmul A D).
Proof. intros. apply mat_ext. intros. unfold mmul, madd. rewrite <- fsum_add. apply fsum_ext. intros; ring. Qed.
Lemma mmul_sub_l : forall n m k (A B : mat n m) (D : mat m k), mmul (msub A B) D = msub (mmul A D) (mmul B D).
Proof. intros. apply mat_ext. intros. unfold mmul, msub. rewrite <- fsum_sub. apply fsum_ext. intros; ring. Qed.
Lemma mmul_sub_r : forall n m k (A : mat n m) (B D : mat m k), mmul A (msub B D) = msub (mmul A B) (mmul A D).
Proof. intros. apply mat_ext. intros. unfold mmul, msub. rewrite <- fsum_sub. apply fsum_ext. intros; ring. Qed.
Lemma mmul_scal_l : forall n m k c (A : mat n m) (D : mat m k), mmul (mscal c A) D = mscal c (mmul A D).
Proof. intros. apply mat_ext. intros. unfold mmul, mscal. rewrite <- fsum_scal. apply fsum_ext. intros; ring. Qed.
Lemma mmul_scal_r : forall n m k c (A : mat n m) (D : mat m k), mmul A (mscal c D) = mscal c (mmul A D).
Proof. intros. apply mat_ext. intros. unfold mmul, mscal. rewrite <- fsum_scal. apply fsum_ext. intros; ring. Qed.
Lemma mmul_0_l : forall n m k (D : mat m k), mmul (mzero : mat n m) D = mzero.
Proof. intros. apply mat_ext. intros. unfold mmul, mzero. transitivity (fsum (fun _ : Fin.t m => RtoC 0)); [apply fsum_ext; intros; apply Cmult_0_l|apply fsum_0]. Qed.
Lemma mmul_0_r : forall n m k (A : mat n m), mmul A (mzero : mat m k) = mzero.
Proof. intros. apply mat_ext. intros. unfold mmul, mzero. transitivity (fsum (fun _ : Fin.t m => RtoC 0)); [apply fsum_ext; intros; apply Cmult_0_r|apply fsum_0]. Qed.
Lemma mdiag_l : forall n m d (A : mat n m), mmul (mdiag d) A = fun i j => d i * A i j.
Proof.
  intros. apply mat_ext. intros i j. unfold mmul, mdiag. rewrite <- (fsum_delta n i (fun l => d i * A l j)). apply fsum_ext. intros l. destruct (Fin.eq_dec i l); [reflexivity|ring].
Qed.
Lemma mdiag_r : forall n m d (A : mat m n), mmul A (mdiag d) = fun i j => A i j * d j.
Proof.
  intros. apply mat_ext. intros i j. unfold mmul, mdiag. rewrite <- (fsum_delta n j (fun l => A i l * d l)). apply fsum_ext. intros l. destruct (Fin.eq_dec l j) as [->|H]; destruct (Fin.eq_dec j _) as [E|E]; try reflexivity; try congruence. ring.
Qed.
Lemma mone_l : forall n m (A : mat n m), mmul mone A = A.
Proof. intros. unfold mone. rewrite mdiag_l. apply mat_ext. intros; apply Cmult_1_l. Qed.
Lemma mone_r : forall n m (A : mat n m), mmul A mone = A.
Proof. intros. unfold mone. rewrite mdiag_r. apply mat_ext. intros; apply Cmult_1_r. Qed.
Lemma mdiag_mul : forall n (a b : Fin.t n -> C), mmul (mdiag a) (mdiag b) = mdiag (fun i => a i * b i).
Proof. intros. rewrite mdiag_l. apply mat_ext. intros i j. unfold mdiag. destruct (Fin.eq_dec i j); [subst; reflexivity|ring]. Qed.
Lemma madj_mul : forall n m k (A : mat n m) (B : mat m k), madj (mmul A B) = mmul (madj B) (madj A).
Proof. intros. apply mat_ext. intros. unfold madj, mmul. rewrite fsum_conj. apply fsum_ext. intros. rewrite Cconj_mul. ring. Qed.
Lemma madj_adj : forall n m (A : mat n m), madj (madj A) = A.
Proof. intros. apply mat_ext. intros. unfold madj. apply Cconj_conj. Qed.
Lemma madj_add : forall n m (A B : mat n m), madj (madd A B) = madd (madj A) (madj B).
Proof. intros. apply mat_ext. intros. apply Cconj_add. Qed.
Lemma madj_sub : forall n m (A B : mat n m), madj (msub A B) = msub (madj A) (madj B).
Proof. intros. apply mat_ext. intros. apply Cconj_sub. Qed.
Lemma madj_scal : forall n m c (A : mat n m), madj (mscal c A) = mscal (Cconj c) (madj A).
Proof. intros. apply mat_ext. intros. apply Cconj_mul. Qed.
Lemma madj_diag : forall n (d : Fin.t n -> C), madj (mdiag d) = mdiag (fun i => Cconj (d i)).
Proof. intros. apply mat_ext. intros i j. unfold madj, mdiag. destruct (Fin.eq_dec i j) as [->|H]; destruct (Fin.eq_dec j _); try congruence; try reflexivity. apply Cconj_0. Qed.
Lemma madj_one : forall n, madj (mone : mat n n) = mone.
Proof. intros. unfold mone. rewrite madj_diag. f_equal. apply functional_extensionality. intros. apply Cconj_1. Qed.
Lemma madj_zero : forall n m, madj (mzero : mat n m) = mzero.
Proof. intros. apply mat_ext. intros. apply Cconj_0. Qed.
Lemma mtr_comm : forall n m (A : mat n m) (B : mat m n), mtr (mmul A B) = mtr (mmul B A).
Proof. intros. unfold mtr, mmul. rewrite fsum_swap. apply fsum_ext. intros i. apply fsum_ext. intros; ring. Qed.
Lemma mtr_add : forall n (A B : mat n n), mtr (madd A B) = mtr A + mtr B.
Proof. intros. apply fsum_add. Qed.
Lemma mtr_sub : forall n (A B : mat n n), mtr (msub A B) = mtr A - mtr B.
Proof. intros. apply fsum_sub. Qed.
Lemma mtr_scal : forall n c (A : mat n n), mtr (mscal c A) = c * mtr A.
Proof. intros. apply fsum_scal. Qed.
Lemma mtr_adj : forall n (A : mat n n), mtr (madj A) = Cconj (mtr A).
Proof. intros. unfold mtr. rewrite fsum_conj. reflexivity. Qed.
Lemma mtr_mul : forall n m (A : mat n m) (B : mat m n), mtr (mmul A B) = fsum (fun i => fsum (fun j => A i j * B j i)).
Proof. reflexivity. Qed.
Lemma madd_comm : forall n m (A B : mat n m), madd A B = madd B A.
Proof. intros. apply mat_ext. intros. unfold madd. ring. Qed.
(** similarity by a unitary matrix *)
Lemma unitary_adj : forall n (V : mat n n), unitary V -> unitary (madj V).
Proof. intros n V [H1 H2]. split; rewrite madj_adj; assumption. Qed.
Lemma unitary_mul : forall n (V W : mat n n), unitary V -> unitary W -> unitary (mmul V W).
Proof.
  intros n V W [V1 V2] [W1 W2]. split; rewrite madj_mul.
  - rewrite mmul_assoc, <- (mmul_assoc _ _ _ _ (madj W)), V1, mone_r. exact W1.
  - rewrite mmul_assoc, <- (mmul_assoc _ _ _ _ V), W2, mone_r. exact V2.
Qed.
Lemma unitary_one : forall n, unitary (mone : mat n n).
Proof. intros. split; rewrite madj_one, mone_l; reflexivity. Qed.
(** a positive sum vanishes only if all terms do *)
Lemma fsum_nonneg : forall n (f : Fin.t n -> R), (forall i, (0 <= f i)%R) -> exists r : R, fsum (fun i => RtoC (f i)) = r /\ (0 <= r)%R /\ (r = 0%R -> forall i, f i = 0%R).
Proof.
  induction n; intros f H.
  - exists 0%R. split; [reflexivity|]. split; [lra|]. intros _ i. inversion i.
  - destruct (IHn (fun i => f (Fin.FS i)) (fun i => H (Fin.FS i))) as (r & E & P & Z). exists (f Fin.F1 + r)%R. cbn. rewrite E. pose proof (H Fin.F1). split; [symmetry; apply RtoC_plus|]. split; [lra|].
    intros E0. assert (f Fin.F1 = 0%R) by lra. assert (r = 0%R) by lra.
    intros i. apply (Fin.caseS' i); [exact H1|]. intros p. apply Z. exact H2.
Qed.
Lemma Cconj_sq : forall a : C, Cconj a * a = RtoC (Re a * Re a + Im a * Im a).
Proof. intros [a b]. apply injective_projections; cbn; ring. Qed.
Lemma mtr_sq_zero : forall n m (A : mat n m), mtr (mmul (madj A) A) = 0 -> A = mzero.
Proof.
  intros n m A H. unfold mtr, mmul, madj in H. 
  assert (forall j, exists r : R, fsum (fun l => Cconj (A l j) * A l j) = r /\ (0 <= r)%R /\ (r = 0%R -> forall i, A i j = 0)) as Hc.
  { intros j. destruct (fsum_nonneg n (fun l => Re (A l j) * Re (A l j) + Im (A l j) * Im (A l j))%R) as (r & E & P & Z).
    - intros i. nra.
    - exists r. split; [rewrite <- E; apply fsum_ext; intros; apply Cconj_sq|]. split; [exact P|]. intros E0 i. specialize (Z E0 i). cbn in Z. destruct (A i j) as [a b]. cbn in Z. apply injective_projections; cbn; nra. }
  set (col := fun j => Re (fsum (fun l => Cconj (A l j) * A l j))).
  assert (forall j, fsum (fun l => Cconj (A l j) * A l j) = RtoC (col j) /\ (0 <= col j)%R /\ (col j = 0%R -> forall i, A i j = 0)) as Hc'.
  { intros j. unfold col. destruct (Hc j) as (r & E & P & Z). rewrite E. cbn. auto. }
  destruct (fsum_nonneg m col) as (r & E & P & Z); [intros j; apply (Hc' j)|].
  rewrite (fsum_ext _ _ (fun j => RtoC (col j))) in H by (intros j; apply (Hc' j)). rewrite E in H.
  apply RtoC_inj in H. apply mat_ext. intros i j. apply (Hc' j). apply Z. exact H.
Qed.
