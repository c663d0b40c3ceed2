From Coq Require Import Reals List Bool Arith Lra Lia FunctionalExtensionality.
From Coq Require Fin.
From Coquelicot Require Import Coquelicot.
From Verif Require Import CMat MatFun_Model MatFun_Spec ExCompute_Model ExCompute_Spec.
Import ListNotations.
Open Scope C_scope.

Lemma sumC_cons : forall A (x : A) l f, sumC (x :: l) f = f x + sumC l f. Proof. reflexivity. Qed.
Lemma sumR_cons : forall A (x : A) l f, sumR (x :: l) f = (f x + sumR l f)%R. Proof. reflexivity. Qed.
Lemma sumC_ext : forall A (l : list A) f g, (forall x, In x l -> f x = g x) -> sumC l f = sumC l g.
Proof. induction l as [|x l IH]; intros f g H; [reflexivity|]. rewrite ?sumC_cons, ?sumR_cons. rewrite (H x) by (left; reflexivity). rewrite (IH f g); [reflexivity|]. intros y Hy. apply H. right. exact Hy. Qed.
Lemma sumR_ext : forall A (l : list A) f g, (forall x, In x l -> f x = g x) -> sumR l f = sumR l g.
Proof. induction l as [|x l IH]; intros f g H; [reflexivity|]. rewrite ?sumC_cons, ?sumR_cons. rewrite (H x) by (left; reflexivity). rewrite (IH f g); [reflexivity|]. intros y Hy. apply H. right. exact Hy. Qed.
Lemma sumC_scal : forall A (l : list A) c f, sumC l (fun x => c * f x) = c * sumC l f.
Proof. induction l as [|x l IH]; intros c f; [cbn; ring|]. rewrite ?sumC_cons, ?sumR_cons. rewrite IH. ring. Qed.
Lemma sumC_add : forall A (l : list A) f g, sumC l (fun x => f x + g x) = sumC l f + sumC l g.
Proof. induction l as [|x l IH]; intros f g; [cbn; ring|]. rewrite ?sumC_cons, ?sumR_cons. rewrite IH. ring. Qed.
Lemma sumC_0 : forall A (l : list A), sumC l (fun _ => 0) = 0.
Proof. induction l as [|x l IH]; [reflexivity|]. rewrite ?sumC_cons, ?sumR_cons. rewrite IH. ring. Qed.
Lemma sumR_0 : forall A (l : list A), sumR l (fun _ => 0%R) = 0%R.
Proof. induction l as [|x l IH]; [reflexivity|]. rewrite ?sumC_cons, ?sumR_cons. rewrite IH. ring. Qed.
Lemma sumR_scal : forall A (l : list A) c f, sumR l (fun x => (c * f x)%R) = (c * sumR l f)%R.
Proof. induction l as [|x l IH]; intros c f; [cbn; ring|]. rewrite ?sumC_cons, ?sumR_cons. rewrite IH. ring. Qed.
Lemma sumR_add : forall A (l : list A) f g, sumR l (fun x => (f x + g x)%R) = (sumR l f + sumR l g)%R.
Proof. induction l as [|x l IH]; intros f g; [cbn; ring|]. rewrite ?sumC_cons, ?sumR_cons. rewrite IH. ring. Qed.
Lemma sumR_app : forall A (l l' : list A) f, sumR (l ++ l') f = (sumR l f + sumR l' f)%R.
Proof. induction l as [|x l IH]; intros l' f; cbn [app]; [change (sumR [] f) with 0%R; ring|]. rewrite ?sumC_cons, ?sumR_cons. rewrite IH. ring. Qed.
Lemma sumR_swap : forall A B (l : list A) (k : list B) f, sumR l (fun x => sumR k (fun y => f x y)) = sumR k (fun y => sumR l (fun x => f x y)).
Proof. induction l as [|x l IH]; intros k f; [cbn; rewrite sumR_0; reflexivity|]. rewrite ?sumC_cons, ?sumR_cons. rewrite IH, <- sumR_add. reflexivity. Qed.
Lemma sumC_fsum : forall A n (l : list A) (f : A -> Fin.t n -> C), fsum (fun i => sumC l (fun x => f x i)) = sumC l (fun x => fsum (f x)).
Proof. induction l as [|x l IH]; intros f; [apply fsum_0|]. rewrite (fsum_ext _ _ (fun i => f x i + sumC l (fun y => f y i))) by reflexivity. rewrite fsum_add, IH. reflexivity. Qed.
Lemma Re_sumC : forall A (l : list A) f, Re (sumC l f) = sumR l (fun x => Re (f x)).
Proof. induction l as [|x l IH]; intros f; [reflexivity|]. rewrite ?sumC_cons, ?sumR_cons. rewrite <- IH. reflexivity. Qed.
Lemma allFin_fold : forall n X (add : X -> C -> X) (h : Fin.t n -> C), (forall x a b, add (add x a) b = add x (a + b)) -> (forall x, add x 0 = x) ->
  forall x, fold_left (fun a s => add a (h s)) (allFin n) x = add x (fsum h).
Proof.
  induction n as [|n IH]; intros X add h Ha H0 x; cbn [allFin fold_left fsum]; [symmetry; apply H0|].
  rewrite <- Ha, <- (IH X add (fun i => h (Fin.FS i)) Ha H0).
  generalize (add x (h Fin.F1)). generalize (allFin n). intros l. induction l as [|s l IHl]; intros y; [reflexivity|]. cbn. apply IHl.
Qed.

Section Fold.
  Context {ns N : nat}.
  Notation fields := (nat -> Fin.t ns -> cvec N).
  Definition sadd (a b : R * fields) : R * fields := ((fst a + fst b)%R, fun k s x => snd a k s x + snd b k s x).
  Definition szero : R * fields := (0%R, fun _ _ _ => RtoC 0).
  Definition sumS {A} (l : list A) (f : A -> R * fields) : R * fields := fold_right (fun x s => sadd (f x) s) szero l.
  Lemma sadd_assoc : forall a b c, sadd (sadd a b) c = sadd a (sadd b c).
  Proof. intros. unfold sadd. cbn. f_equal; [ring|]. do 3 (apply functional_extensionality; intros). ring. Qed.
  Lemma sadd_0 : forall a, sadd a szero = a.
  Proof. intros [e f]. unfold sadd, szero. cbn. f_equal; [ring|]. do 3 (apply functional_extensionality; intros). ring. Qed.
  Lemma fold_sadd : forall A (l : list A) step (f : A -> R * fields), (forall a x, step a x = sadd a (f x)) -> forall a, fold_left step l a = sadd a (sumS l f).
  Proof. induction l as [|x l IH]; intros step f H a; cbn; [symmetry; apply sadd_0|]. rewrite (IH step f H), H, sadd_assoc. reflexivity. Qed.
  Lemma fst_sumS : forall A (l : list A) f, fst (sumS l f) = sumR l (fun x => fst (f x)).
  Proof. induction l as [|x l IH]; intros f; [reflexivity|]. rewrite sumR_cons, <- IH. reflexivity. Qed.
  Lemma snd_sumS : forall A (l : list A) f b s i, snd (sumS l f) b s i = sumC l (fun x => snd (f x) b s i).
  Proof. induction l as [|x l IH]; intros f b s i; [reflexivity|]. rewrite sumC_cons, <- IH. reflexivity. Qed.
End Fold.

Lemma mvec_mul : forall n m k (A : mat n m) (B : mat m k) v, mvec A (mvec B v) = mvec (mmul A B) v.
Proof.
  intros. apply functional_extensionality. intros i. unfold mvec, mmul.
  transitivity (fsum (fun j => fsum (fun l => A i j * B j l * v l))).
  { apply fsum_ext. intros j. rewrite <- fsum_scal. apply fsum_ext. intros l. ring. }
  rewrite fsum_swap. apply fsum_ext. intros l. rewrite fsum_scal_r. reflexivity.
Qed.
Lemma bracket_mvec : forall n k (a : cvec n) (A : mat n k) b, bracket a A b = cvdot a (mvec A b).
Proof. reflexivity. Qed.
Lemma cvdot_adj : forall n k (A : mat n k) (a : cvec k) (b : cvec n), cvdot (mvec A a) b = cvdot a (mvec (madj A) b).
Proof.
  intros. unfold cvdot, mvec. transitivity (fsum (fun i => fsum (fun j => Cconj (A i j) * Cconj (a j) * b i))).
  { apply fsum_ext. intros i. rewrite fsum_conj, <- fsum_scal_r. apply fsum_ext. intros j. rewrite Cconj_mul. reflexivity. }
  rewrite fsum_swap. apply fsum_ext. intros j. rewrite <- fsum_scal. apply fsum_ext. intros i. unfold madj. ring.
Qed.
Lemma quad_bracket : forall n (A : mat n n) v, quad A v = bracket v A v.
Proof. intros. unfold quad, bracket. apply fsum_ext. intros i. rewrite <- fsum_scal. reflexivity. Qed.
Lemma quad_cong : forall n k (B : mat n k) (K : mat n n) v, quad (mmul (madj B) (mmul K B)) v = quad K (mvec B v).
Proof. intros. rewrite !quad_bracket, !bracket_mvec, cvdot_adj, <- !mvec_mul. reflexivity. Qed.

Section Pair.
  Variables (ns N m : nat) (I : Fin.t ns -> mat N m) (J : mat N N) (aXX : R) (rpa : bool).
  Notation fields := (nat -> Fin.t ns -> cvec N).
  Definition weightOf (fk fq ek eq : R) : R := if rpa then (if Rlt_dec ek eq then fq else fk) else (fk * fq)%R.
  Definition gTerm (c : R) (u : Fin.t ns -> cvec N) (K : mat N N) (v : cvec m) : Fin.t ns -> cvec N :=
    fun s x => RtoC c * mvec (madj J) (mvec K (mvec (pairMap I J u) v)) x * u s x.
  Lemma density : forall (u : Fin.t ns -> cvec N) v, mvec J (fun x => fsum (fun s => Cconj (u s x) * mvec (I s) v x)) = mvec (pairMap I J u) v.
  Proof.
    intros. unfold pairMap. rewrite <- mvec_mul. f_equal. apply functional_extensionality. intros x. unfold mvec.
    transitivity (fsum (fun s => fsum (fun g => Cconj (u s x) * I s x g * v g))).
    { apply fsum_ext. intros s. rewrite <- fsum_scal. apply fsum_ext. intros g. ring. }
    rewrite fsum_swap. apply fsum_ext. intros g. rewrite fsum_scal_r. reflexivity.
  Qed.
  Lemma back : forall c u K v g, fsum (fun s => mvec (madj (I s)) (gTerm c u K v s) g) = RtoC c * mvec (exchangeTerm I J K u) v g.
  Proof.
    intros. unfold exchangeTerm. rewrite <- !mvec_mul. set (y := mvec K _). unfold gTerm. fold y.
    unfold pairMap. rewrite madj_mul, <- mvec_mul. set (z := mvec (madj J) y). unfold mvec, madj.
    rewrite fsum_swap, <- fsum_scal. apply fsum_ext. intros x. rewrite fsum_conj. rewrite <- fsum_scal_r, <- fsum_scal. apply fsum_ext. intros s.
    rewrite Cconj_mul, Cconj_conj. ring.
  Qed.
  Variables (wk wq : R) (Hk : wk <> 0%R) (Hq : wq <> 0%R) (Fk ek Fq eq : nat -> R) (Cq : nat -> cvec m).
  Definition eT (bk : nat) (kp : kpairEntry ns N) (bq : nat) : R :=
    (- (1/2) * aXX * kp_weight _ _ kp * weightOf (Fk bk) (Fq bq) (ek bk) (eq bq) * Re (bracket (Cq bq) (exchangeTerm I J (kp_K _ _ kp) (kp_state _ _ kp bk)) (Cq bq)))%R.
  Definition gT (bk : nat) (kp : kpairEntry ns N) (bq : nat) : Fin.t ns -> cvec N :=
    gTerm (- aXX * kp_weight _ _ kp * Fk bk / wq) (kp_state _ _ kp bk) (kp_K _ _ kp) (Cq bq).
  Definition pT bk kp bq : R * fields := (eT bk kp bq, fun b s x => if (b =? bq)%nat then gT bk kp bq s x else RtoC 0).
  Lemma step_ok : forall bk kp a bq, pairStep ns N J aXX rpa wk wq Fk ek Fq eq (fun bq s => mvec (I s) (Cq bq)) bk kp a bq = sadd a (pT bk kp bq).
  Proof.
    intros. unfold pairStep, nonzero.
    assert (forall c, c * 0 = 0) as C0 by (intros; ring).
    destruct (Req_EM_T (wk * Fk bk) 0) as [E1|E1]; [destruct (Req_EM_T (wq * Fq bq) 0) as [E2|E2]|]; cbn [negb andb].
    - apply Rmult_integral in E1, E2. destruct E1 as [E1|E1]; [tauto|]. destruct E2 as [E2|E2]; [tauto|].
      unfold pT, eT, gT, gTerm, weightOf. rewrite E1, E2. rewrite <- (sadd_0 a) at 1. f_equal. unfold szero. f_equal.
      + destruct rpa; [destruct (Rlt_dec _ _)|]; ring.
      + do 3 (apply functional_extensionality; intros). destruct (_ =? _)%nat; [|reflexivity].
        replace (- aXX * kp_weight _ _ kp * 0 / wq)%R with 0%R by (unfold Rdiv; ring). ring.
    - clear C0. unfold sadd, pT. cbn [fst snd]. f_equal.
      + f_equal. unfold eT, pairFillings, weightOf. rewrite density. unfold exchangeTerm.
        rewrite (bracket_mvec _ _ (Cq bq)), <- !mvec_mul, <- cvdot_adj. destruct rpa; [destruct (Rlt_dec _ _)|]; field; auto.
      + do 3 (apply functional_extensionality; intros). destruct (_ =? _)%nat; [|symmetry; apply Cplus_0_r]. unfold gT, gTerm. rewrite density. do 3 f_equal. f_equal. field. auto.
    - unfold sadd, pT. cbn [fst snd]. f_equal.
      + f_equal. unfold eT, pairFillings, weightOf. rewrite density. unfold exchangeTerm.
        rewrite (bracket_mvec _ _ (Cq bq)), <- !mvec_mul, <- cvdot_adj. destruct rpa; [destruct (Rlt_dec _ _)|]; field; auto.
      + do 3 (apply functional_extensionality; intros). destruct (_ =? _)%nat; [|symmetry; apply Cplus_0_r]. unfold gT, gTerm. rewrite density. do 3 f_equal. f_equal. field. auto.
  Qed.
End Pair.
