From Coq Require Import ZArith Reals List Bool Arith Lra Lia FunctionalExtensionality.
From Coquelicot Require Import Coquelicot.
From Verif Require Import Base Vec3_Model CMat MatFun_Model MatFun_Proofs2 ExCompute_Spec ExCompute_Proofs Phonon_Model Phonon_Spec.
Import ListNotations.
Open Scope C_scope.

Lemma csumOn_sumC : forall A (l : list A) f, csumOn l f = sumC l f.
Proof.
  intros. unfold csumOn. assert (forall l s, fold_left (fun s x => s + f x) l s = s + sumC l f) as H; [|rewrite H; apply Cplus_0_l].
  clear l. induction l as [|x l IH]; intros s; cbn [fold_left]; [cbn; ring|]. rewrite IH, sumC_cons. ring.
Qed.
Lemma rsumOn_sumR : forall A (l : list A) f, rsumOn l f = sumR l f.
Proof.
  intros. unfold rsumOn. assert (forall l s, fold_left (fun s x => (s + f x)%R) l s = (s + sumR l f)%R) as H; [|rewrite H; apply Rplus_0_l].
  clear l. induction l as [|x l IH]; intros s; cbn [fold_left]; [cbn; ring|]. rewrite IH, sumR_cons. ring.
Qed.
Lemma sumC_swap : forall A B (l : list A) (k : list B) f, sumC l (fun x => sumC k (fun y => f x y)) = sumC k (fun y => sumC l (fun x => f x y)).
Proof. induction l as [|x l IH]; intros k f; [cbn; rewrite sumC_0; reflexivity|]. rewrite sumC_cons, IH, <- sumC_add. reflexivity. Qed.
Lemma sumC_app : forall A (l l' : list A) f, sumC (l ++ l') f = sumC l f + sumC l' f.
Proof. induction l as [|x l IH]; intros l' f; cbn [app]; [change (sumC [] f) with (RtoC 0); ring|]. rewrite !sumC_cons, IH. ring. Qed.
Lemma sumC_map : forall A B (g : A -> B) l f, sumC (map g l) f = sumC l (fun x => f (g x)).
Proof. induction l as [|x l IH]; intros f; [reflexivity|]. cbn [map]. rewrite !sumC_cons, IH. reflexivity. Qed.
Lemma sumR_map : forall A B (g : A -> B) l f, sumR (map g l) f = sumR l (fun x => f (g x)).
Proof. induction l as [|x l IH]; intros f; [reflexivity|]. cbn [map]. rewrite !sumR_cons, IH. reflexivity. Qed.
Lemma sumC_prod : forall A B (l : list A) (k : list B) f, sumC (list_prod l k) f = sumC l (fun x => sumC k (fun y => f (x, y))).
Proof. induction l as [|x l IH]; intros k f; [reflexivity|]. cbn [list_prod]. rewrite sumC_app, sumC_map, IH, sumC_cons. reflexivity. Qed.
Lemma sumR_prod : forall A B (l : list A) (k : list B) f, sumR (list_prod l k) f = sumR l (fun x => sumR k (fun y => f (x, y))).
Proof. induction l as [|x l IH]; intros k f; [reflexivity|]. cbn [list_prod]. rewrite sumR_app, sumR_map, IH, sumR_cons. reflexivity. Qed.
Lemma sumC_RtoC : forall A (l : list A) f, sumC l (fun x => RtoC (f x)) = RtoC (sumR l f).
Proof. induction l as [|x l IH]; intros f; [reflexivity|]. rewrite sumC_cons, sumR_cons, IH, RtoC_plus. reflexivity. Qed.
Lemma sumC_conj : forall A (l : list A) f, Cconj (sumC l f) = sumC l (fun x => Cconj (f x)).
Proof. induction l as [|x l IH]; intros f; [apply Cconj_R|]. rewrite !sumC_cons, Cconj_add, IH. reflexivity. Qed.
Lemma sumC_pick : forall A (dec : forall a b : A, {a = b} + {a <> b}) l (a : A) f, NoDup l -> In a l -> sumC l (fun x => if dec x a then f x else RtoC 0) = f a.
Proof.
  intros A dec l a f. induction l as [|x l IH]; intros Hd Hi; [contradiction|]. inversion Hd as [|? ? Hx Hl]; subst. rewrite sumC_cons. destruct Hi as [->|Hi].
  - destruct (dec a a) as [_|n]; [|congruence]. rewrite (sumC_ext _ _ _ (fun _ => RtoC 0)); [rewrite sumC_0; ring|]. intros y Hy. destruct (dec y a); [congruence|reflexivity].
  - rewrite IH by assumption. destruct (dec x a); [congruence|]. ring.
Qed.

(** ** Roots of unity *)
Fixpoint zpow (z : C) (k : nat) : C := match k with O => RtoC 1 | S k => z * zpow z k end.
Lemma ccis_pow : forall x k, ccis (INR k * x) = zpow (ccis x) k.
Proof. intros x k. induction k as [|k IH]; [cbn [zpow]; rewrite Rmult_0_l; apply ccis_0|]. rewrite S_INR. cbn [zpow]. rewrite <- IH, ccis_add. f_equal. ring. Qed.
Lemma geometric : forall z n, (z - RtoC 1) * sumC (seq 0 n) (zpow z) = zpow z n - RtoC 1.
Proof.
  intros z. induction n as [|n IH]; [cbn; ring|]. rewrite seq_S, sumC_app. cbn [Nat.add]. rewrite Cmult_plus_distr_l, IH.
  change (sumC [n] (zpow z)) with (zpow z n + RtoC 0). cbn [zpow]. ring.
Qed.
Lemma ccis_1 : forall x, ccis x = RtoC 1 -> exists k, x = (2 * PI * IZR k)%R.
Proof.
  intros x H. assert (cos x = 1%R) as Hc by (apply (f_equal fst) in H; exact H).
  assert (sin (x/2) = 0%R) as Hs.
  { assert (cos (2 * (x/2)) = 1 - 2 * sin (x/2) * sin (x/2))%R as E by apply cos_2a_sin. replace (2 * (x/2))%R with x in E by field. rewrite Hc in E. nra. }
  destruct (sin_eq_0_0 _ Hs) as [k Hk]. exists k. lra.
Qed.
Lemma roots_sum : forall n (a : Z), (0 < n)%nat -> sumC (seq 0 n) (fun k => ccis (INR k * ((2 * PI) * (IZR a / INR n)))) = if (a mod Z.of_nat n =? 0)%Z then RtoC (INR n) else RtoC 0.
Proof.
  intros n a Hn. assert (INR n <> 0%R) as Hn0 by (apply not_0_INR; lia).
  set (x := ((2 * PI) * (IZR a / INR n))%R). rewrite (sumC_ext _ _ _ (zpow (ccis x))) by (intros; apply ccis_pow).
  assert (zpow (ccis x) n = RtoC 1) as Hr.
  { rewrite <- ccis_pow. unfold x. replace (INR n * (2 * PI * (IZR a / INR n)))%R with (2 * PI * IZR a)%R by (field; exact Hn0).
    unfold ccis. pose proof (cos_period) as P. apply injective_projections; cbn.
    - destruct (Z_lt_le_dec a 0) as [L|L].
      + rewrite <- cos_neg. replace (- (2 * PI * IZR a))%R with (0 + 2 * INR (Z.to_nat (- a)) * PI)%R by (rewrite INR_IZR_INZ, Z2Nat.id, opp_IZR by lia; ring). rewrite cos_period. apply cos_0.
      + replace (2 * PI * IZR a)%R with (0 + 2 * INR (Z.to_nat a) * PI)%R by (rewrite INR_IZR_INZ, Z2Nat.id by lia; ring). rewrite cos_period. apply cos_0.
    - destruct (Z_lt_le_dec a 0) as [L|L].
      + replace (2 * PI * IZR a)%R with (- (0 + 2 * INR (Z.to_nat (- a)) * PI))%R by (rewrite INR_IZR_INZ, Z2Nat.id, opp_IZR by lia; ring). rewrite sin_neg, sin_period, sin_0. ring.
      + replace (2 * PI * IZR a)%R with (0 + 2 * INR (Z.to_nat a) * PI)%R by (rewrite INR_IZR_INZ, Z2Nat.id by lia; ring). rewrite sin_period. apply sin_0. }
  destruct (Z.eqb_spec (a mod Z.of_nat n) 0) as [E|E].
  - assert (ccis x = RtoC 1) as Hx.
    { apply Z.mod_divide in E; [|lia]. destruct E as [q Hq]. unfold x. rewrite Hq, mult_IZR, <- INR_IZR_INZ.
      replace (2 * PI * (IZR q * INR n / INR n))%R with (INR 1 * (2 * PI * (IZR q / INR 1)))%R by (cbn; field; exact Hn0).
      replace (INR 1 * (2 * PI * (IZR q / INR 1)))%R with (2 * PI * IZR q)%R by (cbn; field).
      clear -q. apply injective_projections; cbn.
      - destruct (Z_lt_le_dec q 0) as [L|L].
        + rewrite <- cos_neg. replace (- (2 * PI * IZR q))%R with (0 + 2 * INR (Z.to_nat (- q)) * PI)%R by (rewrite INR_IZR_INZ, Z2Nat.id, opp_IZR by lia; ring). rewrite cos_period. apply cos_0.
        + replace (2 * PI * IZR q)%R with (0 + 2 * INR (Z.to_nat q) * PI)%R by (rewrite INR_IZR_INZ, Z2Nat.id by lia; ring). rewrite cos_period. apply cos_0.
      - destruct (Z_lt_le_dec q 0) as [L|L].
        + replace (2 * PI * IZR q)%R with (- (0 + 2 * INR (Z.to_nat (- q)) * PI))%R by (rewrite INR_IZR_INZ, Z2Nat.id, opp_IZR by lia; ring). rewrite sin_neg, sin_period, sin_0. ring.
        + replace (2 * PI * IZR q)%R with (0 + 2 * INR (Z.to_nat q) * PI)%R by (rewrite INR_IZR_INZ, Z2Nat.id by lia; ring). rewrite sin_period. apply sin_0. }
    rewrite Hx. rewrite (sumC_ext _ _ _ (fun _ => RtoC 1)).
    2:{ intros k _. clear. induction k; [reflexivity|]. cbn [zpow]. rewrite IHk. ring. }
    clear. rewrite sumC_RtoC. f_equal. induction n as [|n IH]; [reflexivity|]. rewrite seq_S, sumR_app, IH, S_INR. cbn. ring.
  - pose proof (geometric (ccis x) n) as G. rewrite Hr in G. replace (RtoC 1 - RtoC 1) with (RtoC 0) in G by ring.
    destruct (Ceq_dec (ccis x) (RtoC 1)) as [H1|H1].
    + exfalso. destruct (ccis_1 _ H1) as [k Hk]. unfold x in Hk. apply E. apply Z.mod_divide; [lia|]. exists k. apply eq_IZR. rewrite mult_IZR, <- INR_IZR_INZ.
      pose proof PI_RGT_0. assert (IZR a / INR n = IZR k)%R as E1 by (apply (Rmult_eq_reg_l (2 * PI)); [exact Hk|lra]). rewrite <- E1. field. exact Hn0.
    + apply (MatFun_Proofs.Cmult_integral' _ _ G). intros H. apply H1. replace (ccis x) with (ccis x - RtoC 1 + RtoC 1) by ring. rewrite H. ring.
Qed.
