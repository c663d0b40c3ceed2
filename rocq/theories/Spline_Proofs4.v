(** Proofs for C41: the gradient propagation. *)
From Coq Require Import ZArith Reals List Bool Lia Lra Permutation.
From Coquelicot Require Import Coquelicot.
From Verif Require Import Base Lattice_Model KPoints_Model RealUtil Spline_Model Spline_Spec Spline_Proofs.
Import ListNotations.
Open Scope R_scope.

Fixpoint dotl (a b : list R) : R := match a, b with x :: a', y :: b' => x * y + dotl a' b' | _, _ => 0 end.
Lemma F_weights coeff x : F coeff 0 x = dotl (valueGradWeights x) (six coeff (rtrunc x)).
Proof.
  unfold F, piece, six, valueGradWeights, raise, pw, P.
  generalize (x - IZR (rtrunc x)) as t. generalize (cf coeff (rtrunc x)), (cf coeff (rtrunc x + 1)), (cf coeff (rtrunc x + 2)), (cf coeff (rtrunc x + 3)), (cf coeff (rtrunc x + 4)), (cf coeff (rtrunc x + 5)).
  intros. cbn [raiseFrom blip dotl]. field.
Qed.
Lemma weights_len x : List.length (valueGradWeights x) = 6%nat.
Proof. reflexivity. Qed.

(** ** the partial derivatives *)
Lemma bump_length l n e : List.length (bump l n e) = List.length l.
Proof. revert n. induction l as [|a l IH]; intros [|n]; cbn; auto. Qed.
Lemma bump_nth l n e m : (n < List.length l)%nat -> nth m (bump l n e) 0 = nth m l 0 + (if Nat.eqb m n then e else 0).
Proof.
  revert n m. induction l as [|a l IH]; intros n m Hn; [cbn in Hn; lia|].
  destruct n as [|n], m as [|m]; cbn; try ring.
  apply IH. cbn in Hn. lia.
Qed.
Definition wt (x : R) (n : nat) : R :=
  let i := (Z.of_nat n - rtrunc x)%Z in if ((0 <=? i) && (i <? 6))%Z%bool then nth (Z.to_nat i) (valueGradWeights x) 0 else 0.
Lemma value_bump coeff n e x : (n < List.length coeff)%nat -> 0 <= x < IZR (len coeff - 5) ->
  total (value (bump coeff n e)) x = total (value coeff) x + e * wt x n.
Proof.
  intros Hn Hx. unfold total. rewrite !value_F by (rewrite ?bump_length; auto). rewrite !F_weights.
  destruct (rtrunc_dom _ _ Hx) as [J0 J1]. unfold wt. pose proof (weights_len x) as WL.
  destruct (valueGradWeights x) as [|w0 [|w1 [|w2 [|w3 [|w4 [|w5 [|? ?]]]]]]]; try discriminate WL.
  unfold six, cf. set (j := rtrunc x) in *. rewrite !bump_nth by auto.
  assert (Q : forall d, (0 <= d <= 5)%Z -> Nat.eqb (Z.to_nat (j + d)) n = (Z.of_nat n - j =? d)%Z).
  { intros d Hd. destruct (Nat.eqb_spec (Z.to_nat (j+d)) n), (Z.eqb_spec (Z.of_nat n - j) d); auto; lia. }
  replace (Z.to_nat j) with (Z.to_nat (j+0)) by (f_equal; lia).
  rewrite !Q by lia. cbn [dotl].
  destruct (Z.leb_spec 0 (Z.of_nat n - j)), (Z.ltb_spec (Z.of_nat n - j) 6); cbn [andb].
  1:{ assert (D : (Z.of_nat n - j = 0 \/ Z.of_nat n - j = 1 \/ Z.of_nat n - j = 2 \/ Z.of_nat n - j = 3 \/ Z.of_nat n - j = 4 \/ Z.of_nat n - j = 5)%Z) by lia.
      destruct D as [->|[->|[->|[->|[->| ->]]]]]; cbn [Z.eqb Pos.eqb]; [change (Z.to_nat 0) with 0%nat|change (Z.to_nat 1) with 1%nat|change (Z.to_nat 2) with 2%nat|change (Z.to_nat 3) with 3%nat|change (Z.to_nat 4) with 4%nat|change (Z.to_nat 5) with 5%nat]; cbn [nth]; ring. }
  all: repeat match goal with |- context [(?a =? ?b)%Z] => replace (a =? b)%Z with false by (symmetry; apply Z.eqb_neq; lia) end; ring.
Qed.
Lemma value_partial coeff n x : (n < List.length coeff)%nat -> 0 <= x < IZR (len coeff - 5) ->
  is_partial (fun c => total (value c) x) coeff n (wt x n).
Proof.
  intros Hn Hx. unfold is_partial.
  apply (is_derive_ext (fun e => total (value coeff) x + e * wt x n)).
  - intros e. symmetry. apply value_bump; auto.
  - auto_derive; auto; ring.
Qed.

(** ** the accumulation *)
Lemma addAt_ok l n v : (n < List.length l)%nat -> exists l', addAt l n v = Some l' /\ List.length l' = List.length l /\
  forall m, nth m l' 0 = nth m l 0 + (if Nat.eqb m n then v else 0).
Proof.
  revert n. induction l as [|a l IH]; intros n Hn; [cbn in Hn; lia|].
  destruct n as [|n]; cbn [addAt].
  - eexists; split; [reflexivity|]. split; [reflexivity|]. intros [|m]; cbn; ring.
  - destruct (IH n) as (l' & E & L & V); [cbn in Hn; lia|]. rewrite E. eexists; split; [reflexivity|].
    split; [cbn; congruence|]. intros [|m]; cbn; [ring|]. apply V.
Qed.
Lemma accumAll_ok c : forall E j Ev, (0 <= j)%Z -> (j + Z.of_nat (List.length c) <= len E)%Z ->
  exists E', accumAll E j Ev c = Some E' /\ List.length E' = List.length E /\
  forall n, nth n E' 0 = nth n E 0 + Ev * (let i := (Z.of_nat n - j)%Z in if ((0 <=? i) && (i <? Z.of_nat (List.length c)))%Z%bool then nth (Z.to_nat i) c 0 else 0).
Proof.
  induction c as [|a c IH]; intros E j Ev H0 H1; cbn [accumAll].
  - exists E. split; [reflexivity|]. split; [reflexivity|]. intros n. cbv zeta.
    destruct (Z.leb_spec 0 (Z.of_nat n - j)), (Z.ltb_spec (Z.of_nat n - j) (Z.of_nat (List.length (@nil R)))); cbn [andb List.length] in *; try ring; lia.
  - unfold accum. destruct (Z.ltb_spec j 0); [lia|]. cbn [List.length] in H1.
    destruct (addAt_ok E (Z.to_nat j) (Ev * a)) as (E1 & X1 & X2 & X3); [lia|]. rewrite X1.
    destruct (IH E1 (j+1)%Z Ev) as (E2 & Y1 & Y2 & Y3); [lia|rewrite X2; lia|].
    exists E2. split; [exact Y1|]. split; [congruence|]. intros n. rewrite Y3, X3. cbv zeta. cbn [List.length].
    set (i := (Z.of_nat n - j)%Z). replace (Z.of_nat n - (j+1))%Z with (i-1)%Z by lia.
    destruct (Nat.eqb_spec n (Z.to_nat j)).
    + replace i with 0%Z by lia. change (0 <=? 0)%Z with true. change (0 <=? 0 - 1)%Z with false. cbn [andb].
      replace (0 <? Z.of_nat (S (List.length c)))%Z with true by (symmetry; apply Z.ltb_lt; lia). cbn. ring.
    + destruct (Z.leb_spec 0 i), (Z.leb_spec 0 (i-1)), (Z.ltb_spec i (Z.of_nat (S (List.length c)))), (Z.ltb_spec (i-1) (Z.of_nat (List.length c))); cbn [andb]; try lia; try ring.
      replace (Z.to_nat i) with (S (Z.to_nat (i-1))) by lia. cbn [nth]. ring.
Qed.
Lemma valueGrad_ok Ev E coeff x : List.length E = List.length coeff -> 0 <= x < IZR (len coeff - 5) ->
  exists E', valueGrad Ev E x = Some E' /\ List.length E' = List.length E /\
  forall n, (n < List.length coeff)%nat -> exists d, is_partial (fun c => total (value c) x) coeff n d /\ nth n E' 0 = nth n E 0 + Ev * d.
Proof.
  intros HL Hx. destruct (rtrunc_dom _ _ Hx) as [J0 J1]. unfold valueGrad.
  destruct (accumAll_ok (valueGradWeights x) E (rtrunc x) Ev) as (E' & A & B & D); [lia|rewrite weights_len, HL; cbn; lia|].
  exists E'. split; [exact A|]. split; [exact B|]. intros n Hn. exists (wt x n). split; [apply value_partial; auto|].
  rewrite D. rewrite weights_len. reflexivity.
Qed.
(** adjointness with respect to every direction of the coefficients *)
Lemma value_linear coeff dc x : List.length dc = List.length coeff -> 0 <= x < IZR (len coeff - 5) ->
  forall e, total (value (map (fun p => fst p + e * snd p) (combine coeff dc))) x = total (value coeff) x + e * total (value dc) x.
Proof.
  intros HL Hx e. destruct (rtrunc_dom _ _ Hx) as [J0 J1]. unfold total.
  assert (LL : List.length (map (fun p => fst p + e * snd p) (combine coeff dc)) = List.length coeff) by (rewrite map_length, combine_length; lia).
  rewrite !value_F by (rewrite ?LL, ?HL; auto). rewrite !F_weights.
  assert (Q : forall i, (0 <= i < len coeff)%Z -> cf (map (fun p => fst p + e * snd p) (combine coeff dc)) i = cf coeff i + e * cf dc i).
  { intros i Hi. unfold cf. rewrite (nth_indep _ 0 ((fun p => fst p + e * snd p) (0, 0))) by (rewrite LL; lia).
    rewrite (map_nth (fun p : R * R => fst p + e * snd p)). rewrite combine_nth by auto. reflexivity. }
  unfold six. rewrite !Q by lia. pose proof (weights_len x) as WL.
  destruct (valueGradWeights x) as [|w0 [|w1 [|w2 [|w3 [|w4 [|w5 [|? ?]]]]]]]; try discriminate WL. cbn [dotl]. ring.
Qed.

(** ** the reduction over the threads of a GPU block *)
Lemma rsumn_ext n f g : (forall i, (i < n)%nat -> f i = g i) -> rsumn n f = rsumn n g.
Proof. induction n as [|n IH]; intros H; cbn; [reflexivity|]. rewrite IH by (intros; apply H; lia). rewrite H by lia. reflexivity. Qed.
Lemma rsumn_plus n f g : rsumn n (fun i => f i + g i) = rsumn n f + rsumn n g.
Proof. induction n as [|n IH]; cbn; [ring|]. rewrite IH. ring. Qed.
Lemma rsumn_split n m f : rsumn (n + m) f = rsumn n f + rsumn m (fun i => f (n + i)%nat).
Proof. induction m as [|m IH]; [rewrite Nat.add_0_r; cbn; ring|]. rewrite Nat.add_succ_r. cbn. rewrite IH. ring. Qed.
Lemma rsumn_zero n : rsumn n (fun _ => 0) = 0.
Proof. induction n as [|n IH]; cbn; [reflexivity|]. rewrite IH. ring. Qed.
Lemma rsumn_indicator n k f : (k <= n)%nat -> rsumn n (fun i => if (i <? k)%nat then f i else 0) = rsumn k f.
Proof.
  intros H. replace n with (k + (n-k))%nat by lia. rewrite rsumn_split.
  rewrite (rsumn_ext k _ f). 2:{ intros i Hi. destruct (Nat.ltb_spec i k); [reflexivity|lia]. }
  rewrite (rsumn_ext (n-k) _ (fun _ => 0)). 2:{ intros i Hi. destruct (Nat.ltb_spec (k+i) k); [lia|reflexivity]. }
  rewrite rsumn_zero. ring.
Qed.
Lemma addInto_all stride l : forall sh, NoDup l -> (forall t, In t l -> (t < stride)%nat) ->
  forall u, fold_left (addInto stride) l sh u = if in_dec Nat.eq_dec u l then sh u + sh (stride + u)%nat else sh u.
Proof.
  induction l as [|t l IH]; intros sh ND Hlt u; cbn [fold_left]; [reflexivity|].
  inversion ND as [|? ? Nt ND']; subst.
  rewrite IH by (auto; intros; apply Hlt; right; auto). unfold addInto.
  assert (Ht : (t < stride)%nat) by (apply Hlt; left; auto).
  destruct (in_dec Nat.eq_dec u l) as [I|I].
  - destruct (in_dec Nat.eq_dec u (t :: l)) as [I'|I']; [|exfalso; apply I'; right; auto].
    assert (u <> t) by (intros ->; contradiction).
    assert (u < stride)%nat by (apply Hlt; right; auto).
    destruct (Nat.eqb_spec u t); [contradiction|]. destruct (Nat.eqb_spec (stride+u) t); [lia|reflexivity].
  - destruct (Nat.eqb_spec u t) as [->|Nu].
    + destruct (in_dec Nat.eq_dec t (t :: l)) as [I'|I']; [reflexivity|exfalso; apply I'; left; auto].
    + destruct (in_dec Nat.eq_dec u (t :: l)) as [[E|E]|I']; [congruence|contradiction|reflexivity].
Qed.
Section Block.
Variable ord : nat -> list nat.
Hypothesis Hord : forall k, Permutation (ord k) (seq 0 k).
Lemma reduce_step extent stride sh : (extent <= stride)%nat -> rsumn stride (fold_left (addInto stride) (ord extent) sh) = rsumn (stride + extent) sh.
Proof.
  intros H. rewrite rsumn_split.
  assert (In_ord : forall t, In t (ord extent) <-> (t < extent)%nat).
  { intros t. split; intros I.
    - apply (Permutation_in _ (Hord extent)) in I. apply in_seq in I. lia.
    - apply (Permutation_in _ (Permutation_sym (Hord extent))). apply in_seq. lia. }
  rewrite (rsumn_ext stride _ (fun u => sh u + (if (u <? extent)%nat then sh (stride + u)%nat else 0))).
  - rewrite rsumn_plus. rewrite (rsumn_indicator stride extent (fun u => sh (stride + u)%nat)) by lia. reflexivity.
  - intros u Hu. rewrite addInto_all.
    + destruct (in_dec Nat.eq_dec u (ord extent)) as [I|I], (Nat.ltb_spec u extent); try reflexivity; [apply In_ord in I; lia|exfalso; apply I, In_ord; auto|ring].
    + eapply Permutation_NoDup; [apply Permutation_sym, Hord|apply seq_NoDup].
    + intros t I. apply In_ord in I. lia.
Qed.
Lemma div2_sum n : (Nat.div2 (n+1) + Nat.div2 n = n)%nat.
Proof. pose proof (Nat.div2_odd n). pose proof (Nat.div2_odd (n+1)). rewrite Nat.add_1_r in *. rewrite Nat.odd_succ, <- Nat.negb_odd in H0. destruct (Nat.odd n); cbn [Nat.b2n negb] in *; lia. Qed.
Lemma div2_le n : (Nat.div2 n <= Nat.div2 (n+1))%nat.
Proof. pose proof (div2_sum n). pose proof (Nat.div2_odd n). destruct (Nat.odd n); cbn [Nat.b2n] in *; lia. Qed.
Lemma reduce_ok fuel : forall n sh, (1 <= n)%nat -> (n < fuel)%nat -> exists sh',
  blockReduce fuel ord (Nat.div2 n) (Nat.div2 (n+1)) sh = Some sh' /\ sh' 0%nat = rsumn n sh.
Proof.
  induction fuel as [|f IH]; intros n sh H1 H2; [lia|]. cbn [blockReduce].
  pose proof (div2_sum n) as S. pose proof (div2_le n) as Le.
  destruct (Nat.eqb_spec (Nat.div2 n) 0) as [E|E].
  - exists sh. split; [reflexivity|]. assert (n = 1)%nat. { pose proof (Nat.div2_odd n). destruct (Nat.odd n); cbn [Nat.b2n] in *; lia. }
    subst n. cbn. ring.
  - destruct (IH (Nat.div2 (n+1)) (fold_left (addInto (Nat.div2 (n+1))) (ord (Nat.div2 n)) sh)) as (sh' & A & B); [lia|lia|].
    exists sh'. split; [exact A|]. rewrite B. rewrite reduce_step by auto. rewrite S. reflexivity.
Qed.
Lemma blockSum_ok n sh : (1 <= n)%nat -> exists sh', blockSum ord n sh = Some sh' /\ sh' 0%nat = rsumn n sh.
Proof. intros H. apply reduce_ok; lia. Qed.
End Block.
