(** Lemmas for FFTBox: termination and correctness of the automatic box. *)
From Coq Require Import ZArith List Lia Bool Znumtheory.
From Verif Require Import Base Grid_Model FFTBox_Model FFTBox_Spec FFTBox_Proofs FFTBox_Proofs2.
Import ListNotations.
Open Scope Z_scope.

(** More fuel never changes an answer. *)
Lemma gcd_loop_mono f g x y v : (f <= g)%nat -> gcd_loop f x y = Some v -> gcd_loop g x y = Some v.
Proof.
  intros H. revert g x y H. induction f as [|f IH]; intros [|g] x y H E; try discriminate; try lia. cbn [gcd_loop] in *.
  destruct (y =? 0); auto. apply IH; auto; lia.
Qed.
Lemma strip_mono f g p n v : (f <= g)%nat -> strip f p n = Some v -> strip g p n = Some v.
Proof.
  intros H. revert g n H. induction f as [|f IH]; intros [|g] n H E; try discriminate; try lia. cbn [strip] in *.
  destruct (Z.rem n p =? 0); auto. apply IH; auto; lia.
Qed.
Lemma fold_opt_mono {A B} (F G : B -> A -> option B) :
  (forall a b v, F b a = Some v -> G b a = Some v) ->
  forall l o v, fold_left (fun acc a => match acc with Some b => F b a | None => None end) l o = Some v ->
    fold_left (fun acc a => match acc with Some b => G b a | None => None end) l o = Some v.
Proof.
  intros H. induction l as [|a l IH]; intros o v E; cbn [fold_left] in *; auto.
  destruct o as [b|].
  - destruct (F b a) as [c|] eqn:Ec.
    + rewrite (H _ _ _ Ec). auto.
    + exfalso. clear -E. revert E. induction l; cbn [fold_left]; auto; discriminate.
  - auto.
Qed.
Lemma fftSuitable_mono f g n v : (f <= g)%nat -> fftSuitable f n = Some v -> fftSuitable g n = Some v.
Proof.
  intros H. unfold fftSuitable. destruct (fold_left _ _ (Some n)) as [t|] eqn:E; [|discriminate].
  intros E'. erewrite (fold_opt_mono (fun t p => strip f p t) (fun t p => strip g p t)); [exact E'| |exact E].
  intros a b w. apply strip_mono; auto.
Qed.
Lemma grow_mono f g ff gg s v : (f <= g)%nat -> (ff <= gg)%nat -> grow f ff s = Some v -> grow g gg s = Some v.
Proof.
  intros H HH. revert g s H. induction f as [|f IH]; intros [|g] s H E; try discriminate; try lia. cbn [grow] in *.
  destruct (fftSuitable ff s) as [b|] eqn:Eb; [|discriminate]. rewrite (fftSuitable_mono _ _ _ _ HH Eb).
  destruct b; auto. apply IH; auto; lia.
Qed.
Lemma gcdReduce_mono f g d v : (f <= g)%nat -> gcdReduce f d = Some v -> gcdReduce g d = Some v.
Proof.
  intros H. destruct d as [[a b] c]. cbn. destruct (gcd_loop f a b) as [x|] eqn:E1; [|discriminate].
  destruct (gcd_loop f x c) as [y|] eqn:E2; [|discriminate]. rewrite (gcd_loop_mono _ _ _ _ _ H E1).
  now rewrite (gcd_loop_mono _ _ _ _ _ H E2).
Qed.
Lemma suitable3_mono f g d v : (f <= g)%nat -> suitable3 f d = Some v -> suitable3 g d = Some v.
Proof.
  intros H. unfold suitable3, dims. cbn [fold_left].
  assert (S1 : forall k o v, (match o with Some true => if negb (get d k =? 0) then fftSuitable f (get d k) else Some true | o => o end) = Some v ->
               (match o with Some true => if negb (get d k =? 0) then fftSuitable g (get d k) else Some true | o => o end) = Some v).
  { intros k o w. destruct o as [[]|]; auto. destruct (negb _); auto. apply fftSuitable_mono; auto. }
  intros E.
  set (F := fun k (o : option bool) => match o with Some true => if negb (get d k =? 0) then fftSuitable f (get d k) else Some true | o => o end) in *.
  set (G := fun k (o : option bool) => match o with Some true => if negb (get d k =? 0) then fftSuitable g (get d k) else Some true | o => o end) in *.
  change (F 2%nat (F 1%nat (F 0%nat (Some true))) = Some v) in E.
  change (G 2%nat (G 1%nat (G 0%nat (Some true))) = Some v).
  change (forall k o v, F k o = Some v -> G k o = Some v) in S1.
  destruct (F 0%nat (Some true)) as [b0|] eqn:E0; [|discriminate]. rewrite (S1 _ _ _ E0).
  destruct (F 1%nat (Some b0)) as [b1|] eqn:E1; [|discriminate]. rewrite (S1 _ _ _ E1). auto.
Qed.
Lemma box_step_mono f g Smin r st j v : (f <= g)%nat -> box_step f Smin r st j = Some v -> box_step g Smin r st j = Some v.
Proof.
  intros H. destruct st as [Sv d]. unfold box_step. destruct (get d j); auto.
  destruct (processSb 4 r j _ d) as [[Sb d']|]; auto.
  destruct (gcdReduce f Sb) as [Sb1|] eqn:E1; [|discriminate]. rewrite (gcdReduce_mono _ _ _ _ H E1).
  destruct (suitable3 f Sb1) as [b|] eqn:E2; [|discriminate]. rewrite (suitable3_mono _ _ _ _ H E2).
  destruct (grow f f _) as [sc|] eqn:E3; [|discriminate]. now rewrite (grow_mono _ _ _ _ _ _ H H E3).
Qed.
Lemma ratios_of_mono f g sym v : (f <= g)%nat -> ratios_of f sym = Some v -> ratios_of g sym = Some v.
Proof.
  intros H. unfold ratios_of.
  assert (A : forall rot l o v, fold_left (accum_ratio f rot) l o = Some v -> fold_left (accum_ratio g rot) l o = Some v).
  { intros rot. induction l as [|[j k] l IH]; intros o w E; cbn [fold_left] in *; auto.
    destruct o as [r|]; [|apply IH in E; exact E]. cbn [accum_ratio] in *. destruct (negb _); auto.
    destruct (gcd_loop f (mget r j k) _) as [x|] eqn:Ex; cbn [option_map] in *.
    - rewrite (gcd_loop_mono _ _ _ _ _ H Ex). cbn [option_map]. auto.
    - exfalso. clear -E. revert E. induction l as [|[]]; cbn; auto; discriminate. }
  assert (N : forall l rot, fold_left (accum_ratio f rot) l None = None).
  { induction l as [|[] l IH]; intros; cbn; auto. }
  generalize (Some (0, 0, 0, (0, 0, 0), (0, 0, 0))) as o. revert v. induction sym as [|rot sym IH]; intros v o E; cbn [fold_left] in *; auto.
  destruct (fold_left (accum_ratio f rot) pairs o) as [r|] eqn:Er.
  - rewrite (A _ _ _ _ Er). auto.
  - exfalso. clear -E N. revert E. induction sym; cbn [fold_left]; [discriminate|]. rewrite N. auto.
Qed.
Lemma chooseS_mono f g Smin sym v : (f <= g)%nat -> chooseS f Smin sym = Some v -> chooseS g Smin sym = Some v.
Proof.
  intros H. unfold chooseS. destruct (ratios_of f sym) as [r|] eqn:Er; [|discriminate].
  rewrite (ratios_of_mono _ _ _ _ H Er). destruct (fold_left _ dims _) as [st|] eqn:E; [|discriminate].
  intros E'. erewrite (fold_opt_mono (fun st j => box_step f Smin r st j) (fun st j => box_step g Smin r st j)); [exact E'| |exact E].
  intros a b w. apply box_step_mono; auto.
Qed.

(** The ratios divide the matrix entries. *)
Lemma mget_mset_same r j k x : (j<3)%nat -> (k<3)%nat -> mget (mset r j k x) j k = x.
Proof. intros. unfold mget, mset. rewrite get_set_same by auto. apply get_set_same; auto. Qed.
Lemma mget_mset_other r j k j' k' x : (j<3)%nat -> (k<3)%nat -> (j'<3)%nat -> (k'<3)%nat -> (j',k') <> (j,k) ->
  mget (mset r j k x) j' k' = mget r j' k'.
Proof.
  intros. unfold mget, mset. destruct (Nat.eq_dec j' j) as [->|N].
  - rewrite get_set_same by auto. apply get_set_other; auto; congruence.
  - now rewrite get_set_other by auto.
Qed.
Lemma in_pairs j k : (j<3)%nat -> (k<3)%nat -> In (j,k) pairs.
Proof. intros H H'. unfold pairs. apply in_flat_map. exists j. split; [apply in_dims; auto|]. apply in_map, in_dims; auto. Qed.
Lemma pairs_lt j k : In (j,k) pairs -> (j<3)%nat /\ (k<3)%nat.
Proof. unfold pairs. rewrite in_flat_map. intros (x&Hx&Hy). apply in_map_iff in Hy as (y&E&Hy). injection E as <- <-.
  cbn in Hx, Hy. lia. Qed.

Definition rnn (r : M3) := forall j k, (j<3)%nat -> (k<3)%nat -> 0 <= mget r j k.
Lemma accum_spec fuel rot l r : (forall j k, (j<3)%nat -> (k<3)%nat -> Z.abs (mget rot j k) < Z.of_nat fuel) ->
  (forall j k, In (j,k) l -> (j<3)%nat /\ (k<3)%nat) -> rnn r ->
  exists r', fold_left (accum_ratio fuel rot) l (Some r) = Some r' /\ rnn r' /\
    (forall j k, (j<3)%nat -> (k<3)%nat -> (mget r' j k | mget r j k)) /\
    (forall j k, In (j,k) l -> (mget r' j k | mget rot j k)).
Proof.
  intros Hf. revert r. induction l as [|[j k] l IH]; intros r Hl Hr; cbn [fold_left].
  - exists r. split; [reflexivity|]. split; [auto|]. split; [intros; apply Z.divide_refl|intros ? ? []].
  - destruct (Hl j k) as [Hj Hk]; [left; reflexivity|]. cbn [accum_ratio].
    destruct (Z.eqb_spec (mget rot j k) 0) as [E|E]; cbn [negb].
    + destruct (IH r) as (r'&E'&N'&D&D'); auto. { intros; apply Hl; right; auto. }
      exists r'. split; [exact E'|]. split; [auto|]. split; [auto|].
      intros a b [Ei|Hi]; [|auto]. injection Ei as <- <-. rewrite E. apply Z.divide_0_r.
    + rewrite gcd_loop_spec; [|apply Hr; auto|specialize (Hf j k Hj Hk); lia]. cbn [option_map].
      set (x := Z.gcd _ _).
      assert (Hr' : rnn (mset r j k x)).
      { intros a b Ha Hb. destruct (Nat.eq_dec a j) as [->|Na]; [destruct (Nat.eq_dec b k) as [->|Nb]|].
        - rewrite mget_mset_same by auto. apply Z.gcd_nonneg.
        - rewrite mget_mset_other by (auto; congruence). auto.
        - rewrite mget_mset_other by (auto; congruence). auto. }
      destruct (IH (mset r j k x)) as (r'&E'&N'&D&D'); auto. { intros; apply Hl; right; auto. }
      assert (Dx : forall a b, (a<3)%nat -> (b<3)%nat -> (mget (mset r j k x) a b | mget r a b)).
      { intros a b Ha Hb. destruct (Nat.eq_dec a j) as [->|Na]; [destruct (Nat.eq_dec b k) as [->|Nb]|].
        - rewrite mget_mset_same by auto. apply Z.gcd_divide_l.
        - rewrite mget_mset_other by (auto; congruence). apply Z.divide_refl.
        - rewrite mget_mset_other by (auto; congruence). apply Z.divide_refl. }
      exists r'. split; [exact E'|]. split; [auto|]. split.
      * intros a b Ha Hb. eapply Z.divide_trans; [apply D; auto|]. auto.
      * intros a b [Ei|Hi]; [|auto]. injection Ei as <- <-. eapply Z.divide_trans; [apply D; auto|].
        rewrite mget_mset_same by auto. apply (Z.divide_abs_r x). apply Z.gcd_divide_r.
Qed.
Lemma ratios_spec sym : exists fuel r, ratios_of fuel sym = Some r /\ rnn r /\
  forall rot, In rot sym -> forall j k, (j<3)%nat -> (k<3)%nat -> (mget r j k | mget rot j k).
Proof.
  assert (exists fuel, forall rot, In rot sym -> forall j k, (j<3)%nat -> (k<3)%nat -> Z.abs (mget rot j k) < Z.of_nat fuel) as [fuel Hf].
  { induction sym as [|m sym [f IH]]; [exists O; intros ? []|].
    exists (f + Z.to_nat (fold_right Z.add 1%Z (map (fun jk => Z.abs (mget m (fst jk) (snd jk))) pairs)))%nat.
    intros rot [<-|Hin] j k Hj Hk; [|specialize (IH rot Hin j k Hj Hk); lia].
    assert (G : forall l, 1 <= fold_right Z.add 1 (map (fun jk : nat*nat => Z.abs (mget m (fst jk) (snd jk))) l) /\
              forall p, In p l -> Z.abs (mget m (fst p) (snd p)) < fold_right Z.add 1 (map (fun jk => Z.abs (mget m (fst jk) (snd jk))) l)).
    { induction l as [|q l [G1 G2]]; cbn [map fold_right]; [split; [lia|intros ? []]|]. split; [lia|].
      intros p [->|Hp]; [lia|]. specialize (G2 p Hp). lia. }
    destruct (G pairs) as [G1 G2]. specialize (G2 (j,k) (in_pairs j k Hj Hk)). cbn [fst snd] in G2. lia. }
  exists fuel. unfold ratios_of.
  assert (Hr : rnn ((0,0,0),(0,0,0),(0,0,0))).
  { intros j k Hj Hk. d3 Hj; d3 Hk; reflexivity. }
  revert Hf Hr. generalize ((0,0,0),(0,0,0),(0,0,0)) as r. 
  assert (G : forall sym r, (forall rot, In rot sym -> forall j k, (j<3)%nat -> (k<3)%nat -> Z.abs (mget rot j k) < Z.of_nat fuel) -> rnn r ->
    exists r', fold_left (fun acc rot => fold_left (accum_ratio fuel rot) pairs acc) sym (Some r) = Some r' /\ rnn r' /\
     (forall j k, (j<3)%nat -> (k<3)%nat -> (mget r' j k | mget r j k)) /\
     forall rot, In rot sym -> forall j k, (j<3)%nat -> (k<3)%nat -> (mget r' j k | mget rot j k)).
  { clear. induction sym as [|m sym IH]; intros r Hf Hr; cbn [fold_left].
    - exists r. split; [reflexivity|]. split; [auto|]. split; [intros; apply Z.divide_refl|intros ? []].
    - destruct (accum_spec fuel m pairs r) as (r1&E1&N1&D1&D1'); auto. { apply Hf; left; auto. } { apply pairs_lt. }
      rewrite E1. destruct (IH r1) as (r2&E2&N2&D2&D2'); auto. { intros; apply Hf; auto; right; auto. }
      exists r2. split; [exact E2|]. split; [auto|]. split.
      + intros. eapply Z.divide_trans; [apply D2|apply D1]; auto.
      + intros rot [<-|Hin] j k Hj Hk; [|auto]. eapply Z.divide_trans; [apply D2; auto|]. apply D1', in_pairs; auto. }
  intros r Hf Hr. destruct (G sym r Hf Hr) as (r'&E&N&_&D). exists r'. auto.
Qed.

Lemma rnn_all r : rnn r -> forall j k, 0 <= mget r j k.
Proof.
  intros H j k. unfold rnn in H.
  assert (E : mget r j k = mget r (Nat.min j 2) (Nat.min k 2)).
  { unfold mget. destruct j as [|[|[|j]]], k as [|[|[|k]]]; reflexivity. }
  rewrite E. apply H; lia.
Qed.

(** gcdReduce on a vector of non-negative entries that are not all zero. *)
Lemma gcdReduce_spec r v : nonneg3 v -> (exists j, (j<3)%nat /\ 0 < get v j) -> ok r v ->
  exists fuel w, gcdReduce fuel v = Some w /\ nonneg3 w /\ ok r w /\ (forall k, (k<3)%nat -> 0 < get w k <-> 0 < get v k).
Proof.
  intros Hn (j0&Hj0&Pj0) Hok. destruct v as [[a b] c].
  pose proof (Hn 0%nat ltac:(lia)) as Ha. pose proof (Hn 1%nat ltac:(lia)) as Hb. pose proof (Hn 2%nat ltac:(lia)) as Hc.
  cbn in Ha, Hb, Hc. exists (Z.to_nat (a+b+c+1)). unfold gcdReduce.
  rewrite gcd_loop_spec by lia. pose proof (Z.gcd_nonneg a b). rewrite gcd_loop_spec by lia.
  set (g := Z.gcd (Z.gcd a b) c).
  assert (Dab : (g | Z.gcd a b)) by apply Z.gcd_divide_l. assert (Dc : (g | c)) by apply Z.gcd_divide_r.
  assert (Da : (g | a)) by (eapply Z.divide_trans; [exact Dab|apply Z.gcd_divide_l]).
  assert (Db : (g | b)) by (eapply Z.divide_trans; [exact Dab|apply Z.gcd_divide_r]).
  assert (Hg : 0 < g).
  { assert (0 <= g) by apply Z.gcd_nonneg. destruct (Z.eq_dec g 0) as [E|E]; [|lia]. rewrite E in *.
    apply Z.divide_0_l in Da. apply Z.divide_0_l in Db. apply Z.divide_0_l in Dc. subst.
    d3 Hj0; cbn in Pj0; lia. }
  destruct (Z.eqb_spec g 0); [lia|]. rewrite !Z.quot_div_nonneg by lia. eexists. split; [reflexivity|].
  assert (G : forall k, (k<3)%nat -> get (a,b,c) k = get (a/g,b/g,c/g) k * g).
  { intros k Hk. d3 Hk; cbn; symmetry; rewrite Z.mul_comm, <- Z.divide_div_mul_exact by (auto; lia);
      rewrite Z.mul_comm, Z.div_mul by lia; reflexivity. }
  split; [|split].
  - intros k Hk. specialize (G k Hk). specialize (Hn k Hk). nia.
  - intros j k Hj Hk Pj Pk. pose proof (G j Hj) as Gj. pose proof (G k Hk) as Gk.
    destruct (Hok j k Hj Hk) as [q E]; [nia|nia|]. exists q. rewrite Gj, Gk in E.
    apply (Z.mul_reg_r _ _ g); [lia|]. rewrite <- Z.mul_assoc, E. ring.
  - intros k Hk. specialize (G k Hk). nia.
Qed.

Lemma suitable3_spec v : nonneg3 v -> exists fuel b, suitable3 fuel v = Some b /\
  (b = true -> forall k, (k<3)%nat -> 0 < get v k -> smooth (get v k)).
Proof.
  intros Hn. destruct v as [[x y] z].
  pose proof (Hn 0%nat ltac:(lia)) as Ha. pose proof (Hn 1%nat ltac:(lia)) as Hb. pose proof (Hn 2%nat ltac:(lia)) as Hc.
  cbn in Ha, Hb, Hc. exists (Z.to_nat (x+y+z+1)). unfold suitable3, dims. cbn [fold_left get fst snd].
  assert (T : forall t, 0 <= t <= x+y+z -> exists b, (if negb (t =? 0) then fftSuitable (Z.to_nat (x+y+z+1)) t else Some true) = Some b
                /\ (b = true -> 0 < t -> smooth t)).
  { intros t Ht. destruct (Z.eqb_spec t 0) as [E|E]; cbn [negb]; [exists true; split; [auto|lia]|].
    destruct (fftSuitable_spec (Z.to_nat (x+y+z+1)) t) as (b&E'&I); [lia|]. exists b. tauto. }
  destruct (T x ltac:(lia)) as (b1&E1&I1). destruct (T y ltac:(lia)) as (b2&E2&I2). destruct (T z ltac:(lia)) as (b3&E3&I3).
  rewrite E1. destruct b1; [|exists false; split; [reflexivity|discriminate]].
  rewrite E2. destruct b2; [|exists false; split; [reflexivity|discriminate]].
  rewrite E3. exists b3. split; [reflexivity|]. intros -> k Hk. d3 Hk; cbn; auto.
Qed.

Lemma isotropic_get v k : nonneg3 v -> (k<3)%nat -> get (isotropic v) k = if 0 <? get v k then 1 else 0.
Proof.
  intros Hn. destruct v as [[a b] c].
  pose proof (Hn 0%nat ltac:(lia)) as Ha. pose proof (Hn 1%nat ltac:(lia)) as Hb. pose proof (Hn 2%nat ltac:(lia)) as Hc.
  cbn in Ha, Hb, Hc. intros Hk. unfold isotropic, dims. cbn [fold_left].
  d3 Hk; cbn [get fst snd]; destruct (Z.eqb_spec a 0); cbn [negb set get fst snd];
    destruct (Z.eqb_spec b 0); cbn [negb set get fst snd]; destruct (Z.eqb_spec c 0); cbn [negb set get fst snd];
    match goal with |- context [0 <? ?x] => destruct (Z.ltb_spec 0 x) end; lia.
Qed.

Lemma ceildiv_ge n d : 0 < n -> 0 < d -> n <= ceildiv n d * d /\ 0 < ceildiv n d.
Proof.
  intros Hn Hd. unfold ceildiv. rewrite Z.quot_div_nonneg by lia.
  pose proof (Z.div_mod (n+d-1) d ltac:(lia)). pose proof (Z.mod_pos_bound (n+d-1) d Hd).
  assert (n <= d * ((n+d-1)/d)) by lia. split; [lia|]. nia.
Qed.

Lemma initial_scale_spec Smin v : (forall k, (k<3)%nat -> 0 < get Smin k) -> nonneg3 v -> (exists j, (j<3)%nat /\ 0 < get v j) ->
  0 < initial_scale Smin v /\ Z.even (initial_scale Smin v) = true /\
  forall k s, (k<3)%nat -> 0 < get v k -> initial_scale Smin v <= s -> get Smin k <= get v k * s.
Proof.
  intros HS Hn (j0&Hj0&Pj0). unfold initial_scale, dims. cbn [fold_left].
  assert (St : forall k sc, (k<3)%nat -> 0 <= sc -> Z.even sc = true ->
     exists sc', (if negb (get v k =? 0) then if sc <? 2 * ceildiv (get Smin k) (2 * get v k) then 2 * ceildiv (get Smin k) (2 * get v k) else sc else sc) = sc'
       /\ sc <= sc' /\ Z.even sc' = true /\ (0 < get v k -> 0 < sc' /\ forall s, sc' <= s -> get Smin k <= get v k * s)).
  { intros k sc Hk Hsc Hev. eexists. split; [reflexivity|]. destruct (Z.eqb_spec (get v k) 0) as [E|E]; cbn [negb]; [split; [lia|split;[auto|lia]]|].
    assert (0 < get v k) by (specialize (Hn k Hk); lia).
    destruct (ceildiv_ge (get Smin k) (2 * get v k)) as [C1 C2]; [auto|lia|]. set (q := ceildiv _ _) in *.
    destruct (Z.ltb_spec sc (2*q)).
    - split; [lia|]. split. { apply Z.even_spec. exists q; reflexivity. } intros _. split; [lia|]. intros s Hs. nia.
    - split; [lia|]. split; [auto|]. intros _. split; [lia|]. intros s Hs. nia. }
  destruct (St 0%nat 0 ltac:(lia) ltac:(lia) eq_refl) as (s1&E1&L1&V1&P1). rewrite E1.
  destruct (St 1%nat s1 ltac:(lia) ltac:(lia) V1) as (s2&E2&L2&V2&P2). rewrite E2.
  destruct (St 2%nat s2 ltac:(lia) ltac:(lia) V2) as (s3&E3&L3&V3&P3). rewrite E3.
  split. { d3 Hj0; [destruct (P1 Pj0)|destruct (P2 Pj0)|destruct (P3 Pj0)]; lia. }
  split; [auto|]. intros k s Hk Pk Hs. d3 Hk; [apply (P1 Pk)|apply (P2 Pk)|apply (P3 Pk)]; lia.
Qed.

Lemma grow_terminates s : 0 < s -> Z.even s = true -> exists fuel r, grow fuel fuel s = Some r /\ s <= r /\ Z.even r = true /\ smooth r.
Proof.
  intros Hs Hev. set (m := Z.log2_up s).
  assert (Hs2 : 2 <= s). { destruct (Z.eq_dec s 1) as [->|]; [discriminate|lia]. }
  assert (Hm : 0 < m). { apply Z.log2_up_pos. lia. }
  assert (HT : s <= 2^m) by (apply Z.log2_up_spec; lia).
  exists (Z.to_nat (2^m + 1)).
  destruct (grow_spec (2^m) (smooth_pow2 m ltac:(lia)) (Z.to_nat (2^m+1)) (Z.to_nat (2^m+1)) s) as (r&E&L&V&M); auto; try lia.
  { rewrite Z.even_pow by lia. reflexivity. }
  exists r. split; [auto|]. split; [lia|]. auto.
Qed.

Section Box.
Variable Smin : V3.
Variable r : M3.
Hypothesis HSmin : forall k, (k<3)%nat -> 0 < get Smin k.
Hypothesis Hr : rnn r.

Definition BInv (st : V3*Flags) : Prop :=
  (forall k, (k<3)%nat -> get (snd st) k = false -> get (fst st) k = 0) /\
  (forall k, (k<3)%nat -> get (snd st) k = true -> get Smin k <= get (fst st) k /\ Z.even (get (fst st) k) = true /\ smooth (get (fst st) k)) /\
  (forall j k, (j<3)%nat -> (k<3)%nat -> get (snd st) j = true -> get (snd st) k = true -> pairok r (fst st) j k) /\
  (forall j k, (j<3)%nat -> (k<3)%nat -> get (snd st) j = true -> link r j k -> get (snd st) k = true).

Lemma box_step_spec st j : (j<3)%nat -> BInv st ->
  exists fuel st', box_step fuel Smin r st j = Some st' /\ BInv st' /\ get (snd st') j = true /\
   (forall k, (k<3)%nat -> get (snd st) k = true -> get (snd st') k = true).
Proof.
  intros Hj (I0&I1&I2&I3). destruct st as [Sv d]. cbn [fst snd] in *. unfold box_step.
  destruct (get d j) eqn:Ed. { exists O, (Sv,d). split; [reflexivity|]. split; [split; [auto|split; [auto|auto]]|]. auto. }
  set (v := set (0,0,0) j 1).
  assert (Gv : forall k, (k<3)%nat -> get v k = if Nat.eqb k j then 1 else 0).
  { intros k Hk. subst v. d3 Hk; d3 Hj; reflexivity. }
  destruct (process_spec r (rnn_all r Hr) 4 j v d Hj) as (Sb&d'&E&Sn&Sok&Sm&SK&Scl&Sd&Sc).
  { intros k Hk. rewrite Gv by auto. destruct (Nat.eqb k j); lia. }
  { rewrite Gv, Nat.eqb_refl by auto. lia. }
  { left. intros a b Ha Hb. rewrite !Gv by auto. destruct (Nat.eqb_spec a j), (Nat.eqb_spec b j); try lia. subst. intros. apply pairok_self. }
  { unfold zeros, dims. subst v. d3 Hj; cbn; lia. }
  rewrite E.
  assert (Pj : 0 < get Sb j). { apply Sm; auto. rewrite Gv, Nat.eqb_refl by auto. lia. }
  assert (Sd' : forall k, (k<3)%nat -> get d' k = true <-> get d k = true \/ 0 < get Sb k).
  { intros k Hk. rewrite Sd by auto. rewrite Gv by auto. destruct (Nat.eqb_spec k j) as [->|N]; intuition lia. }
  assert (Disj : forall k, (k<3)%nat -> 0 < get Sb k -> get d k = false).
  { apply (Sc (fun k => get d k = false)).
    - intros a b Ha Hb Pa L. destruct (get d b) eqn:Eb; auto. exfalso.
      pose proof (I3 b a Hb Ha Eb (link_sym _ _ _ L)). congruence.
    - intros k Hk. rewrite Gv by auto. destruct (Nat.eqb_spec k j) as [->|N]; [auto|lia]. }
  assert (Cl : forall a b, (a<3)%nat -> (b<3)%nat -> 0 < get Sb a -> link r a b -> 0 < get Sb b).
  { intros a b Ha Hb Pa L. destruct (Nat.eq_dec a j) as [->|N]; [apply SK; auto using in_dims|].
    apply (Scl a); auto. rewrite Gv by auto. destruct (Nat.eqb_spec a j); [contradiction|reflexivity]. }
  destruct (gcdReduce_spec r Sb) as (f1&w&E1&Wn&Wok&Wp); auto. { exists j; auto. }
  destruct (suitable3_spec w Wn) as (f2&b&E2&Hb).
  set (u := if b then w else isotropic w).
  assert (U : nonneg3 u /\ ok r u /\ (forall k, (k<3)%nat -> 0 < get u k <-> 0 < get Sb k) /\
              forall k, (k<3)%nat -> 0 < get u k -> smooth (get u k)).
  { subst u. destruct b.
    - split; [auto|]. split; [auto|]. split; [auto|]. intros k Hk. apply Hb; auto.
    - assert (Iso : forall k, (k<3)%nat -> get (isotropic w) k = if 0 <? get w k then 1 else 0).
      { intros; apply isotropic_get; auto. }
      split. { intros k Hk. rewrite Iso by auto. destruct (0 <? get w k); lia. }
      split. { intros a c Ha Hc. unfold pairok. rewrite !Iso by auto. destruct (0 <? get w c); [intros; apply Z.divide_1_l|lia]. }
      split. { intros k Hk. rewrite Iso by auto. rewrite <- Wp by auto. destruct (Z.ltb_spec 0 (get w k)); lia. }
      intros k Hk. rewrite Iso by auto. destruct (0 <? get w k); [intros; apply smooth_1|lia]. }
  destruct U as (Un&Uok&Up&Us).
  destruct (initial_scale_spec Smin u HSmin Un) as (T1&T2&T3). { exists j. split; [auto|]. apply Up; auto. }
  destruct (grow_terminates (initial_scale Smin u) T1 T2) as (f3&sc&E3&L3&V3&M3).
  pose proof (smooth_pos _ M3) as Psc.
  set (F := Nat.max f1 (Nat.max f2 f3)). exists F, (add3 Sv (scale3 u sc), d').
  rewrite (gcdReduce_mono f1 F Sb w) by (auto; lia). rewrite (suitable3_mono f2 F w b) by (auto; lia).
  fold u. rewrite (grow_mono f3 F f3 F _ sc) by (auto; lia).
  split; [reflexivity|]. cbn [fst snd].
  assert (GS : forall k, (k<3)%nat -> get (add3 Sv (scale3 u sc)) k = get Sv k + get u k * sc).
  { intros. now rewrite get_add, get_scale. }
  assert (Gold : forall k, (k<3)%nat -> get d k = true -> get (add3 Sv (scale3 u sc)) k = get Sv k).
  { intros k Hk Ek. rewrite GS by auto. destruct (Z.eq_dec (get u k) 0) as [->|N]; [lia|].
    assert (0 < get Sb k). { apply Up; auto. specialize (Un k Hk). lia. } apply Disj in H; auto. congruence. }
  assert (Gnew : forall k, (k<3)%nat -> 0 < get Sb k -> get (add3 Sv (scale3 u sc)) k = get u k * sc).
  { intros k Hk Ek. rewrite GS by auto. rewrite I0; auto. }
  split; [|split].
  - split; [|split; [|split]]; cbn [fst snd].
    + intros k Hk Ek. rewrite GS by auto. assert (~ 0 < get Sb k).
      { intros P. assert (get d' k = true) by (apply Sd'; auto). congruence. }
      assert (get u k = 0) by (specialize (Un k Hk); specialize (Up k Hk); lia).
      rewrite I0; auto; [lia|]. destruct (get d k) eqn:Q; auto. assert (get d' k = true) by (apply Sd'; auto). congruence.
    + intros k Hk Ek. apply Sd' in Ek as [Ek|Ek]; auto.
      * rewrite Gold by auto. auto.
      * rewrite Gnew by auto. apply Up in Ek; auto. split; [apply T3; auto|]. split.
        -- rewrite Z.even_mul, V3. apply orb_true_r.
        -- apply smooth_mul; auto.
    + intros a c Ha Hc Ea Ec. apply Sd' in Ea; auto. apply Sd' in Ec; auto.
      assert (Cross : forall x y, (x<3)%nat -> (y<3)%nat -> get d x = true -> 0 < get Sb y -> mget r x y = 0 /\ mget r y x = 0).
      { intros x y Hx Hy Dx Py. assert (~ link r x y). { intros L. apply (I3 x y) in L; auto. apply Disj in Py; auto. congruence. }
        assert (x <> y). { intros ->. apply Disj in Py; auto. congruence. }
        unfold link in H. destruct (Z.eq_dec (mget r x y) 0), (Z.eq_dec (mget r y x) 0); tauto. }
      destruct Ea as [Ea|Ea], Ec as [Ec|Ec].
      * unfold pairok. rewrite !Gold by auto. apply I2; auto.
      * apply pairok_unlinked. apply (Cross a c); auto.
      * apply pairok_unlinked. apply (Cross c a); auto.
      * unfold pairok. rewrite !Gnew by auto. destruct (Uok a c Ha Hc) as [q Q]; [apply Up; auto|apply Up; auto|].
        exists q. rewrite Z.mul_assoc, Q. ring.
    + intros a c Ha Hc Ea L. apply (Sd' c Hc). apply (Sd' a Ha) in Ea. destruct Ea as [Ea|Ea]; [left; apply (I3 a c); auto|right; apply (Cl a c); auto].
  - apply (Sd' j Hj); auto.
  - intros k Hk Ek. apply (Sd' k Hk); auto.
Qed.
End Box.

Lemma chooseS_spec Smin sym : (forall k, (k<3)%nat -> 0 < get Smin k) ->
  exists N Sv, (forall fuel, (N <= fuel)%nat -> chooseS fuel Smin sym = Some Sv) /\
    (forall k, (k<3)%nat -> get Smin k <= get Sv k /\ Z.even (get Sv k) = true /\ smooth (get Sv k)) /\
    (forall rot, In rot sym -> mesh_compatible (get Sv) (mget rot)) /\ checkFFTbox Sv sym = true.
Proof.
  intros HS. destruct (ratios_spec sym) as (f0&r&E0&Hr&Hdiv).
  assert (B0 : BInv Smin r ((0,0,0),(false,false,false))).
  { split; [|split; [|split]]; cbn [fst snd].
    - intros k Hk _. d3 Hk; reflexivity.
    - intros k Hk. d3 Hk; discriminate.
    - intros j k Hj Hk. d3 Hj; discriminate.
    - intros j k Hj Hk. d3 Hj; discriminate. }
  destruct (box_step_spec Smin r HS Hr _ 0%nat ltac:(lia) B0) as (f1&st1&E1&B1&D1&M1).
  destruct (box_step_spec Smin r HS Hr _ 1%nat ltac:(lia) B1) as (f2&st2&E2&B2&D2&M2).
  destruct (box_step_spec Smin r HS Hr _ 2%nat ltac:(lia) B2) as (f3&st3&E3&B3&D3&M3).
  assert (All : forall k, (k<3)%nat -> get (snd st3) k = true).
  { intros k Hk. d3 Hk; [apply M3; [lia|]; apply M2; [lia|]; exact D1|apply M3; [lia|]; exact D2|exact D3]. }
  set (F := (f0+f1+f2+f3)%nat). exists F, (fst st3).
  destruct B3 as (J0&J1&J2&J3).
  assert (P : forall rot, In rot sym -> mesh_compatible (get (fst st3)) (mget rot)).
  { intros rot Hin i j Hi Hj. destruct (Hdiv rot Hin i j Hi Hj) as [q Q].
    destruct (J2 i j Hi Hj (All i Hi) (All j Hj)) as [t T]. exists (q*t). rewrite Q.
    rewrite (Z.mul_comm (get _ i)), <- Z.mul_assoc, T. ring. }
  split; [|split; [|split]].
  - intros fuel Hf. apply (chooseS_mono F); auto. unfold chooseS.
    rewrite (ratios_of_mono f0 F sym r) by (auto; lia). unfold dims. cbn [fold_left].
    rewrite (box_step_mono f1 F _ _ _ _ st1) by (auto; lia). rewrite (box_step_mono f2 F _ _ _ _ st2) by (auto; lia).
    rewrite (box_step_mono f3 F _ _ _ _ st3) by (auto; lia). reflexivity.
  - intros k Hk. apply J1; auto.
  - exact P.
  - unfold checkFFTbox. apply forallb_forall. intros rot Hin. apply forallb_forall. intros [i j] Hij.
    apply pairs_lt in Hij as [Hi Hj]. destruct (P rot Hin i j Hi Hj) as [q Q]. rewrite Q.
    apply rem_divide; [|exists q; reflexivity]. destruct (J1 j Hj (All j Hj)) as (L&_). specialize (HS j Hj). lia.
Qed.

Lemma chooseS_nocutoff_diverges fuel : chooseS fuel (0,0,0) [] = None.
Proof.
  unfold chooseS, ratios_of, dims. cbn [fold_left]. unfold box_step. cbn [get fst snd].
  change (processSb 4 _ 0 _ _) with (Some ((1,0,0),(true,false,false))). cbv iota beta.
  destruct (gcdReduce fuel (1,0,0)) as [w|] eqn:E; [|reflexivity].
  assert (w = (1,0,0)).
  { apply (gcdReduce_mono fuel (fuel+2)) in E; [|lia]. 
    assert (E' : gcdReduce (fuel+2) (1,0,0) = Some (1,0,0)).
    { apply (gcdReduce_mono 2); [lia|]. reflexivity. } congruence. }
  subst w. destruct (suitable3 fuel (1,0,0)) as [b|]; [|reflexivity].
  assert (I : initial_scale (0,0,0) (if b then (1,0,0) else isotropic (1,0,0)) = 0) by (destruct b; reflexivity).
  rewrite I. destruct fuel; [reflexivity|]. cbn [grow]. rewrite fftSuitable_zero. reflexivity.
Qed.

Lemma checkFFTbox_spec Sv sym : (forall k, (k<3)%nat -> 0 < get Sv k) ->
  (checkFFTbox Sv sym = true <-> forall rot, In rot sym -> mesh_compatible (get Sv) (mget rot)).
Proof.
  intros HS. unfold checkFFTbox. rewrite forallb_forall. split.
  - intros H rot Hin i j Hi Hj. specialize (H rot Hin). rewrite forallb_forall in H.
    specialize (H (i,j) (in_pairs i j Hi Hj)). cbv beta iota in H. apply rem_divide in H; auto.
  - intros H rot Hin. apply forallb_forall. intros [i j] Hij. apply pairs_lt in Hij as [Hi Hj].
    apply rem_divide; auto. apply H; auto.
Qed.
