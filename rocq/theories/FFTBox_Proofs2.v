(** Lemmas for FFTBox: the constraint propagation. *)
From Coq Require Import ZArith List Lia Bool Znumtheory.
From Verif Require Import Base Grid_Model FFTBox_Model FFTBox_Spec FFTBox_Proofs.
Import ListNotations.
Open Scope Z_scope.

Lemma lt3 k : (k < 3)%nat -> k = 0%nat \/ k = 1%nat \/ k = 2%nat.
Proof. lia. Qed.
Ltac d3 H := apply lt3 in H; destruct H as [->|[->| ->]].
Lemma get_set_same {A} (v : A*A*A) k x : (k<3)%nat -> get (set v k x) k = x.
Proof. destruct v as [[a b] c]. intros H. d3 H; reflexivity. Qed.
Lemma get_set_other {A} (v : A*A*A) j k x : (j<3)%nat -> (k<3)%nat -> j <> k -> get (set v k x) j = get v j.
Proof. destruct v as [[a b] c]. intros H H'. d3 H; d3 H'; intros; (reflexivity || lia). Qed.
Lemma get_scale v s k : get (scale3 v s) k = get v k * s.
Proof. destruct v as [[a b] c]. destruct k as [|[|k]]; reflexivity. Qed.
Lemma get_add v w k : get (add3 v w) k = get v k + get w k.
Proof. destruct v as [[a b] c], w as [[x y] z]. destruct k as [|[|k]]; reflexivity. Qed.

Lemma in_dims k : (k<3)%nat -> In k dims.
Proof. cbn. lia. Qed.

Section Proc.
Variable r : M3.
Hypothesis r_nonneg : forall j k, 0 <= mget r j k.

Definition nonneg3 (v : V3) := forall k, (k<3)%nat -> 0 <= get v k.
Definition pairok (v : V3) (j k : nat) := (get v k | mget r j k * get v j).
Definition ok (v : V3) := forall j k, (j<3)%nat -> (k<3)%nat -> 0 < get v j -> 0 < get v k -> pairok v j k.
Definition okexc (j0 : nat) (v : V3) := forall j k, (j<3)%nat -> (k<3)%nat -> j <> j0 -> k <> j0 ->
  0 < get v j -> 0 < get v k -> pairok v j k.
Definition link (j k : nat) := j <> k /\ (mget r j k <> 0 \/ mget r k j <> 0).
Definition allnz (v : V3) := forall k, (k<3)%nat -> 0 < get v k.
Definition confined (v w : V3) := forall P : nat -> Prop,
  (forall a b, (a<3)%nat -> (b<3)%nat -> P a -> link a b -> P b) ->
  (forall k, (k<3)%nat -> 0 < get v k -> P k) -> (forall k, (k<3)%nat -> 0 < get w k -> P k).

Lemma pairok_self v j : pairok v j j.
Proof. exists (mget r j j). reflexivity. Qed.
Lemma pairok_unlinked v j k : mget r j k = 0 -> pairok v j k.
Proof. intros E. unfold pairok. rewrite E. exists 0. now rewrite !Z.mul_0_l. Qed.
Lemma ok_111 : ok (1,1,1).
Proof. intros j k Hj Hk _ _. unfold pairok. d3 Hj; d3 Hk; apply Z.divide_1_l. Qed.

Definition pstep (f : nat) (j : nat) (acc : option (V3*Flags)) (k : nat) : option (V3*Flags) :=
      match acc with
      | None => None
      | Some (Sb, done) =>
        if negb (Nat.eqb j k) && (negb (mget r j k =? 0) || negb (mget r k j =? 0)) then
          if negb (get Sb k =? 0) then
            if negb (Z.rem (mget r j k * get Sb j) (get Sb k) =? 0)
               || negb (Z.rem (mget r k j * get Sb k) (get Sb j) =? 0)
            then Some ((1,1,1), done) else Some (Sb, done)
          else
            let Sb' := if negb (mget r k j =? 0)
                       then set (scale3 Sb (mget r k j)) k (get Sb j * Z.max 1 (mget r j k))
                       else set Sb k (mget r j k * get Sb j) in
            processSb f r k Sb' done
        else Some (Sb, done)
      end.
Lemma processSb_unfold f j Sb d : processSb (S f) r j Sb d = fold_left (pstep f j) dims (Some (@pair V3 Flags Sb (set d j true))).
Proof. reflexivity. Qed.

Definition linkb j k := negb (Nat.eqb j k) && (negb (mget r j k =? 0) || negb (mget r k j =? 0)).
Lemma linkb_spec j k : linkb j k = true <-> link j k.
Proof.
  unfold linkb, link. rewrite andb_true_iff, negb_true_iff, orb_true_iff, !negb_true_iff, Nat.eqb_neq, !Z.eqb_neq. tauto.
Qed.
Lemma link_sym j k : link j k -> link k j.
Proof. unfold link. intuition. Qed.
Lemma link_irrefl j : ~ link j j.
Proof. unfold link. intuition. Qed.

Lemma rem_divide a b : 0 < b -> (Z.rem a b =? 0) = true <-> (b | a).
Proof.
  intros Hb. rewrite Z.eqb_eq. split.
  - apply Z.rem_divide; lia.
  - apply Z.rem_divide; lia.
Qed.

(** Case A: every entry already present, only pairs with j unverified. *)
Definition InvA (j : nat) (Ks : list nat) (v : V3) :=
  allnz v /\ okexc j v /\ forall k, In k Ks -> pairok v j k /\ pairok v k j.
Lemma pstepA f j k Ks v d : (j<3)%nat -> (k<3)%nat -> (forall k', In k' Ks -> (k'<3)%nat) -> InvA j Ks v ->
  exists v', pstep f j (Some (v,d)) k = Some (v',d) /\ InvA j (k::Ks) v'.
Proof.
  intros Hj Hk HKs (Hnz&Hex&HK). unfold pstep. fold (linkb j k). destruct (linkb j k) eqn:L.
  - pose proof (Hnz k Hk). pose proof (Hnz j Hj). destruct (Z.eqb_spec (get v k) 0); [lia|]. cbn [negb].
    pose proof (rem_divide (mget r j k * get v j) (get v k) ltac:(lia)) as R1.
    pose proof (rem_divide (mget r k j * get v k) (get v j) ltac:(lia)) as R2.
    destruct (Z.rem (mget r j k * get v j) (get v k) =? 0);
    destruct (Z.rem (mget r k j * get v k) (get v j) =? 0); cbn [negb orb];
      (eexists; split; [reflexivity|]).
    { split; [auto|split;[auto|]]. intros k' [->|Hin]; [split; [apply R1|apply R2]; reflexivity|auto]. }
    all: split; [intros x Hx; d3 Hx; cbn; lia|split];
      [intros a b Ha Hb _ _ Ha' Hb'; apply ok_111; auto|
       intros k' Hk'; assert (k'<3)%nat by (destruct Hk' as [<-|?]; auto);
       split; apply ok_111; auto; (d3 Hj; cbn; lia) || (d3 H1; cbn; lia)].
  - eexists; split; [reflexivity|]. split; [auto|split;[auto|]]. intros k' [->|Hin]; [|auto].
    unfold linkb in L. destruct (Nat.eqb_spec j k') as [->|Hne]; [split; apply pairok_self|].
    cbn [negb andb] in L. apply orb_false_iff in L as [L1 L2]. rewrite negb_false_iff, Z.eqb_eq in L1, L2.
    split; apply pairok_unlinked; auto.
Qed.
Lemma processA f j v d : (j<3)%nat -> allnz v -> okexc j v ->
  exists v', processSb (S f) r j v d = Some (v', set d j true) /\ allnz v' /\ ok v'.
Proof.
  intros Hj Hnz Hex. rewrite processSb_unfold. unfold dims. cbn [fold_left].
  destruct (pstepA f j 0%nat [] v (set d j true)) as (v1&E1&I1); auto; [intros ? []|split;[auto|split;[auto|intros ? []]]|].
  rewrite E1.
  destruct (pstepA f j 1%nat [0%nat] v1 (set d j true)) as (v2&E2&I2); auto; [cbn; intuition lia|]. rewrite E2.
  destruct (pstepA f j 2%nat [1;0]%nat v2 (set d j true)) as (v3&E3&I3); auto; [cbn; intuition lia|]. rewrite E3.
  exists v3. split; [reflexivity|]. destruct I3 as (N&X&K). split; [exact N|].
  intros a b Ha Hb Pa Pb.
  assert (In3 : forall k, (k<3)%nat -> In k [2;1;0]%nat) by (cbn; intros; lia).
  destruct (Nat.eq_dec a j) as [->|Ea]; [apply K; auto|].
  destruct (Nat.eq_dec b j) as [->|Eb]; [apply K; auto|]. apply X; auto.
Qed.

(** Number of absent entries. *)
Definition zeros (v : V3) : nat :=
  length (filter (fun k => get v k =? 0) dims).
Lemma zeros_le v w k : nonneg3 v -> (k<3)%nat -> get v k = 0 -> 0 < get w k ->
  (forall l, (l<3)%nat -> 0 < get v l -> 0 < get w l) -> (zeros w < zeros v)%nat.
Proof.
  intros Hv Hk E P M. unfold zeros, dims. cbn [filter].
  pose proof (M 0%nat ltac:(lia)). pose proof (M 1%nat ltac:(lia)). pose proof (M 2%nat ltac:(lia)).
  pose proof (Hv 0%nat ltac:(lia)). pose proof (Hv 1%nat ltac:(lia)). pose proof (Hv 2%nat ltac:(lia)).
  d3 Hk; destruct (Z.eqb_spec (get v 0) 0), (Z.eqb_spec (get v 1) 0), (Z.eqb_spec (get v 2) 0),
    (Z.eqb_spec (get w 0) 0), (Z.eqb_spec (get w 1) 0), (Z.eqb_spec (get w 2) 0); cbn [length]; lia.
Qed.
Lemma zeros_mono v w : nonneg3 v -> (forall l, (l<3)%nat -> 0 < get v l -> 0 < get w l) -> (zeros w <= zeros v)%nat.
Proof.
  intros Hv M. unfold zeros, dims. cbn [filter].
  pose proof (M 0%nat ltac:(lia)). pose proof (M 1%nat ltac:(lia)). pose proof (M 2%nat ltac:(lia)).
  pose proof (Hv 0%nat ltac:(lia)). pose proof (Hv 1%nat ltac:(lia)). pose proof (Hv 2%nat ltac:(lia)).
  destruct (Z.eqb_spec (get v 0) 0), (Z.eqb_spec (get v 1) 0), (Z.eqb_spec (get v 2) 0),
    (Z.eqb_spec (get w 0) 0), (Z.eqb_spec (get w 1) 0), (Z.eqb_spec (get w 2) 0); cbn [length]; lia.
Qed.

Definition Inv (j : nat) (Ks : list nat) (v0 : V3) (d0 : Flags) (v : V3) (d : Flags) :=
  nonneg3 v /\ ok v /\ (forall k, (k<3)%nat -> 0 < get v0 k -> 0 < get v k) /\
  (forall k, In k Ks -> link j k -> 0 < get v k) /\
  (forall k, (k<3)%nat -> get v0 k = 0 -> 0 < get v k -> forall l, (l<3)%nat -> link k l -> 0 < get v l) /\
  (forall k, (k<3)%nat -> get d k = true <-> get d0 k = true \/ k = j \/ (get v0 k = 0 /\ 0 < get v k)) /\
  confined v0 v.

Lemma add_entry j k v : (j<3)%nat -> (k<3)%nat -> nonneg3 v -> ok v -> 0 < get v j -> get v k = 0 -> link j k ->
  let v' := if negb (mget r k j =? 0)
            then set (scale3 v (mget r k j)) k (get v j * Z.max 1 (mget r j k))
            else set v k (mget r j k * get v j) in
  nonneg3 v' /\ 0 < get v' k /\ (forall l, (l<3)%nat -> l <> k -> (0 < get v' l <-> 0 < get v l)) /\
  okexc k v' /\ pairok v' j k /\ pairok v' k j.
Proof.
  intros Hj Hk Hn Hok Pj Ek [Hne HL] v'. pose proof (r_nonneg k j) as Rk. pose proof (r_nonneg j k) as Rj.
  assert (exists c x, 0 < c /\ 0 < x /\ v' = set (scale3 v c) k x /\ (x | mget r j k * (get v j * c)) /\ (get v j * c | mget r k j * x))
    as (c&x&Hc&Hx&Ev&D1&D2).
  { subst v'. destruct (Z.eqb_spec (mget r k j) 0) as [E|E]; cbn [negb].
    - exists 1, (mget r j k * get v j). split; [lia|]. assert (0 < mget r j k) by lia. split; [nia|]. split.
      + f_equal. destruct v as [[p q] s]. cbn. now rewrite !Z.mul_1_r.
      + split; [exists 1; ring|rewrite E; exists 0; ring].
    - exists (mget r k j), (get v j * Z.max 1 (mget r j k)). split; [lia|]. split; [nia|]. split; [reflexivity|].
      split.
      + destruct (Z.eq_dec (mget r j k) 0) as [->|E']; [exists 0; ring|].
        rewrite Z.max_r by lia. exists (mget r k j). ring.
      + exists (Z.max 1 (mget r j k)). ring. }
  rewrite Ev. clear v' Ev.
  assert (G : forall l, (l<3)%nat -> l <> k -> get (set (scale3 v c) k x) l = get v l * c).
  { intros l Hl Hlk. rewrite get_set_other by auto. apply get_scale. }
  assert (Gk : get (set (scale3 v c) k x) k = x) by (apply get_set_same; auto).
  split. { intros l Hl. destruct (Nat.eq_dec l k) as [->|E]; [lia|]. rewrite G by auto. specialize (Hn l Hl). nia. }
  split; [lia|]. split. { intros l Hl E. rewrite G by auto. nia. }
  split. { intros a b Ha Hb Na Nb Pa Pb. unfold pairok. rewrite !G in * by auto.
    assert (P : pairok v a b) by (apply Hok; auto; nia). destruct P as [q P]. exists q. rewrite Z.mul_assoc, P. ring. }
  unfold pairok. rewrite Gk, G by auto. auto.
Qed.

Definition Hrec (f : nat) := forall j v d, (j<3)%nat -> nonneg3 v -> 0 < get v j ->
  (ok v \/ (allnz v /\ okexc j v)) -> (zeros v < f)%nat ->
  exists v' d', processSb f r j v d = Some (v',d') /\ Inv j dims v d v' d'.


Lemma pstepB f j k Ks v0 d0 v d : Hrec f -> (j<3)%nat -> (k<3)%nat -> (forall k', In k' Ks -> (k'<3)%nat) ->
  nonneg3 v0 -> 0 < get v0 j -> (zeros v0 <= f)%nat ->
  Inv j Ks v0 d0 v d -> exists v' d', pstep f j (Some (v,d)) k = Some (v',d') /\ Inv j (k::Ks) v0 d0 v' d'.
Proof.
  intros IH Hj Hk HKs Hn0 Pj0 Hz (Hn&Hok&Hmono&HKl&Hcl&Hd&Hconf). assert (Pj : 0 < get v j) by auto.
  unfold pstep. fold (linkb j k). destruct (linkb j k) eqn:L.
  2:{ exists v, d. split; [reflexivity|]. unfold Inv. intuition.
      destruct H as [->|H]; [|auto]. apply linkb_spec in H0. congruence. }
  apply linkb_spec in L. destruct (Z.eqb_spec (get v k) 0) as [E|E]; cbn [negb].
  - pose proof (add_entry j k v Hj Hk Hn Hok Pj E L) as A. cbv zeta in A.
    set (w := if negb (mget r k j =? 0) then _ else _) in *. clearbody w. destruct A as (Wn&Wk&Wl&Wex&W1&W2).
    assert (Wm : forall l, (l<3)%nat -> 0 < get v l -> 0 < get w l).
    { intros l Hl P. destruct (Nat.eq_dec l k) as [->|N]; [lia|]. apply Wl; auto. }
    assert (Z0 : (zeros w < zeros v0)%nat).
    { eapply Nat.lt_le_trans; [apply (zeros_le v w k); auto|]. apply zeros_mono; auto. }
    destruct (IH k w d Hk Wn Wk) as (v'&d'&E'&Vn&Vok&Vm&VK&Vcl&Vd&Vc); [|lia|].
    { destruct (Z.eq_dec (get w (3-j-k)) 0) as [Z1|Z1].
      - left. intros a b Ha Hb Pa Pb.
        assert (Ta : a = j \/ a = k).
        { destruct (Nat.eq_dec a j); auto. destruct (Nat.eq_dec a k); auto. exfalso.
          assert (a = (3-j-k)%nat) by (destruct L; lia). subst a. lia. }
        assert (Tb : b = j \/ b = k).
        { destruct (Nat.eq_dec b j); auto. destruct (Nat.eq_dec b k); auto. exfalso.
          assert (b = (3-j-k)%nat) by (destruct L; lia). subst b. lia. }
        destruct Ta, Tb; subst a b; auto using pairok_self.
      - right. split; [|exact Wex]. intros l Hl. destruct (Nat.eq_dec l k) as [->|N]; [auto|].
        destruct (Nat.eq_dec l j) as [->|N']; [apply Wm; auto|].
        assert (l = (3-j-k)%nat) by (destruct L; lia). subst l.
        assert (B : (3-j-k<3)%nat) by (destruct L; lia). specialize (Wn _ B). lia. }
    exists v', d'. split; [exact E'|]. split; [exact Vn|]. split; [exact Vok|].
    split; [intros l Hl P; apply Vm; auto|].
    split. { intros l [<-|Hl] Ll; [apply Vm; auto|]. apply Vm; auto. }
    split.
    { intros a Ha Ea Pa l Hl Ll. destruct (Nat.eq_dec a k) as [->|Nk]; [apply VK; auto using in_dims|].
      destruct (Z.eq_dec (get w a) 0) as [Zw|Zw]; [exact (Vcl a Ha Zw Pa l Hl Ll)|].
      specialize (Wn a Ha). assert (0 < get v a) by (apply (Wl a Ha Nk); lia). apply Vm; auto. apply Wm; auto.
      apply (Hcl a); auto. }
    split.
    { intros a Ha. rewrite Vd by auto. rewrite Hd by auto.
      assert (V0 := Hn0 a Ha). assert (V1 := Hn a Ha). assert (V2 := Wn a Ha). assert (V3 := Vn a Ha).
      pose proof (Hmono a Ha). pose proof (Wm a Ha). pose proof (Vm a Ha).
      destruct (Nat.eq_dec a k) as [->|Nk].
      - assert (get v0 k = 0) by lia. intuition lia.
      - pose proof (Wl a Ha Nk). intuition lia. }
    intros P HPc HP0. apply Vc; [exact HPc|]. intros l Hl Pl. destruct (Nat.eq_dec l k) as [->|Nk].
    + apply (HPc j k); auto.
    + apply (Hconf P HPc HP0); auto. apply Wl; auto.
  - assert (Pk : 0 < get v k) by (specialize (Hn k Hk); lia).
    pose proof (Hok j k Hj Hk Pj Pk) as D1. pose proof (Hok k j Hk Hj Pk Pj) as D2.
    apply (rem_divide _ _ Pk) in D1. apply (rem_divide _ _ Pj) in D2. rewrite D1, D2. cbn [negb orb].
    exists v, d. split; [reflexivity|]. unfold Inv. intuition. destruct H as [<-|H]; auto.
Qed.

Lemma process_spec f : Hrec f.
Proof.
  induction f as [|f IH]; intros j v d Hj Hn Pj Hpre Hz; [lia|]. destruct Hpre as [Hok|[Hnz Hex]].
  - rewrite processSb_unfold. unfold dims. cbn [fold_left].
    assert (I0 : Inv j [] v d v (set d j true)).
    { split; [auto|]. split; [auto|]. split; [auto|]. split; [intros ? []|].
      split; [intros; lia|]. split; [|intros P ? H; exact H].
      intros k Hk. destruct (Nat.eq_dec k j) as [->|N]; [rewrite get_set_same by auto; tauto|].
      rewrite get_set_other by auto. intuition lia. }
    destruct (pstepB f j 0%nat [] v d v (set d j true)) as (v1&d1&E1&I1); auto; try lia. { intros ? []. } rewrite E1.
    destruct (pstepB f j 1%nat [0%nat] v d v1 d1) as (v2&d2&E2&I2); auto; try lia. { cbn; intuition lia. } rewrite E2.
    destruct (pstepB f j 2%nat [1;0]%nat v d v2 d2) as (v3&d3&E3&I3); auto; try lia. { cbn; intuition lia. } rewrite E3.
    exists v3, d3. split; [reflexivity|].
    destruct I3 as (A1&A2&A3&A4&A5). split; [auto|split;[auto|split;[auto|split;[|auto]]]].
    intros k Hk. apply A4. cbn in *. tauto.
  - destruct (processA f j v d Hj Hnz Hex) as (v'&E&N&O). exists v', (set d j true). split; [exact E|].
    split. { intros k Hk. specialize (N k Hk). lia. }
    split; [exact O|]. split; [intros; apply N; auto|].
    split. { intros k Hk _. apply N. cbn in Hk. lia. }
    split. { intros k Hk Z0. specialize (Hnz k Hk). lia. }
    split. { intros k Hk. destruct (Nat.eq_dec k j) as [->|Ne]; [rewrite get_set_same by auto; tauto|].
      rewrite get_set_other by auto. specialize (Hnz k Hk). intuition lia. }
    intros P _ H k Hk _. apply H; auto.
Qed.
End Proc.
