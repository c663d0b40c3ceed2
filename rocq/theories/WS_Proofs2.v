(** Construction of the Wigner-Seitz cell, and distances from its boundary. *)
From Coq Require Import ZArith Reals List Bool Lia Lra Psatz Permutation Sorted.
From Verif Require Import Base Vec3_Model Vec3_Facts Lattice_Model RealUtil Coulomb_Model Coulomb_Proofs WS_Model WS_Spec WS_Proofs.
Import ListNotations.
Local Open Scope R_scope.

Lemma ip_cs Rl x y : ip Rl x y * ip Rl x y <= cart2 Rl x * cart2 Rl y.
Proof.
  unfold ip, cart2. generalize (rmv Rl x) (rmv Rl y). intros [a b c] [d e f]. v3u.
  assert (X := Rle_0_sqr (a*e-b*d)). assert (Y := Rle_0_sqr (a*f-c*d)). assert (Z := Rle_0_sqr (b*f-c*e)). unfold Rsqr in *. lra.
Qed.
Lemma sq_le a b : 0 <= b -> a * a <= b * b -> a <= b.
Proof. intros B H. nra. Qed.
Lemma far_closer Rl r y l : cart2 Rl y <= r -> 4 * r <= cart2 Rl (vIZR l) -> closer Rl 0 y l.
Proof.
  intros A B. apply closer_iff. assert (C := ip_cs Rl y (vIZR l)). assert (P := cart_pos Rl (vIZR l)). assert (P' := cart_pos Rl y).
  set (q := cart2 Rl (vIZR l)) in *. set (p := cart2 Rl y) in *. set (i := ip Rl y (vIZR l)) in *. apply sq_le; nra.
Qed.
Lemma zero_closer Rl y : closer Rl 0 y (V 0 0 0)%Z.
Proof. apply closer_iff. unfold ip, cart2. destruct Rl, y. v3u. lra. Qed.

(** slicing *)
Lemma slice_ok Rl addPlane rMax (good : list (vec Z) -> Prop) :
  (forall p a, good p -> good (addPlane p a)) ->
  (forall p a y, good p -> poly Rl (addPlane p a) y <-> poly Rl p y /\ closer Rl 0 y a) ->
  (forall p y, good p -> poly Rl p y -> cart2 Rl y <= rMax p) ->
  forall l p r, good p -> (forall y, poly Rl p y -> cart2 Rl y <= r) ->
  StronglySorted (fun a b => cart2 Rl (vIZR a) <= cart2 Rl (vIZR b)) l ->
  good (slice Rl addPlane rMax p r l) /\
  forall y, poly Rl (slice Rl addPlane rMax p r l) y <-> poly Rl p y /\ (forall a, In a l -> closer Rl 0 y a).
Proof.
  intros G HA HM. induction l as [|a l IH]; intros p r Gp Br S.
  - cbn [slice]. split; [exact Gp|]. intros y. split; [intros H; split; [exact H|intros ? []]|tauto].
  - inversion S as [|? ? S' F]; subst. cbn [slice]. rewrite metric_cart. destruct (Rlt_dec (4 * r) (cart2 Rl (vIZR a))) as [L|L].
    + split; [exact Gp|]. intros y. split; [|tauto]. intros H. split; [exact H|]. intros b [<-|Hb].
      * eapply far_closer; [apply Br; exact H|lra].
      * rewrite List.Forall_forall in F. specialize (F b Hb). cbv beta in F. eapply far_closer; [apply Br; exact H|lra].
    + cbv zeta. destruct (IH (addPlane p a) (rMax (addPlane p a)) (G p a Gp)) as [I1 I2]; [intros y Hy; apply HM; auto|exact S'|].
      split; [exact I1|]. intros y. rewrite I2, HA by exact Gp. split.
      * intros [[A B] C]. split; [exact A|]. intros b [<-|Hb]; auto.
      * intros [A B]. split; [split; [exact A|apply B; left; reflexivity]|intros b Hb; apply B; right; exact Hb].
Qed.

(** initial parallelepiped *)
Definition diag (Rl : mat R) (k : nat) : R := match k with 0%nat => m00 (RTR Rl) | 1%nat => m11 (RTR Rl) | _ => m22 (RTR Rl) end.
Lemma diag_cart Rl k s : (k < 3)%nat -> cart2 Rl (vIZR (unitZ k s)) = IZR s * IZR s * diag Rl k.
Proof.
  intros K. unfold cart2, diag, RTR, unitZ. destruct k as [|[|[|]]]; [| | |lia]; cbn [vset c0 c1 c2]; destruct Rl; v3u; ring.
Qed.
Lemma diag_pos Rl k : rdet Rl <> 0 -> (k < 3)%nat -> 0 < diag Rl k.
Proof.
  intros D K. replace (diag Rl k) with (IZR 1 * IZR 1 * diag Rl k) by ring. rewrite <- diag_cart by exact K. apply cart_lattice; [exact D|].
  unfold nonzero, unitZ. destruct k as [|[|[|]]]; [| | |lia]; discriminate.
Qed.
Lemma diag_rows Rl y k : (k < 3)%nat -> rdot (mrow (eqns Rl) k) y = 2 / diag Rl k * ip Rl y (vIZR (unitZ k 1)).
Proof.
  intros K. unfold eqns, diag. destruct k as [|[|[|]]]; [| | |lia]; cbv beta iota;
    (set (a0 := 2 / m00 (RTR Rl)); set (a1 := 2 / m11 (RTR Rl)); set (a2 := 2 / m22 (RTR Rl)); clearbody a0 a1 a2;
     unfold RTR, ip, unitZ; cbn [vset mrow c0 c1 c2]; destruct Rl, y; v3u; ring).
Qed.
Lemma in_initial Rl l : In l (map img (initialFaces Rl)) <-> exists k s, (k < 3)%nat /\ (s = 1 \/ s = -1)%Z /\ l = unitZ k s.
Proof.
  cbn. split.
  - intros H. repeat (destruct H as [<-|H]; [|]); [exists 0%nat, (-1)%Z|exists 0%nat, 1%Z|exists 1%nat, (-1)%Z|exists 1%nat, 1%Z|exists 2%nat, (-1)%Z|exists 2%nat, 1%Z|destruct H]; (split; [lia|split; [lia|reflexivity]]).
  - intros (k & s & K & [->| ->] & ->); destruct k as [|[|[|]]]; try lia; cbn; tauto.
Qed.
Lemma initial_eqn Rl f : rdet Rl <> 0 -> In f (initialFaces Rl) -> f = bisector Rl (img f).
Proof.
  intros D H. assert (forall dir, (dir < 3)%nat -> forall s, (s = 1 \/ s = -1)%Z -> Face (unitZ dir s) (rvscale (IZR s) (mrow (eqns Rl) dir)) = bisector Rl (unitZ dir s)).
  { intros k K s S. unfold bisector. f_equal. rewrite metric_cart, diag_cart by exact K. assert (P := diag_pos Rl k D K).
    assert (T : IZR s * IZR s = 1) by (destruct S; subst s; lra). rewrite T, Rmult_1_l. unfold eqns. unfold diag in *. unfold unitZ.
    set (A := RTR Rl) in *.
    assert (Y1 : m10 A = m01 A) by (unfold A, RTR; destruct Rl; v3u; ring).
    assert (Y2 : m20 A = m02 A) by (unfold A, RTR; destruct Rl; v3u; ring).
    assert (Y3 : m21 A = m12 A) by (unfold A, RTR; destruct Rl; v3u; ring).
    clearbody A. destruct A as [a b c d e f0 g h i]. cbn [m10 m01 m20 m02 m21 m12] in Y1, Y2, Y3. subst d g h.
    destruct k as [|[|[|]]]; [| | |lia]; cbv beta iota; cbn [vset mrow c0 c1 c2]; v3u; f_equal; ring. }
  cbn in H. destruct H as [<-|H]; [exact (H0 0%nat ltac:(lia) (-1)%Z ltac:(lia))|]. destruct H as [<-|H]; [exact (H0 0%nat ltac:(lia) 1%Z ltac:(lia))|].
  destruct H as [<-|H]; [exact (H0 1%nat ltac:(lia) (-1)%Z ltac:(lia))|]. destruct H as [<-|H]; [exact (H0 1%nat ltac:(lia) 1%Z ltac:(lia))|].
  destruct H as [<-|H]; [exact (H0 2%nat ltac:(lia) (-1)%Z ltac:(lia))|]. destruct H as [<-|H]; [exact (H0 2%nat ltac:(lia) 1%Z ltac:(lia))|]. destruct H.
Qed.
Lemma box_of_poly Rl y k : rdet Rl <> 0 -> (k < 3)%nat -> poly Rl (map img (initialFaces Rl)) y -> -1 <= rdot (mrow (eqns Rl) k) y <= 1.
Proof.
  intros D K H. rewrite diag_rows by exact K. assert (P := diag_pos Rl k D K).
  assert (A : closer Rl 0 y (unitZ k 1)) by (apply H, in_initial; exists k, 1%Z; auto).
  assert (B : closer Rl 0 y (unitZ k (-1))) by (apply H, in_initial; exists k, (-1)%Z; auto).
  rewrite closer_iff, diag_cart in A, B by exact K.
  assert (E : ip Rl y (vIZR (unitZ k (-1))) = - ip Rl y (vIZR (unitZ k 1))).
  { unfold ip, unitZ. destruct k as [|[|[|]]]; [| | |lia]; cbn [vset c0 c1 c2]; destruct Rl, y; v3u; ring. }
  rewrite E in B. set (i := ip Rl y (vIZR (unitZ k 1))) in *. set (q := diag Rl k) in *.
  assert (Q : 2 / q * i * q = 2 * i) by (field; lra). set (z := 2 / q * i) in *. clearbody z i q. split; nra.
Qed.
Lemma rdet_RTR Rl : rdet (RTR Rl) = rdet Rl * rdet Rl.
Proof. unfold RTR. rewrite rdet_mm. f_equal. destruct Rl. v3u. ring. Qed.
Lemma rdet_eqns Rl : rdet Rl <> 0 -> rdet (eqns Rl) <> 0.
Proof.
  intros D. unfold eqns. rewrite rdet_mm, rdet_RTR. assert (A := diag_pos Rl 0 D ltac:(lia)). assert (B := diag_pos Rl 1 D ltac:(lia)). assert (C := diag_pos Rl 2 D ltac:(lia)).
  unfold diag in A, B, C. set (a := m00 (RTR Rl)) in *. set (b := m11 (RTR Rl)) in *. set (c := m22 (RTR Rl)) in *.
  replace (rdet (rdiag (2 / a) (2 / b) (2 / c))) with (2 / a * (2 / b) * (2 / c)) by (v3u; ring).
  assert (PA : 0 < 2 / a) by (apply Rdiv_lt_0_compat; lra). assert (PB : 0 < 2 / b) by (apply Rdiv_lt_0_compat; lra). assert (PC : 0 < 2 / c) by (apply Rdiv_lt_0_compat; lra).
  apply Rmult_integral_contrapositive_currified; [|apply Rmult_integral_contrapositive_currified; exact D].
  apply Rmult_integral_contrapositive_currified; [apply Rmult_integral_contrapositive_currified; apply Rgt_not_eq; assumption|apply Rgt_not_eq; assumption].
Qed.
(** convexity *)
Lemma convex_edge (f : R -> R) A B C : (forall t, f t = A * t * t + B * t + C) -> 0 <= A -> forall t, -1 <= t <= 1 -> exists s, (s = 1 \/ s = -1)%Z /\ f t <= f (IZR s).
Proof. intros E P t T. assert (Q : 0 <= A * (1 - t * t)) by (apply Rmult_le_pos; nra). destruct (Rle_dec 0 B); [exists 1%Z|exists (-1)%Z]; (split; [auto|]); rewrite !E; nra. Qed.
Definition mcart (Rl M : mat R) (v : vec R) : R := cart2 Rl (rmv M v).
Lemma mcart_edge Rl M k : (k < 3)%nat -> forall v t, -1 <= t <= 1 -> exists s, (s = 1 \/ s = -1)%Z /\ mcart Rl M (vset v k t) <= mcart Rl M (vset v k (IZR s)).
Proof.
  intros K v t T.
  assert (G : forall w, 0 <= rlen2 w) by (intros [a b c]; v3u; nra).
  pose (e := match k with 0%nat => V 1 0 0 | 1%nat => V 0 1 0 | _ => V 0 0 1 end).
  pose (v' := vset v k 0).
  apply (convex_edge (fun t => mcart Rl M (vset v k t)) (mcart Rl M e) (2 * rdot (rmv Rl (rmv M v')) (rmv Rl (rmv M e))) (mcart Rl M v')); [|apply G|exact T].
  intros r. unfold mcart, cart2. replace (rmv Rl (rmv M (vset v k r))) with (rvadd (rmv Rl (rmv M v')) (rvscale r (rmv Rl (rmv M e)))).
  - generalize (rmv Rl (rmv M v')) (rmv Rl (rmv M e)). intros [a b c] [d f g]. v3u. ring.
  - rewrite <- !rmv_mm. generalize (rmm Rl M). intros m. unfold v', e. destruct k as [|[|[|]]]; [| | |lia]; cbn [vset c0 c1 c2]; destruct m, v; v3u; f_equal; ring.
Qed.
Lemma cube_vertex Rl M c : -1 <= c0 c <= 1 -> -1 <= c1 c <= 1 -> -1 <= c2 c <= 1 ->
  exists s0 s1 s2, (s0 = 1 \/ s0 = -1)%Z /\ (s1 = 1 \/ s1 = -1)%Z /\ (s2 = 1 \/ s2 = -1)%Z /\ mcart Rl M c <= mcart Rl M (vIZR (V s0 s1 s2)).
Proof.
  destruct c as [x y z]. cbn [c0 c1 c2]. intros X Y Z.
  destruct (mcart_edge Rl M 0 ltac:(lia) (V x y z) x X) as (s0 & S0 & L0).
  destruct (mcart_edge Rl M 1 ltac:(lia) (V (IZR s0) y z) y Y) as (s1 & S1 & L1).
  destruct (mcart_edge Rl M 2 ltac:(lia) (V (IZR s0) (IZR s1) z) z Z) as (s2 & S2 & L2).
  cbn [vset c0 c1 c2] in *. exists s0, s1, s2. repeat (split; [assumption|]). unfold vIZR, vmap. cbn [c0 c1 c2]. lra.
Qed.
Lemma maxSq_ge Rl vs : forall v, In v vs -> cart2 Rl v <= maxSq Rl vs.
Proof.
  unfold maxSq. assert (G : forall l a, a <= fold_left (fun r v => let rSq := metric2 (RTR Rl) v in if Rlt_dec r rSq then rSq else r) l a).
  { induction l as [|w l IH]; intros a; cbn [fold_left]; [lra|]. eapply Rle_trans; [|apply IH]. cbv zeta. destruct (Rlt_dec a _); lra. }
  generalize 0 as a. induction vs as [|w l IH]; intros a v []; cbn [fold_left].
  - subst w. eapply Rle_trans; [|apply G]. cbv zeta. rewrite metric_cart. destruct (Rlt_dec a (cart2 Rl v)); lra.
  - apply IH. assumption.
Qed.
Lemma initial_bound Rl y : rdet Rl <> 0 -> poly Rl (map img (initialFaces Rl)) y -> cart2 Rl y <= maxSq Rl (initialVertices Rl).
Proof.
  intros D H. assert (E := rdet_eqns Rl D). assert (B := fun k K => box_of_poly Rl y k D K H).
  assert (B0 := B 0%nat ltac:(lia)). assert (B1 := B 1%nat ltac:(lia)). assert (B2 := B 2%nat ltac:(lia)). clear B.
  set (c := rmv (eqns Rl) y).
  assert (Y : y = rmv (rinv (eqns Rl)) c). { unfold c. rewrite <- rmv_mm, rinv_l by exact E. destruct y. v3u. f_equal; ring. }
  destruct (cube_vertex Rl (rinv (eqns Rl)) c) as (s0 & s1 & s2 & S0 & S1 & S2 & L).
  { replace (c0 c) with (rdot (mrow (eqns Rl) 0) y); [exact B0|]. unfold c. generalize (eqns Rl). intros m. destruct m, y. cbn [mrow]. v3u. ring. }
  { replace (c1 c) with (rdot (mrow (eqns Rl) 1) y); [exact B1|]. unfold c. generalize (eqns Rl). intros m. destruct m, y. cbn [mrow]. v3u. ring. }
  { replace (c2 c) with (rdot (mrow (eqns Rl) 2) y); [exact B2|]. unfold c. generalize (eqns Rl). intros m. destruct m, y. cbn [mrow]. v3u. ring. }
  unfold mcart in L. rewrite <- Y in L. eapply Rle_trans; [exact L|]. apply maxSq_ge. unfold initialVertices.
  generalize (rinv (eqns Rl)). intros m. cbn. destruct S0; subst s0; destruct S1; subst s1; destruct S2; subst s2; tauto.
Qed.
