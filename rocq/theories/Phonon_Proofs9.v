From Coq Require Import ZArith Reals List Bool Arith Lra Lia FunctionalExtensionality.
From Verif Require Import Base Vec3_Model ExCompute_Spec ExCompute_Proofs Phonon_Model Phonon_Spec Phonon_Proofs Phonon_Proofs2 Phonon_Proofs3.
Import ListNotations.
Import Vec3_Model.
Open Scope R_scope.

Lemma sumR_flat : forall A B (g : A -> list B) l f, sumR (flat_map g l) f = sumR l (fun x => sumR (g x) f).
Proof. induction l as [|x l IH]; intros f; [reflexivity|]. cbn [flat_map]. rewrite sumR_app, IH, sumR_cons. reflexivity. Qed.
Lemma range3 : dimRange 3 true = [-3;-2;-1;0;1;2;3]%Z. Proof. reflexivity. Qed.
Lemma range1 : dimRange 1 true = [-1;0;1]%Z. Proof. reflexivity. Qed.
Lemma rangeF : forall N, dimRange N false = [0%Z]. Proof. reflexivity. Qed.

(** ** Total weight *)
Definition eps33 : R := 1 / (2 * 10 ^ 33).
Definition dimW (h : R) (dim : bool) : R := if dim then 2 * h * (1 + eps33) else 1.
Lemma weight_dim : forall h dim, sumR (dimRange 3 dim) (gweight h dim) = dimW h dim.
Proof.
  intros h [|]; [|unfold dimRange, gweight, dimW; cbn; ring]. rewrite range3. unfold gweight, dimW, eps33. rewrite !sumR_cons. change (sumR [] ?f) with 0. unfold gaussW. cbn [Z.abs]. field.
Qed.
Lemma weight_box : forall scale g d0 d1 d2, sumR (quadBox scale g d0 d1 d2) snd = dimW (1/2 * scale) d0 * dimW (1/2 * scale) d1 * dimW (1/2 * scale) d2.
Proof.
  intros. unfold quadBox. cbv zeta. rewrite sumR_map, !sumR_prod. cbn [fst snd]. rewrite <- !weight_dim.
  rewrite (sumR_ext _ _ _ (fun x => (sumR (dimRange 3 d1) (gweight (1/2 * scale) d1) * sumR (dimRange 3 d2) (gweight (1/2 * scale) d2)) * gweight (1/2 * scale) d0 x)).
  - rewrite sum_scal_r. ring.
  - intros x _. rewrite (sumR_ext _ _ _ (fun y => (gweight (1/2 * scale) d0 x * sumR (dimRange 3 d2) (gweight (1/2 * scale) d2)) * gweight (1/2 * scale) d1 y)).
    + rewrite sum_scal_r. ring.
    + intros y _. rewrite sum_scal_r. ring.
Qed.
Definition act (b : bool) : nat := if b then 1%nat else 0%nat.
Definition nact (d0 d1 d2 : bool) : nat := (act d0 + act d1 + act d2)%nat.
Lemma weight_scale : forall scale d0 d1 d2, sumR (quadScale scale d0 d1 d2) snd = (scale * (1 + eps33)) ^ nact d0 d1 d2 * (1 - (1/3) ^ nact d0 d1 d2).
Proof.
  intros scale d0 d1 d2. unfold quadScale. rewrite sumR_flat.
  rewrite (sumR_ext _ _ _ (fun i => let '(a, b, c) := i in (if ((a * a + b * b + c * c =? 0)%Z) then 0 else 1) * (dimW (1/2 * (scale/3)) d0 * dimW (1/2 * (scale/3)) d1 * dimW (1/2 * (scale/3)) d2))).
  2:{ intros [[a b] c] _. destruct (_ =? 0)%Z; [cbn; ring|rewrite weight_box; ring]. }
  rewrite !sumR_prod.
  destruct d0, d1, d2; rewrite ?range1, ?rangeF; unfold dimW, nact, act; cbn [Nat.add]; generalize eps33; intros ep;
    repeat match goal with |- context [sumR (?x :: ?l) ?f] => rewrite (sumR_cons _ x l f) end; change (sumR (@nil Z) ?f) with 0;
    repeat match goal with |- context [(?a =? ?b)%Z] => let v := eval vm_compute in (a =? b)%Z in change (a =? b)%Z with v end; cbv iota beta; cbn [pow]; field.
Qed.
Lemma steps : forall fuel d0 d1 d2, quadLoop (8 + fuel) 1 d0 d1 d2 =
  Some (quadScale 1 d0 d1 d2 ++ quadScale (1/3) d0 d1 d2 ++ quadScale (1/3/3) d0 d1 d2 ++ quadScale (1/3/3/3) d0 d1 d2 ++ quadScale (1/3/3/3/3) d0 d1 d2 ++ quadScale (1/3/3/3/3/3) d0 d1 d2 ++ quadScale (1/3/3/3/3/3/3) d0 d1 d2 ++ []).
Proof.
  intros. cbn [Nat.add quadLoop].
  destruct (Rlt_dec (1/1000) 1); [|lra]. destruct (Rlt_dec (1/1000) (1/3)); [|lra]. destruct (Rlt_dec (1/1000) (1/3/3)); [|lra]. destruct (Rlt_dec (1/1000) (1/3/3/3)); [|lra].
  destruct (Rlt_dec (1/1000) (1/3/3/3/3)); [|lra]. destruct (Rlt_dec (1/1000) (1/3/3/3/3/3)); [|lra]. destruct (Rlt_dec (1/1000) (1/3/3/3/3/3/3)); [|lra]. destruct (Rlt_dec (1/1000) (1/3/3/3/3/3/3/3)); [lra|]. reflexivity.
Qed.
Lemma quad_points : forall fuel t0 t1 t2 l p, quadratureBZ (8 + fuel) t0 t1 t2 = Some l -> In p l -> exists scale, 0 < scale <= 1 /\ In p (quadScale scale (negb t0) (negb t1) (negb t2)).
Proof.
  intros fuel t0 t1 t2 l p H Hp. unfold quadratureBZ in H. rewrite steps in H. injection H as <-. rewrite !in_app_iff in Hp.
  decompose [or] Hp; try (eexists; split; [|eassumption]; lra). contradiction.
Qed.
Lemma quad_weight : forall fuel t0 t1 t2, exists l, quadratureBZ (8 + fuel) t0 t1 t2 = Some l /\ sumR l snd = (1 + eps33) ^ nact (negb t0) (negb t1) (negb t2) * (1 - (1/3) ^ (7 * nact (negb t0) (negb t1) (negb t2))).
Proof.
  intros. eexists. split; [apply steps|]. rewrite !sumR_app, !weight_scale. change (sumR [] ?f) with 0. generalize (1 + eps33) as E. intros E.
  generalize (nact (negb t0) (negb t1) (negb t2)) as d. intros d. rewrite !Rpow_mult_distr. rewrite pow_mult.
  replace ((1/3) ^ 7) with (1/3 * (1/3) * (1/3) * (1/3) * (1/3) * (1/3) * (1/3)) by field.
  replace (1/3/3) with (1/3 * (1/3)) by field. replace (1/3 * (1/3)/3) with (1/3 * (1/3) * (1/3)) by field. replace (1/3 * (1/3) * (1/3)/3) with (1/3 * (1/3) * (1/3) * (1/3)) by field. replace (1/3 * (1/3) * (1/3) * (1/3)/3) with (1/3 * (1/3) * (1/3) * (1/3) * (1/3)) by field.
  replace (1/3 * (1/3) * (1/3) * (1/3) * (1/3)/3) with (1/3 * (1/3) * (1/3) * (1/3) * (1/3) * (1/3)) by field. rewrite !Rpow_mult_distr, pow1. set (q := (1/3) ^ d). ring.
Qed.

(** ** The points *)
Lemma gaussX_bound : forall i, 0 <= gaussX i <= 19/20.
Proof. intros i. unfold gaussX. destruct (Z.abs i) as [|[[?|?|]|[?|?|]|]|]; lra. Qed.
Lemma gaussW_pos : forall i, 0 < gaussW i.
Proof. intros i. unfold gaussW. destruct (Z.abs i) as [|[[?|?|]|[?|?|]|]|]; lra. Qed.
Lemma range1_in : forall d a, In a (dimRange 1 d) -> (a = 0 \/ (d = true /\ (a = -1 \/ a = 1)))%Z.
Proof. intros [|] a H; [rewrite range1 in H|rewrite rangeF in H]; cbn in H; decompose [or] H; subst; auto; contradiction. Qed.
Lemma coord : forall scale d a i, 0 < scale -> In a (dimRange 1 d) -> let y := abscissa (1/2 * (scale/3)) (scale/3 * IZR a) d i in
  Rabs y <= scale / 2 /\ (a <> 0%Z -> y <> 0) /\ (d = false -> y = 0).
Proof.
  intros scale d a i Hs Ha. cbv zeta. unfold abscissa. pose proof (gaussX_bound i) as [X0 X1].
  assert (0 <= scale * gaussX i <= scale * (19/20)) as SX by (split; [apply Rmult_le_pos; lra|apply Rmult_le_compat_l; lra]).
  destruct (range1_in d a Ha) as [-> |[-> [-> | ->]]].
  - split; [|split; [congruence|intros ->; lra]]. destruct d; [|rewrite Rmult_0_r, Rplus_0_l, Rabs_R0; lra]. apply Rabs_le. destruct (0 <? i)%Z; lra.
  - split; [|split; [|discriminate]]; [apply Rabs_le; destruct (0 <? i)%Z; lra|intros _; destruct (0 <? i)%Z; lra].
  - split; [|split; [|discriminate]]; [apply Rabs_le; destruct (0 <? i)%Z; lra|intros _; destruct (0 <? i)%Z; lra].
Qed.
Lemma scale_point : forall scale d0 d1 d2 p, 0 < scale -> In p (quadScale scale d0 d1 d2) ->
  0 < snd p /\ (forall k, (k < 3)%nat -> Rabs (vget (fst p) k) <= scale / 2) /\ fst p <> V 0 0 0 /\ (d0 = false -> c0 (fst p) = 0) /\ (d1 = false -> c1 (fst p) = 0) /\ (d2 = false -> c2 (fst p) = 0).
Proof.
  intros scale d0 d1 d2 p Hs Hp. unfold quadScale in Hp. apply in_flat_map in Hp. destruct Hp as [[[a b] c] [Hi Hp]]. rewrite !in_prod_iff in Hi. destruct Hi as [[Ha Hb] Hc].
  destruct (Z.eqb_spec (a * a + b * b + c * c) 0) as [|N]; [contradiction|]. unfold quadBox in Hp. cbv zeta in Hp. apply in_map_iff in Hp. destruct Hp as [[[i j] k] [<- Hk]]. cbn [fst snd c0 c1 c2].
  destruct (coord scale d0 a i Hs Ha) as (A1 & A2 & A3). destruct (coord scale d1 b j Hs Hb) as (B1 & B2 & B3). destruct (coord scale d2 c k Hs Hc) as (C1 & C2 & C3).
  assert (forall d i, 0 < gweight (1/2 * (scale/3)) d i) as W by (intros [|] q; unfold gweight; [pose proof (gaussW_pos q); apply Rmult_lt_0_compat; lra|lra]).
  split; [repeat apply Rmult_lt_0_compat; apply W|]. split; [intros [|[|[|m]]] Hm; [..|lia]; assumption|]. split; [|split; [exact A3|split; [exact B3|exact C3]]].
  intros E. injection E as E0 E1 E2. destruct (Z.eq_dec a 0) as [->|Na]; [|apply (A2 Na E0)]. destruct (Z.eq_dec b 0) as [->|Nb]; [|apply (B2 Nb E1)]. destruct (Z.eq_dec c 0) as [->|Nc]; [|apply (C2 Nc E2)]. apply N. reflexivity.
Qed.

(** ** Inversion *)
Definition vneg (v : vec R) : vec R := rvopp v.
Lemma range_sym : forall N d f, (N = 1 \/ N = 3)%nat -> sumR (dimRange N d) (fun i => f (- i)%Z) = sumR (dimRange N d) f.
Proof. intros N [|] f [-> | ->]; rewrite ?range1, ?range3, ?rangeF; repeat match goal with |- context [sumR (?x :: ?l) ?g] => rewrite (sumR_cons _ x l g) end; change (sumR (@nil Z) ?g) with 0; repeat match goal with |- context [Z.opp ?a] => let v := eval vm_compute in (Z.opp a) in change (Z.opp a) with v end; ring. Qed.
Lemma abscissa_opp : forall h g d i, abscissa h (- g) d (- i) = - abscissa h g d i.
Proof.
  intros h g d i. unfold abscissa. destruct d; [|ring]. assert (gaussX (- i) = gaussX i) as -> by (unfold gaussX; rewrite Z.abs_opp; reflexivity).
  destruct (Z.ltb_spec 0 i), (Z.ltb_spec 0 (- i)); try lia; try ring. assert (i = 0%Z) as -> by lia. unfold gaussX. cbn [Z.abs]. ring.
Qed.
Lemma gweight_opp : forall h d i, gweight h d (- i) = gweight h d i.
Proof. intros. unfold gweight, gaussW. rewrite Z.abs_opp. reflexivity. Qed.
Lemma box_opp : forall scale g d0 d1 d2 f, sumR (quadBox scale (rvopp g) d0 d1 d2) (fun p => snd p * f (fst p)) = sumR (quadBox scale g d0 d1 d2) (fun p => snd p * f (rvopp (fst p))).
Proof.
  intros. unfold quadBox. cbv zeta. rewrite !sumR_map, !sumR_prod. cbn [fst snd].
  rewrite <- range_sym by auto. apply sumR_ext. intros x _. rewrite <- range_sym by auto. apply sumR_ext. intros y _. rewrite <- range_sym by auto. apply sumR_ext. intros z _.
  rewrite !gweight_opp. f_equal. f_equal. destruct g as [g0 g1 g2]. unfold rvopp, gvopp, vmap. cbn [c0 c1 c2]. rewrite !abscissa_opp. reflexivity.
Qed.
Lemma scale_opp : forall scale d0 d1 d2 f, sumR (quadScale scale d0 d1 d2) (fun p => snd p * f (fst p)) = sumR (quadScale scale d0 d1 d2) (fun p => snd p * f (rvopp (fst p))).
Proof.
  intros. unfold quadScale. rewrite !sumR_flat, !sumR_prod.
  rewrite <- range_sym by auto. apply sumR_ext. intros x _. rewrite <- range_sym by auto. apply sumR_ext. intros y _. rewrite <- range_sym by auto. apply sumR_ext. intros z _.
  rewrite !Z.mul_opp_opp. destruct (_ =? 0)%Z; [reflexivity|]. rewrite <- box_opp. f_equal. f_equal. unfold rvopp, gvopp, vmap. cbn [c0 c1 c2]. rewrite !opp_IZR. f_equal; ring.
Qed.
Lemma quad_opp : forall fuel t0 t1 t2 l f, quadratureBZ (8 + fuel) t0 t1 t2 = Some l -> sumR l (fun p => snd p * f (fst p)) = sumR l (fun p => snd p * f (rvopp (fst p))).
Proof. intros fuel t0 t1 t2 l f H. unfold quadratureBZ in H. rewrite steps in H. injection H as <-. rewrite !sumR_app. rewrite !(scale_opp _ _ _ _ f). reflexivity. Qed.
Lemma quad_molecule : forall fuel, quadratureBZ (8 + fuel) true true true = Some [].
Proof. intros. unfold quadratureBZ. rewrite steps. reflexivity. Qed.
From Verif Require Import Phonon_Proofs8.
Lemma quad_total : forall fuel (t0 t1 t2 : bool), let d := ((if t0 then 0 else 1) + (if t1 then 0 else 1) + (if t2 then 0 else 1))%nat in
  exists l, quadratureBZ (8 + fuel) t0 t1 t2 = Some l /\ sumR l snd = (1 + 1 / (2 * 10 ^ 33)) ^ d * (1 - (1/3) ^ (7 * d)).
Proof.
  intros. destruct (quad_weight fuel t0 t1 t2) as (l & E & W). exists l. split; [exact E|]. rewrite W. unfold eps33, nact, act. subst d. destruct t0, t1, t2; reflexivity.
Qed.
Lemma quad_inside : forall fuel t0 t1 t2 l p, quadratureBZ (8 + fuel) t0 t1 t2 = Some l -> In p l ->
  0 < snd p /\ (forall k, (k < 3)%nat -> Rabs (vget (fst p) k) <= 1 / 2) /\ fst p <> V 0 0 0 /\ (t0 = true -> c0 (fst p) = 0) /\ (t1 = true -> c1 (fst p) = 0) /\ (t2 = true -> c2 (fst p) = 0).
Proof.
  intros fuel t0 t1 t2 l p H Hp. destruct (quad_points fuel t0 t1 t2 l p H Hp) as (scale & Hs & Hq). destruct (scale_point scale _ _ _ p (proj1 Hs) Hq) as (A & B & C & D0 & D1 & D2).
  split; [exact A|]. split; [intros k Hk; eapply Rle_trans; [apply (B k Hk)|lra]|]. split; [exact C|]. split; [intros ->; apply D0; reflexivity|]. split; [intros ->; apply D1; reflexivity|intros ->; apply D2; reflexivity].
Qed.
Lemma warning_zero_out : exists pts, (forall p, In p pts -> 0 < fst (fst p)) /\ (forall p e, In p pts -> In e (snd p) -> 0 <= e) /\ imagWarning pts = OutOfRange.
Proof.
  exists [(1, V (1/2) 0 0, [0; 1; 2])]. split; [intros p [<-|[]]; cbn; lra|]. split; [intros p e [<-|[]]; cbn; intros [<-|[<-|[<-|[]]]]; lra|exact warning_zero].
Qed.
Lemma weight_not_one : exists fuel t0 t1 t2 l, quadratureBZ fuel t0 t1 t2 = Some l /\ l <> [] /\ sumR l snd <> 1.
Proof.
  destruct (quad_total 0 false true true) as (l & E & W). cbv zeta in W. replace (10 ^ 33) with 1000000000000000000000000000000000 in W by ring. cbn [Nat.add Nat.mul pow] in W. exists 8%nat, false, true, true, l. split; [exact E|]. assert (0 < sumR l snd < 1) as B by (rewrite W; split; lra).
  split; [intros ->; cbn in B; lra|lra].
Qed.
Lemma length_list_prod : forall A B (l : list A) (m : list B), length (list_prod l m) = (length l * length m)%nat.
Proof. intros. apply prod_length. Qed.
Lemma layer_points : exists l, quadratureBZ 8 false false true = Some l /\ length l = (7 * 8 * 49)%nat.
Proof.
  eexists. split; [apply (steps 0)|]. cbn [negb]. rewrite !app_length.
  assert (forall s, length (quadScale s true true false) = (8 * 49)%nat) as L.
  { intros s. unfold quadScale. rewrite !range1, rangeF. cbn [list_prod map app flat_map]. repeat match goal with |- context [(?a =? ?b)%Z] => let v := eval vm_compute in (a =? b)%Z in change (a =? b)%Z with v end. cbv iota. rewrite ?app_nil_l, ?app_length.
    assert (forall s g, length (quadBox s g true true false) = 49%nat) as B by (intros; unfold quadBox; cbv zeta; rewrite map_length, !prod_length, range3, rangeF; reflexivity). rewrite !B. reflexivity. }
  rewrite !L. reflexivity.
Qed.
Lemma two_modes : vibAll 1 [(1/2, [-1; 0; 4]); (1/2, [9])] = Vib (1/2 * 1 + 1/2 * (3/2)) (1/2 * (1 + 2 * exp (-2) / (1 - exp (-2))) + 1/2 * (3/2 + 3 * exp (-3) / (1 - exp (-3)))) (1/2 * (1 + ln (1 - exp (-2))) + 1/2 * (3/2 + ln (1 - exp (-3)))).
Proof.
  cbn [vibAll fold_left fst snd]. unfold vibAll. cbn [fold_left fst snd]. unfold vibAdd. destruct (Rle_dec (-1) 0); [|lra]. destruct (Rle_dec 0 0); [|lra]. destruct (Rle_dec 4 0); [lra|]. destruct (Rle_dec 9 0); [lra|].
  replace (sqrt 4) with 2 by (symmetry; replace 4 with (2 * 2) by ring; apply sqrt_square; lra). replace (sqrt 9) with 3 by (symmetry; replace 9 with (3 * 3) by ring; apply sqrt_square; lra).
  assert (- (2) / 1 = -2) as E2 by lra. assert (- (3) / 1 = -3) as E3 by lra. rewrite E2, E3. cbn [ZPE Evib Avib].
  assert (0 < 3) as H3 by lra. pose proof (exp_neg_lt1 1 2 Rlt_0_1 Rlt_0_2) as Q2. pose proof (exp_neg_lt1 1 3 Rlt_0_1 H3) as Q3. rewrite E2 in Q2. rewrite E3 in Q3. f_equal; field; lra.
Qed.
