From Coq Require Import List Reals Bool Lra Lia.
From Coquelicot Require Import Coquelicot.
From Verif Require Import Neutral_Model Neutral_Spec GGA_Proofs WPBE_Proofs.
Import ListNotations.
Local Open Scope R_scope.

Definition toComp (s : species) : comp := Comp (fixedN s) (count0 s) (charge s).
Lemma ltb_t x y : x < y -> ltb x y = true. Proof. intros H. unfold ltb. destruct Rlt_dec; [reflexivity|contradiction]. Qed.
Lemma ltb_f x y : ~ x < y -> ltb x y = false. Proof. intros H. unfold ltb. destruct Rlt_dec; [contradiction|reflexivity]. Qed.

(** ** the accumulated sums *)
Lemma Qtot_fold b : forall l a, fold_left (fun acc p => let Q := snd p in let N := fst p * exp (- Q * b) in
    (fst acc + Q * N, snd acc + - Q * Q * N)) l a =
  (fst a + addup (fun p => snd p * (fst p * exp (- snd p * b))) l, snd a + addup (fun p => - snd p * snd p * (fst p * exp (- snd p * b))) l).
Proof.
  induction l as [|p l IH]; intros [x y]; [cbn; f_equal; ring|]. cbn [fold_left addup fold_right]. rewrite IH. cbn [fst snd]. unfold addup. f_equal; ring.
Qed.
Lemma Qtot_val b l : Qtot b l = (addup (fun p => snd p * (fst p * exp (- snd p * b))) l, addup (fun p => - snd p * snd p * (fst p * exp (- snd p * b))) l).
Proof. unfold Qtot. rewrite Qtot_fold. cbn [fst snd]. f_equal; ring. Qed.
Lemma Qfixed_val : forall cs a, Qfixed a cs = a + addup (fun c => if ltb 0 (Nnorm c) then Qmol c * Nnorm c else 0) cs.
Proof.
  unfold Qfixed. induction cs as [|c cs IH]; intros a; [cbn; ring|]. cbn [fold_left addup fold_right]. rewrite IH.
  unfold addup. destruct (ltb 0 (Nnorm c)); ring.
Qed.
Lemma addup_filter {A} (f : A -> bool) (g : A -> R) l : addup g (filter f l) = addup (fun x => if f x then g x else 0) l.
Proof. unfold addup. induction l as [|x l IH]; [reflexivity|]. cbn. destruct (f x); cbn; rewrite IH; ring. Qed.
Lemma addup_map {A B} (f : A -> B) (g : B -> R) l : addup g (map f l) = addup (fun x => g (f x)) l.
Proof. unfold addup. induction l as [|x l IH]; [reflexivity|]. cbn. rewrite IH. reflexivity. Qed.
Lemma addup_ext {A} (f g : A -> R) l : (forall x, In x l -> f x = g x) -> addup f l = addup g l.
Proof. unfold addup. induction l as [|x l IH]; intros H; [reflexivity|]. cbn. rewrite (H x) by (left; reflexivity). rewrite IH by (intros; apply H; right; assumption). reflexivity. Qed.
Lemma addup_add {A} (f g : A -> R) l : addup (fun x => f x + g x) l = addup f l + addup g l.
Proof. unfold addup. induction l as [|x l IH]; cbn; [ring|]. rewrite IH. ring. Qed.
Lemma addup_scal {A} (k : R) (f : A -> R) l : addup (fun x => k * f x) l = k * addup f l.
Proof. unfold addup. induction l as [|x l IH]; cbn; [ring|]. rewrite IH. ring. Qed.

Lemma free_case s : isFree (toComp s) = true <-> charge s <> 0 /\ ~ 0 < fixedN s.
Proof.
  unfold isFree, nzb, ltb. cbn. destruct Req_EM_T, Rlt_dec; cbn; split; intros H; try discriminate; try (split; assumption); try reflexivity; destruct H; contradiction.
Qed.
(** the two parts of the charge together are the net charge *)
Lemma charge_split ext b l : Qfixed ext (map toComp l) + fst (Qtot b (N0Q (map toComp l))) = netCharge ext b l.
Proof.
  rewrite Qtot_val. cbn [fst]. unfold N0Q. rewrite Qfixed_val, !addup_map, addup_filter, addup_map. cbn [fst snd].
  unfold netCharge. rewrite Rplus_assoc, <- addup_add. f_equal. apply addup_ext. intros s _.
  unfold count. cbn [Nnorm Qmol N0 toComp]. unfold isFree, nzb, ltb. cbn.
  destruct (Rlt_dec 0 (fixedN s)); destruct (Req_EM_T (charge s) 0) as [E|]; cbn; try rewrite E; try replace (- charge s * b) with (- (charge s * b)) by ring; ring.
Qed.
Lemma slope_val b l : snd (Qtot b (N0Q (map toComp l))) = - addup (fun s => if isFree (toComp s) then charge s * charge s * (count0 s * exp (- (charge s * b))) else 0) l.
Proof.
  rewrite Qtot_val. cbn [snd]. unfold N0Q. rewrite addup_map, addup_filter, addup_map.
  replace (- addup _ l) with (-1 * addup (fun s => if isFree (toComp s) then charge s * charge s * (count0 s * exp (- (charge s * b))) else 0) l) by ring.
  rewrite <- addup_scal. apply addup_ext. intros s _. cbn [fst snd N0 Qmol toComp]. destruct (isFree (toComp s)); [|ring]. replace (- charge s * b) with (- (charge s * b)) by ring. ring.
Qed.

(** ** the loop *)
Lemma newton_conv Qtol Qfix l : forall k b p b' p', newton k Qtol Qfix l b p = (b', p', true) -> Rabs (Qfix + fst (Qtot b' l)) < Rabs Qtol /\ p' = snd (Qtot b' l).
Proof.
  induction k as [|k IH]; intros b p b' p'; cbn [newton]; [discriminate|].
  destruct (Qtot b l) as [Qt Qp] eqn:E. cbv zeta. unfold ltb at 1. destruct Rlt_dec as [L|]; [|apply IH].
  intros H. injection H as <- <-. rewrite E. split; [exact L|reflexivity].
Qed.
Theorem neutral Qtol ext l b p : 0 < Qtol -> (forall s, In s l -> 0 < fixedN s -> count0 s <> 0) -> (exists s, In s l /\ charge s <> 0 /\ ~ 0 < fixedN s) ->
  solve Qtol ext (map toComp l) = Scaled b p true ->
  Rabs (ext + addup (fun s => charge s * (Nscale b (toComp s) * count0 s)) l) < Qtol /\ netCharge ext b l = ext + addup (fun s => charge s * (Nscale b (toComp s) * count0 s)) l.
Proof.
  intros Ht Hn (s0 & I0 & C0) H.
  assert (E : netCharge ext b l = ext + addup (fun s => charge s * (Nscale b (toComp s) * count0 s)) l).
  { unfold netCharge. f_equal. apply addup_ext. intros s Hs. unfold count, Nscale, isFree, nzb, ltb. cbn [Nnorm Qmol N0 toComp].
    destruct Rlt_dec as [P|P]; [field; apply Hn; assumption|]. destruct Req_EM_T as [Z|Z]; cbn; [rewrite Z; ring_simplify|replace (- charge s * b) with (- (charge s * b)) by ring; ring]. reflexivity. }
  split; [|exact E]. rewrite <- E, <- charge_split. unfold solve in H.
  assert (NE : N0Q (map toComp l) <> []).
  { intros K. assert (In (toComp s0) (filter isFree (map toComp l))) as J.
    { apply filter_In. split; [apply in_map; exact I0|apply free_case; exact C0]. }
    unfold N0Q in K. apply map_eq_nil in K. rewrite K in J. destruct J. }
  destruct (N0Q (map toComp l)) as [|x t] eqn:El; [contradiction|]. rewrite <- El in *.
  destruct (ltb _ 0 && _); [discriminate|]. destruct (ltb 0 _ && _); [discriminate|].
  destruct (newton _ _ _ _ _ _) as [[b1 p1] c1] eqn:En. injection H as -> -> ->.
  apply newton_conv in En. destruct En as [En _]. rewrite (Rabs_right Qtol) in En by lra. exact En.
Qed.

(** ** at most one shift is neutral *)
Lemma count_decr s b b' : b < b' -> (~ 0 < fixedN s -> 0 < count0 s) -> charge s * count b' s <= charge s * count b s.
Proof.
  intros H P. unfold count. destruct Rlt_dec as [|N]; [lra|]. specialize (P N).
  destruct (Rtotal_order (charge s) 0) as [C|[C|C]].
  - assert (exp (- (charge s * b)) < exp (- (charge s * b'))) by (apply exp_increasing; nra). assert (count0 s * exp (- (charge s * b)) < count0 s * exp (- (charge s * b'))) by nra. nra.
  - rewrite C. lra.
  - assert (exp (- (charge s * b')) < exp (- (charge s * b))) by (apply exp_increasing; nra). assert (count0 s * exp (- (charge s * b')) < count0 s * exp (- (charge s * b))) by nra. nra.
Qed.
Lemma count_decr_strict s b b' : b < b' -> ~ 0 < fixedN s -> 0 < count0 s -> charge s <> 0 -> charge s * count b' s < charge s * count b s.
Proof.
  intros H N P Z. unfold count. destruct Rlt_dec as [|_]; [contradiction|].
  destruct (Rtotal_order (charge s) 0) as [C|[C|C]]; [|contradiction|].
  - assert (exp (- (charge s * b)) < exp (- (charge s * b'))) by (apply exp_increasing; nra). assert (count0 s * exp (- (charge s * b)) < count0 s * exp (- (charge s * b'))) by nra. nra.
  - assert (exp (- (charge s * b')) < exp (- (charge s * b))) by (apply exp_increasing; nra). assert (count0 s * exp (- (charge s * b')) < count0 s * exp (- (charge s * b))) by nra. nra.
Qed.
Theorem decreasing ext l b b' : (forall s, In s l -> ~ 0 < fixedN s -> 0 < count0 s) -> (exists s, In s l /\ charge s <> 0 /\ ~ 0 < fixedN s) ->
  b < b' -> netCharge ext b' l < netCharge ext b l.
Proof.
  intros P (s0 & I0 & Z0 & F0) H. unfold netCharge. apply Rplus_lt_compat_l.
  assert (K : forall l, (forall s, In s l -> ~ 0 < fixedN s -> 0 < count0 s) -> addup (fun s => charge s * count b' s) l <= addup (fun s => charge s * count b s) l).
  { induction l0 as [|x l0 IH]; intros Q; cbn; [lra|]. apply Rplus_le_compat; [apply count_decr; [exact H|apply Q; left; reflexivity]|apply IH; intros; apply Q; [right|]; assumption]. }
  induction l as [|x l IH]; [destruct I0|]. cbn. destruct I0 as [->|I0].
  - apply Rplus_lt_le_compat; [apply count_decr_strict; auto; apply P; [left; reflexivity|exact F0]|apply K; intros; apply P; [right|]; assumption].
  - apply Rplus_le_lt_compat; [apply count_decr; [exact H|apply P; left; reflexivity]|apply IH; [intros; apply P; [right|]; assumption|exact I0]].
Qed.

(** ** ten iterations may not suffice *)
Definition salt : list species := [Species 0 1 1; Species 0 1 (-1)].
Lemma salt_Qtot b : Qtot b [(1, 1); (1, -1)] = (exp (- b) - exp b, - (exp (- b) + exp b)).
Proof.
  rewrite Qtot_val. unfold addup. cbn [fold_right fst snd]. replace (- (1) * b) with (- b) by ring. replace (- (-1) * b) with b by ring.
  f_equal; ring.
Qed.
Lemma slow : forall k b p, b <= - 100 - INR k -> exists b' p', newton k 1 (-1000) [(1, 1); (1, -1)] b p = (b', p', false).
Proof.
  induction k as [|k IH]; intros b p H; cbn [newton]; [eauto|]. rewrite salt_Qtot. cbv zeta.
  rewrite S_INR in H. pose proof (pos_INR k) as K. pose proof (exp_pos b) as E1. pose proof (exp_pos (- b)) as E2.
  assert (U : exp b < 1) by (rewrite <- exp_0; apply exp_increasing; lra).
  assert (W : 2000 <= exp (- b)).
  { replace (- b) with ((- b / 2) + (- b / 2)) by field. rewrite exp_plus. pose proof (exp_ineq1_le (- b / 2)). nra. }
  rewrite ltb_f.
  - apply IH. apply Rle_trans with (b + 1); [|lra]. apply Rplus_le_compat_l.
    replace (- ((-1000 + (exp (- b) - exp b)) / - (exp (- b) + exp b))) with ((-1000 + (exp (- b) - exp b)) / (exp (- b) + exp b)) by (field; lra).
    apply Rmult_le_reg_r with (exp (- b) + exp b); [lra|]. unfold Rdiv. rewrite Rmult_assoc, Rinv_l by lra. lra.
  - rewrite (Rabs_right 1) by lra. rewrite Rabs_right by lra. lra.
Qed.
Lemma salt_solve : exists b p, solve 1 (-1000) (map toComp salt) = Scaled b p false.
Proof.
  assert (L : N0Q (map toComp salt) = [(1, 1); (1, -1)]).
  { unfold N0Q, salt. cbn [map filter]. rewrite !(proj2 (free_case _)) by (cbn; lra). reflexivity. }
  assert (Qf : Qfixed (-1000) (map toComp salt) = -1000).
  { unfold Qfixed, salt. cbn [map fold_left Nnorm toComp fixedN]. rewrite !ltb_f by lra. reflexivity. }
  unfold solve. rewrite L, Qf. cbn [existsb snd]. rewrite (ltb_t 0 1), (ltb_f 0 (-1000)) by lra. cbn [orb negb andb]. rewrite andb_false_r.
  cbn [andb].
  assert (S : exists b p, newton 10 1 (-1000) [(1, 1); (1, -1)] 0 0 = (b, p, false)).
  { change (newton 10 1 (-1000) [(1, 1); (1, -1)] 0 0) with
      (let '(Qt, Qp) := Qtot 0 [(1, 1); (1, -1)] in let Qcell := -1000 + Qt in
       if ltb (Rabs Qcell) (Rabs 1) then (0, Qp, true) else newton 9 1 (-1000) [(1, 1); (1, -1)] (0 - Qcell / Qp) Qp).
    rewrite salt_Qtot. rewrite Ropp_0, exp_0. cbv beta iota zeta. rewrite ltb_f.
    - apply slow. cbn [INR]. replace (0 - (-1000 + (1 - 1)) / - (1 + 1)) with (-500) by field. lra.
    - rewrite (Rabs_right 1) by lra. rewrite Rabs_left by lra. lra. }
  destruct S as (b & p & ->). exists b, p. reflexivity.
Qed.
Lemma salt_root : exists b, netCharge (-1000) b salt = 0.
Proof.
  (* e^(-b) - e^b = 1000 at b = - ln y with y - 1/y = 1000 *)
  set (y := 500 + sqrt 250001). assert (S : sqrt 250001 * sqrt 250001 = 250001) by (apply sqrt_sqrt; lra). pose proof (sqrt_pos 250001).
  assert (Y : 0 < y) by (unfold y; lra). exists (- ln y). unfold netCharge, salt, addup, count. cbn [fold_right fixedN count0 charge].
  destruct (Rlt_dec 0 0); [lra|]. replace (- (1 * - ln y)) with (ln y) by ring. replace (- (-1 * - ln y)) with (- ln y) by ring.
  rewrite exp_Ropp, exp_ln by exact Y. assert (y * y - 1 = 1000 * y) by (unfold y; nra).
  apply Rmult_eq_reg_r with y; [|lra]. field_simplify; [|lra]. nra.
Qed.

(** ** derivatives of the scale factors *)
Lemma addup_derive {A} (f : A -> R -> R) (f' : A -> R) (t : R) l : (forall x, In x l -> is_derive (f x) t (f' x)) ->
  is_derive (fun u => addup (fun x => f x u) l) t (addup f' l).
Proof.
  induction l as [|x l IH]; intros H; [exact (dconst 0 t)|].
  change (is_derive (fun u : R => f x u + addup (fun y => f y u) l) t (f' x + addup f' l)).
  assert (Hx : is_derive (f x) t (f' x)) by (apply H; left; reflexivity).
  assert (Hl : is_derive (fun u : R => addup (fun y => f y u) l) t (addup f' l)) by (apply IH; intros y Hy; apply H; right; exact Hy).
  exact (dadd _ _ t _ _ Hx Hl).
Qed.
Lemma dexpo (Q : R) (b : R -> R) (t b' : R) : is_derive b t b' -> is_derive (fun u => exp (- (Q * b u))) t (- (Q * b') * exp (- (Q * b t))).
Proof.
  intros H. apply (is_derive_comp (V := R_NormedModule) exp (fun u => - (Q * b u)) t (exp (- (Q * b t))) (- (Q * b'))); [apply is_derive_Reals, derivable_pt_lim_exp|].
  apply (is_derive_opp (V := R_NormedModule) (fun u => Q * b u)). apply dscal. exact H.
Qed.
Lemma slope_neg b l : (forall s, In s l -> ~ 0 < fixedN s -> 0 < count0 s) -> (exists s, In s l /\ charge s <> 0 /\ ~ 0 < fixedN s) ->
  snd (Qtot b (N0Q (map toComp l))) < 0.
Proof.
  intros P (s0 & I0 & C0). rewrite slope_val. apply Ropp_lt_gt_0_contravar. unfold Rgt.
  set (g := fun s => if isFree (toComp s) then charge s * charge s * (count0 s * exp (- (charge s * b))) else 0).
  assert (G : forall s, In s l -> 0 <= g s /\ (charge s <> 0 /\ ~ 0 < fixedN s -> 0 < g s)).
  { intros s Hs. unfold g. destruct (isFree (toComp s)) eqn:E.
    - apply free_case in E. assert (0 < charge s * charge s) by (destruct E as [E _]; apply Rsqr_pos_lt in E; exact E).
      pose proof (P s Hs (proj2 E)). pose proof (exp_pos (- (charge s * b))).
      assert (0 < charge s * charge s * (count0 s * exp (- (charge s * b)))) by (apply Rmult_lt_0_compat; [assumption|apply Rmult_lt_0_compat; assumption]). split; [lra|intros _; assumption].
    - split; [lra|]. intros K. apply free_case in K. congruence. }
  clear P. induction l as [|x l IH]; [destruct I0|]. cbn [addup fold_right].
  assert (K : 0 <= addup g l).
  { clear - G. assert (forall s, In s l -> 0 <= g s) as H by (intros; apply G; right; assumption). clear G.
    induction l as [|y l IH]; cbn; [lra|]. pose proof (H y ltac:(left; reflexivity)). pose proof (IH ltac:(intros; apply H; right; assumption)). unfold addup in *. lra. }
  change (fold_right (fun x s => g x + s) 0 l) with (addup g l).
  destruct I0 as [->|I0]; [pose proof (proj2 (G s0 ltac:(left; reflexivity)) C0); lra|].
  pose proof (proj1 (G x ltac:(left; reflexivity))). pose proof (IH I0 ltac:(intros; apply G; right; assumption)). lra.
Qed.
Section D.
Variables (l : list varying) (ext beta : R -> R) (t ext' : R).
Hypothesis Hext : is_derive ext t ext'.
Hypothesis Hcount : forall v, In v l -> is_derive (vCount v) t (vRate v).
Hypothesis Hpos : forall v, In v l -> ~ 0 < vFixed v -> 0 < vCount v t.
Hypothesis Hfree : exists v, In v l /\ vCharge v <> 0 /\ ~ 0 < vFixed v.
Hypothesis Hb : ex_derive beta t.
Hypothesis Hneutral : locally t (fun u => netCharge (ext u) (beta u) (map (at_time u) l) = 0).
Let cv (v : varying) : comp := toComp (at_time t v).
Let Qp : R := snd (Qtot (beta t) (N0Q (map cv l))).

Lemma beta_rate : ext' + addup (fun v => if isFree (cv v) then vCharge v * exp (- (vCharge v * beta t)) * vRate v else 0) l + Qp * Derive beta t = 0.
Proof using All.
  pose proof (Derive_correct _ _ Hb) as DB. set (b' := Derive beta t) in *.
  assert (D : is_derive (fun u => netCharge (ext u) (beta u) (map (at_time u) l)) t
    (ext' + addup (fun v => if Rlt_dec 0 (vFixed v) then 0 else vCharge v * (vRate v * exp (- (vCharge v * beta t)) + vCount v t * (- (vCharge v * b') * exp (- (vCharge v * beta t))))) l)).
  { unfold netCharge.
    apply (is_derive_ext (fun u => ext u + addup (fun v => charge (at_time u v) * count (beta u) (at_time u v)) l)); [intros u; rewrite addup_map; reflexivity|].
    apply (dadd ext _ t); [exact Hext|]. apply (addup_derive (fun v u => charge (at_time u v) * count (beta u) (at_time u v))).
    intros v Hv. unfold count. cbn [at_time charge fixedN count0]. destruct (Rlt_dec 0 (vFixed v)); [apply dconst|].
    apply dscal. apply (dmul (vCount v) (fun u => exp (- (vCharge v * beta u)))); [apply Hcount, Hv|apply dexpo, DB]. }
  assert (Z : is_derive (fun u => netCharge (ext u) (beta u) (map (at_time u) l)) t 0).
  { apply (is_derive_ext_loc (fun _ : R => 0)); [|apply dconst]. apply (filter_imp _ _ (fun u H => eq_sym H) Hneutral). }
  pose proof (is_derive_unique _ _ _ D) as U1. rewrite (is_derive_unique _ _ _ Z) in U1. etransitivity; [|symmetry; exact U1].
  unfold Qp. replace (map cv l) with (map toComp (map (at_time t) l)) by (rewrite map_map; reflexivity). rewrite slope_val, addup_map.
  rewrite Rplus_assoc. f_equal.
  replace (- addup (fun x => if isFree (toComp (at_time t x)) then charge (at_time t x) * charge (at_time t x) * (count0 (at_time t x) * exp (- (charge (at_time t x) * beta t))) else 0) l * b')
    with (- b' * addup (fun x => if isFree (toComp (at_time t x)) then charge (at_time t x) * charge (at_time t x) * (count0 (at_time t x) * exp (- (charge (at_time t x) * beta t))) else 0) l) by ring.
  rewrite <- addup_scal, <- addup_add. apply addup_ext. intros v _. unfold cv. 
  destruct (isFree (toComp (at_time t v))) eqn:E.
  - apply free_case in E. cbn in *. destruct (Rlt_dec 0 (vFixed v)); [tauto|]. ring.
  - destruct (Rlt_dec 0 (vFixed v)) as [|N]; [ring|]. destruct (Req_dec (vCharge v) 0) as [Z0|Z0]; [rewrite Z0; ring|].
    assert (isFree (toComp (at_time t v)) = true) by (apply free_case; split; assumption). congruence.
Qed.
Theorem scale_free v : In v l -> vCharge v <> 0 -> ~ 0 < vFixed v ->
  is_derive (fun u => Nscale (beta u) (toComp (at_time u v))) t
    (addup (fun w => Nscale_N0 (beta t) Qp false (cv v) (cv w) * vRate w) l + Nscale_Qfixed (beta t) Qp (cv v) * ext').
Proof using All.
  intros Hv Hq Hf. assert (F : forall u, isFree (toComp (at_time u v)) = true) by (intros u; apply free_case; split; assumption).
  assert (QN : Qp <> 0).
  { unfold Qp. replace (map cv l) with (map toComp (map (at_time t) l)) by (rewrite map_map; reflexivity). apply Rlt_not_eq, slope_neg.
    - intros s Hs. apply in_map_iff in Hs. destruct Hs as (w & <- & Hw). apply Hpos. exact Hw.
    - destruct Hfree as (w & Hw & Cw). exists (at_time t w). split; [apply in_map; exact Hw|exact Cw]. }
  apply (is_derive_ext (fun u => exp (- (vCharge v * beta u)))).
  { intros u. unfold Nscale. rewrite F. rewrite ltb_f by exact Hf. cbn. f_equal. ring. }
  replace (addup _ l + _) with (- (vCharge v * Derive beta t) * exp (- (vCharge v * beta t))); [apply dexpo, Derive_correct, Hb|].
  pose proof beta_rate as B. set (b' := Derive beta t) in *. set (S := addup _ l) in B.
  assert (E1 : addup (fun w => Nscale_N0 (beta t) Qp false (cv v) (cv w) * vRate w) l = vCharge v * exp (- (vCharge v * beta t)) / Qp * S).
  { unfold S. rewrite <- addup_scal. apply addup_ext. intros w _. unfold Nscale_N0. unfold cv at 1 2. rewrite F. cbn [andb]. cbn [Nnorm toComp at_time fixedN]. rewrite ltb_f by exact Hf.
    destruct (isFree (cv w)); [|ring]. unfold cv. cbn [Qmol toComp at_time charge].
    replace (- (vCharge v + vCharge w) * beta t) with (- (vCharge v * beta t) + - (vCharge w * beta t)) by ring. rewrite exp_plus. field. exact QN. }
  rewrite E1. unfold Nscale_Qfixed. unfold cv. rewrite F. cbn [Qmol toComp at_time charge]. replace (- vCharge v * beta t) with (- (vCharge v * beta t)) by ring.
  assert (b' = - (ext' + S) / Qp) as -> by (apply Rmult_eq_reg_l with Qp; [|exact QN]; field_simplify; [|exact QN]; lra).
  field. exact QN.
Qed.
End D.
Theorem scale_fixed (v : varying) (beta : R -> R) (t Qp : R) : 0 < vFixed v -> vCount v t <> 0 -> is_derive (vCount v) t (vRate v) ->
  is_derive (fun u => Nscale (beta u) (toComp (at_time u v))) t (Nscale_N0 (beta t) Qp true (toComp (at_time t v)) (toComp (at_time t v)) * vRate v).
Proof.
  intros F N H. apply (is_derive_ext (fun u => vFixed v * / vCount v u)).
  { intros u. unfold Nscale. cbn. rewrite ltb_t by exact F. reflexivity. }
  replace (Nscale_N0 _ _ _ _ _ * _) with (vFixed v * (- vRate v / (vCount v t) ^ 2)).
  - apply dscal. apply (is_derive_inv (vCount v)); assumption.
  - unfold Nscale_N0, isFree. cbn. rewrite ltb_t by exact F. cbn. rewrite andb_false_r. cbn. field. exact N.
Qed.

(** ** examples *)
Lemma salt_pos : (forall s, In s salt -> ~ 0 < fixedN s -> 0 < count0 s) /\ (exists s, In s salt /\ charge s <> 0 /\ ~ 0 < fixedN s).
Proof.
  split; [intros s [<-|[<-|[]]] _; cbn; lra|]. exists (Species 0 1 1). split; [left; reflexivity|cbn; split; lra].
Qed.
Lemma salt_ok : (forall s, In s salt -> 0 < fixedN s -> count0 s <> 0) /\ (exists s, In s salt /\ charge s <> 0 /\ ~ 0 < fixedN s) /\
  exists b p, solve 1 0 (map toComp salt) = Scaled b p true.
Proof.
  split; [intros s [<-|[<-|[]]] _; cbn; lra|]. split; [exact (proj2 salt_pos)|].
  assert (L : N0Q (map toComp salt) = [(1, 1); (1, -1)]).
  { unfold N0Q, salt. cbn [map filter]. rewrite !(proj2 (free_case _)) by (cbn; lra). reflexivity. }
  assert (Qf : Qfixed 0 (map toComp salt) = 0).
  { unfold Qfixed, salt. cbn [map fold_left Nnorm toComp fixedN]. rewrite !ltb_f by lra. reflexivity. }
  unfold solve. rewrite L, Qf. rewrite (ltb_f 0 0) by lra. cbn [andb].
  assert (S : newton 10 1 0 [(1, 1); (1, -1)] 0 0 = (0, snd (Qtot 0 [(1, 1); (1, -1)]), true)).
  { change (newton 10 1 0 [(1, 1); (1, -1)] 0 0) with
      (let '(Qt, Qp) := Qtot 0 [(1, 1); (1, -1)] in let Qcell := 0 + Qt in
       if ltb (Rabs Qcell) (Rabs 1) then (0, Qp, true) else newton 9 1 0 [(1, 1); (1, -1)] (0 - Qcell / Qp) Qp).
    rewrite salt_Qtot. rewrite Ropp_0, exp_0. cbv beta iota zeta. rewrite ltb_t; [reflexivity|].
    replace (0 + (1 - 1)) with 0 by ring. rewrite Rabs_R0, Rabs_R1. lra. }
  rewrite S. eexists _, _. reflexivity.
Qed.
Lemma slow_end : forall k b p b' p', b <= - 100 - INR k -> newton k 1 (-1000) [(1, 1); (1, -1)] b p = (b', p', false) -> b' <= -100.
Proof.
  induction k as [|k IH]; intros b p b' p' H; cbn [newton]; [intros E; injection E as <- _; cbn in H; lra|]. rewrite salt_Qtot. cbv zeta.
  rewrite S_INR in H. pose proof (pos_INR k) as K. pose proof (exp_pos b) as E1. pose proof (exp_pos (- b)) as E2.
  destruct (ltb _ _); [discriminate|]. apply IH. apply Rle_trans with (b + 1); [|lra]. apply Rplus_le_compat_l.
  replace (- ((-1000 + (exp (- b) - exp b)) / - (exp (- b) + exp b))) with ((-1000 + (exp (- b) - exp b)) / (exp (- b) + exp b)) by (field; lra).
  apply Rmult_le_reg_r with (exp (- b) + exp b); [lra|]. unfold Rdiv. rewrite Rmult_assoc, Rinv_l by lra. lra.
Qed.
Lemma salt_end b p : solve 1 (-1000) (map toComp salt) = Scaled b p false -> b <= -100.
Proof.
  assert (L : N0Q (map toComp salt) = [(1, 1); (1, -1)]).
  { unfold N0Q, salt. cbn [map filter]. rewrite !(proj2 (free_case _)) by (cbn; lra). reflexivity. }
  assert (Qf : Qfixed (-1000) (map toComp salt) = -1000).
  { unfold Qfixed, salt. cbn [map fold_left Nnorm toComp fixedN]. rewrite !ltb_f by lra. reflexivity. }
  unfold solve. rewrite L, Qf. cbn [existsb snd]. rewrite (ltb_t 0 1), (ltb_f 0 (-1000)) by lra. cbn [orb negb andb]. rewrite andb_false_r. cbn [andb].
  change (newton 10 1 (-1000) [(1, 1); (1, -1)] 0 0) with
      (let '(Qt, Qp) := Qtot 0 [(1, 1); (1, -1)] in let Qcell := -1000 + Qt in
       if ltb (Rabs Qcell) (Rabs 1) then (0, Qp, true) else newton 9 1 (-1000) [(1, 1); (1, -1)] (0 - Qcell / Qp) Qp).
  rewrite salt_Qtot. rewrite Ropp_0, exp_0. cbv beta iota zeta. rewrite ltb_f by (rewrite Rabs_R1, Rabs_left by lra; lra).
  replace (0 - (-1000 + (1 - 1)) / - (1 + 1)) with (-500) by field.
  destruct (newton 9 _ _ _ _ _) as [[b1 p1] c1] eqn:E. intros H. injection H as -> -> ->. apply slow_end in E; [exact E|]. cbn [INR]. lra.
Qed.
Lemma iterations : exists Qtol ext (l : list species), 0 < Qtol /\ (exists b, netCharge ext b l = 0) /\
  exists b p, solve Qtol ext (map toComp l) = Scaled b p false /\ Qtol < Rabs (netCharge ext b l).
Proof.
  exists 1, (-1000), salt. split; [lra|]. split; [exact salt_root|]. destruct salt_solve as (b & p & E). exists b, p. split; [exact E|].
  apply salt_end in E. unfold netCharge, salt, addup, count. cbn [fold_right fixedN count0 charge]. destruct (Rlt_dec 0 0); [lra|].
  replace (- (1 * b)) with (- b) by ring. replace (- (-1 * b)) with b by ring.
  assert (U : exp b < 1) by (rewrite <- exp_0; apply exp_increasing; lra). pose proof (exp_pos b).
  assert (W : 2000 <= exp (- b)).
  { replace (- b) with ((- b / 2) + (- b / 2)) by field. rewrite exp_plus. pose proof (exp_ineq1_le (- b / 2)). nra. }
  rewrite Rabs_right by lra. lra.
Qed.
Lemma varying_ok : let l := [Varying 0 1 (fun u => exp u) 1; Varying 0 (-1) (fun u => exp (- u)) (-1)] in
  (forall v, In v l -> is_derive (vCount v) 0 (vRate v)) /\ (forall v, In v l -> ~ 0 < vFixed v -> 0 < vCount v 0) /\
  locally 0 (fun u => netCharge 0 u (map (at_time u) l) = 0).
Proof.
  intros l. split; [|split].
  - intros v [<-|[<-|[]]]; cbn [vCount vRate].
    + auto_derive; [exact I|]. rewrite exp_0. ring.
    + auto_derive; [exact I|]. rewrite Ropp_0, exp_0. ring.
  - intros v [<-|[<-|[]]] _; cbn; apply exp_pos.
  - apply filter_forall. intros u. unfold netCharge, addup, l, count. cbn [map fold_right at_time charge fixedN count0 vFixed vCharge vCount].
    destruct (Rlt_dec 0 0); [lra|]. rewrite <- !exp_plus. replace (u + - (1 * u)) with 0 by ring. replace (- u + - (-1 * u)) with 0 by ring. ring.
Qed.
