(** Mixing coefficients, restart files and examples (C14, C15). *)
From Coq Require Import Reals ZArith List Bool Arith Lia Lra.
From Verif Require Import XR_Model XR_Facts VecOps Converge_Model Pulay_Model Pulay_Spec Pulay_Proofs.
Import ListNotations.
Open Scope R_scope.

Lemma total_app a b : total (a ++ b) = total a + total b.
Proof. induction a; cbn; lra. Qed.
Lemma total_scale {X} c (f : X -> R) l : total (map (fun x => c * f x) l) = c * total (map f l).
Proof. induction l; cbn; [ring|]. rewrite IHl. ring. Qed.
Lemma total_ext {X} (f g : X -> R) l : (forall x, In x l -> f x = g x) -> total (map f l) = total (map g l).
Proof. intros H. f_equal. apply map_ext_in. auto. Qed.
Lemma sum_to_S n f : sum_to (n+1) f = sum_to n f + f n.
Proof. unfold sum_to. rewrite seq_app, map_app, total_app. cbn. ring. Qed.
Lemma sum_to_ext n f g : (forall k, (k < n)%nat -> f k = g k) -> sum_to n f = sum_to n g.
Proof. intros H. apply total_ext. intros k Hk. apply in_seq in Hk. apply H. lia. Qed.
Lemma sum_to_one n f j : (j < n)%nat -> (forall k, (k < n)%nat -> k <> j -> f k = 0) -> sum_to n f = f j.
Proof.
  intros Hj H. induction n as [|n IH]; [lia|]. rewrite <- Nat.add_1_r, sum_to_S. destruct (Nat.eq_dec j n) as [->|E].
  - replace (sum_to n f) with 0; [ring|]. symmetry. rewrite (sum_to_ext n f (fun _ => 0)).
    + unfold sum_to. generalize (seq 0 n). induction l; cbn; lra.
    + intros k Hk. apply H; lia.
  - rewrite IH by (try lia; intros; apply H; lia). rewrite (H n) by lia. ring.
Qed.

Section C.
Context {V : Type} (v : VectorOps V) (M : V -> V).
Hypothesis laws : vector_laws v.
Hypothesis HM : metric_ok v M.

Lemma dotC x y : v_dot v x y = v_dot v y x. Proof. apply (vl_dot_comm v laws). Qed.
Lemma dotD x y z : v_dot v x (v_add v y z) = v_dot v x y + v_dot v x z. Proof. apply (vl_dot_add v laws). Qed.
Lemma dotS a x y : v_dot v x (v_scal v a y) = a * v_dot v x y. Proof. apply (vl_dot_scal v laws). Qed.
Lemma dot0 x : v_dot v x (v_zero v) = 0.
Proof. rewrite <- (vl_scal_zero v laws x), dotS. ring. Qed.
Lemma M0 : M (v_zero v) = v_zero v.
Proof. rewrite <- (vl_scal_zero v laws (v_zero v)). destruct HM as (_&_&S). rewrite S. rewrite !(vl_scal_zero v laws). auto. Qed.

(** x . M (sum c_k r_k) = sum c_k x . M r_k *)
Lemma dotM_combo x (f : nat -> R) rs : forall s,
  v_dot v x (M (combo v (map f (seq s (length rs))) rs)) = total (map (fun k => f k * v_dot v x (M (nth (k - s) rs (v_zero v)))) (seq s (length rs))).
Proof.
  induction rs as [|r rs IH]; intros s; cbn [length seq map combo total].
  - rewrite M0. apply dot0.
  - destruct HM as (_&MA&MS). rewrite MA, MS, dotD, dotS. rewrite (IH (S s)). rewrite Nat.sub_diag. cbn [nth]. f_equal.
    apply total_ext. intros k Hk. apply in_seq in Hk. replace (k - s)%nat with (S (k - S s)) by lia. reflexivity.
Qed.
Lemma dotM_combo_l (c : list R) rs y : length c = length rs -> (forall r, In r rs -> v_dot v r (M y) = v_dot v (nth 0 rs (v_zero v)) (M y)) ->
  v_dot v (combo v c rs) (M y) = total c * v_dot v (nth 0 rs (v_zero v)) (M y).
Proof.
  intros L H. set (q := v_dot v (nth 0 rs (v_zero v)) (M y)) in *. clearbody q. revert rs L H.
  induction c as [|a c IH]; intros [|r rs] L H; try discriminate; cbn [combo total].
  - rewrite dotC, dot0. ring.
  - rewrite dotC, dotD, dotS, (dotC _ r), (dotC _ (combo v c rs)). rewrite IH; [|cbn in L; lia|intros; apply H; right; auto]. rewrite (H r) by (left; auto). ring.
Qed.

Section Alpha.
Variables (inv : nat -> Mat -> Mat) (rs : list V) (ov : Mat).
Let n := length rs.
Let A := bordered n ov.
Let B := inv (n+1)%nat A.
Hypothesis HO : overlaps v M rs ov.
Let al := alphas inv n ov.

Lemma alpha_sum : right_inverse (n+1) A B -> total al = 1.
Proof.
  intros H. specialize (H n n ltac:(lia) ltac:(lia)). rewrite Nat.eqb_refl, sum_to_S in H.
  unfold al, alphas. fold A B. change (total (map (fun j => B j n) (seq 0 n))) with (sum_to n (fun j => B j n)). rewrite <- H.
  replace (A n n) with 0. 2:{ unfold A, bordered. rewrite Nat.ltb_irrefl. reflexivity. }
  rewrite Rmult_0_l, Rplus_0_r. apply sum_to_ext. intros k Hk. unfold A, bordered. rewrite Nat.ltb_irrefl. destruct (Nat.ltb_spec k n); [|lia]. cbn. ring.
Qed.
Lemma alpha_stationary : right_inverse (n+1) A B -> forall r, In r rs -> v_dot v r (M (combo v al rs)) = - B n n.
Proof.
  intros H r Hr. apply In_nth_error in Hr. destruct Hr as (i&Hi).
  assert (Li : (i < n)%nat) by (apply nth_error_Some; unfold n in *; congruence).
  specialize (H i n ltac:(lia) ltac:(lia)). rewrite sum_to_S in H. destruct (Nat.eqb_spec i n); [lia|].
  replace (A i n) with 1 in H. 2:{ unfold A, bordered. rewrite Nat.ltb_irrefl. destruct (Nat.ltb_spec i n); [|lia]. reflexivity. }
  unfold al, alphas. fold A B. unfold n at 2. rewrite dotM_combo. fold n.
  enough (E : total (map (fun k => B k n * v_dot v r (M (nth (k - 0) rs (v_zero v)))) (seq 0 n)) = sum_to n (fun k => A i k * B k n)) by (rewrite E; lra).
  apply sum_to_ext. intros k Hk. rewrite Nat.sub_0_r. unfold A, bordered.
  destruct (Nat.ltb_spec i n); [|lia]. destruct (Nat.ltb_spec k n); [|lia]. cbn [andb].
  rewrite (HO i k r (nth k rs (v_zero v)) Hi) by (apply nth_error_nth'; auto). ring.
Qed.
(** The combination has the smallest residual among all combinations with coefficients adding up to one. *)
Lemma alpha_optimal : right_inverse (n+1) A B -> (forall x, 0 <= v_dot v x (M x)) ->
  forall be, length be = n -> total be = 1 ->
  v_dot v (combo v al rs) (M (combo v al rs)) <= v_dot v (combo v be rs) (M (combo v be rs)).
Proof.
  intros H Pos be Lb Sb. pose proof (alpha_stationary H) as St. pose proof (alpha_sum H) as Sa.
  assert (La : length al = length rs) by (unfold al; rewrite alphas_length; reflexivity).
  assert (Q : forall c, length c = length rs -> total c = 1 -> (rs <> []) -> v_dot v (combo v c rs) (M (combo v al rs)) = - B n n).
  { intros c Lc Sc Hne. rewrite dotM_combo_l; auto.
    - rewrite Sc, St; [ring|]. destruct rs; [contradiction|]. left. auto.
    - intros r Hr. rewrite !St; auto. destruct rs; [contradiction|]. left. auto. }
  assert (Hne : rs <> []). { intros E. unfold n in Lb. rewrite E in Lb. destruct be; [cbn in Sb; lra|discriminate]. }
  pose proof (Q al La Sa Hne) as Qa. pose proof (Q be Lb Sb Hne) as Qb. clear Q.
  set (a := combo v al rs) in *. set (b := combo v be rs) in *.
  destruct HM as (Sy&MA&MS).
  pose proof (Pos (v_add v b (v_scal v (-1) a))) as P. rewrite MA, MS in P.
  rewrite dotD, dotS in P. rewrite !(dotC (v_add v b _)) in P. rewrite !dotD, !dotS in P. rewrite !(dotC _ a), !(dotC _ b) in P.
  rewrite (Sy a b) in P. lra.
Qed.
(** A zero residual in last place is reproduced exactly. *)
Lemma alpha_fixed : right_inverse (n+1) B A -> (0 < n)%nat -> nth (n-1) rs (v_zero v) = v_zero v ->
  forall j, (j < n)%nat -> nth j al 0 = if Nat.eqb j (n-1) then 1 else 0.
Proof.
  intros H Hn Hz j Hj. specialize (H j (n-1)%nat ltac:(lia) ltac:(lia)). 
  assert (E : sum_to (n+1) (fun k => B j k * A k (n-1)%nat) = B j n * A n (n-1)%nat).
  { apply (sum_to_one (n+1) (fun k => B j k * A k (n-1)%nat) n); [lia|]. intros k Hk Hkn. replace (A k (n-1)%nat) with 0; [ring|]. unfold A, bordered.
    destruct (Nat.ltb_spec k n); [|lia]. destruct (Nat.ltb_spec (n-1) n); [|lia]. cbn [andb]. symmetry.
    rewrite (HO k (n-1)%nat (nth k rs (v_zero v)) (nth (n-1) rs (v_zero v))) by (apply nth_error_nth'; unfold n in *; lia).
    rewrite Hz, M0. apply dot0. }
  rewrite E in H. replace (A n (n-1)%nat) with 1 in H. 2:{ unfold A, bordered. rewrite Nat.ltb_irrefl. destruct (Nat.ltb_spec (n-1) n); [|lia]. reflexivity. }
  rewrite Rmult_1_r in H. unfold al, alphas. fold A B.
  rewrite nth_indep with (d' := (fun j => B j n) 0%nat) by (rewrite map_length, seq_length; auto).
  rewrite (map_nth (fun j => B j n)), seq_nth by auto. exact H.
Qed.
End Alpha.

Lemma combo_last c xs x : length c = length xs -> (forall j, (j < length xs)%nat -> nth j c 0 = 0) -> combo v (c ++ [1]) (xs ++ [x]) = x.
Proof.
  revert xs. induction c as [|a c IH]; intros [|y xs] L H; try discriminate.
  - cbn. rewrite (vl_scal_one v laws). apply (vl_add_zero v laws).
  - cbn [app combo]. rewrite IH.
    + pose proof (H 0%nat ltac:(cbn; lia)) as Ha. cbn in Ha. rewrite Ha, (vl_scal_zero v laws). rewrite (vl_add_comm v laws). apply (vl_add_zero v laws).
    + cbn in L. lia.
    + intros j Hj. apply (H (S j)). cbn. lia.
Qed.
Lemma combo_select c xs x : length c = S (length xs) -> (forall j, (j < S (length xs))%nat -> nth j c 0 = if Nat.eqb j (length xs) then 1 else 0) ->
  combo v c (xs ++ [x]) = x.
Proof.
  intros L H. destruct (exists_last (l := c)) as (c'&a&->). { intros ->. discriminate. }
  rewrite app_length in L. cbn in L.
  assert (Ha : a = 1). { specialize (H (length xs) ltac:(lia)). rewrite Nat.eqb_refl, app_nth2 in H by lia. replace (length xs - length c')%nat with O in H by lia. exact H. }
  rewrite Ha. apply combo_last; [lia|]. intros j Hj. specialize (H j ltac:(lia)). rewrite app_nth1 in H by lia. destruct (Nat.eqb_spec j (length xs)); [lia|]. exact H.
Qed.
End C.

(** *** coefficients of the recorded mixing steps *)
Section T.
Context {S V : Type} (v : VectorOps V) (sys : Mixable S V) (inv : nat -> Mat -> Mat) (kill : nat -> bool).
Lemma trace_alpha pp k : forall iter o s E dE ec rc xc tr,
  (forall m, In m tr -> mi_alpha m = alphas inv (length (po_res (mi_obj m))) (po_ov (mi_obj m))) ->
  forall m, In m (out_trace (pulayLoop v sys inv kill pp k iter o s E dE ec rc xc tr)) ->
    mi_alpha m = alphas inv (length (po_res (mi_obj m))) (po_ov (mi_obj m)).
Proof.
  induction k as [|k IH]; intros iter o s E dE ec rc xc tr H m; cbn [pulayLoop]; [cbn; auto|].
  destruct (dropOldest (pp_history pp) o) as [o1|]; [|cbn; auto].
  destruct (mx_cycle sys dE s) as ((s1&E1)&extra). destruct (isnan E1); [cbn; auto|].
  destruct (ediffCheck ec E1) as (ec1&c1). destruct (if c1 then (rc, true) else _) as (rc1&c2).
  destruct (if c2 then (xc, true) else _) as (xc1&c3). destruct (c3 || kill iter); [cbn; auto|].
  apply IH. intros m' Hm. apply in_app_or in Hm. destruct Hm as [Hm|[<-|[]]]; auto.
Qed.
Lemma minimize_alpha pp o s E0 extra m : In m (out_trace (pulayMinimize v sys inv kill pp o s E0 extra)) ->
    mi_alpha m = alphas inv (length (po_res (mi_obj m))) (po_ov (mi_obj m)).
Proof. apply trace_alpha. intros ? []. Qed.
End T.
Lemma good_run_in {S V} (v : VectorOps V) (sys : Mixable S V) h tr : forall o x m, good_run v sys h o x tr -> In m tr ->
  overlaps v (mx_metric sys) (po_res (mi_obj m)) (po_ov (mi_obj m)) /\
  mi_var m = v_add v (combo v (mi_alpha m) (po_vars (mi_obj m))) (combo v (mi_alpha m) (map (mx_precond sys) (po_res (mi_obj m)))).
Proof.
  induction tr as [|m0 tr IH]; intros o x m G [].
  - subst m0. destruct G as (s&dE&r&G). cbn zeta in G. tauto.
  - destruct G as (s&dE&r&G). cbn zeta in G. eapply IH; [|eassumption]. apply G.
Qed.

(** coefficients: statement used by the property theorem *)
Theorem mix_coefficients {S V} (v : VectorOps V) (sys : Mixable S V) inv kill : vector_laws v -> metric_ok v (mx_metric sys) -> stores sys ->
  forall pp o s E0 extra, (1 <= pp_history pp)%nat -> bounded (pp_history pp) o -> overlaps v (mx_metric sys) (po_res o) (po_ov o) ->
  forall m, In m (out_trace (pulayMinimize v sys inv kill pp o s E0 extra)) ->
  let rs := po_res (mi_obj m) in let n := length rs in let A := bordered n (po_ov (mi_obj m)) in
  right_inverse (n+1) A (inv (n+1)%nat A) ->
  total (mi_alpha m) = 1 /\
  ((forall x, 0 <= v_dot v x (mx_metric sys x)) -> forall be, length be = n -> total be = 1 ->
     v_dot v (combo v (mi_alpha m) rs) (mx_metric sys (combo v (mi_alpha m) rs)) <= v_dot v (combo v be rs) (mx_metric sys (combo v be rs))).
Proof.
  intros laws HM Hst pp o s E0 extra Hh HB HO m Hm rs n A RI.
  destruct (minimize_spec v sys inv kill laws (proj1 HM) pp Hh Hst o s E0 extra HB) as (_&_&G). destruct (G HO) as (G1&_).
  destruct (good_run_in _ _ _ _ _ _ _ G1 Hm) as (OV&_).
  rewrite (minimize_alpha v sys inv kill pp o s E0 extra m Hm). fold rs n. split.
  - apply alpha_sum; auto.
  - intros Pos be Lb Sb. apply alpha_optimal; auto.
Qed.
(** fixed point *)
Theorem mix_fixed {S V} (v : VectorOps V) (sys : Mixable S V) inv kill : vector_laws v -> metric_ok v (mx_metric sys) -> stores sys ->
  mx_precond sys (v_zero v) = v_zero v ->
  forall pp o s E0 extra, (1 <= pp_history pp)%nat -> bounded (pp_history pp) o -> overlaps v (mx_metric sys) (po_res o) (po_ov o) ->
  forall m xs rs x, In m (out_trace (pulayMinimize v sys inv kill pp o s E0 extra)) ->
  po_vars (mi_obj m) = xs ++ [x] -> po_res (mi_obj m) = rs ++ [v_zero v] -> length xs = length rs ->
  let n := length (po_res (mi_obj m)) in let A := bordered n (po_ov (mi_obj m)) in right_inverse (n+1) (inv (n+1)%nat A) A ->
  mi_var m = x.
Proof.
  intros laws HM Hst K0 pp o s E0 extra Hh HB HO m xs rs x Hm Ev Er Lx n A LI.
  destruct (minimize_spec v sys inv kill laws (proj1 HM) pp Hh Hst o s E0 extra HB) as (_&_&G). destruct (G HO) as (G1&_).
  destruct (good_run_in _ _ _ _ _ _ _ G1 Hm) as (OV&MV).
  pose proof (minimize_alpha v sys inv kill pp o s E0 extra m Hm) as EA. fold n in EA.
  assert (Hn : n = Datatypes.S (length rs)) by (unfold n; rewrite Er, app_length; cbn; lia).
  assert (La : length (mi_alpha m) = n) by (rewrite EA; apply alphas_length).
  assert (F : forall j, (j < n)%nat -> nth j (mi_alpha m) 0 = if Nat.eqb j (n-1) then 1 else 0).
  { intros j Hj. rewrite EA. apply (alpha_fixed v (mx_metric sys) laws HM inv (po_res (mi_obj m)) (po_ov (mi_obj m)) OV LI); auto; [lia|].
    fold n. rewrite Er, app_nth2 by lia. replace (n - 1 - length rs)%nat with O by lia. reflexivity. }
  rewrite MV, Ev, Er, map_app. cbn [map]. rewrite K0.
  rewrite !(combo_select v laws).
  - apply (vl_add_zero v laws).
  - rewrite map_length. lia.
  - rewrite map_length. intros j Hj. rewrite F by lia. replace (n-1)%nat with (length rs) by lia. reflexivity.
  - lia.
  - intros j Hj. rewrite F by lia. replace (n-1)%nat with (length xs) by lia. reflexivity.
Qed.
