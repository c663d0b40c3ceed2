From Coq Require Import List String Bool Arith Relations Lia Permutation.
From Verif Require Import SMap Commands_Model Commands_Spec Commands_Proofs Commands_Proofs2 Commands_Proofs3.
Import ListNotations.
Open Scope nat_scope.
Open Scope list_scope.

Lemma similar_active t t' input c c' : Similar t t' -> In c' t' -> skel c = skel c' -> Active t input c -> Active t' input c'.
Proof. intros S Hc' E [H1 H2]. unfold skel in E. inversion E. split; auto. destruct H2 as [H2|H2]; [left|right]; congruence. Qed.
Lemma similar_active' t t' input c c' : Similar t t' -> In c t -> skel c = skel c' -> Active t' input c' -> Active t input c.
Proof. intros S Hc E [H1 H2]. unfold skel in E. inversion E. split; auto. destruct H2 as [H2|H2]; [left|right]; congruence. Qed.
Lemma similar_valid t t' input : Similar t t' -> (forall a b, Forb t' a b -> Forb t a b \/ Forb t b a) -> (Valid t input <-> Valid t' input).
Proof.
  intros S F. split; intros [V1 V2 V3 V4 V5]; split.
  - intros e He. destruct (V1 e He) as [c [H1 H2]]. destruct (similar_in t t' c S H1) as [c' [H3 [H4 _]]]. exists c'. split; auto. unfold skel in H4. inversion H4. congruence.
  - intros c' r Hc' Hr. destruct (similar_in' t t' c' S (proj1 Hc')) as [c [H1 [H2 _]]]. 
    assert (Hc : Active t input c) by (eapply similar_active'; eauto). pose proof H2 as H2'. unfold skel in H2'. inversion H2' as [[E1 E2 E3 E4 E5 E6]].
    destruct (V2 c r Hc) as [d [D1 D2]]; [congruence|]. destruct (similar_in t t' d S (proj1 D1)) as [d' [D3 [D4 _]]].
    exists d'. split; [eapply similar_active; eauto|]. unfold skel in D4. inversion D4. congruence.
  - intros c' Hc' Am. destruct (similar_in' t t' c' S Hc') as [c [H1 [H2 _]]]. unfold skel in H2. inversion H2 as [[E1 E2 E3 E4 E5 E6]]. apply V3; congruence.
  - intros c' d' Hc' Hd' Fb. destruct (similar_in' t t' c' S (proj1 Hc')) as [c [H1 [H2 _]]]. destruct (similar_in' t t' d' S (proj1 Hd')) as [d [H3 [H4 _]]].
    assert (Hc : Active t input c) by (eapply similar_active'; eauto). assert (Hd : Active t input d) by (eapply similar_active'; eauto).
    unfold skel in H2, H4. inversion H2. inversion H4. destruct (F _ _ Fb) as [X|X]; [apply (V4 c d)|apply (V4 d c)]; auto; congruence.
  - intros e c' He Hc' Ee Ep. destruct (similar_in' t t' c' S Hc') as [c [H1 [H2 _]]]. unfold skel in H2. inversion H2. apply (V5 e c); auto; congruence.
  - intros e He. destruct (V1 e He) as [c [H1 H2]]. destruct (similar_in' t t' c S H1) as [c' [H3 [H4 _]]]. exists c'. split; auto. unfold skel in H4. inversion H4. congruence.
  - intros c r Hc Hr. destruct (similar_in t t' c S (proj1 Hc)) as [c' [H1 [H2 _]]]. 
    assert (Hc' : Active t' input c') by (eapply similar_active; eauto). pose proof H2 as H2'. unfold skel in H2'. inversion H2' as [[E1 E2 E3 E4 E5 E6]].
    destruct (V2 c' r Hc') as [d [D1 D2]]; [congruence|]. destruct (similar_in' t t' d S (proj1 D1)) as [d' [D3 [D4 _]]].
    exists d'. split; [eapply similar_active'; eauto|]. unfold skel in D4. inversion D4. congruence.
  - intros c Hc Am. destruct (similar_in t t' c S Hc) as [c' [H1 [H2 _]]]. unfold skel in H2. inversion H2 as [[E1 E2 E3 E4 E5 E6]]. try rewrite E1; apply V3; congruence.
  - intros c d Hc Hd Fb. destruct (similar_in t t' c S (proj1 Hc)) as [c' [H1 [H2 _]]]. destruct (similar_in t t' d S (proj1 Hd)) as [d' [H3 [H4 _]]].
    assert (Hc' : Active t' input c') by (eapply similar_active; eauto). assert (Hd' : Active t' input d') by (eapply similar_active; eauto).
    unfold skel in H2, H4. inversion H2. inversion H4. apply (similar_forb t t') in Fb; auto. apply (V4 c' d'); auto. congruence.
  - intros e c He Hc Ee Ep. destruct (similar_in t t' c S Hc) as [c' [H1 [H2 _]]]. unfold skel in H2. inversion H2. apply (V5 e c'); auto; congruence.
Qed.
Lemma similar_req t t' c d : Similar t t' -> Req t c d -> forall c', In c' t' -> skel c = skel c' -> exists d', Req t' c' d' /\ skel d = skel d'.
Proof.
  intros S [H1 [H2 [r [H3 H4]]]] c' Hc' E. destruct (similar_in t t' d S H2) as [d' [D1 [D2 _]]]. exists d'. split; auto. 
  unfold skel in E, D2. inversion E as [[E1 E2 E3 E4 E5 E6]]. inversion D2 as [[F1 F2 F3 F4 F5 F6]]. split; auto. split; auto. exists r. split; congruence.
Qed.
Lemma similar_reqstar t t' c d : Similar t t' -> ReqStar t c d -> forall c', In c' t' -> skel c = skel c' -> exists d', In d' t' /\ ReqStar t' c' d' /\ skel d = skel d'.
Proof.
  intros S R. apply clos_trans_t1n in R. induction R as [x y H|x y z H R IH]; intros c' Hc' E.
  - destruct (similar_req t t' x y S H c' Hc' E) as [d' [D1 D2]]. exists d'. split; [apply D1|]. split; auto. apply t_step. exact D1.
  - destruct (similar_req t t' x y S H c' Hc' E) as [y' [D1 D2]]. destruct (IH y') as [z' [Z1 [Z2 Z3]]]; [apply D1|auto|].
    exists z'. split; auto. split; auto. eapply t_trans; [apply t_step; exact D1|exact Z2].
Qed.

(** ** statements about the original table *)
Section P.
  Variable fails : list event -> string -> string -> bool.
  Variables (t t' : table) (lv : levels) (n : nat).
  Hypothesis (U : UniqueNames t) (PT : processTable t = Good (t', lv, n)).

  Lemma final_levels : (forall c, In c t -> exists l, lv (c_name c) = Some l /\ l <= n) /\
    (forall c d, Req t c d -> exists lc ld, lv (c_name c) = Some lc /\ lv (c_name d) = Some ld /\ ld < lc) /\
    (forall c, In c t -> lv (c_name c) = Some 0 <-> c_requires c = []) /\
    (forall c l, In c t -> lv (c_name c) = Some (S l) -> exists d, Req t c d /\ lv (c_name d) = Some l).
  Proof.
    destruct (processTable_ok t t' lv n U PT) as [I [A _]].
    assert (Tot : forall c, In c t -> exists l, lv (c_name c) = Some l /\ l <= n).
    { intros c Hc. destruct (lv (c_name c)) as [l|] eqn:E; [|exfalso; eapply A; eauto]. exists l. split; auto. apply (inv_below _ _ _ I) in E. lia. }
    assert (Rq : forall c d, Req t c d -> exists lc ld, lv (c_name c) = Some lc /\ lv (c_name d) = Some ld /\ ld < lc).
    { intros c d [H1 [H2 [r [H3 H4]]]]. destruct (Tot c H1) as [lc [Lc _]]. destruct (inv_req _ _ _ I c lc H1 Lc r H3) as [d' [ld [D1 [D2 D3]]]].
      assert (lookup r t = Some d) by (apply lookup_in; auto). assert (d' = d) by congruence. subst d'. exists lc, ld. auto. }
    split; auto. split; auto. split.
    - intros c Hc. split.
      + intros E. destruct (c_requires c) as [|r rs] eqn:R; auto. exfalso. destruct (inv_req _ _ _ I c 0 Hc E r) as [d [l [_ [_ L]]]]; [rewrite R; cbn; auto|lia].
      + intros R. destruct (Tot c Hc) as [[|l] [E _]]; auto. destruct (inv_min _ _ _ I c l Hc E) as [r [d [X _]]]. rewrite R in X. destruct X.
    - intros c l Hc E. destruct (inv_min _ _ _ I c l Hc E) as [r [d [X1 [X2 X3]]]]. exists d. split; auto. apply lookup_some in X2. destruct X2 as [X2 X4].
      split; auto. split; auto. exists r. auto.
  Qed.

  Lemma final_trace input : fst (parse fails t' lv n input) = [] -> snd (parse fails t' lv n input) = sorted_by_level t' lv n input.
  Proof. destruct (processTable_ok t t' lv n U PT) as [_ [_ [_ [_ [LO _]]]]]. apply parse_ok. exact LO. Qed.

  Lemma final_before input : fst (parse fails t' lv n input) = [] ->
    forall l1 nm ps l2, snd (parse fails t' lv n input) = l1 ++ (nm, ps) :: l2 ->
    forall c d, In c t -> ieq nm (c_name c) -> ReqStar t c d -> exists ps', In (c_name d, ps') l1.
  Proof.
    destruct (processTable_ok t t' lv n U PT) as [_ [_ [_ [S [LO _]]]]]. intros E l1 nm ps l2 T c d Hc En R.
    rewrite (final_trace _ E), <- schedule_sorted_by_level in T. apply map_eq_app in T. destruct T as [k1 [k2 [T1 [T2 T3]]]].
    apply map_eq_cons in T3. destruct T3 as [a [k3 [T3 [T4 T5]]]]. subst k2.
    assert (Ha : In (acmd a) t') by (eapply sched_at; [exact LO|rewrite T1; apply in_or_app; right; cbn; auto]).
    destruct (similar_in t t' c S Hc) as [c' [C1 [C2 _]]]. pose proof C2 as C2'. unfold skel in C2'. inversion C2'.
    assert (acmd a = c').
    { apply (unique_in t'); auto; [apply (lo_unique _ _ _ LO)|]. assert (N : c_name (acmd a) = nm) by (apply (f_equal fst) in T4; exact T4). unfold ieq in *. congruence. }
    subst c'. destruct (similar_reqstar t t' c d S R (acmd a) C1 C2) as [d' [D1 [D2 D3]]].
    destruct (requires_before fails t' lv n input LO E k1 a k3 T1 d' D2) as [b [B1 B2]]. exists (snd (fst b)).
    apply (in_map aev) in B1. assert (Nd : c_name d = c_name (acmd b)) by (unfold skel in D3; inversion D3; congruence). rewrite Nd. rewrite <- T2. exact B1.
  Qed.

  Lemma final_lines input c : fst (parse fails t' lv n input) = [] -> In c t ->
    filter (issues (c_name c)) (snd (parse fails t' lv n input)) =
      map (fun e => (c_name c, (snd e ++ " ")%string)) (filter (issues (c_name c)) input) ++
      (if c_hasDefault c && negb (existsb (issues (c_name c)) input) then [(c_name c, ""%string)] else []).
  Proof.
    destruct (processTable_ok t t' lv n U PT) as [_ [_ [_ [S [LO _]]]]]. intros E Hc. rewrite (final_trace _ E).
    destruct (similar_in t t' c S Hc) as [c' [C1 [C2 _]]]. unfold skel in C2. inversion C2 as [[E1 E2 E3 E4 E5 E6]]. rewrite E1, E5. apply lines_of; auto.
  Qed.

  Lemma final_sym : (forall a b, Forb t a b -> SameSection t a b) -> forall a b, Forb t' a b -> Forb t' b a.
  Proof.
    destruct (processTable_ok t t' lv n U PT) as [_ [_ [_ [S [_ [_ [M1 M2]]]]]]]. intros H a b F. destruct (M2 a b F) as [X|[X _]].
    - apply M1; auto. - apply (similar_forb t); auto.
  Qed.
  Lemma final_valid input : (forall a b, Forb t a b -> SameSection t a b) -> (forall tr a b, fails tr a b = false) ->
    (fst (parse fails t' lv n input) = [] <-> Valid t input).
  Proof.
    intros HS NF. destruct (processTable_ok t t' lv n U PT) as [_ [_ [_ [S [LO [_ [M1 M2]]]]]]].
    rewrite (similar_valid t t' input S) by (intros a b F; destruct (M2 a b F) as [X|[X _]]; auto). split.
    - apply accepts_valid; auto. apply final_sym. exact HS.
    - apply valid_accepts; auto.
  Qed.

  Lemma final_conflict input c d : Active t input c -> Active t input d -> Forb t (c_name c) (c_name d) ->
    (SameSection t (c_name c) (c_name d) \/ (exists lc ld, lv (c_name c) = Some lc /\ lv (c_name d) = Some ld /\ ld < lc)) ->
    fst (parse fails t' lv n input) <> [].
  Proof.
    intros Hc Hd F H. destruct (processTable_ok t t' lv n U PT) as [_ [_ [_ [S [LO [_ [M1 M2]]]]]]].
    destruct (similar_in t t' c S (proj1 Hc)) as [c' [C1 [C2 _]]]. destruct (similar_in t t' d S (proj1 Hd)) as [d' [D1 [D2 _]]].
    assert (Hc' : Active t' input c') by (eapply similar_active; eauto). assert (Hd' : Active t' input d') by (eapply similar_active; eauto).
    unfold skel in C2, D2. inversion C2 as [[E1 E2 E3 E4 E5 E6]]. inversion D2 as [[F1 F2 F3 F4 F5 F6]]. rewrite E1, F1 in *.
    apply (parse_conflict fails t' lv n input c' d' LO Hc' Hd'); [apply (similar_forb t); auto|]. destruct H as [H|H]; [left; apply M1; auto|right; exact H].
  Qed.
  Lemma final_repeat input c : In c t -> c_allowMultiple c = false -> 2 <= List.length (filter (issues (c_name c)) input) -> fst (parse fails t' lv n input) <> [].
  Proof.
    intros Hc Am L. destruct (processTable_ok t t' lv n U PT) as [_ [_ [_ [S [LO _]]]]]. destruct (similar_in t t' c S Hc) as [c' [C1 [C2 _]]].
    unfold skel in C2. inversion C2 as [[E1 E2 E3 E4 E5 E6]]. apply (repeat_reported fails t' lv n input c' LO C1); congruence.
  Qed.
  Lemma final_static c d e : ReqStar t c d -> ReqStar t c e -> ~ Forb t (c_name d) (c_name e) /\ ~ (Forb t (c_name e) (c_name d)).
  Proof.
    intros R1 R2. destruct (processTable_ok t t' lv n U PT) as [_ [_ [Len [S [LO [Co _]]]]]].
    assert (Hc : In c t) by (apply clos_trans_t1n in R1; destruct R1 as [y H|y z H]; apply H).
    destruct (similar_in t t' c S Hc) as [c' [C1 [C2 _]]].
    unfold consistent in Co. rewrite forallb_forall in Co. specialize (Co c' C1).
    destruct (getDependencies (List.length t') t' c') as [ds fs] eqn:G. apply negb_true_iff in Co.
    destruct (lo_total _ _ _ LO c' C1) as [l [El Hl]].
    assert (Lt : List.length t' = List.length t). { pose proof (f_equal (@List.length string) (similar_names t t' S)) as X. rewrite !map_length in X. exact X. }
    assert (Fu : l <= List.length t') by (rewrite Lt; assert (t <> []) by (intros X; rewrite X in Hc; destruct Hc); specialize (Len H); lia).
    assert (NoF : forall x y, ReqStar t c x -> ReqStar t c y -> ~ Forb t (c_name x) (c_name y)).
    { intros x y Rx Ry Fb. destruct (similar_reqstar t t' c x S Rx c' C1 C2) as [x' [X1 [X2 X3]]]. destruct (similar_reqstar t t' c y S Ry c' C1 C2) as [y' [Y1 [Y2 Y3]]].
      destruct (getDependencies_complete t' lv n LO _ c' l C1 El Fu x' X2) as [_ GX]. destruct (getDependencies_complete t' lv n LO _ c' l C1 El Fu y' Y2) as [GY _].
      rewrite G in GX, GY. cbn in GX, GY. apply (similar_forb t t') in Fb; auto. destruct Fb as [z [f [Z1 [Z2 [Z3 Z4]]]]].
      unfold skel in X3, Y3. inversion X3. inversion Y3. assert (z = x') by (apply (unique_in t'); auto; [apply (lo_unique _ _ _ LO)|unfold ieq in *; congruence]). subst z.
      assert (existsb (fun m => imem m fs) ds = true); [|congruence]. apply existsb_exists. exists (c_name y'). split; auto. 
      destruct (imem_spec (c_name y') fs) as [|N]; auto. exfalso. apply N. exists f. split; auto. unfold ieq in *. congruence. }
    split; auto.
  Qed.
End P.

Lemma final_outcome t : UniqueNames t -> match processTable t with Bad TooManyPasses => False | Bad Cyclic => exists S, Stuck t S | Bad BadRequire => ~ RequiresValid t | _ => True end.
Proof.
  intros U. unfold processTable. pose proof (passes_spec t U (S (List.length t)) 0 (fun _ => None) (inv_start t)) as P. rewrite unassigned_start in P. specialize (P (le_n _)).
  destruct (passes (S (List.length t)) t 0 (fun _ => None)) as [[lv n]|f]; [|destruct f; auto; contradiction].
  assert (G : forall names t0 f, mutual names t0 = Bad f -> f = BadForbid).
  { assert (G1 : forall ci fs t0 f, mutualOne ci fs t0 = Bad f -> f = BadForbid).
    { induction fs as [|g fs IH]; intros t0 f H; cbn in H; [discriminate|]. destruct (lookup g t0); [|congruence]. destruct (_ && _); eauto. }
    induction names as [|m names IH]; intros t0 f H; cbn in H; [discriminate|]. destruct (lookup m t0); [|discriminate].
    destruct (mutualOne c (c_forbids c) t0) eqn:M; [eauto|]. inversion H; subst. eauto. }
  destruct (mutual (map c_name t) t) as [t'|f] eqn:M; [|rewrite (G _ _ _ M); auto]. destruct (consistent t'); auto.
Qed.
Lemma final_cycle t : UniqueNames t -> RequiresValid t -> (exists S, Stuck t S) -> processTable t = Bad Cyclic.
Proof.
  intros U V [S0 HS]. unfold processTable. pose proof (passes_spec t U (S (List.length t)) 0 (fun _ => None) (inv_start t)) as P. rewrite unassigned_start in P. specialize (P (le_n _)).
  destruct (passes (S (List.length t)) t 0 (fun _ => None)) as [[lv n]|f].
  - exfalso. destruct P as [P1 [P2 _]]. eapply stuck_no_levels; eauto.
  - destruct f; try contradiction; reflexivity.
Qed.
