(** Proofs about parallel state files. *)
From Coq Require Import ZArith List Bool Lia Permutation.
From Verif Require Import Base WorkDiv_Model WorkDiv_Proofs StateIO_Model.
Import ListNotations.
Open Scope Z_scope.

Section P.
  Context {A : Type}.
  Definition touches (o : Z) (w : Z * list A) : Prop := fst w <= o < fst w + Z.of_nat (length (snd w)).
  Lemma writes_at (s : list (Z * list A)) o v : (forall w, In w s -> touches o w -> nth_error (snd w) (Z.to_nat (o - fst w)) = v) ->
    forall f, (exists w, In w s /\ touches o w) \/ e_at f o = v -> e_at (fold_left writeAt s f) o = v.
  Proof.
    induction s as [|w s IH]; intros H f Hf.
    - destruct Hf as [(w&[]&_)|Hf]. exact Hf.
    - cbn [fold_left]. apply IH. { intros; apply H; [right; auto|auto]. }
      destruct w as [pos row]. destruct Hf as [(w&[<-|Hw]&T)|Hf]; cbn.
      + right. unfold touches in T. cbn in T. replace ((pos <=? o) && (o <? pos + Z.of_nat (length row))) with true by (symmetry; apply andb_true_intro; lia).
        apply (H (pos, row)); [left; auto|exact T].
      + left. exists w. auto.
      + right. destruct ((pos <=? o) && (o <? pos + Z.of_nat (length row))) eqn:E; auto. apply andb_prop in E.
        apply (H (pos, row)); [left; auto|unfold touches; cbn; lia].
  Qed.
  Lemma writes_len (s : list (Z * list A)) : forall f n, e_len f <= n -> (forall w, In w s -> fst w + Z.of_nat (length (snd w)) <= n) ->
    (e_len f = n \/ exists w, In w s /\ fst w + Z.of_nat (length (snd w)) = n) -> e_len (fold_left writeAt s f) = n.
  Proof.
    induction s as [|w s IH]; intros f n Hf H He.
    - destruct He as [He|(w&[]&_)]. exact He.
    - cbn [fold_left]. apply IH.
      + destruct w as [pos row]. cbn. specialize (H _ (or_introl eq_refl)). cbn in H. lia.
      + intros; apply H; right; auto.
      + destruct w as [pos row]. assert (H0 := H _ (or_introl eq_refl)). cbn in H0. cbn. destruct He as [He|(w&[<-|Hw]&He)].
        * left. lia.
        * cbn in He. left. lia.
        * right. exists w. auto.
  Qed.
  Lemma rowsFrom_eq rs (row : Z -> list A) : 0 <= rs -> forall n a b, Z.to_nat (b - a) = n -> (forall q, a <= q < b -> Z.of_nat (length (row q)) = rs) ->
    rowsFrom (a * rs) (map row (zrange a b)) = map (fun q => (q * rs, row q)) (zrange a b).
  Proof.
    intros Hrs n. induction n as [|n IH]; intros a b Hn H.
    - rewrite zrange_nil by lia. reflexivity.
    - rewrite zrange_cons by lia. cbn [map rowsFrom]. f_equal. rewrite H by lia. replace (a * rs + rs) with ((a + 1) * rs) by ring. apply IH; [lia|]. intros; apply H; lia.
  Qed.
  Definition good_file (n rs : Z) (row : Z -> list A) (f : efile A) : Prop :=
    e_len f = n * rs /\ forall q b, 0 <= q < n -> 0 <= b < rs -> e_at f (q * rs + b) = nth_error (row q) (Z.to_nat b).
  Lemma perm_good n rs (row : Z -> list A) s : 0 <= n -> 0 <= rs -> (forall q, 0 <= q < n -> Z.of_nat (length (row q)) = rs) ->
    Permutation (map (fun q => (q * rs, row q)) (zrange 0 n)) s -> good_file n rs row (fold_left writeAt s emptyFile).
  Proof.
    intros Hn Hrs Hrow P.
    assert (In_s : forall w, In w s <-> exists q, 0 <= q < n /\ w = (q * rs, row q)).
    { intros w. split.
      - intros H. apply (Permutation_in w (Permutation_sym P)) in H. apply in_map_iff in H. destruct H as (q&<-&H). apply in_zrange in H. exists q. auto.
      - intros (q&Hq&->). apply (Permutation_in _ P). apply in_map_iff. exists q. split; auto. apply in_zrange; auto. }
    split.
    - apply writes_len.
      + cbn. nia.
      + intros w Hw. apply In_s in Hw. destruct Hw as (q&Hq&->). cbn [fst snd]. rewrite Hrow by auto. nia.
      + destruct (Z.eq_dec n 0) as [->|Hn0]; [left; cbn; lia|]. right. exists ((n-1) * rs, row (n-1)). split; [apply In_s; exists (n-1); split; [lia|auto]|].
        cbn [fst snd]. rewrite Hrow by lia. lia.
    - intros q b Hq Hb. apply writes_at.
      + intros w Hw T. apply In_s in Hw. destruct Hw as (q'&Hq'&->). unfold touches in T. cbn [fst snd] in *. rewrite Hrow in T by auto.
        assert (q' = q) by nia. subst q'. do 2 f_equal. lia.
      + left. exists (q * rs, row q). split; [apply In_s; exists q; auto|]. unfold touches. cbn [fst snd]. rewrite Hrow by auto. lia.
  Qed.

  Lemma elements_some n nRows nCols x : elements n nRows nCols = Some x -> x = n * nRows * nCols.
  Proof.
    unfold elements, intMul. destruct (in_int (n * nRows)); [|discriminate]. destruct (in_int _); [|discriminate]. intros H; inversion H. reflexivity.
  Qed.
  Lemma sequence_spec {B} (l : list (option B)) r : sequence l = Some r <-> l = map Some r.
  Proof.
    revert r; induction l as [|[b|] l IH]; intros r; cbn.
    - split; [intros H; inversion H; auto|]. destruct r; [auto|discriminate].
    - destruct (sequence l) as [r'|] eqn:E.
      + split.
        * intros H; inversion H; subst. cbn. f_equal. apply IH; auto.
        * destruct r as [|b' r]; [discriminate|]. cbn. intros H; inversion H; subst. f_equal. f_equal. assert (Q : Some r' = Some r) by (apply IH; auto). congruence.
      + split; [discriminate|]. destruct r as [|b' r]; [discriminate|]. cbn. intros H; inversion H; subst. assert (Q : None = Some r) by (apply IH; auto). discriminate.
    - split; [discriminate|]. destruct r; discriminate.
  Qed.
  Lemma sequence_map_ext {B C} (g : B -> option C) (h : B -> C) l r : sequence (map g l) = Some r -> (forall x, In x l -> forall y, g x = Some y -> y = h x) -> r = map h l.
  Proof.
    intros H E. apply sequence_spec in H. revert r H. induction l as [|x l IH]; intros r H; cbn in *.
    - destruct r; [auto|discriminate].
    - destruct r as [|y r]; [discriminate|]. cbn in H. inversion H. f_equal; [apply E; auto|]. apply IH; auto.
  Qed.
  Lemma concat_map_map {B C D} (g : C -> D) (h : B -> list C) l : concat (map (fun p => map g (h p)) l) = map g (concat (map h l)).
  Proof. induction l as [|p l IH]; cbn; [auto|]. rewrite map_app, IH. reflexivity. Qed.

  Definition owned (nStates nProcs : Z) (M : Z -> Z -> list A) (q : Z) : list A := M (td_whose (stopArr nStates nProcs) q) q.
  Lemma collective_good nStates nProcs nRows nCols (M : Z -> Z -> list A) f : 0 <= nStates -> 0 < nProcs -> 0 <= nRows -> 0 <= nCols ->
    (forall p q, 0 <= p < nProcs -> td_start (stopArr nStates nProcs) p <= q < td_stop (stopArr nStates nProcs) p -> Z.of_nat (length (M p q)) = nRows * nCols) ->
    collectiveWrite nStates nProcs nRows nCols M f -> good_file nStates (nRows * nCols) (owned nStates nProcs M) f.
  Proof.
    intros Hn Hp Hr Hc HM (progs&sched&E&I&->). set (arr := stopArr nStates nProcs) in *.
    assert (Own : forall p q, 0 <= p < nProcs -> td_start arr p <= q < td_stop arr p -> 0 <= q < nStates -> td_whose arr q = p).
    { intros p q H1 H2 H3. symmetry. apply (td_owner_unique nStates nProcs q p); auto. unfold td_isMine. apply andb_true_intro. fold arr. lia. }
    assert (Rng : forall p q, 0 <= p < nProcs -> td_start arr p <= q < td_stop arr p -> 0 <= q < nStates).
    { intros p q H1 H2. unfold arr in H2. rewrite td_start_eq, td_stop_eq in H2 by lia. assert (B0 := bound_0 nStates nProcs Hp). assert (B1 := bound_p nStates nProcs Hp).
      assert (B2 := bound_mono nStates nProcs 0 p Hn Hp ltac:(lia)). assert (B3 := bound_mono nStates nProcs (p+1) nProcs Hn Hp ltac:(lia)). lia. }
    apply (sequence_map_ext _ (fun p => map (fun q => (q * (nRows * nCols), owned nStates nProcs M q)) (zrange (td_start arr p) (td_stop arr p)))) in E.
    - apply interleave_perm in I. rewrite E, concat_map_map in I. unfold arr in I. rewrite td_partition in I by auto.
      apply perm_good; auto; [nia|]. intros q Hq. destruct (td_whose_in nStates nProcs q Hn Hp Hq) as (W1&W2). unfold owned. apply HM; auto.
    - intros p Hpr ws Hws. apply in_zrange in Hpr. unfold procWrites in Hws. fold arr in Hws. destruct (elements _ _ _) as [pos|] eqn:Ee; [|discriminate].
      apply elements_some in Ee. inversion Hws; subst ws. rewrite Ee. replace (td_start arr p * nRows * nCols) with (td_start arr p * (nRows * nCols)) by ring.
      rewrite (rowsFrom_eq (nRows * nCols) (M p) ltac:(nia) _ (td_start arr p) (td_stop arr p) eq_refl) by (intros; apply HM; auto).
      apply map_ext_in. intros q Hq. apply in_zrange in Hq. f_equal. unfold owned. fold arr. rewrite (Own p q); auto. apply (Rng p); auto.
  Qed.
  Lemma find_sends nStates nProcs (M : Z -> Z -> list A) p q : 0 <= nStates -> 0 < nProcs -> 0 < p < nProcs ->
    td_start (stopArr nStates nProcs) p <= q < td_stop (stopArr nStates nProcs) p -> recv nStates nProcs M p q = Some (M p q).
  Proof.
    intros Hn Hp Hpr Hq. unfold recv, sends. destruct (p =? 0) eqn:E; [lia|]. set (a := td_start _ _) in *. set (b := td_stop _ _) in *.
    assert (G : forall n a, Z.to_nat (b - a) = n -> a <= q < b -> find (fun m : Z * list A => fst m =? q) (map (fun q => (q, M p q)) (zrange a b)) = Some (q, M p q)).
    { clear. induction n as [|n IH]; intros a H Hq; [lia|]. rewrite zrange_cons by lia. cbn [map find fst]. destruct (a =? q) eqn:E; [apply Z.eqb_eq in E; subst; auto|].
      apply IH; lia. }
    rewrite (G _ a eq_refl Hq). reflexivity.
  Qed.
  Lemma safe_good nStates nProcs nRows nCols (M : Z -> Z -> list A) : 0 <= nStates -> 0 < nProcs -> 0 <= nRows -> 0 <= nCols ->
    (forall p q, 0 <= p < nProcs -> td_start (stopArr nStates nProcs) p <= q < td_stop (stopArr nStates nProcs) p -> Z.of_nat (length (M p q)) = nRows * nCols) ->
    exists f, safeWrite nStates nProcs M = Some f /\ good_file nStates (nRows * nCols) (owned nStates nProcs M) f.
  Proof.
    intros Hn Hp Hr Hc HM. set (arr := stopArr nStates nProcs) in *.
    assert (HR : forall q, 0 <= q < nStates -> headRow nStates nProcs M q = Some (owned nStates nProcs M q)).
    { intros q Hq. destruct (td_whose_in nStates nProcs q Hn Hp Hq) as (W1&W2). fold arr in W1, W2. unfold headRow, owned. fold arr.
      destruct (td_isMine arr 0 q) eqn:E.
      - assert (0 = td_whose arr q) as <-; auto. apply (td_owner_unique nStates nProcs q 0); auto. lia.
      - assert (td_whose arr q <> 0). { intros Z0. assert (td_isMine arr 0 q = true); [|congruence]. apply (td_owner_unique nStates nProcs q 0); auto; lia. }
        apply find_sends; auto; lia. }
    unfold safeWrite. assert (E : sequence (map (headRow nStates nProcs M) (zrange 0 nStates)) = Some (map (owned nStates nProcs M) (zrange 0 nStates))).
    { apply sequence_spec. rewrite map_map. apply map_ext_in. intros q Hq. apply in_zrange in Hq. auto. }
    rewrite E. eexists. split; [reflexivity|].
    assert (L : forall q, 0 <= q < nStates -> Z.of_nat (length (owned nStates nProcs M q)) = nRows * nCols).
    { intros q Hq. destruct (td_whose_in nStates nProcs q Hn Hp Hq) as (W1&W2). unfold owned. apply HM; auto. }
    replace 0 with (0 * (nRows * nCols)) at 1 by ring. rewrite (rowsFrom_eq (nRows * nCols) _ ltac:(nia) _ 0 nStates eq_refl L).
    apply perm_good; auto. nia.
  Qed.
  Lemma readAt_good (f : efile A) : forall n pos (row : list A), length row = n -> (forall b, 0 <= b < Z.of_nat n -> e_at f (pos + b) = nth_error row (Z.to_nat b)) -> readAt f pos n = Some row.
  Proof.
    induction n as [|n IH]; intros pos row Hl H.
    - destruct row; [reflexivity|discriminate].
    - destruct row as [|a row]; [discriminate|]. cbn [readAt]. assert (H0 := H 0 ltac:(lia)). rewrite Z.add_0_r in H0. rewrite H0. cbn.
      rewrite (IH (pos + 1) row); auto. intros b Hb. specialize (H (b + 1) ltac:(lia)). replace (pos + 1 + b) with (pos + (b + 1)) by ring. rewrite H.
      replace (Z.to_nat (b + 1)) with (S (Z.to_nat b)) by lia. reflexivity.
  Qed.
  Lemma readRows_good (f : efile A) N rs (row : Z -> list A) : 0 <= rs -> good_file N rs row f -> (forall q, 0 <= q < N -> Z.of_nat (length (row q)) = rs) ->
    forall n a b, Z.to_nat (b - a) = n -> 0 <= a -> b <= N -> readRows f (a * rs) rs (zrange a b) = Some (map (fun q => (q, row q)) (zrange a b)).
  Proof.
    intros Hrs (G1&G2) HL n. induction n as [|n IH]; intros a b Hn Ha Hb.
    - rewrite zrange_nil by lia. reflexivity.
    - rewrite zrange_cons by lia. cbn [readRows map]. rewrite (readAt_good f _ _ (row a)).
      + replace (a * rs + rs) with ((a + 1) * rs) by ring. rewrite IH by lia. reflexivity.
      + specialize (HL a ltac:(lia)). lia.
      + intros c Hc. apply G2; lia.
  Qed.
  Lemma read_good nStates nProcs nRows nCols (f : efile A) row p : 0 <= nStates -> 0 < nProcs -> 0 <= nRows -> 0 <= nCols -> 0 <= p < nProcs ->
    nStates * nRows < 2^31 -> nStates * nRows * nCols < 2^31 ->
    (forall q, 0 <= q < nStates -> Z.of_nat (length (row q)) = nRows * nCols) -> good_file nStates (nRows * nCols) row f ->
    readProc nStates nProcs nRows nCols f p = Some (map (fun q => (q, row q)) (zrange (td_start (stopArr nStates nProcs) p) (td_stop (stopArr nStates nProcs) p))).
  Proof.
    intros Hn Hp Hr Hc Hpr H1 H2 HL HG.
    assert (Rng : 0 <= td_start (stopArr nStates nProcs) p <= nStates /\ td_stop (stopArr nStates nProcs) p <= nStates).
    { rewrite td_start_eq, td_stop_eq by lia. assert (B0 := bound_0 nStates nProcs Hp). assert (B1 := bound_p nStates nProcs Hp).
      assert (B2 := bound_mono nStates nProcs 0 p Hn Hp ltac:(lia)). assert (B3 := bound_mono nStates nProcs (p+1) nProcs Hn Hp ltac:(lia)).
      assert (B4 := bound_mono nStates nProcs p nProcs Hn Hp ltac:(lia)). lia. }
    set (a := td_start _ _) in *. set (b := td_stop _ _) in *.
    assert (E : forall n, 0 <= n <= nStates -> elements n nRows nCols = Some (n * (nRows * nCols))).
    { intros n Hn'. unfold elements, intMul, in_int. assert (0 <= n * nRows <= nStates * nRows) by nia. assert (0 <= n * nRows * nCols <= nStates * nRows * nCols) by nia.
      replace ((-2^31 <=? n * nRows) && (n * nRows <? 2^31)) with true by (symmetry; apply andb_true_intro; lia).
      replace ((-2^31 <=? n * nRows * nCols) && (n * nRows * nCols <? 2^31)) with true by (symmetry; apply andb_true_intro; lia). f_equal. ring. }
    unfold readProc. fold a b. rewrite (E nStates), (E a) by lia. destruct HG as (G1&G2). rewrite G1, Z.eqb_refl, andb_false_r.
    apply (readRows_good f nStates (nRows * nCols) row ltac:(nia) (conj G1 G2) HL (Z.to_nat (b - a))); lia.
  Qed.
  Lemma roundtrip nStates nProcs nProcs' nRows nCols (M : Z -> Z -> list A) f p : 0 <= nStates -> 0 < nProcs -> 0 < nProcs' -> 0 <= nRows -> 0 <= nCols ->
    nStates * nRows < 2^31 -> nStates * nRows * nCols < 2^31 ->
    (forall p q, 0 <= p < nProcs -> td_start (stopArr nStates nProcs) p <= q < td_stop (stopArr nStates nProcs) p -> Z.of_nat (length (M p q)) = nRows * nCols) ->
    (collectiveWrite nStates nProcs nRows nCols M f \/ safeWrite nStates nProcs M = Some f) -> 0 <= p < nProcs' ->
    readProc nStates nProcs' nRows nCols f p =
      Some (map (fun q => (q, M (td_whose (stopArr nStates nProcs) q) q)) (zrange (td_start (stopArr nStates nProcs') p) (td_stop (stopArr nStates nProcs') p))).
  Proof.
    intros Hn Hp Hp' Hr Hc H1 H2 HM HW Hpr.
    assert (G : good_file nStates (nRows * nCols) (owned nStates nProcs M) f).
    { destruct HW as [HW|HW]; [eapply collective_good; eauto|]. destruct (safe_good nStates nProcs nRows nCols M Hn Hp Hr Hc HM) as (f'&E&G). congruence. }
    apply (read_good nStates nProcs' nRows nCols f (owned nStates nProcs M) p); auto.
    intros q Hq. destruct (td_whose_in nStates nProcs q Hn Hp Hq) as (W1&W2). unfold owned. apply HM; auto.
  Qed.
  (** a collective write exists whenever there is no overflow *)
  Lemma interleave_exists {B} (ls : list (list B)) : exists s, interleave ls s.
  Proof.
    remember (length (concat ls)) as n. revert ls Heqn. induction n as [|n IH]; intros ls E.
    - exists []. apply il_done. clear -E. induction ls as [|l ls IH]; constructor; cbn in E; rewrite app_length in E; [destruct l; cbn in E; [auto|lia]|apply IH; lia].
    - assert (H : exists ls1 a l ls2, ls = ls1 ++ (a :: l) :: ls2).
      { clear IH. induction ls as [|l ls IH]; [discriminate|]. destruct l as [|a l].
        - destruct IH as (l1&a&l&l2&->); [exact E|]. exists ([] :: l1), a, l, l2. reflexivity.
        - exists [], a, l, ls. reflexivity. }
      destruct H as (l1&a&l&l2&->). destruct (IH (l1 ++ l :: l2)) as (s&Hs).
      + rewrite !concat_app in *. cbn in *. rewrite !app_length in *. cbn in E. rewrite !app_length in *. lia.
      + exists (a :: s). apply il_step. exact Hs.
  Qed.
  Lemma collective_exists nStates nProcs nRows nCols (M : Z -> Z -> list A) : 0 <= nStates -> 0 < nProcs -> 0 <= nRows -> 0 <= nCols ->
    nStates * nRows < 2^31 -> nStates * nRows * nCols < 2^31 -> exists f, collectiveWrite nStates nProcs nRows nCols M f.
  Proof.
    intros Hn Hp Hr Hc H1 H2.
    assert (E : exists progs, sequence (map (procWrites nStates nProcs nRows nCols M) (zrange 0 nProcs)) = Some progs).
    { exists (map (fun p => rowsFrom (td_start (stopArr nStates nProcs) p * nRows * nCols) (map (M p) (zrange (td_start (stopArr nStates nProcs) p) (td_stop (stopArr nStates nProcs) p)))) (zrange 0 nProcs)).
      apply sequence_spec. rewrite map_map. apply map_ext_in. intros p Hp'. apply in_zrange in Hp'. unfold procWrites.
      assert (Rng : 0 <= td_start (stopArr nStates nProcs) p <= nStates).
      { rewrite td_start_eq by lia. assert (B0 := bound_0 nStates nProcs Hp). assert (B1 := bound_p nStates nProcs Hp).
        assert (B2 := bound_mono nStates nProcs 0 p Hn Hp ltac:(lia)). assert (B4 := bound_mono nStates nProcs p nProcs Hn Hp ltac:(lia)). lia. }
      set (a := td_start _ _) in *. unfold elements, intMul, in_int. assert (0 <= a * nRows <= nStates * nRows) by nia. assert (0 <= a * nRows * nCols <= nStates * nRows * nCols) by nia.
      replace ((-2^31 <=? a * nRows) && (a * nRows <? 2^31)) with true by (symmetry; apply andb_true_intro; lia).
      replace ((-2^31 <=? a * nRows * nCols) && (a * nRows * nCols <? 2^31)) with true by (symmetry; apply andb_true_intro; lia). reflexivity. }
    destruct E as (progs&E). destruct (interleave_exists progs) as (s&Hs). eexists. exists progs, s. split; [exact E|]. split; [exact Hs|reflexivity].
  Qed.
End P.
