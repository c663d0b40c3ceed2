(** Proofs about half / full conversions (C38). *)
From Coq Require Import ZArith Reals List Bool Lia Lra Permutation.
From Coquelicot Require Import Complex.
From Verif Require Import Base WorkDiv_Model Grid_Model Grid_Spec Grid_Proofs Convert_Model Convert_Spec.
Import ListNotations.
Open Scope Z_scope.

Lemma exec_app ws ws' a : exec (ws ++ ws') a = exec ws' (exec ws a).
Proof. apply fold_left_app. Qed.
Lemma exec_none ws i : forall a, (forall w, In w ws -> fst w <> i) -> exec ws a i = a i.
Proof.
  induction ws as [|w ws IH]; intros a H; cbn; auto. fold (exec ws (store a w)). rewrite IH by (intros; apply H; right; auto).
  unfold store. destruct (Z.eqb_spec i (fst w)) as [->|]; auto. exfalso. apply (H w); [left|]; auto.
Qed.
Lemma exec_value ws i x : (forall w, In w ws -> fst w = i -> snd w = x) -> forall a, (a i = x \/ exists w, In w ws /\ fst w = i) -> exec ws a i = x.
Proof.
  induction ws as [|w ws IH]; intros H a E; cbn.
  - destruct E as [|(w&[]&_)]; auto.
  - fold (exec ws (store a w)). apply IH; [intros; apply H; auto; right; auto|]. unfold store.
    destruct (Z.eqb_spec i (fst w)) as [->|N]; [left; apply H; auto; left; auto|]. destruct E as [E|(w'&[->|I]&F)]; [left; auto|congruence|right; eauto].
Qed.
Lemma launched_value calc L a r i x : launched calc L a r -> (forall p w, In p L -> In w (calc p) -> fst w = i -> snd w = x) ->
  (a i = x \/ exists p w, In p L /\ In w (calc p) /\ fst w = i) -> r i = x.
Proof.
  intros (ws&P&->) H E. apply exec_value.
  - intros w I F. apply (Permutation_in _ P) in I. apply in_flat_map in I. destruct I as (p&I&J). eauto.
  - destruct E as [E|(p&w&I&J&F)]; [left; auto|right]. exists w. split; auto. apply (Permutation_in _ (Permutation_sym P)). apply in_flat_map. eauto.
Qed.
(** loops *)
Lemma third_v2 S : third S = v2 S. Proof. destruct S as ((a,b),c). reflexivity. Qed.
Lemma thread_union_mono loop fuel fuel' nT n : (forall i1 i2 L, loop fuel i1 i2 = Some L -> loop fuel' i1 i2 = Some L) -> forall L, thread_union loop fuel nT n = Some L -> thread_union loop fuel' nT n = Some L.
Proof.
  intros H. unfold thread_union. induction (zrange 0 nT) as [|t l IH]; cbn; intros L E; auto.
  destruct (loop fuel (thread_i1 nT n t) (thread_i2 nT n t)) as [A|] eqn:EA; [|discriminate]. rewrite (H _ _ _ EA).
  destruct (fold_right _ (Some []) l) as [B|] eqn:EB; [|discriminate]. rewrite (IH B eq_refl). auto.
Qed.
Lemma loop_while_mono next f f' : (f <= f')%nat -> forall i iStop st L, loop_while f next i iStop st = Some L -> loop_while f' next i iStop st = Some L.
Proof.
  intros H. revert f' H. induction f as [|f IH]; intros f' H i iStop st L; cbn; [discriminate|]. destruct f' as [|f']; [lia|]. cbn.
  destruct (i <? iStop); auto. destruct (i + 1 =? iStop); auto. destruct (loop_while f next (i + 1) iStop (next st)) eqn:E; [|discriminate]. rewrite (IH f') with (L := l); auto. lia.
Qed.
Lemma loop_true_mono next f f' : (f <= f')%nat -> forall i iStop st L, loop_true f next i iStop st = Some L -> loop_true f' next i iStop st = Some L.
Proof.
  intros H. revert f' H. induction f as [|f IH]; intros f' H i iStop st L; cbn; [discriminate|]. destruct f' as [|f']; [lia|]. cbn.
  destruct (i + 1 =? iStop); auto. destruct (loop_true f next (i + 1) iStop (next st)) eqn:E; [|discriminate]. rewrite (IH f') with (L := l); auto. lia.
Qed.
(** the points of a completed launch *)
Definition covers (point : V3 -> Prop) (index : V3 -> Z) (n : Z) (L : list (Z * V3)) : Prop :=
  (forall p, In p L -> point (snd p) /\ index (snd p) = fst p /\ 0 <= fst p < n) /\ (forall i, 0 <= i < n -> exists g, In (i, g) L /\ point g /\ index g = i).
Lemma visits_covers point index n L : visits point index 0 n L -> covers point index n L.
Proof.
  intros (E&F). rewrite Forall_forall in F. split.
  - intros p I. destruct (F p I). split; auto. split; auto. assert (I' : In (fst p) (zrange 0 n)) by (rewrite <- E; apply (in_map fst); auto). apply in_zrange in I'. lia.
  - intros i Hi. assert (I : In i (map fst L)) by (rewrite E; apply in_zrange; lia). apply in_map_iff in I. destruct I as ((i',g)&<-&I). exists g. split; auto. apply (F _ I).
Qed.
Lemma half_covers S fuel nT L : pos3 S -> 0 < nT -> thread_union (THREAD_halfGspaceLoop S) fuel nT (nG S) = Some L -> covers (halfG_point S) (row_major S (v2 S / 2 + 1)) (nG S) L.
Proof.
  intros H HT E. apply visits_covers. set (f := (fuel + Z.to_nat (nG S) + 1)%nat).
  destruct (halfG_all_threads S nT f H HT) as (L'&E'&V); [unfold f; pose proof (nG_pos S H); lia|].
  apply (thread_union_mono _ fuel f) in E; [congruence|]. intros i1 i2 L0 X. apply (loop_while_mono _ fuel f); [unfold f; lia|exact X].
Qed.
Lemma full_covers S fuel nT L : pos3 S -> 0 < nT -> thread_union (THREAD_fullGspaceLoop S) fuel nT (nr S) = Some L -> nT <= nr S -> covers (G_point S) (row_major S (v2 S)) (nr S) L.
Proof.
  intros H HT E HL. apply visits_covers. set (f := (fuel + Z.to_nat (nr S) + 1)%nat).
  destruct (fullG_all_threads S nT f H HT HL) as (L'&E'&V); [unfold f; pose proof (nr_pos S H); lia|].
  apply (thread_union_mono _ fuel f) in E; [congruence|]. intros i1 i2 L0 X. apply (loop_true_mono _ fuel f); [unfold f; lia|exact X].
Qed.
(** indices *)
Lemma half_G S g : pos3 S -> halfG_point S g -> G_point S g.
Proof. destruct S as ((a,b),c), g as ((x,y),z). cbn. lia. Qed.
Lemma refC_mod S x : 0 < S -> - S < 2 * x <= S -> refC S x = (- x) mod S.
Proof.
  intros H B. unfold refC. rewrite wrap1_mod' by auto. destruct (Z.eqb_spec (x mod S) 0) as [E|E].
  - rewrite Z.mod_opp_l_z by lia. auto. - rewrite Z.mod_opp_l_nz by lia. auto.
Qed.
Lemma iFull_row S g : pos3 S -> G_point S g -> iFull S g = row_major S (v2 S) g.
Proof. destruct S as ((a,b),c), g as ((x,y),z). intros (Ha&Hb&Hc) (Hx&Hy&Hz). unfold iFull, row_major. cbn [v0 v1 v2 fst snd]. rewrite !wrap1_mod' by lia. ring. Qed.
Lemma iFullRef_row S g : pos3 S -> G_point S g -> iFullRef S g = row_major S (v2 S) (neg3 g).
Proof. destruct S as ((a,b),c), g as ((x,y),z). intros (Ha&Hb&Hc) (Hx&Hy&Hz). unfold iFullRef, row_major, neg3. cbn [v0 v1 v2 fst snd]. rewrite !refC_mod by lia. ring. Qed.
Lemma row_same S g g' : pos3 S -> (row_major S (v2 S) g = row_major S (v2 S) g' <-> same_mod S g g').
Proof.
  destruct S as ((a,b),c), g as ((x,y),z), g' as ((x',y'),z'). intros (Ha&Hb&Hc). unfold row_major, same_mod. cbn [v0 v1 v2 fst snd]. split.
  - intros E. apply flat_unique in E; auto; apply Z.mod_pos_bound; auto.
  - intros (->&->&->). auto.
Qed.
Lemma same_refl S g : same_mod S g g. Proof. destruct S as ((a,b),c), g as ((x,y),z). cbn. auto. Qed.
Lemma same_sym S g g' : same_mod S g g' -> same_mod S g' g. Proof. destruct S as ((a,b),c), g as ((x,y),z), g' as ((x',y'),z'). cbn. intuition. Qed.
Lemma same_trans S g g' g'' : same_mod S g g' -> same_mod S g' g'' -> same_mod S g g''.
Proof. destruct S as ((a,b),c), g as ((x,y),z), g' as ((x',y'),z'), g'' as ((x'',y''),z''). cbn. intuition congruence. Qed.
Lemma mod_opp_cong S x y : 0 < S -> x mod S = y mod S -> (- x) mod S = (- y) mod S.
Proof. intros H E. rewrite <- !Z.sub_0_l. rewrite (Zminus_mod 0 x), (Zminus_mod 0 y), E. auto. Qed.
Lemma same_neg S g g' : pos3 S -> same_mod S g g' -> same_mod S (neg3 g) (neg3 g').
Proof. destruct S as ((a,b),c), g as ((x,y),z), g' as ((x',y'),z'). cbn. intros (Ha&Hb&Hc) (Hx&Hy&Hz). auto using mod_opp_cong. Qed.
Lemma neg_neg g : neg3 (neg3 g) = g. Proof. destruct g as ((x,y),z). cbn. rewrite !Z.opp_involutive. auto. Qed.
Lemma same_G S g g' : pos3 S -> G_point S g -> G_point S g' -> same_mod S g g' -> g = g'.
Proof. intros H G G' E. apply (full_row_inj S); auto. apply row_same; auto. Qed.
Lemma wrap_rep S x : 0 < S -> exists y, - S < 2 * y <= S /\ y mod S = x mod S.
Proof. intros H. exists (wrapS S (x mod S)). pose proof (Z.mod_pos_bound x S H). split; [apply wrapS_range; auto|]. apply wrapS_mod; auto. Qed.
(** every point or its mirror is in the half space *)
Lemma mirror S g : pos3 S -> exists h, halfG_point S h /\ (same_mod S h g \/ same_mod S (neg3 h) g).
Proof.
  destruct S as ((a,b),c), g as ((x,y),z). intros (Ha&Hb&Hc).
  destruct (wrap_rep a x Ha) as (x1&Bx&Ex), (wrap_rep b y Hb) as (y1&By&Ey), (wrap_rep c z Hc) as (z1&Bz&Ez).
  destruct (Z_le_dec 0 z1) as [P|P].
  - exists (x1,y1,z1). split; [cbn; lia|]. left. cbn. auto.
  - destruct (wrap_rep a (- x1) Ha) as (x2&Bx2&Ex2), (wrap_rep b (- y1) Hb) as (y2&By2&Ey2). exists (x2,y2,-z1). split; [cbn; lia|]. right. cbn.
    rewrite (mod_opp_cong a x2 (- x1)), (mod_opp_cong b y2 (- y1)) by auto. rewrite !Z.opp_involutive. auto.
Qed.

Lemma Cconj_scale s x : Cconj (Cmult (RtoC s) x) = Cmult (RtoC s) (Cconj x).
Proof. destruct x as (x,y). unfold Cconj, Cmult, RtoC. cbn. f_equal; ring. Qed.
Lemma half_eq : 0.5%R = (/ 2)%R. Proof. lra. Qed.
Lemma Cconj_conj x : Cconj (Cconj x) = x. Proof. destruct x as (x,y). unfold Cconj. cbn. f_equal. ring. Qed.

(** Complex *)
Lemma complex_value nT S s h r : pos3 S -> 0 < nT -> hermitian_half S h -> Complex_run nT S s h r ->
  (forall g, halfG_point S g -> coefF S r g = Cmult (RtoC s) (coefH S h g)) /\ (forall g, halfG_point S g -> coefF S r (neg3 g) = Cconj (Cmult (RtoC s) (coefH S h g))).
Proof.
  intros H HT HH (fuel&L&a&E&R). apply half_covers in E; auto. destruct E as (C1&C2). unfold hermitian_half, coefF, coefH in *. rewrite third_v2 in *.
  assert (V : forall g x, (forall p, halfG_point S p -> same_mod S p g -> Cmult (RtoC s) (h (row_major S (v2 S / 2 + 1) p)) = x) ->
                          (forall p, halfG_point S p -> same_mod S (neg3 p) g -> Cconj (Cmult (RtoC s) (h (row_major S (v2 S / 2 + 1) p))) = x) -> r (row_major S (v2 S) g) = x).
  { intros g x A B. apply (launched_value _ _ _ _ _ _ R).
    - intros (i,p) w I J F. destruct (C1 _ I) as (P&Q&_). cbn [snd fst] in *. subst i. cbn [ComplexG_calc In] in J. destruct J as [<-|[<-|[]]]; cbn [fst snd] in *.
      + rewrite iFull_row in F by auto using half_G. apply row_same in F; auto.
      + rewrite iFullRef_row in F by auto using half_G. apply row_same in F; auto.
    - right. destruct (mirror S g H) as (p&P&D). assert (I : exists i, In (i, p) L).
      { destruct (C2 (row_major S (v2 S / 2 + 1) p)) as (p'&I&P'&Q); [apply half_row_range; auto|]. apply half_row_inj in Q; auto. subst p'. eauto. }
      destruct I as (i&I). destruct D as [D|D].
      + exists (i,p). eexists. split; [exact I|]. split; [left; reflexivity|]. cbn [fst]. rewrite iFull_row by auto using half_G. apply row_same; auto.
      + exists (i,p). eexists. split; [exact I|]. split; [right; left; reflexivity|]. cbn [fst]. rewrite iFullRef_row by auto using half_G. apply row_same; auto. }
  split; intros g G; apply V; intros p P D.
  - rewrite (same_G S p g); auto using half_G.
  - rewrite Cconj_scale. f_equal. symmetry. apply HH; auto. apply same_sym; auto.
  - rewrite Cconj_scale. f_equal. apply HH; auto.
  - apply same_neg in D; auto. rewrite !neg_neg in D. rewrite (same_G S p g); auto using half_G.
Qed.
Lemma coefF_same S v g g' : pos3 S -> same_mod S g g' -> coefF S v g = coefF S v g'.
Proof. intros H E. unfold coefF. rewrite third_v2. f_equal. apply row_same; auto. Qed.
Lemma complex_hermitian nT S s h r : pos3 S -> 0 < nT -> hermitian_half S h -> Complex_run nT S s h r ->
  hermitian_full S r /\ forall g, halfG_point S g -> coefF S r g = Cmult (RtoC s) (coefH S h g).
Proof.
  intros H HT HH R. destruct (complex_value nT S s h r H HT HH R) as (A&B). split; auto. intros g.
  destruct (mirror S g H) as (p&P&[D|D]).
  - rewrite <- (coefF_same S r p g) by auto. rewrite <- (coefF_same S r (neg3 p) (neg3 g)) by (auto; apply same_neg; auto). rewrite (A p P), (B p P). auto.
  - rewrite <- (coefF_same S r (neg3 p) g) by auto. apply same_neg in D; auto. rewrite neg_neg in D. rewrite <- (coefF_same S r p (neg3 g)) by auto.
    rewrite (A p P), (B p P). rewrite Cconj_conj. auto.
Qed.
(** Real and Imag *)
Lemma half_value (calc : Z * V3 -> list (Z * C)) (f : V3 -> C) S nT fuel L a r : pos3 S -> 0 < nT -> thread_union (THREAD_halfGspaceLoop S) fuel nT (nG S) = Some L ->
  launched calc L a r -> (forall i g, halfG_point S g -> row_major S (v2 S / 2 + 1) g = i -> calc (i, g) = [(i, f g)]) -> forall g, halfG_point S g -> coefH S r g = f g.
Proof.
  intros H HT E R F g G. apply half_covers in E; auto. destruct E as (C1&C2). unfold coefH. rewrite third_v2. apply (launched_value _ _ _ _ _ _ R).
  - intros (i,p) w I J K. destruct (C1 _ I) as (P&Q&_). cbn [fst snd] in *. rewrite F in J by auto. destruct J as [<-|[]]. cbn [fst snd] in *. f_equal. subst i. apply (half_row_inj S); auto.
  - right. destruct (C2 (row_major S (v2 S / 2 + 1) g)) as (p'&I&P'&Q); [apply half_row_range; auto|]. eexists _, _. split; [exact I|]. rewrite F by auto. split; [left; reflexivity|]. auto.
Qed.
Definition re_part S s v g := Cmult (RtoC (s * 0.5)) (Cplus (coefF S v g) (Cconj (coefF S v (neg3 g)))).
Definition im_part S s v g := Cmult (0%R, (- s * 0.5)%R) (Cminus (coefF S v g) (Cconj (coefF S v (neg3 g)))).
Lemma real_value nT S s v r : pos3 S -> 0 < nT -> Real_run nT S s v r -> forall g, halfG_point S g -> coefH S r g = re_part S s v g.
Proof.
  intros H HT (fuel&L&a&E&R). refine (half_value _ _ _ _ _ _ _ _ H HT E R _). intros i g G _. unfold RealG_calc, re_part, coefF. rewrite third_v2.
  rewrite iFull_row, iFullRef_row by auto using half_G. auto.
Qed.
Lemma imag_value nT S s v r : pos3 S -> 0 < nT -> Imag_run nT S s v r -> forall g, halfG_point S g -> coefH S r g = im_part S s v g.
Proof.
  intros H HT (fuel&L&a&E&R). refine (half_value _ _ _ _ _ _ _ _ H HT E R _). intros i g G _. unfold ImagG_calc, im_part, coefF. rewrite third_v2.
  rewrite iFull_row, iFullRef_row by auto using half_G. auto.
Qed.
Lemma re_conj S s v g : Cconj (re_part S s v g) = re_part S s v (neg3 g).
Proof. unfold re_part. rewrite neg_neg. destruct (coefF S v g) as (x,y), (coefF S v (neg3 g)) as (x',y'). unfold Cconj, Cmult, Cplus, RtoC. cbn. f_equal; ring. Qed.
Lemma im_conj S s v g : Cconj (im_part S s v g) = im_part S s v (neg3 g).
Proof. unfold im_part. rewrite neg_neg. destruct (coefF S v g) as (x,y), (coefF S v (neg3 g)) as (x',y'). unfold Cconj, Cmult, Cminus, Cplus, Copp, RtoC. cbn. f_equal; ring. Qed.
Lemma re_same S s v g g' : pos3 S -> same_mod S g g' -> re_part S s v g = re_part S s v g'.
Proof. intros H E. unfold re_part. rewrite (coefF_same S v g g'), (coefF_same S v (neg3 g) (neg3 g')) by (auto; apply same_neg; auto). auto. Qed.
Lemma im_same S s v g g' : pos3 S -> same_mod S g g' -> im_part S s v g = im_part S s v g'.
Proof. intros H E. unfold im_part. rewrite (coefF_same S v g g'), (coefF_same S v (neg3 g) (neg3 g')) by (auto; apply same_neg; auto). auto. Qed.
Lemma real_hermitian nT S s v r : pos3 S -> 0 < nT -> Real_run nT S s v r -> hermitian_half S r.
Proof. intros H HT R g g' G G' E. rewrite !(real_value _ _ _ _ _ H HT R) by auto. rewrite re_conj. apply re_same; auto. Qed.
Lemma imag_hermitian nT S s v r : pos3 S -> 0 < nT -> Imag_run nT S s v r -> hermitian_half S r.
Proof. intros H HT R g g' G G' E. rewrite !(imag_value _ _ _ _ _ H HT R) by auto. rewrite im_conj. apply im_same; auto. Qed.
Lemma real_of_complex nT S s t h v r : pos3 S -> 0 < nT -> hermitian_half S h -> Complex_run nT S s h v -> Real_run nT S t v r ->
  forall g, halfG_point S g -> coefH S r g = Cmult (RtoC (t * s)) (coefH S h g).
Proof.
  intros H HT HH RC RR g G. destruct (complex_hermitian _ _ _ _ _ H HT HH RC) as (HF&A). rewrite (real_value _ _ _ _ _ H HT RR) by auto.
  unfold re_part. rewrite HF, A by auto. destruct (coefH S h g) as (x,y). unfold Cconj, Cmult, Cplus, RtoC. cbn. rewrite half_eq. f_equal; field.
Qed.
Lemma imag_of_complex nT S s t h v r : pos3 S -> 0 < nT -> hermitian_half S h -> Complex_run nT S s h v -> Imag_run nT S t v r ->
  forall g, halfG_point S g -> coefH S r g = RtoC 0.
Proof.
  intros H HT HH RC RR g G. destruct (complex_hermitian _ _ _ _ _ H HT HH RC) as (HF&A). rewrite (imag_value _ _ _ _ _ H HT RR) by auto.
  unfold im_part. rewrite HF, A by auto. destruct (coefH S h g) as (x,y). unfold Cconj, Cmult, Cminus, Cplus, Copp, RtoC. cbn. rewrite half_eq. f_equal; field.
Qed.
Lemma recombine nT S s v re im vr vi : pos3 S -> 0 < nT -> Real_run nT S s v re -> Imag_run nT S s v im -> Complex_run nT S 1 re vr -> Complex_run nT S 1 im vi ->
  forall g, Cplus (coefF S vr g) (Cmult Ci (coefF S vi g)) = Cmult (RtoC s) (coefF S v g).
Proof.
  intros H HT R I CR CI. pose proof (real_hermitian _ _ _ _ _ H HT R) as HR. pose proof (imag_hermitian _ _ _ _ _ H HT I) as HI.
  destruct (complex_value _ _ _ _ _ H HT HR CR) as (A1&A2), (complex_value _ _ _ _ _ H HT HI CI) as (B1&B2). intros g.
  assert (K : forall p, re_part S s v p = Cmult (RtoC (s * 0.5)) (Cplus (coefF S v p) (Cconj (coefF S v (neg3 p))))) by reflexivity.
  destruct (mirror S g H) as (p&P&[D|D]).
  - rewrite <- !(fun v => coefF_same S v p g H D). rewrite A1, B1 by auto. rewrite (real_value _ _ _ _ _ H HT R), (imag_value _ _ _ _ _ H HT I) by auto.
    unfold re_part, im_part. destruct (coefF S v p) as (x,y), (coefF S v (neg3 p)) as (x',y'). unfold Cconj, Cmult, Cminus, Cplus, Copp, RtoC, Ci. cbn. rewrite half_eq. f_equal; field.
  - rewrite <- !(fun v => coefF_same S v (neg3 p) g H D). rewrite A2, B2 by auto. rewrite (real_value _ _ _ _ _ H HT R), (imag_value _ _ _ _ _ H HT I) by auto.
    unfold re_part, im_part. destruct (coefF S v p) as (x,y), (coefF S v (neg3 p)) as (x',y'). unfold Cconj, Cmult, Cminus, Cplus, Copp, RtoC, Ci. cbn. rewrite half_eq. f_equal; field.
Qed.
(** changeGrid *)
Lemma outside_false S x : 0 < S -> (outside S x = false <-> - S < 2 * x <= S).
Proof. intros H. unfold outside. rewrite orb_false_iff, !Z.ltb_ge. lia. Qed.
Lemma indexHalf_spec S g : pos3 S -> 0 <= v2 g -> forall i, indexHalf S g = Some i <-> halfG_point S g /\ i = row_major S (v2 S / 2 + 1) g.
Proof.
  destruct S as ((a,b),c), g as ((x,y),z). intros (Ha&Hb&Hc). unfold indexHalf, halfG_point, row_major. cbn [v0 v1 v2 fst snd]. intros Hz i.
  destruct (outside a x) eqn:Ox; [split; [discriminate|]; intros ((X&_)&_); apply outside_false in X; auto; congruence|].
  destruct (outside b y) eqn:Oy; [split; [discriminate|]; intros ((_&X&_)&_); apply outside_false in X; auto; congruence|].
  apply outside_false in Ox; auto. apply outside_false in Oy; auto. destruct (Z.ltb_spec c (2 * z)); [split; [discriminate|]; intros; lia|].
  rewrite !wrap1_mod' by lia. rewrite (Z.mod_small z c) by lia. split.
  - intros E. injection E as <-. split; [lia|]. rewrite Z.mul_0_l, Z.add_0_l, (Z.add_comm 1). auto.
  - intros (_&->). rewrite Z.mul_0_l, Z.add_0_l, (Z.add_comm 1). auto.
Qed.
Lemma indexFull_spec S g : pos3 S -> forall i, indexFull S g = Some i <-> G_point S g /\ i = row_major S (v2 S) g.
Proof.
  destruct S as ((a,b),c), g as ((x,y),z). intros (Ha&Hb&Hc). unfold indexFull, G_point, row_major. cbn [v0 v1 v2 fst snd]. intros i.
  destruct (outside a x) eqn:Ox; [split; [discriminate|]; intros ((X&_)&_); apply outside_false in X; auto; congruence|].
  destruct (outside b y) eqn:Oy; [split; [discriminate|]; intros ((_&X&_)&_); apply outside_false in X; auto; congruence|].
  destruct (outside c z) eqn:Oz; [split; [discriminate|]; intros ((_&_&X)&_); apply outside_false in X; auto; congruence|].
  apply outside_false in Ox; auto. apply outside_false in Oy; auto. apply outside_false in Oz; auto. rewrite !wrap1_mod' by lia. split.
  - intros E. injection E as <-. split; [lia|]. auto.
  - intros (_&->). auto.
Qed.
Lemma Smax_pos S S' : pos3 S -> pos3 S' -> pos3 (Smax S S').
Proof. destruct S as ((a,b),c), S' as ((a',b'),c'). cbn. lia. Qed.
Lemma half_max S S' g : halfG_point S g -> halfG_point (Smax S S') g /\ halfG_point (Smax S' S) g.
Proof. destruct S as ((a,b),c), S' as ((a',b'),c'), g as ((x,y),z). cbn. lia. Qed.
Lemma G_max S S' g : G_point S g -> G_point (Smax S S') g /\ G_point (Smax S' S) g.
Proof. destruct S as ((a,b),c), S' as ((a',b'),c'), g as ((x,y),z). cbn. lia. Qed.
Lemma half_v2 S g : halfG_point S g -> 0 <= v2 g. Proof. destruct S as ((a,b),c), g as ((x,y),z). cbn. lia. Qed.
Lemma changeGrid_value nT Sin Sout inp r : pos3 Sin -> pos3 Sout -> 0 < nT -> changeGrid_run nT Sin Sout inp r ->
  forall g, halfG_point Sout g -> (halfG_point Sin g -> coefH Sout r g = coefH Sin inp g) /\ (~ halfG_point Sin g -> coefH Sout r g = RtoC 0).
Proof.
  intros HI HO HT (fuel&L&E&R) g G. apply half_covers in E; [|apply Smax_pos; auto|auto]. destruct E as (C1&C2). unfold coefH. rewrite !third_v2.
  assert (ST : forall p w, In p L -> In w (changeGrid_calc indexHalf Sin Sout inp p) -> halfG_point Sin (snd p) /\ halfG_point Sout (snd p) /\ w = (row_major Sout (v2 Sout / 2 + 1) (snd p), inp (row_major Sin (v2 Sin / 2 + 1) (snd p)))).
  { intros p w I J. destruct (C1 _ I) as (P&_&_). apply half_v2 in P. unfold changeGrid_calc in J.
    destruct (indexHalf Sin (snd p)) as [iin|] eqn:E1; [|destruct J]. destruct (indexHalf Sout (snd p)) as [iout|] eqn:E2; [|destruct J].
    apply indexHalf_spec in E1; auto. apply indexHalf_spec in E2; auto. destruct E1 as (?&->), E2 as (?&->). destruct J as [<-|[]]. auto. }
  split; intros GI; apply (launched_value _ _ _ _ _ _ R).
  - intros p w I J F. destruct (ST p w I J) as (P1&P2&->). cbn [fst snd] in *. apply half_row_inj in F; auto. rewrite F. auto.
  - right. destruct (half_max Sin Sout g GI) as (GM&_). destruct (C2 (row_major (Smax Sin Sout) (v2 (Smax Sin Sout) / 2 + 1) g)) as (p&I&P&Q); [apply half_row_range; auto; apply Smax_pos; auto|].
    apply half_row_inj in Q; auto; [|apply Smax_pos; auto]. subst p. eexists _, (row_major Sout (v2 Sout / 2 + 1) g, inp (row_major Sin (v2 Sin / 2 + 1) g)). split; [exact I|]. split; [|reflexivity].
    unfold changeGrid_calc. cbn [snd].
    rewrite (proj2 (indexHalf_spec Sin g HI (half_v2 _ _ G) _) (conj GI eq_refl)), (proj2 (indexHalf_spec Sout g HO (half_v2 _ _ G) _) (conj G eq_refl)). left. auto.
  - intros p w I J F. destruct (ST p w I J) as (P1&P2&->). cbn [fst snd] in *. apply half_row_inj in F; auto. subst g. tauto.
  - left. auto.
Qed.
Lemma changeGridFull_value nT Sin Sout inp r : pos3 Sin -> pos3 Sout -> 0 < nT -> nT <= nr (Smax Sin Sout) -> changeGridFull_run nT Sin Sout inp r ->
  forall g, G_point Sout g -> (G_point Sin g -> coefF Sout r g = coefF Sin inp g) /\ (~ G_point Sin g -> coefF Sout r g = RtoC 0).
Proof.
  intros HI HO HT HN (fuel&L&E&R) g G. apply full_covers in E; [|apply Smax_pos; auto|auto|auto]. destruct E as (C1&C2). unfold coefF. rewrite !third_v2.
  assert (ST : forall p w, In p L -> In w (changeGrid_calc indexFull Sin Sout inp p) -> G_point Sin (snd p) /\ G_point Sout (snd p) /\ w = (row_major Sout (v2 Sout) (snd p), inp (row_major Sin (v2 Sin) (snd p)))).
  { intros p w I J. destruct (C1 _ I) as (P&_&_). unfold changeGrid_calc in J.
    destruct (indexFull Sin (snd p)) as [iin|] eqn:E1; [|destruct J]. destruct (indexFull Sout (snd p)) as [iout|] eqn:E2; [|destruct J].
    apply indexFull_spec in E1; auto. apply indexFull_spec in E2; auto. destruct E1 as (?&->), E2 as (?&->). destruct J as [<-|[]]. auto. }
  split; intros GI; apply (launched_value _ _ _ _ _ _ R).
  - intros p w I J F. destruct (ST p w I J) as (P1&P2&->). cbn [fst snd] in *. apply full_row_inj in F; auto. rewrite F. auto.
  - right. destruct (G_max Sin Sout g GI) as (GM&_). destruct (C2 (row_major (Smax Sin Sout) (v2 (Smax Sin Sout)) g)) as (p&I&P&Q); [apply full_row_range; auto; apply Smax_pos; auto|].
    apply full_row_inj in Q; auto; [|apply Smax_pos; auto]. subst p. eexists _, (row_major Sout (v2 Sout) g, inp (row_major Sin (v2 Sin) g)). split; [exact I|]. split; [|reflexivity].
    unfold changeGrid_calc. cbn [snd].
    rewrite (proj2 (indexFull_spec Sin g HI _) (conj GI eq_refl)), (proj2 (indexFull_spec Sout g HO _) (conj G eq_refl)). left. auto.
  - intros p w I J F. destruct (ST p w I J) as (P1&P2&->). cbn [fst snd] in *. apply full_row_inj in F; auto. subst g. tauto.
  - left. auto.
Qed.
Definition le3 (S S' : V3) : Prop := v0 S <= v0 S' /\ v1 S <= v1 S' /\ v2 S <= v2 S'.
Lemma half_le S S' g : le3 S S' -> halfG_point S g -> halfG_point S' g.
Proof. destruct S as ((a,b),c), S' as ((a',b'),c'), g as ((x,y),z). unfold le3. cbn. lia. Qed.
Lemma G_le S S' g : le3 S S' -> G_point S g -> G_point S' g.
Proof. destruct S as ((a,b),c), S' as ((a',b'),c'), g as ((x,y),z). unfold le3. cbn. lia. Qed.
Lemma up_down nT S S' inp up down : pos3 S -> pos3 S' -> 0 < nT -> le3 S S' -> changeGrid_run nT S S' inp up -> changeGrid_run nT S' S up down ->
  forall i, 0 <= i < nG S -> down i = inp i.
Proof.
  intros H H' HT HL U D i Hi. destruct (halfG_init_spec S i H Hi) as (G&E). rewrite <- E.
  pose proof (half_le _ _ _ HL G) as G'. pose proof (proj1 (changeGrid_value _ _ _ _ _ H' H HT D _ G) G') as A. pose proof (proj1 (changeGrid_value _ _ _ _ _ H H' HT U _ G') G) as B.
  rewrite B in A. unfold coefH in A. rewrite third_v2 in A. exact A.
Qed.
Lemma up_down_full nT S S' inp up down : pos3 S -> pos3 S' -> 0 < nT -> nT <= nr S -> le3 S S' -> changeGridFull_run nT S S' inp up -> changeGridFull_run nT S' S up down ->
  forall i, 0 <= i < nr S -> down i = inp i.
Proof.
  intros H H' HT HN HL U D i Hi. destruct (fullG_init_spec S i H Hi) as (G&E). rewrite <- E.
  assert (M : nr S <= nr (Smax S S') /\ nr S <= nr (Smax S' S)).
  { destruct S as ((a,b),c), S' as ((a',b'),c'). destruct H as (Ha&Hb&Hc). unfold nr, Smax, le3 in *. cbn [v0 v1 v2 fst snd] in *. assert (a * b <= a' * b') by nia. rewrite (Z.max_r a a'), (Z.max_r b b'), (Z.max_r c c'), (Z.max_l a' a), (Z.max_l b' b), (Z.max_l c' c) by lia. nia. }
  pose proof (G_le _ _ _ HL G) as G'. assert (N1 : nT <= nr (Smax S' S)) by lia. assert (N2 : nT <= nr (Smax S S')) by lia.
  pose proof (proj1 (changeGridFull_value _ _ _ _ _ H' H HT N1 D _ G) G') as A. pose proof (proj1 (changeGridFull_value _ _ _ _ _ H H' HT N2 U _ G') G) as B.
  rewrite B in A. unfold coefF in A. rewrite third_v2 in A. exact A.
Qed.
(** Hermitian symmetry under a change of grid *)
Lemma opp_dim a x x' : 0 < a -> - a < 2 * x <= a -> - a < 2 * x' <= a -> x' mod a = (- x) mod a -> x' = - x \/ (2 * x = a /\ x' = x).
Proof.
  intros H B B' E. destruct (Z.eq_dec (2 * x) a) as [N|N].
  - right. split; auto. apply (mod_inj_range a); auto. rewrite E. replace (- x) with (x + (-1) * a) by lia. apply Z.mod_add. lia.
  - left. apply (mod_inj_range a); auto. lia.
Qed.
Lemma no_split_dec S S' g : no_split S S' g \/ ~ no_split S S' g.
Proof.
  destruct S as ((a,b),c), S' as ((a',b'),c'), g as ((x,y),z). cbn.
  destruct (Z.eq_dec a a'), (Z.eq_dec b b'), (Z.eq_dec c c'), (Z.eq_dec (2 * x) (Z.min a a')), (Z.eq_dec (2 * y) (Z.min b b')), (Z.eq_dec (2 * z) (Z.min c c')); tauto.
Qed.
Lemma half_dec S g : halfG_point S g \/ ~ halfG_point S g.
Proof. destruct S as ((a,b),c), g as ((x,y),z). cbn. lia. Qed.
Lemma split_pair S S' g g' : pos3 S -> pos3 S' -> halfG_point S g -> halfG_point S' g -> halfG_point S' g' -> same_mod S' g' (neg3 g) ->
  (no_split S S' g -> halfG_point S g' /\ same_mod S g' (neg3 g)) /\ (~ no_split S S' g -> halfG_point S g' -> ~ no_split S S' g').
Proof.
  destruct S as ((a,b),c), S' as ((a',b'),c'), g as ((x,y),z), g' as ((x',y'),z'). cbn. intros (Ha&Hb&Hc) (Ha'&Hb'&Hc') (Gx&Gy&Gz) (Hx&Hy&Hz) (Hx'&Hy'&Hz') (Ex&Ey&Ez).
  apply opp_dim in Ex; [|lia..]. apply opp_dim in Ey; [|lia..]. apply opp_dim in Ez; [|lia..]. split.
  - intros (Nx&Ny&Nz).
    assert (X : - a < 2 * x' <= a /\ x' mod a = (- x) mod a).
    { destruct (Z.eq_dec a a') as [<-|D]; [split; auto; destruct Ex as [->|(E&->)]; auto; replace (- x) with (x + (-1) * a) by lia; rewrite Z.mod_add by lia; auto|].
      specialize (Nx D). destruct Ex as [->|(E&->)]; [split; auto; lia|lia]. }
    assert (Y : - b < 2 * y' <= b /\ y' mod b = (- y) mod b).
    { destruct (Z.eq_dec b b') as [<-|D]; [split; auto; destruct Ey as [->|(E&->)]; auto; replace (- y) with (y + (-1) * b) by lia; rewrite Z.mod_add by lia; auto|].
      specialize (Ny D). destruct Ey as [->|(E&->)]; [split; auto; lia|lia]. }
    assert (Z : 0 <= 2 * z' <= c /\ z' mod c = (- z) mod c).
    { destruct (Z.eq_dec c c') as [<-|D]; [split; auto; destruct Ez as [->|(E&->)]; auto; replace (- z) with (z + (-1) * c) by lia; rewrite Z.mod_add by lia; auto|].
      specialize (Nz D). destruct Ez as [->|(E&->)]; [split; auto; lia|lia]. }
    intuition.
  - intros N (Gx'&Gy'&Gz') (Nx&Ny&Nz). apply N. split; [|split].
    + intros D E. specialize (Nx D). destruct Ex as [->|(E'&->)]; lia.
    + intros D E. specialize (Ny D). destruct Ey as [->|(E'&->)]; lia.
    + intros D E. specialize (Nz D). destruct Ez as [->|(E'&->)]; lia.
Qed.
Lemma changeGrid_hermitian nT Sin Sout inp r : pos3 Sin -> pos3 Sout -> 0 < nT -> changeGrid_run nT Sin Sout inp r -> hermitian_half Sin inp ->
  (forall g, halfG_point Sin g -> halfG_point Sout g -> ~ no_split Sin Sout g -> coefH Sin inp g = RtoC 0) -> hermitian_half Sout r.
Proof.
  intros HI HO HT R HH HZ. pose proof (changeGrid_value _ _ _ _ _ HI HO HT R) as V. clear R.
  assert (C0 : Cconj (RtoC 0) = RtoC 0) by (unfold Cconj, RtoC; cbn; f_equal; ring).
  assert (K : forall g g', halfG_point Sout g -> halfG_point Sout g' -> same_mod Sout g' (neg3 g) -> halfG_point Sin g -> coefH Sout r g' = Cconj (coefH Sout r g)).
  { intros g g' G G' E I. destruct (V g G) as (V1&_), (V g' G') as (V1'&V2'). rewrite (V1 I). destruct (split_pair _ _ _ _ HI HO I G G' E) as (A&B).
    destruct (no_split_dec Sin Sout g) as [N|N].
    - destruct (A N) as (I'&E'). rewrite (V1' I'). apply HH; auto.
    - rewrite (HZ g I G N), C0. destruct (half_dec Sin g') as [I'|I']; [|apply V2'; auto]. rewrite (V1' I'). apply HZ; auto. }
  intros g g' G G' E. destruct (half_dec Sin g) as [I|I]; [apply K; auto|]. destruct (half_dec Sin g') as [I'|I'].
  - assert (E2 : same_mod Sout g (neg3 g')). { apply same_neg in E; auto. rewrite neg_neg in E. apply same_sym. auto. }
    rewrite (K g' g G' G E2 I'). rewrite Cconj_conj. auto.
  - rewrite (proj2 (V g G) I), (proj2 (V g' G') I'), C0. auto.
Qed.
Lemma changeGrid_exists nT Sin Sout inp : pos3 Sin -> pos3 Sout -> 0 < nT -> exists r, changeGrid_run nT Sin Sout inp r.
Proof.
  intros HI HO HT. pose proof (Smax_pos _ _ HI HO) as HM. destruct (halfG_all_threads (Smax Sin Sout) nT (Z.to_nat (nG (Smax Sin Sout)) + 1)%nat HM HT) as (L&E&_); [pose proof (nG_pos _ HM); lia|].
  eexists. exists (Z.to_nat (nG (Smax Sin Sout)) + 1)%nat, L. split; [exact E|]. eexists. split; [apply Permutation_refl|reflexivity].
Qed.
Lemma half_runs_exist nT S s v : pos3 S -> 0 < nT -> (exists r, Real_run nT S s v r) /\ (exists r, Imag_run nT S s v r) /\ (exists r, Complex_run nT S s v r).
Proof.
  intros H HT. destruct (halfG_all_threads S nT (Z.to_nat (nG S) + 1)%nat H HT) as (L&E&_); [pose proof (nG_pos _ H); lia|].
  refine (conj _ (conj _ _)); eexists; exists (Z.to_nat (nG S) + 1)%nat, L, zeroArray; (split; [exact E|]); eexists; (split; [apply Permutation_refl|reflexivity]).
Qed.
Lemma up_not_hermitian : exists nT Sin Sout inp r, pos3 Sin /\ pos3 Sout /\ 0 < nT /\ le3 Sin Sout /\ hermitian_half Sin inp /\ changeGrid_run nT Sin Sout inp r /\ ~ hermitian_half Sout r.
Proof.
  set (inp := fun i => if i =? 2 then RtoC 1 else RtoC 0). destruct (changeGrid_exists 1 (4,1,1) (6,1,1) inp) as (r&R); [cbn; lia|cbn; lia|lia|].
  exists 1, (4,1,1), (6,1,1), inp, r. assert (P : pos3 (4,1,1)) by (cbn; lia). assert (P' : pos3 (6,1,1)) by (cbn; lia). split; auto. split; auto. split; [lia|]. split; [unfold le3; cbn; lia|]. split.
  - intros ((x,y),z) ((x',y'),z') (Hx&Hy&Hz) (Hx'&Hy'&Hz') (Ex&Ey&Ez). unfold coefH, row_major. replace y with 0 by lia. replace z with 0 by lia. replace y' with 0 by lia. replace z' with 0 by lia.
    cbn [third]. rewrite Ex. assert (X : x = -1 \/ x = 0 \/ x = 1 \/ x = 2) by lia. destruct X as [->|[->|[->| ->]]]; repeat match goal with |- context [inp ?e] => let v := eval vm_compute in e in let w := eval cbv -[RtoC Ci Cconj] in (inp v) in change (inp e) with w end; unfold Cconj, RtoC, Ci; cbn [fst snd]; f_equal; lra.
  - split; auto. intros HH. pose proof (changeGrid_value 1 _ _ _ _ P P' eq_refl R) as V.
    assert (A : coefH (6,1,1) r (2,0,0) = coefH (4,1,1) inp (2,0,0)) by (apply V; cbn; lia).
    assert (B : coefH (6,1,1) r (-2,0,0) = RtoC 0) by (apply V; cbn; lia).
    rewrite (HH (2,0,0) (-2,0,0)) in B; [|cbn; lia|cbn; lia|cbn; auto]. rewrite A in B. change (coefH (4,1,1) inp (2,0,0)) with (RtoC 1) in B. unfold Cconj, RtoC in B. cbn [fst snd] in B. injection B. lra.
Qed.
Lemma down_not_hermitian : exists nT Sin Sout inp r, pos3 Sin /\ pos3 Sout /\ 0 < nT /\ le3 Sout Sin /\ hermitian_half Sin inp /\ changeGrid_run nT Sin Sout inp r /\ ~ hermitian_half Sout r.
Proof.
  set (inp := fun i => if i =? 2 then Ci else if i =? 4 then Cconj Ci else RtoC 0). destruct (changeGrid_exists 1 (6,1,1) (4,1,1) inp) as (r&R); [cbn; lia|cbn; lia|lia|].
  exists 1, (6,1,1), (4,1,1), inp, r. assert (P : pos3 (4,1,1)) by (cbn; lia). assert (P' : pos3 (6,1,1)) by (cbn; lia). split; auto. split; auto. split; [lia|]. split; [unfold le3; cbn; lia|]. split.
  - intros ((x,y),z) ((x',y'),z') (Hx&Hy&Hz) (Hx'&Hy'&Hz') (Ex&Ey&Ez). unfold coefH, row_major. replace y with 0 by lia. replace z with 0 by lia. replace y' with 0 by lia. replace z' with 0 by lia.
    cbn [third]. rewrite Ex. assert (X : x = -2 \/ x = -1 \/ x = 0 \/ x = 1 \/ x = 2 \/ x = 3) by lia. destruct X as [->|[->|[->|[->|[->| ->]]]]]; repeat match goal with |- context [inp ?e] => let v := eval vm_compute in e in let w := eval cbv -[RtoC Ci Cconj] in (inp v) in change (inp e) with w end; unfold Cconj, RtoC, Ci; cbn [fst snd]; f_equal; lra.
  - split; auto. intros HH. pose proof (changeGrid_value 1 _ _ _ _ P' P eq_refl R) as V.
    assert (A : coefH (4,1,1) r (2,0,0) = coefH (6,1,1) inp (2,0,0)) by (apply V; cbn; lia).
    pose proof (HH (2,0,0) (2,0,0)) as B. rewrite A in B. change (coefH (6,1,1) inp (2,0,0)) with Ci in B. unfold Cconj, Ci in B. cbn in B.
    assert (X : (0%R,1%R) = (0%R,(-1)%R)) by (apply B; [lia|lia|auto]). injection X. lra.
Qed.
