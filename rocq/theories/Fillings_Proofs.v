(** Proofs about initial fillings. *)
From Coq Require Import Reals List ZArith Bool Lra Lia Permutation.
From Verif Require Import Fillings_Model Fillings_Spec.
Import ListNotations.
Open Scope R_scope.

Lemma sumR_acc {A} (f : A -> R) l : forall a, fold_left (fun acc x => acc + f x) l a = a + total (map f l).
Proof. induction l as [|x l IH]; intros a; cbn; [lra|]. rewrite IH. lra. Qed.
Lemma sumR_total {A} (f : A -> R) l : sumR f l = total (map f l).
Proof. unfold sumR. rewrite sumR_acc. lra. Qed.
Lemma total_app a b : total (a ++ b) = total a + total b.
Proof. induction a as [|x a IH]; cbn; [lra|rewrite IH; lra]. Qed.
Lemma total_rev a : total (rev a) = total a.
Proof. induction a as [|x a IH]; cbn; [lra|]. rewrite total_app, IH. cbn. lra. Qed.
Lemma total_repeat0 n : total (repeat 0 n) = 0.
Proof. induction n; cbn; lra. Qed.

(** ** lowest bands *)
Lemma fill_zero n f : f <= 0 -> fillLowest n f = repeat 0 n.
Proof.
  revert f. induction n as [|n IH]; intros f Hf; cbn; auto. destruct (Rlt_dec 1 f); [lra|]. destruct (Rlt_dec 0 f); [lra|]. f_equal. apply IH. lra.
Qed.
Lemma fill_length n f : length (fillLowest n f) = n.
Proof.
  revert f; induction n as [|n IH]; intros f; cbn; auto. destruct (Rlt_dec 1 f); cbn; auto. destruct (Rlt_dec 0 f); cbn; auto. rewrite repeat_length. auto.
Qed.
Lemma fill_range n f : Forall (fun x => 0 <= x <= 1) (fillLowest n f).
Proof.
  revert f; induction n as [|n IH]; intros f; cbn; [constructor|]. destruct (Rlt_dec 1 f); [constructor; [lra|auto]|]. destruct (Rlt_dec 0 f); [|constructor; [lra|auto]].
  constructor; [lra|]. apply Forall_forall. intros x Hx. apply repeat_spec in Hx. lra.
Qed.
Lemma fill_total n f : 0 <= f <= INR n -> total (fillLowest n f) = f.
Proof.
  revert f; induction n as [|n IH]; intros f Hf; [cbn in *; lra|]. rewrite S_INR in Hf. cbn [fillLowest]. destruct (Rlt_dec 1 f).
  - cbn [total]. rewrite IH; lra.
  - destruct (Rlt_dec 0 f); cbn [total]; [rewrite total_repeat0; lra|]. rewrite fill_zero by lra. rewrite total_repeat0. lra.
Qed.
Lemma fill_total_min n f : 0 <= f -> total (fillLowest n f) = Rmin f (INR n).
Proof.
  revert f; induction n as [|n IH]; intros f Hf.
  - cbn. rewrite Rmin_right; lra.
  - rewrite S_INR. cbn [fillLowest]. destruct (Rlt_dec 1 f).
    + cbn [total]. rewrite IH by lra. unfold Rmin. destruct (Rle_dec _ _), (Rle_dec _ _); lra.
    + assert (P := pos_INR n). rewrite Rmin_left by lra. destruct (Rlt_dec 0 f); cbn [total]; [rewrite total_repeat0; lra|]. rewrite fill_zero by lra. rewrite total_repeat0. lra.
Qed.
Lemma fill_aufbau n f : 0 <= f <= INR n -> aufbau (fillLowest n f) f.
Proof.
  intros Hf. assert (T := fill_total n f Hf). unfold aufbau. 
  assert (H : exists full part, fillLowest n f = repeat 1 full ++ part /\ (part = [] \/ exists x m, part = x :: repeat 0 m /\ 0 <= x <= 1)).
  { clear T. revert f Hf. induction n as [|n IH]; intros f Hf; [exists 0%nat, []; cbn; auto|]. rewrite S_INR in Hf. cbn [fillLowest]. destruct (Rlt_dec 1 f).
    - destruct (IH (f - 1) ltac:(lra)) as (k&p&E&H). exists (S k), p. cbn. rewrite E. auto.
    - destruct (Rlt_dec 0 f).
      + exists 0%nat, (f :: repeat 0 n). cbn. split; auto. right. exists f, n. split; auto. lra.
      + exists 0%nat, (0 :: repeat 0 n). cbn. rewrite fill_zero by lra. split; auto. right. exists 0, n. split; auto. lra. }
  destruct H as (k&p&E&H). exists k, p. auto.
Qed.

(** ** integers *)
Lemma zceil_ge x : x <= IZR (zceil x).
Proof. unfold zceil, zfloor. destruct (archimed (-x)) as (A&B). rewrite opp_IZR, minus_IZR. lra. Qed.
Lemma zceil_le x k : x <= IZR k -> (zceil x <= k)%Z.
Proof.
  intros H. unfold zceil, zfloor. destruct (archimed (-x)) as (A&B). assert (IZR (-k) < IZR (up (-x))) by (rewrite opp_IZR; lra). apply lt_IZR in H0. lia.
Qed.

(** ** fillings read from a file *)
Lemma deplete_total F : forall q F' q', 0 < q -> depleteLoop F q = (F', q') -> 0 <= q' /\ total F' - q' = total F - q /\ length F' = length F.
Proof.
  induction F as [|f F IH]; intros q F' q' Hq H; cbn in H.
  - inversion H; subst. cbn. repeat split; lra.
  - destruct (Rlt_dec f q).
    + destruct (depleteLoop F (q - f)) as [rr q1] eqn:E. inversion H; subst. apply IH in E; [|lra]. destruct E as (E1&E2&E3). cbn. repeat split; auto; lra.
    + inversion H; subst. cbn. repeat split; auto; lra.
Qed.
Lemma saturate_total F : forall q F' q', 0 < q -> saturateLoop F q = (F', q') -> 0 <= q' /\ total F' + q' = total F + q /\ length F' = length F.
Proof.
  induction F as [|f F IH]; intros q F' q' Hq H; cbn in H.
  - inversion H; subst. cbn. repeat split; lra.
  - destruct (Rlt_dec 1 (f + q)).
    + destruct (saturateLoop F (q - (1 - f))) as [rr q1] eqn:E. inversion H; subst. apply IH in E; [|lra]. destruct E as (E1&E2&E3). cbn. repeat split; auto; lra.
    + inversion H; subst. cbn. repeat split; auto; lra.
Qed.
Definition inRange (f : R) : Prop := fMin <= f <= fMax.
Lemma deplete_range F : forall q F' q', 0 < q -> Forall inRange F -> depleteLoop F q = (F', q') -> Forall inRange F'.
Proof.
  induction F as [|f F IH]; intros q F' q' Hq HF H; cbn in H; [inversion H; constructor|]. inversion HF as [|? ? Hf HF']; subst. destruct (Rlt_dec f q).
  - destruct (depleteLoop F (q - f)) as [rr q1] eqn:E. inversion H; subst. constructor; [unfold inRange, fMin, fMax; lra|]. eapply IH; [| |exact E]; auto; lra.
  - inversion H; subst. constructor; auto. unfold inRange, fMin, fMax in *. lra.
Qed.
Lemma saturate_range F : forall q F' q', 0 < q -> Forall inRange F -> saturateLoop F q = (F', q') -> Forall inRange F'.
Proof.
  induction F as [|f F IH]; intros q F' q' Hq HF H; cbn in H; [inversion H; constructor|]. inversion HF as [|? ? Hf HF']; subst. destruct (Rlt_dec 1 (f + q)).
  - destruct (saturateLoop F (q - (1 - f))) as [rr q1] eqn:E. inversion H; subst. constructor; [unfold inRange, fMin, fMax; lra|]. eapply IH; [| |exact E]; auto; lra.
  - inversion H; subst. constructor; auto. unfold inRange, fMin, fMax in *. lra.
Qed.
Lemma resize_total n F : total (resize n F) = total (firstn n F).
Proof. unfold resize. rewrite total_app, total_repeat0. lra. Qed.
Lemma resize_length n F : length (resize n F) = n.
Proof. unfold resize. rewrite app_length, firstn_length, repeat_length. lia. Qed.
Lemma total_split n F : total F = total (firstn n F) + total (skipn n F).
Proof. rewrite <- total_app, firstn_skipn. reflexivity. Qed.
Lemma read_ok wInv nBands Fin F : readFillings wInv nBands Fin = Some F ->
  length F = nBands /\ total F = wInv * total Fin /\ Forall inRange F.
Proof.
  unfold readFillings. set (G := map (fun f => f * wInv) Fin). destruct (existsb _ G) eqn:Ex; [discriminate|].
  assert (RG : Forall inRange G).
  { apply Forall_forall. intros f Hf. unfold inRange. destruct (Rlt_dec f fMin) as [L|L]; [exfalso|destruct (Rlt_dec fMax f) as [L2|L2]; [exfalso|lra]].
    - assert (existsb (fun f => if Rlt_dec f fMin then true else if Rlt_dec fMax f then true else false) G = true); [|congruence].
      apply existsb_exists. exists f. split; auto. destruct (Rlt_dec f fMin); auto; contradiction.
    - assert (existsb (fun f => if Rlt_dec f fMin then true else if Rlt_dec fMax f then true else false) G = true); [|congruence].
      apply existsb_exists. exists f. split; auto. destruct (Rlt_dec f fMin); auto. destruct (Rlt_dec fMax f); auto; contradiction. }
  assert (TG : total G = wInv * total Fin). { unfold G. clear. induction Fin as [|x l IH]; cbn; [lra|rewrite IH; lra]. }
  assert (RR : Forall inRange (resize nBands G)).
  { unfold resize. apply Forall_app. split.
    - rewrite <- (firstn_skipn nBands G) in RG. apply Forall_app in RG. tauto.
    - apply Forall_forall. intros x Hx. apply repeat_spec in Hx. subst. unfold inRange, fMin, fMax. lra. }
  rewrite sumR_total, map_id. assert (S := total_split nBands G). rewrite <- resize_total in S.
  destruct (Rlt_dec _ 0) as [L|L].
  - destruct (depleteLoop _ _) as [F2 q] eqn:E. destruct (Rlt_dec 0 q); [discriminate|]. intros H; inversion H; subst F; clear H.
    assert (E2 := E). apply deplete_total in E; [|lra]. destruct E as (E0&E1&E3). rewrite total_rev in *. rewrite !rev_length in *. rewrite resize_length in E3.
    split; [auto|]. split; [lra|]. apply Forall_rev. eapply deplete_range; [| |exact E2]; [lra|apply Forall_rev; auto].
  - destruct (Rlt_dec 0 _) as [L2|L2].
    + destruct (saturateLoop _ _) as [F2 q] eqn:E. destruct (Rlt_dec 0 q); [discriminate|]. intros H; inversion H; subst F; clear H.
      assert (E2 := E). apply saturate_total in E; [|lra]. destruct E as (E0&E1&E3). rewrite resize_length in E3.
      split; [auto|]. split; [lra|]. eapply saturate_range; [| |exact E2]; [lra|auto].
    + intros H; inversion H; subst F; clear H. split; [apply resize_length|]. split; [lra|auto].
Qed.

(** ** the whole set-up *)
Definition channelWeight (s : nat) (qs : list qnum) : R := total (map q_weight (filter (fun q => Nat.eqb (index q) s) qs)).
Lemma electrons_const ws (g : qnum -> list R) qs : ws = map q_weight qs -> electrons ws (map g qs) = total (map (fun q => q_weight q * total (g q)) qs).
Proof. intros ->. unfold electrons. induction qs as [|q qs IH]; cbn; [auto|rewrite IH; auto]. Qed.
Lemma by_channel (h : nat -> R) qs : (forall q, In q qs -> (index q < 2)%nat) ->
  total (map (fun q => q_weight q * h (index q)) qs) = channelWeight 0 qs * h 0%nat + channelWeight 1 qs * h 1%nat.
Proof.
  intros H. unfold channelWeight. induction qs as [|q qs IH]; cbn [map filter total]; [cbn; lra|]. rewrite IH by (intros; apply H; right; auto).
  specialize (H q (or_introl eq_refl)). destruct (index q) as [|[|k]]; cbn [Nat.eqb map total]; try lra. lia.
Qed.
Lemma index_lt2 q : (index q < 2)%nat. Proof. unfold index. destruct (q_spin q <? 0)%Z; lia. Qed.

Lemma channels st Q M sp : map (nsElectrons st Q M sp) (seq 0 (nSpins st)) =
  match st with SpinZ => [nsElectrons st Q M sp 0; nsElectrons st Q M sp 1] | _ => [nsElectrons st Q M sp 0] end.
Proof. destruct st; reflexivity. Qed.
Lemma no_neg ns : existsb (fun x => if Rlt_dec x 0 then true else false) ns = false -> Forall (fun x => 0 <= x) ns.
Proof.
  intros H. apply Forall_forall. intros x Hx. destruct (Rlt_dec x 0) as [L|L]; [|lra]. exfalso.
  assert (existsb (fun x => if Rlt_dec x 0 then true else false) ns = true); [|congruence]. apply existsb_exists. exists x. split; auto. destruct (Rlt_dec x 0); auto.
Qed.
Lemma chosen_ge st fu ns mult nAt : Forall (fun x => 0 <= x) ns -> Forall (fun x => x * (1 / spinWeight st) <= IZR (chooseBands st fu ns mult nAt 0)) ns.
Proof.
  intros Hn. unfold chooseBands. rewrite Z.eqb_refl. set (nsMax := fold_left Rmax (tl ns) (hd 0 ns)).
  assert (HM : Forall (fun x => x <= nsMax) ns).
  { unfold nsMax. destruct ns as [|a ns]; [constructor|]. cbn [tl hd]. clear. revert a. induction ns as [|b ns IH]; intros a; cbn.
    - constructor; [lra|constructor].
    - specialize (IH (Rmax a b)). inversion IH as [|? ? H1 H2]; subst. assert (A := Rmax_l a b). assert (B := Rmax_r a b). constructor; [lra|constructor; [lra|auto]]. }
  set (m := Z.max 1 (zceil (nsMax * (1 / spinWeight st)))).
  assert (Hw : 0 < 1 / spinWeight st) by (destruct st; unfold spinWeight; lra).
  assert (Hm : nsMax * (1 / spinWeight st) <= IZR m). { eapply Rle_trans; [apply zceil_ge|]. apply IZR_le. unfold m. lia. }
  assert (G : IZR m <= IZR (match fu with FillingsConst => Z.max m (zround (IZR m * mult)) | FillingsHsub => Z.max (m + 1) (zround (IZR nAt * mult)) end)).
  { apply IZR_le. destruct fu; lia. }
  apply Forall_forall. intros x Hx. rewrite Forall_forall in HM. specialize (HM x Hx). eapply Rle_trans; [|exact G]. eapply Rle_trans; [|exact Hm]. nra.
Qed.
Lemma bands_nonneg st fu ns mult nAt nB : (0 <= nB)%Z -> (0 <= chooseBands st fu ns mult nAt nB)%Z.
Proof. intros H. unfold chooseBands. destruct (nB =? 0)%Z; auto. destruct fu; lia. Qed.

(** calculated fillings *)
Lemma setup_calc st fu Q M sp mult nAt nB qs nEl nBands F : (0 <= nB)%Z ->
  (forall s, (s < nSpins st)%nat -> channelWeight s qs = spinWeight st) -> (st <> SpinZ -> channelWeight 1 qs = 0) ->
  (nB = 0%Z \/ forall s, (s < nSpins st)%nat -> nsElectrons st Q M sp s / spinWeight st <= IZR nB) ->
  setup st fu Q M sp mult nAt nB qs None = Some (nEl, nBands, F) ->
  nEl = total (map (nsElectrons st Q M sp) (seq 0 (nSpins st))) /\
  electrons (map q_weight qs) F = nEl /\ length F = length qs /\
  Forall (fun Fq => length Fq = Z.to_nat nBands /\ Forall (fun x => 0 <= x <= 1) Fq) F.
Proof.
  intros HnB HW HW1 HB H. unfold setup in H. set (ns := map (nsElectrons st Q M sp) (seq 0 (nSpins st))) in *.
  destruct (existsb _ ns) eqn:Ex; [discriminate|]. apply no_neg in Ex. set (nb := chooseBands st fu ns mult nAt nB) in *.
  set (w := 1 / spinWeight st) in *. set (F0 := map (fun q => fillLowest (Z.to_nat nb) (nth (index q) ns 0 * w)) qs) in *.
  assert (HR : (nEl, nBands, F) = (sumR (fun x => x) ns, nb, F0)).
  { destruct fu; [destruct (nb <? _)%Z; [discriminate|]|destruct (Rle_dec _ _); [discriminate|]]; congruence. }
  inversion HR; subst nEl nBands F. clear H HR. rewrite sumR_total, map_id.
  assert (Hnb : (0 <= nb)%Z) by (apply bands_nonneg; auto).
  assert (Hle : Forall (fun x => x * w <= IZR nb) ns).
  { destruct (Z.eq_dec nB 0) as [->|Hne]; [apply chosen_ge; auto|]. destruct HB as [HB|HB]; [contradiction|].
    unfold nb, chooseBands. destruct (nB =? 0)%Z eqn:E; [apply Z.eqb_eq in E; contradiction|]. apply Forall_forall. intros x Hx. apply in_map_iff in Hx.
    destruct Hx as (s&<-&Hs). apply in_seq in Hs. specialize (HB s ltac:(lia)). unfold w. unfold Rdiv in *. lra. }
  assert (Hw : 0 < w) by (unfold w; destruct st; unfold spinWeight; lra). assert (Hw1 : spinWeight st * w = 1) by (unfold w; destruct st; unfold spinWeight; lra).
  assert (FT : forall s, total (fillLowest (Z.to_nat nb) (nth s ns 0 * w)) = nth s ns 0 * w).
  { intros s. apply fill_total. rewrite INR_IZR_INZ, Z2Nat.id by auto. destruct (Nat.lt_ge_cases s (length ns)) as [L|L].
    - assert (I := nth_In ns 0 L). rewrite Forall_forall in Ex, Hle. specialize (Ex _ I). specialize (Hle _ I). split; [nra|auto].
    - rewrite nth_overflow by auto. assert (0 <= IZR nb) by (apply IZR_le; auto). lra. }
  split; [auto|]. split; [|split].
  - unfold F0. rewrite (electrons_const _ (fun q => fillLowest (Z.to_nat nb) (nth (index q) ns 0 * w))) by auto.
    rewrite (map_ext _ (fun q => q_weight q * (fun s => nth s ns 0 * w) (index q))) by (intros q; rewrite FT; auto).
    rewrite (by_channel (fun s => nth s ns 0 * w)) by (intros; apply index_lt2). destruct st.
    + rewrite (HW 0%nat) by (cbn; lia). rewrite HW1 by discriminate. unfold ns, w, spinWeight. cbn [nSpins seq map nth total]. lra.
    + rewrite (HW 0%nat), (HW 1%nat) by (cbn; lia). unfold ns, w, spinWeight. cbn [nSpins seq map nth total]. lra.
    + rewrite (HW 0%nat) by (cbn; lia). rewrite HW1 by discriminate. unfold ns, w, spinWeight. cbn [nSpins seq map nth total]. lra.
    + rewrite (HW 0%nat) by (cbn; lia). rewrite HW1 by discriminate. unfold ns, w, spinWeight. cbn [nSpins seq map nth total]. lra.
  - apply map_length.
  - apply Forall_forall. intros Fq Hq. apply in_map_iff in Hq. destruct Hq as (q&<-&_). split; [apply fill_length|apply fill_range].
Qed.
(** the set-up succeeds when the number of bands is left to the code *)
Lemma setup_auto st fu Q M sp mult nAt qs : (forall s, (s < nSpins st)%nat -> 0 <= nsElectrons st Q M sp s) ->
  exists r, setup st fu Q M sp mult nAt 0 qs None = Some r.
Proof.
  intros HN. unfold setup. set (ns := map (nsElectrons st Q M sp) (seq 0 (nSpins st))).
  assert (P : Forall (fun x => 0 <= x) ns). { apply Forall_forall. intros x Hx. apply in_map_iff in Hx. destruct Hx as (s&<-&Hs). apply in_seq in Hs. apply HN. lia. }
  destruct (existsb _ ns) eqn:Ex.
  - apply existsb_exists in Ex. destruct Ex as (x&Hx&E). rewrite Forall_forall in P. specialize (P x Hx). destruct (Rlt_dec x 0); [lra|discriminate].
  - set (nb := chooseBands st fu ns mult nAt 0). assert (C := chosen_ge st fu ns mult nAt P). fold nb in C. rewrite sumR_total, map_id.
    assert (Hw : 0 < spinWeight st) by (destruct st; unfold spinWeight; lra).
    assert (L : total ns <= IZR nb * (INR (nSpins st) * spinWeight st)).
    { assert (C' : Forall (fun x => x <= IZR nb * spinWeight st) ns).
      { apply Forall_forall. intros x Hx. rewrite Forall_forall in C. specialize (C x Hx). apply Rmult_le_compat_r with (r := spinWeight st) in C; [|lra].
        replace (x * (1 / spinWeight st) * spinWeight st) with x in C by (field; lra). auto. }
      unfold ns in *. rewrite channels in *. destruct st; cbn [nSpins INR total] in *;
        (repeat match goal with H : Forall _ (_ :: _) |- _ => inversion H; subst; clear H end); nra. }
    destruct fu.
    + destruct (nb <? zceil _)%Z eqn:E; [|eauto]. exfalso. apply Z.ltb_lt in E. assert (zceil (total ns / (INR (nSpins st) * spinWeight st)) <= nb)%Z; [|lia].
      apply zceil_le. assert (K : 0 < INR (nSpins st) * spinWeight st) by (apply Rmult_lt_0_compat; auto; destruct st; cbn; lra).
      apply Rmult_le_reg_r with (INR (nSpins st) * spinWeight st); auto. unfold Rdiv. rewrite Rmult_assoc, Rinv_l by lra. lra.
    + destruct (Rle_dec _ _) as [E|E]; [|eauto]. exfalso.
      (* variable fillings: at least one extra band *)
      assert (C' : Forall (fun x => x * (1 / spinWeight st) <= IZR nb - 1) ns).
      { assert (C0 := chosen_ge st FillingsConst ns 0 0 P). 
        unfold nb, chooseBands in *. rewrite Z.eqb_refl in *. set (m := Z.max 1 _) in *.
        assert (m <= Z.max (m + 1) (zround (IZR nAt * mult)) - 1)%Z by lia. apply IZR_le in H. rewrite minus_IZR in H.
        assert (Z0 : (zround (IZR m * 0) <= m)%Z). { unfold zround, zfloor. destruct (archimed (IZR m * 0 + 1/2)) as (_&B). assert (IZR (up (IZR m * 0 + 1/2)) <= IZR 1 + 1/2) by lra.
          assert (IZR (up (IZR m * 0 + 1/2)) < IZR 2) by lra. apply lt_IZR in H1. assert (1 <= m)%Z by (unfold m; lia). lia. }
        rewrite Z.max_l in C0 by auto. apply Forall_forall. intros x Hx. rewrite Forall_forall in C0. specialize (C0 x Hx). lra. }
      assert (C2 : Forall (fun x => x <= (IZR nb - 1) * spinWeight st) ns).
      { apply Forall_forall. intros x Hx. rewrite Forall_forall in C'. specialize (C' x Hx). apply Rmult_le_compat_r with (r := spinWeight st) in C'; [|lra].
        replace (x * (1 / spinWeight st) * spinWeight st) with x in C' by (field; lra). auto. }
      unfold ns in *. rewrite channels in *. destruct st; cbn [nSpins INR total] in *;
        (repeat match goal with H : Forall _ (_ :: _) |- _ => inversion H; subst; clear H end); nra.
Qed.
(** fillings read from a file *)
Lemma sequence_Forall2 {A B} (g : A -> option B) l r : sequence (map g l) = Some r -> Forall2 (fun a b => g a = Some b) l r.
Proof.
  revert r; induction l as [|a l IH]; intros r H; cbn in H; [inversion H; constructor|]. destruct (g a) as [b|] eqn:E; [|discriminate].
  destruct (sequence (map g l)) as [r'|]; [|discriminate]. inversion H; subst. constructor; auto.
Qed.
Lemma setup_file st fu Q M sp mult nAt nB qs Fin nEl nBands F :
  setup st fu Q M sp mult nAt nB qs (Some Fin) = Some (nEl, nBands, F) ->
  electrons (map q_weight qs) F = nEl /\ nEl = electrons (map q_weight qs) Fin / spinWeight st /\
  Forall2 (fun fin f => total f = total fin / spinWeight st) Fin F /\
  Forall (fun Fq => length Fq = Z.to_nat nBands /\ Forall inRange Fq) F.
Proof.
  intros H. unfold setup in H. destruct (existsb _ _); [discriminate|]. set (nb := chooseBands _ _ _ _ _ _) in *.
  destruct (sequence _) as [F0|] eqn:E; [|discriminate]. apply sequence_Forall2 in E.
  set (n0 := sumR (fun qF : qnum * list R => q_weight (fst qF) * sumR (fun f => f) (snd qF)) (combine qs F0)) in *.
  assert (HR : (nEl, nBands, F) = (n0, nb, F0)).
  { destruct fu; [destruct (nb <? _)%Z; [discriminate|]|destruct (Rle_dec _ _); [discriminate|]]; congruence. }
  inversion HR; subst nEl nBands F. clear H HR.
  assert (T : Forall2 (fun fin f => total f = total fin / spinWeight st) Fin F0).
  { clear -E. induction E as [|a b l r H _ IH]; constructor; auto. apply read_ok in H. destruct H as (_&H&_). rewrite H. unfold Rdiv. ring. }
  assert (N : electrons (map q_weight qs) F0 = n0).
  { unfold n0, electrons. rewrite sumR_total. clear. revert F0. induction qs as [|q qs IH]; intros [|f F0]; cbn [map combine total fst snd]; auto. rewrite IH, sumR_total, map_id. auto. }
  split; auto. split; [|split; auto].
  - rewrite <- N. unfold electrons. clear -T. revert qs. induction T as [|a b l r H _ IH]; intros [|q qs]; cbn; try lra. rewrite IH, H. unfold Rdiv. ring.
  - clear -E. induction E as [|a b l r H _ IH]; constructor; auto. apply read_ok in H. tauto.
Qed.
