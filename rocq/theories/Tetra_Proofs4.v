(** Proofs for C43: merging the tables of several bands. *)
From Coq Require Import ZArith Reals List Bool Lra Lia Psatz Sorting.Sorted.
From Verif Require Import Base Tetra_Model Tetra_Spec Tetra_Proofs Tetra_Proofs2 Tetra_Proofs3.
Import ListNotations.
Open Scope R_scope.

(** area as a sum over the nodes, with the energy before the first one *)
Definition nextE (e : R) (l : lspline) : R := match l with [] => e | q :: _ => fst q end.
Fixpoint areaP (p : R) (l : lspline) : R := match l with [] => 0 | (e, v) :: l' => v * (nextE e l' - p) / 2 + areaP e l' end.
Lemma area_areaP : forall l p, areaP p l = area l + match l with [] => 0 | (e, v) :: _ => v * (e - p) / 2 end.
Proof.
  induction l as [|[e v] l IH]; intros p; [cbn; ring|]. cbn [areaP]. rewrite IH. destruct l as [|[e' v'] l]; [cbn; field|]. rewrite area2. cbn [nextE fst snd]. field.
Qed.
Lemma areaP_area : forall e v l, areaP e ((e, v) :: l) = area ((e, v) :: l).
Proof. intros. rewrite area_areaP. field. Qed.
Lemma nextE_map : forall e l l', map fst l = map fst l' -> nextE e l = nextE e l'.
Proof. intros e [|p l] [|q l'] H; cbn in *; try discriminate; auto. injection H; auto. Qed.

(** sorted with repetitions *)
Notation lesorted := (StronglySorted Rle).

Section Walk.
  Variables (sStart sStop eStart eStop : R).
  (** the scale at the last node compensates the neighbouring energies *)
  Fixpoint stopOK (p : R) (g : list R) : Prop :=
    match g with [] => False | e :: g' => if Req_EM_T e eStop then sStop * ((match g' with [] => e | n :: _ => n end) - p) = e - p else stopOK e g' end.
  Definition interp (l r : R * R) (e : R) : R := let t := (e - fst l)/(fst r - fst l) in (1-t) * snd l + t * snd r.
  Lemma interp_l : forall l r, fst l < fst r -> interp l r (fst l) = snd l.
  Proof. intros [a u] [b v]; cbn; intros. unfold interp; cbn. field. lra. Qed.
  Lemma interp_r : forall l r, fst l < fst r -> interp l r (fst r) = snd r.
  Proof. intros [a u] [b v]; cbn; intros. unfold interp; cbn. field. lra. Qed.
  Definition restArea (l r : R * R) (rest : lspline) (e : R) : R := (fst r - e) * (interp l r e + snd r) / 2 + area (r :: rest).
  Lemma rest_split : forall l r rest e e', fst l < fst r -> restArea l r rest e = (e' - e) * (interp l r e + interp l r e') / 2 + restArea l r rest e'.
  Proof. intros [a u] [b v] rest e e'; cbn [fst]; intros. unfold restArea, interp; cbn [fst snd]. field. lra. Qed.
  Lemma rest_advance : forall l r n rest, fst l < fst r -> fst r < fst n -> restArea l r (n :: rest) (fst r) = restArea r n rest (fst r).
  Proof. intros l r n rest H H'. unfold restArea. rewrite interp_r, interp_l by auto. rewrite area2. field. Qed.

  Lemma walk_ok : forall out l r rest p, lesorted (map fst out) -> increasing (l :: r :: rest) -> back (l :: r :: rest) = eStop ->
    (match out with [] => False | q :: _ => eStart < fst q /\ fst l <= fst q <= fst r end) ->
    (forall q, In q (r :: rest) -> In (fst q) (map fst out)) -> stopOK p (map fst out) ->
    exists o, walk sStart sStop eStart eStop l r rest out = Some o /\ map fst o = map fst out /\
      areaP p o = areaP p out + (match out with [] => 0 | (e, _) :: _ => interp l r e * (e - p) / 2 + restArea l r rest e end).
  Proof.
    induction out as [|[e v] out IH]; intros l r rest p S Inc B H I K; [destruct H|].
    cbn [fst] in H. destruct H as (H0 & H1 & H2). cbn [walk].
    assert (L : fst l < fst r) by (apply Inc).
    assert (Sn : rsorted (map fst (l :: r :: rest))) by (apply increasing_sorted; auto).
    assert (Bmax : fst r <= eStop).
    { rewrite <- B. unfold back. change (last (l :: r :: rest) (0, 0)) with (last (r :: rest) (0, 0)).
      apply proj2 in Inc. clear - Inc. revert r Inc. induction rest as [|n rest IH]; intros r Inc; [cbn; lra|]. destruct Inc as [A Inc]. apply IH in Inc. change (last (r :: n :: rest) (0, 0)) with (last (n :: rest) (0, 0)). lra. }
    cbn [map stopOK fst] in K. destruct (Req_EM_T e eStop) as [Ee|Ne].
    - eexists. split; [reflexivity|]. split; [reflexivity|]. cbn [areaP]. fold (interp l r e).
      assert (e = fst r) by lra.
      assert (rest = []) as ->. { destruct rest as [|n rest]; auto. exfalso. destruct Inc as [_ [Q Inc]]. rewrite <- B in Ee. unfold back in Ee. change (last (l :: r :: n :: rest) (0, 0)) with (last (n :: rest) (0, 0)) in Ee.
        assert (fst n <= fst (last (n :: rest) (0, 0))). { clear - Inc. revert n Inc. induction rest as [|m rest IH]; intros n Inc; [cbn; lra|]. destruct Inc as [A Inc]. apply IH in Inc. change (last (n :: m :: rest) (0, 0)) with (last (m :: rest) (0, 0)). lra. }
        lra. }
      unfold restArea. cbn [area]. replace (match map fst out with [] => e | n :: _ => n end) with (nextE e out) in K by (destruct out; auto).
      replace ((v + sStop * interp l r e) * (nextE e out - p) / 2) with (v * (nextE e out - p) / 2 + interp l r e * (sStop * (nextE e out - p)) / 2) by field.
      rewrite K. rewrite <- H. field.
    - destruct (Req_EM_T e eStart) as [Q|_]; [lra|].
      inversion S as [|? ? S' F]; subst. rewrite Forall_forall in F.
      destruct out as [|[eN vN] out]; [exfalso; destruct K|].
      assert (eN >= e) by (apply Rle_ge, F; left; auto).
      destruct (Rlt_dec (fst r) eN) as [A|A].
      + assert (e = fst r). { destruct (I r) as [X|X]; [left; auto|cbn in X; lra|]. exfalso. cbn [map fst] in X, S'. inversion S' as [|? ? _ F']; subst. rewrite Forall_forall in F'. destruct X as [X|X]; [cbn in X; lra|apply F' in X; lra]. }
        destruct rest as [|n rest]. { exfalso. apply Ne. rewrite <- B. unfold back. cbn. lra. }
        destruct Inc as [_ [Q Inc]].
        assert (fst n <= fst n) by lra.
        assert (IN : forall q, In q (n :: rest) -> In (fst q) (map fst ((eN, vN) :: out))).
        { intros q Hq. destruct (I q) as [X|X]; [right; auto| |exact X]. exfalso. cbn in X. apply increasing_sorted in Inc. cbn in Inc. inversion Inc as [|? ? _ F']; subst. rewrite Forall_forall in F'.
          destruct Hq as [<-|Hq]; [lra|]. assert (fst n < fst q) by (apply F', in_map; auto). lra. }
        destruct (IH r n rest e) as (o & E & M & T); auto.
        * split; auto.
        * cbn [fst]. split; [lra|]. split; [lra|]. assert (In (fst n) (map fst ((eN, vN) :: out))) as X by (apply IN; left; auto). cbn [map fst] in X, S'. inversion S' as [|? ? _ F']; subst. rewrite Forall_forall in F'. destruct X as [X|X]; [lra|apply F'; auto].
        * rewrite E. eexists. split; [reflexivity|]. split; [cbn [map] in *; f_equal; exact M|].
          cbn [areaP]. rewrite (nextE_map e o _ M). cbn [areaP] in T. rewrite T. cbn [nextE fst]. fold (interp l r e).
          rewrite H3. rewrite rest_advance, (rest_split r n rest (fst r) eN) by (auto; lra). rewrite interp_r, interp_l by (auto; lra). field.
      + assert (IN : forall q, In q (r :: rest) -> In (fst q) (map fst ((eN, vN) :: out))).
        { intros q Hq. destruct (I q Hq) as [X|X]; [|exact X]. cbn in X. left. cbn. subst e.
          cbn [map] in Sn. inversion Sn as [|? ? Sn' _]; subst. inversion Sn' as [|? ? _ F']; subst. rewrite Forall_forall in F'.
          destruct Hq as [<-|Hq]; [lra|]. assert (fst r < fst q) by (apply F', in_map; auto). lra. }
        destruct (IH l r rest e) as (o & E & M & T); auto.
        * cbn [fst]. lra.
        * rewrite E. eexists. split; [reflexivity|]. split; [cbn [map] in *; f_equal; exact M|].
          cbn [areaP]. rewrite (nextE_map e o _ M). cbn [areaP] in T. rewrite T. cbn [nextE fst]. fold (interp l r e).
          rewrite (rest_split l r rest e eN) by auto. field.
  Qed.
  Fixpoint startOK (p : R) (g : list R) : Prop :=
    match g with
    | e :: ((n :: _) as g') => if Rle_dec n eStart then startOK e g' else e = eStart /\ sStart * (n - p) = n - e
    | _ => False
    end.
  Lemma stop_skip : forall p e g, e <> eStop -> stopOK p (e :: g) -> stopOK e g.
  Proof. intros p e g N H. cbn in H. destruct (Req_EM_T e eStop); [contradiction|exact H]. Qed.
  Lemma add_step : forall l r rest e v e' v' out, addLspline sStart sStop eStart eStop l r rest ((e, v) :: (e', v') :: out) =
    if Rle_dec e' eStart then match addLspline sStart sStop eStart eStop l r rest ((e', v') :: out) with Some o => Some ((e, v) :: o) | None => None end
    else walk sStart sStop eStart eStop l r rest ((e, v) :: (e', v') :: out).
  Proof. reflexivity. Qed.
  Lemma walk_step : forall l r rest e v e' v' out, walk sStart sStop eStart eStop l r rest ((e, v) :: (e', v') :: out) =
    let v2 := v + (if Req_EM_T e eStop then sStop else if Req_EM_T e eStart then sStart else 1) * interp l r e in
    if Req_EM_T e eStop then Some ((e, v2) :: (e', v') :: out)
    else match (if Rlt_dec (fst r) e' then match rest with n :: rest' => walk sStart sStop eStart eStop r n rest' ((e', v') :: out) | [] => None end
                else walk sStart sStop eStart eStop l r rest ((e', v') :: out)) with Some o => Some ((e, v2) :: o) | None => None end.
  Proof. reflexivity. Qed.
  Lemma add_ok : forall out l r rest p, lesorted (map fst out) -> increasing (l :: r :: rest) -> back (l :: r :: rest) = eStop -> fst l = eStart ->
    (forall q, In q (r :: rest) -> In (fst q) (map fst out)) -> startOK p (map fst out) -> stopOK p (map fst out) ->
    exists o, addLspline sStart sStop eStart eStop l r rest out = Some o /\ map fst o = map fst out /\ areaP p o = areaP p out + area (l :: r :: rest).
  Proof.
    induction out as [|[e v] out IH]; intros l r rest p S Inc B Q I KS KT; [destruct KS|].
    destruct out as [|[e' v'] out]; [destruct KS|]. rewrite add_step.
    change (if Rle_dec e' eStart then startOK e (map fst ((e', v') :: out)) else e = eStart /\ sStart * (e' - p) = e' - e) in KS.
    assert (L : fst l < fst r) by (apply Inc).
    assert (Bmax : fst r <= eStop).
    { rewrite <- B. unfold back. change (last (l :: r :: rest) (0, 0)) with (last (r :: rest) (0, 0)).
      apply proj2 in Inc. clear - Inc. revert r Inc. induction rest as [|n rest IH]; intros r Inc; [cbn; lra|]. destruct Inc as [A Inc]. apply IH in Inc. change (last (r :: n :: rest) (0, 0)) with (last (n :: rest) (0, 0)). lra. }
    assert (Imin : forall q, In q (r :: rest) -> eStart < fst q).
    { intros q Hq. apply increasing_sorted in Inc. cbn [map] in Inc. inversion Inc as [|? ? _ F']; subst. rewrite Forall_forall in F'. rewrite <- Q. apply (F' (fst q)). apply (in_map fst (r :: rest)); auto. }
    inversion S as [|? ? S' F]; subst. rewrite Forall_forall in F.
    assert (e <= e') by (apply F; left; auto).
    destruct (Rle_dec e' eStart) as [A|A].
    - assert (e <> eStop) by lra.
      destruct (IH l r rest e) as (o & E & M & T); auto.
      + intros q Hq. destruct (I q Hq) as [X|X]; auto. exfalso. cbn in X. specialize (Imin q Hq). lra.
      + apply (stop_skip p); auto.
      + rewrite E. eexists. split; [reflexivity|]. split; [cbn [map] in *; f_equal; exact M|].
        cbn [areaP]. rewrite (nextE_map e o _ M). cbn [areaP] in T. rewrite T. field.
    - destruct KS as [Ee KS]. rewrite walk_step. cbv zeta.
      destruct (Req_EM_T e eStop) as [X|_]; [lra|]. destruct (Req_EM_T e eStart) as [_|X]; [|contradiction].
      destruct (Rlt_dec (fst r) e') as [Z|Z].
      + exfalso. destruct (I r) as [X|X]; [left; auto|cbn in X; lra|]. cbn [map fst] in X, S'. inversion S' as [|? ? _ F']; subst. rewrite Forall_forall in F'. destruct X as [X|X]; [cbn in X; lra|apply F' in X; lra].
      + destruct (walk_ok ((e', v') :: out) l r rest e) as (o & E & M & T); auto.
        * cbn [fst]. lra.
        * intros q Hq. destruct (I q Hq) as [X|X]; auto. exfalso. cbn in X. specialize (Imin q Hq). lra.
        * apply (stop_skip p); auto. lra.
        * rewrite E. eexists. split; [reflexivity|]. split; [cbn [map] in *; f_equal; exact M|].
          cbn [areaP]. rewrite (nextE_map e o _ M). cbn [areaP] in T. rewrite T. cbn [nextE fst].
          rewrite area2.
          assert (X : (fst r - fst l) * (snd l + snd r) / 2 + area (r :: rest) = restArea l r rest (fst l)) by (unfold restArea; rewrite interp_l by auto; reflexivity).
          rewrite X. rewrite (rest_split l r rest (fst l) e') by auto. rewrite Ee, <- Q.
          replace ((v + sStart * interp l r (fst l)) * (e' - p) / 2) with (v * (e' - p) / 2 + interp l r (fst l) * (sStart * (e' - p)) / 2) by field.
          rewrite KS, Ee, <- Q. field.
  Qed.
End Walk.
