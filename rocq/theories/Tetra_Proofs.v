(** Proofs for C42. *)
From Coq Require Import ZArith Reals List Bool Lra Lia Psatz.
From Coquelicot Require Import Coquelicot.
From Verif Require Import Base Vec3_Model Vec3_Facts Tetra_Model Tetra_Spec.
Import ListNotations.
Open Scope R_scope.

Definition bsum (b : b4) : R := let '(b0, b1, b2, b3) := b in b0 + b1 + b2 + b3.
Lemma piece_int : forall (e0 e1 : R) b, RInt (pieceAt ((e0, e1), b)) e0 e1 = (e1 - e0) / 4 * bsum b.
Proof.
  intros e0 e1 [[[b0 b1] b2] b3]. destruct (Req_dec e0 e1) as [->|N].
  - rewrite RInt_point. unfold zero; cbn. field.
  - assert (H : e1 - e0 <> 0) by lra.
    set (F := fun E => (e1-e0) * (let t := (E-e0)/(e1-e0) in b0*(1-(1-t)^4)/4 + b1*(3*t^2/2-2*t^3+3*t^4/4) + b2*(t^3-3*t^4/4) + b3*t^4/4)).
    replace ((e1 - e0) / 4 * bsum (b0, b1, b2, b3)) with (minus (F e1) (F e0)).
    + apply is_RInt_unique. apply (is_RInt_derive F).
      * intros x _. unfold F, pieceAt, bern; cbn -[pow]. auto_derive; auto. field; auto.
      * intros x _. unfold pieceAt, bern; cbn -[pow].
        apply (ex_derive_continuous (fun E : R => b0 * (1 - (E - e0) / (e1 - e0)) ^ 3 + b1 * (3 * ((E - e0) / (e1 - e0)) * (1 - (E - e0) / (e1 - e0)) ^ 2) + b2 * (3 * (1 - (E - e0) / (e1 - e0)) * ((E - e0) / (e1 - e0)) ^ 2) + b3 * ((E - e0) / (e1 - e0)) ^ 3)).
        auto_derive; auto.
    + unfold F, minus, plus, opp, bsum; cbn -[pow]. field; auto.
Qed.
Lemma bern_bvalue : forall b t, bvalue b t = bern b t.
Proof. intros [[[b0 b1] b2] b3] t. unfold bvalue, bern. ring. Qed.

Lemma intLt_eq : forall i j, intLt i j = false -> intLt j i = false -> i = j.
Proof.
  intros [a b] [c d]; unfold intLt; cbn. repeat (destruct (Req_EM_T _ _) || destruct (Rlt_dec _ _)); try discriminate; intros; try (exfalso; lra).
  f_equal; lra.
Qed.
Lemma add4_sum : forall a b, bsum (add4 a b) = bsum a + bsum b.
Proof. intros [[[a0 a1] a2] a3] [[[b0 b1] b2] b3]; cbn; ring. Qed.
Lemma add4_zero : forall a, add4 zero4 a = a.
Proof. intros [[[a0 a1] a2] a3]; cbn; repeat (f_equal; try ring). Qed.
Lemma add4_bern : forall a b t, bern (add4 a b) t = bern a t + bern b t.
Proof. intros [[[a0 a1] a2] a3] [[[b0 b1] b2] b3] t; cbn -[pow]; ring. Qed.
Lemma pieceAdd_int : forall key v m, integrals (pieceAdd key v m) = integrals m + (snd key - fst key) / 4 * bsum v.
Proof.
  intros key v m; induction m as [|[k b] m IH]; cbn [pieceAdd].
  - rewrite add4_zero. cbn [integrals fst snd]. destruct key as [e0 e1]; rewrite piece_int; cbn [fst snd]; ring.
  - destruct (intLt key k) eqn:L1; [|destruct (intLt k key) eqn:L2].
    + rewrite add4_zero. cbn [integrals fst snd]. destruct key as [e0 e1]; rewrite piece_int; cbn [fst snd]; ring.
    + cbn [integrals fst snd]. rewrite IH; ring.
    + apply intLt_eq in L1; auto; subst k. cbn [integrals fst snd]. destruct key as [e0 e1]; rewrite !piece_int, add4_sum; cbn [fst snd]; ring.
Qed.
Lemma pieceAdd_density : forall E key v m, density (pieceAdd key v m) E = density m E + (if inside E (key, v) then pieceAt (key, v) E else 0).
Proof.
  intros E key v m; induction m as [|[k b] m IH]; cbn [pieceAdd].
  - rewrite add4_zero. cbn [density]. ring.
  - destruct (intLt key k) eqn:L1; [|destruct (intLt k key) eqn:L2].
    + rewrite add4_zero. cbn [density]. ring.
    + cbn [density]. rewrite IH; ring.
    + apply intLt_eq in L1; auto; subst k. cbn [density].
      replace (inside E (key, add4 b v)) with (inside E (key, v)) by reflexivity. replace (inside E (key, b)) with (inside E (key, v)) by reflexivity.
      destruct (inside E (key, v)); [|ring]. unfold pieceAt; cbn [fst snd]. rewrite add4_bern. ring.
Qed.
Lemma deltaAdd_mass : forall e v m, masses (deltaAdd e v m) = masses m + v.
Proof.
  intros e v m; induction m as [|[k b] m IH]; cbn; [ring|].
  destruct (Rlt_dec e k); [|destruct (Rlt_dec k e)]; cbn; [ring|rewrite IH; ring|ring].
Qed.

Lemma gt_true : forall a b, gt a b = true <-> b < a.
Proof. intros a b; unfold gt; destruct (Rlt_dec b a); split; auto; try discriminate; intros; contradiction. Qed.

(** ** total integral *)
Lemma accum_integral : forall vol e0 e1 e2 e3 w0 w1 w2 w3 cs, e0 <= e1 -> e1 <= e2 -> e2 <= e3 ->
  let r := accumTetrahedron vol (e0, w0) (e1, w1) (e2, w2) (e3, w3) cs in
  integrals (pieces r) + masses (deltas r) = integrals (pieces cs) + masses (deltas cs) + vol * ((w0 + w1 + w2 + w3) / 4).
Proof.
  intros vol e0 e1 e2 e3 w0 w1 w2 w3 cs H01 H12 H23. unfold accumTetrahedron. cbv zeta.
  destruct (Req_EM_T e3 e0) as [E|N].
  - cbn [pieces deltas]. rewrite deltaAdd_mass. field.
  - cbn [pieces deltas]. unfold gt.
    destruct (Rlt_dec e0 e1), (Rlt_dec e1 e2), (Rlt_dec e2 e3), (Rlt_dec e0 e2), (Rlt_dec e1 e3); try (exfalso; lra);
    rewrite ?pieceAdd_int; unfold bsum; cbn [fst snd];
    repeat match goal with
    | H : ~ (?a < ?b), G : ?a <= ?b |- _ => assert (b = a) by lra; subst b; clear H G
    end; try (field; repeat split; lra).
Qed.

(** ** pointwise density *)
Lemma inside_true : forall E a b v, a < E -> E < b -> inside E ((a, b), v) = true.
Proof. intros; unfold inside; cbn. destruct (Rlt_dec a E); [destruct (Rlt_dec E b)|]; auto; lra. Qed.
Lemma inside_false : forall E a b v, E <= a \/ b <= E -> inside E ((a, b), v) = false.
Proof. intros; unfold inside; cbn. destruct (Rlt_dec a E); [destruct (Rlt_dec E b)|]; auto; lra. Qed.

Section Slice.
  Variables (vol e0 e1 e2 e3 w0 w1 w2 w3 E : R).
  Hypothesis H01 : e0 <= e1. Hypothesis H12 : e1 <= e2. Hypothesis H23 : e2 <= e3.
  Let w := lin w0 w1 w2 w3.
  Lemma low_slice : e0 < E -> E < e1 ->
    triangleDensity vol e0 E w (cut E P0 P1 e0 e1) (cut E P0 P2 e0 e2) (cut E P0 P3 e0 e3) =
    vol * (E-e0)^2 / ((e1-e0)*(e2-e0)*(e3-e0)) * (3*w0 + (E-e0)*((w1-w0)/(e1-e0) + (w2-w0)/(e2-e0) + (w3-w0)/(e3-e0))).
  Proof.
    intros L U. unfold triangleDensity, w, lin, cut, at2, P0, P1, P2, P3, det3.
    replace (Rabs _) with ((E-e0)/(e1-e0) * ((E-e0)/(e2-e0)) * ((E-e0)/(e3-e0))).
    2:{ symmetry. rewrite Rabs_pos_eq; [field; lra|].
        match goal with |- 0 <= ?x => replace x with ((E-e0)/(e1-e0) * ((E-e0)/(e2-e0)) * ((E-e0)/(e3-e0))) by (field; lra) end.
        repeat apply Rmult_le_pos; try lra; left; apply Rinv_0_lt_compat; lra. }
    field; lra.
  Qed.
  Lemma high_slice : e2 < E -> E < e3 ->
    triangleDensity vol e0 E w (cut E P0 P3 e0 e3) (cut E P1 P3 e1 e3) (cut E P2 P3 e2 e3) =
    vol * (e3-E)^2 / ((e3-e0)*(e3-e1)*(e3-e2)) * (3*w3 + (e3-E)*((w0-w3)/(e3-e0) + (w1-w3)/(e3-e1) + (w2-w3)/(e3-e2))).
  Proof.
    intros L U. unfold triangleDensity, w, lin, cut, at2, P0, P1, P2, P3, det3.
    replace (Rabs _) with ((E-e0)/(e3-e0) * ((e3-E)/(e3-e1)) * ((e3-E)/(e3-e2))).
    2:{ symmetry. rewrite Rabs_pos_eq; [field; lra|].
        match goal with |- 0 <= ?x => replace x with ((E-e0)/(e3-e0) * ((e3-E)/(e3-e1)) * ((e3-E)/(e3-e2))) by (field; lra) end.
        repeat apply Rmult_le_pos; try lra; left; apply Rinv_0_lt_compat; lra. }
    field; lra.
  Qed.
  Lemma mid_dets : e1 < E -> E < e2 ->
    Rabs (det3 (cut E P0 P2 e0 e2) (cut E P0 P3 e0 e3) (cut E P1 P3 e1 e3)) = (E-e0)/(e2-e0) * ((E-e0)/(e3-e0)) * ((e3-E)/(e3-e1)) /\
    Rabs (det3 (cut E P0 P2 e0 e2) (cut E P1 P3 e1 e3) (cut E P1 P2 e1 e2)) = (E-e0)/(e2-e0) * ((E-e1)/(e3-e1)) * ((e2-E)/(e2-e1)).
  Proof.
    intros L U. unfold cut, at2, P0, P1, P2, P3, det3. split.
    - match goal with |- Rabs ?x = _ => replace x with ((E-e0)/(e2-e0) * ((E-e0)/(e3-e0)) * ((e3-E)/(e3-e1))) by (field; lra) end.
      apply Rabs_pos_eq. repeat apply Rmult_le_pos; try lra; left; apply Rinv_0_lt_compat; lra.
    - match goal with |- Rabs ?x = _ => replace x with ((E-e0)/(e2-e0) * ((E-e1)/(e3-e1)) * ((e2-E)/(e2-e1))) by (field; lra) end.
      apply Rabs_pos_eq. repeat apply Rmult_le_pos; try lra; left; apply Rinv_0_lt_compat; lra.
  Qed.
End Slice.

Lemma accum_density : forall vol e0 e1 e2 e3 w0 w1 w2 w3 cs E, e0 <= e1 -> e1 <= e2 -> e2 <= e3 ->
  E <> e0 -> E <> e1 -> E <> e2 -> E <> e3 ->
  density (pieces (accumTetrahedron vol (e0, w0) (e1, w1) (e2, w2) (e3, w3) cs)) E =
  density (pieces cs) E + sliceDensity vol e0 e1 e2 e3 w0 w1 w2 w3 E.
Proof.
  intros vol e0 e1 e2 e3 w0 w1 w2 w3 cs E H01 H12 H23 N0 N1 N2 N3. unfold accumTetrahedron, sliceDensity. cbv zeta.
  destruct (Req_EM_T e3 e0) as [EQ|N].
  - cbn [pieces]. destruct (Rle_dec E e0), (Rle_dec E e1), (Rle_dec E e2), (Rle_dec E e3); try (exfalso; lra); ring.
  - cbn [pieces].
    assert (D : forall (m : list piece) a b v, a <= b -> density (if gt b a then pieceAdd (a, b) v m else m) E = density m E + (if inside E ((a, b), v) then pieceAt ((a, b), v) E else 0)).
    { intros m a b v Hab. unfold gt. destruct (Rlt_dec a b); [apply pieceAdd_density|]. rewrite inside_false by lra. ring. }
    rewrite !D by assumption. clear D.
    destruct (Rle_dec E e0); [|destruct (Rle_dec E e1); [|destruct (Rle_dec E e2); [|destruct (Rle_dec E e3)]]].
    + rewrite !inside_false by lra. ring.
    + rewrite (inside_true E e0 e1) by lra. rewrite !inside_false by lra. rewrite low_slice by lra.
      unfold pieceAt, bern, gt; cbn [fst snd]. destruct (Rlt_dec e0 e2); [|lra]. field; lra.
    + rewrite (inside_true E e1 e2) by lra. rewrite !inside_false by lra. unfold triangleDensity.
      destruct (mid_dets e0 e1 e2 e3 E) as [-> ->]; try lra.
      unfold pieceAt, bern, gt, lin, cut, at2, P0, P1, P2, P3; cbn [fst snd]. destruct (Rlt_dec e0 e2); [|lra]. destruct (Rlt_dec e1 e3); [|lra].
      field; lra.
    + rewrite (inside_true E e2 e3) by lra. rewrite !inside_false by lra. rewrite high_slice by lra.
      unfold pieceAt, bern, gt; cbn [fst snd]. destruct (Rlt_dec e1 e3); [|lra]. field; lra.
    + rewrite !inside_false by lra. ring.
Qed.

(** ** tessellation *)
Lemma tetVolume_det : forall GT GTsup s v0 t, rdet GT <> 0 -> In t cellVerts ->
  tetVolume GT GTsup s v0 t = rdet GTsup * IZR (c0 s) * IZR (c1 s) * IZR (c2 s).
Proof.
  intros GT GTsup s v0 t D H. unfold tetVolume.
  assert (X : forall i j, rmv GT (rvsub (rvadd v0 (rmv (rmm (rinv GT) GTsup) (vIZR (corner s i)))) (rvadd v0 (rmv (rmm (rinv GT) GTsup) (vIZR (corner s j))))) =
    rmv GTsup (rvsub (vIZR (corner s i)) (vIZR (corner s j)))).
  { intros i j. transitivity (rmv (rmm GT (rmm (rinv GT) GTsup)) (rvsub (vIZR (corner s i)) (vIZR (corner s j)))).
    - generalize (rmm (rinv GT) GTsup). generalize (vIZR (corner s i)), (vIZR (corner s j)). v3_ring.
    - rewrite rmm_assoc, rinv_r, rmm_id_l by auto. reflexivity. }
  destruct t as [[[p0 p1] p2] p3]. rewrite !X. clear X.
  destruct GTsup, s. cbn in H.
  repeat (destruct H as [H|H]; [injection H as <- <- <- <-; unfold corner, rbox; cbn -[Z.mul Z.of_nat]; unfold vIZR, vmap; cbn -[Z.mul IZR]; rewrite ?mult_IZR; v3_unfold; cbn -[Z.mul IZR]; ring|]).
  destruct H.
Qed.

Lemma fold_plus_const : forall l c a, (forall x, In x l -> x = c) -> fold_left Rplus l a = a + INR (List.length l) * c.
Proof.
  induction l as [|x l IH]; intros c a H; cbn [fold_left List.length].
  - cbn. ring.
  - rewrite (IH c) by (intros y Hy; apply H; right; auto). rewrite (H x) by (left; auto). rewrite S_INR. ring.
Qed.
Lemma flat_map_len : forall A B (f : A -> list B) n l, (forall x, List.length (f x) = n) -> List.length (flat_map f l) = (n * List.length l)%nat.
Proof. intros A B f n l H; induction l; cbn; [lia|]. rewrite app_length, IHl, H. lia. Qed.
Lemma volumes_equal : forall GT GTsup s kmesh weightSum, rdet GT <> 0 -> rdet GTsup <> 0 -> In s signChoices -> kmesh <> [] ->
  List.length (volumes GT GTsup s kmesh weightSum) = (6 * List.length kmesh)%nat /\
  forall v, In v (volumes GT GTsup s kmesh weightSum) -> v = weightSum / (6 * INR (List.length kmesh)).
Proof.
  intros GT GTsup s kmesh ws D D' Hs Hk. unfold volumes, rawVolumes. cbv zeta. rewrite map_length.
  assert (L : List.length (flat_map (fun v0 => map (tetVolume GT GTsup s v0) cellVerts) kmesh) = (6 * List.length kmesh)%nat) by (apply flat_map_len; reflexivity).
  assert (X : forall x, In x (flat_map (fun v0 => map (tetVolume GT GTsup s v0) cellVerts) kmesh) -> x = rdet GTsup * IZR (c0 s) * IZR (c1 s) * IZR (c2 s)).
  { intros x H. apply in_flat_map in H. destruct H as (v0 & _ & H). apply in_map_iff in H. destruct H as (t & <- & H). apply tetVolume_det; auto. }
  assert (Q : rdet GTsup * IZR (c0 s) * IZR (c1 s) * IZR (c2 s) <> 0).
  { cbn in Hs. repeat (destruct Hs as [<-|Hs]; [cbn -[rdet]; repeat apply Rmult_integral_contrapositive_currified; auto; lra|]). destruct Hs. }
  split; auto. intros v H. apply in_map_iff in H. destruct H as (x & <- & H). rewrite (fold_plus_const _ _ _ X), (X x H), L, mult_INR.
  assert (INR (List.length kmesh) <> 0). { destruct kmesh; [contradiction|]. apply not_0_INR. cbn. lia. }
  change (INR 6) with (2 + 1 + 1 + 1 + 1). replace (1 + 1 + 1 + 1 + 1) with 5 by lra. revert Q. generalize (rdet GTsup * IZR (c0 s) * IZR (c1 s) * IZR (c2 s)). intros q Q.
  replace (INR 6) with 6 by (cbn; lra). field; auto.
Qed.
Lemma sBest_ok : forall GTsup, exists s, sBest GTsup = Some s /\ In s signChoices /\
  forall s', In s' signChoices -> rlen2 (rmv GTsup (vIZR s)) <= rlen2 (rmv GTsup (vIZR s')).
Proof.
  intros GTsup. unfold sBest.
  set (d := fun s => sqrt (rlen2 (rmv GTsup (vIZR s)))).
  assert (G : forall l best, exists b, fold_left (fun best s => let d0 := sqrt (rlen2 (rmv GTsup (vIZR s))) in match best with Some (dMin, _) => if Rlt_dec d0 dMin then Some (d0, s) else best | None => Some (d0, s) end) l (Some (d best, best)) = Some (d b, b) /\ In b (best :: l) /\ d b <= d best /\ forall s, In s l -> d b <= d s).
  { induction l as [|s l IH]; intros best.
    - exists best. cbn. repeat split; auto; try lra. intros _ [].
    - cbn [fold_left]. fold (d s). destruct (Rlt_dec (d s) (d best)).
      + destruct (IH s) as (b & E & I & Lb & Ll). exists b. split; [exact E|]. split; [right; exact I|]. split; [lra|]. intros s' [<-|H]; auto.
      + destruct (IH best) as (b & E & I & Lb & Ll). exists b. split; [exact E|]. split; [cbn in I |- *; tauto|]. split; [lra|]. intros s' [<-|H]; auto. lra. }
  destruct (G [V 1 (-1) 1; V 1 1 (-1); V 1 1 1]%Z (V 1 (-1) (-1))%Z) as (b & E & I & Lb & Ll).
  exists b. change signChoices with (V 1 (-1) (-1) :: [V 1 (-1) 1; V 1 1 (-1); V 1 1 1])%Z. cbn [fold_left] in E |- *.
  split; [|split; auto].
  - fold (d (V 1 (-1) (-1))%Z). cbv zeta in *. rewrite E. reflexivity.
  - intros s' H. apply sqrt_le_0; try apply rlen2_pos. destruct H as [<-|H]; [exact Lb|]. apply Ll; auto.
Qed.

Definition coords (v : vec Z) : R * R * R := (IZR (c0 v), IZR (c1 v), IZR (c2 v)).
Definition insideTet (s : vec Z) (t : nat * nat * nat * nat) (x : R * R * R) : Prop :=
  let '(p0, p1, p2, p3) := t in strictlyInside (coords (corner s p0)) (coords (corner s p1)) (coords (corner s p2)) (coords (corner s p3)) x.
Definition scaled (s : vec Z) (y : R * R * R) : R * R * R := let '(y0, y1, y2) := y in (IZR (c0 s) * y0, IZR (c1 s) * y1, IZR (c2 s) * y2).
Ltac signs H := cbn in H; destruct H as [<-|[<-|[<-|[<-|[]]]]].
Lemma tess_cover : forall s y0 y1 y2, In s signChoices -> 0 < y0 < 1 -> 0 < y1 < 1 -> 0 < y2 < 1 -> y0 <> y1 -> y1 <> y2 -> y0 <> y2 ->
  exists t, In t cellVerts /\ insideTet s t (scaled s (y0, y1, y2)).
Proof.
  intros s y0 y1 y2 Hs H0 H1 H2 N01 N12 N02.
  assert (C : forall t a1 a2 a3, In t cellVerts -> 0 < 1 - a1 - a2 - a3 -> 0 < a1 -> 0 < a2 -> 0 < a3 ->
    (let '(p0, p1, p2, p3) := t in let '(x0, x1, x2) := scaled s (y0, y1, y2) in
     x0 = (1-a1-a2-a3) * IZR (c0 (corner s p0)) + a1 * IZR (c0 (corner s p1)) + a2 * IZR (c0 (corner s p2)) + a3 * IZR (c0 (corner s p3)) /\
     x1 = (1-a1-a2-a3) * IZR (c1 (corner s p0)) + a1 * IZR (c1 (corner s p1)) + a2 * IZR (c1 (corner s p2)) + a3 * IZR (c1 (corner s p3)) /\
     x2 = (1-a1-a2-a3) * IZR (c2 (corner s p0)) + a1 * IZR (c2 (corner s p1)) + a2 * IZR (c2 (corner s p2)) + a3 * IZR (c2 (corner s p3))) ->
    exists t, In t cellVerts /\ insideTet s t (scaled s (y0, y1, y2))).
  { intros [[[p0 p1] p2] p3] a1 a2 a3 Ht A0 A1 A2 A3 X. exists (p0, p1, p2, p3). split; auto. exists (1-a1-a2-a3), a1, a2, a3.
    do 4 (split; [assumption|]). split; [ring|]. exact X. }
  assert (O : (y0 < y1 < y2) \/ (y0 < y2 < y1) \/ (y2 < y0 < y1) \/ (y1 < y0 < y2) \/ (y1 < y2 < y0) \/ (y2 < y1 < y0)) by lra.
  destruct O as [O|[O|[O|[O|[O|O]]]]];
  [ apply (C (0,3,1,7)%nat (y1-y0) (y2-y1) y0)
  | apply (C (0,2,3,7)%nat (y1-y2) (y2-y0) y0)
  | apply (C (0,6,2,7)%nat (y0-y2) (y1-y0) y2)
  | apply (C (0,1,5,7)%nat (y2-y0) (y0-y1) y1)
  | apply (C (0,5,4,7)%nat (y2-y1) (y0-y2) y1)
  | apply (C (0,4,6,7)%nat (y0-y1) (y1-y2) y2)]; try (cbn; tauto); try lra; signs Hs; cbn; rewrite ?Z.mul_0_l, ?Z.mul_1_l; repeat split; ring.
Qed.
Lemma tess_disjoint : forall s t t' x, In s signChoices -> In t cellVerts -> In t' cellVerts -> insideTet s t x -> insideTet s t' x -> t = t'.
Proof.
  assert (O : forall s t x, In s signChoices -> In t cellVerts -> insideTet s t x -> let '(x0, x1, x2) := x in
    let y0 := IZR (c0 s) * x0 in let y1 := IZR (c1 s) * x1 in let y2 := IZR (c2 s) * x2 in
    (t = (0,2,3,7)%nat /\ y0 < y2 < y1) \/ (t = (0,3,1,7)%nat /\ y0 < y1 < y2) \/ (t = (0,1,5,7)%nat /\ y1 < y0 < y2) \/
    (t = (0,5,4,7)%nat /\ y1 < y2 < y0) \/ (t = (0,4,6,7)%nat /\ y2 < y1 < y0) \/ (t = (0,6,2,7)%nat /\ y2 < y0 < y1)).
  { intros s t [[x0 x1] x2] Hs Ht H. unfold insideTet in H. destruct t as [[[p0 p1] p2] p3]. destruct H as (a0 & a1 & a2 & a3 & A0 & A1 & A2 & A3 & S & X).
    cbv zeta. signs Hs; destruct Ht as [E|[E|[E|[E|[E|[E|[]]]]]]]; injection E as <- <- <- <-; cbn in X |- *; rewrite ?Z.mul_0_l, ?Z.mul_1_l in X; destruct X as (X0 & X1 & X2);
    [ left | right; left | right; right; left | right; right; right; left | right; right; right; right; left | right; right; right; right; right
    | left | right; left | right; right; left | right; right; right; left | right; right; right; right; left | right; right; right; right; right
    | left | right; left | right; right; left | right; right; right; left | right; right; right; right; left | right; right; right; right; right
    | left | right; left | right; right; left | right; right; right; left | right; right; right; right; left | right; right; right; right; right]; (split; [reflexivity|lra]). }
  intros s t t' [[x0 x1] x2] Hs Ht Ht' H H'. apply O in H; auto. apply O in H'; auto. cbv zeta in H, H'.
  repeat (destruct H as [[-> H]|H]); try (destruct H as [-> H]); repeat (destruct H' as [[-> H']|H']); try (destruct H' as [-> H']); try reflexivity; exfalso; lra.
Qed.
