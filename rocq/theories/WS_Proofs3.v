(** Completeness of the enumeration of planes, face pairs, and distances to the boundary. *)
From Coq Require Import ZArith Reals List Bool Lia Lra Psatz Permutation Sorted Classical.
From Verif Require Import Base Vec3_Model Vec3_Facts Lattice_Model RealUtil Coulomb_Model Coulomb_Proofs WS_Model WS_Spec WS_Proofs WS_Proofs2.
Import ListNotations.
Local Open Scope R_scope.

Lemma rceil_ge x : x <= IZR (rceil x).
Proof. unfold rceil. rewrite opp_IZR. assert (B := rfloor_bounds (- x)). lra. Qed.
Lemma coord_bound Rl l k : rdet Rl <> 0 -> (k < 3)%nat ->
  IZR (vget l k) * IZR (vget l k) <= rlen2 (mrow (rinv Rl) k) * cart2 Rl (vIZR l).
Proof.
  intros D K. assert (E : IZR (vget l k) = rdot (mrow (rinv Rl) k) (rmv Rl (vIZR l))).
  { assert (Q : vIZR l = rmv (rinv Rl) (rmv Rl (vIZR l))). { rewrite <- rmv_mm, rinv_l by exact D. generalize (vIZR l). intros [a b c]. v3u. f_equal; ring. }
    revert Q. generalize (rmv Rl (vIZR l)) (rinv Rl). intros [x y z] m Q. destruct l as [l0 l1 l2]. destruct m as [p00 p01 p02 p10 p11 p12 p20 p21 p22].
    cbv [vIZR vmap rmv gmv gdot row0 row1 row2] in Q. v3u. 
    unfold rmv, gmv, vIZR in Q. injection Q as Q0 Q1 Q2.
    destruct k as [|[|[|]]]; [| | |lia]; cbn [vget mrow row0 row1 row2 m00 m01 m02 m10 m11 m12 m20 m21 m22 c0 c1 c2]; [rewrite Q0|rewrite Q1|rewrite Q2]; v3u; ring. }
  rewrite E. unfold cart2. generalize (mrow (rinv Rl) k) (rmv Rl (vIZR l)). intros [a b c] [d e f]. v3u.
  assert (X := Rle_0_sqr (a*e-b*d)). assert (Y := Rle_0_sqr (a*f-c*d)). assert (Z := Rle_0_sqr (b*f-c*e)). unfold Rsqr in *. lra.
Qed.
Lemma box_coord Rl r l k : rdet Rl <> 0 -> (k < 3)%nat -> 0 <= r -> cart2 Rl (vIZR l) < 4 * r -> (- ivMax Rl r k <= vget l k <= ivMax Rl r k)%Z.
Proof.
  intros D K P L. assert (B := coord_bound Rl l k D K). set (q := rlen2 (mrow (rinv Rl) k)) in *.
  assert (Q : 0 <= q). { unfold q. generalize (mrow (rinv Rl) k). intros [a b c]. v3u. nra. }
  assert (C := cart_pos Rl (vIZR l)). set (w := cart2 Rl (vIZR l)) in *.
  assert (G := rceil_ge (2 * sqrt (r * q))). fold q in G. unfold ivMax. fold q. set (m := rceil (2 * sqrt (r * q))) in *.
  assert (S1 : sqrt (r * q) * sqrt (r * q) = r * q) by (apply sqrt_sqrt; nra). assert (S0 := sqrt_pos (r * q)). set (s := sqrt (r * q)) in *.
  assert (Z1 : IZR (vget l k) * IZR (vget l k) <= (2 * s) * (2 * s)) by nra. clearbody s.
  split; apply le_IZR; [rewrite opp_IZR|]; nra.
Qed.
Lemma small_vec l : (zlen2 l <= 1)%Z -> l = V 0%Z 0%Z 0%Z \/ exists k s, (k < 3)%nat /\ (s = 1 \/ s = -1)%Z /\ l = unitZ k s.
Proof.
  destruct l as [a b c]. unfold zlen2, zdot, gdot. cbn [c0 c1 c2]. intros H.
  assert (a = 0 \/ a = 1 \/ a = -1)%Z by nia. assert (b = 0 \/ b = 1 \/ b = -1)%Z by nia. assert (c = 0 \/ c = 1 \/ c = -1)%Z by nia.
  destruct H0 as [->|[->| ->]], H1 as [->|[->| ->]], H2 as [->|[->| ->]]; try (exfalso; clear -H; lia); try (left; reflexivity); right;
  first [exists 0%nat, 1%Z; split; [lia|split; [lia|reflexivity]] | exists 0%nat, (-1)%Z; split; [lia|split; [lia|reflexivity]] | exists 1%nat, 1%Z; split; [lia|split; [lia|reflexivity]]
    | exists 1%nat, (-1)%Z; split; [lia|split; [lia|reflexivity]] | exists 2%nat, 1%Z; split; [lia|split; [lia|reflexivity]] | exists 2%nat, (-1)%Z; split; [lia|split; [lia|reflexivity]]].
Qed.
Lemma in_candidates Rl r l : rdet Rl <> 0 -> 0 <= r -> In l (candidates Rl r) <-> (1 < zlen2 l)%Z /\ cart2 Rl (vIZR l) < 4 * r.
Proof.
  intros D P. unfold candidates. rewrite filter_In, andb_true_iff, Z.ltb_lt, metric_cart. split.
  - intros [_ [A B]]. split; [exact A|]. destruct (Rlt_dec _ _); [assumption|discriminate].
  - intros [A B]. split; [|split; [exact A|destruct (Rlt_dec _ _); [reflexivity|contradiction]]].
    assert (B0 := box_coord Rl r l 0 D ltac:(lia) P B). assert (B1 := box_coord Rl r l 1 D ltac:(lia) P B). assert (B2 := box_coord Rl r l 2 D ltac:(lia) P B).
    destruct l as [a b c]. cbn [vget c0 c1 c2] in *. apply in_flat_map. exists a. split; [apply in_zrange; lia|]. apply in_flat_map. exists b. split; [apply in_zrange; lia|].
    apply in_map. apply in_zrange. lia.
Qed.
Lemma maxSq_pos Rl vs : 0 <= maxSq Rl vs.
Proof.
  unfold maxSq. assert (G : forall l a, a <= fold_left (fun r v => let rSq := metric2 (RTR Rl) v in if Rlt_dec r rSq then rSq else r) l a).
  { induction l as [|w l IH]; intros a; cbn [fold_left]; [lra|]. eapply Rle_trans; [|apply IH]. cbv zeta. destruct (Rlt_dec a _); lra. }
  apply G.
Qed.
Lemma slice_incl Rl addPlane rMax : (forall p a, incl (addPlane p a) (a :: p)) -> forall l p r, incl (slice Rl addPlane rMax p r l) (l ++ p).
Proof.
  intros H. induction l as [|a l IH]; intros p r; cbn [slice app]; [intros x; auto|]. destruct (Rlt_dec _ _); [intros x Hx; right; apply in_or_app; auto|].
  cbv zeta. intros x Hx. apply IH in Hx. apply in_app_or in Hx. destruct Hx as [Hx|Hx]; [right; apply in_or_app; auto|]. apply H in Hx. destruct Hx as [->|Hx]; [left; reflexivity|right; apply in_or_app; auto].
Qed.
Lemma build_cell Rl addPlane rMax ivMap : rdet Rl <> 0 -> slices Rl addPlane -> extent Rl rMax ->
  Permutation ivMap (candidates Rl (maxSq Rl (initialVertices Rl))) -> by_distance Rl ivMap ->
  (forall y, poly Rl (build Rl addPlane rMax ivMap) y <-> in_cell Rl y) /\ (forall l, In l (build Rl addPlane rMax ivMap) -> nonzero l).
Proof.
  intros D SL EX PE SO. set (r := maxSq Rl (initialVertices Rl)) in *. assert (Pr : 0 <= r) by apply maxSq_pos.
  destruct (slice_ok Rl addPlane rMax (inside_initial Rl)) with (l := ivMap) (p := map img (initialFaces Rl)) (r := r) as [_ Q].
  { intros p a G y Hy. apply G. apply (proj2 (SL p a)) in Hy. tauto. }
  { intros p a y _. apply (proj2 (SL p a)). }
  { intros p y G Hy. apply EX; assumption. }
  { intros y Hy. exact Hy. }
  { intros y Hy. apply initial_bound; assumption. }
  { exact SO. }
  split.
  - intros y. unfold build. fold r. rewrite Q. split.
    + intros [A B] l. destruct (Z_le_gt_dec (zlen2 l) 1) as [S|S].
      * destruct (small_vec l S) as [->|(k & s & K & Hs & ->)]; [apply zero_closer|]. apply A, in_initial. exists k, s. auto.
      * destruct (Rlt_dec (cart2 Rl (vIZR l)) (4 * r)) as [L|L].
        -- apply B. apply (Permutation_in l (Permutation_sym PE)). apply in_candidates; [exact D|exact Pr|]. split; [lia|exact L].
        -- eapply far_closer; [apply initial_bound; eassumption|]. fold r. lra.
    + intros H. split; intros l _; apply H.
  - intros l Hl. unfold build in Hl. fold r in Hl. apply slice_incl in Hl; [|intros p a; apply (SL p a)]. apply in_app_or in Hl. destruct Hl as [Hl|Hl].
    + apply (Permutation_in l PE), in_candidates in Hl; [|exact D|exact Pr]. destruct Hl as [Hl _]. intros ->. revert Hl. vm_compute. discriminate.
    + apply in_initial in Hl. destruct Hl as (k & s & K & Hs & ->). unfold nonzero, unitZ. destruct Hs; subst s; destruct k as [|[|[|]]]; try lia; discriminate.
Qed.
(** face pairs *)
Lemma veqb_eq a b : veqb a b = true <-> a = b.
Proof.
  destruct a as [a0 a1 a2], b as [b0 b1 b2]. unfold veqb. cbn [c0 c1 c2]. rewrite !andb_true_iff, !Z.eqb_eq. split; [intros [[-> ->] ->]; reflexivity|intros E; injection E as -> -> ->; auto].
Qed.
Lemma zvopp_inv a : zvopp (zvopp a) = a.
Proof. destruct a as [x y z]. unfold zvopp, gvopp, vmap. cbn [c0 c1 c2]. f_equal; lia. Qed.
Lemma pickHalf_ok : forall l done imgFace half r,
  (forall g, In g imgFace -> In g half) -> (forall g, In g half -> In g done) -> (forall g, In g done -> In g half \/ In (zvopp g) half) ->
  (forall g, In g half -> In (zvopp g) done \/ In g imgFace) ->
  pickHalf l imgFace half = Some r ->
  (forall g, In g r -> In g (done ++ l) /\ In (zvopp g) (done ++ l)) /\ (forall g, In g (done ++ l) -> In g r \/ In (zvopp g) r).
Proof.
  induction l as [|f l IH]; intros done imgFace half r I1 I2 I3 I4 E; cbn [pickHalf] in E.
  - destruct imgFace; [|discriminate]. injection E as <-. rewrite app_nil_r. split; [|exact I3]. intros g Hg. split; [auto|]. destruct (I4 g Hg) as [A|[]]; exact A.
  - replace (done ++ f :: l) with ((done ++ [f]) ++ l) by (rewrite <- app_assoc; reflexivity). destruct (existsb (veqb (zvopp f)) imgFace) eqn:X.
    + apply existsb_exists in X. destruct X as (g & Hg & Eg). apply veqb_eq in Eg. subst g. eapply IH; [| | | |exact E].
      * intros g Hg'. apply filter_In in Hg'. apply I1. tauto.
      * intros g Hg'. apply in_or_app. left. auto.
      * intros g Hg'. apply in_app_or in Hg'. destruct Hg' as [Hg'|[<-|[]]]; [auto|right; auto].
      * intros g Hg'. destruct (I4 g Hg') as [A|A]; [left; apply in_or_app; auto|].
        destruct (veqb (zvopp f) g) eqn:V; [apply veqb_eq in V; subst g; left; rewrite zvopp_inv; apply in_or_app; right; left; reflexivity|].
        right. apply filter_In. rewrite V. auto.
    + eapply IH; [| | | |exact E].
      * intros g [<-|Hg]; apply in_or_app; [right; left; reflexivity|left; auto].
      * intros g Hg. apply in_app_or in Hg. apply in_or_app. destruct Hg as [Hg|[<-|[]]]; [left; auto|right; left; reflexivity].
      * intros g Hg. apply in_app_or in Hg. destruct Hg as [Hg|[<-|[]]]; [destruct (I3 g Hg) as [A|A]; [left|right]; apply in_or_app; auto|left; apply in_or_app; right; left; reflexivity].
      * intros g Hg. apply in_app_or in Hg. destruct Hg as [Hg|[<-|[]]]; [|right; left; reflexivity]. destruct (I4 g Hg) as [A|A]; [left; apply in_or_app; auto|right; right; exact A].
Qed.
Lemma half_ok Rl addPlane rMax ivMap hs : rdet Rl <> 0 -> slices Rl addPlane -> extent Rl rMax ->
  Permutation ivMap (candidates Rl (maxSq Rl (initialVertices Rl))) -> by_distance Rl ivMap ->
  faceHalf Rl (build Rl addPlane rMax ivMap) = Some hs ->
  List.Forall (valid Rl) hs /\ bounds_cell Rl (map img hs).
Proof.
  intros D SL EX PE SO E. destruct (build_cell Rl addPlane rMax ivMap D SL EX PE SO) as [B N]. set (fs := build Rl addPlane rMax ivMap) in *.
  unfold faceHalf in E. destruct (pickHalf fs [] []) as [r|] eqn:P; [|discriminate]. cbn in E. injection E as <-.
  destruct (pickHalf_ok fs [] [] [] r) as [A C]; [intros ? []|intros ? []|intros ? []|intros ? []|exact P|]. cbn [app] in A, C. split.
  - apply List.Forall_forall. intros f Hf. apply in_map_iff in Hf. destruct Hf as (g & <- & Hg). split; [|reflexivity]. cbn [img bisector]. apply N, A, Hg.
  - intros y H. apply B. intros l Hl. destruct (C l Hl) as [G|G].
    + apply (H l). apply in_map_iff. exists (bisector Rl l). split; [reflexivity|apply in_map; exact G].
    + destruct (H (zvopp l)) as [_ Q]; [apply in_map_iff; exists (bisector Rl (zvopp l)); split; [reflexivity|apply in_map; exact G]|]. rewrite zvopp_inv in Q. exact Q.
Qed.
(** distance to the boundary *)
Definition fcons (iDir : option nat) (faces : list face) : list face := filter (considered iDir) faces.
Lemma boundary_filter Rl x iDir : forall faces m, boundaryLoop Rl faces iDir x m = boundaryLoop Rl (fcons iDir faces) None x m.
Proof.
  induction faces as [|f l IH]; intros m; [reflexivity|]. cbn [boundaryLoop fcons filter]. destruct (considered iDir f) eqn:C; [|apply IH].
  cbn [boundaryLoop considered]. destruct (Rlt_dec _ 0); [reflexivity|apply IH].
Qed.
Definition fgap (Rl : mat R) (f : face) (x : vec R) : R := 1/2 * (1 - Rabs (rdot (eqn f) x)).
Lemma boundary_out Rl x : forall faces m, (exists f, In f faces /\ fgap Rl f x < 0) -> boundaryLoop Rl faces None x m = Some 0.
Proof.
  induction faces as [|f l IH]; intros m (g & Hg & G); [destruct Hg|]. cbn [boundaryLoop considered]. fold (fgap Rl f x). destruct (Rlt_dec (fgap Rl f x) 0) as [L|L]; [reflexivity|].
  apply IH. destruct Hg as [->|Hg]; [contradiction|eauto].
Qed.
Definition fdsq (Rl : mat R) (f : face) (x : vec R) : R := fgap Rl f x * fgap Rl f x * cart2 Rl (vIZR (img f)).
Lemma boundary_in Rl x : forall faces m, (forall f, In f faces -> 0 <= fgap Rl f x) -> 
  (exists m', boundaryLoop Rl faces None x (Some m) = Some (sqrt m') /\ m' <= m /\ (forall f, In f faces -> m' <= fdsq Rl f x) /\ (m' = m \/ exists f, In f faces /\ m' = fdsq Rl f x)).
Proof.
  induction faces as [|f l IH]; intros m H; [exists m; cbn; repeat split; auto; [lra|intros ? []]|].
  cbn [boundaryLoop considered]. fold (fgap Rl f x). rewrite metric_cart. fold (fdsq Rl f x). destruct (Rlt_dec (fgap Rl f x) 0) as [L|L]; [specialize (H f (or_introl eq_refl)); lra|].
  cbv zeta. destruct (Rlt_dec (fdsq Rl f x) m) as [M|M].
  - destruct (IH (fdsq Rl f x)) as (m' & A & B & C & E); [intros g Hg; apply H; right; exact Hg|]. exists m'. split; [exact A|]. split; [lra|]. split.
    + intros g [<-|Hg]; auto.
    + right. destruct E as [->|(g & Hg & ->)]; [exists f|exists g]; split; cbn; auto.
  - destruct (IH m) as (m' & A & B & C & E); [intros g Hg; apply H; right; exact Hg|]. exists m'. split; [exact A|]. split; [lra|]. split.
    + intros g [<-|Hg]; [lra|auto].
    + destruct E as [->|(g & Hg & ->)]; [left; reflexivity|right; exists g; split; cbn; auto].
Qed.
Lemma boundary_first Rl x faces : faces <> [] -> (forall f, In f faces -> 0 <= fgap Rl f x) ->
  exists m', boundaryLoop Rl faces None x None = Some (sqrt m') /\ (forall f, In f faces -> m' <= fdsq Rl f x) /\ (exists f, In f faces /\ m' = fdsq Rl f x).
Proof.
  destruct faces as [|f l]; [congruence|]. intros _ H. cbn [boundaryLoop considered]. fold (fgap Rl f x). rewrite metric_cart. fold (fdsq Rl f x).
  destruct (Rlt_dec (fgap Rl f x) 0) as [L|L]; [specialize (H f (or_introl eq_refl)); lra|]. cbv zeta.
  destruct (boundary_in Rl x l (fdsq Rl f x)) as (m' & A & B & C & E); [intros g Hg; apply H; right; exact Hg|]. exists m'. split; [exact A|]. split.
  - intros g [<-|Hg]; auto.
  - destruct E as [->|(g & Hg & ->)]; [exists f|exists g]; split; cbn; auto.
Qed.
Lemma eqn_valid Rl f x : valid Rl f -> rdot (eqn f) x = 2 / cart2 Rl (vIZR (img f)) * ip Rl x (vIZR (img f)).
Proof. intros [_ F]. replace (eqn f) with (eqn (bisector Rl (img f))) by (rewrite <- F; reflexivity). apply eqn_ip. Qed.
Lemma beyond_iff Rl z l : beyond Rl z l <-> cart2 Rl (vIZR l) <= 2 * ip Rl z (vIZR l).
Proof. unfold beyond. rewrite cart_sub1. split; lra. Qed.
Lemma ip_add Rl x w l : ip Rl (rvadd x w) l = ip Rl x l + ip Rl w l.
Proof. unfold ip. destruct Rl, x, w, l. v3u. ring. Qed.
Lemma ip_scale Rl k l : ip Rl (rvscale k l) l = k * cart2 Rl l.
Proof. unfold ip, cart2. destruct Rl, l. v3u. ring. Qed.
Lemma cart_scale Rl k l : cart2 Rl (rvscale k l) = k * k * cart2 Rl l.
Proof. unfold cart2. destruct Rl, l. v3u. ring. Qed.
(** distance from x to the planes of one face *)
Lemma face_far Rl f x z : rdet Rl <> 0 -> valid Rl f -> 0 <= fgap Rl f x -> beyond Rl z (img f) \/ beyond Rl z (zvopp (img f)) -> fdsq Rl f x <= cart2 Rl (rvsub z x).
Proof.
  intros D W G B. assert (P := cart_lattice Rl (img f) D (proj1 W)). rewrite !beyond_iff, vIZR_opp, cart_opp, ip_opp in B. unfold fdsq, fgap in *. rewrite (eqn_valid Rl f x W) in *.
  assert (Z : ip Rl z (vIZR (img f)) = ip Rl x (vIZR (img f)) + ip Rl (rvsub z x) (vIZR (img f))) by (unfold ip; destruct Rl, x, z; generalize (vIZR (img f)); intros [p q r]; v3u; ring).
  rewrite Z in B. assert (C := ip_cs Rl (rvsub z x) (vIZR (img f))). assert (P' := cart_pos Rl (rvsub z x)).
  set (n := cart2 Rl (vIZR (img f))) in *. set (a := ip Rl x (vIZR (img f))) in *. set (w := ip Rl (rvsub z x) (vIZR (img f))) in *. set (q := cart2 Rl (rvsub z x)) in *.
  assert (E : 2 / n * a * n = 2 * a) by (field; lra). set (t := 2 / n * a) in *. clearbody t a w q n. clear Z D W.
  assert (X : (1/2 * (1 - Rabs t)) * n <= Rabs w).
  { unfold Rabs. destruct B; destruct (Rcase_abs t), (Rcase_abs w); nra. }
  assert (Y : Rabs w * Rabs w = w * w) by (unfold Rabs; destruct (Rcase_abs w); ring).
  set (g := 1/2 * (1 - Rabs t)) in *. apply Rmult_le_reg_r with n; [exact P|]. assert (0 <= g * n) by nra. nra.
Qed.
Lemma face_near Rl f x : rdet Rl <> 0 -> valid Rl f -> 0 <= fgap Rl f x ->
  exists z s, (s = img f \/ s = zvopp (img f)) /\ cart2 Rl (rvsub z (vIZR s)) = cart2 Rl z /\ cart2 Rl (rvsub z x) = fdsq Rl f x.
Proof.
  intros D W G. assert (P := cart_lattice Rl (img f) D (proj1 W)). unfold fdsq, fgap in *. rewrite (eqn_valid Rl f x W) in *.
  set (n := cart2 Rl (vIZR (img f))) in *. set (a := ip Rl x (vIZR (img f))) in *. assert (E : 2 / n * a * n = 2 * a) by (field; lra). set (t := 2 / n * a) in *.
  assert (Q : forall w, rvsub (rvadd x w) x = w) by (intros w; destruct x, w; v3u; f_equal; ring).
  unfold Rabs. destruct (Rcase_abs t) as [T|T].
  - exists (rvadd x (rvscale (- (1/2 * (1 - - t))) (vIZR (img f)))), (zvopp (img f)). split; [auto|]. split.
    + rewrite cart_sub1, vIZR_opp, cart_opp, ip_opp, ip_add, ip_scale. fold n a. assert (n * t = 2 * a) by lra. nra.
    + rewrite Q, cart_scale. fold n. ring.
  - exists (rvadd x (rvscale (1/2 * (1 - t)) (vIZR (img f)))), (img f). split; [auto|]. split.
    + rewrite cart_sub1, ip_add, ip_scale. fold n a. assert (n * t = 2 * a) by lra. nra.
    + rewrite Q, cart_scale. fold n. ring.
Qed.
Lemma gap_neg Rl f x : rdet Rl <> 0 -> valid Rl f -> fgap Rl f x < 0 <-> ~ (closer Rl 0 x (img f) /\ closer Rl 0 x (zvopp (img f))).
Proof.
  intros D W. assert (P := cart_lattice Rl (img f) D (proj1 W)). rewrite !closer_iff, vIZR_opp, cart_opp, ip_opp. unfold fgap. rewrite (eqn_valid Rl f x W).
  set (n := cart2 Rl (vIZR (img f))) in *. set (a := ip Rl x (vIZR (img f))) in *. assert (E : 2 / n * a * n = 2 * a) by (field; lra). set (t := 2 / n * a) in *. clearbody t a n.
  unfold Rabs. destruct (Rcase_abs t); split.
  - intros H [A B]. nra.
  - intros H. apply Rnot_le_lt. intros L. apply H. split; nra.
  - intros H [A B]. nra.
  - intros H. apply Rnot_le_lt. intros L. apply H. split; nra.
Qed.
Lemma inRadius_boundary Rl faces iDir : inRadius Rl faces iDir = boundaryDistance Rl faces (V 0 0 0) iDir.
Proof.
  unfold inRadius, boundaryDistance. assert (Z : forall f, Rabs (rdot (eqn f) (V 0 0 0)) = 0). { intros f. replace (rdot (eqn f) (V 0 0 0)) with 0; [apply Rabs_R0|]. destruct (eqn f) as [a b c]. v3u. ring. }
  assert (G : forall l a, (match a with None => True | Some m => 0 <= m end) ->
    option_map (fun m => 1/2 * sqrt m) (fold_left (fun rSqMin f => if considered iDir f then let rSq := metric2 (RTR Rl) (vIZR (img f)) in match rSqMin with None => Some rSq | Some m => if Rlt_dec rSq m then Some rSq else Some m end else rSqMin) l a)
    = boundaryLoop Rl l iDir (V 0 0 0) (option_map (fun m => 1/4 * m) a)).
  { induction l as [|f l IH]; intros a Ha; cbn [fold_left boundaryLoop].
    - destruct a as [m|]; cbn; [|reflexivity]. f_equal. symmetry. replace (1/4 * m) with (1/2 * (1/2) * m) by field. rewrite sqrt_mult, sqrt_square by lra. reflexivity.
    - destruct (considered iDir f); [|apply IH; exact Ha]. rewrite Z. destruct (Rlt_dec (1/2 * (1 - 0)) 0); [lra|]. cbv zeta.
      rewrite metric_cart. assert (P := cart_pos Rl (vIZR (img f))). set (q := cart2 Rl (vIZR (img f))) in *.
      replace (1 / 2 * (1 - 0) * (1 / 2 * (1 - 0)) * q) with (1/4 * q) by field. destruct a as [m|]; cbn [option_map].
      + destruct (Rlt_dec q m), (Rlt_dec (1/4 * q) (1/4 * m)); try lra; [apply (IH (Some q)); exact P|apply (IH (Some m)); exact Ha].
      + apply (IH (Some q)). exact P. }
  apply (G faces None I).
Qed.
Lemma neighbours_all isTruncated faces : getNeighbours isTruncated faces = map img faces.
Proof.
  unfold getNeighbours. assert (G : forall l a, fold_left (fun nb f => (fold_left (fun nb k => if isTruncated k && negb (vget (img f) k =? 0)%Z then nb else nb) [0;1;2]%nat nb) ++ [img f]) l a = a ++ map img l).
  { induction l as [|f l IH]; intros a; cbn [fold_left map]; [rewrite app_nil_r; reflexivity|]. rewrite IH. rewrite <- app_assoc. cbn [app].
    do 3 match goal with |- context [if ?b then ?x else ?x] => replace (if b then x else x) with x by (destruct b; reflexivity) end. reflexivity. }
  apply (G faces []).
Qed.

(** the statements *)
Lemma nearest Rl faces : rdet Rl <> 0 -> List.Forall (valid Rl) faces -> bounds_cell Rl (map img faces) -> forall x, exists fuel0 y,
  (forall fuel, (fuel0 <= fuel)%nat -> reduce fuel faces x = Some y) /\ equivalent x y /\ cart2 Rl y <= cart2 Rl x /\ forall l, closer Rl (2 * tol) y l.
Proof.
  intros D V C x. destruct (reduce_ok Rl faces D V x) as (n & y & A & B & E & F). exists n, y. repeat (split; [assumption|]).
  exact (cell_tol Rl faces y D V C F).
Qed.
Lemma face_violated Rl faces z : bounds_cell Rl (map img faces) -> ~ in_cell Rl z -> exists f, In f faces /\ ~ (closer Rl 0 z (img f) /\ closer Rl 0 z (zvopp (img f))).
Proof.
  intros B N. apply NNPP. intros Q. apply N, B. intros l Hl. apply in_map_iff in Hl. destruct Hl as (f & <- & Hf). apply NNPP. intros R. apply Q. exists f. auto.
Qed.
Lemma not_closer Rl z l : ~ closer Rl 0 z l -> beyond Rl z l.
Proof. unfold closer, beyond. intros H. lra. Qed.
Lemma distance_ok Rl faces : rdet Rl <> 0 -> List.Forall (valid Rl) faces -> bounds_cell Rl (map img faces) -> faces <> [] -> forall x,
  exists d, boundaryDistance Rl faces x None = Some d /\ 0 <= d /\ (~ in_cell Rl x -> d = 0) /\
  (in_cell Rl x -> (forall z, ~ in_cell Rl z -> d * d <= cart2 Rl (rvsub z x)) /\
    exists z l, nonzero l /\ cart2 Rl (rvsub z (vIZR l)) = cart2 Rl z /\ cart2 Rl (rvsub z x) = d * d).
Proof.
  intros D V B NE x. rewrite List.Forall_forall in V. unfold boundaryDistance. destruct (classic (in_cell Rl x)) as [I|I].
  - assert (G : forall f, In f faces -> 0 <= fgap Rl f x).
    { intros f Hf. apply Rnot_lt_le. intros L. apply (gap_neg Rl f x D (V f Hf)) in L. apply L. split; apply I. }
    destruct (boundary_first Rl x faces NE G) as (m & E & Lo & f & Hf & Em).
    assert (P : 0 <= m). { rewrite Em. unfold fdsq. assert (Q := cart_pos Rl (vIZR (img f))). assert (0 <= fgap Rl f x * fgap Rl f x) by nra. nra. }
    exists (sqrt m). split; [exact E|]. split; [apply sqrt_pos|]. split; [contradiction|]. intros _. rewrite sqrt_sqrt by exact P. split.
    + intros z Nz. destruct (face_violated Rl faces z B Nz) as (g & Hg & Q). eapply Rle_trans; [apply Lo; exact Hg|]. apply face_far; [exact D|apply V; exact Hg|apply G; exact Hg|].
      destruct (classic (closer Rl 0 z (img g))) as [C|C]; [right|left]; apply not_closer; tauto.
    + destruct (face_near Rl f x D (V f Hf) (G f Hf)) as (z & s & Hs & E1 & E2). exists z, s. split; [|split; [exact E1|rewrite E2; symmetry; exact Em]].
      destruct (V f Hf) as [N _]. destruct Hs as [->| ->]; [exact N|]. intros Q. apply N. rewrite <- (zvopp_inv (img f)), Q. reflexivity.
  - exists 0. split; [|split; [lra|split; [reflexivity|contradiction]]]. apply boundary_out. destruct (face_violated Rl faces x B I) as (f & Hf & Q). exists f. split; [exact Hf|].
    apply gap_neg; auto.
Qed.
(** the simplest slicing routine, for examples *)
Lemma slices_cons Rl : slices Rl (fun p a => a :: p).
Proof.
  intros p a. split; [intros x Hx; exact Hx|]. intros y. split.
  - intros H. split; [intros l Hl; apply H; right; exact Hl|apply H; left; reflexivity].
  - intros [A B] l [<-|Hl]; auto.
Qed.
Lemma extent_const Rl : rdet Rl <> 0 -> extent Rl (fun _ => maxSq Rl (initialVertices Rl)).
Proof. intros D p I y Hy. apply initial_bound; [exact D|]. apply I, Hy. Qed.
Lemma sorted_exists Rl (l : list (vec Z)) : exists s, Permutation s l /\ by_distance Rl s.
Proof.
  assert (INS : forall a s, by_distance Rl s -> exists t, Permutation t (a :: s) /\ by_distance Rl t).
  { intros a. induction s as [|b s IH]; intros S; [exists [a]; split; [reflexivity|repeat constructor]|].
    inversion S as [|? ? S' F]; subst. destruct (Rle_dec (cart2 Rl (vIZR a)) (cart2 Rl (vIZR b))) as [L|L].
    - exists (a :: b :: s). split; [reflexivity|]. constructor; [exact S|]. constructor; [exact L|]. eapply List.Forall_impl; [|exact F]. cbv beta. intros c H. lra.
    - destruct (IH S') as (t & P & T). exists (b :: t). split; [rewrite P; apply perm_swap|]. constructor; [exact T|].
      apply List.Forall_forall. intros c Hc. apply (Permutation_in c P) in Hc. destruct Hc as [<-|Hc]; [lra|]. rewrite List.Forall_forall in F. apply F, Hc. }
  induction l as [|a l (s & P & S)]; [exists []; split; [reflexivity|constructor]|]. destruct (INS a s S) as (t & Q & T). exists t. split; [rewrite Q, P; reflexivity|exact T].
Qed.
(** the cubic lattice *)
Definition cubicFaces : list face := map (bisector rid) [V 1 0 0; V 0 1 0; V 0 0 1]%Z.
Lemma cubic_valid : List.Forall (valid rid) cubicFaces.
Proof. repeat constructor; unfold nonzero; discriminate. Qed.
Lemma half_int a y : -1/2 <= y <= 1/2 -> 2 * (y * IZR a) <= IZR a * IZR a.
Proof.
  intros Y. destruct (Z_lt_le_dec a 0) as [L|L]; [|destruct (Z.eq_dec a 0) as [->|N]].
  - assert (IZR a <= -1) by (apply (IZR_le a (-1)); lia). nra.
  - lra.
  - assert (1 <= IZR a) by (apply (IZR_le 1 a); lia). nra.
Qed.
Lemma ip_id y l : ip rid y l = c0 y * c0 l + c1 y * c1 l + c2 y * c2 l.
Proof. unfold ip. destruct y as [y0 y1 y2], l as [a b c]. v3u. ring. Qed.
Lemma cart_id l : cart2 rid l = c0 l * c0 l + c1 l * c1 l + c2 l * c2 l.
Proof. unfold cart2. destruct l as [a b c]. v3u. ring. Qed.
Lemma cubic_bounds : bounds_cell rid (map img cubicFaces).
Proof.
  intros [y0 y1 y2] H l. assert (A := H (V 1 0 0)%Z ltac:(cbn; auto)). assert (B := H (V 0 1 0)%Z ltac:(cbn; auto)). assert (C := H (V 0 0 1)%Z ltac:(cbn; auto)). clear H.
  rewrite !closer_iff, !ip_id, !cart_id in *. cbn [vIZR vmap zvopp gvopp c0 c1 c2] in *. destruct l as [a b c]. cbn [c0 c1 c2] in *. change (- (1))%Z with (-1)%Z in *. change (- 0)%Z with 0%Z in *.
  assert (Ha := half_int a y0 ltac:(lra)). assert (Hb := half_int b y1 ltac:(lra)). assert (Hc := half_int c y2 ltac:(lra)). lra.
Qed.
Lemma cubic_fdist k x : fdist (bisector rid (unitZ k 1)) x = 1/2 * (1 + 2 * vget x (Nat.min k 2)).
Proof.
  unfold fdist. rewrite eqn_ip, cart_id, ip_id. unfold unitZ. destruct x as [x0 x1 x2].
  destruct k as [|[|k]]; [| |replace (Nat.min (S (S k)) 2) with 2%nat by lia]; cbn [vset vIZR vmap c0 c1 c2 vget Nat.min]; field; lra.
Qed.
Lemma reduceFace_in x c f : - tol <= fdist f x <= 1 + tol -> reduceFace (x, c) f = (x, c).
Proof. intros H. rewrite reduceFace_eq. apply outside_false in H. rewrite H. reflexivity. Qed.
Lemma reduceFace_out x c f n : (1 + tol < fdist f x \/ fdist f x < - tol) -> IZR n <= fdist f x < IZR n + 1 -> reduceFace (x, c) f = (rvsub x (rvscale (IZR n) (vIZR (img f))), true).
Proof.
  intros H F. rewrite reduceFace_eq. assert (E : rfloor (fdist f x) = n) by (apply rfloor_unique; lra || exact F); rewrite E. destruct (outside (fdist f x)) eqn:O; [reflexivity|].
  apply outside_false in O. lra.
Qed.
Lemma cubic_reduce : reduce 2 cubicFaces (V (7/10) 0 (-23/10)) = Some (V (-3/10) 0 (-3/10)).
Proof.
  assert (T : 0 < tol < 1/10) by (unfold tol; lra).
  unfold cubicFaces. cbn [map]. change (V 1 0 0)%Z with (unitZ 0 1). change (V 0 1 0)%Z with (unitZ 1 1). change (V 0 0 1)%Z with (unitZ 2 1).
  cbn [reduce fold_left].
  rewrite (reduceFace_out _ _ _ 1%Z); [|left; rewrite cubic_fdist; cbn [vget Nat.min c0]; lra|rewrite cubic_fdist; cbn [vget Nat.min c0]; lra].
  set (x1 := rvsub _ _). assert (E1 : x1 = V (-3/10) 0 (-23/10)) by (unfold x1, unitZ; cbn [bisector img vset c0 c1 c2]; v3u; f_equal; field). rewrite E1. clear x1 E1.
  rewrite (reduceFace_in _ _ (bisector rid (unitZ 1 1))); [|rewrite cubic_fdist; cbn [vget Nat.min c1]; lra].
  rewrite (reduceFace_out _ _ _ (-2)%Z); [|right; rewrite cubic_fdist; cbn [vget Nat.min c2]; lra|rewrite cubic_fdist; cbn [vget Nat.min c2]; lra].
  set (x1 := rvsub _ _). assert (E1 : x1 = V (-3/10) 0 (-3/10)) by (unfold x1, unitZ; cbn [bisector img vset c0 c1 c2]; v3u; f_equal; field). rewrite E1. clear x1 E1.
  rewrite !reduceFace_in; [reflexivity| | |]; rewrite cubic_fdist; cbn [vget Nat.min c0 c1 c2]; lra.
Qed.
Lemma cubic_det : rdet rid <> 0.
Proof. v3u. intros H. lra. Qed.
