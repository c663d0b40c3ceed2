(** Statements in terms of the specification, and examples. *)
From Coq Require Import ZArith Reals List Bool Lia Lra Psatz.
From Coquelicot Require Import Coquelicot.
From Verif Require Import Base Gauss Grid_Model Vec3_Model Vec3_Facts Lattice_Model RealUtil Basis_Model Coulomb_Model Coulomb_Proofs Coulomb_Proofs3 WS_Model Ions_Model CellMap_Spec CellMap_Proofs
  VdW_Model VdW_Spec VdW_Proofs VdW_Proofs2 VdW_Proofs3 VdW_Proofs4 Ewald_Model Ewald_Spec Ewald_Proofs Ewald_Proofs2 Ewald_Proofs3 Ewald_Proofs4 Ewald_Proofs6 Ewald_Proofs7 Ewald_Proofs8 Ewald_Proofs9.
Import ListNotations.
Local Open Scope R_scope.
Set Bullet Behavior "Strict Subproofs".

Lemma box_in N box g : centred_box N box -> ~ In g box -> ~ In g (boxLoop N).
Proof. intros B H I. apply H. apply (Permutation.Permutation_in _ (Permutation.Permutation_sym (box_unique N box B)) I). Qed.
Lemma real_cutoff Rl sigma n pos hp box c1 c2 g : rdet Rl <> 0 -> 0 < sigma -> (forall c, (c < n)%nat -> home (pos c) (hp c)) -> centred_box (NrealP Rl sigma) box ->
  (c1 < n)%nat -> (c2 < n)%nat -> ~ In g box ->
  (exists k, (k < 3)%nat /\ widths * sigma + planeSpacing Rl k < distance Rl hp c1 c2 g) /\ erfc (distance Rl hp c1 c2 g / (sqrt 2 * sigma)) < / 2 ^ 59.
Proof.
  intros D S H B L1 L2 G. destruct (periodic_real_reach Rl sigma n pos hp c1 c2 g D S H L1 L2 (box_in _ _ _ B G)) as (k & K & R). split.
  - exists k. split; [exact K|]. rewrite <- nSig_widths, <- rowLen_spacing by assumption. exact R.
  - apply erfc_small; [exact S|]. assert (P : 0 < 2 * PI / rowLen Rl k) by (apply Rdiv_lt_0_compat; [assert (P := PI_RGT_0); lra|apply rowLen_pos; assumption]). lra.
Qed.
Lemma recip_cutoff Rl sigma box g : rdet Rl <> 0 -> 0 < sigma -> centred_box (NrecipP Rl sigma) box -> ~ In g box ->
  (exists k, (k < 3)%nat /\ widths / sigma + 2 * PI / rlen (latticeVec Rl k) < rlen (recipVec Rl g)) /\ exp (- (sigma * rlen (recipVec Rl g)) ^ 2 / 2) < / 2 ^ 59.
Proof.
  intros D S B G. destruct (periodic_recip_reach Rl sigma g D S (box_in _ _ _ B G)) as (k & K & R). split.
  - exists k. split; [exact K|]. rewrite <- nSig_widths, <- colLen_lattice. exact R.
  - apply recip_small; [exact S|]. assert (P : 0 < 2 * PI / colLen Rl k) by (apply Rdiv_lt_0_compat; [assert (P := PI_RGT_0); lra|apply colLen_pos; assumption]). lra.
Qed.
Lemma slab_real_cutoff Rl sigma i n x0 pos hp box c1 c2 g : rdet Rl <> 0 -> 0 < sigma -> (forall c, (c < n)%nat -> homeSlab i x0 (pos c) (hp c)) -> centred_box (NrealS Rl sigma i) box ->
  (c1 < n)%nat -> (c2 < n)%nat -> inPlane i g -> ~ In g box ->
  (exists k, (k < 3)%nat /\ k <> i /\ widths * sigma + planeSpacing Rl k < distance Rl hp c1 c2 g) /\ erfc (distance Rl hp c1 c2 g / (sqrt 2 * sigma)) < / 2 ^ 59.
Proof.
  intros D S H B L1 L2 Pl G. destruct (slab_real_reach Rl sigma i n x0 pos hp c1 c2 g D S H L1 L2 (planar_in _ _ Pl) (box_in _ _ _ B G)) as (k & K & N & R). split.
  - exists k. split; [exact K|]. split; [exact N|]. rewrite <- nSig_widths, <- rowLen_spacing by assumption. exact R.
  - apply erfc_small; [exact S|]. assert (P : 0 < 2 * PI / rowLen Rl k) by (apply Rdiv_lt_0_compat; [assert (P := PI_RGT_0); lra|apply rowLen_pos; assumption]). lra.
Qed.
Lemma slab_recip_cutoff Rl sigma i box g : rdet Rl <> 0 -> 0 < sigma -> centred_box (NrecipS Rl sigma i) box -> inPlane i g -> ~ In g box ->
  (exists k, (k < 3)%nat /\ k <> i /\ widths / sigma + 2 * PI / rlen (latticeVec Rl k) < rlen (recipVec Rl g)) /\ exp (- (sigma * rlen (recipVec Rl g)) ^ 2 / 2) < / 2 ^ 59.
Proof.
  intros D S B Pl G. destruct (slab_recip_reach Rl sigma i g D S (planar_in _ _ Pl) (box_in _ _ _ B G)) as (k & K & N & R). split.
  - exists k. split; [exact K|]. split; [exact N|]. rewrite <- nSig_widths, <- colLen_lattice. exact R.
  - apply recip_small; [exact S|]. assert (P : 0 < 2 * PI / colLen Rl k) by (apply Rdiv_lt_0_compat; [assert (P := PI_RGT_0); lra|apply colLen_pos; assumption]). lra.
Qed.
Lemma slab_one_layer Rl sigma i x y z : (In (x, y, z) (boxLoop (NrealS Rl sigma i)) \/ In (x, y, z) (boxLoop (NrecipS Rl sigma i))) -> (i < 3)%nat -> inPlane i (x, y, z).
Proof.
  intros H I. rewrite !in_boxLoop in H. unfold NrealS, NrecipS in H. unfold inPlane. destruct i as [|[|[|i]]]; [| | |lia]; cbn [Nat.eqb] in H; cbn in H; lia.
Qed.
Lemma refSlab_along i pos : (i < 3)%nat -> refSlab i pos = alongAxis i (entry (pos 0%nat) i).
Proof. intros I. unfold refSlab, unit3, alongAxis, comp, entry. destruct i as [|[|[|i]]]; [| | |lia]; reflexivity. Qed.
Lemma homeSlab_centred i p x : (i < 3)%nat -> homeSlab i p x (centred (unit3 i (comp p i)) x).
Proof.
  intros I. split; [apply integral_centred|]. intros k K. cbv zeta. assert (B : forall x p, p - 1/2 <= centred1 x p < p + 1/2) by (intros u v; unfold centred1; assert (A := rfloor_bounds (1/2 + u - v)); lra).
  unfold centred, unit3, comp, entry. destruct k as [|[|[|k]]]; [| | |lia]; destruct i as [|[|[|i]]]; try lia; cbn [Nat.eqb c0 c1 c2]; apply B.
Qed.
Lemma slab_gradient_spec Rl sigma i margin NR NG n Zc pos f s r eps d : 0 < sigma -> (i < 3)%nat -> rdet Rl <> 0 -> distinct_atoms n pos ->
  off_edges n pos (fun _ => alongAxis i (entry (pos 0%nat) i)) ->
  (forall hp c1 c2 g, (forall c, (c < n)%nat -> homeSlab i (pos 0%nat) (pos c) (hp c)) -> (c1 < n)%nat -> (c2 < n)%nat -> In g (boxLoop NG) ->
    rlen (recipVec Rl g) * Rabs (rlen (latticeVec Rl i) * entry (rvsub (hp c1) (hp c2)) i) <> 100) ->
  ewaldSlab Rl sigma i margin NR NG n Zc pos f s = Some r ->
  is_derive (fun t => match ewaldSlab (strained Rl eps t) sigma i margin NR NG n Zc (displaced pos d t) f s with Some a => energy a | None => 0 end) 0
    (contraction (rmsub (latt r) s) eps - workOf n (added f (force r)) d).
Proof.
  intros Sp Di D Dis Off H100 Run. apply slab_gradient; auto.
  - rewrite refSlab_along by exact Di. exact Off.
  - intros c1 c2 g L1 L2 Ig. specialize (H100 (fun c => centred (unit3 i (comp (pos 0%nat) i)) (pos c)) c1 c2 g (fun c _ => homeSlab_centred i (pos 0%nat) (pos c) Di) L1 L2 Ig).
    rewrite metric_len, <- recipVec_gG, slabL_len. exact H100.
Qed.
Lemma slab_stops Rl sigma i margin NR NG n Zc pos hp f s : (i < 3)%nat -> rdet Rl <> 0 -> perpendicular Rl i -> (forall c, (c < n)%nat -> homeSlab i (pos 0%nat) (pos c) (hp c)) ->
  ewaldSlab Rl sigma i margin NR NG n Zc pos f s = None ->
  exists c1 c2, (c1 < n)%nat /\ (c2 < n)%nat /\ rlen (latticeVec Rl i) / 2 - margin <= Rabs (height Rl i (rmv Rl (rvsub (hp c1) (hp c2)))).
Proof.
  intros Di D P H Run. unfold ewaldSlab in Run. destruct (Nat.eqb n 0); [discriminate|]. set (p := fun c => centred (unit3 i (comp (pos 0%nat) i)) (pos c)) in *. rewrite slab_run in Run. destruct (Req_EM_T _ 0); [discriminate|].
  destruct (allok i margin n Rl p) eqn:Ok; [discriminate|]. clear Run. unfold allok in Ok.
  assert (E : exists c1, In c1 (seq 0 n) /\ forallb (okp i margin Rl p c1) (seq 0 (S c1)) = false).
  { clear -Ok. induction (seq 0 n) as [|a l IH]; [discriminate|]. cbn [forallb] in Ok. apply andb_false_iff in Ok. destruct Ok as [Ok|Ok]; [exists a; split; [left; reflexivity|exact Ok]|]. destruct (IH Ok) as (b & I & F). exists b. split; [right; exact I|exact F]. }
  destruct E as (c1 & I1 & F1). assert (E : exists c2, In c2 (seq 0 (S c1)) /\ okp i margin Rl p c1 c2 = false).
  { clear -F1. induction (seq 0 (S c1)) as [|a l IH]; [discriminate|]. cbn [forallb] in F1. apply andb_false_iff in F1. destruct F1 as [Ok|Ok]; [exists a; split; [left; reflexivity|exact Ok]|]. destruct (IH Ok) as (b & I & F). exists b. split; [right; exact I|exact F]. }
  destruct E as (c2 & I2 & F2). apply in_seq in I1. apply in_seq in I2. exists c1, c2. split; [lia|]. split; [lia|]. unfold okp in F2. destruct (Rle_dec _ _) as [Le|]; [|discriminate].
  rewrite height_z by assumption. rewrite (homeSlab_unique i _ _ _ Di (H c1 ltac:(lia))), (homeSlab_unique i _ _ _ Di (H c2 ltac:(lia))). unfold z12, r12, p in Le. rewrite <- slabL_len. lra.
Qed.
Lemma iso_margin Rl reduce bd Rc margin n Zc pos f s r c1 c2 : ewaldIsolated Rl Rc margin bd n Zc reduce pos f s = Some r -> (c1 < n)%nat -> (c2 < c1)%nat ->
  let x := rvsub (rvadd (pos 0%nat) (reduce (rvsub (pos c1) (pos 0%nat)))) (rvadd (pos 0%nat) (reduce (rvsub (pos c2) (pos 0%nat)))) in
  (Rc = 0 -> margin < bd x) /\ (Rc <> 0 -> rlen (rmv Rl x) < Rc - margin).
Proof.
  intros Run L1 L2. cbv zeta. rewrite iso_run in Run. destruct (allI _ _ _ _ _ _) eqn:Ok; [|discriminate]. unfold allI in Ok. rewrite forallb_forall in Ok. specialize (Ok c1 ltac:(apply in_seq; lia)). rewrite forallb_forall in Ok. specialize (Ok c2 ltac:(apply in_seq; lia)).
  unfold okI in Ok. cbv zeta in Ok. fold (at0 reduce pos c1) (at0 reduce pos c2). rewrite metric2_RTR in Ok. change (sqrt (rlen2 (rmv Rl (rvsub (at0 reduce pos c1) (at0 reduce pos c2))))) with (rlen (rmv Rl (rvsub (at0 reduce pos c1) (at0 reduce pos c2)))) in Ok.
  split; intros H; destruct (Req_EM_T Rc 0) as [E|E]; try contradiction.
  - destruct (Rle_dec _ _); [discriminate|lra].
  - destruct (Rle_dec _ _); [discriminate|lra].
Qed.
Lemma field_threshold_spec thr Rl E k : rdet Rl <> 0 -> (k < 3)%nat -> Rabs (RT_E thr Rl E k - rdot (latticeVec Rl k) E) <= Rabs thr * rlen E * rlen (latticeVec Rl k).
Proof. intros D K. apply field_threshold; [exact D|exact K|apply colLen_pos; assumption]. Qed.
Lemma field_periodic_spec thr isTrunc Rl E x y k z : (k < 3)%nat -> isTrunc k = false -> entry y k = entry x k + IZR z -> fieldTerm (splitEfield thr isTrunc Rl E) y k = fieldTerm (splitEfield thr isTrunc Rl E) x k.
Proof. intros _. apply field_periodic. Qed.

(** ** Examples *)
Definition exPos (c : nat) : vec R := if Nat.eqb c 0 then V 0 0 0 else V (1/3) (1/4) (1/5).
Lemma frac (a b z : Z) x : (0 < b)%Z -> x * IZR b = IZR a -> x = IZR z -> (a = z * b)%Z.
Proof. intros B E H. rewrite H, <- mult_IZR in E. apply eq_IZR in E. lia. Qed.
Lemma exPos_cases c : (c < 2)%nat -> exPos c = V 0 0 0 /\ c = 0%nat \/ exPos c = V (1/3) (1/4) (1/5) /\ c = 1%nat.
Proof. intros H. destruct c as [|[|c]]; [left|right|lia]; split; reflexivity. Qed.
Lemma ex_distinct : distinct_atoms 2 exPos.
Proof.
  intros a b A B (x & y & z & E). destruct (exPos_cases a A) as [[Ea ->]|[Ea ->]], (exPos_cases b B) as [[Eb ->]|[Eb ->]]; try reflexivity; rewrite Ea, Eb in E; v3h E; injection E as E0 E1 E2; exfalso.
  - apply (frac (-1) 3) in E0; [lia|lia|lra].
  - apply (frac 1 3) in E0; [lia|lia|lra].
Qed.
Lemma ex_off p : (p = V 0 0 0) -> off_edges 2 exPos (fun _ => p).
Proof.
  intros -> c L. destruct (exPos_cases c L) as [[E _]|[E _]]; rewrite E; cbn [c0 c1 c2]; unfold off_edge; repeat match goal with |- _ /\ _ => split end; intros z H.
  - apply (frac 1 2) in H; [lia|lia|lra].
  - apply (frac 1 2) in H; [lia|lia|lra].
  - apply (frac 1 2) in H; [lia|lia|lra].
  - apply (frac 5 6) in H; [lia|lia|lra].
  - apply (frac 3 4) in H; [lia|lia|lra].
  - apply (frac 7 10) in H; [lia|lia|lra].
Qed.
Lemma ex_det : rdet (rdiag 2 2 2) <> 0. Proof. unfold rdiag, gdiag. v3u. lra. Qed.
Lemma example_periodic : 0 < 1 /\ rdet (rdiag 2 2 2) <> 0 /\ distinct_atoms 2 exPos /\ off_edges 2 exPos (fun _ => V 0 0 0) /\ exPos 1%nat = V (1/3) (1/4) (1/5).
Proof. split; [lra|]. split; [exact ex_det|]. split; [exact ex_distinct|]. split; [apply ex_off; reflexivity|reflexivity]. Qed.
Lemma example_images : equivalent 2 exPos (fun c => rvadd (exPos c) (V 3 (-2) 1)) /\ home (V (4/3) (-3/4) (1/5)) (V (1/3) (1/4) (1/5)) /\ centred_box (1, 0, 0)%Z [(-1, 0, 0); (0, 0, 0); (1, 0, 0)]%Z.
Proof.
  split; [|split].
  - intros c _. exists 3%Z, (-2)%Z, 1%Z. generalize (exPos c). intros u. destruct u. v3u. f_equal; ring.
  - split; [exists (-1)%Z, 1%Z, 0%Z; v3u; f_equal; lra|]. cbn [c0 c1 c2]. lra.
  - assert (E : [(-1, 0, 0); (0, 0, 0); (1, 0, 0)]%Z = boxLoop (1, 0, 0)%Z) by reflexivity. rewrite E. apply boxLoop_ok.
Qed.
Lemma ex_home c : (c < 2)%nat -> home (exPos c) (exPos c).
Proof.
  intros L. split; [exists 0%Z, 0%Z, 0%Z; generalize (exPos c); intros u; destruct u; v3u; f_equal; ring|]. destruct (exPos_cases c L) as [[-> _]|[-> _]]; cbn [c0 c1 c2]; lra.
Qed.
Lemma example_cutoff : rdet (rdiag 2 2 2) <> 0 /\ (forall c, (c < 2)%nat -> home (exPos c) (exPos c)) /\ inPlane 2 (5, -7, 0)%Z /\ forall N, exists box, centred_box N box.
Proof. split; [exact ex_det|]. split; [exact ex_home|]. split; [reflexivity|]. intros N. exists (boxLoop N). apply boxLoop_ok. Qed.
Lemma ex_homeSlab c : (c < 2)%nat -> homeSlab 2 (exPos 0%nat) (exPos c) (exPos c).
Proof.
  intros L. split; [exact (proj1 (ex_home c L))|]. intros k K. destruct (ex_home c L) as (_ & A & B & C). unfold entry. cbn [exPos Nat.eqb c2]. destruct k as [|[|[|k]]]; [| | |lia]; cbn [Nat.eqb]; lra.
Qed.
Lemma example_slab : exists r, ewaldSlab (rdiag 2 2 2) 1 2 (1/10) (1, 1, 0)%Z (1, 1, 0)%Z 2 (fun _ => 1) exPos (fun _ => V 0 0 0) (rdiag 0 0 0) = Some r /\
  perpendicular (rdiag 2 2 2) 2 /\ off_edges 2 exPos (fun _ => alongAxis 2 (entry (exPos 0%nat) 2)) /\ (forall c, (c < 2)%nat -> homeSlab 2 (exPos 0%nat) (exPos c) (exPos c)) /\
  (forall hp c1 c2 g, (forall c, (c < 2)%nat -> homeSlab 2 (exPos 0%nat) (exPos c) (hp c)) -> (c1 < 2)%nat -> (c2 < 2)%nat -> In g (boxLoop (1, 1, 0)%Z) ->
    rlen (recipVec (rdiag 2 2 2) g) * Rabs (rlen (latticeVec (rdiag 2 2 2) 2) * entry (rvsub (hp c1) (hp c2)) 2) <> 100).
Proof.
  assert (P : perpendicular (rdiag 2 2 2) 2).
  { split; [lia|]. intros j J N. destruct j as [|[|[|j]]]; try lia; unfold latticeVec, rdiag, gdiag; cbn; unfold rdot, gdot; cbn; ring. }
  assert (Lc : rlen (latticeVec (rdiag 2 2 2) 2) = 2) by (unfold rlen, latticeVec, rdiag, gdiag; cbn; replace (rlen2 _) with (2 ^ 2); [apply sqrt_pow2; lra|v3u; ring]).
  assert (Hz : forall c1 c2, (c1 < 2)%nat -> (c2 < 2)%nat -> Rabs (2 * entry (rvsub (exPos c1) (exPos c2)) 2) <= 2/5).
  { intros c1 c2 L1 L2. destruct (exPos_cases c1 L1) as [[-> _]|[-> _]], (exPos_cases c2 L2) as [[-> _]|[-> _]]; unfold entry; v3u; apply Rabs_le; lra. }
  destruct (ewaldSlab (rdiag 2 2 2) 1 2 (1/10) (1, 1, 0)%Z (1, 1, 0)%Z 2 (fun _ => 1) exPos (fun _ => V 0 0 0) (rdiag 0 0 0)) as [r|] eqn:Run.
  2: { exfalso. destruct (slab_stops (rdiag 2 2 2) 1 2 (1/10) _ _ 2 _ exPos exPos _ _ ltac:(lia) ex_det P ex_homeSlab Run) as (c1 & c2 & L1 & L2 & H). rewrite height_z in H by (exact ex_det || exact P). rewrite slabL_len, Lc in H. specialize (Hz c1 c2 L1 L2). change (entry (rvsub (exPos c1) (exPos c2)) 2) with (comp (rvsub (exPos c1) (exPos c2)) 2) in Hz. lra. }
  exists r. split; [reflexivity|]. split; [exact P|]. split; [apply ex_off; unfold alongAxis, entry; cbn; reflexivity|]. split; [exact ex_homeSlab|].
  intros hp c1 c2 g H L1 L2 Ig. rewrite (homeSlab_unique 2 _ _ _ ltac:(lia) (H c1 L1)), (homeSlab_unique 2 _ _ _ ltac:(lia) (H c2 L2)).
  rewrite <- (homeSlab_unique 2 _ _ _ ltac:(lia) (ex_homeSlab c1 L1)), <- (homeSlab_unique 2 _ _ _ ltac:(lia) (ex_homeSlab c2 L2)). rewrite Lc. specialize (Hz c1 c2 L1 L2). assert (P0 := Rabs_pos (2 * entry (rvsub (exPos c1) (exPos c2)) 2)).
  assert (G : rlen (recipVec (rdiag 2 2 2) g) <= 8).
  { destruct g as [[x y] z]. rewrite in_boxLoop in Ig. cbn [v0 v1 v2 fst snd] in Ig. assert (X : -1 <= IZR x <= 1) by (split; apply IZR_le; lia). assert (Y : -1 <= IZR y <= 1) by (split; apply IZR_le; lia). assert (Z : IZR z = 0) by (replace z with 0%Z by lia; reflexivity).
    unfold rlen. replace (rlen2 (recipVec (rdiag 2 2 2) (x, y, z))) with (PI * PI * (IZR x * IZR x + IZR y * IZR y + IZR z * IZR z)).
    - rewrite Z. assert (P1 := PI_RGT_0). assert (P4 := PI_4). replace 8 with (sqrt (8 ^ 2)) by (apply sqrt_pow2; lra). apply sqrt_le_1_alt. assert (IZR x * IZR x <= 1) by nra. assert (IZR y * IZR y <= 1) by nra. assert (0 <= IZR x * IZR x) by nra. assert (0 <= IZR y * IZR y) by nra. assert (PI * PI <= 16) by nra. assert (0 < PI * PI) by nra. nra.
    - unfold recipVec, rinv, rdiag, gdiag. v3u. cbn. field. }
  assert (Gp := sqrt_pos (rlen2 (recipVec (rdiag 2 2 2) g))). fold (rlen (recipVec (rdiag 2 2 2) g)) in Gp. nra.
Qed.
Lemma example_isolated : exists r, ewaldIsolated (rdiag 2 2 2) 5 (1/10) (fun _ => 1) 2 (fun _ => 1) (fun x => x) exPos (fun _ => V 0 0 0) (rdiag 0 0 0) = Some r /\ apart 2 exPos /\ c0 (V (1/2) (1/2) 1) * IZR 2 = 1.
Proof.
  rewrite iso_run. assert (Ok : allI 5 (1/10) 2 (rdiag 2 2 2) (fun _ => 1) (at0 (fun x => x) exPos) = true).
  { unfold allI. cbn [seq forallb]. unfold okI. cbv zeta. destruct (Req_EM_T 5 0); [lra|]. destruct (Rle_dec _ _) as [H|H]; [exfalso|reflexivity]. rewrite metric2_RTR in H.
    assert (B : sqrt (rlen2 (rmv (rdiag 2 2 2) (rvsub (at0 (fun x => x) exPos 1) (at0 (fun x => x) exPos 0)))) <= 2).
    { replace 2 with (sqrt (2 ^ 2)) at 4 by (apply sqrt_pow2; lra). apply sqrt_le_1_alt. unfold at0, exPos, rdiag, gdiag. cbn [Nat.eqb]. v3u. lra. }
    lra. }
  rewrite Ok. eexists. split; [reflexivity|]. split; [|cbn [c0]; lra]. intros a b A B E. apply (ex_distinct a b A B). rewrite E. exists 0%Z, 0%Z, 0%Z. generalize (exPos b). intros u. destruct u. v3u. f_equal; ring.
Qed.
Lemma iso_energy_spec Rc margin n Zc Rl boundary reduce pos f s r : ewaldIsolated Rl Rc margin boundary n Zc reduce pos f s = Some r ->
  energy r = coulombLaw Rl n Zc (fun c => rvadd (pos 0%nat) (reduce (rvsub (pos c) (pos 0%nat)))).
Proof. exact (iso_energy Rc margin n Zc (fun _ => V 0 0 0) Rl boundary reduce pos f s r). Qed.
Lemma field_potential_spec rw xCenter n Zc reduce pos e f : (forall c, (c < n)%nat -> reduce (rvsub (pos c) xCenter) = rvsub (pos c) xCenter) ->
  fst (fieldAtoms rw xCenter n Zc pos (e, f)) = e - rsum (fun c => Zc c * fieldPotential rw reduce xCenter (pos c)) (seq 0 n).
Proof. exact (field_potential rw xCenter n Zc (fun _ => V 0 0 0) reduce pos e f). Qed.

(** ** The widths *)
Lemma scale_det k Rl : rdet (rmscale k Rl) = k ^ 3 * rdet Rl.
Proof. destruct Rl. v3u. ring. Qed.
Lemma scale_col k Rl j : 0 < k -> colLen (rmscale k Rl) j = k * colLen Rl j.
Proof.
  intros K. unfold colLen, rlen. replace (rlen2 (mrow (mtrans (rmscale k Rl)) j)) with (k * k * rlen2 (mrow (mtrans Rl) j)) by (destruct Rl, j as [|[|j]]; v3u; cbn; ring). rewrite sqrt_mult_alt by nra. f_equal. apply sqrt_square. lra.
Qed.
Lemma scale_row k Rl j : 0 < k -> rdet Rl <> 0 -> rowLen (rmscale k Rl) j = / k * rowLen Rl j.
Proof.
  intros K D. unfold rowLen, rlen. assert (I : 0 < / k) by (apply Rinv_0_lt_compat; exact K). assert (E : gG (rmscale k Rl) = rmscale (/ k) (gG Rl)).
  { unfold gG. assert (Q : rinv (rmscale k Rl) = rmscale (/ k) (rinv Rl)) by (unfold rinv; rewrite scale_det; destruct Rl; v3h D; v3u; f_equal; field; split; lra || exact D). rewrite Q. generalize (rinv Rl). intros B. destruct B. v3u. f_equal; ring. }
  rewrite E. replace (rlen2 (mrow (rmscale (/ k) (gG Rl)) j)) with (/ k * / k * rlen2 (mrow (gG Rl) j)) by (generalize (gG Rl); intros B; destruct B, j as [|[|j]]; v3u; cbn; ring). rewrite sqrt_mult_alt by nra. f_equal. apply sqrt_square. lra.
Qed.
Lemma ratio_pos Rl j : rdet Rl <> 0 -> (j < 3)%nat -> 0 < colLen Rl j / rowLen Rl j.
Proof. intros D J. apply Rdiv_lt_0_compat; [apply colLen_pos|apply rowLen_pos]; assumption. Qed.
Lemma scale_ratio k Rl j : 0 < k -> rdet Rl <> 0 -> (j < 3)%nat -> colLen (rmscale k Rl) j / rowLen (rmscale k Rl) j = k * k * (colLen Rl j / rowLen Rl j).
Proof. intros K D J. rewrite scale_col, scale_row by assumption. assert (P := rowLen_pos Rl j D J). field. lra. Qed.
Lemma Rpower_root k m x : 0 < k -> 0 < x -> (0 < m)%nat -> Rpower (k ^ m * x) (1 / INR m) = k * Rpower x (1 / INR m).
Proof.
  intros K X M'. rewrite <- Rpower_mult_distr by (try apply pow_lt; assumption). f_equal. rewrite <- Rpower_pow by exact K. rewrite Rpower_mult. replace (INR m * (1 / INR m)) with 1 by (field; apply not_0_INR; lia). apply Rpower_1. exact K.
Qed.
Lemma widths_scale Rl k n i : 0 < k -> rdet Rl <> 0 -> (i < 3)%nat ->
  0 < sigmaPeriodic Rl n /\ 0 < sigmaSlab Rl i /\ sigmaPeriodic (rmscale k Rl) n = k * sigmaPeriodic Rl n /\ sigmaSlab (rmscale k Rl) i = k * sigmaSlab Rl i.
Proof.
  intros K D I. assert (P0 := ratio_pos Rl 0 D ltac:(lia)). assert (P1 := ratio_pos Rl 1 D ltac:(lia)). assert (P2 := ratio_pos Rl 2 D ltac:(lia)). assert (N : 0 < IZR (Z.max 1 (Z.of_nat n))) by (apply IZR_lt; lia).
  split; [apply exp_pos|]. split; [apply exp_pos|]. split.
  - unfold sigmaPeriodic. rewrite !scale_ratio by (assumption || lia). set (a := colLen Rl 0 / rowLen Rl 0) in *. set (b := colLen Rl 1 / rowLen Rl 1) in *. set (c := colLen Rl 2 / rowLen Rl 2) in *. clearbody a b c. set (m := IZR (Z.max 1 (Z.of_nat n))) in *. clearbody m.
    replace (k * k * a * (k * k * b) * (k * k * c) / m) with (k ^ 6 * (a * b * c / m)) by (field; intros Z; rewrite Z in N; lra). assert (E := Rpower_root k 6 (a * b * c / m) K). replace (INR 6) with 6 in E by (cbn; ring). apply E; [|lia]. apply Rdiv_lt_0_compat; [repeat apply Rmult_lt_0_compat; assumption|exact N].
  - unfold sigmaSlab. cbn [fold_left]. rewrite !scale_ratio by (assumption || lia). set (a := colLen Rl 0 / rowLen Rl 0) in *. set (b := colLen Rl 1 / rowLen Rl 1) in *. set (c := colLen Rl 2 / rowLen Rl 2) in *.
    clearbody a b c. assert (Qab := Rmult_lt_0_compat _ _ P0 P1). assert (Qac := Rmult_lt_0_compat _ _ P0 P2). assert (Qbc := Rmult_lt_0_compat _ _ P1 P2). assert (W : forall x, 0 < x -> Rpower (k ^ 4 * x) (1 / 4) = k * Rpower x (1 / 4)) by (intros x X; assert (E := Rpower_root k 4 x K X ltac:(lia)); replace (INR 4) with 4 in E by (cbn; ring); exact E).
    destruct i as [|[|[|i]]]; [| | |lia]; cbn [Nat.eqb]; [assert (Q : 0 < 5 * (1 * b * c)) by nra|assert (Q : 0 < 5 * (1 * a * c)) by nra|assert (Q : 0 < 5 * (1 * a * b)) by nra]; (etransitivity; [|apply W; exact Q]); f_equal; ring.
Qed.
