(** Use of the extracted kernels. *)
From Coq Require Import ZArith Reals List Bool Lia Lra Psatz.
From Verif Require Import Base RealUtil Grid_Model Grid_Spec Grid_Proofs Vec3_Model Vec3_Facts Coulomb_Proofs Lattice_Model CellMap_Proofs2 ExKernel_Model ExKernel_Spec ExKernel_Proofs ExKernel_Proofs2.
Import ListNotations.
Local Open Scope R_scope.

Definition inShift (S g n : V3) : Prop := (forall k, (k < 3)%nat -> - comp S k <= comp g k + comp n k < comp S k)%Z.
Lemma transformed_row S g off : pos3 S -> inShift S g (neg3 off) -> transformedIndex S g off = row_major S (v2 S) (add3 g (neg3 off)).
Proof.
  intros Ps H. assert (H0 := H 0%nat ltac:(lia)). assert (H1 := H 1%nat ltac:(lia)). assert (H2 := H 2%nat ltac:(lia)). destruct S as [[a b] c], g as [[x y] z], off as [[p q] r]. destruct Ps as (A & B & C).
  unfold transformedIndex. cbn [comp neg3 add3 v0 v1 v2 fst snd] in *. unfold row_major. rewrite !mod_wrap by lia.
  replace (x + - p)%Z with (x - p)%Z by ring. replace (y + - q)%Z with (y - q)%Z by ring. replace (z + - r)%Z with (z - r)%Z by ring. ring.
Qed.
Lemma row_alias S g g' L : aliased S g g' -> row_major S L g = row_major S L g'.
Proof. destruct S as [[a b] c], g as [[x y] z], g' as [[x' y'] z']. intros (A & B & C). unfold row_major. rewrite A, B, C. reflexivity. Qed.
Lemma representative S g : pos3 S -> exists g', G_point S g' /\ aliased S g g'.
Proof.
  destruct S as [[a b] c], g as [[x y] z]. intros (A & B & C).
  assert (H : forall s u, (0 < s)%Z -> exists u', (- s < 2 * u' <= s)%Z /\ (u mod s = u' mod s)%Z).
  { intros s u P. destruct (Z.leb_spec (2 * (u mod s)) s).
    - exists (u mod s)%Z. assert (Q := Z.mod_pos_bound u s P). split; [lia|]. rewrite Z.mod_mod by lia. reflexivity.
    - exists (u mod s - s)%Z. assert (Q := Z.mod_pos_bound u s P). split; [lia|]. rewrite <- (Z_mod_plus (u mod s - s) 1 s) by lia. replace (u mod s - s + 1 * s)%Z with (u mod s)%Z by ring. rewrite Z.mod_mod by lia. reflexivity. }
  destruct (H a x A) as (x' & ? & ?), (H b y B) as (y' & ? & ?), (H c z C) as (z' & ? & ?). exists (x', y', z'). cbn. auto.
Qed.
Lemma mult_small (k s d : Z) : (0 < s -> k * s = d -> - s < d < s -> d = 0)%Z.
Proof. intros P E B. assert (k = 0)%Z; [|subst k; lia]. destruct (Z.lt_trichotomy k 0) as [H|[H|H]]; [exfalso; assert (k * s <= - 1 * s)%Z by (apply Z.mul_le_mono_nonneg_r; lia); lia|exact H|exfalso; assert (1 * s <= k * s)%Z by (apply Z.mul_le_mono_nonneg_r; lia); lia]. Qed.
Lemma mod_inj (s u v : Z) : (- s < 2 * u <= s -> - s < 2 * v <= s -> u mod s = v mod s -> u = v)%Z.
Proof.
  intros U W E. assert (P : (0 < s)%Z) by (clear E; lia). assert (N : s <> 0%Z) by (clear E; lia). assert (D1 := Z.div_mod u s N). assert (D2 := Z.div_mod v s N). rewrite E in D1. clear E. revert D1 D2.
  generalize (u / s)%Z (v / s)%Z (v mod s)%Z. intros p q r D1 D2. assert (F : ((p - q) * s = u - v)%Z) by (rewrite D1, D2; ring). clear D1 D2.
  assert (Q := mult_small (p - q) s (u - v) P F). clear F. lia.
Qed.
Lemma alias_unique S g g' : G_point S g -> G_point S g' -> aliased S g g' -> g = g'.
Proof.
  destruct S as [[a b] c], g as [[x y] z], g' as [[x' y'] z']. intros (A & B & C) (A' & B' & C') (E0 & E1 & E2).
  rewrite (mod_inj a x x' A A' E0), (mod_inj b y y' B B' E1), (mod_inj c z z' C C' E2). reflexivity.
Qed.
Lemma near_round thr dk kDiff : roundError (rvsub dk kDiff) < thr -> shift_near thr dk kDiff (neg3 (ofVec (roundVec (rvsub dk kDiff)))).
Proof.
  intros H. destruct (round_comp _ _ H) as (A & B & C). set (r := roundVec (rvsub dk kDiff)) in *. clearbody r. destruct r as [r0 r1 r2], dk as [a b c], kDiff as [x y z].
  change (rvsub (V a b c) (V x y z)) with (V (a - x) (b - y) (c - z)) in *. unfold shift_near. cbn [c0 c1 c2 ofVec neg3 comp] in *. rewrite !opp_IZR.
  repeat split; [replace (x - a - - IZR r0) with (IZR r0 - (a - x)) by ring|replace (y - b - - IZR r1) with (IZR r1 - (b - y)) by ring|replace (z - c - - IZR r2) with (IZR r2 - (c - z)) by ring]; assumption.
Qed.
(** one step of the search *)
Lemma numerical_step {A} thr S (kernelData : nat -> Z -> A) (ext : vec R -> V3 -> option A) dks kDiff g : pos3 S -> 0 < thr ->
  (forall dk n, In dk dks -> shift_near thr dk kDiff n -> inShift S g n) ->
  (exists dk, In dk dks /\ circDistanceSquared dk kDiff < thr * thr) ->
  forall ik0, (forall ik dk, nth_error dks ik = Some dk -> full_stores S (kernelData (ik0 + ik)%nat) (ext dk)) ->
  exists dk n g', In dk dks /\ shift_near thr dk kDiff n /\ G_point S g' /\ aliased S (add3 g n) g' /\ numericalKernel thr S kernelData dks ik0 kDiff g = ext dk g'.
Proof.
  intros Ps T. induction dks as [|d dks IH]; intros Sh (dk & I & Cd) ik0 St; [destruct I|]. cbn [numericalKernel]. cbv zeta.
  destruct (Rlt_dec (circDistanceSquared d kDiff) (thr * thr)) as [L|L].
  - destruct (Rlt_dec (roundError (rvsub d kDiff)) thr) as [E|E]; [|exfalso; apply E; apply circ_round; assumption].
    assert (Nr := near_round thr d kDiff E). set (off := ofVec (roundVec (rvsub d kDiff))) in *. assert (Is := Sh d (neg3 off) (or_introl eq_refl) Nr).
    destruct (representative S (add3 g (neg3 off)) Ps) as (g' & G & Al). exists d, (neg3 off), g'. split; [left; reflexivity|split; [exact Nr|split; [exact G|split; [exact Al|]]]].
    rewrite transformed_row by assumption. rewrite (row_alias _ _ _ _ Al). assert (Q := St 0%nat d eq_refl g' G). rewrite Nat.add_0_r in Q. rewrite Q.
    replace (snd S) with (v2 S) by reflexivity. apply readAt_in. apply full_row_range. exact Ps.
  - destruct I as [->|I]; [contradiction|]. destruct (IH (fun d' n Hd Hn => Sh d' n (or_intror Hd) Hn) (ex_intro _ dk (conj I Cd)) (Datatypes.S ik0)) as (d' & n & g' & Hd & R1).
    + intros ik dk' Hn. replace (Datatypes.S ik0 + ik)%nat with (ik0 + Datatypes.S ik)%nat by lia. apply St. exact Hn.
    + exists d', n, g'. split; [right; exact Hd|exact R1].
Qed.
Lemma circ_dkOf k0 k kDiff : circDistanceSquared (dkOf k0 k) kDiff = circDistanceSquared (rvsub k k0) kDiff.
Proof.
  unfold circDistanceSquared, dkOf. cbn [vmap c0 c1 c2]. unfold Rminus at 1 2 3. rewrite <- !opp_IZR, !circ1_shift. reflexivity.
Qed.
Lemma dk_match kmesh kDiff thr : (exists k, In k kmesh /\ circDistanceSquared (rvsub k (hd (V 0 0 0) kmesh)) kDiff < thr * thr) -> exists dk, In dk (dkArr kmesh) /\ circDistanceSquared dk kDiff < thr * thr.
Proof.
  intros (k & I & H). exists (dkOf (hd (V 0 0 0) kmesh) k). split; [apply in_map; exact I|]. rewrite circ_dkOf. exact H.
Qed.
Lemma G_shift S g n : pos3 S -> G_point S (add3 g n) -> inShift S g n.
Proof. destruct S as [[a b] c], g as [[x y] z], n as [[p q] r]. intros (A & B & C) (X & Y & Z1) k K. destruct k as [|[|[|k]]]; [| | |lia]; cbn; lia. Qed.
Lemma coord_shift super g n dk kDiff thr m k : (k < 3)%nat -> shift_near thr dk kDiff n -> Rabs (IZR m - superCoord super (add3 g n) dk k) < thr ->
  Rabs (IZR m - superCoord super g kDiff k) < thr * (1 + IZR (colSum super k)).
Proof.
  intros K (A & B & C) H. unfold superCoord, colSum in *. destruct g as [[x y] z], n as [[p q] r]. cbn [add3 comp] in *. rewrite !plus_IZR in H.
  set (s0 := mget super 0 k) in *. set (s1 := mget super 1 k) in *. set (s2 := mget super 2 k) in *. rewrite !plus_IZR, !abs_IZR.
  apply Rabs_def2 in H. set (e0 := c0 kDiff - c0 dk - IZR p) in *. set (e1 := c1 kDiff - c1 dk - IZR q) in *. set (e2 := c2 kDiff - c2 dk - IZR r) in *.
  assert (P : forall e s, Rabs e < thr -> - (thr * Rabs s) <= e * s <= thr * Rabs s).
  { intros e s E. assert (Q : Rabs (e * s) <= thr * Rabs s) by (rewrite Rabs_mult; apply Rmult_le_compat_r; [apply Rabs_pos|lra]). revert Q. unfold Rabs at 1. destruct (Rcase_abs _); intros; lra. }
  assert (P0 := P e0 (IZR s0) A). assert (P1 := P e1 (IZR s1) B). assert (P2 := P e2 (IZR s2) C).
  replace ((IZR x + c0 kDiff) * IZR s0 + (IZR y + c1 kDiff) * IZR s1 + (IZR z + c2 kDiff) * IZR s2) with
    ((IZR x + IZR p + c0 dk) * IZR s0 + (IZR y + IZR q + c1 dk) * IZR s1 + (IZR z + IZR r + c2 dk) * IZR s2 + (e0 * IZR s0 + e1 * IZR s1 + e2 * IZR s2)) by (unfold e0, e1, e2; ring).
  apply Rabs_def1; lra.
Qed.
Section Whole.
  Context {A : Type}.
  Variables (S : V3) (super : mat Z) (thr : R) (kmesh : list (vec R)) (dataSuper : Z -> A) (kernelData : nat -> Z -> A) (K : V3 -> A).
  Hypotheses (Ps : pos3 S) (C : forall k, (k < 3)%nat -> (1 <= colSum super k)%Z) (T0 : 0 < thr) (T1 : thr <= 1/2) (Ev : even K) (St : half_stores (Ssuper S super) dataSuper K).
  Hypothesis (Mesh : forall dk, In dk (dkArr kmesh) -> roundError (rvm dk (mIZR super)) < thr).
  Hypothesis (Fill : forall ik dk, nth_error (dkArr kmesh) ik = Some dk -> full_stores S (kernelData ik) (extractExchangeKernel thr (Ssuper S super) super dk dataSuper)).
  Lemma numerical_reads kDiff g : (exists k, In k kmesh /\ circDistanceSquared (rvsub k (hd (V 0 0 0) kmesh)) kDiff < thr * thr) ->
    (forall dk n, In dk (dkArr kmesh) -> shift_near thr dk kDiff n -> inShift S g n) ->
    exists dk n g' m, In dk (dkArr kmesh) /\ shift_near thr dk kDiff n /\ G_point S g' /\ aliased S (add3 g n) g' /\
      numericalKernel thr S kernelData (dkArr kmesh) 0 kDiff g = Some (K m) /\ forall k, (k < 3)%nat -> Rabs (IZR (comp m k) - superCoord super g' dk k) < thr.
  Proof.
    intros Ex Sh. destruct (numerical_step thr S kernelData (fun dk => extractExchangeKernel thr (Ssuper S super) super dk dataSuper) (dkArr kmesh) kDiff g Ps T0 Sh (dk_match _ _ _ Ex) 0 Fill) as (dk & n & g' & I & Nr & G & Al & E).
    assert (HB : halfBox dk) by (apply in_map_iff in I; destruct I as (k & <- & _); apply dkOf_box).
    destruct (extract_correct S super dk thr g' dataSuper K Ps C HB T1 G (Mesh dk I) Ev St) as (m & Em & Bm). exists dk, n, g', m. rewrite E. auto 10.
  Qed.
  Lemma numerical_correct kDiff g : (exists k, In k kmesh /\ circDistanceSquared (rvsub k (hd (V 0 0 0) kmesh)) kDiff < thr * thr) ->
    (forall dk n, In dk (dkArr kmesh) -> shift_near thr dk kDiff n -> G_point S (add3 g n)) ->
    exists m, numericalKernel thr S kernelData (dkArr kmesh) 0 kDiff g = Some (K m) /\ forall k, (k < 3)%nat -> Rabs (IZR (comp m k) - superCoord super g kDiff k) < thr * (1 + IZR (colSum super k)).
  Proof.
    intros Ex Sh. destruct (numerical_reads kDiff g Ex (fun dk n I Nr => G_shift S g n Ps (Sh dk n I Nr))) as (dk & n & g' & m & I & Nr & G & Al & E & B).
    assert (g' = add3 g n) by (symmetry; apply (alias_unique S); [apply (Sh dk); assumption|exact G|exact Al]). subst g'. exists m. split; [exact E|]. intros k Hk. apply (coord_shift super g n dk); auto.
  Qed.
End Whole.

(** real kernels *)
Lemma real_correct {A} S (kernel : Z -> A) K g : pos3 S -> G_point S g -> even K -> half_stores S kernel K ->
  (exists m, realKernel S kernel g = Some (K m) /\ aliased S g m) /\ (G_point S (neg3 g) -> realKernel S kernel g = Some (K g)).
Proof.
  intros Ps G Ev St. destruct (flip g) as [[x y] z] eqn:F. 
  assert (Q : (- v0 S <= 2 * x <= v0 S)%Z /\ (- v1 S <= 2 * y <= v1 S)%Z /\ (0 <= 2 * z <= v2 S)%Z).
  { unfold flip in F. destruct S as [[a b] c], g as [[g0 g1] g2]. cbn [v0 v1 v2 fst snd] in *. cbn in G. destruct (Z.ltb_spec g2 0); injection F as <- <- <-; lia. }
  destruct Q as (Q0 & Q1 & Q2). destruct (reduced_row S g x y z Ps F Q0 Q1 Q2) as (H & E & B).
  assert (R : realKernel S kernel g = Some (K (rep (v0 S) x, rep (v1 S) y, z))) by (unfold realKernel; rewrite readAt_in by exact B; rewrite E; f_equal; apply St; exact H).
  assert (Al : aliased S (flip g) (rep (v0 S) x, rep (v1 S) y, z)).
  { rewrite F. destruct S as [[a b] c]. destruct Ps as (PA & PB & PC). cbn. rewrite !rep_mod by assumption. auto. }
  split.
  - unfold flip in *. destruct (v2 g <? 0)%Z.
    + exists (neg3 (rep (v0 S) x, rep (v1 S) y, z)). split; [rewrite (Ev (_, _, _)); exact R|]. destruct S as [[a b] c], g as [[g0 g1] g2]. cbn in Al |- *. destruct Ps as (PA & PB & PC). destruct Al as (A0 & A1 & A2).
      assert (Ng : forall s u v, (0 < s -> (- u) mod s = v mod s -> u mod s = (- v) mod s)%Z).
      { intros s u v P0 E0. rewrite <- (Z.opp_involutive u) at 1. rewrite <- (Z.sub_0_l (- u)), <- (Z.sub_0_l v). rewrite Zminus_mod, E0, <- Zminus_mod. reflexivity. }
      auto.
    + eexists; split; [exact R|exact Al].
  - intros G'. rewrite R. f_equal. rewrite <- (even_flip K g Ev). f_equal. assert (GF : G_point S (flip g)) by (unfold flip; destruct (v2 g <? 0)%Z; assumption).
    symmetry. apply (alias_unique S); [exact GF| |exact Al]. destruct S as [[a b] c]. destruct Ps as (PA & PB & PC). destruct H as (Ha & Hb & Hc). cbn [v0 v1 v2 fst snd] in *. split; [exact Ha|split; [exact Hb|clear - PC Hc; lia]].
Qed.
