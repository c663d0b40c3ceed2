(** Properties of the translation operators. *)
From Coq Require Import ZArith Reals List Bool Lia Lra Permutation.
From Coquelicot Require Import Complex.
From Verif Require Import Base Grid_Model Grid_Spec Grid_Proofs Vec3_Model Vec3_Facts Lattice_Model RealUtil Convert_Model Convert_Spec Convert_Proofs Basis_Model Basis_Spec Basis_Proofs Deriv_Model Deriv_Spec Deriv_Proofs Deriv_Proofs2
  Coulomb_Proofs Translate_Model Translate_Spec Translate_Proofs Translate_Proofs2.
Import ListNotations.
Local Open Scope R_scope.

Lemma run ty S Rl s t alpha x y : pos3 S -> execution S s ->
  exists y', taxpy ty S Rl s t alpha x y = Some y' /\ fscale y' = 1 /\
    (forall g, r_point S g -> per S (value y') g = per S (valueO y) g + alpha * shifted ty S (gridUnits S Rl t) (value x) g) /\
    (forall k, ~ (0 <= k < count S)%Z -> value y' k = valueO y k).
Proof.
  intros P (fuel & nT & T & F & H). replace (count S) with (nr S) by (destruct S as [[a b] c]; reflexivity).
  exact (taxpy_ok ty S Rl fuel nT s t alpha x y P T F H).
Qed.
Lemma execution_exists S : pos3 S -> forall nT, (0 < nT)%Z -> exists s, execution S s.
Proof.
  intros P nT T. destruct (schedule_exists S (Z.to_nat (nr S + 1)) nT P T) as [s H].
  - assert (Q := nr_pos S P). lia.
  - exists s, (Z.to_nat (nr S + 1)), nT. split; [exact T|]. split; [|exact H]. assert (Q := nr_pos S P). lia.
Qed.
(** grid coordinates *)
Lemma units_position S Rl t u : pos3 S -> rdet Rl <> 0 -> position Rl S u = rvopp t -> u = gridUnits S Rl t.
Proof.
  destruct S as [[a b] c]. intros (Pa & Pb & Pc) D E. unfold gridUnits. rewrite <- E. unfold position. cbn [v0 v1 v2 fst snd].
  rewrite <- rmv_mm, (rinv_l Rl D). apply IZR_lt in Pa, Pb, Pc. destruct u as [u0 u1 u2]. v3u. f_equal; field; lra.
Qed.
Lemma position_units S Rl t : pos3 S -> rdet Rl <> 0 -> position Rl S (gridUnits S Rl t) = rvopp t.
Proof.
  destruct S as [[a b] c]. intros (Pa & Pb & Pc) D. unfold gridUnits, position. cbn [v0 v1 v2 fst snd c0 c1 c2].
  apply IZR_lt in Pa, Pb, Pc. set (w := rmv (rinv Rl) (rvopp t)).
  replace (V (IZR a * c0 w / IZR a) (IZR b * c1 w / IZR b) (IZR c * c2 w / IZR c)) with w.
  - unfold w. rewrite <- rmv_mm, (rinv_r Rl D). destruct t. v3u. f_equal; ring.
  - destruct w. cbn. f_equal; field; lra.
Qed.
Lemma position_sub S Rl u v : pos3 S -> position Rl S (rvsub u v) = rvsub (position Rl S u) (position Rl S v).
Proof.
  destruct S as [[a b] c]. intros (Pa & Pb & Pc). unfold position. apply IZR_lt in Pa, Pb, Pc. destruct u as [u0 u1 u2], v as [w0 w1 w2], Rl. v3u. f_equal; field; lra.
Qed.
Lemma units_opp S Rl t : gridUnits S Rl (rvopp t) = oppv (gridUnits S Rl t).
Proof. unfold gridUnits, oppv. cbn [c0 c1 c2]. generalize (rinv Rl). intros m. destruct m, t. v3u. f_equal; ring. Qed.

Lemma constant_spec S Rl s t alpha x y : pos3 S -> rdet Rl <> 0 -> execution S s -> exists y' m,
  taxpy Constant S Rl s t alpha x y = Some y' /\
  (forall u, position Rl S u = rvopp t -> nearest (c0 u) (fst (fst m)) /\ nearest (c1 u) (snd (fst m)) /\ nearest (c2 u) (snd m)) /\
  (forall g, r_point S g -> per S (value y') g = per S (valueO y) g + alpha * per S (value x) (plus3 g m)).
Proof.
  intros P D X. destruct (run Constant S Rl s t alpha x y P X) as (y' & E & _ & H & _). exists y', (Tshift Constant (gridUnits S Rl t)).
  split; [exact E|]. split.
  - intros u U. rewrite (units_position S Rl t u P D U). cbn [Tshift fst snd]. auto using roundSym_nearest.
  - intros g G. rewrite (H g G). unfold shifted, corner. cbn [Tweight c0 c1 c2]. rewrite plus3_0. ring.
Qed.
Lemma linear_spec S Rl s t alpha x y : pos3 S -> rdet Rl <> 0 -> execution S s -> exists y',
  taxpy Linear S Rl s t alpha x y = Some y' /\
  forall g u a b c, r_point S g -> position Rl S u = rvsub (position Rl S (vgrid g)) t -> below (c0 u) a -> below (c1 u) b -> below (c2 u) c ->
    per S (value y') g = per S (valueO y) g + alpha * trilerp u (a, b, c) (per S (value x)).
Proof.
  intros P D X. destruct (run Linear S Rl s t alpha x y P X) as (y' & E & _ & H & _). exists y'. split; [exact E|].
  intros g u a b c G U A B C. rewrite (H g G). do 2 f_equal.
  set (T := gridUnits S Rl t).
  assert (W : u = rvadd (vgrid g) T).
  { assert (Q : rvsub u (vgrid g) = T).
    { apply units_position; try assumption. rewrite position_sub by exact P. rewrite U. generalize (position Rl S (vgrid g)). intros w. destruct w, t. v3u. f_equal; ring. }
    rewrite <- Q. generalize (vgrid g). intros w. destruct u, w. v3u. f_equal; ring. }
  assert (W0 : c0 u = IZR (v0 g) + c0 T) by (rewrite W; destruct g as [[p q] r]; reflexivity).
  assert (W1 : c1 u = IZR (v1 g) + c1 T) by (rewrite W; destruct g as [[p q] r]; reflexivity).
  assert (W2 : c2 u = IZR (v2 g) + c2 T) by (rewrite W; destruct g as [[p q] r]; reflexivity).
  unfold below in *. rewrite W0 in A. rewrite W1 in B. rewrite W2 in C. clearbody T. clear W U E H.
  assert (Ea : rfloor (c0 T) = (a - v0 g)%Z) by (apply rfloor_unique; rewrite minus_IZR; lra).
  assert (Eb : rfloor (c1 T) = (b - v1 g)%Z) by (apply rfloor_unique; rewrite minus_IZR; lra).
  assert (Ec : rfloor (c2 T) = (c - v2 g)%Z) by (apply rfloor_unique; rewrite minus_IZR; lra).
  unfold shifted, trilerp. rewrite corner_lerp. unfold lerpw, lerp. cbn [Tweight Tshift c0 c1 c2]. rewrite W0, W1, W2, Ea, Eb, Ec, !minus_IZR.
  destruct g as [[p q] r]. cbn [v0 v1 v2 fst snd plus3].
  replace (p + (a - p) + 0)%Z with a by ring. replace (p + (a - p) + 1)%Z with (a + 1)%Z by ring.
  replace (q + (b - q) + 0)%Z with b by ring. replace (q + (b - q) + 1)%Z with (b + 1)%Z by ring.
  replace (r + (c - r) + 0)%Z with c by ring. replace (r + (c - r) + 1)%Z with (c + 1)%Z by ring. ring.
Qed.
Lemma sum_kept ty S Rl s t alpha x y : pos3 S -> execution S s -> exists y',
  taxpy ty S Rl s t alpha x y = Some y' /\ total S (value y') = total S (valueO y) + alpha * total S (value x).
Proof.
  intros P X. destruct (run ty S Rl s t alpha x y P X) as (y' & E & _ & H & _). exists y'. split; [exact E|].
  rewrite !total_gsum by exact P. rewrite <- (shifted_total ty S (gridUnits S Rl t) (value x) P), <- gsum_scale, <- gsum_add. apply gsum_ext; assumption.
Qed.
Lemma grid_exact ty S Rl s n alpha x y : pos3 S -> rdet Rl <> 0 -> execution S s -> exists y',
  taxpy ty S Rl s (position Rl S (vgrid n)) alpha x y = Some y' /\
  forall g, r_point S g -> per S (value y') g = per S (valueO y) g + alpha * per S (value x) (minus3 g n).
Proof.
  intros P D X. set (t := position Rl S (vgrid n)). destruct (run ty S Rl s t alpha x y P X) as (y' & E & _ & H & _). exists y'. split; [exact E|].
  intros g G. rewrite (H g G). do 2 f_equal.
  assert (T : gridUnits S Rl t = oppv (vgrid n)).
  { symmetry. apply units_position; try assumption. unfold t. replace (oppv (vgrid n)) with (rvsub (V 0 0 0) (vgrid n)).
    - rewrite position_sub by exact P. destruct S as [[a b] c]. unfold position at 1. generalize (position Rl (a,b,c) (vgrid n)). intros w. destruct w, Rl. v3u. unfold Rdiv. f_equal; ring.
    - generalize (vgrid n). intros w. destruct w. unfold oppv. v3u. f_equal; ring. }
  unfold shifted. rewrite T. destruct n as [[n0 n1] n2], g as [[p q] r]. unfold oppv, vgrid. cbn [c0 c1 c2]. rewrite <- !opp_IZR.
  destruct ty; cbn [Tshift Tweight c0 c1 c2].
  - rewrite !roundSym_int. unfold corner. cbn [c0 c1 c2 plus3 minus3]. rewrite !Z.add_0_r. unfold Z.sub. ring.
  - rewrite !rfloor_IZR. unfold corner. cbn [c0 c1 c2 plus3 minus3]. rewrite !Z.add_0_r. unfold Z.sub. ring.
Qed.
Lemma adjoint ty S Rl s s' t x z : pos3 S -> execution S s -> execution S s' -> exists x' z',
  taxpy ty S Rl s t 1 x None = Some x' /\ taxpy ty S Rl s' (rvopp t) 1 z None = Some z' /\
  inner S (value z) (value x') = inner S (value z') (value x).
Proof.
  intros P X X'. destruct (run ty S Rl s t 1 x None P X) as (x' & E & _ & H & _). destruct (run ty S Rl s' (rvopp t) 1 z None P X') as (z' & E' & _ & H' & _).
  exists x', z'. split; [exact E|]. split; [exact E'|]. unfold inner. rewrite !total_gsum by exact P.
  transitivity (gsum S (fun g => per S (value z) g * shifted ty S (gridUnits S Rl t) (value x) g)).
  - apply gsum_ext; [exact P|]. intros g G. specialize (H g G). unfold per at 2 in H. cbn [valueO] in H. unfold per in *. rewrite H. ring.
  - rewrite shifted_adjoint by exact P. apply gsum_ext; [exact P|]. intros g G. specialize (H' g G). unfold per at 2 in H'. cbn [valueO] in H'. rewrite units_opp in H'. unfold per in *. rewrite H'. ring.
Qed.
Lemma mix lo hi f a b : 0 <= f <= 1 -> lo <= a <= hi -> lo <= b <= hi -> lo <= (1 - f) * a + f * b <= hi.
Proof. intros. split; nra. Qed.
Lemma bounds ty S Rl s t x lo hi : pos3 S -> execution S s -> (forall i, (0 <= i < count S)%Z -> lo <= value x i <= hi) -> exists y',
  taxpy ty S Rl s t 1 x None = Some y' /\ forall i, (0 <= i < count S)%Z -> lo <= value y' i <= hi.
Proof.
  intros P X B. destruct (run ty S Rl s t 1 x None P X) as (y' & E & _ & H & _). exists y'. split; [exact E|]. intros i Hi.
  assert (Hn : count S = nr S) by (destruct S as [[a b] c]; reflexivity). rewrite Hn in *.
  destruct (r_init_spec S i P Hi) as [G Ei]. specialize (H _ G). unfold per at 1 2 in H. cbn [valueO] in H. change (snd S) with (v2 S) in H. rewrite Ei in H. rewrite H.
  assert (Q : forall g, lo <= per S (value x) g <= hi) by (intros g; apply B; change (snd S) with (v2 S); apply full_row_range; exact P).
  rewrite Rplus_0_l, Rmult_1_l. unfold shifted. rewrite corner_lerp. unfold lerpw.
  assert (F : forall k, 0 <= vget (Tweight ty (gridUnits S Rl t)) k <= 1).
  { intros k. destruct ty; [destruct k as [|[|k]]; cbn; lra|]. generalize (gridUnits S Rl t). intros T.
    destruct k as [|[|k]]; cbn [Tweight vget c0 c1 c2]; match goal with |- context [rfloor ?a] => assert (Bf := rfloor_bounds a) end; lra. }
  repeat apply mix; try apply Q; first [apply (F 0%nat)|apply (F 1%nat)|apply (F 2%nat)].
Qed.
(** direction *)
Lemma direction : exists S Rl s t x y', pos3 S /\ rdet Rl <> 0 /\ execution S s /\ t = position Rl S (vgrid (1,0,0)%Z) /\
  taxpy Linear S Rl s t 1 x None = Some y' /\ per S (value y') (0,0,0)%Z <> per S (value x) (plus3 (0,0,0)%Z (1,0,0)%Z).
Proof.
  assert (P : pos3 (3,1,1)%Z) by (cbn; lia). destruct (execution_exists (3,1,1)%Z P 1) as [s X]; [lia|].
  assert (D : rdet rid <> 0) by (v3u; lra).
  destruct (grid_exact Linear (3,1,1)%Z rid s (1,0,0)%Z 1 (Field 1 IZR) None P D X) as (y' & E & H).
  exists (3,1,1)%Z, rid, s, (position rid (3,1,1)%Z (vgrid (1,0,0)%Z)), (Field 1 IZR), y'.
  repeat (split; [first [exact P|exact D|exact X|reflexivity|exact E]|]). rewrite H by (cbn; lia).
  unfold per, value, row_major, minus3, plus3. cbn [fst snd valueO fscale fdata]. change (((0 - 1) mod 3 * 1 + (0 - 0) mod 1) * 1 + (0 - 0) mod 1)%Z with 2%Z. change (((0 + 1) mod 3 * 1 + (0 + 0) mod 1) * 1 + (0 + 0) mod 1)%Z with 1%Z. intros Q. lra.
Qed.
(** Fourier translation, on the coefficients *)
Lemma cis_mul a b : ((cos a, sin a) * (cos b, sin b))%C = (cos (a + b), sin (a + b)).
Proof. unfold Cmult. cbn [fst snd]. rewrite cos_plus, sin_plus. f_equal; ring. Qed.
Lemma fourier_compose G S t u X i : fourierTranslate G S t (fourierTranslate G S u X) i = fourierTranslate G S (rvadd t u) X i.
Proof.
  unfold fourierTranslate, pointwise, fourierTranslate_calc. rewrite <- Cmult_assoc, cis_mul. do 2 f_equal; f_equal; generalize (vIZR (toVec (halfG_init S i))); intros w; destruct w, G, t, u; v3u; ring.
Qed.
Lemma fourier_adjoint G S t X Y : dotTilde S Y (fourierTranslate G S t X) = dotTilde S (fourierTranslate G S (rvopp t) Y) X.
Proof.
  rewrite !dot_dP. apply dP_ext. intros i. unfold fourierTranslate, pointwise, fourierTranslate_calc.
  replace (- rdot (vIZR (toVec (halfG_init S i))) (rmv G (rvopp t))) with (- - rdot (vIZR (toVec (halfG_init S i))) (rmv G t)).
  - generalize (- rdot (vIZR (toVec (halfG_init S i))) (rmv G t)). intros p. rewrite cos_neg, sin_neg. destruct (Y i) as [a b], (X i) as [c d]. cx. f_equal; ring.
  - generalize (vIZR (toVec (halfG_init S i))). intros w. destruct w, G, t. v3u. ring.
Qed.
Lemma fourier_zero G S t X : pos3 S -> fourierTranslate G S t X 0 = X 0%Z.
Proof.
  intros P. unfold fourierTranslate, pointwise, fourierTranslate_calc. replace (halfG_init S 0) with (0,0,0)%Z.
  - replace (- rdot (vIZR (toVec (0,0,0)%Z)) (rmv G t)) with 0 by (destruct G, t; unfold toVec; cbn [v0 v1 v2 fst snd]; v3u; ring).
    rewrite cos_0, sin_0. destruct (X 0%Z) as [a b]. cx. f_equal; ring.
  - destruct S as [[a b] c]. destruct P as (Pa & Pb & Pc). unfold halfG_init. rewrite !Zdiv_0_l, !Zmod_0_l, !wrapS_0 by (cbn; lia). reflexivity.
Qed.
Lemma fourier_value Rl S t X i q : rdet Rl <> 0 -> wave_vector Rl (V 0 0 0) (toVec (halfG_init S i)) q ->
  fourierTranslate (gG Rl) S t X i = (X i * (cos (rdot q t), (- sin (rdot q t))%R))%C.
Proof.
  intros D W. apply wave_unique in W; auto. unfold fourierTranslate, pointwise, fourierTranslate_calc. rewrite cos_neg, sin_neg.
  replace (rdot (vIZR (toVec (halfG_init S i))) (rmv (gG Rl) t)) with (rdot q t); [reflexivity|].
  rewrite W. generalize (gG Rl) (vIZR (toVec (halfG_init S i))). intros m w. destruct m, w, t. v3u. ring.
Qed.
(** at a Nyquist frequency the result is not the coefficient of a real field *)
Lemma fourier_nyquist : exists S X t, pos3 S /\ hermitian_half S X /\ ~ hermitian_half S (fourierTranslate rid S t X).
Proof.
  exists (2,1,1)%Z, (fun _ => RtoC 1), (V (PI/2) 0 0). split; [cbn; lia|]. split.
  - intros g g' _ _ _. unfold coefH. cx. f_equal. ring.
  - intros HH. assert (P : pos3 (2,1,1)%Z) by (cbn; lia). assert (G : halfG_point (2,1,1)%Z (1,0,0)%Z) by (cbn; lia).
    assert (X : same_mod (2,1,1)%Z (1,0,0)%Z (neg3 (1,0,0)%Z)) by (cbn; auto).
    specialize (HH (1,0,0)%Z (1,0,0)%Z G G X). unfold fourierTranslate in HH. rewrite coefH_pointwise in HH by auto. unfold fourierTranslate_calc in HH.
    replace (- rdot (vIZR (toVec (1,0,0)%Z)) (rmv rid (V (PI/2) 0 0))) with (- (PI/2)) in HH by (unfold toVec; cbn [v0 v1 v2 fst snd]; v3u; ring).
    rewrite cos_neg, sin_neg, cos_PI2, sin_PI2 in HH. cx. injection HH. lra.
Qed.
Lemma fourier_real G S t X : pos3 S -> hermitian_half S X -> forall g g', halfG_point S g -> halfG_point S g' -> same_mod S g' (neg3 g) -> is_nyquist S g = false ->
  coefH S (fourierTranslate G S t X) g' = Cconj (coefH S (fourierTranslate G S t X) g).
Proof.
  intros P H g g' Q Q' M N. destruct (mirror_pair S g g' P Q Q' M) as [_ E]. specialize (E N). unfold fourierTranslate. rewrite !coefH_pointwise by assumption.
  specialize (H g g' Q Q' M). unfold coefH in H. rewrite third_v2 in H. rewrite H. rewrite E. unfold fourierTranslate_calc.
  replace (- rdot (vIZR (toVec (neg3 g))) (rmv G t)) with (- - rdot (vIZR (toVec g)) (rmv G t)).
  - rewrite cos_neg, sin_neg. generalize (- rdot (vIZR (toVec g)) (rmv G t)). intros p. destruct (X (row_major S (v2 S / 2 + 1) g)) as [a b]. cx. f_equal; ring.
  - destruct g as [[x y] z]. unfold toVec, neg3. cbn [v0 v1 v2 fst snd]. generalize (rmv G t). intros w. destruct w. v3u. rewrite !opp_IZR. ring.
Qed.
