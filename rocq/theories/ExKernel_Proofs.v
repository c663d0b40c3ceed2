(** Proofs for the numerical exchange kernel. *)
From Coq Require Import ZArith Reals List Bool Lia Lra Psatz.
From Verif Require Import Base RealUtil Grid_Model Grid_Spec Grid_Proofs Vec3_Model Vec3_Facts Lattice_Model CellMap_Proofs2 ExKernel_Model ExKernel_Spec.
Import ListNotations.
Local Open Scope Z_scope.

Lemma enlarge_max a g : enlarge a g = Z.max a (2 * Z.abs g).
Proof. unfold enlarge. cbv zeta. destruct (Z.ltb_spec a (2 * Z.abs g)); lia. Qed.
Lemma quot_half x : 0 < x -> Z.quot x 2 = x / 2.
Proof. intros H. apply Z.quot_div_nonneg; lia. Qed.
Ltac up := match goal with |- _ <= Z.max ?a ?b => first [apply Z.le_trans with b; [lia|apply Z.le_max_r] | apply Z.le_trans with a; [up|apply Z.le_max_l]] end.
Lemma abs_vertex a b c p q r : 0 <= p -> 0 <= q -> 0 <= r ->
  Z.max (Z.max (Z.max (Z.max (Z.max (Z.max (Z.max (Z.max 0
    (2 * Z.abs (-1 * p * a + -1 * q * b + -1 * r * c))) (2 * Z.abs (-1 * p * a + -1 * q * b + 1 * r * c)))
    (2 * Z.abs (-1 * p * a + 1 * q * b + -1 * r * c))) (2 * Z.abs (-1 * p * a + 1 * q * b + 1 * r * c)))
    (2 * Z.abs (1 * p * a + -1 * q * b + -1 * r * c))) (2 * Z.abs (1 * p * a + -1 * q * b + 1 * r * c)))
    (2 * Z.abs (1 * p * a + 1 * q * b + -1 * r * c))) (2 * Z.abs (1 * p * a + 1 * q * b + 1 * r * c))
  = 2 * (Z.abs a * p + Z.abs b * q + Z.abs c * r).
Proof.
  intros P Q R.
  replace (Z.abs a * p) with (Z.abs (p * a)) by (rewrite Z.abs_mul, (Z.abs_eq p) by lia; ring).
  replace (Z.abs b * q) with (Z.abs (q * b)) by (rewrite Z.abs_mul, (Z.abs_eq q) by lia; ring).
  replace (Z.abs c * r) with (Z.abs (r * c)) by (rewrite Z.abs_mul, (Z.abs_eq r) by lia; ring).
  replace (-1 * p * a) with (- (p * a)) by ring. replace (-1 * q * b) with (- (q * b)) by ring. replace (-1 * r * c) with (- (r * c)) by ring.
  replace (1 * p * a) with (p * a) by ring. replace (1 * q * b) with (q * b) by ring. replace (1 * r * c) with (r * c) by ring.
  generalize (p * a) (q * b) (r * c). intros x y z. apply Z.le_antisymm.
  - repeat apply Z.max_lub; lia.
  - destruct (Z.leb_spec 0 x), (Z.leb_spec 0 y), (Z.leb_spec 0 z); up.
Qed.
Lemma Ssuper_value S super k : pos3 S -> (k < 3)%nat ->
  comp (Ssuper S super) k = 2 * (Z.abs (mget super 0 k) * (comp S 0 / 2 + 1) + Z.abs (mget super 1 k) * (comp S 1 / 2 + 1) + Z.abs (mget super 2 k) * (comp S 2 / 2 + 1)).
Proof.
  destruct S as [[Sa Sb] Sc]. intros (A & B & C) K. unfold Ssuper, vertices. cbn [flat_map map app fold_left]. unfold vertexVec. cbn [v0 v1 v2 fst snd]. rewrite !quot_half by assumption.
  rewrite !enlarge_max. unfold timesSuper. cbn [v0 v1 v2 fst snd comp].
  assert (PA : 0 <= Sa / 2 + 1) by (assert (0 <= Sa / 2) by (apply Z.div_pos; lia); lia).
  assert (PB : 0 <= Sb / 2 + 1) by (assert (0 <= Sb / 2) by (apply Z.div_pos; lia); lia).
  assert (PC : 0 <= Sc / 2 + 1) by (assert (0 <= Sc / 2) by (apply Z.div_pos; lia); lia).
  destruct super as [s00 s01 s02 s10 s11 s12 s20 s21 s22]. unfold mget, mrow, vget. cbn [row0 row1 row2 c0 c1 c2 m00 m01 m02 m10 m11 m12 m20 m21 m22].
  destruct k as [|[|[|k]]]; [| | |lia]; apply abs_vertex; assumption.
Qed.

(** indices in the half grid *)
Definition flip (g : V3) : V3 := if v2 g <? 0 then neg3 g else g.
Definition rep (s x : Z) : Z := if 2 * x =? - s then x + s else x.
Lemma rep_mod s x : 0 < s -> (rep s x) mod s = x mod s.
Proof. intros H. unfold rep. destruct (2 * x =? - s); [|reflexivity]. rewrite <- (Z_mod_plus x 1 s) by lia. f_equal. ring. Qed.
Lemma mod_wrap s x : 0 < s -> - s <= x < s -> x mod s = if x <? 0 then x + s else x.
Proof.
  intros H B. destruct (Z.ltb_spec x 0).
  - symmetry. apply (Z.mod_unique_pos _ _ (-1)); lia.
  - apply Z.mod_small; lia.
Qed.
Lemma reduced_row S g x y z : pos3 S -> flip g = (x, y, z) -> - v0 S <= 2 * x <= v0 S -> - v1 S <= 2 * y <= v1 S -> 0 <= 2 * z <= v2 S ->
  let m := (rep (v0 S) x, rep (v1 S) y, z) in halfG_point S m /\ reducedIndex S g = row_major S (v2 S / 2 + 1) m /\ 0 <= reducedIndex S g < nG S.
Proof.
  destruct S as [[a b] c]. intros Ps F X Y Z1 m. cbn [v0 v1 v2 fst snd] in *. assert (Ps' := Ps). destruct Ps' as (A & B & C).
  assert (H : halfG_point (a, b, c) m).
  { unfold m, rep. cbn. destruct (Z.eqb_spec (2 * x) (- a)), (Z.eqb_spec (2 * y) (- b)); lia. }
  assert (E : reducedIndex (a, b, c) g = row_major (a, b, c) (c / 2 + 1) m).
  { unfold reducedIndex. cbv zeta. change (if v2 g <? 0 then zneg g else g) with (if v2 g <? 0 then zneg g else g).
    assert (Fz : (if v2 g <? 0 then zneg g else g) = (x, y, z)).
    { rewrite <- F. unfold flip. destruct (v2 g <? 0); [|reflexivity]. destruct g as [[g0 g1] g2]. reflexivity. }
    rewrite Fz. cbn [v0 v1 v2 fst snd]. rewrite (quot_half c) by exact C. unfold m, row_major. rewrite !rep_mod by assumption.
    rewrite (mod_wrap a x), (mod_wrap b y) by lia. rewrite (Z.mod_small z c) by lia. ring. }
  split; [exact H|split; [exact E|]]. rewrite E. change c with (v2 (a, b, c)). apply half_row_range; assumption.
Qed.
Lemma reduced_inside S g : pos3 S -> - v0 S < 2 * v0 g < v0 S -> - v1 S < 2 * v1 g < v1 S -> - v2 S < 2 * v2 g < v2 S ->
  halfG_point S (flip g) /\ reducedIndex S g = row_major S (v2 S / 2 + 1) (flip g) /\ 0 <= reducedIndex S g < nG S.
Proof.
  intros Ps X Y Z1. destruct (flip g) as [[x y] z] eqn:F.
  assert (Q : - v0 S < 2 * x < v0 S /\ - v1 S < 2 * y < v1 S /\ 0 <= 2 * z < v2 S).
  { unfold flip in F. destruct g as [[g0 g1] g2]. cbn [v0 v1 v2 fst snd] in *. destruct (Z.ltb_spec g2 0); injection F as <- <- <-; lia. }
  destruct (reduced_row S g x y z Ps F) as (H & E & B); try lia.
  assert (R0 : rep (v0 S) x = x) by (unfold rep; destruct (Z.eqb_spec (2 * x) (- v0 S)); lia). assert (R1 : rep (v1 S) y = y) by (unfold rep; destruct (Z.eqb_spec (2 * y) (- v1 S)); lia).
  rewrite R0, R1 in *. auto.
Qed.
Lemma nGsuper_nG Ss : 0 < v2 Ss -> nGsuper Ss = nG Ss.
Proof. intros H. unfold nGsuper, nG. rewrite quot_half by exact H. ring. Qed.
Lemma even_flip {A} (K : V3 -> A) g : even K -> K (flip g) = K g.
Proof. intros E. unfold flip. destruct (v2 g <? 0); [apply E|reflexivity]. Qed.
Lemma readAt_in {A} n (a : Z -> A) i : 0 <= i < n -> readAt n a i = Some (a i).
Proof. intros H. unfold readAt. destruct (Z.leb_spec 0 i), (Z.ltb_spec i n); cbn; try lia; reflexivity. Qed.

(** rounding *)
Lemma round_comp v thr : (roundError v < thr)%R -> (Rabs (IZR (c0 (roundVec v)) - c0 v) < thr /\ Rabs (IZR (c1 (roundVec v)) - c1 v) < thr /\ Rabs (IZR (c2 (roundVec v)) - c2 v) < thr)%R.
Proof.
  intros H. unfold roundError in H. set (u := rvadd v (rvopp (vIZR (roundVec v)))) in *. destruct (rlen_comp u) as (A & B & C).
  assert (E0 : c0 u = (c0 v - IZR (c0 (roundVec v)))%R) by reflexivity. assert (E1 : c1 u = (c1 v - IZR (c1 (roundVec v)))%R) by reflexivity. assert (E2 : c2 u = (c2 v - IZR (c2 (roundVec v)))%R) by reflexivity.
  rewrite E0 in A. rewrite E1 in B. rewrite E2 in C. rewrite (Rabs_minus_sym (c0 v)) in A. rewrite (Rabs_minus_sym (c1 v)) in B. rewrite (Rabs_minus_sym (c2 v)) in C. lra.
Qed.
