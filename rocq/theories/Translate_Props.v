(** C53: translation operators. *)
From Coq Require Import ZArith Reals List Lra Lia.
From Coquelicot Require Import Complex.
From Verif Require Import Base Grid_Model Grid_Spec Vec3_Model Lattice_Model Convert_Spec Basis_Model Basis_Spec Deriv_Model Translate_Model Translate_Spec Translate_Proofs3.
Import ListNotations.
Local Open Scope R_scope.

Theorem C53_sum : forall ty S Rl s t alpha x y, pos3 S -> execution S s -> exists y',
  taxpy ty S Rl s t alpha x y = Some y' /\ total S (value y') = total S (valueO y) + alpha * total S (value x).
Proof. exact sum_kept. Qed.
Print Assumptions C53_sum.
Theorem C53_grid_vector : forall ty S Rl s n alpha x y, pos3 S -> rdet Rl <> 0 -> execution S s -> exists y',
  taxpy ty S Rl s (position Rl S (vgrid n)) alpha x y = Some y' /\
  forall g, r_point S g -> per S (value y') g = per S (valueO y) g + alpha * per S (value x) (minus3 g n).
Proof. exact grid_exact. Qed.
Print Assumptions C53_grid_vector.
Theorem C53_adjoint : forall ty S Rl s s' t x z, pos3 S -> execution S s -> execution S s' -> exists x' z',
  taxpy ty S Rl s t 1 x None = Some x' /\ taxpy ty S Rl s' (rvopp t) 1 z None = Some z' /\
  inner S (value z) (value x') = inner S (value z') (value x).
Proof. exact adjoint. Qed.
Print Assumptions C53_adjoint.
Theorem C53_linear : forall S Rl s t alpha x y, pos3 S -> rdet Rl <> 0 -> execution S s -> exists y',
  taxpy Linear S Rl s t alpha x y = Some y' /\
  forall g u a b c, r_point S g -> position Rl S u = rvsub (position Rl S (vgrid g)) t -> below (c0 u) a -> below (c1 u) b -> below (c2 u) c ->
    per S (value y') g = per S (valueO y) g + alpha * trilerp u (a, b, c) (per S (value x)).
Proof. exact linear_spec. Qed.
Print Assumptions C53_linear.
Theorem C53_constant : forall S Rl s t alpha x y, pos3 S -> rdet Rl <> 0 -> execution S s -> exists y' m,
  taxpy Constant S Rl s t alpha x y = Some y' /\
  (forall u, position Rl S u = rvopp t -> nearest (c0 u) (fst (fst m)) /\ nearest (c1 u) (snd (fst m)) /\ nearest (c2 u) (snd m)) /\
  (forall g, r_point S g -> per S (value y') g = per S (valueO y) g + alpha * per S (value x) (plus3 g m)).
Proof. exact constant_spec. Qed.
Print Assumptions C53_constant.
Theorem C53_bounds : forall ty S Rl s t x lo hi, pos3 S -> execution S s -> (forall i, (0 <= i < count S)%Z -> lo <= value x i <= hi) -> exists y',
  taxpy ty S Rl s t 1 x None = Some y' /\ forall i, (0 <= i < count S)%Z -> lo <= value y' i <= hi.
Proof. exact bounds. Qed.
Print Assumptions C53_bounds.
(** the comment T_t(x(r)) = x(r+t) of TranslationOperator.h line 40 has the opposite sign *)
Theorem C53_direction_refuted : exists S Rl s t x y', pos3 S /\ rdet Rl <> 0 /\ execution S s /\ t = position Rl S (vgrid (1,0,0)%Z) /\
  taxpy Linear S Rl s t 1 x None = Some y' /\ per S (value y') (0,0,0)%Z <> per S (value x) (plus3 (0,0,0)%Z (1,0,0)%Z).
Proof. exact direction. Qed.
Print Assumptions C53_direction_refuted.
Theorem C53_schedules : forall S, pos3 S -> forall nT, (0 < nT)%Z -> exists s, execution S s.
Proof. exact execution_exists. Qed.
Print Assumptions C53_schedules.
Theorem C53_fourier_value : forall Rl S t X i q, rdet Rl <> 0 -> wave_vector Rl (V 0 0 0) (toVec (halfG_init S i)) q ->
  fourierTranslate (gG Rl) S t X i = (X i * (cos (rdot q t), (- sin (rdot q t))%R))%C.
Proof. exact fourier_value. Qed.
Print Assumptions C53_fourier_value.
Theorem C53_fourier_adjoint : forall G S t X Y, dotTilde S Y (fourierTranslate G S t X) = dotTilde S (fourierTranslate G S (rvopp t) Y) X.
Proof. exact fourier_adjoint. Qed.
Print Assumptions C53_fourier_adjoint.
Theorem C53_fourier_compose : forall G S t u X i, fourierTranslate G S t (fourierTranslate G S u X) i = fourierTranslate G S (rvadd t u) X i.
Proof. exact fourier_compose. Qed.
Print Assumptions C53_fourier_compose.
Theorem C53_fourier_sum : forall G S t X, pos3 S -> fourierTranslate G S t X 0 = X 0%Z.
Proof. exact fourier_zero. Qed.
Print Assumptions C53_fourier_sum.
Theorem C53_fourier_real : forall G S t X, pos3 S -> hermitian_half S X -> forall g g', halfG_point S g -> halfG_point S g' -> same_mod S g' (neg3 g) -> is_nyquist S g = false ->
  coefH S (fourierTranslate G S t X) g' = Cconj (coefH S (fourierTranslate G S t X) g).
Proof. exact fourier_real. Qed.
Print Assumptions C53_fourier_real.
Theorem C53_fourier_nyquist_refuted : exists S X t, pos3 S /\ hermitian_half S X /\ ~ hermitian_half S (fourierTranslate rid S t X).
Proof. exact fourier_nyquist. Qed.
Print Assumptions C53_fourier_nyquist_refuted.

(** 5 x 1 x 1 grid in a cubic cell of side 10, field 0,1,2,3,4 times the scale 2, translated by one and a half grid spacings, three threads *)
Example ex53_linear : exists s y', execution (5,1,1)%Z s /\
  taxpy Linear (5,1,1)%Z (M 10 0 0 0 10 0 0 0 10) s (V 3 0 0) 1 (Field 2 IZR) None = Some y' /\ value y' 0 = 7 /\ value y' 1 = 4.
Proof.
  assert (P : pos3 (5,1,1)%Z) by (cbn; lia). destruct (C53_schedules _ P 3) as [s X]; [lia|]. exists s.
  destruct (C53_linear (5,1,1)%Z (M 10 0 0 0 10 0 0 0 10) s (V 3 0 0) 1 (Field 2 IZR) None P) as (y' & E & H); [cbv; lra|exact X|].
  exists y'. split; [exact X|]. split; [exact E|]. split.
  - assert (Q := H (0,0,0)%Z (V (-3/2) 0 0) (-2)%Z 0%Z 0%Z). change (per (5,1,1)%Z (value y') (0,0,0)%Z) with (value y' 0) in Q. rewrite Q; clear Q H E; [|cbn; lia|cbv [position vgrid c0 c1 c2 rmv gmv gdot row0 row1 row2 m00 m01 m02 m10 m11 m12 m20 m21 m22 rvsub gvsub]; f_equal; lra|unfold below; cbn; lra..].
    unfold trilerp, lerp, per, row_major, value. cbn [c0 c1 c2 snd valueO fscale fdata].
    change (((-2) mod 5 * 1 + 0 mod 1) * 1 + 0 mod 1)%Z with 3%Z. change (((-2 + 1) mod 5 * 1 + 0 mod 1) * 1 + 0 mod 1)%Z with 4%Z. lra.
  - assert (Q := H (1,0,0)%Z (V (-1/2) 0 0) (-1)%Z 0%Z 0%Z). change (per (5,1,1)%Z (value y') (1,0,0)%Z) with (value y' 1) in Q. rewrite Q; clear Q H E; [|cbn; lia|cbv [position vgrid c0 c1 c2 rmv gmv gdot row0 row1 row2 m00 m01 m02 m10 m11 m12 m20 m21 m22 rvsub gvsub]; f_equal; lra|unfold below; cbn; lra..].
    unfold trilerp, lerp, per, row_major, value. cbn [c0 c1 c2 snd valueO fscale fdata].
    change (((-1) mod 5 * 1 + 0 mod 1) * 1 + 0 mod 1)%Z with 4%Z. change (((-1 + 1) mod 5 * 1 + 0 mod 1) * 1 + 0 mod 1)%Z with 0%Z. lra.
Qed.
