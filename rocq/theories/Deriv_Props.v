(** C65: differential operators in reciprocal space; C66: inner products of half-space fields.
    Every theorem is closed by a lemma of Deriv_Proofs or Deriv_Proofs2. *)
From Coq Require Import ZArith Reals List Lia Lra.
From Coquelicot Require Import Complex.
From Verif Require Import Base Grid_Model Grid_Spec Vec3_Model Convert_Model Convert_Spec Basis_Model Basis_Spec Basis_Proofs Deriv_Model Deriv_Spec Deriv_Proofs Deriv_Proofs2.
Import ListNotations.
Open Scope C_scope.

(** The gradient multiplies by i times the Cartesian wave vector. *)
Theorem C65_gradient_value : forall Rl S g x q, rdet Rl <> 0%R -> wave_vector Rl (V 0 0 0)%R (toVec g) q -> is_nyquist S g = false ->
  gradient_calc (gG Rl) S g x = V (Ci * RtoC (c0 q) * x) (Ci * RtoC (c1 q) * x) (Ci * RtoC (c2 q) * x).
Proof. exact gradient_value. Qed.
Print Assumptions C65_gradient_value.
Example C65_gradient_value_ex : rdet cubic <> 0%R /\ is_nyquist (4,5,6)%Z (1,-2,2)%Z = false /\ is_nyquist (4,5,6)%Z (2,-2,2)%Z = true.
Proof. split; [apply cubic_det|]. split; reflexivity. Qed.

(** Divergence is minus the adjoint of the gradient, at every wave vector ... *)
Theorem C65_gradient_divergence : forall G S g x w, cdot3 w (gradient_calc G S g x) = - (Cconj (divergence_calc G S g w) * x).
Proof. exact grad_div_adj. Qed.
Print Assumptions C65_gradient_divergence.
(** ... and for whole fields under the program's own inner product. *)
Theorem C65_gradient_divergence_fields : forall G S X W,
  (dotTilde S (fun i => c0 (W i)) (fun i => c0 (gradientF G S X i)) + dotTilde S (fun i => c1 (W i)) (fun i => c1 (gradientF G S X i))
   + dotTilde S (fun i => c2 (W i)) (fun i => c2 (gradientF G S X i)) = - dotTilde S (divergenceF G S W) X)%R.
Proof. exact field_adj. Qed.
Print Assumptions C65_gradient_divergence_fields.

(** Gradients of real fields are real fields, and divergences too ... *)
Theorem C65_gradient_real_field : forall G S X, pos3 S -> hermitian_half S X ->
  hermitian_half S (fun i => c0 (gradientF G S X i)) /\ hermitian_half S (fun i => c1 (gradientF G S X i)) /\ hermitian_half S (fun i => c2 (gradientF G S X i)).
Proof. exact grad_hermitian. Qed.
Print Assumptions C65_gradient_real_field.
Theorem C65_divergence_real_field : forall G S W, pos3 S ->
  hermitian_half S (fun i => c0 (W i)) /\ hermitian_half S (fun i => c1 (W i)) /\ hermitian_half S (fun i => c2 (W i)) -> hermitian_half S (divergenceF G S W).
Proof. exact div_hermitian. Qed.
Print Assumptions C65_divergence_real_field.
Example C65_real_field_ex : pos3 (4,3,6)%Z /\ hermitian_half (4,3,6)%Z (fun _ => RtoC 1).
Proof. split; [cbn; lia|]. intros g g' _ _ _. unfold coefH, Cconj, RtoC. cbn. f_equal. ring. Qed.
(** ... but the single-direction derivative D keeps the Nyquist frequencies and is not one. *)
Theorem C65_D_real_field_refuted : exists S X, pos3 S /\ hermitian_half S X /\ ~ hermitian_half S (DF (V 1 0 0)%R S X).
Proof. exact D_not_hermitian. Qed.
Print Assumptions C65_D_real_field_refuted.

(** The tensor gradient is the traceless tensor -(q q - |q|^2/3) X, and the tensor divergence its adjoint under the full contraction. *)
Theorem C65_tensor_gradient_value : forall G S g x, is_nyquist S g = false -> let q := Gvec G g in
  matrixOfTensor (tensorGradient_calc G S g x) =
  M (- x * RtoC (c0 q * c0 q - rlen2 q / 3)) (- x * RtoC (c0 q * c1 q)) (- x * RtoC (c0 q * c2 q))
    (- x * RtoC (c1 q * c0 q)) (- x * RtoC (c1 q * c1 q - rlen2 q / 3)) (- x * RtoC (c1 q * c2 q))
    (- x * RtoC (c2 q * c0 q)) (- x * RtoC (c2 q * c1 q)) (- x * RtoC (c2 q * c2 q - rlen2 q / 3)).
Proof. exact tgrad_value. Qed.
Print Assumptions C65_tensor_gradient_value.
Theorem C65_tensor_gradient_divergence : forall G S g x t,
  contract (matrixOfTensor t) (matrixOfTensor (tensorGradient_calc G S g x)) = Cconj (tensorDivergence_calc G S g t) * x.
Proof. exact tgrad_tdiv_adj. Qed.
Print Assumptions C65_tensor_gradient_divergence.
(** Whole fields: the independent components are summed with the weights of the full contraction. *)
Theorem C65_tensor_fields : forall G S X A, let B := tensorGradientF G S X in
  (2 * (dotTilde S (fun i => t_xy (A i)) (fun i => t_xy (B i)) + dotTilde S (fun i => t_yz (A i)) (fun i => t_yz (B i)) + dotTilde S (fun i => t_zx (A i)) (fun i => t_zx (B i)))
   + dotTilde S (fun i => t_xxr (A i)) (fun i => t_xxr (B i)) + dotTilde S (fun i => t_yyr (A i)) (fun i => t_yyr (B i))
   + dotTilde S (fun i => (t_xxr (A i) + t_yyr (A i))%C) (fun i => (t_xxr (B i) + t_yyr (B i))%C) = dotTilde S (tensorDivergenceF G S A) X)%R.
Proof. exact field_tadj_parts. Qed.
Print Assumptions C65_tensor_fields.

(** Packing a matrix to a symmetric traceless tensor and unpacking is the orthogonal projection onto the symmetric traceless matrices. *)
Theorem C65_tensor_projection : forall m, symmetric_traceless (matrixOfTensor (tensorOfMatrix m)) /\
  (symmetric_traceless m -> matrixOfTensor (tensorOfMatrix m) = m) /\
  forall n, contract (matrixOfTensor (tensorOfMatrix m)) n = contract m (matrixOfTensor (tensorOfMatrix n)).
Proof. exact (fun m => conj (tensor_traceless _) (conj (tensor_fixes m) (tensor_selfadjoint m))). Qed.
Print Assumptions C65_tensor_projection.
Theorem C65_tensor_pack : forall t, tensorOfMatrix (matrixOfTensor t) = t.
Proof. exact tensor_pack_unpack. Qed.
Print Assumptions C65_tensor_pack.

(** The l-th order divergence is the adjoint of the l-th order gradient up to the sign (-1)^l. *)
Theorem C65_l_gradient_divergence : forall l nyq Y w x, length w = length Y ->
  ldot w (lGradient_calc l nyq Y x) = RtoC ((-1) ^ l) * (Cconj (lDivergence_calc l nyq Y w) * x).
Proof. exact ldiv_adj. Qed.
Print Assumptions C65_l_gradient_divergence.
Example C65_l_gradient_divergence_ex : length [RtoC 1; Ci; RtoC 0] = length [1;2;3]%R. Proof. reflexivity. Qed.

(** The inner product evaluated from half-space coefficients is the sum over the full grid, if the third dimension is even or 1 ... *)
Theorem C66_dot : forall S x y X Y, pos3 S -> extends S x X -> extends S y Y -> (v2 S = 1 \/ Z.even (v2 S) = true)%Z ->
  csum (full_grid S) (fun g => Cconj (X g) * Y g) = RtoC (dotTilde S x y).
Proof. exact dot_full. Qed.
Print Assumptions C66_dot.
Theorem C66_sum : forall S x X, pos3 S -> extends S x X -> (v2 S = 1 \/ Z.even (v2 S) = true)%Z -> csum (full_grid S) X = RtoC (sumTilde S x).
Proof. exact sum_full. Qed.
Print Assumptions C66_sum.
Example C66_dot_ex : pos3 (3,2,4)%Z /\ extends (3,2,4)%Z (fun _ => RtoC 2) (fun _ => RtoC 2) /\ Z.even (v2 (3,2,4)%Z) = true.
Proof. split; [cbn; lia|]. split; [|reflexivity]. refine (conj _ (conj _ _)); auto. intros g. unfold Cconj, RtoC. cbn. f_equal. ring. Qed.
(** ... and not for odd dimensions from 3, where the last slice is not at the Nyquist frequency but is counted once (a manual fftbox may be odd). *)
Theorem C66_dot_odd_refuted : exists S x y X Y, pos3 S /\ extends S x X /\ extends S y Y /\ csum (full_grid S) (fun g => Cconj (X g) * Y g) <> RtoC (dotTilde S x y).
Proof. exact dot_full_odd. Qed.
Print Assumptions C66_dot_odd_refuted.
