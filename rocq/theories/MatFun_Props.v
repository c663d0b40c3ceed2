(** Theorems for functions of matrices and their gradients (C92), and the rotational part of the auxiliary Hamiltonian gradient (C91). *)
From Coq Require Import Reals Lra.
From Coq Require Fin.
From Coquelicot Require Import Coquelicot.
From Verif Require Import CMat Euler_Model Smear_Model MatFun_Model MatFun_Spec MatFun_Proofs MatFun_Proofs2 MatFun_Proofs3 MatFun_Proofs4.
Open Scope C_scope.

(** The power of a matrix does not depend on the eigenvectors that the eigensolver returns. *)
Theorem C92_pow_independent_of_eigenvectors : forall n (A V W : mat n n) d e x h, eigensystem A V d -> eigensystem A W e ->
  match powMat x h V d, powMat x h W e with
  | Some (P, _, s), Some (Q, _, s') => P = Q /\ s = s'
  | None, None => True
  | _, _ => False
  end.
Proof. exact pow_independent. Qed.
Print Assumptions C92_pow_independent_of_eigenvectors.

Theorem C92_pow_exponents_add : forall n (A V : mat n n) d x y h, posDef A -> eigensystem A V d ->
  exists P Q S, powMat x h V d = Some (P, d, false) /\ powMat y h V d = Some (Q, d, false) /\ powMat (x + y) h V d = Some (S, d, false) /\
    mmul P Q = S /\ posDef P.
Proof. exact pow_group. Qed.
Print Assumptions C92_pow_exponents_add.
Example C92_pow_example : exists P Q S, powMat (1/3) false exV exd = Some (P, exd, false) /\ powMat (2/3) false exV exd = Some (Q, exd, false) /\ powMat (1/3 + 2/3) false exV exd = Some (S, exd, false) /\ mmul P Q = S /\ posDef P.
Proof. exact (C92_pow_exponents_add 2 exA exV exd (1/3) (2/3) false exA_pos exA_eig). Qed.

Theorem C92_pow_one_and_zero : forall n (A V : mat n n) d h, posDef A -> eigensystem A V d ->
  powMat 1 h V d = Some (A, d, false) /\ powMat 0 h V d = Some (mone, d, false).
Proof. exact pow_one_posDef. Qed.
Print Assumptions C92_pow_one_and_zero.

(** invsqrt of a positive definite matrix *)
Theorem C92_invsqrt : forall n (A V : mat n n) d h, posDef A -> eigensystem A V d ->
  exists S, invsqrt h V d = Some (S, d, false) /\ posDef S /\ mmul (mmul S A) S = mone /\ mmul S A = mmul A S.
Proof. exact invsqrt_posDef. Qed.
Print Assumptions C92_invsqrt.
Example C92_invsqrt_example : exists S, invsqrt false exV exd = Some (S, exd, false) /\ posDef S /\ mmul (mmul S exA) S = mone /\ mmul S exA = mmul exA S.
Proof. exact (C92_invsqrt 2 exA exV exd false exA_pos exA_eig). Qed.

(** invsqrt of a singular matrix projects onto the range, and is reported exactly when the matrix is singular *)
Theorem C92_invsqrt_singular : forall n (A V : mat n n) d, posSemi A -> eigensystem A V d ->
  exists S s, invsqrt true V d = Some (S, d, s) /\ posSemi S /\ let P := mmul (mmul S A) S in
    hermitian P /\ mmul P P = P /\ mmul P A = A /\ mmul A P = A /\ mmul P S = S /\ (s = false <-> posDef A).
Proof. exact invsqrt_posSemi. Qed.
Print Assumptions C92_invsqrt_singular.
Example C92_invsqrt_singular_example : exists S s, invsqrt true exV exdB = Some (S, exdB, s) /\ posSemi S /\ let P := mmul (mmul S exB) S in
    hermitian P /\ mmul P P = P /\ mmul P exB = exB /\ mmul exB P = exB /\ mmul P S = S /\ (s = false <-> posDef exB).
Proof. exact (C92_invsqrt_singular 2 exB exV exdB exB_semi exB_eig). Qed.

(** without isSingular the code stops exactly for singular matrices *)
Theorem C92_invsqrt_stops_only_if_singular : forall n (A V : mat n n) d, posSemi A -> eigensystem A V d -> (invsqrt false V d = None <-> ~ posDef A).
Proof. exact invsqrt_unhandled. Qed.
Print Assumptions C92_invsqrt_stops_only_if_singular.

Theorem C92_square_root : forall n (A V : mat n n) d h, posSemi A -> eigensystem A V d ->
  exists S, powMat (1/2) h V d = Some (S, d, false) /\ posSemi S /\ mmul S S = A.
Proof. exact sqrt_posSemi. Qed.
Print Assumptions C92_square_root.
Example C92_square_root_example : exists S, powMat (1/2) false exV exdB = Some (S, exdB, false) /\ posSemi S /\ mmul S S = exB.
Proof. exact (C92_square_root 2 exB exV exdB false exB_semi exB_eig). Qed.

(** negative eigenvalues are dropped: the result is the positive part, and the returned eigenvalues are its own *)
Theorem C92_negative_eigenvalues_dropped : forall n (A V : mat n n) d h, eigensystem A V d ->
  exists P e, powMat 1 h V d = Some (P, e, false) /\ posSemi P /\ posSemi (msub P A) /\ mmul P (msub P A) = mzero /\ eigensystem P V e.
Proof. exact pow_positive_part. Qed.
Print Assumptions C92_negative_eigenvalues_dropped.

(** cis is unitary, independent of the eigenvectors and inverted by cisInv *)
Theorem C92_cis_unitary : forall n (V : mat n n) d, unitary V -> unitary (cisMat V d).
Proof. exact cis_unitary. Qed.
Print Assumptions C92_cis_unitary.
Theorem C92_cis_independent_of_eigenvectors : forall n (A V W : mat n n) d e, eigensystem A V d -> eigensystem A W e -> cisMat V d = cisMat W e.
Proof. exact cis_independent. Qed.
Print Assumptions C92_cis_independent_of_eigenvectors.
Theorem C92_cis_of_cisInv : forall n (U V W : mat n n) z e, unitary U -> eigensystemC U V z -> eigensystem (cisInvMat V z) W e ->
  hermitian (cisInvMat V z) /\ cisMat W e = U.
Proof. exact cis_cisInv. Qed.
Print Assumptions C92_cis_of_cisInv.
Theorem C92_cisInv_of_cis : forall n (A V W : mat n n) d z, eigensystem A V d -> (forall i, (- PI < d i <= PI)%R) -> eigensystemC (cisMat V d) W z -> cisInvMat W z = A.
Proof. exact cisInv_cis. Qed.
Print Assumptions C92_cisInv_of_cis.
Example C92_cis_example : cisInvMat exV (fun i => ccis (exd i)) = exA.
Proof.
  apply (C92_cisInv_of_cis 2 exA exV exV exd); [exact exA_eig| |apply form_eig; exact exV_unitary].
  pose proof PI2_3_2. unfold exd. refine (fin2 _ _ _); cbn; lra.
Qed.

(** sqrt_grad: derivative along every path with differentiable eigenvectors and eigenvalues *)
Theorem C92_sqrt_gradient : forall n (V : R -> mat n n) t dV (d : R -> Fin.t n -> R) dd, (forall s, unitary (V s)) -> mderive V t dV ->
  (forall i, is_derive (fun s => d s i) t (dd i)) -> (forall s i, (0 < d s i)%R) ->
  forall dA dS, mderive (fun s => matFunc (V s) (fun i => RtoC (d s i))) t dA -> mderive (fun s => matFunc (V s) (fun i => RtoC (sqrt (d s i)))) t dS ->
  forall G, mtr (mmul (sqrtGrad G (V t) (d t)) dA) = mtr (mmul G dS).
Proof. exact sqrt_grad_ok. Qed.
Print Assumptions C92_sqrt_gradient.

(** cis_grad: gradIn is contracted with dU U^dagger; eigenvalues are equal or further apart than the threshold *)
Theorem C92_cis_gradient : forall n (V : R -> mat n n) t dV (d : R -> Fin.t n -> R) dd, (forall s, unitary (V s)) -> mderive V t dV ->
  (forall i, is_derive (fun s => d s i) t (dd i)) ->
  (forall i j, d t i = d t j \/ (1 / 10^13 <= Rabs (d t j - d t i))%R) ->
  forall dA dU, mderive (fun s => matFunc (V s) (fun i => RtoC (d s i))) t dA -> mderive (fun s => cisMat (V s) (d s)) t dU ->
  forall G, mtr (mmul (cisGrad G (V t) (d t)) dA) = mtr (mmul G (mmul dU (madj (cisMat (V t) (d t))))).
Proof. exact cis_grad_ok. Qed.
Print Assumptions C92_cis_gradient.
Example C92_cis_gradient_example : exists dA dU, mderive (fun s => matFunc (rotV s) (fun i => RtoC (rotd s i))) 0 dA /\ mderive (fun s => cisMat (rotV s) (rotd s)) 0 dU /\
  forall G, mtr (mmul (cisGrad G (rotV 0) (rotd 0)) dA) = mtr (mmul G (mmul dU (madj (cisMat (rotV 0) (rotd 0))))).
Proof.
  destruct (rot_derive (fun s i => RtoC (rotd s i)) _ (fun i => cder_R _ _ _ (rotd_der i))) as [dA HA].
  destruct (rot_derive (fun s i => ccis (rotd s i)) _ (fun i => cder_cis _ _ _ (rotd_der i))) as [dU HU].
  exists dA, dU. split; [exact HA|]. split; [exact HU|].
  apply (C92_cis_gradient 2 rotV 0 _ rotd _ rotV_unitary rotV_der rotd_der); [|exact HA|exact HU].
  assert (1 / 10^13 <= 1)%R as Hs. { apply Rmult_le_reg_r with (10^13)%R; [apply pow_lt; lra|]. unfold Rdiv. rewrite Rmult_assoc, Rinv_l by (apply pow_nonzero; lra). rewrite !Rmult_1_l. apply pow_R1_Rle. lra. }
  refine (fin2 _ _ _); refine (fin2 _ _ _); cbn; auto; right; [rewrite Rabs_left|rewrite Rabs_right]; cbn in Hs; lra.
Qed.

(** orthoMatrix orthonormalizes with respect to the overlap it is computed from, without changing the span *)
Theorem C92_orthoMatrix : forall n m (Cq OC : mat m n) (Linv : mat n n), choleskyInverse (mmul (madj Cq) OC) Linv ->
  let U := orthoMatrix Linv in
  mmul (mmul (madj U) (mmul (madj Cq) OC)) U = mone /\ mmul (madj (mmul Cq U)) (mmul OC U) = mone /\ exists W, mmul U W = mone /\ mmul W U = mone.
Proof. exact ortho_ok. Qed.
Print Assumptions C92_orthoMatrix.
Example C92_orthoMatrix_example : choleskyInverse (mmul (madj (m22 1 1 0 1)) (m22 1 1 0 1)) (m22 1 0 (RtoC (-1)) 1).
Proof.
  exists (m22 1 0 1 1). rewrite !m22_adj, !m22_mul, !m22_one. split; [|split]; apply m22_ext; apply injective_projections; cbn; ring.
Qed.

(** dagger_symmetrize keeps what contributes to a real energy *)
Theorem C92_dagger_symmetrize : forall n (A : mat n n), hermitian (daggerSymmetrize A) /\ (hermitian A -> daggerSymmetrize A = A) /\
  forall B, hermitian B -> mtr (mmul (daggerSymmetrize A) B) = RtoC (Re (mtr (mmul A B))).
Proof. exact sym_ok. Qed.
Print Assumptions C92_dagger_symmetrize.

(** smearGrad in the basis of the auxiliary eigenvectors, for rotations as well as changes of the eigenvalues *)
Theorem C91_smearGrad_rotations : forall n ty width mu (V : R -> mat n n) t dV (eps : R -> Fin.t n -> R) deps, (0 < width)%R ->
  (forall s, unitary (V s)) -> V t = mone -> mderive V t dV -> (forall i, is_derive (fun s => eps s i) t (deps i)) ->
  (forall i j, eps t i = eps t j \/ (1 / 1000000 <= Rabs (eps t i - eps t j))%R) ->
  forall dH dF, mderive (fun s => matFunc (V s) (fun i => RtoC (eps s i))) t dH -> mderive (fun s => matFunc (V s) (fun i => RtoC (smear ty width mu (eps s i)))) t dF ->
  forall G, mtr (mmul (fun i j => RtoC (smearGradFactor ty width mu (eps t i) (eps t j)) * G i j) dH) = mtr (mmul G dF).
Proof. exact smear_grad_ok. Qed.
Print Assumptions C91_smearGrad_rotations.
