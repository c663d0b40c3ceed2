(** Properties C54, C55, C56. *)
From Coq Require Import ZArith List Bool Reals Lia Permutation.
From Coquelicot Require Import Complex.
From Verif Require Import Base WorkDiv_Model Matrix_Model Matrix_Spec Matrix_Proofs Matrix_Proofs2 Matrix_Proofs3 Matrix_Proofs4.
Import ListNotations.
Open Scope Z_scope.

(** C54: reading a strided sub-matrix: entry (k,l) of the result is the entry at the k-th row and
    l-th column of the requested ranges, which are start, start+step, ... up to stop. *)
Theorem C54_submatrix_read : forall init m iStart iStep iStop jStart jStep jStop,
  range_ok (nr m) iStart iStep iStop -> range_ok (nc m) jStart jStep jStop ->
  exists r, subGet init m iStart iStep iStop jStart jStep jStop = Ok r /\
    (forall k, 0 <= k < nr r <-> 0 <= k /\ iStart + k * iStep < iStop) /\
    (forall l, 0 <= l < nc r <-> 0 <= l /\ jStart + l * jStep < jStop) /\
    (nr r = ceildiv (iStop - iStart) iStep /\ nc r = ceildiv (jStop - jStart) jStep) /\
    (forall k l, 0 <= k < nr r -> 0 <= l < nc r -> entry r k l = entry m (iStart + k * iStep) (jStart + l * jStep)).
Proof. exact subGet_value. Qed.
Print Assumptions C54_submatrix_read.

(** C54: any other request is rejected (a full copy of an empty matrix excepted). *)
Theorem C54_bad_read_rejected : forall init m iStart iStep iStop jStart jStep jStop,
  ~ (range_ok (nr m) iStart iStep iStop /\ range_ok (nc m) jStart jStep jStop) ->
  ~ (iStart = 0 /\ iStep = 1 /\ iStop = nr m /\ jStart = 0 /\ jStep = 1 /\ jStop = nc m) ->
  subGet init m iStart iStep iStop jStart jStep jStop = Rejected.
Proof. exact subGet_rejects. Qed.
Print Assumptions C54_bad_read_rejected.

(** C54: writing a block of the right shape sets exactly the requested entries; all others keep
    their value. *)
Theorem C54_submatrix_write : forall m v iStart iStep iStop jStart jStep jStop,
  range_ok (nr m) iStart iStep iStop -> range_ok (nc m) jStart jStep jStop ->
  nr v = ceildiv (iStop - iStart) iStep -> nc v = ceildiv (jStop - jStart) jStep ->
  exists m', subSet m iStart iStep iStop jStart jStep jStop v = Ok m' /\ nr m' = nr m /\ nc m' = nc m /\
    (forall k l, 0 <= k < nr v -> 0 <= l < nc v -> entry m' (iStart + k*iStep) (jStart + l*jStep) = entry v k l) /\
    (forall i j, in_mat m i j -> ~ (exists k l, at_pos iStart iStep iStop k i /\ at_pos jStart jStep jStop l j) ->
       entry m' i j = entry m i j).
Proof. exact (subOp_value (fun _ v => v)). Qed.
Print Assumptions C54_submatrix_write.

Theorem C54_submatrix_accumulate : forall m v iStart iStep iStop jStart jStep jStop,
  range_ok (nr m) iStart iStep iStop -> range_ok (nc m) jStart jStep jStop ->
  nr v = ceildiv (iStop - iStart) iStep -> nc v = ceildiv (jStop - jStart) jStep ->
  exists m', subAccum m iStart iStep iStop jStart jStep jStop v = Ok m' /\ nr m' = nr m /\ nc m' = nc m /\
    (forall k l, 0 <= k < nr v -> 0 <= l < nc v ->
       entry m' (iStart + k*iStep) (jStart + l*jStep) = Cplus (entry m (iStart + k*iStep) (jStart + l*jStep)) (entry v k l)) /\
    (forall i j, in_mat m i j -> ~ (exists k l, at_pos iStart iStep iStop k i /\ at_pos jStart jStep jStop l j) ->
       entry m' i j = entry m i j).
Proof. exact (subOp_value (fun old v => Cplus old v)). Qed.
Print Assumptions C54_submatrix_accumulate.

Theorem C54_read_back : forall init m v iStart iStep iStop jStart jStep jStop m',
  range_ok (nr m) iStart iStep iStop -> range_ok (nc m) jStart jStep jStop ->
  subSet m iStart iStep iStop jStart jStep jStop v = Ok m' ->
  exists v', subGet init m' iStart iStep iStop jStart jStep jStop = Ok v' /\ nr v' = nr v /\ nc v' = nc v /\
    forall k l, in_mat v k l -> entry v' k l = entry v k l.
Proof. exact set_get. Qed.
Print Assumptions C54_read_back.

Theorem C54_bad_row_write_rejected : forall op m v iStart iStep iStop jStart jStep jStop,
  ~ range_ok (nr m) iStart iStep iStop -> subOp op m iStart iStep iStop jStart jStep jStop v = Rejected.
Proof. exact subOp_rejects_rows. Qed.
Print Assumptions C54_bad_row_write_rejected.

(** C54, out-of-range columns in a write: false of the code.  The two assertions on the columns use
    "||" (matrixOperators.cpp:101-102), so the write goes outside the matrix. *)
Theorem C54_bad_column_write_rejected_refuted : exists m v iStart iStep iStop jStart jStep jStop,
  dims_ok m /\ dims_ok v /\ ~ range_ok (nc m) jStart jStep jStop /\
  subSet m iStart iStep iStop jStart jStep jStop v = OutOfBounds.
Proof. exact subSet_oob. Qed.
Print Assumptions C54_bad_column_write_rejected_refuted.
Theorem C54_negative_column_write_rejected_refuted : exists m v, dims_ok m /\ dims_ok v /\
  subSet m 0 1 1 (-1) 1 0 v = OutOfBounds.
Proof. exact subSet_negative_col. Qed.
Print Assumptions C54_negative_column_write_rejected_refuted.

(** C54: converting a scaled transposed / adjoint view gives the transposed / adjoint entries. *)
Theorem C54_transposed_view : forall init v, view_ok v -> vop v <> NoTrans ->
  exists m, toMatrix init v = Ok m /\ nr m = vRows v /\ nc m = vCols v /\
    forall i j, 0 <= i < vRows v -> 0 <= j < vCols v -> entry m i j = view_entry v i j.
Proof. exact toMatrix_trans_value. Qed.
Print Assumptions C54_transposed_view.
Theorem C54_plain_view : forall init v, view_ok v -> vop v = NoTrans ->
  (viStart v = 0 /\ viDelta v = nr (vmat v) /\ vjStart v = 0 /\ vjDelta v = nc (vmat v) \/ 0 < viDelta v /\ 0 < vjDelta v) ->
  exists m, toMatrix init v = Ok m /\ nr m = vRows v /\ nc m = vCols v /\
    forall i j, 0 <= i < vRows v -> 0 <= j < vCols v -> entry m i j = view_entry v i j.
Proof. exact toMatrix_notrans_value. Qed.
Print Assumptions C54_plain_view.

(** C54: the product of two views is the matrix product of what they denote. *)
Theorem C54_product_of_views : forall init v1 v2, view_ok v1 -> view_ok v2 -> vCols v1 = vRows v2 ->
  exists m, mulViews init v1 v2 = Ok m /\ nr m = vRows v1 /\ nc m = vCols v2 /\
    forall i j, 0 <= i < nr m -> 0 <= j < nc m ->
      entry m i j = Csum (fun l => Cmult (view_entry v1 i l) (view_entry v2 l j)) (vCols v1).
Proof. exact mulViews_value. Qed.
Print Assumptions C54_product_of_views.
Theorem C54_product_with_diagonal_right : forall init m dn D, dims_ok m -> nc m = dn ->
  exists r, mulMD init m dn D = Ok r /\ nr r = nr m /\ nc r = nc m /\
    forall i j, in_mat m i j -> entry r i j = Cmult (entry m i j) (D j).
Proof. exact mulMD_value. Qed.
Print Assumptions C54_product_with_diagonal_right.
Theorem C54_product_with_diagonal_left : forall init m dn D, dims_ok m -> dn = nr m ->
  exists r, mulDM init dn D m = Ok r /\ nr r = nr m /\ nc r = nc m /\
    forall i j, in_mat m i j -> entry r i j = Cmult (D i) (entry m i j).
Proof. exact mulDM_value. Qed.
Print Assumptions C54_product_with_diagonal_left.
Theorem C54_trace : forall m, dims_ok m -> nr m = nc m -> traceM m = Ok (Csum (fun i => entry m i i) (nr m)).
Proof. exact trace_value. Qed.
Print Assumptions C54_trace.

Definition ex_mat : matrix := mkMat 5 4 (fun a => RtoC (IZR a)).
Example C54_example_ranges : range_ok (nr ex_mat) 0 2 5 /\ range_ok (nc ex_mat) 1 2 4 /\
  ceildiv (5 - 0) 2 = 3 /\ ceildiv (4 - 1) 2 = 2 /\ view_ok (mkView ex_mat 2 1 3 0 2 ConjTrans).
Proof. repeat split; cbn; lia. Qed.
Example C54_example_read : exists r, subGet (fun _ => RtoC 0) ex_mat 0 2 5 1 2 4 = Ok r /\ nr r = 3 /\ nc r = 2 /\ entry r 1 1 = RtoC (IZR 17).
Proof. eexists. repeat split. Qed.

(** C55: product with a tiled block matrix from the right equals the dense product for every tile
    shape; from the left it does for square tiles. *)
Theorem C55_tiled_right_product : forall init m blk nBlocks phase, dims_ok m -> dims_ok blk -> 0 <= nBlocks -> nc m = nr blk * nBlocks ->
  exists r, tiledMulRight init m blk nBlocks phase = Ok r /\ nr r = nr m /\ nc r = nc blk * nBlocks /\
    forall i j, in_mat r i j -> entry r i j = Csum (fun k => Cmult (entry m i k) (tiled_entry blk phase k j)) (nc m).
Proof. exact tiledMulRight_value. Qed.
Print Assumptions C55_tiled_right_product.
Theorem C55_tiled_left_product_square_tiles : forall init blk nBlocks phase other, dims_ok other -> dims_ok blk -> nr blk = nc blk -> 0 <= nBlocks ->
  nc blk * nBlocks = nr other ->
  exists r, tiledMulLeft init blk nBlocks phase other = Ok r /\ nr r = nr blk * nBlocks /\ nc r = nc other /\
    forall i j, in_mat r i j -> entry r i j = Csum (fun k => Cmult (tiled_entry blk phase i k) (entry other k j)) (nr other).
Proof. exact tiledMulLeft_value. Qed.
Print Assumptions C55_tiled_left_product_square_tiles.
(** C55, non-square tiles from the left: false of the code, which uses the column offset of the
    tile for the rows of the result (matrixOperators.cpp:421,425). *)
Theorem C55_tiled_left_product_wide_tiles_refuted : exists blk nBlocks phase other, dims_ok blk /\ dims_ok other /\ nc blk * nBlocks = nr other /\
  forall init, tiledMulLeft init blk nBlocks phase other = OutOfBounds.
Proof. exact tiledMulLeft_wide_oob. Qed.
Print Assumptions C55_tiled_left_product_wide_tiles_refuted.
Theorem C55_tiled_left_product_tall_tiles_refuted : exists init blk nBlocks phase other r, dims_ok blk /\ dims_ok other /\ nc blk * nBlocks = nr other /\
  tiledMulLeft init blk nBlocks phase other = Ok r /\
  exists i j, in_mat r i j /\ entry r i j <> Csum (fun k => Cmult (tiled_entry blk phase i k) (entry other k j)) (nr other).
Proof. exact tiledMulLeft_tall_wrong. Qed.
Print Assumptions C55_tiled_left_product_tall_tiles_refuted.
Example C55_example_shapes : dims_ok (mkMat 2 6 (fun _ => RtoC 1)) /\ nc (mkMat 2 6 (fun _ => RtoC 1)) = nr (mkMat 3 4 (fun _ => RtoC 1)) * 2.
Proof. repeat split; cbn; lia. Qed.

(** C56: whatever order each thread works in and however threads interleave, every output element
    is updated exactly once, and the output equals that of the serial product. *)
Theorem C56_threaded_product_is_serial : forall nThreads tA tB M N K alpha A a0 lda B b0 ldb beta Cb c0 ldc threadOps sched,
  0 < nThreads -> 0 <= M -> 0 <= N -> M <= ldc ->
  Forall2 (@Permutation _) (zgemm_threads nThreads tA tB M N K A a0 lda B b0 ldb c0 ldc) threadOps ->
  interleave threadOps sched ->
  Permutation sched (gemmOps tA tB M N K A a0 lda B b0 ldb c0 ldc) /\
  NoDup (map fst sched) /\
  req (run_gemm alpha beta sched Cb) (zgemm tA tB M N K alpha A a0 lda B b0 ldb beta Cb c0 ldc).
Proof. exact zgemm_threaded_serial. Qed.
Print Assumptions C56_threaded_product_is_serial.
(** C56: the serial product, read back. *)
Theorem C56_serial_product_value : forall tA tB M N K alpha A a0 lda B b0 ldb beta Cb c0 ldc (fa fb : Z -> Z -> C),
  0 <= M -> 0 <= N -> 0 <= K -> M <= ldc ->
  (forall i l, 0 <= i < M -> 0 <= l < K -> opRead tA A a0 lda i l = Ok (fa i l)) ->
  (forall l j, 0 <= l < K -> 0 <= j < N -> opRead tB B b0 ldb l j = Ok (fb l j)) ->
  (forall i j, 0 <= i < M -> 0 <= j < N -> 0 <= c0 + i + ldc * j < len Cb) ->
  exists b', zgemm tA tB M N K alpha A a0 lda B b0 ldb beta Cb c0 ldc = Ok b' /\ len b' = len Cb /\
    (forall i j, 0 <= i < M -> 0 <= j < N ->
       cell b' (c0 + i + ldc * j) = gemmVal alpha beta (Csum (fun l => Cmult (fa i l) (fb l j)) K) (cell Cb (c0 + i + ldc * j))) /\
    (forall a, (forall i j, 0 <= i < M -> 0 <= j < N -> a <> c0 + i + ldc * j) -> cell b' a = cell Cb a).
Proof. exact zgemm_value. Qed.
Print Assumptions C56_serial_product_value.
Example C56_example_threads : map (@length _) (zgemm_threads 3 NoTrans Trans 2 5 4 (mkBuf 8 (fun _ => RtoC 1)) 0 2 (mkBuf 20 (fun _ => RtoC 1)) 0 5 0 2) = [2; 4; 4]%nat
  /\ map (map fst) (zgemm_threads 2 NoTrans NoTrans 3 2 4 (mkBuf 12 (fun _ => RtoC 1)) 0 3 (mkBuf 8 (fun _ => RtoC 1)) 0 4 0 3) = [[0; 3]; [1; 2; 4; 5]].
Proof. split; reflexivity. Qed.
