(** Dense complex matrices: slicing, transposed views, products, tiled block matrices and the
    threaded BLAS product (C54, C55, C56).
    Doubles are idealised as reals, complex numbers are Coquelicot's C = R*R; int overflow of
    index products is not modelled.  Only the CPU paths are modelled. *)
From Coq Require Import ZArith List Bool Reals.
From Coquelicot Require Import Complex.
From Verif Require Import Base WorkDiv_Model.
Import ListNotations.
Open Scope Z_scope.

(** Outcomes: normal result, a failed assert(...) (the program stops), or an access outside
    an allocation (undefined behaviour). *)
Inductive res (A : Type) := Ok (a : A) | Rejected | OutOfBounds.
Arguments Ok {A} a. Arguments Rejected {A}. Arguments OutOfBounds {A}.
Definition bind {A B} (x : res A) (f : A -> res B) : res B :=
  match x with Ok a => f a | Rejected => Rejected | OutOfBounds => OutOfBounds end.
Definition assert {A} (b : bool) (k : res A) : res A := if b then k else Rejected.
(** for(x : l) s = f(s,x), stopping at the first failure. *)
Fixpoint foldM {S A} (f : S -> A -> res S) (l : list A) (s : S) : res S :=
  match l with [] => Ok s | x :: l' => bind (f s x) (fun s' => foldM f l' s') end.

(** An allocated array of [len] complex numbers (ManagedMemory<complex>, core/ManagedMemory.h:30-75). *)
Record buf := mkBuf { len : Z; cell : Z -> C }.
Definition inb (b : buf) (a : Z) : bool := (0 <=? a) && (a <? len b).
Definition rd (b : buf) (a : Z) : res C := if inb b a then Ok (cell b a) else OutOfBounds.
(** b[a] = f(b[a]) *)
Definition upd (b : buf) (a : Z) (f : C -> C) : res buf :=
  if inb b a then Ok (mkBuf (len b) (fun x => if x =? a then f (cell b a) else cell b x)) else OutOfBounds.

(** core/matrix.h:54-67  class matrix (column major, nr x nc, allocation of nr*nc: core/matrix.cpp init). *)
Record matrix := mkMat { nr : Z; nc : Z; mcell : Z -> C }.
Definition data (m : matrix) : buf := mkBuf (nr m * nc m) (mcell m).
Definition of_buf (r c : Z) (b : buf) : matrix := mkMat r c (cell b).
(** core/matrix.h:62 matrix::index *)
Definition index (m : matrix) (i j : Z) : Z := nr m * j + i.
(** core/scalar.h:52 *)
Definition ceildiv (num den : Z) : Z := Z.quot (num + den - 1) den.

(** core/matrixOperators.cpp:28-39  matrix::operator()(i,j) (asserts at 28-29). *)
Definition get1 (m : matrix) (i j : Z) : res C :=
  assert ((i <? nr m) && (0 <=? i)) (assert ((j <? nc m) && (0 <=? j)) (rd (data m) (index m i j))).
(** core/matrixOperators.cpp:72-84  matrix::set(i,j,m). *)
Definition set1 (m : matrix) (i j : Z) (v : C) : res matrix :=
  assert ((i <? nr m) && (0 <=? i)) (assert ((j <? nc m) && (0 <=? j))
    (bind (upd (data m) (index m i j) (fun _ => v)) (fun b => Ok (of_buf (nr m) (nc m) b)))).

(** core/matrixOperators.cpp:48-69  strided sub-matrix; [init] is the uninitialised content of
    the newly allocated result. *)
Definition subGet (init : Z -> C) (m : matrix) (iStart iStep iStop jStart jStep jStop : Z) : res matrix :=
  if (iStart =? 0) && (iStep =? 1) && (iStop =? nr m) && (jStart =? 0) && (jStep =? 1) && (jStop =? nc m)
  then Ok m
  else
    assert ((0 <=? iStart) && (iStart <? nr m)) (
    assert ((iStart <? iStop) && (iStop <=? nr m)) (
    assert (0 <? iStep) (
    assert ((0 <=? jStart) && (jStart <? nc m)) (
    assert ((jStart <? jStop) && (jStop <=? nc m)) (
    assert (0 <? jStep) (
    let iDelta := ceildiv (iStop - iStart) iStep in
    let jDelta := ceildiv (jStop - jStart) jStep in
    let ret := mkMat iDelta jDelta init in
    bind (foldM (fun b i => foldM (fun b j =>
            bind (rd (data m) (index m (i*iStep+iStart) (j*jStep+jStart))) (fun v =>
            upd b (index ret i j) (fun _ => v))) (zrange 0 jDelta) b) (zrange 0 iDelta) (data ret))
      (fun b => Ok (of_buf iDelta jDelta b)))))))).

(** core/matrixOperators.cpp:90-95  matrixSubSet (op old new = new) and matrixSubAccum
    (op old new = old + new); the input pointer advances by one per element. *)
Definition matrixSub (op : C -> C -> C) (nr iStart iStep iDelta jStart jStep jDelta : Z) (inp out : buf) : res buf :=
  bind (foldM (fun st j => foldM (fun st i =>
          bind (rd inp (fst st)) (fun v =>
          bind (upd (snd st) (nr*(j*jStep+jStart) + (i*iStep+iStart)) (fun old => op old v)) (fun o =>
          Ok (fst st + 1, o)))) (zrange 0 iDelta) st) (zrange 0 jDelta) (0, out))
    (fun st => Ok (snd st)).
(** core/matrixOperators.cpp:96-110  matrix::set / matrix::accum of a sub-matrix
    (note the "||" in the two assertions on the columns, lines 101-102). *)
Definition subOp (op : C -> C -> C) (m : matrix) (iStart iStep iStop jStart jStep jStop : Z) (v : matrix) : res matrix :=
  assert ((0 <=? iStart) && (iStart <? nr m)) (
  assert ((iStart <? iStop) && (iStop <=? nr m)) (
  assert (0 <? iStep) (
  assert ((0 <=? jStart) || (jStart <? nc m)) (
  assert ((jStart <? jStop) || (jStop <=? nc m)) (
  assert (0 <? jStep) (
  let iDelta := ceildiv (iStop - iStart) iStep in
  let jDelta := ceildiv (jStop - jStart) jStep in
  assert (iDelta =? nr v) (
  assert (jDelta =? nc v) (
  bind (matrixSub op (nr m) iStart iStep iDelta jStart jStep jDelta (data v) (data m))
    (fun b => Ok (of_buf (nr m) (nc m) b)))))))))).
(** core/matrixOperators.cpp:111-112 *)
Definition subSet := subOp (fun _ v => v).
Definition subAccum := subOp (fun old v => Cplus old v).

(** core/matrix.h:108-143  matrixScaledTransOp *)
Inductive trans := NoTrans | Trans | ConjTrans.
Definition isNoTrans (t : trans) : bool := match t with NoTrans => true | _ => false end.
Record view := mkView { vmat : matrix; vscale : R; viStart : Z; viDelta : Z; vjStart : Z; vjDelta : Z; vop : trans }.
(** core/matrix.h:120-123 *)
Definition view_of (m : matrix) (s : R) (t : trans) : view := mkView m s 0 (nr m) 0 (nc m) t.
(** core/matrix.h:132-135, matrixOperators.cpp:41-43 *)
Definition view_sub (m : matrix) (iStart iStop jStart jStop : Z) (s : R) : view :=
  mkView m s iStart (iStop - iStart) jStart (jStop - jStart) NoTrans.
(** core/matrix.h:114-117 *)
Definition vRows (v : view) : Z := if isNoTrans (vop v) then viDelta v else vjDelta v.
Definition vCols (v : view) : Z := if isNoTrans (vop v) then vjDelta v else viDelta v.
Definition vIndex (v : view) (i j : Z) : Z :=
  if isNoTrans (vop v) then index (vmat v) (i + viStart v) (j + vjStart v)
  else index (vmat v) (j + viStart v) (i + vjStart v).
(** core/matrixOperators.cpp:349-366  dagger, transpose. *)
Definition dagger (v : view) : res view :=
  match vop v with
  | Trans => Rejected
  | NoTrans => Ok (mkView (vmat v) (vscale v) (viStart v) (viDelta v) (vjStart v) (vjDelta v) ConjTrans)
  | ConjTrans => Ok (mkView (vmat v) (vscale v) (viStart v) (viDelta v) (vjStart v) (vjDelta v) NoTrans)
  end.
Definition transpose (v : view) : res view :=
  match vop v with
  | ConjTrans => Rejected
  | NoTrans => Ok (mkView (vmat v) (vscale v) (viStart v) (viDelta v) (vjStart v) (vjDelta v) Trans)
  | Trans => Ok (mkView (vmat v) (vscale v) (viStart v) (viDelta v) (vjStart v) (vjDelta v) NoTrans)
  end.

(** BLAS contract of zaxpy (core/BlasExtra.cpp eblas_zaxpy): y[y0+i*incy] += a*x[x0+i*incx], 0<=i<N. *)
Definition zaxpy (N : Z) (a : R) (x : buf) (x0 incx : Z) (y : buf) (y0 incy : Z) : res buf :=
  foldM (fun b i => bind (rd x (x0 + i*incx)) (fun v => upd b (y0 + i*incy) (fun old => Cplus old (Cmult (RtoC a) v))))
    (zrange 0 N) y.
(** core/matrixOperators.cpp:319-337  conversion of a view to a matrix: lines 327-331 copy one
    column of the result (one row of the source) per iteration; lines 333-334 negate all
    imaginary parts. *)
Definition toMatrix (init : Z -> C) (v : view) : res matrix :=
  if isNoTrans (vop v) then
    bind (subGet init (vmat v) (viStart v) 1 (viStart v + viDelta v) (vjStart v) 1 (vjStart v + vjDelta v))
      (fun m => Ok (mkMat (nr m) (nc m) (fun a => Cmult (RtoC (vscale v)) (mcell m a))))
  else
    let ret := mkMat (vRows v) (vCols v) (fun _ => RtoC 0) in
    bind (foldM (fun st j =>
            let '(retP, inP, b) := st in
            bind (zaxpy (nr ret) (vscale v) (data (vmat v)) inP (nr (vmat v)) b retP 1) (fun b' =>
            Ok (retP + nr ret, inP + 1, b'))) (zrange 0 (nc ret)) (0, vIndex v 0 0, data ret))
      (fun st => let b := snd st in
        Ok (mkMat (nr ret) (nc ret)
             (match vop v with ConjTrans => fun a => Cconj (cell b a) | _ => cell b end))).

(** BLAS contract of zgemm, column major: element (i,l) of op(A) for A stored at A+a0 with leading dimension lda. *)
Definition opRead (t : trans) (A : buf) (a0 lda i l : Z) : res C :=
  match t with
  | NoTrans => rd A (a0 + i + lda * l)
  | Trans => rd A (a0 + l + lda * i)
  | ConjTrans => bind (rd A (a0 + l + lda * i)) (fun v => Ok (Cconj v))
  end.
(** sum over l < K of op(A)(i,l)*op(B)(l,j) *)
Definition gemmDot (tA tB : trans) (K : Z) (A : buf) (a0 lda : Z) (B : buf) (b0 ldb i j : Z) : res C :=
  foldM (fun acc l => bind (opRead tA A a0 lda i l) (fun a => bind (opRead tB B b0 ldb l j) (fun b =>
    Ok (Cplus acc (Cmult a b))))) (zrange 0 K) (RtoC 0).
(** The element updates performed by one zgemm call: address in C and value of the sum. *)
Definition gemmOps (tA tB : trans) (M N K : Z) (A : buf) (a0 lda : Z) (B : buf) (b0 ldb c0 ldc : Z) : list (Z * res C) :=
  flat_map (fun j => map (fun i => (c0 + i + ldc * j, gemmDot tA tB K A a0 lda B b0 ldb i j)) (zrange 0 M)) (zrange 0 N).
(** C[addr] = alpha*sum + beta*C[addr]; with beta = 0 the old content is not used. *)
Definition gemmOp (alpha beta : C) (b : buf) (op : Z * res C) : res buf :=
  bind (snd op) (fun s => upd b (fst op) (fun old =>
    if Ceq_dec beta (RtoC 0) then Cmult alpha s else Cplus (Cmult alpha s) (Cmult beta old))).
(** One serial call cblas_zgemm (also core/BlasExtra.cpp:81, THREADED_BLAS). *)
Definition zgemm (tA tB : trans) (M N K : Z) (alpha : C) (A : buf) (a0 lda : Z) (B : buf) (b0 ldb : Z)
    (beta : C) (Cb : buf) (c0 ldc : Z) : res buf :=
  foldM (gemmOp alpha beta) (gemmOps tA tB M N K A a0 lda B b0 ldb c0 ldc) Cb.

(** core/BlasExtra.cpp:53-74  eblas_zgemm_sub: the element updates of the thread given [iMin,iMax). *)
Definition zgemm_sub_ops (tA tB : trans) (M N K : Z) (A : buf) (a0 lda : Z) (B : buf) (b0 ldb c0 ldc iMin iMax : Z) : list (Z * res C) :=
  if N <? M then
    gemmOps tA tB (iMax - iMin) N K A (a0 + iMin * (if isNoTrans tA then 1 else lda)) lda B b0 ldb (c0 + iMin) ldc
  else
    gemmOps tA tB M (iMax - iMin) K A a0 lda B (b0 + iMin * (if isNoTrans tB then ldb else 1)) ldb (c0 + iMin * ldc) ldc.
(** core/BlasExtra.cpp:75-86  eblas_zgemm: threadLaunch over max(M,N) jobs; updates of each thread. *)
Definition zgemm_threads (nThreads : Z) (tA tB : trans) (M N K : Z) (A : buf) (a0 lda : Z) (B : buf) (b0 ldb c0 ldc : Z) : list (list (Z * res C)) :=
  map (fun t => zgemm_sub_ops tA tB M N K A a0 lda B b0 ldb c0 ldc
                  (thread_i1 nThreads (Z.max M N) t) (thread_i2 nThreads (Z.max M N) t)) (zrange 0 nThreads).
(** Execution of element updates in the order given by a schedule. *)
Definition run_gemm (alpha beta : C) (sched : list (Z * res C)) (Cb : buf) : res buf := foldM (gemmOp alpha beta) sched Cb.

(** core/matrixOperators.cpp:117-129  product of two views. *)
Definition mulViews (init : Z -> C) (v1 v2 : view) : res matrix :=
  assert (vCols v1 =? vRows v2) (
  let ret := mkMat (vRows v1) (vCols v2) init in
  bind (zgemm (vop v1) (vop v2) (nr ret) (nc ret) (vCols v1) (RtoC (vscale v1 * vscale v2))
          (data (vmat v1)) (vIndex v1 0 0) (nr (vmat v1)) (data (vmat v2)) (vIndex v2 0 0) (nr (vmat v2))
          (RtoC 0) (data ret) 0 (nr ret))
    (fun b => Ok (of_buf (nr ret) (nc ret) b))).

(** core/matrixOperators.cpp:132-141  mulMD, mulDM: products with a diagonal matrix, the pointers
    out and M advance together; D is a function of the diagonal index. *)
Definition mulDiag (pick : Z -> Z -> Z) (nRows nCols : Z) (D : Z -> C) (M out : buf) : res buf :=
  bind (foldM (fun st j => foldM (fun st i =>
          bind (rd M (fst st)) (fun v => bind (upd (snd st) (fst st) (fun _ => Cmult v (D (pick i j)))) (fun o =>
          Ok (fst st + 1, o)))) (zrange 0 nRows) st) (zrange 0 nCols) (0, out)) (fun st => Ok (snd st)).
(** core/matrixOperators.cpp:155-166 and 167-178: d.size() = dn. *)
Definition mulMD (init : Z -> C) (m : matrix) (dn : Z) (D : Z -> C) : res matrix :=
  assert (nc m =? dn) (bind (mulDiag (fun i j => j) (nr m) (nc m) D (data m) (data (mkMat (nr m) (nc m) init)))
    (fun b => Ok (of_buf (nr m) (nc m) b))).
Definition mulDM (init : Z -> C) (dn : Z) (D : Z -> C) (m : matrix) : res matrix :=
  assert (dn =? nr m) (bind (mulDiag (fun i j => i) (nr m) (nc m) D (data m) (data (mkMat (nr m) (nc m) init)))
    (fun b => Ok (of_buf (nr m) (nc m) b))).
(** core/matrixOperators.cpp:272-276  trace: zdotc of the constant 1 (stride 0) with the diagonal (stride nCols+1). *)
Definition traceM (m : matrix) : res C :=
  assert (nr m =? nc m) (foldM (fun acc i => bind (rd (data m) (i * (nc m + 1))) (fun v =>
    Ok (Cplus acc (Cmult (Cconj (RtoC 1)) v)))) (zrange 0 (nr m)) (RtoC 0)).

(** core/matrixOperators.cpp:412-414 tiledBlockMatrix; phase k = phaseArr->at(k), or 1 without phases. *)
(** core/matrixOperators.cpp:416-428  tiledBlockMatrix::operator*(other): the same offset
    offs = iBlock*nCols is used in other and in result (lines 421, 424, 425). *)
Definition tiledMulLeft (init : Z -> C) (blk : matrix) (nBlocks : Z) (phase : Z -> C) (other : matrix) : res matrix :=
  assert (nc blk * nBlocks =? nr other) (
  let result := mkMat (nr blk * nBlocks) (nc other) init in
  bind (foldM (fun b iBlock =>
          let offs := iBlock * nc blk in
          zgemm NoTrans NoTrans (nr blk) (nc other) (nc blk) (phase iBlock) (data blk) 0 (nr blk)
            (data other) offs (nr other) (RtoC 0) b offs (nr result)) (zrange 0 nBlocks) (data result))
    (fun b => Ok (of_buf (nr result) (nc result) b))).
(** core/matrixOperators.cpp:430-443  operator*(matrix, tiledBlockMatrix). *)
Definition tiledMulRight (init : Z -> C) (m : matrix) (blk : matrix) (nBlocks : Z) (phase : Z -> C) : res matrix :=
  assert (nc m =? nr blk * nBlocks) (
  let result := mkMat (nr m) (nc blk * nBlocks) init in
  bind (foldM (fun b iBlock =>
          let offsIn := iBlock * nr blk * nr m in
          let offsOut := iBlock * nc blk * nr m in
          zgemm NoTrans NoTrans (nr m) (nc blk) (nr blk) (phase iBlock) (data m) offsIn (nr m)
            (data blk) 0 (nr blk) (RtoC 0) b offsOut (nr result)) (zrange 0 nBlocks) (data result))
    (fun b => Ok (of_buf (nr result) (nc result) b))).
