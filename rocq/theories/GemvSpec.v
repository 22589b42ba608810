(** * Vocabulary for the statements about matrix products *)
From Coq Require Import ZArith Bool List Lia Ascii.
From Flocq Require Import Core BinarySingleNaN.
From Verif Require Import Fp Mem Binned Spec Client Gen GenProofs Params Blas BlasSpec Gemv.
Import ListNotations.
Open Scope Z_scope.

Definition within (p n a : Z) : Prop := p <= a < p + n.
(** Address of element (i, j) of a matrix stored in the given order with leading
    dimension ld, and of element (i, j) of op(A), op the transposition flag. *)
Definition elem_addr (Order : ascii) (A ld i j : Z) : Z :=
  if is_row Order then A + i * ld + j else A + j * ld + i.
Definition op_addr (Order Trans : ascii) (A ld i j : Z) : Z :=
  if is_notrans Trans then elem_addr Order A ld i j else elem_addr Order A ld j i.
(** op(A) of an M by N matrix has op_rows rows and op_cols columns. *)
Definition op_rows (Trans : ascii) (M N : Z) : Z := if is_notrans Trans then M else N.
Definition op_cols (Trans : ascii) (M N : Z) : Z := if is_notrans Trans then N else M.

(** ** Matrix-vector *)
(** The terms of output i: op(A)_ij * (x_j * alpha), j < cols. *)
Definition gemv_products {t} (m : mem t) (Order Trans : ascii) (A lda : Z) (alpha : F t) (X incX cols i : Z) : list (F t) :=
  map (fun j => fmul (m (op_addr Order Trans A lda i j)) (fmul (m (X + j * incX)) alpha)) (zseq 0 cols).
(** Accumulator i of the binned vector Y. *)
Definition y_at (fold Y incY i : Z) : Z := Y + i * incY * dbnum fold.
(** Cells dbdgemv may write: the accumulators and its two buffers. *)
Definition gemv_touched (fold rows Y incY bufX lenX bufA lenA a : Z) : Prop :=
  (exists i, 0 <= i < rows /\ within (y_at fold Y incY i) (dbnum fold) a) \/ within bufX lenX a \/ within bufA lenA a.
(** The arrays do not overlap: the matrix and x are outside of what is written (they
    may overlap each other), the buffers are outside the accumulators. *)
Definition gemv_layout (fold : Z) (Order Trans : ascii) (rows cols A lda X incX Y incY bufX bufA lenA : Z) : Prop :=
  incY <> 0 /\
  (forall i j, 0 <= i < rows -> 0 <= j < cols ->
     ~ gemv_touched fold rows Y incY bufX cols bufA lenA (op_addr Order Trans A lda i j)) /\
  (forall j, 0 <= j < cols -> ~ gemv_touched fold rows Y incY bufX cols bufA lenA (X + j * incX)) /\
  (forall a, within bufX cols a -> ~ within bufA lenA a) /\
  (forall a i, within bufX cols a \/ within bufA lenA a -> 0 <= i < rows -> ~ within (y_at fold Y incY i) (dbnum fold) a).
(** The tuned block sizes: powers of two within the bounds of dbdgemv.ccog:12-20;
    [cache] is the cache size, [size] of an element. *)
Definition cache_block (cache size : Z) : Z := 2 ^ (bit_length cache - 1) / size.
Definition read_gemv (cache size y xy yt xyt tt : Z) : gemv_blocks :=
  let xyb := cache_block cache size in
  let yb := Z.max (xyb / 256) 1 in
  GemvBlocks (pow_parse 1 yb y) (pow_parse yb xyb xy) (pow_parse 1 yb yt) (pow_parse yb xyb xyt) (pow_parse 1 32 tt).

(** ** Matrix-matrix *)
(** The terms of C_ij: (op(A)_ik * alpha) * op(B)_kj, k < K. *)
Definition gemm_products {t} (m : mem t) (Order TransA TransB : ascii) (A lda : Z) (alpha : F t) (B ldb K i j : Z) : list (F t) :=
  map (fun k => fmul (fmul (m (op_addr Order TransA A lda i k)) alpha) (m (op_addr Order TransB B ldb k j))) (zseq 0 K).
(** Accumulator (i, j) of the binned matrix C. *)
Definition c_at (fold : Z) (Order : ascii) (C ldc i j : Z) : Z :=
  C + (if is_row Order then i * ldc + j else j * ldc + i) * dbnum fold.
Definition gemm_touched (fold : Z) (Order : ascii) (M N C ldc bufA lenA bufB lenB a : Z) : Prop :=
  (exists i j, 0 <= i < M /\ 0 <= j < N /\ within (c_at fold Order C ldc i j) (dbnum fold) a) \/
  within bufA lenA a \/ within bufB lenB a.
Definition gemm_layout (fold : Z) (Order TransA TransB : ascii) (M N K A lda B ldb C ldc bufA lenA bufB lenB : Z) : Prop :=
  (if is_row Order then N <= ldc else M <= ldc) /\
  (forall i k, 0 <= i < M -> 0 <= k < K ->
     ~ gemm_touched fold Order M N C ldc bufA lenA bufB lenB (op_addr Order TransA A lda i k)) /\
  (forall k j, 0 <= k < K -> 0 <= j < N ->
     ~ gemm_touched fold Order M N C ldc bufA lenA bufB lenB (op_addr Order TransB B ldb k j)) /\
  (forall a, within bufA lenA a -> ~ within bufB lenB a) /\
  (forall a i j, within bufA lenA a \/ within bufB lenB a -> 0 <= i < M -> 0 <= j < N ->
     ~ within (c_at fold Order C ldc i j) (dbnum fold) a).
Definition read_gemm (cache size y xy yt xyt : Z) : gemm_blocks :=
  let xyb := cache_block cache size in
  let yb := Z.max (xyb / 256) 1 in
  GemmBlocks (pow_parse 1 yb y) (pow_parse yb xyb xy) (pow_parse 1 yb yt) (pow_parse yb xyb xyt).
(** The buffer for A is a whole M by K matrix or a block. *)
Definition bufA_len (b : gemm_blocks) (M K : Z) : Z := Z.max (M * K) (mxt_block b * myt_block b).

(** ** reproBLAS *)
(** Starting value of an output: beta*y, nothing when beta = 0. *)
Definition start {t} (fold T : Z) (beta y : F t) (m : mem t) : mem t :=
  if feq beta fzero then dbsetzero fold T m else dbdconv fold (fmul y beta) T m.
