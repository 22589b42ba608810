(** * Vocabulary for the statements about complex matrix products *)
From Coq Require Import ZArith Bool List Lia Ascii.
From Flocq Require Import Core BinarySingleNaN.
From Verif Require Import Fp Mem Binned Spec Client Gen Blas BlasSpec Gemv GemvSpec BlasZSpec.
Import ListNotations.
Open Scope Z_scope.

(** The complex number in cells a and a + 1; conjugation. *)
Definition complex_at {t} (m : mem t) (a : Z) : F t * F t := (m a, m (a + 1)).
Definition conjugate {t} (z : F t * F t) : F t * F t := (fst z, fneg (snd z)).
(** Any flag other than n, N, t, T asks for the conjugate transpose. *)
Definition is_conj (Trans : ascii) : bool :=
  negb (is_notrans Trans) && negb ((Trans =? "t")%char || (Trans =? "T")%char).
(** First cell of element (i, j) of op(A), and that element. *)
Definition zop_addr (Order Trans : ascii) (A ld i j : Z) : Z := A + 2 * op_addr Order Trans 0 ld i j.
Definition zop {t} (m : mem t) (Order Trans : ascii) (A ld i j : Z) : F t * F t :=
  let z := complex_at m (zop_addr Order Trans A ld i j) in if is_conj Trans then conjugate z else z.
(** x multiplied by c in floating point; c = 1 leaves x as it is, c = 0 (signed zeros included)
    suppresses the term. *)
Definition is_complex {t} (c : F t * F t) (x : F t) : bool := feq (fst c) x && feq (snd c) fzero.
Definition times_complex {t} (c x : F t * F t) : F t * F t :=
  if is_complex c (mkf 1 0) then x
  else (fsub (fmul (fst x) (fst c)) (fmul (snd x) (snd c)), fadd (fmul (fst x) (snd c)) (fmul (snd x) (fst c))).
(** The four real products of p * q as two complex summands. *)
Definition summands {t} (p q : F t * F t) : list (F t * F t) :=
  [(fmul (fst p) (fst q), fmul (snd p) (fst q)); (fneg (fmul (snd p) (snd q)), fmul (fst p) (snd q))].

(** ** Matrix-vector *)
(** The terms of output i: op(A)_ij * (alpha * x_j), j < cols. *)
Definition zgemv_products {t} (m : mem t) (Order Trans : ascii) (A lda : Z) (alpha : F t * F t) (X incX cols i : Z) : list (F t * F t) :=
  flat_map (fun j => summands (zop m Order Trans A lda i j) (times_complex alpha (complex_at m (X + 2 * (j * incX))))) (zseq 0 cols).
Definition zy_at (fold Y incY i : Z) : Z := Y + i * incY * zbnum fold.
(** Cells zbzgemv may write. *)
Definition zgemv_touched (fold rows Y incY bufX lenX bufA lenA a : Z) : Prop :=
  (exists i, 0 <= i < rows /\ within (zy_at fold Y incY i) (zbnum fold) a) \/ within bufX (2 * lenX) a \/ within bufA (2 * lenA) a.
Definition zgemv_layout (fold : Z) (Order Trans : ascii) (rows cols A lda X incX Y incY bufX bufA lenA : Z) : Prop :=
  incY <> 0 /\
  (forall i j o, 0 <= i < rows -> 0 <= j < cols -> o = 0 \/ o = 1 ->
     ~ zgemv_touched fold rows Y incY bufX cols bufA lenA (zop_addr Order Trans A lda i j + o)) /\
  (forall j o, 0 <= j < cols -> o = 0 \/ o = 1 -> ~ zgemv_touched fold rows Y incY bufX cols bufA lenA (X + 2 * (j * incX) + o)) /\
  (forall a, within bufX (2 * cols) a -> ~ within bufA (2 * lenA) a) /\
  (forall a i, within bufX (2 * cols) a \/ within bufA (2 * lenA) a -> 0 <= i < rows -> ~ within (zy_at fold Y incY i) (zbnum fold) a).
(** Length of the dot products made: the block size of the path taken, or less. *)
Definition dot_block (b : gemv_blocks) (Order Trans : ascii) : Z :=
  if Bool.eqb (is_row Order) (is_notrans Trans) then x_block b else xt_block b.
(** The calls for which the dot products of zbzgemv have the right length: all but the column
    major conjugate transpose, where M must be N (or the blocks must divide M <= N). *)
Definition right_length (b : gemv_blocks) (Order Trans : ascii) (M N : Z) : Prop :=
  is_row Order = true \/ is_conj Trans = false \/ M = N \/ ((x_block b | M) /\ M <= N).

(** ** Matrix-matrix *)
(** The terms of C_ij: (alpha * op(A)_ik) * op(B)_kj, k < K. *)
Definition zgemm_products {t} (m : mem t) (Order TransA TransB : ascii) (A lda : Z) (alpha : F t * F t) (B ldb K i j : Z) : list (F t * F t) :=
  flat_map (fun k => summands (times_complex alpha (zop m Order TransA A lda i k)) (zop m Order TransB B ldb k j)) (zseq 0 K).
Definition zc_at (fold : Z) (Order : ascii) (C ldc i j : Z) : Z :=
  C + (if is_row Order then i * ldc + j else j * ldc + i) * zbnum fold.
Definition zgemm_touched (fold : Z) (Order : ascii) (M N C ldc bufA lenA bufB lenB a : Z) : Prop :=
  (exists i j, 0 <= i < M /\ 0 <= j < N /\ within (zc_at fold Order C ldc i j) (zbnum fold) a) \/
  within bufA (2 * lenA) a \/ within bufB (2 * lenB) a.
Definition zgemm_layout (fold : Z) (Order TransA TransB : ascii) (M N K A lda B ldb C ldc bufA lenA bufB lenB : Z) : Prop :=
  (if is_row Order then N <= ldc else M <= ldc) /\
  (forall i k o, 0 <= i < M -> 0 <= k < K -> o = 0 \/ o = 1 ->
     ~ zgemm_touched fold Order M N C ldc bufA lenA bufB lenB (zop_addr Order TransA A lda i k + o)) /\
  (forall k j o, 0 <= k < K -> 0 <= j < N -> o = 0 \/ o = 1 ->
     ~ zgemm_touched fold Order M N C ldc bufA lenA bufB lenB (zop_addr Order TransB B ldb k j + o)) /\
  (forall a, within bufA (2 * lenA) a -> ~ within bufB (2 * lenB) a) /\
  (forall a i j, within bufA (2 * lenA) a \/ within bufB (2 * lenB) a -> 0 <= i < M -> 0 <= j < N ->
     ~ within (zc_at fold Order C ldc i j) (zbnum fold) a).
(** The calls for which zbzgemm multiplies by alpha: all but column major with A transposed or
    conjugate transposed, where alpha must be 1. *)
Definition right_scaling {t} (Order TransA : ascii) (alpha : F t * F t) : Prop :=
  is_row Order = true \/ is_notrans TransA = true \/ is_complex alpha (mkf 1 0) = true.

(** ** reproBLAS *)
(** What an output starts from: beta * y, nothing when beta = 0. *)
Definition zstarted {t} (beta y : F t * F t) : list (F t * F t) :=
  if is_complex beta fzero then [] else [times_complex beta y].
(** v is a correct value of the sum of xs: the reproducible sum when all are finite, otherwise the IEEE
    sum of the infinities and NaN, or NaN. *)
Definition sum_value {t} (fold T : Z) (xs : list (F t)) (m : mem t) (v : F t) : Prop :=
  if all_finite xs then v = ddbconv fold T (sum_list fold T xs m) else v = special xs \/ v = B754_nan.
