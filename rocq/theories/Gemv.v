(** * Model of binnedBLAS dbdgemv.ccog, dbdgemm.ccog and reproBLAS rdgemv.c, rdgemm.c

    [t = Dbl] models the [d] functions, [t = Flt] sbsgemv.ccog, sbsgemm.ccog, rsgemv.c,
    rsgemm.c.  malloc'd buffers are address parameters; free does nothing. *)
From Coq Require Import ZArith List Bool Ascii.
From Flocq Require Import Core BinarySingleNaN.
From Verif Require Import Fp Mem Binned Gen Blas.
Import ListNotations.
Open Scope Z_scope.

(** for (i = lo; i < hi; i += step) s = f i s, for step >= 1 (fuel: hi - lo iterations). *)
Fixpoint step_loop {S : Type} (fuel : nat) (i hi step : Z) (f : Z -> S -> S) (s : S) : S :=
  match fuel with
  | O => s
  | Datatypes.S n => if i <? hi then step_loop n (i + step) hi step f (f i s) else s
  end.
Definition for_step {S : Type} (lo hi step : Z) (f : Z -> S -> S) (s : S) : S :=
  step_loop (Z.to_nat (hi - lo)) lo hi step f s.
(** for (ii = i; ii < hi && ii < i + block; ii++). *)
Definition for_block {S : Type} (i hi block : Z) (f : Z -> S -> S) (s : S) : S :=
  for_up i (Z.min hi (i + block)) f s.

(** switch (Order) { case 'r': case 'R': ...; default: ... } and the same for 'n', 'N'. *)
Definition is_row (Order : ascii) : bool := (Order =? "r")%char || (Order =? "R")%char.
Definition is_notrans (Trans : ascii) : bool := (Trans =? "n")%char || (Trans =? "N")%char.
Definition is_one {t} (a : F t) : bool := feq a (mkf 1 0).

(** ** dbdgemv.ccog *)

(** dbdgemv.ccog:16-30: the tuned block sizes; X_BLOCK, XT_BLOCK (C division of
    positive numbers). *)
Record gemv_blocks := GemvBlocks { y_block : Z; xy_block : Z; yt_block : Z; xyt_block : Z; t_block : Z }.
Definition x_block (b : gemv_blocks) : Z := xy_block b / y_block b.
Definition xt_block (b : gemv_blocks) : Z := xyt_block b / yt_block b.

(** dbdgemv.ccog:88-97, 112-121: bufX and incbufX. *)
Definition scale_vector {t} (n : Z) (alpha : F t) (X incX bufX : Z) (m : mem t) : Z * Z * mem t :=
  if is_one alpha then (X, incX, m)
  else (bufX, 1, for_up 0 n (fun j m => upd m (bufX + j) (fmul (m (X + j * incX)) alpha)) m).
(** dbdgemv.ccog:84-107: row major, A not transposed. *)
Definition gemv_notrans {t} (tu : tuning) (b : gemv_blocks) (fold M N : Z) (alpha : F t)
    (A lda X incX Y incY bufX : Z) (m : mem t) : mem t :=
  let '(bufX, incbufX, m) := scale_vector N alpha X incX bufX m in
  for_step 0 M (y_block b) (fun i m =>
    for_step 0 N (x_block b) (fun j m =>
      for_block i M (y_block b) (fun ii m =>
        dbddot tu fold (Z.min (x_block b) (N - j)) (A + ii * lda + j) 1
          (bufX + j * incbufX) incbufX (Y + ii * incY * dbnum fold) m) m) m) m.
(** dbdgemv.ccog:125-134: copy a block of A, transposed, to bufA. *)
Definition gemv_fill {t} (b : gemv_blocks) (M N A lda bufA i j : Z) (m : mem t) : mem t :=
  for_step j (Z.min M (j + xt_block b)) (t_block b) (fun jj m =>
    for_step i (Z.min N (i + yt_block b)) (t_block b) (fun ii m =>
      for_block jj M (Z.min (t_block b) (xt_block b)) (fun jjj m =>
        for_block ii N (Z.min (t_block b) (yt_block b)) (fun iii m =>
          upd m (bufA + (iii - i) * xt_block b + (jjj - j)) (m (A + jjj * lda + iii))) m) m) m) m.
(** dbdgemv.ccog:110-146: row major, A transposed. *)
Definition gemv_trans {t} (tu : tuning) (b : gemv_blocks) (fold M N : Z) (alpha : F t)
    (A lda X incX Y incY bufX bufA : Z) (m : mem t) : mem t :=
  let '(bufX, incbufX, m) := scale_vector M alpha X incX bufX m in
  for_step 0 N (yt_block b) (fun i m =>
    for_step 0 M (xt_block b) (fun j m =>
      let m := gemv_fill b M N A lda bufA i j m in
      for_block i N (yt_block b) (fun ii m =>
        dbddot tu fold (Z.min (xt_block b) (M - j)) (bufA + (ii - i) * xt_block b) 1
          (bufX + j * incbufX) incbufX (Y + ii * incY * dbnum fold) m) m) m) m.
(** dbdgemv.ccog:58-169: binnedBLAS_dbdgemv.  The recursive calls pass 'r', so the
    switch below is written without recursion; the early return is tested first
    either way. *)
Definition dbdgemv {t} (tu : tuning) (b : gemv_blocks) (fold : Z) (Order TransA : ascii) (M N : Z) (alpha : F t)
    (A lda X incX Y incY bufX bufA : Z) (m : mem t) : mem t :=
  if (M =? 0) || (N =? 0) || feq alpha fzero then m
  else if is_row Order then
    if is_notrans TransA then gemv_notrans tu b fold M N alpha A lda X incX Y incY bufX m
    else gemv_trans tu b fold M N alpha A lda X incX Y incY bufX bufA m
  else
    if is_notrans TransA then gemv_trans tu b fold N M alpha A lda X incX Y incY bufX bufA m
    else gemv_notrans tu b fold N M alpha A lda X incX Y incY bufX m.

(** ** dbdgemm.ccog *)

(** dbdgemm.ccog:16-29. *)
Record gemm_blocks := GemmBlocks { my_block : Z; mxy_block : Z; myt_block : Z; mxyt_block : Z }.
Definition mx_block (b : gemm_blocks) : Z := mxy_block b / my_block b.
Definition mxt_block (b : gemm_blocks) : Z := mxyt_block b / myt_block b.

(** dbdgemm.ccog:92-103, 361-372: alpha*A as an M by K row major matrix (or A itself). *)
Definition scale_matrix {t} (M K : Z) (alpha : F t) (A lda bufA : Z) (m : mem t) : Z * Z * mem t :=
  if is_one alpha then (A, lda, m)
  else (bufA, K, for_up 0 M (fun i m => for_up 0 K (fun k m =>
         upd m (bufA + (i * K + k)) (fmul (m (A + (i * lda + k))) alpha)) m) m).
(** dbdgemm.ccog:113-117 and the other eleven fills: copy the block at (j, k) of a matrix
    stored with row stride ld, transposed, to buf. *)
Definition gemm_fill {t} (f : F t -> F t) (J K bj bk xt : Z) (B ld buf j k : Z) (m : mem t) : mem t :=
  for_block k K bk (fun kk m => for_block j J bj (fun jj m =>
    upd m (buf + ((jj - j) * xt + (kk - k))) (f (m (B + (kk * ld + jj))))) m) m.
(** alpha == 1.0 selects a copy without multiplication. *)
Definition times {t} (alpha x : F t) : F t := if is_one alpha then x else fmul x alpha.

(** The loop nest of the eight branches: block sizes bi, bj, bk; prep fills the
    buffers for block (i, j, k); opA i j k ii and opB i j k jj are the operands; by_rows
    tells the order of the two inner loops and of C. *)
Definition gemm_nest {t} (tu : tuning) (by_rows : bool) (fold M N K bi bj bk : Z)
    (prep : Z -> Z -> Z -> mem t -> mem t) (opA opB : Z -> Z -> Z -> Z -> Z)
    (C ldc : Z) (m : mem t) : mem t :=
  for_step 0 M bi (fun i m => for_step 0 N bj (fun j m => for_step 0 K bk (fun k m =>
    let m := prep i j k m in
    let dot ii jj m := dbddot tu fold (Z.min bk (K - k)) (opA i j k ii) 1 (opB i j k jj) 1
      (C + (if by_rows then ii * ldc + jj else jj * ldc + ii) * dbnum fold) m in
    if by_rows
    then for_block i M bi (fun ii m => for_block j N bj (fun jj m => dot ii jj m) m) m
    else for_block j N bj (fun jj m => for_block i M bi (fun ii m => dot ii jj m) m) m) m) m) m.
(** dbdgemm.ccog:62-419: binnedBLAS_dbdgemm.  Branches, in order of the conditions:
    105-127, 129-144 (row major, A not transposed, B not transposed / transposed);
    154-206, 208-248 (row major, A transposed); 262-302, 304-355 (column major, A not
    transposed); 375-389, 391-412 (column major, A transposed). *)
Definition dbdgemm {t} (tu : tuning) (b : gemm_blocks) (fold : Z) (Order TransA TransB : ascii) (M N K : Z) (alpha : F t)
    (A lda B ldb C ldc bufA bufB : Z) (m : mem t) : mem t :=
  let yb := my_block b in let xb := mx_block b in let yt := myt_block b in let xt := mxt_block b in
  let fillA i k m := gemm_fill (times alpha) M K yt xt xt A lda bufA i k m in
  let fillB j k m := gemm_fill (fun x => x) N K yt xt xt B ldb bufB j k m in
  let inA i ii := bufA + (ii - i) * xt in
  let inB j jj := bufB + (jj - j) * xt in
  if (M =? 0) || (N =? 0) || (K =? 0) || feq alpha fzero then m
  else if is_row Order then
    if is_notrans TransA then
      let '(bufA, ldbufa, m) := scale_matrix M K alpha A lda bufA m in
      if is_notrans TransB then
        gemm_nest tu true fold M N K yb yt xt (fun i j k m => fillB j k m)
          (fun i j k ii => bufA + ii * ldbufa + k) (fun i j k jj => inB j jj) C ldc m
      else
        gemm_nest tu true fold M N K yb yb xb (fun i j k m => m)
          (fun i j k ii => bufA + ii * ldbufa + k) (fun i j k jj => B + jj * ldb + k) C ldc m
    else if is_notrans TransB then
        gemm_nest tu true fold M N K yt yt xt (fun i j k m => fillB j k (fillA i k m))
          (fun i j k ii => inA i ii) (fun i j k jj => inB j jj) C ldc m
      else
        gemm_nest tu true fold M N K yt yb xt (fun i j k m => fillA i k m)
          (fun i j k ii => inA i ii) (fun i j k jj => B + jj * ldb + k) C ldc m
  else
    if is_notrans TransA then
      if is_notrans TransB then
        gemm_nest tu false fold M N K yt yb xt (fun i j k m => fillA i k m)
          (fun i j k ii => inA i ii) (fun i j k jj => B + jj * ldb + k) C ldc m
      else
        gemm_nest tu false fold M N K yt yt xt (fun i j k m => fillB j k (fillA i k m))
          (fun i j k ii => inA i ii) (fun i j k jj => inB j jj) C ldc m
    else
      let '(bufA, ldbufa, m) := scale_matrix M K alpha A lda bufA m in
      if is_notrans TransB then
        gemm_nest tu false fold M N K yb yb xb (fun i j k m => m)
          (fun i j k ii => bufA + ii * ldbufa + k) (fun i j k jj => B + jj * ldb + k) C ldc m
      else
        gemm_nest tu false fold M N K yb yt xt (fun i j k m => fillB j k m)
          (fun i j k ii => bufA + ii * ldbufa + k) (fun i j k jj => inB j jj) C ldc m.

(** ** reproBLAS *)

(** rdgemv.c:51-61, 69-79 (memset 0 or dbdconv of beta*Y): accumulators YI. *)
Definition load_outputs {t} (fold n : Z) (beta : F t) (Y incY YI : Z) (m : mem t) : mem t :=
  if feq beta fzero then for_up 0 (n * dbnum fold) (fun a m => upd m (YI + a) fzero) m
  else if is_one beta then
    for_up 0 n (fun i m => dbdconv fold (m (Y + i * incY)) (YI + i * dbnum fold) m) m
  else for_up 0 n (fun i m => dbdconv fold (fmul (m (Y + i * incY)) beta) (YI + i * dbnum fold) m) m.
(** rdgemv.c:63-65, 81-83. *)
Definition store_outputs {t} (fold n Y incY YI : Z) (m : mem t) : mem t :=
  for_up 0 n (fun i m => upd m (Y + i * incY) (ddbconv fold (YI + i * dbnum fold) m)) m.
(** rdgemv.c:37-87: reproBLAS_rdgemv; dgemv.c calls it with the default fold. *)
Definition rdgemv {t} (tu : tuning) (b : gemv_blocks) (fold : Z) (Order TransA : ascii) (M N : Z) (alpha : F t)
    (A lda X incX : Z) (beta : F t) (Y incY YI bufX bufA : Z) (m : mem t) : mem t :=
  if (N =? 0) || (M =? 0) then m
  else
    let n := if is_notrans TransA then M else N in
    let m := load_outputs fold n beta Y incY YI m in
    let m := dbdgemv tu b fold Order TransA M N alpha A lda X incX YI 1 bufX bufA m in
    store_outputs fold n Y incY YI m.

(** rdgemm.c:56-74, 80-97: accumulators CI, an R by S matrix (row by row of the
    storage order). *)
Definition load_matrix {t} (fold R S : Z) (beta : F t) (C ldc CI : Z) (m : mem t) : mem t :=
  if feq beta fzero then for_up 0 (R * S * dbnum fold) (fun a m => upd m (CI + a) fzero) m
  else if is_one beta then
    for_up 0 R (fun i m => for_up 0 S (fun j m =>
      dbdconv fold (m (C + (i * ldc + j))) (CI + (i * S + j) * dbnum fold) m) m) m
  else for_up 0 R (fun i m => for_up 0 S (fun j m =>
      dbdconv fold (fmul (m (C + (i * ldc + j))) beta) (CI + (i * S + j) * dbnum fold) m) m) m.
(** rdgemm.c:75-79, 98-102. *)
Definition store_matrix {t} (fold R S C ldc CI : Z) (m : mem t) : mem t :=
  for_up 0 R (fun i m => for_up 0 S (fun j m =>
    upd m (C + (i * ldc + j)) (ddbconv fold (CI + (i * S + j) * dbnum fold) m)) m) m.
(** rdgemm.c:41-107: reproBLAS_rdgemm; dgemm.c calls it with the default fold. *)
Definition rdgemm {t} (tu : tuning) (b : gemm_blocks) (fold : Z) (Order TransA TransB : ascii) (M N K : Z) (alpha : F t)
    (A lda B ldb : Z) (beta : F t) (C ldc CI bufA bufB : Z) (m : mem t) : mem t :=
  if (M =? 0) || (N =? 0) then m
  else if is_row Order then
    let m := load_matrix fold M N beta C ldc CI m in
    let m := dbdgemm tu b fold Order TransA TransB M N K alpha A lda B ldb CI N bufA bufB m in
    store_matrix fold M N C ldc CI m
  else
    let m := load_matrix fold N M beta C ldc CI m in
    let m := dbdgemm tu b fold Order TransA TransB M N K alpha A lda B ldb CI M bufA bufB m in
    store_matrix fold N M C ldc CI m.
