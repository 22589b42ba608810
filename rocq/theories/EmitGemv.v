(** * The matrix products with the emitted code in place of the kernel models

    The loops of Gemv and GemvZ once more, the dot product they call made a parameter ([dot], for complex data one for
    each of zbzdotc and zbzdotu); at the end it is the dot product made of the emitted code (EmitBlas).
    EmitGemvProofs shows that with the modelled dot product they are the loops of Gemv and GemvZ. *)
From Coq Require Import ZArith List Bool Ascii.
From Flocq Require Import Core BinarySingleNaN.
From Verif Require Import Fp Mem Binned Gen Blas BlasZ Gemv GemvZ Emit EmitBlas.
Import ListNotations.
Open Scope Z_scope.

(** A dot product of n elements, added to the accumulator at the last address: n, X, incX, Y, incY, accumulator. *)
Definition dot_routine (t : ty) := Z -> Z -> Z -> Z -> Z -> Z -> mem t -> mem t.

(** dbdgemv.ccog:84-107: row major, A not transposed. *)
Definition gemv_notrans_with {t} (dot : dot_routine t) (b : gemv_blocks) (fold M N : Z) (alpha : F t)
    (A lda X incX Y incY bufX : Z) (m : mem t) : mem t :=
  let '(bufX, incbufX, m) := scale_vector N alpha X incX bufX m in
  for_step 0 M (y_block b) (fun i m =>
    for_step 0 N (x_block b) (fun j m =>
      for_block i M (y_block b) (fun ii m =>
        dot (Z.min (x_block b) (N - j)) (A + ii * lda + j) 1
          (bufX + j * incbufX) incbufX (Y + ii * incY * dbnum fold) m) m) m) m.
(** dbdgemv.ccog:110-146: row major, A transposed. *)
Definition gemv_trans_with {t} (dot : dot_routine t) (b : gemv_blocks) (fold M N : Z) (alpha : F t)
    (A lda X incX Y incY bufX bufA : Z) (m : mem t) : mem t :=
  let '(bufX, incbufX, m) := scale_vector M alpha X incX bufX m in
  for_step 0 N (yt_block b) (fun i m =>
    for_step 0 M (xt_block b) (fun j m =>
      let m := gemv_fill b M N A lda bufA i j m in
      for_block i N (yt_block b) (fun ii m =>
        dot (Z.min (xt_block b) (M - j)) (bufA + (ii - i) * xt_block b) 1
          (bufX + j * incbufX) incbufX (Y + ii * incY * dbnum fold) m) m) m) m.
(** dbdgemv.ccog:58-169: binnedBLAS_dbdgemv.  The recursive calls pass 'r', so the
    switch below is written without recursion; the early return is tested first
    either way. *)
Definition dbdgemv_with {t} (dot : dot_routine t) (b : gemv_blocks) (fold : Z) (Order TransA : ascii) (M N : Z) (alpha : F t)
    (A lda X incX Y incY bufX bufA : Z) (m : mem t) : mem t :=
  if (M =? 0) || (N =? 0) || feq alpha fzero then m
  else if is_row Order then
    if is_notrans TransA then gemv_notrans_with dot b fold M N alpha A lda X incX Y incY bufX m
    else gemv_trans_with dot b fold M N alpha A lda X incX Y incY bufX bufA m
  else
    if is_notrans TransA then gemv_trans_with dot b fold N M alpha A lda X incX Y incY bufX bufA m
    else gemv_notrans_with dot b fold N M alpha A lda X incX Y incY bufX m.
(** The loop nest of the eight branches: block sizes bi, bj, bk; prep fills the
    buffers for block (i, j, k); opA i j k ii and opB i j k jj are the operands; by_rows
    tells the order of the two inner loops and of C. *)
Definition gemm_nest_with {t} (dot : dot_routine t) (by_rows : bool) (fold M N K bi bj bk : Z)
    (prep : Z -> Z -> Z -> mem t -> mem t) (opA opB : Z -> Z -> Z -> Z -> Z)
    (C ldc : Z) (m : mem t) : mem t :=
  for_step 0 M bi (fun i m => for_step 0 N bj (fun j m => for_step 0 K bk (fun k m =>
    let m := prep i j k m in
    let at_ij ii jj m := dot (Z.min bk (K - k)) (opA i j k ii) 1 (opB i j k jj) 1
      (C + (if by_rows then ii * ldc + jj else jj * ldc + ii) * dbnum fold) m in
    if by_rows
    then for_block i M bi (fun ii m => for_block j N bj (fun jj m => at_ij ii jj m) m) m
    else for_block j N bj (fun jj m => for_block i M bi (fun ii m => at_ij ii jj m) m) m) m) m) m.
(** dbdgemm.ccog:62-419: binnedBLAS_dbdgemm.  Branches, in order of the conditions:
    105-127, 129-144 (row major, A not transposed, B not transposed / transposed);
    154-206, 208-248 (row major, A transposed); 262-302, 304-355 (column major, A not
    transposed); 375-389, 391-412 (column major, A transposed). *)
Definition dbdgemm_with {t} (dot : dot_routine t) (b : gemm_blocks) (fold : Z) (Order TransA TransB : ascii) (M N K : Z) (alpha : F t)
    (A lda B ldb C ldc bufA bufB : Z) (m : mem t) : mem t :=
  let yb := my_block b in let xb := mx_block b in let yt := myt_block b in let xt := mxt_block b in
  let fillA i k m := gemm_fill (times alpha) M K yt xt xt A lda bufA i k m in
  let fillB j k m := gemm_fill (fun x => x) N K yt xt xt B ldb bufB j k m in
  let inA i ii := bufA + (ii - i) * xt in
  let inB j jj := bufB + (jj - j) * xt in
  if (M =? 0) || (N =? 0) || (K =? 0) || feq alpha fzero then m
  else if is_row Order then
    if is_notrans TransA then
      let '(bufA, ldbufa, m) := scale_matrix M K alpha A lda bufA m in
      if is_notrans TransB then
        gemm_nest_with dot true fold M N K yb yt xt (fun i j k m => fillB j k m)
          (fun i j k ii => bufA + ii * ldbufa + k) (fun i j k jj => inB j jj) C ldc m
      else
        gemm_nest_with dot true fold M N K yb yb xb (fun i j k m => m)
          (fun i j k ii => bufA + ii * ldbufa + k) (fun i j k jj => B + jj * ldb + k) C ldc m
    else if is_notrans TransB then
        gemm_nest_with dot true fold M N K yt yt xt (fun i j k m => fillB j k (fillA i k m))
          (fun i j k ii => inA i ii) (fun i j k jj => inB j jj) C ldc m
      else
        gemm_nest_with dot true fold M N K yt yb xt (fun i j k m => fillA i k m)
          (fun i j k ii => inA i ii) (fun i j k jj => B + jj * ldb + k) C ldc m
  else
    if is_notrans TransA then
      if is_notrans TransB then
        gemm_nest_with dot false fold M N K yt yb xt (fun i j k m => fillA i k m)
          (fun i j k ii => inA i ii) (fun i j k jj => B + jj * ldb + k) C ldc m
      else
        gemm_nest_with dot false fold M N K yt yt xt (fun i j k m => fillB j k (fillA i k m))
          (fun i j k ii => inA i ii) (fun i j k jj => inB j jj) C ldc m
    else
      let '(bufA, ldbufa, m) := scale_matrix M K alpha A lda bufA m in
      if is_notrans TransB then
        gemm_nest_with dot false fold M N K yb yb xb (fun i j k m => m)
          (fun i j k ii => bufA + ii * ldbufa + k) (fun i j k jj => B + jj * ldb + k) C ldc m
      else
        gemm_nest_with dot false fold M N K yb yt xt (fun i j k m => fillB j k m)
          (fun i j k ii => bufA + ii * ldbufa + k) (fun i j k jj => inB j jj) C ldc m.
(** rdgemv.c:37-87: reproBLAS_rdgemv; dgemv.c calls it with the default fold. *)
Definition rdgemv_with {t} (dot : dot_routine t) (b : gemv_blocks) (fold : Z) (Order TransA : ascii) (M N : Z) (alpha : F t)
    (A lda X incX : Z) (beta : F t) (Y incY YI bufX bufA : Z) (m : mem t) : mem t :=
  if (N =? 0) || (M =? 0) then m
  else
    let n := if is_notrans TransA then M else N in
    let m := load_outputs fold n beta Y incY YI m in
    let m := dbdgemv_with dot b fold Order TransA M N alpha A lda X incX YI 1 bufX bufA m in
    store_outputs fold n Y incY YI m.
(** rdgemm.c:41-107: reproBLAS_rdgemm; dgemm.c calls it with the default fold. *)
Definition rdgemm_with {t} (dot : dot_routine t) (b : gemm_blocks) (fold : Z) (Order TransA TransB : ascii) (M N K : Z) (alpha : F t)
    (A lda B ldb : Z) (beta : F t) (C ldc CI bufA bufB : Z) (m : mem t) : mem t :=
  if (M =? 0) || (N =? 0) then m
  else if is_row Order then
    let m := load_matrix fold M N beta C ldc CI m in
    let m := dbdgemm_with dot b fold Order TransA TransB M N K alpha A lda B ldb CI N bufA bufB m in
    store_matrix fold M N C ldc CI m
  else
    let m := load_matrix fold N M beta C ldc CI m in
    let m := dbdgemm_with dot b fold Order TransA TransB M N K alpha A lda B ldb CI M bufA bufB m in
    store_matrix fold N M C ldc CI m.
(** zbzgemv.ccog:97-103, and 215-221 with zbzdotc: rows of A used where they are; [limit] is
    the number subtracted from in MIN(X_BLOCK, limit - j). *)
Definition zgemv_direct_with {t} (conj : bool) (dots : bool -> dot_routine t) (b : gemv_blocks) (fold R K limit : Z) (alpha : F t * F t)
    (A lda X incX Y incY bufX : Z) (m : mem t) : mem t :=
  let '(bufX, incbufX, m) := zscale_vector K alpha X incX bufX m in
  for_step 0 R (y_block b) (fun i m =>
    for_step 0 K (x_block b) (fun j m =>
      for_block i R (y_block b) (fun ii m =>
        dots conj (Z.min (x_block b) (limit - j)) (A + 2 * (ii * lda + j)) 1
          (bufX + 2 * j * incbufX) incbufX (Y + ii * incY * zbnum fold) m) m) m) m.
(** zbzgemv.ccog:112-141 and 149-178 (zbzdotc): A transposed through bufA. *)
Definition zgemv_trans_with {t} (conj : bool) (dots : bool -> dot_routine t) (b : gemv_blocks) (fold M N : Z) (alpha : F t * F t)
    (A lda X incX Y incY bufX bufA : Z) (m : mem t) : mem t :=
  let '(bufX, incbufX, m) := zscale_vector M alpha X incX bufX m in
  for_step 0 N (yt_block b) (fun i m =>
    for_step 0 M (xt_block b) (fun j m =>
      let m := zgemv_fill b M N A lda bufA i j m in
      for_block i N (yt_block b) (fun ii m =>
        dots conj (Z.min (xt_block b) (M - j)) (bufA + 2 * (ii - i) * xt_block b) 1
          (bufX + 2 * j * incbufX) incbufX (Y + ii * incY * zbnum fold) m) m) m) m.
(** zbzgemv.ccog:58-230: binnedBLAS_zbzgemv.  The two recursive calls (193, 199) pass 'r', so
    the switch is written without recursion; the early return is tested first either way.
    Line 218 has N - j although j runs to M: the last branch passes N as the limit. *)
Definition zbzgemv_with {t} (dots : bool -> dot_routine t) (b : gemv_blocks) (fold : Z) (Order TransA : ascii) (M N : Z) (alpha : F t * F t)
    (A lda X incX Y incY bufX bufA : Z) (m : mem t) : mem t :=
  if (M =? 0) || (N =? 0) || z_is_zero alpha then m
  else if is_row Order then
    if is_notrans TransA then zgemv_direct_with false dots b fold M N N alpha A lda X incX Y incY bufX m
    else if is_trans TransA then zgemv_trans_with false dots b fold M N alpha A lda X incX Y incY bufX bufA m
    else zgemv_trans_with true dots b fold M N alpha A lda X incX Y incY bufX bufA m
  else
    if is_notrans TransA then zgemv_trans_with false dots b fold N M alpha A lda X incX Y incY bufX bufA m
    else if is_trans TransA then zgemv_direct_with false dots b fold N M M alpha A lda X incX Y incY bufX m
    else zgemv_direct_with true dots b fold N M N alpha A lda X incX Y incY bufX m.
(** GemvZ.call_dot: zbzdotu(A, B), zbzdotc(A, B) or zbzdotc(B, A); [dots true] is zbzdotc. *)
Definition call_dot_with {t} (d : dot_call) (dots : bool -> dot_routine t) (n PA PB Y : Z) (m : mem t) : mem t :=
  match d with
  | UAB => dots false n PA 1 PB 1 Y m
  | CAB => dots true n PA 1 PB 1 Y m
  | CBA => dots true n PB 1 PA 1 Y m
  end.
(** The loop nest of all branches, as for dbdgemm. *)
Definition zgemm_nest_with {t} (d : dot_call) (dots : bool -> dot_routine t) (by_rows : bool) (fold M N K bi bj bk : Z)
    (prep : Z -> Z -> Z -> mem t -> mem t) (opA opB : Z -> Z -> Z -> Z -> Z)
    (C ldc : Z) (m : mem t) : mem t :=
  for_step 0 M bi (fun i m => for_step 0 N bj (fun j m => for_step 0 K bk (fun k m =>
    let m := prep i j k m in
    let dot ii jj m := call_dot_with d dots (Z.min bk (K - k)) (opA i j k ii) (opB i j k jj)
      (C + (if by_rows then ii * ldc + jj else jj * ldc + ii) * zbnum fold) m in
    if by_rows
    then for_block i M bi (fun ii m => for_block j N bj (fun jj m => dot ii jj m) m) m
    else for_block j N bj (fun jj m => for_block i M bi (fun ii m => dot ii jj m) m) m) m) m) m.
(** zbzgemm.ccog:61-879: binnedBLAS_zbzgemm.  Branches in the order of the source: row major, A
    not transposed 89-166, transposed 168-319, conjugate transposed 321-470; column major, A
    not transposed 478-642, transposed 644-728, conjugate transposed 730-875; within each,
    B not transposed, transposed, conjugate transposed. *)
Definition zbzgemm_with {t} (dots : bool -> dot_routine t) (b : gemm_blocks) (fold : Z) (Order TransA TransB : ascii) (M N K : Z) (alpha : F t * F t)
    (A lda B ldb C ldc bufA bufB : Z) (m : mem t) : mem t :=
  let yb := my_block b in let xb := mx_block b in let yt := myt_block b in let xt := mxt_block b in
  let one := z_is_one alpha in
  let fillA f i k m := zgemm_fill f M K yt xt xt A lda bufA i k m in
  let fillB f j k m := zgemm_fill f N K yt xt xt B ldb bufB j k m in
  let inA i ii := bufA + 2 * (ii - i) * xt in
  let inB j jj := bufB + 2 * (jj - j) * xt in
  let atB jj k := B + 2 * (jj * ldb + k) in
  if (M =? 0) || (N =? 0) || (K =? 0) || z_is_zero alpha then m
  else if is_row Order then
    if is_notrans TransA then
      let '(bufA, ldbufa, m) := if one then (A, lda, m) else (bufA, K, zscale_matrix (mul_plain alpha) M K A lda bufA m) in
      if is_notrans TransB then
        zgemm_nest_with UAB dots true fold M N K yb yt xt (fun i j k m => fillB same j k m)
          (fun i j k ii => bufA + 2 * (ii * ldbufa + k)) (fun i j k jj => inB j jj) C ldc m
      else
        zgemm_nest_with (if is_trans TransB then UAB else CBA) dots true fold M N K yb yb xb (fun i j k m => m)
          (fun i j k ii => bufA + 2 * (ii * ldbufa + k)) (fun i j k jj => atB jj k) C ldc m
    else if is_trans TransA then
      let f := if one then same else mul_plain alpha in
      if is_notrans TransB then
        zgemm_nest_with UAB dots true fold M N K yt yt xt (fun i j k m => fillB same j k (fillA f i k m))
          (fun i j k ii => inA i ii) (fun i j k jj => inB j jj) C ldc m
      else
        zgemm_nest_with (if is_trans TransB then UAB else CBA) dots true fold M N K yt yb xt (fun i j k m => fillA f i k m)
          (fun i j k ii => inA i ii) (fun i j k jj => atB jj k) C ldc m
    else
      if is_notrans TransB then
        zgemm_nest_with (if one then CAB else UAB) dots true fold M N K yt yt xt
          (fun i j k m => fillB same j k (fillA (if one then same else mul_conj alpha) i k m))
          (fun i j k ii => inA i ii) (fun i j k jj => inB j jj) C ldc m
      else if is_trans TransB then
        zgemm_nest_with (if one then CAB else UAB) dots true fold M N K yt yb xt
          (fun i j k m => fillA (if one then same else mul_conj alpha) i k m)
          (fun i j k ii => inA i ii) (fun i j k jj => atB jj k) C ldc m
      else
        zgemm_nest_with CBA dots true fold M N K yt yb xt
          (fun i j k m => fillA (if one then neg_imag else mul_conj alpha) i k m)
          (fun i j k ii => inA i ii) (fun i j k jj => atB jj k) C ldc m
  else
    if is_notrans TransA then
      let f := if one then same else mul_plain alpha in
      if is_notrans TransB then
        zgemm_nest_with UAB dots false fold M N K yt yb xt (fun i j k m => fillA f i k m)
          (fun i j k ii => inA i ii) (fun i j k jj => atB jj k) C ldc m
      else
        zgemm_nest_with (if is_trans TransB then UAB else CBA) dots false fold M N K yt yt xt
          (fun i j k m => fillB same j k (fillA f i k m))
          (fun i j k ii => inA i ii) (fun i j k jj => inB j jj) C ldc m
    else if is_trans TransA then
      let '(bufA, ldbufa, m) := if one then (A, lda, m) else (bufA, K, zscale_matrix (mul_col_trans alpha) M K A lda bufA m) in
      if is_notrans TransB then
        zgemm_nest_with UAB dots false fold M N K yb yb xb (fun i j k m => m)
          (fun i j k ii => bufA + 2 * (ii * ldbufa + k)) (fun i j k jj => atB jj k) C ldc m
      else
        zgemm_nest_with (if is_trans TransB then UAB else CBA) dots false fold M N K yb yt xt (fun i j k m => fillB same j k m)
          (fun i j k ii => bufA + 2 * (ii * ldbufa + k)) (fun i j k jj => inB j jj) C ldc m
    else
      let '(bufA, ldbufa, m) := if one then (A, lda, m) else (bufA, K, zscale_matrix (mul_col_conj alpha) M K A lda bufA m) in
      if is_notrans TransB then
        zgemm_nest_with (if one then CAB else UAB) dots false fold M N K yb yb xb (fun i j k m => m)
          (fun i j k ii => bufA + 2 * (ii * ldbufa + k)) (fun i j k jj => atB jj k) C ldc m
      else if is_trans TransB then
        zgemm_nest_with (if one then CAB else UAB) dots false fold M N K yb yt xt (fun i j k m => fillB same j k m)
          (fun i j k ii => bufA + 2 * (ii * ldbufa + k)) (fun i j k jj => inB j jj) C ldc m
      else
        zgemm_nest_with (if one then CAB else CBA) dots false fold M N K yb yt xt
          (fun i j k m => fillB (if one then neg_imag else same) j k m)
          (fun i j k ii => bufA + 2 * (ii * ldbufa + k)) (fun i j k jj => inB j jj) C ldc m.
(** rzgemv.c:35-93: reproBLAS_rzgemv; zgemv.c calls it with the default fold. *)
Definition rzgemv_with {t} (dots : bool -> dot_routine t) (b : gemv_blocks) (fold : Z) (Order TransA : ascii) (M N : Z) (alpha : F t * F t)
    (A lda X incX : Z) (beta : F t * F t) (Y incY YI bufX bufA : Z) (m : mem t) : mem t :=
  if (N =? 0) || (M =? 0) then m
  else
    let n := if is_notrans TransA then M else N in
    let m := zload_outputs fold n beta Y incY YI m in
    let m := zbzgemv_with dots b fold Order TransA M N alpha A lda X incX YI 1 bufX bufA m in
    zstore_outputs fold n Y incY YI m.
(** rzgemm.c:41-110: reproBLAS_rzgemm; zgemm.c calls it with the default fold. *)
Definition rzgemm_with {t} (dots : bool -> dot_routine t) (b : gemm_blocks) (fold : Z) (Order TransA TransB : ascii) (M N K : Z) (alpha : F t * F t)
    (A lda B ldb : Z) (beta : F t * F t) (C ldc CI bufA bufB : Z) (m : mem t) : mem t :=
  if (M =? 0) || (N =? 0) then m
  else if is_row Order then
    let m := zload_matrix fold M N beta C ldc CI m in
    let m := zbzgemm_with dots b fold Order TransA TransB M N K alpha A lda B ldb CI N bufA bufB m in
    zstore_matrix fold M N C ldc CI m
  else
    let m := zload_matrix fold N M beta C ldc CI m in
    let m := zbzgemm_with dots b fold Order TransA TransB M N K alpha A lda B ldb CI M bufA bufB m in
    zstore_matrix fold N M C ldc CI m.

(** ** With the emitted code *)
(** Contents of the local variables in each call of the dot product. *)
Definition stales (t : ty) := Z -> Z -> Z -> mem t -> stale t.
(** dbddot.c (sbsdot.c); zbzdotc.c, zbzdotu.c (cbcdotc.c, cbcdotu.c), compiled. *)
Definition dot_code {t} (b : build) (R : stales t) (fold : Z) : dot_routine t :=
  fun n X incX Y incY A m => reduce_code Dot b (R X Y A m) fold n X incX Y incY A m.
Definition zdot_code {t} (b : build) (R : stales t) (fold : Z) (conj : bool) : dot_routine t :=
  fun n X incX Y incY A m => zreduce_code (if conj then ZDotC else ZDotU) b (R X Y A m) fold n X incX Y incY A m.
(** rdgemv.c, rdgemm.c, rzgemv.c, rzgemm.c (rsgemv, rsgemm, rcgemv, rcgemm) linked with them. *)
Definition rdgemv_code {t} (c : build) (R : stales t) (b : gemv_blocks) (fold : Z) := rdgemv_with (dot_code c R fold) b fold.
Definition rdgemm_code {t} (c : build) (R : stales t) (b : gemm_blocks) (fold : Z) := rdgemm_with (dot_code c R fold) b fold.
Definition rzgemv_code {t} (c : build) (R : stales t) (b : gemv_blocks) (fold : Z) := rzgemv_with (zdot_code c R fold) b fold.
Definition rzgemm_code {t} (c : build) (R : stales t) (b : gemm_blocks) (fold : Z) := rzgemm_with (zdot_code c R fold) b fold.
