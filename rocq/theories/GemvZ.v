(** * Model of binnedBLAS zbzgemv.ccog, zbzgemm.ccog and reproBLAS rzgemv.c, rzgemm.c

    [t = Dbl] models the [z] functions, [t = Flt] cbcgemv.ccog, cbcgemm.ccog, rcgemv.c,
    rcgemm.c.  A complex number is two consecutive cells, real part first.  malloc'd buffers
    are address parameters; free does nothing. *)
From Coq Require Import ZArith List Bool Ascii.
From Flocq Require Import Core BinarySingleNaN.
From Verif Require Import Fp Mem Binned Gen Blas BlasZ Gemv.
Import ListNotations.
Open Scope Z_scope.

(** case 't': case 'T': (the default of the switch is the conjugate transpose). *)
Definition is_trans (Trans : ascii) : bool := (Trans =? "t")%char || (Trans =? "T")%char.
(** alpha[0] == 0.0 && alpha[1] == 0.0;  alpha[0] == 1.0 && alpha[1] == 0.0. *)
Definition z_is_zero {t} (a : F t * F t) : bool := feq (fst a) fzero && feq (snd a) fzero.
Definition z_is_one {t} (a : F t * F t) : bool := is_one (fst a) && feq (snd a) fzero.
(** The two cells of a complex number, and storing one.  The code reads and writes one
    cell at a time; the destinations are malloc'd buffers or (stores of the results) the
    source is a local array, so reading both parts first is the same. *)
Definition cell2 {t} (m : mem t) (a : Z) : F t * F t := (m a, m (a + 1)).
Definition upd2 {t} (m : mem t) (a : Z) (z : F t * F t) : mem t := upd (upd m a (fst z)) (a + 1) (snd z).

(** The four formulas found in the sources: zbzgemv.ccog:92-93 (also zbzgemm.ccog:99-100 and
    others); zbzgemm.ccog:357-358 (conjugated); zbzgemm.ccog:654-655, and 753-754, 798-799,
    849-850 (conjugated), where both terms of the imaginary part are multiplied by alpha[1]. *)
Definition mul_plain {t} (alpha x : F t * F t) : F t * F t :=
  (fsub (fmul (fst x) (fst alpha)) (fmul (snd x) (snd alpha)), fadd (fmul (fst x) (snd alpha)) (fmul (snd x) (fst alpha))).
Definition mul_conj {t} (alpha x : F t * F t) : F t * F t :=
  (fadd (fmul (fst x) (fst alpha)) (fmul (snd x) (snd alpha)), fsub (fmul (fst x) (snd alpha)) (fmul (snd x) (fst alpha))).
Definition mul_col_trans {t} (alpha x : F t * F t) : F t * F t :=
  (fsub (fmul (fst x) (fst alpha)) (fmul (snd x) (snd alpha)), fadd (fmul (fst x) (snd alpha)) (fmul (snd x) (snd alpha))).
Definition mul_col_conj {t} (alpha x : F t * F t) : F t * F t :=
  (fadd (fmul (fst x) (fst alpha)) (fmul (snd x) (snd alpha)), fsub (fmul (fst x) (snd alpha)) (fmul (snd x) (snd alpha))).
Definition neg_imag {t} (x : F t * F t) : F t * F t := (fst x, fneg (snd x)).
Definition same {t} (x : F t * F t) : F t * F t := x.

(** ** zbzgemv.ccog *)

(** zbzgemv.ccog:86-96, 112-122, 149-159, 204-214: bufX and incbufX. *)
Definition zscale_vector {t} (n : Z) (alpha : F t * F t) (X incX bufX : Z) (m : mem t) : Z * Z * mem t :=
  if z_is_one alpha then (X, incX, m)
  else (bufX, 1, for_up 0 n (fun j m => upd2 m (bufX + 2 * j) (mul_plain alpha (cell2 m (X + 2 * j * incX)))) m).
(** binnedBLAS_zbzdotc or binnedBLAS_zbzdotu. *)
Definition zdot {t} (conj : bool) (tu : tuning) (fold n P incP Q incQ Y : Z) (m : mem t) : mem t :=
  if conj then zbzdotc tu fold n P incP Q incQ Y m else zbzdotu tu fold n P incP Q incQ Y m.
(** zbzgemv.ccog:97-103, and 215-221 with zbzdotc: rows of A used where they are; [limit] is
    the number subtracted from in MIN(X_BLOCK, limit - j). *)
Definition zgemv_direct {t} (conj : bool) (tu : tuning) (b : gemv_blocks) (fold R K limit : Z) (alpha : F t * F t)
    (A lda X incX Y incY bufX : Z) (m : mem t) : mem t :=
  let '(bufX, incbufX, m) := zscale_vector K alpha X incX bufX m in
  for_step 0 R (y_block b) (fun i m =>
    for_step 0 K (x_block b) (fun j m =>
      for_block i R (y_block b) (fun ii m =>
        zdot conj tu fold (Z.min (x_block b) (limit - j)) (A + 2 * (ii * lda + j)) 1
          (bufX + 2 * j * incbufX) incbufX (Y + ii * incY * zbnum fold) m) m) m) m.
(** zbzgemv.ccog:126-135, 163-172: copy a block of A, transposed, to bufA. *)
Definition zgemv_fill {t} (b : gemv_blocks) (M N A lda bufA i j : Z) (m : mem t) : mem t :=
  for_step j (Z.min M (j + xt_block b)) (t_block b) (fun jj m =>
    for_step i (Z.min N (i + yt_block b)) (t_block b) (fun ii m =>
      for_block jj M (Z.min (t_block b) (xt_block b)) (fun jjj m =>
        for_block ii N (Z.min (t_block b) (yt_block b)) (fun iii m =>
          upd2 m (bufA + 2 * ((iii - i) * xt_block b + (jjj - j))) (cell2 m (A + 2 * (jjj * lda + iii)))) m) m) m) m.
(** zbzgemv.ccog:112-141 and 149-178 (zbzdotc): A transposed through bufA. *)
Definition zgemv_trans {t} (conj : bool) (tu : tuning) (b : gemv_blocks) (fold M N : Z) (alpha : F t * F t)
    (A lda X incX Y incY bufX bufA : Z) (m : mem t) : mem t :=
  let '(bufX, incbufX, m) := zscale_vector M alpha X incX bufX m in
  for_step 0 N (yt_block b) (fun i m =>
    for_step 0 M (xt_block b) (fun j m =>
      let m := zgemv_fill b M N A lda bufA i j m in
      for_block i N (yt_block b) (fun ii m =>
        zdot conj tu fold (Z.min (xt_block b) (M - j)) (bufA + 2 * (ii - i) * xt_block b) 1
          (bufX + 2 * j * incbufX) incbufX (Y + ii * incY * zbnum fold) m) m) m) m.
(** zbzgemv.ccog:58-230: binnedBLAS_zbzgemv.  The two recursive calls (193, 199) pass 'r', so
    the switch is written without recursion; the early return is tested first either way.
    Line 218 has N - j although j runs to M: the last branch passes N as the limit. *)
Definition zbzgemv {t} (tu : tuning) (b : gemv_blocks) (fold : Z) (Order TransA : ascii) (M N : Z) (alpha : F t * F t)
    (A lda X incX Y incY bufX bufA : Z) (m : mem t) : mem t :=
  if (M =? 0) || (N =? 0) || z_is_zero alpha then m
  else if is_row Order then
    if is_notrans TransA then zgemv_direct false tu b fold M N N alpha A lda X incX Y incY bufX m
    else if is_trans TransA then zgemv_trans false tu b fold M N alpha A lda X incX Y incY bufX bufA m
    else zgemv_trans true tu b fold M N alpha A lda X incX Y incY bufX bufA m
  else
    if is_notrans TransA then zgemv_trans false tu b fold N M alpha A lda X incX Y incY bufX bufA m
    else if is_trans TransA then zgemv_direct false tu b fold N M M alpha A lda X incX Y incY bufX m
    else zgemv_direct true tu b fold N M N alpha A lda X incX Y incY bufX m.

(** ** zbzgemm.ccog *)

(** zbzgemm.ccog:96-103 and the other whole-matrix scalings: f applied to an M by K row major
    matrix. *)
Definition zscale_matrix {t} (f : F t * F t -> F t * F t) (M K A lda bufA : Z) (m : mem t) : mem t :=
  for_up 0 M (fun i m => for_up 0 K (fun k m =>
    upd2 m (bufA + 2 * (i * K + k)) (f (cell2 m (A + 2 * (i * lda + k))))) m) m.
(** zbzgemm.ccog:114-119 and the other block fills. *)
Definition zgemm_fill {t} (f : F t * F t -> F t * F t) (J K bj bk xt : Z) (B ld buf j k : Z) (m : mem t) : mem t :=
  for_block k K bk (fun kk m => for_block j J bj (fun jj m =>
    upd2 m (buf + 2 * ((jj - j) * xt + (kk - k))) (f (cell2 m (B + 2 * (kk * ld + jj))))) m) m.
(** Which dot product a branch calls: zbzdotu(A, B), zbzdotc(A, B) or zbzdotc(B, A). *)
Inductive dot_call := UAB | CAB | CBA.
Definition call_dot {t} (d : dot_call) (tu : tuning) (fold n PA PB Y : Z) (m : mem t) : mem t :=
  match d with
  | UAB => zbzdotu tu fold n PA 1 PB 1 Y m
  | CAB => zbzdotc tu fold n PA 1 PB 1 Y m
  | CBA => zbzdotc tu fold n PB 1 PA 1 Y m
  end.
(** The loop nest of all branches, as for dbdgemm. *)
Definition zgemm_nest {t} (d : dot_call) (tu : tuning) (by_rows : bool) (fold M N K bi bj bk : Z)
    (prep : Z -> Z -> Z -> mem t -> mem t) (opA opB : Z -> Z -> Z -> Z -> Z)
    (C ldc : Z) (m : mem t) : mem t :=
  for_step 0 M bi (fun i m => for_step 0 N bj (fun j m => for_step 0 K bk (fun k m =>
    let m := prep i j k m in
    let dot ii jj m := call_dot d tu fold (Z.min bk (K - k)) (opA i j k ii) (opB i j k jj)
      (C + (if by_rows then ii * ldc + jj else jj * ldc + ii) * zbnum fold) m in
    if by_rows
    then for_block i M bi (fun ii m => for_block j N bj (fun jj m => dot ii jj m) m) m
    else for_block j N bj (fun jj m => for_block i M bi (fun ii m => dot ii jj m) m) m) m) m) m.
(** zbzgemm.ccog:61-879: binnedBLAS_zbzgemm.  Branches in the order of the source: row major, A
    not transposed 89-166, transposed 168-319, conjugate transposed 321-470; column major, A
    not transposed 478-642, transposed 644-728, conjugate transposed 730-875; within each,
    B not transposed, transposed, conjugate transposed. *)
Definition zbzgemm {t} (tu : tuning) (b : gemm_blocks) (fold : Z) (Order TransA TransB : ascii) (M N K : Z) (alpha : F t * F t)
    (A lda B ldb C ldc bufA bufB : Z) (m : mem t) : mem t :=
  let yb := my_block b in let xb := mx_block b in let yt := myt_block b in let xt := mxt_block b in
  let one := z_is_one alpha in
  let fillA f i k m := zgemm_fill f M K yt xt xt A lda bufA i k m in
  let fillB f j k m := zgemm_fill f N K yt xt xt B ldb bufB j k m in
  let inA i ii := bufA + 2 * (ii - i) * xt in
  let inB j jj := bufB + 2 * (jj - j) * xt in
  let atB jj k := B + 2 * (jj * ldb + k) in
  if (M =? 0) || (N =? 0) || (K =? 0) || z_is_zero alpha then m
  else if is_row Order then
    if is_notrans TransA then
      let '(bufA, ldbufa, m) := if one then (A, lda, m) else (bufA, K, zscale_matrix (mul_plain alpha) M K A lda bufA m) in
      if is_notrans TransB then
        zgemm_nest UAB tu true fold M N K yb yt xt (fun i j k m => fillB same j k m)
          (fun i j k ii => bufA + 2 * (ii * ldbufa + k)) (fun i j k jj => inB j jj) C ldc m
      else
        zgemm_nest (if is_trans TransB then UAB else CBA) tu true fold M N K yb yb xb (fun i j k m => m)
          (fun i j k ii => bufA + 2 * (ii * ldbufa + k)) (fun i j k jj => atB jj k) C ldc m
    else if is_trans TransA then
      let f := if one then same else mul_plain alpha in
      if is_notrans TransB then
        zgemm_nest UAB tu true fold M N K yt yt xt (fun i j k m => fillB same j k (fillA f i k m))
          (fun i j k ii => inA i ii) (fun i j k jj => inB j jj) C ldc m
      else
        zgemm_nest (if is_trans TransB then UAB else CBA) tu true fold M N K yt yb xt (fun i j k m => fillA f i k m)
          (fun i j k ii => inA i ii) (fun i j k jj => atB jj k) C ldc m
    else
      if is_notrans TransB then
        zgemm_nest (if one then CAB else UAB) tu true fold M N K yt yt xt
          (fun i j k m => fillB same j k (fillA (if one then same else mul_conj alpha) i k m))
          (fun i j k ii => inA i ii) (fun i j k jj => inB j jj) C ldc m
      else if is_trans TransB then
        zgemm_nest (if one then CAB else UAB) tu true fold M N K yt yb xt
          (fun i j k m => fillA (if one then same else mul_conj alpha) i k m)
          (fun i j k ii => inA i ii) (fun i j k jj => atB jj k) C ldc m
      else
        zgemm_nest CBA tu true fold M N K yt yb xt
          (fun i j k m => fillA (if one then neg_imag else mul_conj alpha) i k m)
          (fun i j k ii => inA i ii) (fun i j k jj => atB jj k) C ldc m
  else
    if is_notrans TransA then
      let f := if one then same else mul_plain alpha in
      if is_notrans TransB then
        zgemm_nest UAB tu false fold M N K yt yb xt (fun i j k m => fillA f i k m)
          (fun i j k ii => inA i ii) (fun i j k jj => atB jj k) C ldc m
      else
        zgemm_nest (if is_trans TransB then UAB else CBA) tu false fold M N K yt yt xt
          (fun i j k m => fillB same j k (fillA f i k m))
          (fun i j k ii => inA i ii) (fun i j k jj => inB j jj) C ldc m
    else if is_trans TransA then
      let '(bufA, ldbufa, m) := if one then (A, lda, m) else (bufA, K, zscale_matrix (mul_col_trans alpha) M K A lda bufA m) in
      if is_notrans TransB then
        zgemm_nest UAB tu false fold M N K yb yb xb (fun i j k m => m)
          (fun i j k ii => bufA + 2 * (ii * ldbufa + k)) (fun i j k jj => atB jj k) C ldc m
      else
        zgemm_nest (if is_trans TransB then UAB else CBA) tu false fold M N K yb yt xt (fun i j k m => fillB same j k m)
          (fun i j k ii => bufA + 2 * (ii * ldbufa + k)) (fun i j k jj => inB j jj) C ldc m
    else
      let '(bufA, ldbufa, m) := if one then (A, lda, m) else (bufA, K, zscale_matrix (mul_col_conj alpha) M K A lda bufA m) in
      if is_notrans TransB then
        zgemm_nest (if one then CAB else UAB) tu false fold M N K yb yb xb (fun i j k m => m)
          (fun i j k ii => bufA + 2 * (ii * ldbufa + k)) (fun i j k jj => atB jj k) C ldc m
      else if is_trans TransB then
        zgemm_nest (if one then CAB else UAB) tu false fold M N K yb yt xt (fun i j k m => fillB same j k m)
          (fun i j k ii => bufA + 2 * (ii * ldbufa + k)) (fun i j k jj => inB j jj) C ldc m
      else
        zgemm_nest (if one then CAB else CBA) tu false fold M N K yb yt xt
          (fun i j k m => fillB (if one then neg_imag else same) j k m)
          (fun i j k ii => bufA + 2 * (ii * ldbufa + k)) (fun i j k jj => inB j jj) C ldc m.

(** ** reproBLAS *)

(** beta == 1 skips the multiplication; rzgemv.c:54-64, 74-84. *)
Definition zload {t} (beta y : F t * F t) : F t * F t := if z_is_one beta then y else mul_plain beta y.
(** rzgemv.c:52-64, 72-84: accumulators YI. *)
Definition zload_outputs {t} (fold n : Z) (beta : F t * F t) (Y incY YI : Z) (m : mem t) : mem t :=
  if z_is_zero beta then for_up 0 (n * zbnum fold) (fun a m => upd m (YI + a) fzero) m
  else for_up 0 n (fun i m =>
    let z := zload beta (cell2 m (Y + 2 * i * incY)) in zbzconv fold (fst z) (snd z) (YI + i * zbnum fold) m) m.
(** rzgemv.c:66-68, 86-88. *)
Definition zstore_outputs {t} (fold n Y incY YI : Z) (m : mem t) : mem t :=
  for_up 0 n (fun i m => upd2 m (Y + 2 * i * incY) (zzbconv_sub fold (YI + i * zbnum fold) m)) m.
(** rzgemv.c:35-93: reproBLAS_rzgemv; zgemv.c calls it with the default fold. *)
Definition rzgemv {t} (tu : tuning) (b : gemv_blocks) (fold : Z) (Order TransA : ascii) (M N : Z) (alpha : F t * F t)
    (A lda X incX : Z) (beta : F t * F t) (Y incY YI bufX bufA : Z) (m : mem t) : mem t :=
  if (N =? 0) || (M =? 0) then m
  else
    let n := if is_notrans TransA then M else N in
    let m := zload_outputs fold n beta Y incY YI m in
    let m := zbzgemv tu b fold Order TransA M N alpha A lda X incX YI 1 bufX bufA m in
    zstore_outputs fold n Y incY YI m.
(** rzgemm.c:59-75, 84-100: accumulators CI, an R by S matrix (row by row of the
    storage order). *)
Definition zload_matrix {t} (fold R S : Z) (beta : F t * F t) (C ldc CI : Z) (m : mem t) : mem t :=
  if z_is_zero beta then for_up 0 (R * S * zbnum fold) (fun a m => upd m (CI + a) fzero) m
  else for_up 0 R (fun i m => for_up 0 S (fun j m =>
    let z := zload beta (cell2 m (C + 2 * (i * ldc + j))) in zbzconv fold (fst z) (snd z) (CI + (i * S + j) * zbnum fold) m) m) m.
(** rzgemm.c:77-81, 102-106. *)
Definition zstore_matrix {t} (fold R S C ldc CI : Z) (m : mem t) : mem t :=
  for_up 0 R (fun i m => for_up 0 S (fun j m =>
    upd2 m (C + 2 * (i * ldc + j)) (zzbconv_sub fold (CI + (i * S + j) * zbnum fold) m)) m) m.
(** rzgemm.c:41-110: reproBLAS_rzgemm; zgemm.c calls it with the default fold. *)
Definition rzgemm {t} (tu : tuning) (b : gemm_blocks) (fold : Z) (Order TransA TransB : ascii) (M N K : Z) (alpha : F t * F t)
    (A lda B ldb : Z) (beta : F t * F t) (C ldc CI bufA bufB : Z) (m : mem t) : mem t :=
  if (M =? 0) || (N =? 0) then m
  else if is_row Order then
    let m := zload_matrix fold M N beta C ldc CI m in
    let m := zbzgemm tu b fold Order TransA TransB M N K alpha A lda B ldb CI N bufA bufB m in
    zstore_matrix fold M N C ldc CI m
  else
    let m := zload_matrix fold N M beta C ldc CI m in
    let m := zbzgemm tu b fold Order TransA TransB M N K alpha A lda B ldb CI M bufA bufB m in
    zstore_matrix fold N M C ldc CI m.
