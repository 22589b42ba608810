(** * The C [int] expressions the vector and matrix routines evaluate

    Elsewhere in the model indices are unbounded integers.  Here: the lists of the values of all [int]
    expressions (loop counters, limits, increments, subscripts and their subexpressions) evaluated by
    the reductions, the scans and the real matrix products.  Pointer + int is not an int expression;
    sizes computed with sizeof are size_t, but an int product in front of one (M * N * binned_dbsize)
    is an int.  Where a branch is selected by the data (alpha == 1.0, beta == 0.0, an infinite block)
    the choice is a parameter. *)
From Coq Require Import ZArith List Bool.
From Verif Require Import Fp Binned Gen Blas Gemv.
Import ListNotations.
Open Scope Z_scope.

(** for (i = lo; i < hi; i += step) body(i) *)
Fixpoint steps (fuel : nat) (i hi step : Z) : list Z :=
  match fuel with O => [] | S f => if i <? hi then i :: steps f (i + step) hi step else [] end.
Definition loop (lo hi step : Z) (body : Z -> list Z) : list Z :=
  flat_map (fun i => body i ++ [i + step]) (steps (Z.to_nat (hi - lo)) lo hi step).
(** for (ii = i; ii < hi && ii < i + block; ii += 1) body(ii) *)
Definition block (i hi b : Z) (body : Z -> list Z) : list Z :=
  (i + b) :: flat_map (fun ii => body ii ++ [ii + 1]) (zseq i (Z.min hi (i + b) - i)).

(** ** The generated loops: vectorizations.py:90-118, run as in Gen.run_stmts

    c reals per element; [inc]: the strides of the vectors (one or two).  Subscripts (vectorizations.py:54-74):
    incX * l for real element l, incX * 2l and incX * 2l + 1 for a complex one; the code for incX == 1 has the
    products as literals.  Pointer steps: deposit.py:241-257, amax.py:76-84. *)
Definition subscripts (c : Z) (inc : list Z) (w : Z) : list Z :=
  flat_map (fun l => flat_map (fun x => if c =? 1 then [x * l] else [x * (2 * l); x * (2 * l) + 1]) inc) (zseq 0 w).
Definition advance (c : Z) (inc : list Z) (w : Z) : list Z := map (fun x => x * (c * w)) inc.
Definition advance_rest (c : Z) (inc : list Z) (r : Z) : list Z :=
  r :: flat_map (fun x => if c =? 1 then [x * r] else [x * r; x * r * 2]) inc.
Fixpoint for_ints (fuel : nat) (c : Z) (inc : list Z) (step w n i : Z) : list Z * Z :=
  match fuel with
  | O => ([i + step], i)
  | S f =>
      if i + step <=? n then
        let '(r, i') := for_ints f c inc step w n (i + step) in
        ((i + step) :: subscripts c inc w ++ advance c inc step ++ r, i')
      else ([i + step], i)
  end.
Fixpoint stmts_ints (ss : list stmt) (c : Z) (inc : list Z) (n i : Z) : list Z :=
  match ss with
  | [] => []
  | ForLoop step w :: ss => let '(r, i') := for_ints (Z.to_nat n) c inc step w n 0 in r ++ stmts_ints ss c inc n i'
  | IfFull w :: ss =>
      (i + w) :: (if i + w <=? n then subscripts c inc w ++ advance c inc w ++ stmts_ints ss c inc n (i + w)
                  else stmts_ints ss c inc n i)
  | IfPartial :: ss =>
      if i <? n then subscripts c inc (n - i) ++ advance_rest c inc (n - i) ++ stmts_ints ss c inc n i
      else stmts_ints ss c inc n i
  end.
(** damax.ccog, zamax_sub.ccog (one stride), damaxm.ccog, zamaxm_sub.ccog (two). *)
Definition scan_ints (v : avec) (c : Z) (inc : list Z) (n : Z) : list Z :=
  stmts_ints (iterate_unrolled (a_type_size v) (a_unroll v)) c inc n 0.
Definition deposit_ints (v : vec) (c : Z) (inc : list Z) (n : Z) : list Z :=
  stmts_ints (iterate_unrolled (type_size v) (pipe_width v * unroll_width v)) c inc n 0.

(** ** The block loop: dmdsum.ccog:57-84, 6199, dmdasum.ccog, dmddot.ccog (c = 1), zmzsum.ccog (c = 2).
    [skip i]: the block at i holds an infinity or follows one (lines 69-78). *)
Definition element (c x j : Z) : list Z := if c =? 1 then [j * x] else [j * 2; j * 2 * x; j * 2 * x + 1].
Definition jump (c x n : Z) : list Z := if c =? 1 then [n * x] else [n * 2; n * 2 * x].
Fixpoint reduce_ints (fuel : nat) (E : Z) (tu : tuning) (c : Z) (inc : list Z) (skip : Z -> bool) (N i deposits : Z) : list Z :=
  match fuel with
  | O => []
  | S f =>
      if i <? N then
        let n := Z.min (N - i) (block_max tu) in
        (N - i) :: scan_ints (amax_vec tu) c inc n ++ [i + n] ++
        (if skip i then flat_map (fun j => flat_map (fun x => element c x j) inc) (zseq 0 n) ++ flat_map (fun x => jump c x n) inc ++
                        reduce_ints f E tu c inc skip N (i + n) deposits
         else
           let d := if E <? deposits + n then 0 else deposits in
           (deposits + n) :: (d + n) :: deposit_ints (dep_vec tu) c inc n ++ reduce_ints f E tu c inc skip N (i + n) (d + n))
      else []
  end.
(** binnedBLAS_dmdsum, dmdasum (inc = [incX]), dmddot (inc = [incX; incY]), zmzsum (c = 2). *)
Definition vector_ints (t : ty) (tu : tuning) (c : Z) (inc : list Z) (skip : Z -> bool) (N : Z) : list Z :=
  reduce_ints (Z.to_nat N) (ENDURANCE t) tu c inc skip N 0 0.

(** ** dbdgemv.ccog *)

(** Lines 92-95, 116-119: bufX[j] = X[j * incX] * alpha, unless alpha is 1. *)
Definition scale_ints (one : bool) (n incX : Z) : list Z := if one then [] else loop 0 n 1 (fun j => [j * incX]).
Definition buf_inc (one : bool) (incX : Z) : Z := if one then incX else 1.
(** Lines 98-104. *)
Definition gemv_notrans_ints (t : ty) (tu : tuning) (b : gemv_blocks) (fold : Z) (one : bool) (skip : Z -> Z -> Z -> bool) (M N lda incX incY : Z) : list Z :=
  let inc := buf_inc one incX in
  scale_ints one N incX ++
  loop 0 M (y_block b) (fun i => loop 0 N (x_block b) (fun j => block i M (y_block b) (fun ii =>
    [N - j; ii * lda; j * inc; ii * incY; ii * incY * dbnum fold] ++
    vector_ints t tu 1 [1; inc] (skip ii j) (Z.min (x_block b) (N - j))))).
(** Lines 123-141. *)
Definition gemv_trans_ints (t : ty) (tu : tuning) (b : gemv_blocks) (fold : Z) (one : bool) (skip : Z -> Z -> Z -> bool) (M N lda incX incY : Z) : list Z :=
  let inc := buf_inc one incX in let xt := xt_block b in let yt := yt_block b in let tb := t_block b in
  scale_ints one M incX ++ [xt * yt] ++
  loop 0 N yt (fun i => loop 0 M xt (fun j =>
    [j + xt; i + yt] ++
    loop j (Z.min M (j + xt)) tb (fun jj => loop i (Z.min N (i + yt)) tb (fun ii =>
      block jj M (Z.min tb xt) (fun jjj => block ii N (Z.min tb yt) (fun iii =>
        [iii - i; (iii - i) * xt; jjj - j; (iii - i) * xt + (jjj - j); jjj * lda; jjj * lda + iii])))) ++
    block i N yt (fun ii =>
      [M - j; ii - i; (ii - i) * xt; j * inc; ii * incY; ii * incY * dbnum fold] ++
      vector_ints t tu 1 [1; inc] (skip ii j) (Z.min xt (M - j))))).
(** Lines 75-169, and rdgemv.c:44-87 (n outputs, incY = 1 for the accumulators); [zero]: beta == 0.0. *)
Definition rdgemv_ints (t : ty) (tu : tuning) (b : gemv_blocks) (fold : Z) (row notrans one zero : bool) (skip : Z -> Z -> Z -> bool)
    (M N lda incX incY : Z) : list Z :=
  let n := if notrans then M else N in
  let copy := loop 0 n 1 (fun i => [i * incY; i * dbnum fold]) in
  (if zero then [] else copy) ++
  (if row then if notrans then gemv_notrans_ints t tu b fold one skip M N lda incX 1 else gemv_trans_ints t tu b fold one skip M N lda incX 1
   else if notrans then gemv_trans_ints t tu b fold one skip N M lda incX 1 else gemv_notrans_ints t tu b fold one skip N M lda incX 1) ++
  copy.

(** ** dbdgemm.ccog *)

(** Lines 96-101, 365-370. *)
Definition scale_matrix_ints (one : bool) (M K lda : Z) : list Z :=
  if one then [] else (M * K) :: loop 0 M 1 (fun i => loop 0 K 1 (fun k => [i * K; i * K + k; i * lda; i * lda + k])).
(** Lines 113-117 and the other fills. *)
Definition fill_ints (J K bj bk xt ld j k : Z) : list Z :=
  block k K bk (fun kk => block j J bj (fun jj => [jj - j; (jj - j) * xt; kk - k; (jj - j) * xt + (kk - k); kk * ld; kk * ld + jj])).
Definition gemm_nest_ints (t : ty) (tu : tuning) (by_rows : bool) (fold : Z) (skip : Z -> Z -> Z -> Z -> bool) (M N K bi bj bk : Z)
    (prep : Z -> Z -> Z -> list Z) (opA opB : Z -> Z -> Z -> Z -> list Z) (ldc : Z) : list Z :=
  loop 0 M bi (fun i => loop 0 N bj (fun j => loop 0 K bk (fun k =>
    prep i j k ++
    let dot ii jj :=
      let p := if by_rows then ii else jj in let q := if by_rows then jj else ii in
      (K - k) :: opA i j k ii ++ opB i j k jj ++ [p * ldc; p * ldc + q; (p * ldc + q) * dbnum fold] ++
      vector_ints t tu 1 [1; 1] (skip ii jj k) (Z.min bk (K - k)) in
    if by_rows then block i M bi (fun ii => block j N bj (fun jj => dot ii jj))
    else block j N bj (fun jj => block i M bi (fun ii => dot ii jj))))).
(** Lines 81-419, branches as in Gemv.dbdgemm. *)
Definition gemm_ints (t : ty) (tu : tuning) (b : gemm_blocks) (fold : Z) (row nta ntb one : bool) (skip : Z -> Z -> Z -> Z -> bool)
    (M N K lda ldb ldc : Z) : list Z :=
  let yb := my_block b in let xb := mx_block b in let yt := myt_block b in let xt := mxt_block b in
  let fillA i k := fill_ints M K yt xt xt lda i k in
  let fillB j k := fill_ints N K yt xt xt ldb j k in
  let ldbufa := if one then lda else K in
  let at_A (i j k ii : Z) := [ii * ldbufa] in
  let at_B (i j k jj : Z) := [jj * ldb] in
  let in_A (i j k ii : Z) := [ii - i; (ii - i) * xt] in
  let in_B (i j k jj : Z) := [jj - j; (jj - j) * xt] in
  let nest := gemm_nest_ints t tu row fold skip M N K in
  if (M =? 0) || (N =? 0) || (K =? 0) then []
  else [xt * yt] ++
    match row, nta, ntb with
    | true, true, true => scale_matrix_ints one M K lda ++ nest yb yt xt (fun i j k => fillB j k) at_A in_B ldc
    | true, true, false => scale_matrix_ints one M K lda ++ nest yb yb xb (fun i j k => []) at_A at_B ldc
    | true, false, true => nest yt yt xt (fun i j k => fillA i k ++ fillB j k) in_A in_B ldc
    | true, false, false => nest yt yb xt (fun i j k => fillA i k) in_A at_B ldc
    | false, true, true => nest yt yb xt (fun i j k => fillA i k) in_A at_B ldc
    | false, true, false => nest yt yt xt (fun i j k => fillA i k ++ fillB j k) in_A in_B ldc
    | false, false, true => scale_matrix_ints one M K lda ++ nest yb yb xb (fun i j k => []) at_A at_B ldc
    | false, false, false => scale_matrix_ints one M K lda ++ nest yb yt xt (fun i j k => fillB j k) at_A in_B ldc
    end.
(** rdgemm.c:46-107: R by S accumulators, in the order of storage. *)
Definition rdgemm_ints (t : ty) (tu : tuning) (b : gemm_blocks) (fold : Z) (row nta ntb one zero : bool) (skip : Z -> Z -> Z -> Z -> bool)
    (M N K lda ldb ldc : Z) : list Z :=
  let R := if row then M else N in let S := if row then N else M in
  let copy := loop 0 R 1 (fun i => loop 0 S 1 (fun j => [i * ldc; i * ldc + j; i * S; i * S + j; (i * S + j) * dbnum fold])) in
  if (M =? 0) || (N =? 0) then []
  else [M * N] ++ (if zero then [M * N] else copy) ++ gemm_ints t tu b fold row nta ntb one skip M N K lda ldb S ++ copy.
