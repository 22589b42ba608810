(** * C53, C54: the routines without a fold argument; agreement between routines *)
From Coq Require Import ZArith Reals Bool List Lia Permutation Ascii.
From Flocq Require Import Core BinarySingleNaN.
From Verif Require Import Fp Mem Binned Spec FpProofs BitProofs CoreArith SpecProofs WordProofs MemProofs AccProofs SumProofs ConvProofs Client History ClientProofs PropsSum PropsAcc ComplexProofs PropsComplex Gen GenProofs Blas LaneProofs ReduceProofs DriverProofs BlasSpec PropsBlas Gemv GemvSpec GemvProofs PropsGemv BlasZ BlasZSpec PropsBlasZ Ssq SsqProofs SsqSpec PropsSsq BlasDZ BlasDZSpec PropsBlasDZ GemvZ GemvZSpec GemvZProofs PropsGemvZ PropsGemmZ Defaults.
Import ListNotations.
Open Scope Z_scope.

(** ** Values of the real reductions in terms of one add per term *)
Lemma rddot_value t tu fold N X incX Y incY tmp B (m m' : mem t) :
  2 <= fold <= MAXFOLD t -> tuned t tu -> 0 <= N <= CAPACITY t ->
  clear_of X incX N tmp (dbnum fold) -> clear_of Y incY N tmp (dbnum fold) ->
  all_finite (products m X incX Y incY N) = true ->
  rddot tu fold N X incX Y incY tmp m = ddbconv fold B (sum_list fold B (products m X incX Y incY N) m').
Proof.
  intros Hf HT HN CX CY FX. rewrite CAPACITY_eq in HN.
  rewrite <- terms_dot in FX |- *.
  destruct (fresh_fin fold Hf Dot tu N X incX Y incY tmp m HT HN CX CY FX) as [R1 _].
  destruct (sum_list_holds fold Hf B (terms Dot X incX Y incY m N) m') as [R2 _].
  { rewrite terms_dot. unfold products. rewrite map_length, combine_length.
    pose proof (read_length m X incX N ltac:(lia)). clear -H HN. lia. }
  exact (conv_acc fold Hf [] _ [] _ _ _ _ _ (perm_nil _) (Permutation_refl _) R1 R2).
Qed.
Lemma rdasum_value t tu fold N X incX tmp B (m m' : mem t) :
  2 <= fold <= MAXFOLD t -> tuned t tu -> 0 <= N <= CAPACITY t -> clear_of X incX N tmp (dbnum fold) ->
  all_finite (magnitudes m X incX N) = true ->
  rdasum tu fold N X incX tmp m = ddbconv fold B (sum_list fold B (magnitudes m X incX N) m').
Proof.
  intros Hf HT HN CX FX. rewrite CAPACITY_eq in HN. rewrite <- (terms_asum X incX X incX) in FX |- *.
  destruct (fresh_fin fold Hf ASum tu N X incX X incX tmp m HT HN CX CX FX) as [R1 _].
  destruct (sum_list_holds fold Hf B (terms ASum X incX X incX m N) m') as [R2 _].
  { rewrite terms_asum. unfold magnitudes. rewrite map_length. pose proof (read_length m X incX N ltac:(lia)). lia. }
  exact (conv_acc fold Hf [] _ [] _ _ _ _ _ (perm_nil _) (Permutation_refl _) R1 R2).
Qed.
Lemma start_zero t fold T (y : F t) (m : mem t) beta : feq beta fzero = true -> start fold T beta y m = dbsetzero fold T m.
Proof. intros H. unfold start. now rewrite H. Qed.

Lemma feq_one_not_zero {t} (a : F t) : feq a (mkf 1 0) = true -> feq a fzero = false.
Proof.
  intros H. destruct (is_one_R a H) as (Fa & Ra & _). rewrite feq_zero by exact Fa. apply Z.eqb_neq. intros E.
  rewrite toZ_B2R, E, Rmult_0_l in Ra. symmetry in Ra. exact (R1_neq_R0 Ra).
Qed.
Lemma sequential_perm t fold B B' (xs xs' : list (F t)) (m m' : mem t) : 2 <= fold <= MAXFOLD t -> Z.of_nat (length xs) <= CAPACITY t ->
  Permutation xs xs' -> ddbconv fold B (sum_list fold B xs m) = ddbconv fold B' (sum_list fold B' xs' m').
Proof.
  intros Hf HL HP. rewrite CAPACITY_eq in HL.
  destruct (sum_list_holds fold Hf B xs m HL) as [R1 _].
  destruct (sum_list_holds fold Hf B' xs' m') as [R2 _]; [now rewrite <- (Permutation_length HP)|].
  exact (conv_acc fold Hf [] _ [] _ _ _ _ _ (perm_nil _) HP R1 R2).
Qed.
Lemma magnitudes_length {t} (m : mem t) X incX N : 0 <= N -> Z.of_nat (length (magnitudes m X incX N)) = N.
Proof. intros H. unfold magnitudes. rewrite map_length. now apply read_length. Qed.

(** ** C54: one result, whichever routine computes it *)
(** Address step along a row (column) of op(A). *)
Definition row_step (Order Trans : ascii) (ld : Z) : Z := if Bool.eqb (is_row Order) (is_notrans Trans) then 1 else ld.
Definition col_step (Order Trans : ascii) (ld : Z) : Z := if Bool.eqb (is_row Order) (is_notrans Trans) then ld else 1.
Lemma op_addr_row Order Trans A ld i j : op_addr Order Trans A ld i j = op_addr Order Trans A ld i 0 + j * row_step Order Trans ld.
Proof. unfold op_addr, elem_addr, row_step. destruct (is_row Order), (is_notrans Trans); cbn [Bool.eqb]; ring. Qed.
Lemma op_addr_col Order Trans A ld i j : op_addr Order Trans A ld i j = op_addr Order Trans A ld 0 j + i * col_step Order Trans ld.
Proof. unfold op_addr, elem_addr, col_step. destruct (is_row Order), (is_notrans Trans); cbn [Bool.eqb]; ring. Qed.
Lemma combine_map {A B C} (f : A -> B) (g : A -> C) l : combine (map f l) (map g l) = map (fun x => (f x, g x)) l.
Proof. induction l; cbn; congruence. Qed.
Lemma products_map {t} (m : mem t) X incX Y incY N : products m X incX Y incY N = map (fun j => fmul (m (X + j * incX)) (m (Y + j * incY))) (zseq 0 N).
Proof. unfold products, read. rewrite combine_map, map_map. reflexivity. Qed.

(** Each entry of a matrix-vector product is, bit for bit, the dot product of a row and the vector. *)
Theorem C54_gemv_is_dot t tu tu' b fold Order Trans M N (alpha beta : F t) A lda X incX Y incY YI bufX bufA tmp (m : mem t) :
  2 <= fold <= MAXFOLD t -> tuned t tu -> tuned t tu' -> legal_gemv b -> 0 < M -> 0 < N ->
  feq alpha (mkf 1 0) = true -> feq beta fzero = true ->
  let rows := op_rows Trans M N in let cols := op_cols Trans M N in let lenA := xt_block b * yt_block b in
  gemv_layout fold Order Trans rows cols A lda X incX YI 1 bufX bufA lenA -> incY <> 0 ->
  (forall i, 0 <= i < rows -> ~ gemv_touched fold rows YI 1 bufX cols bufA lenA (Y + i * incY)) ->
  cols + 1 <= CAPACITY t ->
  (forall i, 0 <= i < rows ->
     all_finite (products m (op_addr Order Trans A lda i 0) (row_step Order Trans lda) X incX cols) = true /\
     clear_of (op_addr Order Trans A lda i 0) (row_step Order Trans lda) cols tmp (dbnum fold)) ->
  clear_of X incX cols tmp (dbnum fold) ->
  forall i, 0 <= i < rows ->
  rdgemv tu b fold Order Trans M N alpha A lda X incX beta Y incY YI bufX bufA m (Y + i * incY) =
  rddot tu' fold cols (op_addr Order Trans A lda i 0) (row_step Order Trans lda) X incX tmp m.
Proof.
  intros Hf HT HT' LG HM HN H1 H0 rows cols lenA LY NY HY HC HP CX i Hi.
  assert (PP : forall i, gemv_products m Order Trans A lda alpha X incX cols i =
    products m (op_addr Order Trans A lda i 0) (row_step Order Trans lda) X incX cols).
  { intros k. rewrite products_map. unfold gemv_products. apply map_ext. intros j. rewrite (fmul_one _ alpha) by exact H1.
    now rewrite op_addr_row. }
  destruct (C25_gemv t tu b fold Order Trans M N alpha beta A lda X incX Y incY YI bufX bufA 0 m Hf HT LG HM HN LY NY HY HC) as [R _].
  { intros k Hk. fold cols. rewrite PP. apply HP. exact Hk. }
  rewrite (R i Hi). cbv zeta. fold cols. rewrite PP, start_zero by exact H0.
  replace (feq alpha fzero) with false.
  2:{ symmetry. apply feq_one_not_zero. exact H1. }
  symmetry. destruct (HP i Hi) as [P1 P2]. apply rddot_value; try assumption.
  assert (0 < cols) by (unfold cols, op_cols; destruct is_notrans; lia). lia.
Qed.
Print Assumptions C54_gemv_is_dot.
(** Each entry of a matrix-matrix product is the dot product of a row and a column. *)
Theorem C54_gemm_is_dot t tu tu' b fold Order TransA TransB M N K (alpha beta : F t) A lda B ldb C ldc CI bufA bufB tmp (m : mem t) :
  2 <= fold <= MAXFOLD t -> tuned t tu -> tuned t tu' -> legal_gemm b -> 0 < M -> 0 < N -> 0 <= K ->
  feq alpha (mkf 1 0) = true -> feq beta fzero = true ->
  let ldi := if is_row Order then N else M in
  let lenA := bufA_len b M K in let lenB := mxt_block b * myt_block b in
  gemm_layout fold Order TransA TransB M N K A lda B ldb CI ldi bufA lenA bufB lenB -> ldi <= ldc ->
  (forall i j, 0 <= i < M -> 0 <= j < N -> ~ gemm_touched fold Order M N CI ldi bufA lenA bufB lenB (elem_addr Order C ldc i j)) ->
  K + 1 <= CAPACITY t ->
  (forall i j, 0 <= i < M -> 0 <= j < N ->
     all_finite (products m (op_addr Order TransA A lda i 0) (row_step Order TransA lda) (op_addr Order TransB B ldb 0 j) (col_step Order TransB ldb) K) = true /\
     clear_of (op_addr Order TransA A lda i 0) (row_step Order TransA lda) K tmp (dbnum fold) /\
     clear_of (op_addr Order TransB B ldb 0 j) (col_step Order TransB ldb) K tmp (dbnum fold)) ->
  forall i j, 0 <= i < M -> 0 <= j < N ->
  rdgemm tu b fold Order TransA TransB M N K alpha A lda B ldb beta C ldc CI bufA bufB m (elem_addr Order C ldc i j) =
  rddot tu' fold K (op_addr Order TransA A lda i 0) (row_step Order TransA lda) (op_addr Order TransB B ldb 0 j) (col_step Order TransB ldb) tmp m.
Proof.
  intros Hf HT HT' LG HM HN HK H1 H0 ldi lenA lenB LY NY HY HC HP i j Hi Hj.
  assert (PP : forall i j, gemm_products m Order TransA TransB A lda alpha B ldb K i j =
    products m (op_addr Order TransA A lda i 0) (row_step Order TransA lda) (op_addr Order TransB B ldb 0 j) (col_step Order TransB ldb) K).
  { intros i1 j1. rewrite products_map. unfold gemm_products. apply map_ext. intros k. rewrite (fmul_one _ alpha) by exact H1.
    now rewrite (op_addr_row Order TransA), (op_addr_col Order TransB). }
  destruct (C25_gemm t tu b fold Order TransA TransB M N K alpha beta A lda B ldb C ldc CI bufA bufB 0 m Hf HT LG HM HN HK LY NY HY HC) as [R _].
  { intros i1 j1 Hi1 Hj1. rewrite PP. apply HP; auto. }
  rewrite (R i j Hi Hj). cbv zeta. rewrite PP, start_zero by exact H0.
  replace (feq alpha fzero) with false.
  2:{ symmetry. apply feq_one_not_zero. exact H1. }
  symmetry. destruct (HP i j Hi Hj) as (P1 & P2 & P3). apply rddot_value; try assumption. clear -HK HC; lia.
Qed.
Print Assumptions C54_gemm_is_dot.
(** The absolute sum of data without negative numbers is the sum. *)
Theorem C54_asum_is_sum t tu tu' fold N X incX X' incX' tmp tmp' (m m' : mem t) :
  2 <= fold <= MAXFOLD t -> tuned t tu -> tuned t tu' -> 0 <= N <= CAPACITY t ->
  clear_of X incX N tmp (dbnum fold) -> clear_of X' incX' N tmp' (dbnum fold) ->
  all_finite (read m' X' incX' N) = true -> Permutation (magnitudes m X incX N) (read m' X' incX' N) ->
  rdasum tu fold N X incX tmp m = rdsum tu' fold N X' incX' tmp' m'.
Proof.
  intros Hf HT HT' HN CX CX' FX HP.
  assert (FM : all_finite (magnitudes m X incX N) = true) by (rewrite (all_finite_perm _ _ HP); exact FX).
  rewrite (rdasum_value t tu fold N X incX tmp 0 m m' Hf HT HN CX FM).
  rewrite (C20_is_scalar_sum t tu' fold N X' incX' tmp' 0 m' m' Hf HT' HN CX' FX).
  apply sequential_perm; [exact Hf|rewrite magnitudes_length; apply HN|exact HP].
Qed.
Print Assumptions C54_asum_is_sum.
(** The dot product with ones is the sum. *)
Theorem C54_dot_ones t tu tu' fold N X incX Y incY tmp tmp' (m : mem t) :
  2 <= fold <= MAXFOLD t -> tuned t tu -> tuned t tu' -> 0 <= N <= CAPACITY t ->
  clear_of X incX N tmp (dbnum fold) -> clear_of Y incY N tmp (dbnum fold) -> clear_of X incX N tmp' (dbnum fold) ->
  all_finite (read m X incX N) = true -> (forall i, 0 <= i < N -> feq (m (Y + i * incY)) (mkf 1 0) = true) ->
  rddot tu fold N X incX Y incY tmp m = rdsum tu' fold N X incX tmp' m.
Proof.
  intros Hf HT HT' HN CX CY CX' FX H1.
  assert (E : products m X incX Y incY N = read m X incX N).
  { rewrite products_map. unfold read. apply map_ext_in. intros j Hj. apply zseq_In in Hj. apply fmul_one, H1. lia. }
  assert (FP : all_finite (products m X incX Y incY N) = true) by (rewrite E; exact FX).
  rewrite (rddot_value t tu fold N X incX Y incY tmp 0 m m Hf HT HN CX CY FP), (C20_is_scalar_sum t tu' fold N X incX tmp' 0 m m Hf HT' HN CX' FX), E.
  reflexivity.
Qed.
Print Assumptions C54_dot_ones.
(** The parts of a complex sum are the sums of the parts. *)
Theorem C54_zsum_parts t tu tu1 tu2 fold N X incX tmp tmp1 tmp2 (m : mem t) :
  2 <= fold <= MAXFOLD t -> tuned t tu -> tuned t tu1 -> tuned t tu2 -> 0 <= N <= CAPACITY t ->
  zclear_of X incX N tmp (zbnum fold) -> clear_of X (2 * incX) N tmp1 (dbnum fold) -> clear_of (X + 1) (2 * incX) N tmp2 (dbnum fold) ->
  let r := rzsum tu fold N X incX tmp m in
  (all_finite (read m X (2 * incX) N) = true -> fst r = rdsum tu1 fold N X (2 * incX) tmp1 m) /\
  (all_finite (read m (X + 1) (2 * incX) N) = true -> snd r = rdsum tu2 fold N (X + 1) (2 * incX) tmp2 m).
Proof.
  intros Hf HT HT1 HT2 HN CX C1 C2 r.
  assert (E1 : map fst (zread m X incX N) = read m X (2 * incX) N).
  { unfold zread, read. rewrite map_map. apply map_ext. intros j. cbn [fst]. f_equal. ring. }
  assert (E2 : map snd (zread m X incX N) = read m (X + 1) (2 * incX) N).
  { unfold zread, read. rewrite map_map. apply map_ext. intros j. cbn [snd]. f_equal. ring. }
  destruct (C46_rzsum t tu fold N X incX tmp 0 (zread m X incX N) m m Hf HT HN CX (Permutation_refl _)) as [R1 R2]. fold r in R1, R2.
  rewrite E1 in R1. rewrite E2 in R2. split; intros FX.
  - rewrite FX in R1. rewrite R1. symmetry. apply C20_is_scalar_sum; assumption.
  - rewrite FX in R2. rewrite R2. symmetry. apply C20_is_scalar_sum; assumption.
Qed.
Print Assumptions C54_zsum_parts.
(** The absolute sum of a complex vector is the absolute sum of its real and imaginary parts. *)
Theorem C54_zasum_is_asum t tu tu' fold N X incX X' incX' Y A Y' (m m' : mem t) :
  2 <= fold <= MAXFOLD t -> tuned t tu -> tuned t tu' -> 0 <= 2 * N <= CAPACITY t ->
  zclear_of X incX N Y (dbnum fold) -> zclear_of X incX N A (zbnum fold) -> blocks_apart A (zbnum fold) Y (dbnum fold) ->
  clear_of X' incX' (2 * N) Y' (dbnum fold) -> all_finite (read m' X' incX' (2 * N)) = true ->
  Permutation (components m X incX N) (read m' X' incX' (2 * N)) ->
  rdzasum tu fold N X incX Y A m = rdasum tu' fold (2 * N) X' incX' Y' m'.
Proof.
  intros Hf HT HT' HN C1 C2 C3 C4 FX HP.
  rewrite (C48_rdzasum t tu fold N X incX Y A 0 _ m m' Hf HT HN C1 C2 C3 HP). symmetry. apply rdasum_value; try assumption.
  unfold magnitudes. now rewrite all_finite_fabs.
Qed.
Print Assumptions C54_zasum_is_asum.
(** ** A case meeting the hypotheses: 3 by 5 matrix-vector and 2 by 4 by 3 matrix-matrix products in every
    order and transposition, sums and dot products of strided data *)
Definition unit_gemv (Order Trans : ascii) : mem Dbl :=
  rdgemv sample_tuning sample_blocks 3 Order Trans (if is_notrans Trans then 3 else 5) (if is_notrans Trans then 5 else 3)
    (mkf 1 0) 0 6 100 2 fzero 900 10 1000 2000 3000 sample_mem.
Lemma clear_low fold X inc n tmp : 0 <= X -> 0 <= inc -> X + n * inc < tmp -> clear_of X inc n tmp (dbnum fold).
Proof. intros H1 H2 H3 i Hi. assert (i * inc <= n * inc) by (apply Z.mul_le_mono_nonneg_r; lia). assert (0 <= i * inc) by (apply Z.mul_nonneg_nonneg; lia). lia. Qed.
Lemma C54_gemv_hyps Order Trans : In Order ["r"; "C"]%char -> In Trans ["N"; "t"]%char ->
  forall i, 0 <= i < 3 ->
  all_finite (products sample_mem (op_addr Order Trans 0 6 i 0) (row_step Order Trans 6) 100 2 5) = true /\
  clear_of (op_addr Order Trans 0 6 i 0) (row_step Order Trans 6) 5 5000 (dbnum 3).
Proof.
  intros HO HT i Hi. split.
  - revert i Hi. destruct HO as [<-|[<-|[]]], HT as [<-|[<-|[]]]; apply below3; vm_compute; reflexivity.
  - unfold op_addr, elem_addr, row_step. destruct (is_row Order), (is_notrans Trans); cbn [Bool.eqb]; apply clear_low; lia.
Qed.
Example C54_case :
  (forall Order Trans, In Order ["r"; "C"]%char -> In Trans ["N"; "t"]%char -> forall i, 0 <= i < 3 ->
     unit_gemv Order Trans (900 + i * 10) =
     rddot sample_tuning 3 5 (op_addr Order Trans 0 6 i 0) (row_step Order Trans 6) 100 2 5000 sample_mem) /\
  map (fun i => Z.shiftr (toZ (unit_gemv "r" "N" (900 + 10 * i))) 1074) [0; 1; 2] = [-3298534882304; -6597069770752; -9895604644864] /\
  (forall m : mem Dbl, m = spread some_data 2 ->
    rdasum sample_tuning 3 5 0 2 100 m = rdsum sample_tuning 3 5 200 3 100 (fun a => if a <? 200 then fzero else fabs (m ((a - 200) / 3 * 2)))).
Proof.
  split; [|split].
  - intros Order Trans HO HT i Hi. unfold unit_gemv.
    pose (M := if is_notrans Trans then 3 else 5). pose (N := if is_notrans Trans then 5 else 3).
    assert (E5 : op_cols Trans M N = 5) by (unfold op_cols, M, N; destruct (is_notrans Trans); reflexivity).
    assert (E3 : op_rows Trans M N = 3) by (unfold op_rows, M, N; destruct (is_notrans Trans); reflexivity).
    assert (MN : 0 < M /\ 0 < N) by (unfold M, N; destruct (is_notrans Trans); lia).
    fold M N. clearbody M N.
    pose proof (C54_gemv_is_dot Dbl sample_tuning sample_tuning sample_blocks 3 Order Trans M N (mkf 1 0) fzero 0 6 100 2 900 10 1000 2000 3000 5000 sample_mem
      ltac:(vm_compute; split; discriminate) (proj1 C18_case) (proj1 C18_case) (proj1 C23_case) (proj1 MN) (proj2 MN)
      ltac:(vm_compute; reflexivity) ltac:(vm_compute; reflexivity)) as G.
    cbv zeta in G. rewrite E3, E5 in G. apply G; clear G; try exact Hi.
    + apply C23_case.
    + lia.
    + apply C25_case.
    + vm_compute; discriminate.
    + apply C54_gemv_hyps; assumption.
    + apply clear_low; lia.
  - vm_compute. reflexivity.
  - intros m ->. apply C54_asum_is_sum.
    + vm_compute; split; discriminate.
    + apply C18_case.
    + apply C18_case.
    + vm_compute; split; discriminate.
    + apply clear_low; lia.
    + intros i Hi. unfold dbnum. lia.
    + vm_compute. reflexivity.
    + match goal with |- Permutation ?a ?b => replace b with a by reflexivity end. apply Permutation_refl.
Qed.
