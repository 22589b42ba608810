(** * C77: symmetry of inner products, transposition of matrix products *)
From Coq Require Import ZArith Bool List Lia Permutation Ascii.
From Flocq Require Import Core BinarySingleNaN.
From Verif Require Import Fp Mem Binned Spec FpProofs BitProofs CoreArith SpecProofs WordProofs MemProofs AccProofs SumProofs ConvProofs Client History ClientProofs PropsSum PropsAcc ComplexProofs PropsComplex Gen GenProofs Blas LaneProofs ReduceProofs DriverProofs BlasSpec PropsBlas Gemv GemvSpec GemvProofs PropsGemv BlasZ BlasZSpec PropsBlasZ PropsSign PropsApi.
Import ListNotations.
Open Scope Z_scope.

Lemma fmul_comm {t} (x y : F t) : fmul x y = fmul y x.
Proof.
  unfold fmul. apply B2SF_inj. destruct x as [sx|sx| |sx mx ex Hx], y as [sy|sy| |sy my ey Hy]; cbn [Bmult B2SF]; try reflexivity; try (now rewrite xorb_comm).
  rewrite !B2SF_SF2B. now rewrite (xorb_comm sx sy), (Pos.mul_comm mx my), (Z.add_comm ex ey).
Qed.
Lemma products_sym {t} (m : mem t) X incX Y incY N : products m Y incY X incX N = products m X incX Y incY N.
Proof. rewrite !products_map. apply map_ext. intros j. apply fmul_comm. Qed.

(** ** Real dot products *)
Theorem C77_dot t tu tu' fold N X incX Y incY tmp tmp' (m : mem t) :
  2 <= fold <= MAXFOLD t -> tuned t tu -> tuned t tu' -> 0 <= N <= CAPACITY t ->
  clear_of X incX N tmp (dbnum fold) -> clear_of Y incY N tmp (dbnum fold) ->
  clear_of X incX N tmp' (dbnum fold) -> clear_of Y incY N tmp' (dbnum fold) ->
  all_finite (products m X incX Y incY N) = true ->
  rddot tu fold N X incX Y incY tmp m = rddot tu' fold N Y incY X incX tmp' m.
Proof.
  intros Hf HT HT' HN CX CY CX' CY' FX. rewrite (rddot_value t tu fold N X incX Y incY tmp 0 m m) by assumption.
  rewrite (rddot_value t tu' fold N Y incY X incX tmp' 0 m m); try assumption; rewrite (products_sym m X incX Y incY N); [reflexivity|exact FX].
Qed.
Print Assumptions C77_dot.
(** The accumulator of a dot product, on top of anything accumulated before. *)
Theorem C77_accumulator t tu tu' fold N X incX Y incY A us zs (m : mem t) :
  2 <= fold <= MAXFOLD t -> tuned t tu -> tuned t tu' -> 0 <= N ->
  clear_of X incX N A (dbnum fold) -> clear_of Y incY N A (dbnum fold) ->
  acc_at fold us zs m A -> N + Z.of_nat (length zs) <= CAPACITY t ->
  all_finite (products m X incX Y incY N) = true -> all_finite zs = true ->
  same_words fold (dbddot tu fold N X incX Y incY A m) A (dbddot tu' fold N Y incY X incX A m) A.
Proof.
  intros Hf HT HT' HN CX CY HA HC FX FZ.
  destruct (C21_dot_is_adds t tu fold N X incX Y incY A us zs m Hf HT HN CX CY HA FX FZ HC) as [S1 _].
  destruct (C21_dot_is_adds t tu' fold N Y incY X incX A us zs m Hf HT' HN CY CX HA) as [S2 _]; [now rewrite (products_sym m X incX Y incY N)|exact FZ|exact HC|].
  rewrite (products_sym m X incX Y incY N) in S2. intros i Hi. rewrite (S1 i Hi). symmetry. exact (S2 i Hi).
Qed.
Print Assumptions C77_accumulator.

(** ** Complex dot products *)
Lemma zproducts_map {t} (m : mem t) X incX Y incY N :
  combine (zread m X incX N) (zread m Y incY N) =
  map (fun i => ((m (X + 2 * (i * incX)), m (X + 2 * (i * incX) + 1)), (m (Y + 2 * (i * incY)), m (Y + 2 * (i * incY) + 1)))) (zseq 0 N).
Proof. unfold zread. apply combine_map. Qed.
Lemma flat_swap {A B} (f g : A -> list B) l : (forall a, Permutation (f a) (g a)) -> Permutation (flat_map f l) (flat_map g l).
Proof. intros H. induction l as [|a l IH]; cbn [flat_map]; [constructor|]. now apply Permutation_app. Qed.
Lemma flat_map_map {A B C} (f : A -> B) (g : B -> list C) l : flat_map g (map f l) = flat_map (fun x => g (f x)) l.
Proof. induction l as [|a l IH]; cbn [map flat_map]; congruence. Qed.
Lemma map_flat {A B C} (f : A -> list B) (g : B -> C) l : map g (flat_map f l) = flat_map (fun x => map g (f x)) l.
Proof. induction l as [|a l IH]; cbn [flat_map]; [reflexivity|]. now rewrite map_app, IH. Qed.
Lemma plain_re {t} (m : mem t) X incX Y incY N : map fst (plain_products m Y incY X incX N) = map fst (plain_products m X incX Y incY N).
Proof.
  unfold plain_products. rewrite !zproducts_map, !flat_map_map, !map_flat. apply flat_map_ext. intros i. cbn [map fst].
  now rewrite (fmul_comm (m (Y + 2 * (i * incY)))), (fmul_comm (m (Y + 2 * (i * incY) + 1))).
Qed.
Lemma plain_im {t} (m : mem t) X incX Y incY N : Permutation (map snd (plain_products m Y incY X incX N)) (map snd (plain_products m X incX Y incY N)).
Proof.
  unfold plain_products. rewrite !zproducts_map, !flat_map_map, !map_flat. apply flat_swap. intros i. cbn [map snd].
  rewrite (fmul_comm (m (Y + 2 * (i * incY)))), (fmul_comm (m (Y + 2 * (i * incY) + 1))). apply perm_swap.
Qed.
Lemma conj_re {t} (m : mem t) X incX Y incY N : map fst (conj_products m Y incY X incX N) = map fst (conj_products m X incX Y incY N).
Proof.
  unfold conj_products. rewrite !zproducts_map, !flat_map_map, !map_flat. apply flat_map_ext. intros i. cbn [map fst].
  now rewrite (fmul_comm (m (Y + 2 * (i * incY)))), (fmul_comm (m (Y + 2 * (i * incY) + 1))).
Qed.
Lemma fneg_neg {t} (x : F t) : fneg (fneg x) = x. Proof. apply Bopp_involutive. Qed.
Lemma conj_im {t} (m : mem t) X incX Y incY N :
  Permutation (map snd (conj_products m Y incY X incX N)) (map fneg (map snd (conj_products m X incX Y incY N))).
Proof.
  unfold conj_products. rewrite !zproducts_map, !flat_map_map, !map_flat. apply flat_swap. intros i. cbn [map snd].
  rewrite (fmul_comm (m (Y + 2 * (i * incY)))), (fmul_comm (m (Y + 2 * (i * incY) + 1))), fneg_neg. apply perm_swap.
Qed.
Lemma plain_len {t} (m : mem t) X incX Y incY N : 0 <= N -> Z.of_nat (length (plain_products m X incX Y incY N)) = 2 * N.
Proof.
  intros HN. unfold plain_products. rewrite zproducts_map, flat_map_map.
  assert (L : forall l : list Z, length (flat_map (fun x => let '((xr, xi), (yr, yi)) := ((m (X + 2 * (x * incX)), m (X + 2 * (x * incX) + 1)), (m (Y + 2 * (x * incY)), m (Y + 2 * (x * incY) + 1))) in
     [(fmul xr yr, fmul xi yr); (fneg (fmul xi yi), fmul xr yi)]) l) = (2 * length l)%nat).
  { induction l as [|a l IH]; [reflexivity|]. cbn [flat_map length app]. cbn [flat_map] in IH. lia. }
  rewrite L. pose proof (zseq_length 0 N). lia.
Qed.
Lemma fin_perm {t} (xs ys : list (F t)) : Permutation xs ys -> all_finite ys = true -> all_finite xs = true.
Proof. intros HP HF. rewrite (all_finite_perm _ _ HP). exact HF. Qed.
Theorem C77_zdotu t tu tu' fold N X incX Y incY tmp tmp' (m : mem t) :
  2 <= fold <= MAXFOLD t -> tuned t tu -> tuned t tu' ->
  Z.min N (block_max tu) <= ENDURANCE t / 2 -> Z.min N (block_max tu') <= ENDURANCE t / 2 -> 0 <= 2 * N <= CAPACITY t ->
  zclear_of X incX N tmp (zbnum fold) -> zclear_of Y incY N tmp (zbnum fold) ->
  zclear_of X incX N tmp' (zbnum fold) -> zclear_of Y incY N tmp' (zbnum fold) ->
  zfinite (plain_products m X incX Y incY N) = true ->
  rzdotu tu fold N X incX Y incY tmp m = rzdotu tu' fold N Y incY X incX tmp' m.
Proof.
  intros Hf HT HT' HB HB' HN CX CY CX' CY' FX. apply andb_true_iff in FX. destruct FX as [FR FI].
  destruct (C29_rzdotu_partial t tu fold N X incX Y incY tmp 0 _ m m Hf HT HB HN CX CY (Permutation_refl _)) as [A0 A1].
  destruct (C29_rzdotu_partial t tu' fold N Y incY X incX tmp' 0 _ m m Hf HT' HB' HN CY' CX' (Permutation_refl _)) as [B0 B1].
  rewrite FR in A0. rewrite FI in A1. rewrite plain_re, FR in B0. rewrite (fin_perm _ _ (plain_im m X incX Y incY N) FI) in B1.
  assert (E : ddbconv fold 0 (sum_list fold 0 (map snd (plain_products m Y incY X incX N)) m) = ddbconv fold 0 (sum_list fold 0 (map snd (plain_products m X incX Y incY N)) m)).
  { apply sequential_perm; [exact Hf| |apply plain_im]. rewrite map_length, plain_len by lia. lia. }
  destruct (rzdotu tu fold N X incX Y incY tmp m) as [r0 r1]. destruct (rzdotu tu' fold N Y incY X incX tmp' m) as [s0 s1].
  cbn [fst snd] in *. congruence.
Qed.
Print Assumptions C77_zdotu.
(** conj(x).y against conj(y).x: the same real part; the imaginary part is the reproducible sum of the negated terms. *)
Theorem C77_zdotc t tu tu' fold N X incX Y incY tmp tmp' B (m m' : mem t) :
  2 <= fold <= MAXFOLD t -> tuned t tu -> tuned t tu' ->
  Z.min N (block_max tu) <= ENDURANCE t / 2 -> Z.min N (block_max tu') <= ENDURANCE t / 2 -> 0 <= 2 * N <= CAPACITY t ->
  zclear_of X incX N tmp (zbnum fold) -> zclear_of Y incY N tmp (zbnum fold) ->
  zclear_of X incX N tmp' (zbnum fold) -> zclear_of Y incY N tmp' (zbnum fold) ->
  zfinite (conj_products m X incX Y incY N) = true ->
  let r := rzdotc tu fold N X incX Y incY tmp m in let r' := rzdotc tu' fold N Y incY X incX tmp' m in
  let terms := map snd (conj_products m X incX Y incY N) in
  fst r = fst r' /\ snd r = ddbconv fold B (sum_list fold B terms m') /\ snd r' = ddbconv fold B (sum_list fold B (map fneg terms) m').
Proof.
  intros Hf HT HT' HB HB' HN CX CY CX' CY' FX r r' terms. apply andb_true_iff in FX. destruct FX as [FR FI].
  destruct (C29_rzdotc_partial t tu fold N X incX Y incY tmp B _ m m' Hf HT HB HN CX CY (Permutation_refl _)) as [A0 A1].
  destruct (C29_rzdotc_partial t tu' fold N Y incY X incX tmp' B _ m m' Hf HT' HB' HN CY' CX' (Permutation_refl _)) as [B0 B1].
  fold r in A0, A1. fold r' in B0, B1. rewrite FR in A0. rewrite FI in A1. rewrite conj_re, FR in B0.
  assert (FN : all_finite (map fneg terms) = true) by (rewrite all_finite_neg; exact FI).
  rewrite (fin_perm _ _ (conj_im m X incX Y incY N) FN) in B1.
  split; [congruence|]. split; [exact A1|]. rewrite B1. apply sequential_perm; [exact Hf| |apply conj_im].
  rewrite map_length. pose proof (plain_len m Y incY X incX N ltac:(lia)) as L.
  assert (EL : length (conj_products m Y incY X incX N) = length (plain_products m Y incY X incX N)).
  { unfold conj_products, plain_products. generalize (combine (zread m Y incY N) (zread m X incX N)). intros l. induction l as [|((?,?),(?,?)) l IH]; [reflexivity|]. cbn [flat_map length app]. now rewrite IH. }
  rewrite EL. lia.
Qed.
Print Assumptions C77_zdotc.

(** ** Matrix products *)
Lemma start_adds t fold T beta y xs xs' (m m' : mem t) : 2 <= fold <= MAXFOLD t -> Z.of_nat (length xs) + 1 <= CAPACITY t -> Permutation xs xs' ->
  ddbconv fold T (add_list fold T xs (start fold T beta y m)) = ddbconv fold T (add_list fold T xs' (start fold T beta y m')).
Proof.
  intros Hf HC HP. rewrite CAPACITY_eq in HC. pose proof (Permutation_length HP) as LP.
  destruct (start_holds fold Hf T beta y m) as [S1 _]. destruct (start_holds fold Hf T beta y m') as [S2 _].
  assert (LS : (length (started beta y) <= 1)%nat) by (unfold started; destruct (feq beta fzero); cbn [length]; lia).
  destruct (add_list_holds fold Hf T xs _ _ _ S1) as [R1 _]; [rewrite app_length; lia|].
  destruct (add_list_holds fold Hf T xs' _ _ _ S2) as [R2 _]; [rewrite app_length; lia|].
  refine (conv_acc fold Hf [] _ [] _ _ _ _ _ (perm_nil _) _ R1 R2). apply Permutation_app_tail. rewrite <- !Permutation_rev. exact HP.
Qed.
(** alpha = 1: (op(A) op(B))^T computed as op(B)^T op(A)^T, in any storage orders and transposition flags, has the same bits. *)
Theorem C77_gemm t tu tu' b b' fold Order Order' TA TB TA' TB' M N K (alpha beta : F t)
    A lda B ldb C ldc CI bufA bufB A' lda' B' ldb' C' ldc' CI' bufA' bufB' (m m' : mem t) :
  2 <= fold <= MAXFOLD t -> tuned t tu -> tuned t tu' -> legal_gemm b -> legal_gemm b' -> 0 < M -> 0 < N -> 0 <= K -> K + 1 <= CAPACITY t ->
  feq alpha (mkf 1 0) = true ->
  let ldi := if is_row Order then N else M in let ldi' := if is_row Order' then M else N in
  gemm_layout fold Order TA TB M N K A lda B ldb CI ldi bufA (bufA_len b M K) bufB (mxt_block b * myt_block b) -> ldi <= ldc ->
  gemm_layout fold Order' TB' TA' N M K B' ldb' A' lda' CI' ldi' bufA' (bufA_len b' N K) bufB' (mxt_block b' * myt_block b') -> ldi' <= ldc' ->
  (forall i j, 0 <= i < M -> 0 <= j < N ->
     ~ gemm_touched fold Order M N CI ldi bufA (bufA_len b M K) bufB (mxt_block b * myt_block b) (elem_addr Order C ldc i j) /\
     ~ gemm_touched fold Order' N M CI' ldi' bufA' (bufA_len b' N K) bufB' (mxt_block b' * myt_block b') (elem_addr Order' C' ldc' j i)) ->
  (* the second call gets the transposes of op(A), op(B) and C *)
  (forall i k, 0 <= i < M -> 0 <= k < K -> m' (op_addr Order' TA' A' lda' k i) = m (op_addr Order TA A lda i k)) ->
  (forall k j, 0 <= k < K -> 0 <= j < N -> m' (op_addr Order' TB' B' ldb' j k) = m (op_addr Order TB B ldb k j)) ->
  (forall i j, 0 <= i < M -> 0 <= j < N -> m' (elem_addr Order' C' ldc' j i) = m (elem_addr Order C ldc i j)) ->
  (forall i j, 0 <= i < M -> 0 <= j < N -> all_finite (gemm_products m Order TA TB A lda alpha B ldb K i j) = true) ->
  forall i j, 0 <= i < M -> 0 <= j < N ->
  rdgemm tu b fold Order TA TB M N K alpha A lda B ldb beta C ldc CI bufA bufB m (elem_addr Order C ldc i j) =
  rdgemm tu' b' fold Order' TB' TA' N M K alpha B' ldb' A' lda' beta C' ldc' CI' bufA' bufB' m' (elem_addr Order' C' ldc' j i).
Proof.
  intros Hf HT HT' LG LG' HM HN HK HC H1 ldi ldi' LY NY LY' NY' HY EA EB EC FX i j Hi Hj.
  assert (PP : forall i j, 0 <= i < M -> 0 <= j < N -> gemm_products m' Order' TB' TA' B' ldb' alpha A' lda' K j i = gemm_products m Order TA TB A lda alpha B ldb K i j).
  { intros i1 j1 Hi1 Hj1. unfold gemm_products. apply map_ext_in. intros k Hk. apply zseq_In in Hk. rewrite !(fmul_one _ alpha) by exact H1.
    rewrite EA, EB by lia. apply fmul_comm. }
  destruct (C25_gemm t tu b fold Order TA TB M N K alpha beta A lda B ldb C ldc CI bufA bufB 0 m Hf HT LG HM HN HK LY NY (fun i j Hi Hj => proj1 (HY i j Hi Hj)) HC FX) as [R _].
  destruct (C25_gemm t tu' b' fold Order' TB' TA' N M K alpha beta B' ldb' A' lda' C' ldc' CI' bufA' bufB' 0 m' Hf HT' LG' HN HM HK LY' NY' (fun j i Hj Hi => proj2 (HY i j Hi Hj)) HC) as [R' _].
  { intros j1 i1 Hj1 Hi1. rewrite PP by assumption. now apply FX. }
  rewrite (R i j Hi Hj), (R' j i Hj Hi). cbv zeta. rewrite PP, EC by assumption. apply start_adds; [exact Hf| |apply Permutation_refl].
  destruct (feq alpha fzero); [cbn [length]; rewrite CAPACITY_eq in *; lia|]. unfold gemm_products. rewrite map_length. pose proof (zseq_length 0 K). lia.
Qed.
Print Assumptions C77_gemm.
(** alpha = 1: a matrix-vector product is a matrix-matrix product with one column. *)
Theorem C77_gemv_gemm t tu tu' b b' fold Order Order' Trans TA' TB' M N (alpha beta : F t)
    A lda X incX Y incY YI bufX bufA A' lda' B' ldb' C' ldc' CI' bufA' bufB' (m m' : mem t) :
  2 <= fold <= MAXFOLD t -> tuned t tu -> tuned t tu' -> legal_gemv b -> legal_gemm b' -> 0 < M -> 0 < N ->
  feq alpha (mkf 1 0) = true ->
  let rows := op_rows Trans M N in let cols := op_cols Trans M N in let ldi' := if is_row Order' then 1 else rows in
  cols + 1 <= CAPACITY t -> incY <> 0 -> ldi' <= ldc' ->
  gemv_layout fold Order Trans rows cols A lda X incX YI 1 bufX bufA (xt_block b * yt_block b) ->
  gemm_layout fold Order' TA' TB' rows 1 cols A' lda' B' ldb' CI' ldi' bufA' (bufA_len b' rows cols) bufB' (mxt_block b' * myt_block b') ->
  (forall i, 0 <= i < rows -> ~ gemv_touched fold rows YI 1 bufX cols bufA (xt_block b * yt_block b) (Y + i * incY) /\
     ~ gemm_touched fold Order' rows 1 CI' ldi' bufA' (bufA_len b' rows cols) bufB' (mxt_block b' * myt_block b') (elem_addr Order' C' ldc' i 0)) ->
  (* the same matrix, vector and starting values *)
  (forall i k, 0 <= i < rows -> 0 <= k < cols -> m' (op_addr Order' TA' A' lda' i k) = m (op_addr Order Trans A lda i k)) ->
  (forall k, 0 <= k < cols -> m' (op_addr Order' TB' B' ldb' k 0) = m (X + k * incX)) ->
  (forall i, 0 <= i < rows -> m' (elem_addr Order' C' ldc' i 0) = m (Y + i * incY)) ->
  (forall i, 0 <= i < rows -> all_finite (gemv_products m Order Trans A lda alpha X incX cols i) = true) ->
  forall i, 0 <= i < rows ->
  rdgemv tu b fold Order Trans M N alpha A lda X incX beta Y incY YI bufX bufA m (Y + i * incY) =
  rdgemm tu' b' fold Order' TA' TB' rows 1 cols alpha A' lda' B' ldb' beta C' ldc' CI' bufA' bufB' m' (elem_addr Order' C' ldc' i 0).
Proof.
  intros Hf HT HT' LG LG' HM HN H1 rows cols ldi' HC HI NY' LY LY' HY EA EX EC FX i Hi.
  assert (R0 : 0 < rows /\ 0 < cols) by (unfold rows, cols, op_rows, op_cols; destruct (is_notrans Trans); lia). destruct R0 as [R0 C0].
  assert (PP : forall i j, 0 <= i < rows -> 0 <= j < 1 -> gemm_products m' Order' TA' TB' A' lda' alpha B' ldb' cols i j = gemv_products m Order Trans A lda alpha X incX cols i).
  { intros i1 j1 Hi1 Hj1. replace j1 with 0 by lia. unfold gemm_products, gemv_products. apply map_ext_in. intros k Hk. apply zseq_In in Hk.
    rewrite !(fmul_one _ alpha) by exact H1. now rewrite EA, EX by lia. }
  destruct (C25_gemv t tu b fold Order Trans M N alpha beta A lda X incX Y incY YI bufX bufA 0 m Hf HT LG HM HN LY HI (fun i Hi => proj1 (HY i Hi)) HC FX) as [R _].
  destruct (C25_gemm t tu' b' fold Order' TA' TB' rows 1 cols alpha beta A' lda' B' ldb' C' ldc' CI' bufA' bufB' 0 m' Hf HT' LG' R0 ltac:(lia) ltac:(lia) LY' NY') as [R' _].
  { intros i1 j1 Hi1 Hj1. replace j1 with 0 by lia. exact (proj2 (HY i1 Hi1)). }
  { exact HC. }
  { intros i1 j1 Hi1 Hj1. rewrite PP by assumption. now apply FX. }
  rewrite (R i Hi), (R' i 0 Hi ltac:(lia)). cbv zeta. fold cols. rewrite PP, EC by lia. apply start_adds; [exact Hf| |apply Permutation_refl].
  destruct (feq alpha fzero); [cbn [length]; rewrite CAPACITY_eq in *; lia|]. unfold gemv_products. rewrite map_length. pose proof (zseq_length 0 cols). lia.
Qed.
Print Assumptions C77_gemv_gemm.

(** ** Limits *)
(** conj(y).x is not always the conjugate of conj(x).y: the conversion does not commute with negation (C70). *)
Definition skew_z : mem Dbl := fun a =>
  if (0 <=? a) && (a <? 6) then (if Z.odd a then skew (a / 2) else fzero)
  else if (10 <=? a) && (a <? 16) then (if Z.odd a then fzero else mkf 1 0) else fzero.
Theorem C77_zdotc_refuted :
  exists (tu : tuning) (fold N X Y tmp : Z) (m : mem Dbl),
    2 <= fold <= MAXFOLD Dbl /\ tuned Dbl tu /\ N <= ENDURANCE Dbl / 2 /\ zclear_of X 1 N tmp (zbnum fold) /\ zclear_of Y 1 N tmp (zbnum fold) /\
    zfinite (conj_products m X 1 Y 1 N) = true /\
    toZ (snd (rzdotc tu fold N X 1 Y 1 tmp m)) <> - toZ (snd (rzdotc tu fold N Y 1 X 1 tmp m)).
Proof.
  exists sample_tuning, 3, 3, 0, 10, 100, skew_z. split; [vm_compute; intuition discriminate|]. split; [exact (proj1 C18_case)|].
  split; [vm_compute; discriminate|]. split; [intros i o Hi Ho; unfold zbnum; lia|]. split; [intros i o Hi Ho; unfold zbnum; lia|].
  split; [vm_compute; reflexivity|]. vm_compute. discriminate.
Qed.
Print Assumptions C77_zdotc_refuted.
(** With another alpha the product is rounded after scaling the first operand (matrix-matrix) or the vector (matrix-vector), so neither
    transposing nor using one column keeps the bits: 1 by 1 matrices a, b, c = 0. *)
Definition two_cells (a b : F Dbl) : mem Dbl := fun x => if x =? 0 then a else if x =? 10 then b else fzero.
Definition tenth : F Dbl := mkf 3602879701896397 (-55).
Definition one_gemm (Order : ascii) (alpha : F Dbl) (A B : Z) (m : mem Dbl) : F Dbl :=
  rdgemm sample_tuning sample_mblocks 3 Order "n" "n" 1 1 1 alpha A 1 B 1 fzero 20 1 100 200 300 m 20.
Definition one_gemv (alpha : F Dbl) (A X : Z) (m : mem Dbl) : F Dbl :=
  rdgemv sample_tuning sample_blocks 3 "r" "n" 1 1 alpha A 1 X 1 fzero 20 1 100 200 300 m 20.
Theorem C77_alpha_refuted : exists (alpha a b : F Dbl), is_finite alpha = true /\ is_finite a = true /\ is_finite b = true /\
  let m := two_cells a b in
  feq (one_gemm "r" alpha 0 10 m) (one_gemm "c" alpha 10 0 m) = false /\
  feq (one_gemm "r" alpha 0 10 m) (one_gemv alpha 0 10 m) = false.
Proof. exists tenth, (mkf 3 0), (mkf 7 0). split; [|split; [|split]]; vm_compute; auto. Qed.
Print Assumptions C77_alpha_refuted.

(** ** Cases: dot products of strided data, a 2 by 3 by 4 product against its transpose in the other order *)
Lemma clear_z fold X inc n tmp : 0 <= X -> 0 <= inc -> X + 2 * (n * inc) + 1 < tmp -> zclear_of X inc n tmp (zbnum fold).
Proof. intros H1 H2 H3 i o Hi Ho. assert (i * inc <= n * inc) by (apply Z.mul_le_mono_nonneg_r; lia). assert (0 <= i * inc) by (apply Z.mul_nonneg_nonneg; lia). lia. Qed.
Example C77_case :
  rddot sample_tuning 3 5 0 3 100 2 5000 sample_mem = rddot half_tuning 3 5 100 2 0 3 6000 sample_mem /\
  Z.shiftr (toZ (rddot sample_tuning 3 5 0 3 100 2 5000 sample_mem)) 1074 <> 0 /\
  rzdotu sample_tuning 3 2 0 1 10 1 100 zdot_mem = rzdotu half_tuning 3 2 10 1 0 1 200 zdot_mem /\
  fst (rzdotc sample_tuning 3 2 0 1 10 1 100 zdot_mem) = fst (rzdotc half_tuning 3 2 10 1 0 1 200 zdot_mem).
Proof.
  destruct C29_case as (HT & _). split; [|split; [|split]].
  - apply C77_dot; try (vm_compute; intuition discriminate); try exact HT; try exact (proj1 C18_case); try (apply clear_low; lia).
  - vm_compute. discriminate.
  - apply C77_zdotu; try (vm_compute; intuition discriminate); try exact HT; try exact (proj1 C18_case); try (apply clear_z; lia).
  - refine (proj1 (C77_zdotc Dbl sample_tuning half_tuning 3 2 0 1 10 1 100 200 0 zdot_mem zdot_mem _ _ _ _ _ _ _ _ _ _ _));
      try (vm_compute; intuition discriminate); try exact HT; try exact (proj1 C18_case); try (apply clear_z; lia).
Qed.
Lemma other_order Trans A ld i j : op_addr "c" Trans A ld j i = op_addr "r" Trans A ld i j.
Proof. unfold op_addr, elem_addr. change (is_row "c") with false. change (is_row "r") with true. destruct (is_notrans Trans); reflexivity. Qed.
Example C77_gemm_case TA TB : In TA ["N"; "t"]%char -> In TB ["n"; "T"]%char -> forall i j, 0 <= i < 2 -> 0 <= j < 3 ->
  rdgemm sample_tuning sample_mblocks 3 "r" TA TB 2 3 4 (mkf 1 0) 0 6 100 6 (mkf (-3) 0) 200 4 1000 2000 3000 sample_mem (elem_addr "r" 200 4 i j) =
  rdgemm half_tuning sample_mblocks 3 "c" TB TA 3 2 4 (mkf 1 0) 100 6 0 6 (mkf (-3) 0) 200 4 1000 2000 3000 sample_mem (elem_addr "c" 200 4 j i).
Proof.
  intros HA HB. destruct C24_case as (LG & LY & _ & TO & _). destruct C29_case as (HT & _).
  assert (E1 : bufA_len sample_mblocks 3 4 = 12) by reflexivity.
  assert (E2 : mxt_block sample_mblocks * myt_block sample_mblocks = 4) by reflexivity.
  assert (CA : forall i j, 0 <= i < 3 -> 0 <= j < 2 -> 1000 <= c_at 3 "c" 1000 3 i j <= 1030).
  { intros i j Hi Hj. unfold c_at, dbnum. change (is_row "c") with false. cbv iota. lia. }
  refine (C77_gemm Dbl sample_tuning half_tuning sample_mblocks sample_mblocks 3 "r" "c" TA TB TA TB 2 3 4 (mkf 1 0) (mkf (-3) 0)
    0 6 100 6 200 4 1000 2000 3000 0 6 100 6 200 4 1000 2000 3000 sample_mem sample_mem _ (proj1 C18_case) HT LG LG eq_refl eq_refl _ _ _ _ _ _ _ _ _ _ _ _).
  - vm_compute; intuition discriminate.
  - lia.
  - vm_compute; discriminate.
  - vm_compute; reflexivity.
  - apply LY.
  - vm_compute; discriminate.
  - change (if is_row "c" then 2 else 3) with 3. rewrite E1, E2.
    unfold gemm_layout, gemm_touched, within. split; [change (is_row "c") with false; cbv iota; lia|]. split; [|split; [|split]].
    + intros i k Hi Hk. assert (OA : 100 <= op_addr "c" TB 100 6 i k < 130) by (unfold op_addr, elem_addr; destruct (is_row "c"), (is_notrans TB); lia).
      intros [(r & s & Hr & Hs & H)|[H|H]]; try lia. specialize (CA r s Hr Hs). unfold dbnum in H. lia.
    + intros k j Hk Hj. assert (OA : 0 <= op_addr "c" TA 0 6 k j < 30) by (unfold op_addr, elem_addr; destruct (is_row "c"), (is_notrans TA); lia).
      intros [(r & s & Hr & Hs & H)|[H|H]]; try lia. specialize (CA r s Hr Hs). unfold dbnum in H. lia.
    + intros; lia.
    + intros a i j Ha Hi Hj. specialize (CA i j Hi Hj). unfold dbnum. lia.
  - vm_compute; discriminate.
  - intros i j Hi Hj. split; [exact (TO "r"%char i j Hi Hj)|]. change (if is_row "c" then 2 else 3) with 3. rewrite E1, E2.
    assert (OA : 200 <= elem_addr "c" 200 4 j i < 220) by (unfold elem_addr; destruct (is_row "c"); lia).
    unfold gemm_touched, within. intros [(r & s & Hr & Hs & H)|[H|H]]; try lia. specialize (CA r s Hr Hs). unfold dbnum in H. lia.
  - intros i k Hi Hk. now rewrite other_order.
  - intros k j Hk Hj. now rewrite other_order.
  - intros i j Hi Hj. reflexivity.
  - intros i j Hi. revert i Hi j. destruct HA as [<-|[<-|[]]], HB as [<-|[<-|[]]]; refine (below2 _ _ _); refine (below3 _ _ _ _); vm_compute; reflexivity.
Qed.
Example C77_gemv_case : forall i, 0 <= i < 3 ->
  rdgemv sample_tuning sample_blocks 3 "r" "N" 3 5 (mkf 1 0) 0 6 100 2 (mkf (-3) 0) 900 10 1000 2000 3000 sample_mem (900 + i * 10) =
  rdgemm half_tuning sample_mblocks 3 "r" "N" "N" 3 1 5 (mkf 1 0) 0 6 100 2 (mkf (-3) 0) 900 10 1000 2000 3000 sample_mem (elem_addr "r" 900 10 i 0).
Proof.
  destruct C24_case as (LG & _). destruct C29_case as (HT & _). destruct C23_case as (LB & LY & _).
  assert (E1 : bufA_len sample_mblocks 3 5 = 15) by reflexivity.
  assert (E2 : mxt_block sample_mblocks * myt_block sample_mblocks = 4) by reflexivity.
  assert (CA : forall i j, 0 <= i < 3 -> 0 <= j < 1 -> 1000 <= c_at 3 "r" 1000 1 i j <= 1020).
  { intros i j Hi Hj. unfold c_at, dbnum. change (is_row "r") with true. cbv iota. lia. }
  refine (C77_gemv_gemm Dbl sample_tuning half_tuning sample_blocks sample_mblocks 3 "r" "r" "N" "N" "N" 3 5 (mkf 1 0) (mkf (-3) 0)
    0 6 100 2 900 10 1000 2000 3000 0 6 100 2 900 10 1000 2000 3000 sample_mem sample_mem _ (proj1 C18_case) HT LB LG eq_refl eq_refl _ _ _ _ _ _ _ _ _ _ _);
  change (op_rows "N" 3 5) with 3; change (op_cols "N" 3 5) with 5; change (if is_row "r" then 1 else 3) with 1; rewrite ?E1, ?E2.
  - vm_compute; intuition discriminate.
  - vm_compute; reflexivity.
  - vm_compute; discriminate.
  - lia.
  - lia.
  - apply LY.
  - unfold gemm_layout, gemm_touched, within. split; [change (is_row "r") with true; cbv iota; lia|]. split; [|split; [|split]].
    + intros i k Hi Hk. assert (OA : 0 <= op_addr "r" "N" 0 6 i k < 30) by (unfold op_addr, elem_addr; destruct (is_row "r"), (is_notrans "N"); lia).
      intros [(r & s & Hr & Hs & H)|[H|H]]; try lia. specialize (CA r s Hr Hs). unfold dbnum in H. lia.
    + intros k j Hk Hj. assert (OA : 100 <= op_addr "r" "N" 100 2 k j < 130) by (unfold op_addr, elem_addr; destruct (is_row "r"), (is_notrans "N"); lia).
      intros [(r & s & Hr & Hs & H)|[H|H]]; try lia. specialize (CA r s Hr Hs). unfold dbnum in H. lia.
    + intros; lia.
    + intros a i j Ha Hi Hj. specialize (CA i j Hi Hj). unfold dbnum. lia.
  - intros i Hi. split; [exact (proj1 (proj2 C25_case) i Hi)|].
    assert (OA : elem_addr "r" 900 10 i 0 = 900 + i * 10) by (unfold elem_addr; change (is_row "r") with true; cbv iota; lia). rewrite OA.
    unfold gemm_touched, within. intros [(r & s & Hr & Hs & H)|[H|H]]; try lia. specialize (CA r s Hr Hs). unfold dbnum in H. lia.
  - intros i k Hi Hk. reflexivity.
  - intros k Hk. f_equal. unfold op_addr, elem_addr. change (is_row "r") with true. change (is_notrans "N") with true. cbv iota. lia.
  - intros i Hi. f_equal. unfold elem_addr. change (is_row "r") with true. cbv iota. lia.
  - apply below3; vm_compute; reflexivity.
Qed.
