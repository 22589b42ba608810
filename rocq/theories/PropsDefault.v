(** * C53: the routines without a fold argument (reproBLAS_dsum, _ddot, ...) *)
From Coq Require Import ZArith Bool List Lia Permutation Ascii.
From Flocq Require Import Core BinarySingleNaN.
From Verif Require Import Fp Mem Binned Spec SpecProofs AccProofs SumProofs ComplexProofs PropsComplex Client History ClientProofs PropsSum PropsAcc Gen GenProofs Blas BlasSpec PropsBlas Gemv GemvSpec GemvProofs PropsGemv BlasZ BlasZSpec PropsBlasZ Ssq SsqSpec PropsSsq BlasDZ BlasDZSpec PropsBlasDZ PropsApi GemvZ GemvZSpec PropsGemvZ PropsGemmZ Defaults.
Import ListNotations.
Open Scope Z_scope.

Lemma default_ok t : 2 <= default_fold t <= MAXFOLD t.
Proof. destruct t; vm_compute; split; discriminate. Qed.
Lemma default_ssq t : 2 <= default_fold t <= ssq_fold t.
Proof. destruct t; vm_compute; split; discriminate. Qed.

(** The accumulators of these functions have 2 * 3 (real) or 4 * 3 (complex) words. *)
Theorem C53_sum t tu tu' N X incX X' incX' tmp tmp' (m m' : mem t) :
  tuned t tu -> tuned t tu' -> 0 <= N <= CAPACITY t -> clear_of X incX N tmp 6 -> clear_of X' incX' N tmp' 6 ->
  all_finite (read m X incX N) = true -> Permutation (read m X incX N) (read m' X' incX' N) ->
  dsum tu N X incX tmp m = dsum tu' N X' incX' tmp' m' /\
  dasum tu N X incX tmp m = dasum tu' N X' incX' tmp' m' /\
  dsum tu N X incX tmp m = ddbconv 3 0 (sum_list 3 0 (read m' X' incX' N) (fun _ => fzero)).
Proof.
  intros HT HT' HN C C' FX HP. pose proof (default_ok t) as D.
  assert (C1 : clear_of X incX N tmp (dbnum (default_fold t))) by (destruct t; exact C).
  assert (C1' : clear_of X' incX' N tmp' (dbnum (default_fold t))) by (destruct t; exact C').
  assert (FM : all_finite (magnitudes m X incX N) = true) by (unfold magnitudes; now rewrite SsqProofs.all_finite_fabs).
  assert (FX' : all_finite (read m' X' incX' N) = true) by (now rewrite <- (all_finite_perm _ _ HP)).
  split; [|split].
  - now apply (C20_order_independent t tu tu' (default_fold t)).
  - apply (C21_rdasum t tu tu' (default_fold t)); auto. now apply Permutation_map.
  - unfold dsum. rewrite (C20_order_independent t tu tu' (default_fold t) N X incX X' incX' tmp tmp' m m' D HT HT' HN C1 C1' FX HP).
    rewrite (C20_is_scalar_sum t tu' (default_fold t) N X' incX' tmp' 0 m' (fun _ => fzero) D HT' HN C1' FX'). destruct t; reflexivity.
Qed.
Print Assumptions C53_sum.
Theorem C53_dot t tu tu' N X incX Y incY X' incX' Y' incY' tmp tmp' (m m' : mem t) :
  tuned t tu -> tuned t tu' -> 0 <= N <= CAPACITY t ->
  clear_of X incX N tmp 6 -> clear_of Y incY N tmp 6 -> clear_of X' incX' N tmp' 6 -> clear_of Y' incY' N tmp' 6 ->
  all_finite (products m X incX Y incY N) = true ->
  Permutation (combine (read m X incX N) (read m Y incY N)) (combine (read m' X' incX' N) (read m' Y' incY' N)) ->
  ddot tu N X incX Y incY tmp m = ddot tu' N X' incX' Y' incY' tmp' m'.
Proof.
  intros HT HT' HN C1 C2 C3 C4 FX HP. apply (C21_dot_permutation t tu tu' (default_fold t)); auto using default_ok; destruct t; assumption.
Qed.
Print Assumptions C53_dot.
Theorem C53_nrm2 t tu tu' N X incX X' incX' tmp tmp' (m m' : mem t) :
  tuned t tu -> tuned t tu' -> 0 <= N <= CAPACITY t -> clear_of X incX N tmp 6 -> clear_of X' incX' N tmp' 6 ->
  Permutation (read m X incX N) (read m' X' incX' N) ->
  dnrm2 tu N X incX tmp m = dnrm2 tu' N X' incX' tmp' m'.
Proof.
  intros HT HT' HN C1 C2 HP. apply (C42_rdnrm2 t tu tu' (default_fold t)); auto using default_ssq; destruct t; assumption.
Qed.
Print Assumptions C53_nrm2.
(** Complex data apart from the library's accumulators (Y, A, B stand for its automatic and allocated arrays). *)
Definition complex_layout (N X incX Y A B : Z) : Prop :=
  zclear_of X incX N Y 12 /\ zclear_of X incX N A 12 /\ blocks_apart A 12 Y 12 /\ blocks_apart B 12 Y 12 /\ blocks_apart A 12 B 12.
Lemma complex_nrm t N X incX Y A B : complex_layout N X incX Y A B -> nrm_layout (default_fold t) N X incX Y A B.
Proof.
  intros (H1 & H2 & H3 & H4 & H5). assert (E : nrm_layout 3 N X incX Y A B).
  { unfold nrm_layout, dbnum, zbnum. change (2 * 3) with 6. change (4 * 3) with 12. change (2 * 6) with 12.
    split; [intros i Hi|]. { specialize (H1 i Hi). lia. } unfold blocks_apart in *. repeat split; auto; lia. }
  destruct t; exact E.
Qed.
Theorem C53_complex t tu tu' N X incX X' incX' Y Y' A A' B B' (m m' : mem t) :
  tuned t tu -> tuned t tu' -> 0 <= 2 * N <= CAPACITY t ->
  complex_layout N X incX Y A B -> complex_layout N X' incX' Y' A' B' ->
  Permutation (zread m X incX N) (zread m' X' incX' N) ->
  (zfinite (zread m X incX N) = true -> zsum tu N X incX Y m = zsum tu' N X' incX' Y' m') /\
  dzasum tu N X incX Y A m = dzasum tu' N X' incX' Y' A' m' /\
  dznrm2 tu N X incX Y A B m = dznrm2 tu' N X' incX' Y' A' B' m'.
Proof.
  intros HT HT' HN L L' HP. pose proof (complex_nrm t _ _ _ _ _ _ L) as NL. pose proof (complex_nrm t _ _ _ _ _ _ L') as NL'.
  pose proof (default_ok t) as D. pose proof (default_ssq t) as DS.
  assert (PC : Permutation (components m X incX N) (components m' X' incX' N)) by (unfold components; now apply Permutation_flat_map).
  destruct NL as (N1 & N2 & N3 & N4 & N5) eqn:EN. destruct NL' as (N1' & N2' & N3' & N4' & N5') eqn:EN'.
  split; [|split].
  - intros FX. apply (C46_order_independent t tu tu' (default_fold t)); auto; try lia.
    + destruct L as [L _]. destruct t; exact L.
    + destruct L' as [L' _]. destruct t; exact L'.
  - apply (C48_order_independent t tu tu' (default_fold t)); auto.
  - apply (C49_order_independent t tu tu' (default_fold t)); auto.
Qed.
Print Assumptions C53_complex.
(** ** What each routine computes: the 3-fold sum of its own summands *)
Theorem C53_values t tu N X incX Y incY tmp B (m m' : mem t) :
  tuned t tu -> 0 <= N <= CAPACITY t -> clear_of X incX N tmp 6 -> clear_of Y incY N tmp 6 ->
  (all_finite (magnitudes m X incX N) = true -> dasum tu N X incX tmp m = ddbconv 3 B (sum_list 3 B (magnitudes m X incX N) m')) /\
  (all_finite (products m X incX Y incY N) = true -> ddot tu N X incX Y incY tmp m = ddbconv 3 B (sum_list 3 B (products m X incX Y incY N) m')).
Proof.
  intros HT HN C1 C2. pose proof (default_ok t) as D. assert (D3 : default_fold t = 3) by (destruct t; reflexivity).
  unfold dasum, ddot. rewrite D3 in *. split; intros FX; [now apply rdasum_value|now apply rddot_value].
Qed.
Print Assumptions C53_values.
(** The real and the imaginary part, for the summands of a complex sum, of conj(x) . y and of x . y. *)
Definition complex_sum {t} (B : Z) (zs : list (F t * F t)) (m' : mem t) (r : F t * F t) : Prop :=
  r = (ddbconv 3 B (sum_list 3 B (map fst zs) m'), ddbconv 3 B (sum_list 3 B (map snd zs) m')).
Theorem C53_complex_values t tu N X incX Y incY tmp B (m m' : mem t) :
  tuned t tu -> Z.min N (block_max tu) <= ENDURANCE t / 2 -> 0 <= 2 * N <= CAPACITY t ->
  zclear_of X incX N tmp 12 -> zclear_of Y incY N tmp 12 ->
  (zfinite (zread m X incX N) = true -> complex_sum B (zread m X incX N) m' (zsum tu N X incX tmp m)) /\
  (zfinite (conj_products m X incX Y incY N) = true ->
     complex_sum B (conj_products m X incX Y incY N) m' (zdotc tu N X incX Y incY tmp m)) /\
  (zfinite (plain_products m X incX Y incY N) = true ->
     complex_sum B (plain_products m X incX Y incY N) m' (zdotu tu N X incX Y incY tmp m)).
Proof.
  intros HT HB HN C1 C2. pose proof (default_ok t) as D. assert (D3 : default_fold t = 3) by (destruct t; reflexivity).
  unfold complex_sum, zsum, zdotc, zdotu. rewrite D3 in *.
  split; [|split]; intros FX; apply andb_true_iff in FX; destruct FX as [FR FI].
  - destruct (C46_rzsum t tu 3 N X incX tmp B _ m m' D HT ltac:(lia) C1 (Permutation_refl _)) as [A0 A1].
    rewrite FR in A0. rewrite FI in A1. rewrite <- A0, <- A1. apply surjective_pairing.
  - destruct (C29_rzdotc_partial t tu 3 N X incX Y incY tmp B _ m m' D HT HB HN C1 C2 (Permutation_refl _)) as [A0 A1].
    rewrite FR in A0. rewrite FI in A1. rewrite <- A0, <- A1. apply surjective_pairing.
  - destruct (C29_rzdotu_partial t tu 3 N X incX Y incY tmp B _ m m' D HT HB HN C1 C2 (Permutation_refl _)) as [A0 A1].
    rewrite FR in A0. rewrite FI in A1. rewrite <- A0, <- A1. apply surjective_pairing.
Qed.
Print Assumptions C53_complex_values.
Theorem C53_dzasum t tu N X incX Y A B (m m' : mem t) :
  tuned t tu -> 0 <= 2 * N <= CAPACITY t -> zclear_of X incX N Y 6 -> zclear_of X incX N A 12 -> blocks_apart A 12 Y 6 ->
  dzasum tu N X incX Y A m = ddbconv 3 B (sum_list 3 B (map fabs (components m X incX N)) m').
Proof.
  intros HT HN C1 C2 C3. pose proof (default_ok t) as D. assert (D3 : default_fold t = 3) by (destruct t; reflexivity).
  unfold dzasum. rewrite D3 in *. now apply C48_rdzasum.
Qed.
Print Assumptions C53_dzasum.
(** ** Matrix products: the result depends on the numbers only *)
Lemma conv_started t fold T T' (beta y y' : F t) (xs xs' : list (F t)) (m m' : mem t) : 2 <= fold <= MAXFOLD t ->
  Z.of_nat (length xs) + 1 <= CAPACITY t -> (feq beta fzero = true \/ y = y') -> Permutation xs xs' ->
  ddbconv fold T (add_list fold T xs (start fold T beta y m)) = ddbconv fold T' (add_list fold T' xs' (start fold T' beta y' m')).
Proof.
  intros Hf HC HY HP. rewrite CAPACITY_eq in HC.
  destruct (start_holds fold Hf T beta y m) as [S1 _]. destruct (start_holds fold Hf T' beta y' m') as [S2 _].
  assert (L : forall z : F t, Z.of_nat (length (started beta z)) <= 1) by (intros z; unfold started; destruct (feq beta fzero); cbn [length]; lia).
  destruct (add_list_holds fold Hf T xs _ _ _ S1) as [R1 _]; [rewrite app_length; specialize (L y); lia|].
  destruct (add_list_holds fold Hf T' xs' _ _ _ S2) as [R2 _]; [rewrite app_length, <- (Permutation_length HP); specialize (L y'); lia|].
  eapply conv_acc; [exact Hf|reflexivity| |exact R1|exact R2].
  apply Permutation_app; [rewrite <- !Permutation_rev; exact HP|]. unfold started. destruct HY as [H|<-]; [rewrite H|]; reflexivity.
Qed.
(** What dgemv works on: the layout and the block sizes in the file are legal, the entries of op(A)*x*alpha finite. *)
Definition gemv_call {t} (tu : tuning) (b : gemv_blocks) (Order Trans : ascii) (M N : Z) (alpha : F t) (A lda X incX Y incY YI bufX bufA : Z) (m : mem t) : Prop :=
  let rows := op_rows Trans M N in let cols := op_cols Trans M N in let lenA := xt_block b * yt_block b in
  tuned t tu /\ legal_gemv b /\ 0 < M /\ 0 < N /\ gemv_layout 3 Order Trans rows cols A lda X incX YI 1 bufX bufA lenA /\ incY <> 0 /\
  (forall i, 0 <= i < rows -> ~ gemv_touched 3 rows YI 1 bufX cols bufA lenA (Y + i * incY)) /\ cols + 1 <= CAPACITY t /\
  (forall i, 0 <= i < rows -> all_finite (gemv_products m Order Trans A lda alpha X incX cols i) = true).
(** Row i of op(A) paired with x. *)
Definition row_pairs {t} (m : mem t) (Order Trans : ascii) (A lda X incX cols i : Z) : list (F t * F t) :=
  map (fun j => (m (op_addr Order Trans A lda i j), m (X + j * incX))) (zseq 0 cols).
Theorem C53_gemv t tu tu' b b' Order Order' Trans Trans' M N M' N' (alpha beta : F t) A A' lda lda' X X' incX incX' Y Y' incY incY'
    YI YI' bufX bufX' bufA bufA' (m m' : mem t) :
  gemv_call tu b Order Trans M N alpha A lda X incX Y incY YI bufX bufA m ->
  gemv_call tu' b' Order' Trans' M' N' alpha A' lda' X' incX' Y' incY' YI' bufX' bufA' m' ->
  op_rows Trans M N = op_rows Trans' M' N' ->
  (forall i, 0 <= i < op_rows Trans M N ->
     Permutation (row_pairs m Order Trans A lda X incX (op_cols Trans M N) i) (row_pairs m' Order' Trans' A' lda' X' incX' (op_cols Trans' M' N') i) /\
     (feq beta fzero = true \/ m (Y + i * incY) = m' (Y' + i * incY'))) ->
  forall i, 0 <= i < op_rows Trans M N ->
  dgemv tu b Order Trans M N alpha A lda X incX beta Y incY YI bufX bufA m (Y + i * incY) =
  dgemv tu' b' Order' Trans' M' N' alpha A' lda' X' incX' beta Y' incY' YI' bufX' bufA' m' (Y' + i * incY').
Proof.
  intros (T1 & L1 & M1 & N1 & Y1 & I1 & C1 & K1 & F1) (T2 & L2 & M2 & N2 & Y2 & I2 & C2 & K2 & F2) ER HP i Hi.
  unfold dgemv. pose proof (default_ok t) as D. assert (D3 : default_fold t = 3) by (destruct t; reflexivity). rewrite D3 in *.
  destruct (C25_gemv t tu b 3 Order Trans M N alpha beta A lda X incX Y incY YI bufX bufA 0 m D T1 L1 M1 N1 Y1 I1 C1 K1 F1) as [G1 _].
  destruct (C25_gemv t tu' b' 3 Order' Trans' M' N' alpha beta A' lda' X' incX' Y' incY' YI' bufX' bufA' 0 m' D T2 L2 M2 N2 Y2 I2 C2 K2 F2) as [G2 _].
  rewrite (G1 i Hi), (G2 i ltac:(lia)). cbv zeta. destruct (HP i Hi) as [P B].
  assert (PG : forall (mm : mem t) O Tr AA ld XX inc cc, gemv_products mm O Tr AA ld alpha XX inc cc i =
    map (fun p => fmul (fst p) (fmul (snd p) alpha)) (row_pairs mm O Tr AA ld XX inc cc i)) by (intros; unfold row_pairs; rewrite map_map; reflexivity).
  apply conv_started; auto.
  - destruct (feq alpha fzero); [cbn [length]; destruct t; vm_compute; discriminate|]. unfold gemv_products. rewrite map_length, GenProofs.zseq_length.
    assert (0 < op_cols Trans M N) by (unfold op_cols; destruct (is_notrans Trans); lia). lia.
  - destruct (feq alpha fzero); [reflexivity|]. rewrite !PG. apply Permutation_map. exact P.
Qed.
Print Assumptions C53_gemv.
Definition gemm_call {t} (tu : tuning) (b : gemm_blocks) (Order TransA TransB : ascii) (M N K : Z) (alpha : F t) (A lda B ldb C ldc CI bufA bufB : Z) (m : mem t) : Prop :=
  let ldi := if is_row Order then N else M in let lenA := bufA_len b M K in let lenB := mxt_block b * myt_block b in
  tuned t tu /\ legal_gemm b /\ gemm_layout 3 Order TransA TransB M N K A lda B ldb CI ldi bufA lenA bufB lenB /\ ldi <= ldc /\
  (forall i j, 0 <= i < M -> 0 <= j < N -> ~ gemm_touched 3 Order M N CI ldi bufA lenA bufB lenB (elem_addr Order C ldc i j)) /\
  K + 1 <= CAPACITY t /\
  (forall i j, 0 <= i < M -> 0 <= j < N -> all_finite (gemm_products m Order TransA TransB A lda alpha B ldb K i j) = true).
(** Row i of op(A) paired with column j of op(B). *)
Definition row_col_pairs {t} (m : mem t) (Order TransA TransB : ascii) (A lda B ldb K i j : Z) : list (F t * F t) :=
  map (fun k => (m (op_addr Order TransA A lda i k), m (op_addr Order TransB B ldb k j))) (zseq 0 K).
Theorem C53_gemm t tu tu' b b' Order Order' TransA TransA' TransB TransB' M N K (alpha beta : F t) A A' lda lda' B B' ldb ldb' C C' ldc ldc'
    CI CI' bufA bufA' bufB bufB' (m m' : mem t) :
  0 < M -> 0 < N -> 0 <= K ->
  gemm_call tu b Order TransA TransB M N K alpha A lda B ldb C ldc CI bufA bufB m ->
  gemm_call tu' b' Order' TransA' TransB' M N K alpha A' lda' B' ldb' C' ldc' CI' bufA' bufB' m' ->
  (forall i j, 0 <= i < M -> 0 <= j < N ->
     Permutation (row_col_pairs m Order TransA TransB A lda B ldb K i j) (row_col_pairs m' Order' TransA' TransB' A' lda' B' ldb' K i j) /\
     (feq beta fzero = true \/ m (elem_addr Order C ldc i j) = m' (elem_addr Order' C' ldc' i j))) ->
  forall i j, 0 <= i < M -> 0 <= j < N ->
  dgemm tu b Order TransA TransB M N K alpha A lda B ldb beta C ldc CI bufA bufB m (elem_addr Order C ldc i j) =
  dgemm tu' b' Order' TransA' TransB' M N K alpha A' lda' B' ldb' beta C' ldc' CI' bufA' bufB' m' (elem_addr Order' C' ldc' i j).
Proof.
  intros HM HN HK (T1 & L1 & Y1 & I1 & C1 & K1 & F1) (T2 & L2 & Y2 & I2 & C2 & K2 & F2) HP i j Hi Hj.
  unfold dgemm. pose proof (default_ok t) as D. assert (D3 : default_fold t = 3) by (destruct t; reflexivity). rewrite D3 in *.
  destruct (C25_gemm t tu b 3 Order TransA TransB M N K alpha beta A lda B ldb C ldc CI bufA bufB 0 m D T1 L1 HM HN HK Y1 I1 C1 K1 F1) as [G1 _].
  destruct (C25_gemm t tu' b' 3 Order' TransA' TransB' M N K alpha beta A' lda' B' ldb' C' ldc' CI' bufA' bufB' 0 m' D T2 L2 HM HN HK Y2 I2 C2 K2 F2) as [G2 _].
  rewrite (G1 i j Hi Hj), (G2 i j Hi Hj). cbv zeta. destruct (HP i j Hi Hj) as [P E].
  assert (PG : forall (mm : mem t) O Ta Tb AA la BB lb, gemm_products mm O Ta Tb AA la alpha BB lb K i j =
    map (fun p => fmul (fmul (fst p) alpha) (snd p)) (row_col_pairs mm O Ta Tb AA la BB lb K i j)) by (intros; unfold row_col_pairs; rewrite map_map; reflexivity).
  apply conv_started; auto.
  - destruct (feq alpha fzero); [cbn [length]; destruct t; vm_compute; discriminate|]. unfold gemm_products. rewrite map_length, GenProofs.zseq_length. lia.
  - destruct (feq alpha fzero); [reflexivity|]. rewrite !PG. apply Permutation_map. exact P.
Qed.
Print Assumptions C53_gemm.
(** Each part of each output of zgemv and zgemm, for a layout with 12-word accumulators. *)
Theorem C53_zgemv t tu b Order Trans M N (alpha beta : F t * F t) A lda X incX Y incY YI bufX bufA T (m : mem t) :
  tuned t tu -> legal_gemv b -> 0 < M -> 0 < N ->
  let rows := op_rows Trans M N in let cols := op_cols Trans M N in let lenA := xt_block b * yt_block b in
  right_length b Order Trans M N -> Z.min (Z.min cols (dot_block b Order Trans)) (block_max tu) <= ENDURANCE t / 2 ->
  zgemv_layout 3 Order Trans rows cols A lda X incX YI 1 bufX bufA lenA -> incY <> 0 ->
  (forall i o, 0 <= i < rows -> o = 0 \/ o = 1 -> ~ zgemv_touched 3 rows YI 1 bufX cols bufA lenA (Y + 2 * (i * incY) + o)) ->
  2 * cols + 1 <= CAPACITY t ->
  let m' := zgemv tu b Order Trans M N alpha A lda X incX beta Y incY YI bufX bufA m in
  forall i, 0 <= i < rows ->
    let products := if is_complex alpha fzero then [] else zgemv_products m Order Trans A lda alpha X incX cols i in
    let Yi := Y + 2 * (i * incY) in let all := products ++ zstarted beta (complex_at m Yi) in
    sum_value 3 T (map fst all) m (m' Yi) /\ sum_value 3 T (map snd all) m (m' (Yi + 1)).
Proof.
  intros HT LB HM HN rows cols lenA RL HE HL NY HY HC. pose proof (default_ok t) as D.
  assert (D3 : default_fold t = 3) by (destruct t; reflexivity). unfold zgemv. rewrite D3 in *.
  destruct (C40_rzgemv_partial t tu b 3 Order Trans M N alpha beta A lda X incX Y incY YI bufX bufA T m D HT LB HM HN RL HE HL NY HY HC) as [R _].
  exact R.
Qed.
Print Assumptions C53_zgemv.
Theorem C53_zgemm t tu b Order TransA TransB M N K (alpha beta : F t * F t) A lda B ldb C ldc CI bufA bufB T (m : mem t) :
  tuned t tu -> legal_gemm b -> 0 < M -> 0 < N -> 0 <= K ->
  let ldi := if is_row Order then N else M in
  let lenA := bufA_len b M K in let lenB := mxt_block b * myt_block b in
  right_scaling Order TransA alpha -> Z.min (Z.min K (Z.max (mx_block b) (mxt_block b))) (block_max tu) <= ENDURANCE t / 2 ->
  zgemm_layout 3 Order TransA TransB M N K A lda B ldb CI ldi bufA lenA bufB lenB -> ldi <= ldc ->
  (forall i j o, 0 <= i < M -> 0 <= j < N -> o = 0 \/ o = 1 -> ~ zgemm_touched 3 Order M N CI ldi bufA lenA bufB lenB (zelem_addr Order C ldc i j + o)) ->
  2 * K + 1 <= CAPACITY t ->
  let m' := zgemm tu b Order TransA TransB M N K alpha A lda B ldb beta C ldc CI bufA bufB m in
  forall i j, 0 <= i < M -> 0 <= j < N ->
    let products := if is_complex alpha fzero then [] else zgemm_products m Order TransA TransB A lda alpha B ldb K i j in
    let Cij := zelem_addr Order C ldc i j in let all := products ++ zstarted beta (complex_at m Cij) in
    sum_value 3 T (map fst all) m (m' Cij) /\ sum_value 3 T (map snd all) m (m' (Cij + 1)).
Proof.
  intros HT LB HM HN HK ldi lenA lenB RS HE HL Hld HY HC. pose proof (default_ok t) as D.
  assert (D3 : default_fold t = 3) by (destruct t; reflexivity). unfold zgemm. rewrite D3 in *.
  destruct (C47_rzgemm_partial t tu b 3 Order TransA TransB M N K alpha beta A lda B ldb C ldc CI bufA bufB T m D HT LB HM HN HK RS HE HL Hld HY HC) as [R _].
  exact R.
Qed.
Print Assumptions C53_zgemm.
(** Cases meeting the hypotheses: the products of C23_case and C24_case in two storage orders; those of the
    complex theorems are met (with fold 3) by C29_case, C40_case, C46_case, C47_case and C48_case. *)
Example C53_case :
  (forall m : mem Dbl, m = spread some_data 2 ->
     clear_of 0 2 5 100 6 /\ clear_of 8 (-2) 5 100 6 /\ Permutation (read m 0 2 5) (read m 8 (-2) 5) /\ all_finite (read m 0 2 5) = true /\
     feq (dsum sample_tuning 5 0 2 100 m) (mkf 7 850) = true) /\
  complex_layout 3 0 2 100 200 300 /\
  gemv_call sample_tuning sample_blocks "r" "N" 3 5 (mkf 1 1) 0 6 100 2 900 10 1000 2000 3000 sample_mem /\
  gemv_call sample_tuning sample_blocks "C" "t" 5 3 (mkf 1 1) 0 6 100 2 900 10 1000 2000 3000 sample_mem /\
  (forall i, 0 <= i < 3 -> Permutation (row_pairs sample_mem "r" "N" 0 6 100 2 5 i) (row_pairs sample_mem "C" "t" 0 6 100 2 5 i)).
Proof.
  split; [|split; [|split; [|split]]].
  - intros m ->. destruct (C20_case _ eq_refl) as (H1 & H2 & H3 & H4 & H5). auto.
  - unfold complex_layout, blocks_apart, zclear_of. repeat split; intros; lia.
  - pose proof C25_case as (_ & H1 & H2 & H3). destruct C23_case as (H4 & H5 & H6).
    unfold gemv_call. cbv zeta. change (op_rows "N" 3 5) with 3. change (op_cols "N" 3 5) with 5.
    change (xt_block sample_blocks * yt_block sample_blocks) with 4 in *.
    split; [exact H3|]. split; [exact H4|]. split; [lia|]. split; [lia|]. split; [apply H5|]. split; [lia|]. split; [exact H1|]. split; [exact H2|].
    intros i Hi. apply H6; auto; cbn; auto.
  - pose proof C25_case as (_ & H1 & H2 & H3). destruct C23_case as (H4 & H5 & H6).
    unfold gemv_call. cbv zeta. change (op_rows "t" 5 3) with 3. change (op_cols "t" 5 3) with 5.
    change (xt_block sample_blocks * yt_block sample_blocks) with 4 in *.
    split; [exact H3|]. split; [exact H4|]. split; [lia|]. split; [lia|]. split; [apply H5|]. split; [lia|]. split; [exact H1|]. split; [exact H2|].
    intros i Hi. apply H6; auto; cbn; auto.
  - intros i Hi. unfold row_pairs. reflexivity.
Qed.
