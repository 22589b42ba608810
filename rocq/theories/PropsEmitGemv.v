(** * C63, C64: the matrix products made with the emitted code *)
From Coq Require Import ZArith Bool List Lia Permutation Ascii FunctionalExtensionality.
From Flocq Require Import Core BinarySingleNaN.
From Verif Require Import Fp Mem Binned Spec SpecProofs AccProofs SumProofs Client History ClientProofs Gen GenProofs Blas BlasSpec PropsBlas Gemv GemvSpec GemvProofs PropsGemv PropsComplex BlasZ BlasZSpec GemvZ GemvZSpec PropsGemvZ PropsGemmZ PropsDefault.
From Verif Require Import Emit EmitBlas EmitDriver EmitSpec PropsEmit EmitGemv.
Import ListNotations.
Open Scope Z_scope.

Lemma dot_code_ok {t} b (R : stales t) fold : 1 <= fold -> legal_build t false b -> dot_code b R fold = (fun n X incX Y incY A (m : mem t) => dbddot (build_tuning t false b fold) fold n X incX Y incY A m).
Proof.
  intros Hf LB. unfold dot_code. do 7 (apply functional_extensionality; intros ?).
  rewrite reduce_code_ok; [reflexivity|exact Hf|apply legal_tuned; exact LB].
Qed.
Lemma zdot_code_ok {t} b (R : stales t) fold : 1 <= fold -> legal_build t true b -> zdot_code b R fold = (fun conj n X incX Y incY A (m : mem t) => zdot conj (build_tuning t true b fold) fold n X incX Y incY A m).
Proof.
  intros Hf LB. unfold zdot_code. do 8 (apply functional_extensionality; intros ?).
  rewrite zreduce_code_ok; [|exact Hf|apply legal_tuned; exact LB]. unfold zdot. destruct x; reflexivity.
Qed.
(** The routines linked with the emitted code are the modelled ones, with the tuning of the build: C23 - C25, C40, C47, C53 - C55 hold of them. *)
Theorem C63_is_gemv_model t c (R : stales t) fold : 1 <= fold -> legal_build t false c ->
  (forall b, rdgemv_code c R b fold = rdgemv (build_tuning t false c fold) b fold) /\
  (forall b, rdgemm_code c R b fold = rdgemm (build_tuning t false c fold) b fold).
Proof. intros Hf LB. split; intros b; unfold rdgemv_code, rdgemm_code; rewrite (dot_code_ok c R fold Hf LB); reflexivity. Qed.
Print Assumptions C63_is_gemv_model.
Theorem C64_is_gemv_model t c (R : stales t) fold : 1 <= fold -> legal_build t true c ->
  (forall b, rzgemv_code c R b fold = rzgemv (build_tuning t true c fold) b fold) /\
  (forall b, rzgemm_code c R b fold = rzgemm (build_tuning t true c fold) b fold).
Proof. intros Hf LB. split; intros b; unfold rzgemv_code, rzgemm_code; rewrite (zdot_code_ok c R fold Hf LB); reflexivity. Qed.
Print Assumptions C64_is_gemv_model.

(** ** C63 *)
(** What a call of rdgemv works on: a legal build, legal block sizes, arrays that do not overlap, finite products. *)
Definition gemv_ready {t} (c : build) (b : gemv_blocks) (fold : Z) (Order Trans : ascii) (M N : Z) (alpha : F t) (A lda X incX Y incY YI bufX bufA : Z) (m : mem t) : Prop :=
  let rows := op_rows Trans M N in let cols := op_cols Trans M N in let lenA := xt_block b * yt_block b in
  legal_build t false c /\ legal_gemv b /\ 0 < M /\ 0 < N /\ gemv_layout fold Order Trans rows cols A lda X incX YI 1 bufX bufA lenA /\ incY <> 0 /\
  (forall i, 0 <= i < rows -> ~ gemv_touched fold rows YI 1 bufX cols bufA lenA (Y + i * incY)) /\ cols + 1 <= CAPACITY t /\
  (forall i, 0 <= i < rows -> all_finite (gemv_products m Order Trans A lda alpha X incX cols i) = true).
Definition gemm_ready {t} (c : build) (b : gemm_blocks) (fold : Z) (Order TransA TransB : ascii) (M N K : Z) (alpha : F t) (A lda B ldb C ldc CI bufA bufB : Z) (m : mem t) : Prop :=
  let ldi := if is_row Order then N else M in let lenA := bufA_len b M K in let lenB := mxt_block b * myt_block b in
  legal_build t false c /\ legal_gemm b /\ gemm_layout fold Order TransA TransB M N K A lda B ldb CI ldi bufA lenA bufB lenB /\ ldi <= ldc /\
  (forall i j, 0 <= i < M -> 0 <= j < N -> ~ gemm_touched fold Order M N CI ldi bufA lenA bufB lenB (elem_addr Order C ldc i j)) /\
  K + 1 <= CAPACITY t /\
  (forall i j, 0 <= i < M -> 0 <= j < N -> all_finite (gemm_products m Order TransA TransB A lda alpha B ldb K i j) = true).

Theorem C63_gemv t c c' R R' b b' fold Order Order' Trans Trans' M N M' N' (alpha beta : F t) A A' lda lda' X X' incX incX' Y Y' incY incY'
    YI YI' bufX bufX' bufA bufA' (m m' : mem t) :
  2 <= fold <= MAXFOLD t ->
  gemv_ready c b fold Order Trans M N alpha A lda X incX Y incY YI bufX bufA m ->
  gemv_ready c' b' fold Order' Trans' M' N' alpha A' lda' X' incX' Y' incY' YI' bufX' bufA' m' ->
  op_rows Trans M N = op_rows Trans' M' N' ->
  (* the same numbers in each row, paired with x, in any order; the same y *)
  (forall i, 0 <= i < op_rows Trans M N ->
     Permutation (row_pairs m Order Trans A lda X incX (op_cols Trans M N) i) (row_pairs m' Order' Trans' A' lda' X' incX' (op_cols Trans' M' N') i) /\
     (feq beta fzero = true \/ m (Y + i * incY) = m' (Y' + i * incY'))) ->
  forall i, 0 <= i < op_rows Trans M N ->
  rdgemv_code c R b fold Order Trans M N alpha A lda X incX beta Y incY YI bufX bufA m (Y + i * incY) =
  rdgemv_code c' R' b' fold Order' Trans' M' N' alpha A' lda' X' incX' beta Y' incY' YI' bufX' bufA' m' (Y' + i * incY').
Proof.
  intros D (T1 & L1 & M1 & N1 & Y1 & I1 & C1 & K1 & F1) (T2 & L2 & M2 & N2 & Y2 & I2 & C2 & K2 & F2) ER HP i Hi.
  destruct (C63_is_gemv_model t c R fold ltac:(lia) T1) as [-> _]. destruct (C63_is_gemv_model t c' R' fold ltac:(lia) T2) as [-> _].
  apply legal_tuned with (fold := fold) in T1, T2.
  destruct (C25_gemv t _ b fold Order Trans M N alpha beta A lda X incX Y incY YI bufX bufA 0 m D T1 L1 M1 N1 Y1 I1 C1 K1 F1) as [G1 _].
  destruct (C25_gemv t _ b' fold Order' Trans' M' N' alpha beta A' lda' X' incX' Y' incY' YI' bufX' bufA' 0 m' D T2 L2 M2 N2 Y2 I2 C2 K2 F2) as [G2 _].
  rewrite (G1 i Hi), (G2 i ltac:(lia)). cbv zeta. destruct (HP i Hi) as [P B].
  assert (PG : forall (mm : mem t) O Tr AA ld XX inc cc, gemv_products mm O Tr AA ld alpha XX inc cc i =
    map (fun p => fmul (fst p) (fmul (snd p) alpha)) (row_pairs mm O Tr AA ld XX inc cc i)) by (intros; unfold row_pairs; rewrite map_map; reflexivity).
  apply conv_started; auto.
  - destruct (feq alpha fzero); [cbn [length]; destruct t; vm_compute; discriminate|]. unfold gemv_products. rewrite map_length, GenProofs.zseq_length.
    assert (0 < op_cols Trans M N) by (unfold op_cols; destruct (is_notrans Trans); lia). lia.
  - destruct (feq alpha fzero); [reflexivity|]. rewrite !PG. apply Permutation_map. exact P.
Qed.
Print Assumptions C63_gemv.
Theorem C63_gemm t c c' R R' b b' fold Order Order' TransA TransA' TransB TransB' M N K (alpha beta : F t) A A' lda lda' B B' ldb ldb' C C' ldc ldc'
    CI CI' bufA bufA' bufB bufB' (m m' : mem t) :
  2 <= fold <= MAXFOLD t -> 0 < M -> 0 < N -> 0 <= K ->
  gemm_ready c b fold Order TransA TransB M N K alpha A lda B ldb C ldc CI bufA bufB m ->
  gemm_ready c' b' fold Order' TransA' TransB' M N K alpha A' lda' B' ldb' C' ldc' CI' bufA' bufB' m' ->
  (forall i j, 0 <= i < M -> 0 <= j < N ->
     Permutation (row_col_pairs m Order TransA TransB A lda B ldb K i j) (row_col_pairs m' Order' TransA' TransB' A' lda' B' ldb' K i j) /\
     (feq beta fzero = true \/ m (elem_addr Order C ldc i j) = m' (elem_addr Order' C' ldc' i j))) ->
  forall i j, 0 <= i < M -> 0 <= j < N ->
  rdgemm_code c R b fold Order TransA TransB M N K alpha A lda B ldb beta C ldc CI bufA bufB m (elem_addr Order C ldc i j) =
  rdgemm_code c' R' b' fold Order' TransA' TransB' M N K alpha A' lda' B' ldb' beta C' ldc' CI' bufA' bufB' m' (elem_addr Order' C' ldc' i j).
Proof.
  intros D HM HN HK (T1 & L1 & Y1 & I1 & C1 & K1 & F1) (T2 & L2 & Y2 & I2 & C2 & K2 & F2) HP i j Hi Hj.
  destruct (C63_is_gemv_model t c R fold ltac:(lia) T1) as [_ ->]. destruct (C63_is_gemv_model t c' R' fold ltac:(lia) T2) as [_ ->].
  apply legal_tuned with (fold := fold) in T1, T2.
  destruct (C25_gemm t _ b fold Order TransA TransB M N K alpha beta A lda B ldb C ldc CI bufA bufB 0 m D T1 L1 HM HN HK Y1 I1 C1 K1 F1) as [G1 _].
  destruct (C25_gemm t _ b' fold Order' TransA' TransB' M N K alpha beta A' lda' B' ldb' C' ldc' CI' bufA' bufB' 0 m' D T2 L2 HM HN HK Y2 I2 C2 K2 F2) as [G2 _].
  rewrite (G1 i j Hi Hj), (G2 i j Hi Hj). cbv zeta. destruct (HP i j Hi Hj) as [P E].
  assert (PG : forall (mm : mem t) O Ta Tb AA la BB lb, gemm_products mm O Ta Tb AA la alpha BB lb K i j =
    map (fun p => fmul (fmul (fst p) alpha) (snd p)) (row_col_pairs mm O Ta Tb AA la BB lb K i j)) by (intros; unfold row_col_pairs; rewrite map_map; reflexivity).
  apply conv_started; auto.
  - destruct (feq alpha fzero); [cbn [length]; destruct t; vm_compute; discriminate|]. unfold gemm_products. rewrite map_length, GenProofs.zseq_length. lia.
  - destruct (feq alpha fzero); [reflexivity|]. rewrite !PG. apply Permutation_map. exact P.
Qed.
Print Assumptions C63_gemm.

(** ** C64: complex matrix products *)
Lemma sum_value_same t fold T T' (xs xs' : list (F t)) (m m' : mem t) v v' : 2 <= fold <= MAXFOLD t -> Z.of_nat (length xs) + 1 <= CAPACITY t ->
  all_finite xs = true -> Permutation xs xs' -> sum_value fold T xs m v -> sum_value fold T' xs' m' v' -> v = v'.
Proof.
  intros Hf HC FX HP. unfold sum_value. rewrite <- (all_finite_perm _ _ HP), FX. intros -> ->.
  pose proof (conv_started t fold T T' fzero fzero fzero xs xs' m m' Hf HC (or_intror eq_refl) HP) as E.
  unfold start in E. replace (feq (fzero : F t) fzero) with true in E by (destruct t; reflexivity). exact E.
Qed.
(** Rows of op(A) (with the conjugation) paired with x, rows with columns. *)
Definition zrow_pairs {t} (m : mem t) (Order Trans : ascii) (A lda X incX cols i : Z) : list ((F t * F t) * (F t * F t)) :=
  map (fun j => (zop m Order Trans A lda i j, complex_at m (X + 2 * (j * incX)))) (zseq 0 cols).
Definition zrow_col_pairs {t} (m : mem t) (Order TransA TransB : ascii) (A lda B ldb K i j : Z) : list ((F t * F t) * (F t * F t)) :=
  map (fun k => (zop m Order TransA A lda i k, zop m Order TransB B ldb k j)) (zseq 0 K).
Definition zgemv_ready {t} (c : build) (b : gemv_blocks) (fold : Z) (Order Trans : ascii) (M N : Z) (alpha beta : F t * F t) (A lda X incX Y incY YI bufX bufA : Z) (m : mem t) : Prop :=
  let rows := op_rows Trans M N in let cols := op_cols Trans M N in let lenA := xt_block b * yt_block b in
  legal_build t true c /\ legal_gemv b /\ 0 < M /\ 0 < N /\
  (* the exceptions of C40 and C29 *)
  right_length b Order Trans M N /\ Z.min (Z.min cols (dot_block b Order Trans)) (b_block c) <= ENDURANCE t / 2 /\
  zgemv_layout fold Order Trans rows cols A lda X incX YI 1 bufX bufA lenA /\ incY <> 0 /\
  (forall i o, 0 <= i < rows -> o = 0 \/ o = 1 -> ~ zgemv_touched fold rows YI 1 bufX cols bufA lenA (Y + 2 * (i * incY) + o)) /\ 2 * cols + 2 <= CAPACITY t /\
  (forall i, 0 <= i < rows -> zfinite (zgemv_products m Order Trans A lda alpha X incX cols i ++ zstarted beta (complex_at m (Y + 2 * (i * incY)))) = true).
Definition zgemm_ready {t} (c : build) (b : gemm_blocks) (fold : Z) (Order TransA TransB : ascii) (M N K : Z) (alpha beta : F t * F t) (A lda B ldb C ldc CI bufA bufB : Z) (m : mem t) : Prop :=
  let ldi := if is_row Order then N else M in let lenA := bufA_len b M K in let lenB := mxt_block b * myt_block b in
  legal_build t true c /\ legal_gemm b /\
  (* the exceptions of C47 and C29 *)
  right_scaling Order TransA alpha /\ Z.min (Z.min K (Z.max (mx_block b) (mxt_block b))) (b_block c) <= ENDURANCE t / 2 /\
  zgemm_layout fold Order TransA TransB M N K A lda B ldb CI ldi bufA lenA bufB lenB /\ ldi <= ldc /\
  (forall i j o, 0 <= i < M -> 0 <= j < N -> o = 0 \/ o = 1 -> ~ zgemm_touched fold Order M N CI ldi bufA lenA bufB lenB (zelem_addr Order C ldc i j + o)) /\
  2 * K + 2 <= CAPACITY t /\
  (forall i j, 0 <= i < M -> 0 <= j < N -> zfinite (zgemm_products m Order TransA TransB A lda alpha B ldb K i j ++ zstarted beta (complex_at m (zelem_addr Order C ldc i j))) = true).

Lemma zfinite_tail {t} (a b : list (F t * F t)) : zfinite (a ++ b) = true -> zfinite ([] ++ b) = true.
Proof.
  unfold zfinite, all_finite. rewrite !map_app, !forallb_app. intros H. cbn [app map forallb andb].
  repeat match goal with H : _ && _ = true |- _ => apply andb_true_iff in H; destruct H end. now apply andb_true_iff.
Qed.
Lemma zsums_same t fold (ps ps' st st' : list (F t * F t)) (m m' : mem t) r r' s s' : 2 <= fold <= MAXFOLD t ->
  Z.of_nat (length (ps ++ st)) + 1 <= CAPACITY t -> zfinite (ps ++ st) = true -> Permutation ps ps' -> st = st' ->
  sum_value fold 0 (map fst (ps ++ st)) m r /\ sum_value fold 0 (map snd (ps ++ st)) m s ->
  sum_value fold 0 (map fst (ps' ++ st')) m' r' /\ sum_value fold 0 (map snd (ps' ++ st')) m' s' -> r = r' /\ s = s'.
Proof.
  intros Hf HC FX HP <- [S1 S2] [S3 S4].
  assert (P : Permutation (ps ++ st) (ps' ++ st)) by (apply Permutation_app_tail; exact HP).
  assert (FF : all_finite (map fst (ps ++ st)) = true /\ all_finite (map snd (ps ++ st)) = true).
  { apply andb_true_iff. exact FX. }
  destruct FF as [FF1 FF2]. split.
  - eapply (sum_value_same t fold 0 0); [exact Hf| |exact FF1|apply Permutation_map; exact P|exact S1|exact S3]. rewrite map_length. exact HC.
  - eapply (sum_value_same t fold 0 0); [exact Hf| |exact FF2|apply Permutation_map; exact P|exact S2|exact S4]. rewrite map_length. exact HC.
Qed.
Theorem C64_gemv_partial t c c' R R' b b' fold Order Order' Trans Trans' M N M' N' (alpha beta : F t * F t) A A' lda lda' X X' incX incX' Y Y' incY incY'
    YI YI' bufX bufX' bufA bufA' (m m' : mem t) :
  2 <= fold <= MAXFOLD t ->
  zgemv_ready c b fold Order Trans M N alpha beta A lda X incX Y incY YI bufX bufA m ->
  zgemv_ready c' b' fold Order' Trans' M' N' alpha beta A' lda' X' incX' Y' incY' YI' bufX' bufA' m' ->
  op_rows Trans M N = op_rows Trans' M' N' ->
  (forall i, 0 <= i < op_rows Trans M N ->
     Permutation (zrow_pairs m Order Trans A lda X incX (op_cols Trans M N) i) (zrow_pairs m' Order' Trans' A' lda' X' incX' (op_cols Trans' M' N') i) /\
     (is_complex beta fzero = true \/ complex_at m (Y + 2 * (i * incY)) = complex_at m' (Y' + 2 * (i * incY')))) ->
  forall i, 0 <= i < op_rows Trans M N ->
  complex_at (rzgemv_code c R b fold Order Trans M N alpha A lda X incX beta Y incY YI bufX bufA m) (Y + 2 * (i * incY)) =
  complex_at (rzgemv_code c' R' b' fold Order' Trans' M' N' alpha A' lda' X' incX' beta Y' incY' YI' bufX' bufA' m') (Y' + 2 * (i * incY')).
Proof.
  intros D (T1 & L1 & M1 & N1 & RL1 & E1 & Y1 & I1 & C1 & K1 & F1) (T2 & L2 & M2 & N2 & RL2 & E2 & Y2 & I2 & C2 & K2 & F2) ER HP i Hi.
  destruct (C64_is_gemv_model t c R fold ltac:(lia) T1) as [-> _]. destruct (C64_is_gemv_model t c' R' fold ltac:(lia) T2) as [-> _].
  apply legal_tuned with (fold := fold) in T1, T2.
  destruct (C40_rzgemv_partial t _ b fold Order Trans M N alpha beta A lda X incX Y incY YI bufX bufA 0 m D T1 L1 M1 N1 RL1 E1 Y1 I1 C1 ltac:(lia)) as [G1 _].
  destruct (C40_rzgemv_partial t _ b' fold Order' Trans' M' N' alpha beta A' lda' X' incX' Y' incY' YI' bufX' bufA' 0 m' D T2 L2 M2 N2 RL2 E2 Y2 I2 C2 ltac:(lia)) as [G2 _].
  specialize (G1 i Hi). specialize (G2 i ltac:(lia)). cbv zeta in G1, G2. destruct (HP i Hi) as [P B].
  assert (Hc : 0 <= op_cols Trans M N) by (unfold op_cols; destruct (is_notrans Trans); lia).
  assert (PG : forall (mm : mem t) O Tr AA ld XX inc cc, zgemv_products mm O Tr AA ld alpha XX inc cc i =
    flat_map (fun p => summands (fst p) (times_complex alpha (snd p))) (zrow_pairs mm O Tr AA ld XX inc cc i)).
  { intros. unfold zgemv_products, zrow_pairs. induction (zseq 0 cc) as [|j l IH]; [reflexivity|]. cbn [flat_map map fst snd]. now rewrite IH. }
  unfold complex_at at 1 2. match goal with |- (?a, ?b) = (?c, ?d) => cut (a = c /\ b = d); [intros [-> ->]; reflexivity|] end.
  refine (zsums_same t fold _ _ _ _ m m' _ _ _ _ D _ _ _ _ G1 G2).
  - rewrite app_length. assert (Z.of_nat (length (if is_complex alpha fzero then [] else zgemv_products m Order Trans A lda alpha X incX (op_cols Trans M N) i)) <= 2 * op_cols Trans M N).
    { destruct (is_complex alpha fzero); [cbn [length]; lia|]. unfold zgemv_products. rewrite flat_two by auto. lia. }
    unfold zstarted. destruct (is_complex beta fzero); cbn [length]; lia.
  - specialize (F1 i Hi). destruct (is_complex alpha fzero); [|exact F1]. exact (zfinite_tail _ _ F1).
  - destruct (is_complex alpha fzero); [reflexivity|]. rewrite !PG. apply Permutation_flat_map. exact P.
  - unfold zstarted. destruct B as [-> | ->]; reflexivity.
Qed.
Print Assumptions C64_gemv_partial.
Theorem C64_gemm_partial t c c' R R' b b' fold Order Order' TransA TransA' TransB TransB' M N K (alpha beta : F t * F t) A A' lda lda' B B' ldb ldb' C C' ldc ldc'
    CI CI' bufA bufA' bufB bufB' (m m' : mem t) :
  2 <= fold <= MAXFOLD t -> 0 < M -> 0 < N -> 0 <= K ->
  zgemm_ready c b fold Order TransA TransB M N K alpha beta A lda B ldb C ldc CI bufA bufB m ->
  zgemm_ready c' b' fold Order' TransA' TransB' M N K alpha beta A' lda' B' ldb' C' ldc' CI' bufA' bufB' m' ->
  (forall i j, 0 <= i < M -> 0 <= j < N ->
     Permutation (zrow_col_pairs m Order TransA TransB A lda B ldb K i j) (zrow_col_pairs m' Order' TransA' TransB' A' lda' B' ldb' K i j) /\
     (is_complex beta fzero = true \/ complex_at m (zelem_addr Order C ldc i j) = complex_at m' (zelem_addr Order' C' ldc' i j))) ->
  forall i j, 0 <= i < M -> 0 <= j < N ->
  complex_at (rzgemm_code c R b fold Order TransA TransB M N K alpha A lda B ldb beta C ldc CI bufA bufB m) (zelem_addr Order C ldc i j) =
  complex_at (rzgemm_code c' R' b' fold Order' TransA' TransB' M N K alpha A' lda' B' ldb' beta C' ldc' CI' bufA' bufB' m') (zelem_addr Order' C' ldc' i j).
Proof.
  intros D HM HN HK (T1 & L1 & RS1 & E1 & Y1 & I1 & C1 & K1 & F1) (T2 & L2 & RS2 & E2 & Y2 & I2 & C2 & K2 & F2) HP i j Hi Hj.
  destruct (C64_is_gemv_model t c R fold ltac:(lia) T1) as [_ ->]. destruct (C64_is_gemv_model t c' R' fold ltac:(lia) T2) as [_ ->].
  apply legal_tuned with (fold := fold) in T1, T2.
  destruct (C47_rzgemm_partial t _ b fold Order TransA TransB M N K alpha beta A lda B ldb C ldc CI bufA bufB 0 m D T1 L1 HM HN HK RS1 E1 Y1 I1 C1 ltac:(lia)) as [G1 _].
  destruct (C47_rzgemm_partial t _ b' fold Order' TransA' TransB' M N K alpha beta A' lda' B' ldb' C' ldc' CI' bufA' bufB' 0 m' D T2 L2 HM HN HK RS2 E2 Y2 I2 C2 ltac:(lia)) as [G2 _].
  specialize (G1 i j Hi Hj). specialize (G2 i j Hi Hj). cbv zeta in G1, G2. destruct (HP i j Hi Hj) as [P E].
  assert (PG : forall (mm : mem t) O Ta Tb AA la BB lb, zgemm_products mm O Ta Tb AA la alpha BB lb K i j =
    flat_map (fun p => summands (times_complex alpha (fst p)) (snd p)) (zrow_col_pairs mm O Ta Tb AA la BB lb K i j)).
  { intros. unfold zgemm_products, zrow_col_pairs. induction (zseq 0 K) as [|k l IH]; [reflexivity|]. cbn [flat_map map fst snd]. now rewrite IH. }
  unfold complex_at at 1 2. match goal with |- (?a, ?b) = (?c, ?d) => cut (a = c /\ b = d); [intros [-> ->]; reflexivity|] end.
  refine (zsums_same t fold _ _ _ _ m m' _ _ _ _ D _ _ _ _ G1 G2).
  - rewrite app_length. assert (Z.of_nat (length (if is_complex alpha fzero then [] else zgemm_products m Order TransA TransB A lda alpha B ldb K i j)) <= 2 * K).
    { destruct (is_complex alpha fzero); [cbn [length]; lia|]. unfold zgemm_products. rewrite flat_two by auto. lia. }
    unfold zstarted. destruct (is_complex beta fzero); cbn [length]; lia.
  - specialize (F1 i j Hi Hj). destruct (is_complex alpha fzero); [|exact F1]. exact (zfinite_tail _ _ F1).
  - destruct (is_complex alpha fzero); [reflexivity|]. rewrite !PG. apply Permutation_flat_map. exact P.
  - unfold zstarted. destruct E as [-> | ->]; reflexivity.
Qed.
Print Assumptions C64_gemm_partial.

(** ** Cases *)
Definition no_stale : stales Dbl := fun _ _ _ _ => junk Dbl.
(** The product of C23_case by the AVX and the plain C build, in two storage orders with different block sizes. *)
Example C63_case :
  gemv_ready (avx_build Dbl false) sample_blocks 3 "r" "N" 3 5 (mkf 1 1) 0 6 100 2 900 10 1000 2000 3000 sample_mem /\
  gemv_ready (c_build Dbl false) sample_blocks 3 "C" "t" 5 3 (mkf 1 1) 0 6 100 2 900 10 1000 2000 3000 sample_mem /\
  gemm_ready (sse_build Dbl false) sample_mblocks 3 "r" "N" "T" 2 3 4 (mkf 1 1) 0 6 100 6 200 4 1000 2000 3000 sample_mem /\
  map (fun i => Z.shiftr (toZ (rdgemv_code (avx_build Dbl false) no_stale sample_blocks 3 "r" "N" 3 5 (mkf 1 1) 0 6 100 2 (mkf (-3) 0) 900 10 1000 2000 3000 sample_mem (900 + 10 * i))) 1074) [0; 1; 2]
  = [-6597069764611; -13194139532288; -19791209289728].
Proof.
  pose proof C25_case as (_ & H1 & H2 & H3). destruct C23_case as (H4 & H5 & H6). destruct C24_case as (H7 & H8 & H9 & H10 & _).
  change (xt_block sample_blocks * yt_block sample_blocks) with 4 in *.
  split; [|split; [|split; [|vm_compute; reflexivity]]].
  - unfold gemv_ready. cbv zeta. change (op_rows "N" 3 5) with 3. change (op_cols "N" 3 5) with 5. change (xt_block sample_blocks * yt_block sample_blocks) with 4.
    split; [apply file_legal|]. split; [exact H4|]. split; [lia|]. split; [lia|]. split; [apply H5|]. split; [lia|]. split; [exact H1|]. split; [exact H2|].
    intros i Hi. apply H6; auto; cbn; auto.
  - unfold gemv_ready. cbv zeta. change (op_rows "t" 5 3) with 3. change (op_cols "t" 5 3) with 5. change (xt_block sample_blocks * yt_block sample_blocks) with 4.
    split; [apply file_legal|]. split; [exact H4|]. split; [lia|]. split; [lia|]. split; [apply H5|]. split; [lia|]. split; [exact H1|]. split; [exact H2|].
    intros i Hi. apply H6; auto; cbn; auto.
  - unfold gemm_ready. cbv zeta. split; [apply file_legal|]. split; [exact H7|]. split; [apply (H8 "r" "N" "T")%char|]. split; [cbn; lia|].
    split; [intros i j Hi Hj; apply (H10 "r"%char i j Hi Hj)|]. split; [vm_compute; discriminate|]. intros i j Hi Hj. apply H9; auto; cbn; auto.
Qed.
Example C64_case :
  zgemv_ready (avx_build Dbl true) sample_blocks 3 "C" "c" 3 3 (mkf 1 1, mkf 3 0) (mkf (-3) 0, mkf 1 0) 0 6 100 2 900 10 1000 2000 3000 sample_mem /\
  zgemv_ready (sse_build Dbl true) sample_blocks 3 "R" "t" 3 3 (mkf 1 1, mkf 3 0) (mkf (-3) 0, mkf 1 0) 0 6 100 2 900 10 1000 2000 3000 sample_mem /\
  zgemm_ready (c_build Dbl true) sample_mblocks 3 "r" "c" "T" 2 3 4 (mkf 1 1, mkf 3 0) (mkf (-3) 0, mkf 1 0) 0 6 100 6 200 4 1000 2000 3000 sample_mem /\
  (forall c, In c [avx_build Dbl true; c_build Dbl true] ->
   let r := rzgemv_code c no_stale sample_blocks 3 "C" "c" 3 3 (mkf 1 1, mkf 3 0) 0 6 100 2 (mkf (-3) 0, mkf 1 0) 900 10 1000 2000 3000 sample_mem in
   map (fun i => toZ (r (900 + i))) [20; 21] =
   let r := zgemv_run "C" "c" 3 3 (mkf 1 1, mkf 3 0) (mkf (-3) 0, mkf 1 0) sample_mem in map (fun i => toZ (r (900 + i))) [20; 21]).
Proof.
  destruct C40_case as (H1 & H2 & H3 & _). destruct C23_case as (H4 & _ & _). destruct C47_case as (H5 & _ & H7 & H8 & _). destruct C24_case as (H9 & _).
  assert (FV : forall O T i, In O ["R"; "C"]%char -> In T ["t"; "c"]%char -> 0 <= i < 3 ->
    zfinite (zgemv_products sample_mem O T 0 6 (mkf 1 1, mkf 3 0) 100 2 3 i ++ zstarted (mkf (-3) 0, mkf 1 0) (complex_at sample_mem (900 + 2 * (i * 10)))) = true).
  { intros O T i HO HT Hi. assert (E : i = 0 \/ i = 1 \/ i = 2) by lia.
    destruct HO as [<-|[<-|[]]], HT as [<-|[<-|[]]], E as [->|[->| ->]]; vm_compute; reflexivity. }
  split; [|split; [|split]].
  - unfold zgemv_ready. cbv zeta. change (op_rows "c" 3 3) with 3. change (op_cols "c" 3 3) with 3. destruct (H1 "C" "c")%char as (P1 & P2 & P3).
    split; [apply file_legal|]. split; [exact H4|]. split; [lia|]. split; [lia|]. split; [exact P2|]. split; [vm_compute; discriminate|]. split; [exact P1|]. split; [lia|].
    split; [exact H2|]. split; [vm_compute; discriminate|]. intros i Hi. apply FV; auto; cbn; auto.
  - unfold zgemv_ready. cbv zeta. change (op_rows "t" 3 3) with 3. change (op_cols "t" 3 3) with 3. destruct (H1 "R" "t")%char as (P1 & P2 & P3).
    split; [apply file_legal|]. split; [exact H4|]. split; [lia|]. split; [lia|]. split; [exact P2|]. split; [vm_compute; discriminate|]. split; [exact P1|]. split; [lia|].
    split; [exact H2|]. split; [vm_compute; discriminate|]. intros i Hi. apply FV; auto; cbn; auto.
  - unfold zgemm_ready. cbv zeta. split; [apply file_legal|]. split; [exact H9|]. split; [left; reflexivity|]. split; [vm_compute; discriminate|].
    split; [apply (H5 "r" "c" "T")%char|]. split; [cbn; lia|]. split; [apply (H7 "r"%char)|]. split; [vm_compute; discriminate|].
    intros i j Hi Hj. assert (E : i = 0 \/ i = 1) by lia. assert (E' : j = 0 \/ j = 1 \/ j = 2) by lia. destruct E as [->| ->], E' as [->|[->| ->]]; vm_compute; reflexivity.
  - intros c I. cbv zeta. destruct I as [<-|[<-|[]]]; vm_compute; reflexivity.
Qed.
(** Without the exception of C40 the result depends on the argument file: the column major conjugate transpose with M = 1,
    N = 2, A and x all ones, one build, X_BLOCK = 2 or 1; the dot products are 1, the first file gives 2. *)
Theorem C64_refuted :
  let c := c_build Dbl true in let b := sample_blocks in let b' := GemvBlocks 1 1 2 4 1 in
  let one : F Dbl * F Dbl := (mkf 1 0, mkf 0 0) in let zero : F Dbl * F Dbl := (mkf 0 0, mkf 0 0) in
  let run b := rzgemv_code c no_stale b 3 "C" "c" 1 2 one 0 6 100 2 zero 900 10 1000 2000 3000 ones_mem in
  legal_build Dbl true c /\ legal_gemv b /\ legal_gemv b' /\
  toZ (run b 900) = toZ (mkf 2 0 : F Dbl) /\ toZ (run b' 900) = toZ (mkf 1 0 : F Dbl).
Proof.
  cbv zeta. split; [apply file_legal|]. split; [apply C23_case|]. split; [|split; vm_compute; reflexivity].
  unfold legal_gemv. cbn. unfold tiles. repeat split; try lia. right. exists 2. reflexivity. right. exists 2. reflexivity.
Qed.
Print Assumptions C64_refuted.
