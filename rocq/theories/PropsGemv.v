(** * C23, C24, C25: matrix products *)
From Coq Require Import ZArith Bool List Lia Permutation Ascii.
From Flocq Require Import Core BinarySingleNaN.
From Verif Require Import Fp Mem Binned Spec FpProofs BitProofs CoreArith SpecProofs WordProofs MemProofs AccProofs SumProofs ConvProofs Client History ClientProofs PropsSum PropsAcc Gen GenProofs Params ParamsProofs PropsGen Blas LaneProofs ReduceProofs DriverProofs BlasSpec PropsBlas Gemv GemvSpec GemvProofs.
Import ListNotations.
Open Scope Z_scope.

(** ** Legal block sizes *)
Lemma pow_tiles a b : 0 <= a -> 0 <= b -> tiles (2 ^ a) (2 ^ b).
Proof.
  intros Ha Hb. destruct (Z_le_gt_dec b a).
  - left. apply Z.pow_le_mono_r; lia.
  - right. exists (2 ^ (b - a)). rewrite <- Z.pow_add_r by lia. f_equal. lia.
Qed.
Lemma pow_div a b : 0 <= a -> 0 <= b -> 2 ^ a <= 2 ^ b -> 2 ^ b / 2 ^ a = 2 ^ (b - a) /\ a <= b.
Proof. intros Ha Hb H. apply Z.pow_le_mono_r_iff in H; try lia. split; auto. symmetry. apply Z.pow_sub_r; lia. Qed.
Lemma cache_blocks cache size e : 0 <= e -> size = 2 ^ e -> size <= cache ->
  exists k k', 0 <= k' <= k /\ cache_block cache size = 2 ^ k /\ Z.max (cache_block cache size / 256) 1 = 2 ^ k'.
Proof.
  intros He -> Hc. unfold cache_block, bit_length. pose proof (pow2_pos e He).
  assert (Hl : e <= Z.log2 cache) by (apply Z.log2_le_pow2; lia).
  destruct (Z.eqb_spec cache 0) as [|_]; [lia|]. rewrite (Z.abs_eq cache) by lia.
  replace (Z.log2 cache + 1 - 1) with (Z.log2 cache) by lia.
  rewrite <- Z.pow_sub_r by lia. set (k := Z.log2 cache - e). assert (0 <= k) by (unfold k; lia). exists k.
  change 256 with (2 ^ 8). destruct (Z_le_gt_dec 8 k).
  - exists (k - 8). split; [lia|]. split; auto. rewrite <- Z.pow_sub_r by lia. pose proof (pow2_pos (k - 8) ltac:(lia)). lia.
  - exists 0. split; [lia|]. split; auto. rewrite Z.div_small; [reflexivity|].
    split; [lia|]. apply Z.pow_lt_mono_r; lia.
Qed.
Lemma parsed lo hi v : 0 <= lo <= hi -> exists k, 0 <= k /\ pow_parse (2 ^ lo) (2 ^ hi) v = 2 ^ k /\ 2 ^ lo <= 2 ^ k <= 2 ^ hi.
Proof.
  intros H. assert (P : is_pow (pow_parse (2 ^ lo) (2 ^ hi) v) = true) by (apply pow_parse_pow; apply is_pow_iff; [exists lo|exists hi]; lia).
  apply is_pow_iff in P. destruct P as (k & Hk & E). exists k. split; auto. split; auto. rewrite <- E.
  apply pow_parse_range. apply Z.pow_le_mono_r; lia.
Qed.
Lemma parsed1 hi v : 0 <= hi -> exists k, 0 <= k /\ pow_parse 1 (2 ^ hi) v = 2 ^ k /\ 1 <= 2 ^ k <= 2 ^ hi.
Proof. intros H. exact (parsed 0 hi v ltac:(lia)). Qed.
(** Whatever numbers the argument file holds, for every cache of at least one element
    (element sizes 4, 8, 8, 16), the sizes used by the code are legal. *)
Theorem C23_argument_files cache size e y xy yt xyt tt : 0 <= e -> size = 2 ^ e -> size <= cache ->
  legal_gemv (read_gemv cache size y xy yt xyt tt).
Proof.
  intros He Hs Hc. destruct (cache_blocks cache size e He Hs Hc) as (k & k' & Hk & E1 & E2).
  unfold read_gemv, legal_gemv, xt_block. cbn [y_block xy_block yt_block xyt_block t_block]. rewrite E2, E1.
  destruct (parsed1 k' y ltac:(lia)) as (a1 & P1 & -> & Q1).
  destruct (parsed k' k xy ltac:(lia)) as (a2 & P2 & -> & Q2).
  destruct (parsed1 k' yt ltac:(lia)) as (a3 & P3 & -> & Q3).
  destruct (parsed k' k xyt ltac:(lia)) as (a4 & P4 & -> & Q4).
  destruct (parsed1 5 tt ltac:(lia)) as (a5 & P5 & E5 & Q5). change (2 ^ 5) with 32 in *. rewrite E5.
  destruct (pow_div a3 a4 P3 P4 ltac:(lia)) as [-> L]. pose proof (pow2_pos a5 P5).
  split; [lia|]. split; [lia|]. split; [lia|]. split; apply pow_tiles; lia.
Qed.
Print Assumptions C23_argument_files.
Theorem C24_argument_files cache size e y xy yt xyt : 0 <= e -> size = 2 ^ e -> size <= cache ->
  legal_gemm (read_gemm cache size y xy yt xyt).
Proof.
  intros He Hs Hc. destruct (cache_blocks cache size e He Hs Hc) as (k & k' & Hk & E1 & E2).
  unfold read_gemm, legal_gemm. cbn [my_block mxy_block myt_block mxyt_block]. rewrite E2, E1.
  destruct (parsed1 k' y ltac:(lia)) as (a1 & P1 & -> & Q1).
  destruct (parsed k' k xy ltac:(lia)) as (a2 & P2 & -> & Q2).
  destruct (parsed1 k' yt ltac:(lia)) as (a3 & P3 & -> & Q3).
  destruct (parsed k' k xyt ltac:(lia)) as (a4 & P4 & -> & Q4). lia.
Qed.
Print Assumptions C24_argument_files.

Lemma all_finite_map {t} (f : Z -> F t) n : all_finite (map f (zseq 0 n)) = true -> forall k, 0 <= k < n -> is_finite (f k) = true.
Proof.
  unfold all_finite. rewrite forallb_forall. intros H k Hk. apply H. apply in_map. apply zseq_In. lia.
Qed.
Lemma zmap_length {t} (f : Z -> F t) n : 0 <= n -> Z.of_nat (length (map f (zseq 0 n))) = n.
Proof. intros. rewrite map_length, zseq_length. lia. Qed.

(** ** C23 *)
Section V.
  Context {t : ty} (fold : Z) (Hf : 2 <= fold <= MAXFOLD t).
  Lemma gemv_holds tu b Order Trans M N (alpha : F t) A lda X incX Y incY bufX bufA us zs (m : mem t) :
    tuned t tu -> legal_gemv b -> 0 <= M -> 0 <= N ->
    gemv_layout fold Order Trans (op_rows Trans M N) (op_cols Trans M N) A lda X incX Y incY bufX bufA (xt_block b * yt_block b) ->
    feq alpha fzero = false ->
    (forall i, 0 <= i < op_rows Trans M N -> acc_at fold (us i) (zs i) m (y_at fold Y incY i) /\
       op_cols Trans M N + Z.of_nat (length (zs i)) <= capacity t /\
       all_finite (gemv_products m Order Trans A lda alpha X incX (op_cols Trans M N) i) = true) ->
    let m' := dbdgemv tu b fold Order Trans M N alpha A lda X incX Y incY bufX bufA m in
    (forall i, 0 <= i < op_rows Trans M N ->
       acc_at fold (us i) (gemv_products m Order Trans A lda alpha X incX (op_cols Trans M N) i ++ zs i) m' (y_at fold Y incY i)) /\
    (forall a, ~ gemv_touched fold (op_rows Trans M N) Y incY bufX (op_cols Trans M N) bufA (xt_block b * yt_block b) a -> m' a = m a).
  Proof.
    intros HT LB HM HN (L1 & L2 & L3 & L4 & L5) Al H. cbv zeta. unfold dbdgemv. rewrite Al.
    unfold op_rows, op_cols in *.
    assert (FT : forall i j, 0 <= i < (if is_notrans Trans then M else N) -> 0 <= j < (if is_notrans Trans then N else M) ->
      is_finite (fmul (m (op_addr Order Trans A lda i j)) (fmul (m (X + j * incX)) alpha)) = true).
    { intros i j Hi Hj. destruct (H i Hi) as (_ & _ & HF). exact (all_finite_map _ _ HF j Hj). }
    assert (HC : forall i, 0 <= i < (if is_notrans Trans then M else N) -> (if is_notrans Trans then N else M) + Z.of_nat (length (zs i)) <= capacity t).
    { intros i Hi. apply (H i Hi). }
    assert (H0 : forall i, 0 <= i < (if is_notrans Trans then M else N) -> acc_at fold (us i) (zs i) m (y_at fold Y incY i)).
    { intros i Hi. apply (H i Hi). }
    clear H.
    destruct (Z.eqb_spec M 0) as [-> |NM]; [|destruct (Z.eqb_spec N 0) as [-> |NN]].
    - cbn [orb]. split; auto. intros i Hi. unfold gemv_products. destruct (is_notrans Trans); [lia|].
      rewrite zseq_nil by lia. apply H0. exact Hi.
    - cbn [orb]. split; auto. intros i Hi. unfold gemv_products. destruct (is_notrans Trans); [|lia].
      rewrite zseq_nil by lia. apply H0. exact Hi.
    - cbn [orb]. unfold gemv_products, op_addr, elem_addr in *. destruct (is_row Order), (is_notrans Trans) eqn:ET.
      + exact (notrans_ok fold Hf tu HT b LB M N HN alpha X incX Y incY bufX bufA (fun i j => A + i * lda + j) m L1 L2 L3 L5 us zs FT HC H0 A lda (fun _ _ _ _ => eq_refl)).
      + exact (trans_ok fold Hf tu HT b LB N M HM alpha X incX Y incY bufX bufA (fun i j => A + j * lda + i) m L1 L2 L3 L4 L5 us zs FT HC H0 A lda (fun _ _ _ _ => eq_refl)).
      + exact (trans_ok fold Hf tu HT b LB M N HN alpha X incX Y incY bufX bufA (fun i j => A + j * lda + i) m L1 L2 L3 L4 L5 us zs FT HC H0 A lda (fun _ _ _ _ => eq_refl)).
      + exact (notrans_ok fold Hf tu HT b LB N M HM alpha X incX Y incY bufX bufA (fun i j => A + i * lda + j) m L1 L2 L3 L5 us zs FT HC H0 A lda (fun _ _ _ _ => eq_refl)).
  Qed.
End V.
(** dbdgemv leaves in Y_i the words left by adding the products op(A)_ij * (x_j * alpha)
    one at a time, and changes nothing but the accumulators and its own buffers. *)
Theorem C23_gemv_is_adds t tu b fold Order Trans M N (alpha : F t) A lda X incX Y incY bufX bufA us zs (m : mem t) :
  2 <= fold <= MAXFOLD t -> tuned t tu -> legal_gemv b -> 0 <= M -> 0 <= N ->
  let rows := op_rows Trans M N in let cols := op_cols Trans M N in let lenA := xt_block b * yt_block b in
  gemv_layout fold Order Trans rows cols A lda X incX Y incY bufX bufA lenA ->
  feq alpha fzero = false ->
  (forall i, 0 <= i < rows -> acc_at fold (us i) (zs i) m (y_at fold Y incY i) /\ all_finite (zs i) = true /\
     cols + Z.of_nat (length (zs i)) <= CAPACITY t /\
     all_finite (gemv_products m Order Trans A lda alpha X incX cols i) = true) ->
  let m' := dbdgemv tu b fold Order Trans M N alpha A lda X incX Y incY bufX bufA m in
  (forall i, 0 <= i < rows ->
     same_words fold m' (y_at fold Y incY i)
       (add_list fold (y_at fold Y incY i) (gemv_products m Order Trans A lda alpha X incX cols i) m) (y_at fold Y incY i)) /\
  (forall a, ~ gemv_touched fold rows Y incY bufX cols bufA lenA a -> m' a = m a).
Proof.
  intros Hf HT LB HM HN rows cols lenA HL Al H m'. rewrite CAPACITY_eq in H.
  destruct (gemv_holds fold Hf tu b Order Trans M N alpha A lda X incX Y incY bufX bufA us zs m HT LB HM HN HL Al) as [G1 G2].
  { intros i Hi. destruct (H i Hi) as (? & ? & ? & ?). auto. }
  split; [|exact G2]. intros i Hi. destruct (H i Hi) as (H1 & H2 & H3 & H4).
  assert (Hc : 0 <= cols) by (unfold cols, op_cols; destruct (is_notrans Trans); lia).
  destruct (add_list_holds fold Hf (y_at fold Y incY i) (gemv_products m Order Trans A lda alpha X incX cols i) m (us i) (zs i) H1) as [S1 _].
  { rewrite app_length. unfold gemv_products in *. pose proof (zmap_length (fun j => fmul (m (op_addr Order Trans A lda i j)) (fmul (m (X + j * incX)) alpha)) cols Hc). lia. }
  eapply same_acc_words; [exact Hf| | | |exact (G1 i Hi)|exact S1]; [|reflexivity|].
  - rewrite all_finite_app. fold cols. rewrite H4. exact H2.
  - apply Permutation_app_tail, Permutation_rev.
Qed.
Print Assumptions C23_gemv_is_adds.
(** alpha = 0 adds nothing at all, whatever A and x hold. *)
Theorem C23_alpha_zero t tu b fold Order Trans M N (alpha : F t) A lda X incX Y incY bufX bufA (m : mem t) :
  feq alpha fzero = true -> dbdgemv tu b fold Order Trans M N alpha A lda X incX Y incY bufX bufA m = m.
Proof. intros H. unfold dbdgemv. now rewrite H, !orb_true_r. Qed.
Print Assumptions C23_alpha_zero.
(** Two computations of the same matrix and vector: any block sizes, kernels, storage order,
    transposition flag, strides and addresses: same words. *)
Theorem C23_independent t tu tu' b b' fold Order Order' Trans Trans' M N M' N' (alpha : F t)
    A lda A' lda' X incX X' incX' Y incY Y' incY' bufX bufA bufX' bufA' us zs (m m' : mem t) :
  2 <= fold <= MAXFOLD t -> tuned t tu -> tuned t tu' -> legal_gemv b -> legal_gemv b' ->
  0 <= M -> 0 <= N -> 0 <= M' -> 0 <= N' ->
  let rows := op_rows Trans M N in let cols := op_cols Trans M N in
  rows = op_rows Trans' M' N' -> cols = op_cols Trans' M' N' ->
  gemv_layout fold Order Trans rows cols A lda X incX Y incY bufX bufA (xt_block b * yt_block b) ->
  gemv_layout fold Order' Trans' rows cols A' lda' X' incX' Y' incY' bufX' bufA' (xt_block b' * yt_block b') ->
  (* same matrix, same vector, same starting accumulators *)
  (forall i j, 0 <= i < rows -> 0 <= j < cols -> m (op_addr Order Trans A lda i j) = m' (op_addr Order' Trans' A' lda' i j)) ->
  (forall j, 0 <= j < cols -> m (X + j * incX) = m' (X' + j * incX')) ->
  (forall i, 0 <= i < rows -> acc_at fold (us i) (zs i) m (y_at fold Y incY i) /\ acc_at fold (us i) (zs i) m' (y_at fold Y' incY' i) /\
     all_finite (zs i) = true /\ cols + Z.of_nat (length (zs i)) <= CAPACITY t /\
     all_finite (gemv_products m Order Trans A lda alpha X incX cols i) = true) ->
  forall i, 0 <= i < rows ->
  same_words fold (dbdgemv tu b fold Order Trans M N alpha A lda X incX Y incY bufX bufA m) (y_at fold Y incY i)
    (dbdgemv tu' b' fold Order' Trans' M' N' alpha A' lda' X' incX' Y' incY' bufX' bufA' m') (y_at fold Y' incY' i).
Proof.
  intros Hf HT HT' LB LB' HM HN HM' HN' rows cols ER EC HL HL' EA EX H i Hi. rewrite CAPACITY_eq in H.
  assert (EP : forall i, 0 <= i < rows -> gemv_products m Order Trans A lda alpha X incX cols i = gemv_products m' Order' Trans' A' lda' alpha X' incX' cols i).
  { intros i' Hi'. unfold gemv_products. apply map_ext_in. intros j Hj. apply zseq_In in Hj. rewrite (EA i' j), (EX j) by lia. reflexivity. }
  destruct (feq alpha fzero) eqn:Al.
  - rewrite !C23_alpha_zero by exact Al. destruct (H i Hi) as (H1 & H2 & H3 & _).
    eapply same_acc_words; [exact Hf|exact H3| | |exact H1|exact H2]; reflexivity.
  - destruct (gemv_holds fold Hf tu b Order Trans M N alpha A lda X incX Y incY bufX bufA us zs m HT LB HM HN HL Al) as [G1 _].
    { intros r Hr. destruct (H r Hr) as (? & ? & ? & ? & ?). auto. }
    rewrite ER, EC in HL'.
    destruct (gemv_holds fold Hf tu' b' Order' Trans' M' N' alpha A' lda' X' incX' Y' incY' bufX' bufA' us zs m' HT' LB' HM' HN' HL' Al) as [G2 _].
    { rewrite <- ER, <- EC. intros r Hr. destruct (H r Hr) as (? & ? & ? & ? & ?). rewrite <- (EP r Hr). auto. }
    rewrite <- ER, <- EC in G2. destruct (H i Hi) as (H1 & H2 & H3 & H4 & H5).
    eapply same_acc_words; [exact Hf| | | |exact (G1 i Hi)|exact (G2 i Hi)]; [|reflexivity|].
    + rewrite all_finite_app. fold cols. rewrite H5. exact H3.
    + fold cols. rewrite (EP i Hi). reflexivity.
Qed.
Print Assumptions C23_independent.

(** ** C24 *)
Section MM.
  Context {t : ty} (fold : Z) (Hf : 2 <= fold <= MAXFOLD t).
  Lemma gemm_holds tu b Order TransA TransB M N K (alpha : F t) A lda B ldb C ldc bufA bufB us zs (m : mem t) :
    tuned t tu -> legal_gemm b -> 0 <= M -> 0 <= N -> 0 <= K ->
    gemm_layout fold Order TransA TransB M N K A lda B ldb C ldc bufA (bufA_len b M K) bufB (mxt_block b * myt_block b) ->
    feq alpha fzero = false ->
    (forall i j, 0 <= i < M -> 0 <= j < N -> acc_at fold (us i j) (zs i j) m (c_at fold Order C ldc i j) /\
       K + Z.of_nat (length (zs i j)) <= capacity t /\
       all_finite (gemm_products m Order TransA TransB A lda alpha B ldb K i j) = true) ->
    let m' := dbdgemm tu b fold Order TransA TransB M N K alpha A lda B ldb C ldc bufA bufB m in
    (forall i j, 0 <= i < M -> 0 <= j < N ->
       acc_at fold (us i j) (gemm_products m Order TransA TransB A lda alpha B ldb K i j ++ zs i j) m' (c_at fold Order C ldc i j)) /\
    (forall a, ~ gemm_touched fold Order M N C ldc bufA (bufA_len b M K) bufB (mxt_block b * myt_block b) a -> m' a = m a).
  Proof.
    intros HT LB HM HN HK (L1 & L2 & L3 & L4 & L5) Al H. cbv zeta. unfold dbdgemm. rewrite Al, orb_false_r. cbv zeta.
    destruct (Z.eqb_spec M 0) as [-> |NM].
    { cbn [orb]. split; auto. intros; lia. }
    destruct (Z.eqb_spec N 0) as [-> |NN].
    { cbn [orb]. split; auto. intros; lia. }
    destruct (Z.eqb_spec K 0) as [-> |NK].
    { cbn [orb]. split; auto. intros i j Hi Hj. unfold gemm_products. rewrite zseq_nil by lia. apply (H i j Hi Hj). }
    cbn [orb].
    set (elA := op_addr Order TransA A lda) in *. set (elB := op_addr Order TransB B ldb) in *.
    assert (KEY : forall m', mresult fold b (is_row Order) M N K alpha C ldc bufA bufB elA elB m (fun r => us (fst r) (snd r)) (fun r => zs (fst r) (snd r)) m' ->
      (forall i j, 0 <= i < M -> 0 <= j < N ->
       acc_at fold (us i j) (gemm_products m Order TransA TransB A lda alpha B ldb K i j ++ zs i j) m' (c_at fold Order C ldc i j)) /\
      (forall a, ~ gemm_touched fold Order M N C ldc bufA (bufA_len b M K) bufB (mxt_block b * myt_block b) a -> m' a = m a)).
    { intros m' [R1 R2]. split; [|exact R2]. intros i j Hi Hj. exact (R1 (i, j) (conj Hi Hj)). }
    apply KEY. clear KEY.
    assert (FT : forall r k, 0 <= fst r < M /\ 0 <= snd r < N -> 0 <= k < K ->
      is_finite (fmul (fmul (m (elA (fst r) k)) alpha) (m (elB k (snd r)))) = true).
    { intros (i, j) k (Hi & Hj) Hk. destruct (H i j Hi Hj) as (_ & _ & HF). exact (all_finite_map _ _ HF k Hk). }
    assert (HC : forall r, 0 <= fst r < M /\ 0 <= snd r < N -> K + Z.of_nat (length (zs (fst r) (snd r))) <= capacity t).
    { intros (i, j) (Hi & Hj). apply (H i j Hi Hj). }
    assert (H0 : forall r, 0 <= fst r < M /\ 0 <= snd r < N -> acc_at fold (us (fst r) (snd r)) (zs (fst r) (snd r)) m (c_at fold Order C ldc (fst r) (snd r))).
    { intros (i, j) (Hi & Hj). apply (H i j Hi Hj). }
    clear H.
    assert (L1' : if is_row Order then N <= ldc else M <= ldc) by exact L1.
    pose proof (gemm_core_ok fold Hf tu HT b LB (is_row Order) M N K HM HN HK alpha A lda B ldb C ldc bufA bufB elA elB m L1 L2 L3 L4 L5
      (fun r => us (fst r) (snd r)) (fun r => zs (fst r) (snd r)) FT HC H0) as CORE.
    assert (HLn : M * K <= bufA_len b M K) by (unfold bufA_len; lia).
    assert (SM : (forall i k, 0 <= i < M -> 0 <= k < K -> elA i k = A + i * lda + k) ->
      let '(pA, ld, m1) := scale_matrix M K alpha A lda bufA m in
      (forall a, ~ within bufA (bufA_len b M K) a -> m1 a = m a) /\
      (forall i k, 0 <= i < M -> 0 <= k < K -> m1 (pA + i * ld + k) = fmul (m (elA i k)) alpha /\
       (pA + i * ld + k = elA i k \/ within bufA (bufA_len b M K) (pA + i * ld + k)))).
    { intros EL. pose proof (scale_matrix_ok M K alpha A lda bufA (bufA_len b M K) m HM HK HLn) as SM.
      destruct (scale_matrix M K alpha A lda bufA m) as [[pA ld] m1]. destruct SM as [S1 S2].
      - intros i k Hi Hk Hw. rewrite <- EL in Hw by auto. apply (L2 i k Hi Hk). right. left. exact Hw.
      - split; [exact S1|]. intros i k Hi Hk. rewrite EL by auto. auto. }
    clear FT HC H0 L2 L3 L4 L5 L1 L1'.
    unfold op_addr, elem_addr in elA, elB.
    destruct (is_row Order) eqn:EO, (is_notrans TransA) eqn:EA, (is_notrans TransB) eqn:EB.
    - specialize (SM (fun _ _ _ _ => eq_refl)). destruct (scale_matrix M K alpha A lda bufA m) as [[pA ld] m1]. destruct SM as [S1 S2].
      exact (CORE false true pA ld m1 ltac:(discriminate) S1 (fun _ => S2) (fun _ _ _ _ => eq_refl)).
    - specialize (SM (fun _ _ _ _ => eq_refl)). destruct (scale_matrix M K alpha A lda bufA m) as [[pA ld] m1]. destruct SM as [S1 S2].
      exact (CORE false false pA ld m1 ltac:(discriminate) S1 (fun _ => S2) (fun _ _ _ _ => eq_refl)).
    - exact (CORE true true 0 0 m (fun _ _ _ _ _ => eq_refl) (fun _ _ => eq_refl) ltac:(discriminate) (fun _ _ _ _ => eq_refl)).
    - exact (CORE true false 0 0 m (fun _ _ _ _ _ => eq_refl) (fun _ _ => eq_refl) ltac:(discriminate) (fun _ _ _ _ => eq_refl)).
    - exact (CORE true false 0 0 m (fun _ _ _ _ _ => eq_refl) (fun _ _ => eq_refl) ltac:(discriminate) (fun _ _ _ _ => eq_refl)).
    - exact (CORE true true 0 0 m (fun _ _ _ _ _ => eq_refl) (fun _ _ => eq_refl) ltac:(discriminate) (fun _ _ _ _ => eq_refl)).
    - specialize (SM (fun _ _ _ _ => eq_refl)). destruct (scale_matrix M K alpha A lda bufA m) as [[pA ld] m1]. destruct SM as [S1 S2].
      exact (CORE false false pA ld m1 ltac:(discriminate) S1 (fun _ => S2) (fun _ _ _ _ => eq_refl)).
    - specialize (SM (fun _ _ _ _ => eq_refl)). destruct (scale_matrix M K alpha A lda bufA m) as [[pA ld] m1]. destruct SM as [S1 S2].
      exact (CORE false true pA ld m1 ltac:(discriminate) S1 (fun _ => S2) (fun _ _ _ _ => eq_refl)).
  Qed.
End MM.
(** dbdgemm leaves in C_ij the words left by adding (op(A)_ik * alpha) * op(B)_kj one at a time. *)
Theorem C24_gemm_is_adds t tu b fold Order TransA TransB M N K (alpha : F t) A lda B ldb C ldc bufA bufB us zs (m : mem t) :
  2 <= fold <= MAXFOLD t -> tuned t tu -> legal_gemm b -> 0 <= M -> 0 <= N -> 0 <= K ->
  let lenA := bufA_len b M K in let lenB := mxt_block b * myt_block b in
  gemm_layout fold Order TransA TransB M N K A lda B ldb C ldc bufA lenA bufB lenB ->
  feq alpha fzero = false ->
  (forall i j, 0 <= i < M -> 0 <= j < N -> acc_at fold (us i j) (zs i j) m (c_at fold Order C ldc i j) /\
     all_finite (zs i j) = true /\ K + Z.of_nat (length (zs i j)) <= CAPACITY t /\
     all_finite (gemm_products m Order TransA TransB A lda alpha B ldb K i j) = true) ->
  let m' := dbdgemm tu b fold Order TransA TransB M N K alpha A lda B ldb C ldc bufA bufB m in
  (forall i j, 0 <= i < M -> 0 <= j < N ->
     same_words fold m' (c_at fold Order C ldc i j)
       (add_list fold (c_at fold Order C ldc i j) (gemm_products m Order TransA TransB A lda alpha B ldb K i j) m)
       (c_at fold Order C ldc i j)) /\
  (forall a, ~ gemm_touched fold Order M N C ldc bufA lenA bufB lenB a -> m' a = m a).
Proof.
  intros Hf HT LB HM HN HK lenA lenB HL Al H m'. rewrite CAPACITY_eq in H.
  destruct (gemm_holds fold Hf tu b Order TransA TransB M N K alpha A lda B ldb C ldc bufA bufB us zs m HT LB HM HN HK HL Al) as [G1 G2].
  { intros i j Hi Hj. destruct (H i j Hi Hj) as (? & ? & ? & ?). auto. }
  split; [|exact G2]. intros i j Hi Hj. destruct (H i j Hi Hj) as (H1 & H2 & H3 & H4).
  destruct (add_list_holds fold Hf (c_at fold Order C ldc i j) (gemm_products m Order TransA TransB A lda alpha B ldb K i j) m (us i j) (zs i j) H1) as [S1 _].
  { rewrite app_length. unfold gemm_products in *.
    pose proof (zmap_length (fun k => fmul (fmul (m (op_addr Order TransA A lda i k)) alpha) (m (op_addr Order TransB B ldb k j))) K HK). lia. }
  eapply same_acc_words; [exact Hf| | | |exact (G1 i j Hi Hj)|exact S1]; [|reflexivity|].
  - rewrite all_finite_app, H4. exact H2.
  - apply Permutation_app_tail, Permutation_rev.
Qed.
Print Assumptions C24_gemm_is_adds.
Theorem C24_alpha_zero t tu b fold Order TransA TransB M N K (alpha : F t) A lda B ldb C ldc bufA bufB (m : mem t) :
  feq alpha fzero = true -> dbdgemm tu b fold Order TransA TransB M N K alpha A lda B ldb C ldc bufA bufB m = m.
Proof. intros H. unfold dbdgemm. now rewrite H, !orb_true_r. Qed.
Print Assumptions C24_alpha_zero.
(** Same op(A), op(B), starting C: any block sizes, order, transposition flags, addresses. *)
Theorem C24_independent t tu tu' b b' fold Order Order' TransA TransB TransA' TransB' M N K (alpha : F t)
    A lda A' lda' B ldb B' ldb' C ldc C' ldc' bufA bufB bufA' bufB' us zs (m m' : mem t) :
  2 <= fold <= MAXFOLD t -> tuned t tu -> tuned t tu' -> legal_gemm b -> legal_gemm b' -> 0 <= M -> 0 <= N -> 0 <= K ->
  gemm_layout fold Order TransA TransB M N K A lda B ldb C ldc bufA (bufA_len b M K) bufB (mxt_block b * myt_block b) ->
  gemm_layout fold Order' TransA' TransB' M N K A' lda' B' ldb' C' ldc' bufA' (bufA_len b' M K) bufB' (mxt_block b' * myt_block b') ->
  (forall i k, 0 <= i < M -> 0 <= k < K -> m (op_addr Order TransA A lda i k) = m' (op_addr Order' TransA' A' lda' i k)) ->
  (forall k j, 0 <= k < K -> 0 <= j < N -> m (op_addr Order TransB B ldb k j) = m' (op_addr Order' TransB' B' ldb' k j)) ->
  (forall i j, 0 <= i < M -> 0 <= j < N ->
     acc_at fold (us i j) (zs i j) m (c_at fold Order C ldc i j) /\ acc_at fold (us i j) (zs i j) m' (c_at fold Order' C' ldc' i j) /\
     all_finite (zs i j) = true /\ K + Z.of_nat (length (zs i j)) <= CAPACITY t /\
     all_finite (gemm_products m Order TransA TransB A lda alpha B ldb K i j) = true) ->
  forall i j, 0 <= i < M -> 0 <= j < N ->
  same_words fold (dbdgemm tu b fold Order TransA TransB M N K alpha A lda B ldb C ldc bufA bufB m) (c_at fold Order C ldc i j)
    (dbdgemm tu' b' fold Order' TransA' TransB' M N K alpha A' lda' B' ldb' C' ldc' bufA' bufB' m') (c_at fold Order' C' ldc' i j).
Proof.
  intros Hf HT HT' LB LB' HM HN HK HL HL' EA EB H i j Hi Hj. rewrite CAPACITY_eq in H.
  assert (EP : forall i j, 0 <= i < M -> 0 <= j < N ->
    gemm_products m Order TransA TransB A lda alpha B ldb K i j = gemm_products m' Order' TransA' TransB' A' lda' alpha B' ldb' K i j).
  { intros i' j' Hi' Hj'. unfold gemm_products. apply map_ext_in. intros k Hk. apply zseq_In in Hk. rewrite (EA i' k), (EB k j') by lia. reflexivity. }
  destruct (feq alpha fzero) eqn:Al.
  - rewrite !C24_alpha_zero by exact Al. destruct (H i j Hi Hj) as (H1 & H2 & H3 & _).
    eapply same_acc_words; [exact Hf|exact H3| | |exact H1|exact H2]; reflexivity.
  - destruct (gemm_holds fold Hf tu b Order TransA TransB M N K alpha A lda B ldb C ldc bufA bufB us zs m HT LB HM HN HK HL Al) as [G1 _].
    { intros r s Hr Hs. destruct (H r s Hr Hs) as (? & ? & ? & ? & ?). auto. }
    destruct (gemm_holds fold Hf tu' b' Order' TransA' TransB' M N K alpha A' lda' B' ldb' C' ldc' bufA' bufB' us zs m' HT' LB' HM HN HK HL' Al) as [G2 _].
    { intros r s Hr Hs. destruct (H r s Hr Hs) as (? & ? & ? & ? & ?). rewrite <- (EP r s Hr Hs). auto. }
    destruct (H i j Hi Hj) as (H1 & H2 & H3 & H4 & H5).
    eapply same_acc_words; [exact Hf| | | |exact (G1 i j Hi Hj)|exact (G2 i j Hi Hj)]; [|reflexivity|].
    + rewrite all_finite_app, H5. exact H3.
    + rewrite (EP i j Hi Hj). reflexivity.
Qed.
Print Assumptions C24_independent.

(** ** C25 *)
Section LOAD.
  Context {t : ty} (fold : Z) (Hf : 2 <= fold <= MAXFOLD t).
  Definition started (beta y : F t) : list (F t) := if feq beta fzero then [] else [fmul y beta].
  Lemma conv_holds T x (m : mem t) : let m' := dbdconv fold x T m in
    acc_at fold [] [x] m' T /\ (forall a, ~ within T (dbnum fold) a -> m' a = m a).
  Proof.
    destruct (sum_list_holds fold Hf T [x] m) as [A B]; [destruct t; discriminate|]. split; [exact A|exact B].
  Qed.
  Lemma start_holds T beta y (m : mem t) : let m' := start fold T beta y m in
    acc_at fold [] (started beta y) m' T /\ (forall a, ~ within T (dbnum fold) a -> m' a = m a).
  Proof.
    unfold start, started. destruct (feq beta fzero).
    - destruct (setzero_holds fold Hf T m) as [A B]. split; [exact A|exact B].
    - apply conv_holds.
  Qed.
  Lemma memset_holds n T (m : mem t) : 0 <= n ->
    let m' := for_up 0 (n * dbnum fold) (fun a m => upd m (T + a) fzero) m in
    (forall i, 0 <= i < n -> acc_at fold [] [] m' (T + i * dbnum fold)) /\
    (forall a, ~ within T (n * dbnum fold) a -> m' a = m a).
  Proof.
    intros Hn m'. assert (D : 0 <= n * dbnum fold) by (unfold dbnum; nia).
    pose proof (for_up_inv (fun k m1 => (forall a, 0 <= a < k -> m1 (T + a) = fzero) /\ (forall a, ~ within T (n * dbnum fold) a -> m1 a = m a))
      (fun a m => upd m (T + a) fzero) 0 (n * dbnum fold) m D) as G. cbv beta in G. fold m' in G.
    destruct G as [G1 G2].
    - split; auto. intros; lia.
    - intros k m1 Hk (G1 & G2). split.
      + intros a Ha. destruct (Z.eq_dec a k) as [-> |]; [apply upd_same|]. rewrite upd_other by lia. apply G1. lia.
      + intros a Ha. rewrite upd_other; auto. unfold within in Ha. lia.
    - split; [|exact G2]. intros i Hi j Hj. unfold dbnum in *.
      split; rewrite <- ?Z.add_assoc; apply G1; nia.
  Qed.
  (** A sequence of conversions into separate accumulators. *)
  Lemma load_step (ad : Z -> Z) n k x (xs : Z -> F t) (m0 m : mem t) : 0 <= k < n -> xs k = x ->
    (forall i, 0 <= i < n -> i <> k -> apart (dbnum fold) (ad i) (ad k)) ->
    (forall i, 0 <= i < k -> acc_at fold [] [xs i] m (ad i)) ->
    (forall a, (forall i, 0 <= i < n -> ~ within (ad i) (dbnum fold) a) -> m a = m0 a) ->
    (forall i, 0 <= i < k + 1 -> acc_at fold [] [xs i] (dbdconv fold x (ad k) m) (ad i)) /\
    (forall a, (forall i, 0 <= i < n -> ~ within (ad i) (dbnum fold) a) -> dbdconv fold x (ad k) m a = m0 a).
  Proof.
    intros Hk Ex AP G1 G2. destruct (conv_holds (ad k) x m) as [C1 C2]. split.
    - intros i Hi. destruct (Z.eq_dec i k) as [-> |NE]; [rewrite Ex; exact C1|].
      eapply (acc_at_frame fold Hf); [|apply (G1 i); lia]. intros a Ha. apply C2.
      specialize (AP i ltac:(lia) NE). unfold apart, within in *. lia.
    - intros a Ha. rewrite C2; auto.
  Qed.
  Lemma load_outputs_ok n (beta : F t) Y incY YI (m : mem t) : 0 <= n ->
    (forall i, 0 <= i < n -> ~ within YI (n * dbnum fold) (Y + i * incY)) ->
    let m' := load_outputs fold n beta Y incY YI m in
    (forall i, 0 <= i < n -> acc_at fold [] (started beta (m (Y + i * incY))) m' (YI + i * dbnum fold)) /\
    (forall a, ~ within YI (n * dbnum fold) a -> m' a = m a).
  Proof.
    intros Hn HY. unfold load_outputs, started. destruct (feq beta fzero); [apply memset_holds; exact Hn|].
    assert (L : forall g : F t -> F t, (forall y, g y = fmul y beta) ->
      let m' := for_up 0 n (fun i m => dbdconv fold (g (m (Y + i * incY))) (YI + i * dbnum fold) m) m in
      (forall i, 0 <= i < n -> acc_at fold [] [fmul (m (Y + i * incY)) beta] m' (YI + i * dbnum fold)) /\
      (forall a, ~ within YI (n * dbnum fold) a -> m' a = m a)).
    { intros g Hg m'.
      assert (O : forall a, ~ within YI (n * dbnum fold) a -> forall i, 0 <= i < n -> ~ within (YI + i * dbnum fold) (dbnum fold) a).
      { intros a Ha i Hi Hw. apply Ha. unfold within, dbnum in *. nia. }
      pose proof (for_up_inv (fun k m1 => (forall i, 0 <= i < k -> acc_at fold [] [fmul (m (Y + i * incY)) beta] m1 (YI + i * dbnum fold)) /\
        (forall a, (forall i, 0 <= i < n -> ~ within (YI + i * dbnum fold) (dbnum fold) a) -> m1 a = m a))
        (fun i m => dbdconv fold (g (m (Y + i * incY))) (YI + i * dbnum fold) m) 0 n m Hn) as G. cbv beta in G. fold m' in G.
      destruct G as [G1 G2].
      - split; auto. intros; lia.
      - intros k m1 Hk (G1 & G2). apply (load_step (fun i => YI + i * dbnum fold) n k _ (fun i => fmul (m (Y + i * incY)) beta) m m1); auto.
        + rewrite Hg, G2 by (apply O; apply HY; exact Hk). reflexivity.
        + intros i Hi NE. unfold apart, dbnum. nia.
      - split; [exact G1|]. intros a Ha. apply G2. apply O. exact Ha. }
    destruct (is_one beta) eqn:E1.
    - apply (L (fun y => y)). intros y. symmetry. now apply fmul_one.
    - apply (L (fun y => fmul y beta)). reflexivity.
  Qed.
  Lemma store_outputs_ok n Y incY YI (xs : Z -> list (F t)) (m : mem t) : 0 <= n -> incY <> 0 ->
    (forall i, 0 <= i < n -> ~ within YI (n * dbnum fold) (Y + i * incY)) ->
    (forall i, 0 <= i < n -> acc_at fold [] (xs i) m (YI + i * dbnum fold)) ->
    let m' := store_outputs fold n Y incY YI m in
    (forall i, 0 <= i < n -> m' (Y + i * incY) = ddbconv fold (YI + i * dbnum fold) m) /\
    (forall a, (forall i, 0 <= i < n -> a <> Y + i * incY) -> m' a = m a).
  Proof.
    intros Hn NY HY HA m'.
    pose proof (for_up_inv (fun k m1 => (forall i, 0 <= i < k -> m1 (Y + i * incY) = ddbconv fold (YI + i * dbnum fold) m) /\
      (forall a, (forall i, 0 <= i < n -> a <> Y + i * incY) -> m1 a = m a))
      (fun i m => upd m (Y + i * incY) (ddbconv fold (YI + i * dbnum fold) m)) 0 n m Hn) as G. cbv beta in G. fold m' in G. apply G.
    - split; auto. intros; lia.
    - intros k m1 Hk (G1 & G2).
      assert (E : ddbconv fold (YI + k * dbnum fold) m1 = ddbconv fold (YI + k * dbnum fold) m).
      { eapply conv_acc; [exact Hf|reflexivity|reflexivity| |exact (HA k Hk)].
        eapply (acc_at_frame fold Hf); [|exact (HA k Hk)]. intros a Ha. apply G2. intros i Hi ->. apply (HY i Hi). unfold within, dbnum in *. nia. }
      split.
      + intros i Hi. destruct (Z.eq_dec i k) as [-> |]; [rewrite upd_same; exact E|]. rewrite upd_other by nia. apply G1. lia.
      + intros a Ha. rewrite upd_other; auto.
  Qed.
  (** Two nested loops as one over the flat index. *)
  Lemma nest_inv {St : Type} (I : Z -> St -> Prop) (f : Z -> Z -> St -> St) R S s : 0 <= R -> 0 <= S -> I 0 s ->
    (forall i j s, 0 <= i < R -> 0 <= j < S -> I (i * S + j) s -> I (i * S + j + 1) (f i j s)) ->
    I (R * S) (for_up 0 R (fun i s => for_up 0 S (fun j s => f i j s) s) s).
  Proof.
    intros HR HS H0 HI.
    pose proof (for_up_inv (fun i s => I (i * S) s) (fun i s => for_up 0 S (fun j s => f i j s) s) 0 R s HR) as G. cbv beta in G. apply G.
    - exact H0.
    - intros i s1 Hi H1.
      pose proof (for_up_inv (fun j s => I (i * S + j) s) (fun j s => f i j s) 0 S s1 HS) as G2. cbv beta in G2.
      replace ((i + 1) * S) with (i * S + S) by lia. apply G2.
      + rewrite Z.add_0_r. exact H1.
      + intros j s2 Hj H2. rewrite Z.add_assoc. apply HI; auto.
  Qed.
  Lemma flat_index i j S : 0 <= j < S -> (i * S + j) / S = i /\ (i * S + j) mod S = j.
  Proof.
    intros H. split.
    - rewrite Z.div_add_l by lia. rewrite Z.div_small by lia. lia.
    - rewrite Z.add_comm, Z.mod_add by lia. apply Z.mod_small. lia.
  Qed.
  Lemma load_matrix_ok R S (beta : F t) C ldc CI (m : mem t) : 0 <= R -> 0 <= S ->
    (forall i j, 0 <= i < R -> 0 <= j < S -> ~ within CI (R * S * dbnum fold) (C + (i * ldc + j))) ->
    let m' := load_matrix fold R S beta C ldc CI m in
    (forall i j, 0 <= i < R -> 0 <= j < S -> acc_at fold [] (started beta (m (C + (i * ldc + j)))) m' (CI + (i * S + j) * dbnum fold)) /\
    (forall a, ~ within CI (R * S * dbnum fold) a -> m' a = m a).
  Proof.
    intros HR HS HY. assert (HRS : 0 <= R * S) by nia.
    assert (FL : forall i j, 0 <= i < R -> 0 <= j < S -> 0 <= i * S + j < R * S) by (intros; nia).
    unfold load_matrix, started. destruct (feq beta fzero).
    { destruct (memset_holds (R * S) CI m HRS) as [M1 M2]. split; [|exact M2]. intros i j Hi Hj. apply M1. apply FL; auto. }
    assert (L : forall g : F t -> F t, (forall y, g y = fmul y beta) ->
      let m' := for_up 0 R (fun i m => for_up 0 S (fun j m => dbdconv fold (g (m (C + (i * ldc + j)))) (CI + (i * S + j) * dbnum fold) m) m) m in
      (forall i j, 0 <= i < R -> 0 <= j < S -> acc_at fold [] [fmul (m (C + (i * ldc + j))) beta] m' (CI + (i * S + j) * dbnum fold)) /\
      (forall a, ~ within CI (R * S * dbnum fold) a -> m' a = m a)).
    { intros g Hg m'.
      assert (O : forall a, ~ within CI (R * S * dbnum fold) a -> forall k, 0 <= k < R * S -> ~ within (CI + k * dbnum fold) (dbnum fold) a).
      { intros a Ha i Hi Hw. apply Ha. unfold within, dbnum in *. nia. }
      set (src := fun k => C + (k / S * ldc + k mod S)).
      assert (ES : forall i j, 0 <= j < S -> src (i * S + j) = C + (i * ldc + j)).
      { intros i j Hj. unfold src. destruct (flat_index i j S Hj) as [-> ->]. reflexivity. }
      pose proof (nest_inv (fun k m1 => (forall i, 0 <= i < k -> acc_at fold [] [fmul (m (src i)) beta] m1 (CI + i * dbnum fold)) /\
        (forall a, (forall i, 0 <= i < R * S -> ~ within (CI + i * dbnum fold) (dbnum fold) a) -> m1 a = m a))
        (fun i j m => dbdconv fold (g (m (C + (i * ldc + j)))) (CI + (i * S + j) * dbnum fold) m) R S m HR HS) as G. cbv beta in G. fold m' in G.
      destruct G as [G1 G2].
      - split; auto. intros; lia.
      - intros i j m1 Hi Hj (G1 & G2).
        apply (load_step (fun i => CI + i * dbnum fold) (R * S) (i * S + j) _ (fun i => fmul (m (src i)) beta) m m1); auto.
        + rewrite ES by exact Hj. rewrite Hg, G2 by (apply O; apply HY; auto). reflexivity.
        + intros k Hk NE. unfold apart, dbnum. nia.
      - split.
        + intros i j Hi Hj. specialize (G1 (i * S + j) (FL i j Hi Hj)). rewrite ES in G1 by exact Hj. exact G1.
        + intros a Ha. apply G2. apply O. exact Ha. }
    destruct (is_one beta) eqn:E1.
    - apply (L (fun y => y)). intros y. symmetry. now apply fmul_one.
    - apply (L (fun y => fmul y beta)). reflexivity.
  Qed.
  Lemma store_matrix_ok R S C ldc CI (xs : Z -> Z -> list (F t)) (m : mem t) : 0 <= R -> 0 <= S -> S <= ldc ->
    (forall i j, 0 <= i < R -> 0 <= j < S -> ~ within CI (R * S * dbnum fold) (C + (i * ldc + j))) ->
    (forall i j, 0 <= i < R -> 0 <= j < S -> acc_at fold [] (xs i j) m (CI + (i * S + j) * dbnum fold)) ->
    let m' := store_matrix fold R S C ldc CI m in
    (forall i j, 0 <= i < R -> 0 <= j < S -> m' (C + (i * ldc + j)) = ddbconv fold (CI + (i * S + j) * dbnum fold) m) /\
    (forall a, (forall i j, 0 <= i < R -> 0 <= j < S -> a <> C + (i * ldc + j)) -> m' a = m a).
  Proof.
    intros HR HS HL HY HA m'.
    assert (FL : forall i j, 0 <= i < R -> 0 <= j < S -> 0 <= i * S + j < R * S) by (intros; nia).
    pose proof (nest_inv (fun k m1 => (forall i j, 0 <= i < R -> 0 <= j < S -> i * S + j < k -> m1 (C + (i * ldc + j)) = ddbconv fold (CI + (i * S + j) * dbnum fold) m) /\
      (forall a, (forall i j, 0 <= i < R -> 0 <= j < S -> a <> C + (i * ldc + j)) -> m1 a = m a))
      (fun i j m => upd m (C + (i * ldc + j)) (ddbconv fold (CI + (i * S + j) * dbnum fold) m)) R S m HR HS) as G. cbv beta in G. fold m' in G.
    destruct G as [G1 G2].
    - split; auto. intros; nia.
    - intros i j m1 Hi Hj (G1 & G2).
      assert (E : ddbconv fold (CI + (i * S + j) * dbnum fold) m1 = ddbconv fold (CI + (i * S + j) * dbnum fold) m).
      { eapply conv_acc; [exact Hf|reflexivity|reflexivity| |exact (HA i j Hi Hj)].
        eapply (acc_at_frame fold Hf); [|exact (HA i j Hi Hj)]. intros a Ha. apply G2. intros i' j' Hi' Hj' ->. apply (HY i' j' Hi' Hj').
        pose proof (FL i j Hi Hj). unfold within, dbnum in *. nia. }
      split.
      + intros i' j' Hi' Hj' Hlt. destruct (Z.eq_dec i' i) as [-> |NE]; [destruct (Z.eq_dec j' j) as [-> |NE]|].
        * rewrite upd_same. exact E.
        * rewrite upd_other by lia. apply G1; auto; lia.
        * rewrite upd_other; [apply G1; auto; nia|]. nia.
      + intros a Ha. rewrite upd_other; auto.
    - split; [|exact G2]. intros i j Hi Hj. apply G1; auto. apply FL; auto.
  Qed.
End LOAD.
(** Every output is the conversion of the accumulator started from beta*y (empty when
    beta = 0, even if y is NaN) to which the products are added; beta*y may be non
    finite.  T is any accumulator. *)
Theorem C25_gemv t tu b fold Order Trans M N (alpha beta : F t) A lda X incX Y incY YI bufX bufA T (m : mem t) :
  2 <= fold <= MAXFOLD t -> tuned t tu -> legal_gemv b -> 0 < M -> 0 < N ->
  let rows := op_rows Trans M N in let cols := op_cols Trans M N in let lenA := xt_block b * yt_block b in
  gemv_layout fold Order Trans rows cols A lda X incX YI 1 bufX bufA lenA -> incY <> 0 ->
  (forall i, 0 <= i < rows -> ~ gemv_touched fold rows YI 1 bufX cols bufA lenA (Y + i * incY)) ->
  cols + 1 <= CAPACITY t ->
  (forall i, 0 <= i < rows -> all_finite (gemv_products m Order Trans A lda alpha X incX cols i) = true) ->
  let m' := rdgemv tu b fold Order Trans M N alpha A lda X incX beta Y incY YI bufX bufA m in
  (forall i, 0 <= i < rows ->
     let products := if feq alpha fzero then [] else gemv_products m Order Trans A lda alpha X incX cols i in
     m' (Y + i * incY) = ddbconv fold T (add_list fold T products (start fold T beta (m (Y + i * incY)) m))) /\
  (forall a, (forall i, 0 <= i < rows -> a <> Y + i * incY) -> ~ gemv_touched fold rows YI 1 bufX cols bufA lenA a -> m' a = m a).
Proof.
  intros Hf HT LB HM HN rows cols lenA HL NY HY HC HF. cbv zeta. rewrite CAPACITY_eq in HC.
  assert (Hr : 0 <= rows) by (unfold rows, op_rows; destruct (is_notrans Trans); lia).
  assert (Hc : 0 <= cols) by (unfold cols, op_cols; destruct (is_notrans Trans); lia).
  unfold rdgemv. replace ((N =? 0) || (M =? 0)) with false by (symmetry; apply orb_false_iff; split; apply Z.eqb_neq; lia).
  change (if is_notrans Trans then M else N) with rows. cbv zeta.
  assert (YT : forall a, within YI (rows * dbnum fold) a -> gemv_touched fold rows YI 1 bufX cols bufA lenA a).
  { intros a Ha. left. exists ((a - YI) / dbnum fold). unfold within, y_at, dbnum in *. pose proof (Z.div_mod (a - YI) (2 * fold) ltac:(lia)).
    pose proof (Z.mod_pos_bound (a - YI) (2 * fold) ltac:(lia)). assert (0 <= (a - YI) / (2 * fold)) by (apply Z.div_pos; lia). nia. }
  assert (HY' : forall i, 0 <= i < rows -> ~ within YI (rows * dbnum fold) (Y + i * incY)).
  { intros i Hi Hw. exact (HY i Hi (YT _ Hw)). }
  destruct (load_outputs_ok fold Hf rows beta Y incY YI m Hr HY') as [L1 L2].
  set (m1 := load_outputs fold rows beta Y incY YI m) in *. clearbody m1.
  assert (EP : forall i, 0 <= i < rows -> gemv_products m1 Order Trans A lda alpha X incX cols i = gemv_products m Order Trans A lda alpha X incX cols i).
  { destruct HL as (_ & HA & HX & _). intros i Hi. unfold gemv_products. apply map_ext_in. intros j Hj. apply zseq_In in Hj.
    rewrite !L2; auto; intros Hw; [apply (HX j ltac:(lia))|apply (HA i j Hi ltac:(lia))]; apply YT; exact Hw. }
  set (prods := fun i => if feq alpha fzero then [] else gemv_products m Order Trans A lda alpha X incX cols i).
  assert (G : let m2 := dbdgemv tu b fold Order Trans M N alpha A lda X incX YI 1 bufX bufA m1 in
    (forall i, 0 <= i < rows -> acc_at fold [] (prods i ++ started beta (m (Y + i * incY))) m2 (YI + i * dbnum fold)) /\
    (forall a, ~ gemv_touched fold rows YI 1 bufX cols bufA lenA a -> m2 a = m1 a)).
  { unfold prods. destruct (feq alpha fzero) eqn:Al.
    - rewrite C23_alpha_zero by exact Al. cbn [app]. auto.
    - destruct (gemv_holds fold Hf tu b Order Trans M N alpha A lda X incX YI 1 bufX bufA (fun _ => []) (fun i => started beta (m (Y + i * incY))) m1 HT LB ltac:(lia) ltac:(lia) HL Al) as [G1 G2].
      + fold rows cols. intros i Hi. rewrite (EP i Hi). split; [|split; [|apply HF; exact Hi]].
        * unfold y_at. rewrite Z.mul_1_r. apply L1. exact Hi.
        * unfold started. destruct (feq beta fzero); cbn [length]; lia.
      + fold rows cols in G1, G2. split; [|exact G2]. intros i Hi. specialize (G1 i Hi). rewrite (EP i Hi) in G1.
        unfold y_at in G1. rewrite Z.mul_1_r in G1. exact G1. }
  cbv zeta in G. destruct G as [G1 G2].
  set (m2 := dbdgemv tu b fold Order Trans M N alpha A lda X incX YI 1 bufX bufA m1) in *. clearbody m2.
  destruct (store_outputs_ok fold Hf rows Y incY YI (fun i => prods i ++ started beta (m (Y + i * incY))) m2 Hr NY HY' G1) as [S1 S2].
  cbv zeta in S1, S2. set (m' := store_outputs fold rows Y incY YI m2) in *. clearbody m'. split.
  - intros i Hi. rewrite S1 by exact Hi. change (if feq alpha fzero then [] else gemv_products m Order Trans A lda alpha X incX cols i) with (prods i).
    destruct (start_holds fold Hf T beta (m (Y + i * incY)) m) as [T1 _].
    destruct (add_list_holds fold Hf T (prods i) _ _ _ T1) as [T2 _].
    { rewrite app_length. assert (LP : Z.of_nat (length (prods i)) <= cols).
      { unfold prods. destruct (feq alpha fzero); [cbn; lia|]. unfold gemv_products. rewrite zmap_length by exact Hc. lia. }
      unfold started. destruct (feq beta fzero); cbn [length]; lia. }
    eapply conv_acc; [exact Hf|reflexivity| |exact (G1 i Hi)|exact T2]. apply Permutation_app_tail, Permutation_rev.
  - intros a Ha Hn. rewrite S2 by exact Ha. rewrite G2 by exact Hn. apply L2. intros Hw. apply Hn. apply YT. exact Hw.
Qed.
Print Assumptions C25_gemv.
(** An empty matrix leaves y as it is (BLAS quick return). *)
Theorem C25_gemv_empty t tu b fold Order Trans M N (alpha beta : F t) A lda X incX Y incY YI bufX bufA (m : mem t) :
  M = 0 \/ N = 0 -> rdgemv tu b fold Order Trans M N alpha A lda X incX beta Y incY YI bufX bufA m = m.
Proof. intros [-> | ->]; unfold rdgemv; rewrite ?orb_true_r; reflexivity. Qed.
Print Assumptions C25_gemv_empty.

Theorem C25_gemm t tu b fold Order TransA TransB M N K (alpha beta : F t) A lda B ldb C ldc CI bufA bufB T (m : mem t) :
  2 <= fold <= MAXFOLD t -> tuned t tu -> legal_gemm b -> 0 < M -> 0 < N -> 0 <= K ->
  let ldi := if is_row Order then N else M in
  let lenA := bufA_len b M K in let lenB := mxt_block b * myt_block b in
  gemm_layout fold Order TransA TransB M N K A lda B ldb CI ldi bufA lenA bufB lenB -> ldi <= ldc ->
  (forall i j, 0 <= i < M -> 0 <= j < N -> ~ gemm_touched fold Order M N CI ldi bufA lenA bufB lenB (elem_addr Order C ldc i j)) ->
  K + 1 <= CAPACITY t ->
  (forall i j, 0 <= i < M -> 0 <= j < N -> all_finite (gemm_products m Order TransA TransB A lda alpha B ldb K i j) = true) ->
  let m' := rdgemm tu b fold Order TransA TransB M N K alpha A lda B ldb beta C ldc CI bufA bufB m in
  (forall i j, 0 <= i < M -> 0 <= j < N ->
     let products := if feq alpha fzero then [] else gemm_products m Order TransA TransB A lda alpha B ldb K i j in
     m' (elem_addr Order C ldc i j) =
       ddbconv fold T (add_list fold T products (start fold T beta (m (elem_addr Order C ldc i j)) m))) /\
  (forall a, (forall i j, 0 <= i < M -> 0 <= j < N -> a <> elem_addr Order C ldc i j) ->
     ~ gemm_touched fold Order M N CI ldi bufA lenA bufB lenB a -> m' a = m a).
Proof.
  intros Hf HT LB HM HN HK ldi lenA lenB HL Hld HY HC HF. cbv zeta. rewrite CAPACITY_eq in HC.
  set (prods := fun i j => if feq alpha fzero then [] else gemm_products m Order TransA TransB A lda alpha B ldb K i j).
  assert (LP : forall i j, Z.of_nat (length (prods i j)) <= K).
  { intros i j. unfold prods. destruct (feq alpha fzero); [cbn; lia|]. unfold gemm_products. rewrite zmap_length by exact HK. lia. }
  (* the accumulators in C order *)
  assert (G : forall m1, (forall a, ~ gemm_touched fold Order M N CI ldi bufA lenA bufB lenB a -> m1 a = m a) ->
    (forall i j, 0 <= i < M -> 0 <= j < N -> acc_at fold [] (started beta (m (elem_addr Order C ldc i j))) m1 (c_at fold Order CI ldi i j)) ->
    let m2 := dbdgemm tu b fold Order TransA TransB M N K alpha A lda B ldb CI ldi bufA bufB m1 in
    (forall i j, 0 <= i < M -> 0 <= j < N -> acc_at fold [] (prods i j ++ started beta (m (elem_addr Order C ldc i j))) m2 (c_at fold Order CI ldi i j)) /\
    (forall a, ~ gemm_touched fold Order M N CI ldi bufA lenA bufB lenB a -> m2 a = m a)).
  { intros m1 Hm1 HA1.
    assert (EP : forall i j, 0 <= i < M -> 0 <= j < N -> gemm_products m1 Order TransA TransB A lda alpha B ldb K i j = gemm_products m Order TransA TransB A lda alpha B ldb K i j).
    { destruct HL as (_ & HA & HB & _). intros i j Hi Hj. unfold gemm_products. apply map_ext_in. intros k Hk. apply zseq_In in Hk.
      rewrite (Hm1 (op_addr Order TransA A lda i k)) by (apply HA; lia). rewrite (Hm1 (op_addr Order TransB B ldb k j)) by (apply HB; lia). reflexivity. }
    unfold prods. destruct (feq alpha fzero) eqn:Al.
    - rewrite C24_alpha_zero by exact Al. cbn [app]. auto.
    - destruct (gemm_holds fold Hf tu b Order TransA TransB M N K alpha A lda B ldb CI ldi bufA bufB (fun _ _ => []) (fun i j => started beta (m (elem_addr Order C ldc i j))) m1 HT LB ltac:(lia) ltac:(lia) HK HL Al) as [G1 G2].
      + intros i j Hi Hj. rewrite (EP i j Hi Hj). split; [|split; [|apply HF; auto]].
        * apply HA1; auto.
        * unfold started. destruct (feq beta fzero); cbn [length]; lia.
      + cbv zeta. split.
        * intros i j Hi Hj. specialize (G1 i j Hi Hj). rewrite (EP i j Hi Hj) in G1. exact G1.
        * intros a Ha. rewrite G2 by exact Ha. apply Hm1. exact Ha. }
  assert (FIN : forall i j x (m2 : mem t) P, acc_at fold [] (prods i j ++ started beta (m (elem_addr Order C ldc i j))) m2 P -> x = ddbconv fold P m2 ->
     x = ddbconv fold T (add_list fold T (prods i j) (start fold T beta (m (elem_addr Order C ldc i j)) m))).
  { intros i j x m2 P HA ->. destruct (start_holds fold Hf T beta (m (elem_addr Order C ldc i j)) m) as [T1 _].
    destruct (add_list_holds fold Hf T (prods i j) _ _ _ T1) as [T2 _].
    { rewrite app_length. pose proof (LP i j). unfold started. destruct (feq beta fzero); cbn [length]; lia. }
    eapply conv_acc; [exact Hf|reflexivity| |exact HA|exact T2]. apply Permutation_app_tail, Permutation_rev. }
  unfold rdgemm. replace ((M =? 0) || (N =? 0)) with false by (symmetry; apply orb_false_iff; split; apply Z.eqb_neq; lia).
  assert (YT : forall a, within CI (M * N * dbnum fold) a -> gemm_touched fold Order M N CI ldi bufA lenA bufB lenB a).
  { intros a Ha. left. unfold within, c_at, dbnum, ldi in *.
    pose proof (Z.div_mod (a - CI) (2 * fold) ltac:(lia)). pose proof (Z.mod_pos_bound (a - CI) (2 * fold) ltac:(lia)).
    assert (Hq0 : 0 <= (a - CI) / (2 * fold)) by (apply Z.div_pos; lia). set (q := (a - CI) / (2 * fold)) in *.
    assert (Hq : q < M * N) by nia. clearbody q. destruct (is_row Order).
    - exists (q / N), (q mod N). pose proof (Z.div_mod q N ltac:(lia)). pose proof (Z.mod_pos_bound q N ltac:(lia)).
      assert (0 <= q / N) by (apply Z.div_pos; lia). split; [nia|]. split; [lia|]. nia.
    - exists (q mod M), (q / M). pose proof (Z.div_mod q M ltac:(lia)). pose proof (Z.mod_pos_bound q M ltac:(lia)).
      assert (0 <= q / M) by (apply Z.div_pos; lia). split; [lia|]. split; nia. }
  clear HL HF HT LB HC LP.
  unfold elem_addr, c_at, ldi in *. destruct (is_row Order).
  - cbv zeta. destruct (load_matrix_ok fold Hf M N beta C ldc CI m ltac:(lia) ltac:(lia)) as [L1 L2].
    { intros i j Hi Hj Hw. apply (HY i j Hi Hj). rewrite <- Z.add_assoc. apply YT. exact Hw. }
    set (m1 := load_matrix fold M N beta C ldc CI m) in *. clearbody m1.
    destruct (G m1) as [G1 G2].
    { intros a Ha. apply L2. intros Hw. apply Ha. apply YT. exact Hw. }
    { intros i j Hi Hj. rewrite <- Z.add_assoc. apply L1; auto. }
    set (m2 := dbdgemm _ _ _ _ _ _ _ _ _ _ _ _ _ _ _ _ _ _ _) in *. clearbody m2.
    destruct (store_matrix_ok fold Hf M N C ldc CI (fun i j => prods i j ++ started beta (m (C + i * ldc + j))) m2 ltac:(lia) ltac:(lia) Hld) as [S1 S2].
    { intros i j Hi Hj Hw. apply (HY i j Hi Hj). rewrite <- Z.add_assoc. apply YT. exact Hw. }
    { exact G1. }
    cbv zeta in S1, S2. set (m' := store_matrix fold M N C ldc CI m2) in *. clearbody m'. split.
    + intros i j Hi Hj. eapply FIN; [exact (G1 i j Hi Hj)|]. rewrite <- (Z.add_assoc C). apply S1; auto.
    + intros a Ha Hn. rewrite S2; [apply G2; exact Hn|]. intros i j Hi Hj. rewrite Z.add_assoc. apply Ha; auto.
  - cbv zeta. destruct (load_matrix_ok fold Hf N M beta C ldc CI m ltac:(lia) ltac:(lia)) as [L1 L2].
    { intros i j Hi Hj Hw. apply (HY j i Hj Hi). rewrite <- Z.add_assoc. apply YT. rewrite (Z.mul_comm M). exact Hw. }
    set (m1 := load_matrix fold N M beta C ldc CI m) in *. clearbody m1.
    destruct (G m1) as [G1 G2].
    { intros a Ha. apply L2. intros Hw. apply Ha. apply YT. rewrite (Z.mul_comm M). exact Hw. }
    { intros i j Hi Hj. rewrite <- Z.add_assoc. apply L1; auto. }
    set (m2 := dbdgemm _ _ _ _ _ _ _ _ _ _ _ _ _ _ _ _ _ _ _) in *. clearbody m2.
    destruct (store_matrix_ok fold Hf N M C ldc CI (fun j i => prods i j ++ started beta (m (C + j * ldc + i))) m2 ltac:(lia) ltac:(lia) Hld) as [S1 S2].
    { intros i j Hi Hj Hw. apply (HY j i Hj Hi). rewrite <- Z.add_assoc. apply YT. rewrite (Z.mul_comm M). exact Hw. }
    { intros j i Hj Hi. apply G1; auto. }
    cbv zeta in S1, S2. set (m' := store_matrix fold N M C ldc CI m2) in *. clearbody m'. split.
    + intros i j Hi Hj. eapply FIN; [exact (G1 i j Hi Hj)|]. rewrite <- (Z.add_assoc C). apply S1; auto.
    + intros a Ha Hn. rewrite S2; [apply G2; exact Hn|]. intros j i Hj Hi. rewrite Z.add_assoc. apply Ha; auto.
Qed.
Print Assumptions C25_gemm.
Theorem C25_gemm_empty t tu b fold Order TransA TransB M N K (alpha beta : F t) A lda B ldb C ldc CI bufA bufB (m : mem t) :
  M = 0 \/ N = 0 -> rdgemm tu b fold Order TransA TransB M N K alpha A lda B ldb beta C ldc CI bufA bufB m = m.
Proof. intros [-> | ->]; unfold rdgemm; rewrite ?orb_true_r; reflexivity. Qed.
Print Assumptions C25_gemm_empty.

(** ** Cases meeting the hypotheses of C23, C24, C25: every order and transposition *)
Definition sample_blocks : gemv_blocks := GemvBlocks 2 4 2 4 1.
Definition sample_mblocks : gemm_blocks := GemmBlocks 1 2 2 4.
Definition sample_mem : mem Dbl := fun a => mkf (a mod 7 - 3) (10 * (a mod 3)).
Definition gemv_run (Order Trans : ascii) : mem Dbl :=
  rdgemv sample_tuning sample_blocks 3 Order Trans (if is_notrans Trans then 3 else 5) (if is_notrans Trans then 5 else 3)
    (mkf 1 1) 0 6 100 2 (mkf (-3) 0) 900 10 1000 2000 3000 sample_mem.
Lemma below3 (P : Z -> Prop) : P 0 -> P 1 -> P 2 -> forall i, 0 <= i < 3 -> P i.
Proof. intros H0 H1 H2 i Hi. assert (E : i = 0 \/ i = 1 \/ i = 2) by lia. destruct E as [-> |[-> | ->]]; auto. Qed.
Lemma below2 (P : Z -> Prop) : P 0 -> P 1 -> forall i, 0 <= i < 2 -> P i.
Proof. intros H0 H1 i Hi. assert (E : i = 0 \/ i = 1) by lia. destruct E as [-> | ->]; auto. Qed.
Example C23_case : legal_gemv sample_blocks /\
  (forall Order Trans, gemv_layout 3 Order Trans 3 5 0 6 100 2 1000 1 2000 3000 (xt_block sample_blocks * yt_block sample_blocks)) /\
  (forall Order Trans i, In Order ["r"; "C"]%char -> In Trans ["N"; "t"]%char -> 0 <= i < 3 ->
     all_finite (gemv_products sample_mem Order Trans 0 6 (mkf 1 1) 100 2 5 i) = true).
Proof.
  split; [|split].
  - unfold legal_gemv. cbn. unfold tiles. repeat split; try lia. right. exists 2. reflexivity. right. exists 2. reflexivity.
  - intros Order Trans.
    assert (OA : forall i j, 0 <= i < 3 -> 0 <= j < 5 -> 0 <= op_addr Order Trans 0 6 i j < 30) by (intros i j Hi Hj; unfold op_addr, elem_addr; destruct (is_row Order), (is_notrans Trans); lia).
    change (xt_block sample_blocks * yt_block sample_blocks) with 4.
    unfold gemv_layout, gemv_touched, within, y_at, dbnum. split; [lia|]. split; [|split; [|split]].
    + intros i j Hi Hj. specialize (OA i j Hi Hj). intros [(r & Hr & H)|[H|H]]; lia.
    + intros j Hj. intros [(r & Hr & H)|[H|H]]; lia.
    + intros; lia.
    + intros; lia.
  - intros Order Trans i HO HT Hi. revert i Hi. destruct HO as [<-|[<-|[]]], HT as [<-|[<-|[]]]; apply below3; vm_compute; reflexivity.
Qed.
Example C25_case :
  map (fun OT => map (fun i => Z.shiftr (toZ (gemv_run (fst OT) (snd OT) (900 + 10 * i))) 1074) [0; 1; 2])
    [("r", "N"); ("R", "t"); ("c", "n"); ("C", "T")]%char =
    [[-6597069764611; -13194139532288; -19791209289728]; [12584963; 19323161600; -19801950912512];
     [12584963; 19323161600; -19801950912512]; [-6597069764611; -13194139532288; -19791209289728]] /\
  (forall i, 0 <= i < 3 -> ~ gemv_touched 3 3 1000 1 2000 5 3000 4 (900 + i * 10)) /\
  5 + 1 <= CAPACITY Dbl /\ tuned Dbl sample_tuning.
Proof.
  split; [vm_compute; reflexivity|]. split; [|split; [vm_compute; discriminate|apply C18_case]].
  intros i Hi. unfold gemv_touched, within, y_at, dbnum. intros [(r & Hr & H)|[H|H]]; lia.
Qed.
Definition gemm_run (Order TransA TransB : ascii) : mem Dbl :=
  rdgemm sample_tuning sample_mblocks 3 Order TransA TransB 2 3 4 (mkf 1 1) 0 6 100 6 (mkf (-3) 0) 200 4 1000 2000 3000 sample_mem.
Example C24_case : legal_gemm sample_mblocks /\
  (forall Order TransA TransB, gemm_layout 3 Order TransA TransB 2 3 4 0 6 100 6 1000 (if is_row Order then 3 else 2) 2000
     (bufA_len sample_mblocks 2 4) 3000 (mxt_block sample_mblocks * myt_block sample_mblocks)) /\
  (forall Order TransA TransB i j, In Order ["r"; "C"]%char -> In TransA ["N"; "t"]%char -> In TransB ["n"; "T"]%char -> 0 <= i < 2 -> 0 <= j < 3 ->
     all_finite (gemm_products sample_mem Order TransA TransB 0 6 (mkf 1 1) 100 6 4 i j) = true) /\
  (forall Order i j, 0 <= i < 2 -> 0 <= j < 3 ->
     ~ gemm_touched 3 Order 2 3 1000 (if is_row Order then 3 else 2) 2000 (bufA_len sample_mblocks 2 4) 3000
        (mxt_block sample_mblocks * myt_block sample_mblocks) (elem_addr Order 200 4 i j)) /\
  map (fun f => map (fun i => map (fun j => Z.shiftr (toZ (gemm_run (fst (fst f)) (snd (fst f)) (snd f) (elem_addr (fst (fst f)) 200 4 i j))) 1074) [0; 1; 2]) [0; 1])
    [("R", "N", "T"); ("c", "T", "n"); ("r", "t", "N"); ("C", "n", "N")]%char =
  [[[-5236736; 4294979578; 8592040960]; [-4204538; 6442439680; 12889077760]];
   [[-5236736; 4294979590; 8592044032]; [-4204550; 6442439680; 12879640576]];
   [[-3158016; -20971526; -9230]; [10485766; -19327349760; -18432]];
   [[-3135484; -6277114; -12570628]; [12589050; 6455036928; 12888041472]]].
Proof.
  assert (E1 : bufA_len sample_mblocks 2 4 = 8) by reflexivity.
  assert (E2 : mxt_block sample_mblocks * myt_block sample_mblocks = 4) by reflexivity.
  assert (CA : forall Order i j, 0 <= i < 2 -> 0 <= j < 3 -> 1000 <= c_at 3 Order 1000 (if is_row Order then 3 else 2) i j <= 1030).
  { intros Order i j Hi Hj. unfold c_at, dbnum. destruct (is_row Order); lia. }
  rewrite E1, E2. split; [unfold legal_gemm; cbn; lia|]. split; [|split; [|split]].
  - intros Order TransA TransB. specialize (CA Order).
    unfold gemm_layout, gemm_touched, within, dbnum. split; [destruct (is_row Order); lia|]. split; [|split; [|split]].
    + intros i k Hi Hk. assert (OA : 0 <= op_addr Order TransA 0 6 i k < 30) by (unfold op_addr, elem_addr; destruct (is_row Order), (is_notrans TransA); lia).
      intros [(r & s & Hr & Hs & H)|[H|H]]; try lia. specialize (CA r s Hr Hs). lia.
    + intros k j Hk Hj. assert (OA : 100 <= op_addr Order TransB 100 6 k j < 130) by (unfold op_addr, elem_addr; destruct (is_row Order), (is_notrans TransB); lia).
      intros [(r & s & Hr & Hs & H)|[H|H]]; try lia. specialize (CA r s Hr Hs). lia.
    + intros; lia.
    + intros a i j Ha Hi Hj. specialize (CA i j Hi Hj). lia.
  - intros Order TransA TransB i j HO HA HB Hi. revert i Hi j.
    destruct HO as [<-|[<-|[]]], HA as [<-|[<-|[]]], HB as [<-|[<-|[]]]; refine (below2 _ _ _); refine (below3 _ _ _ _); vm_compute; reflexivity.
  - intros Order i j Hi Hj. assert (OA : 200 <= elem_addr Order 200 4 i j < 220) by (unfold elem_addr; destruct (is_row Order); lia).
    unfold gemm_touched, within, dbnum. intros [(r & s & Hr & Hs & H)|[H|H]]; try lia. specialize (CA Order r s Hr Hs). lia.
  - vm_compute. reflexivity.
Qed.
