(** * C81: splitting the inner dimension of a matrix product *)
From Coq Require Import ZArith Bool List Lia Permutation Ascii.
From Flocq Require Import Core BinarySingleNaN.
From Verif Require Import Fp Mem Binned Spec FpProofs BitProofs CoreArith SpecProofs WordProofs MemProofs AccProofs SumProofs ConvProofs Client History ClientProofs StrideProofs PropsSum PropsAcc PropsMem Gen GenProofs Params Blas LaneProofs ReduceProofs DriverProofs BlasSpec PropsBlas Gemv GemvSpec GemvProofs PropsGemv.
Import ListNotations.
Open Scope Z_scope.

Lemma op_addr_col Order Trans A lda i k d :
  op_addr Order Trans (op_addr Order Trans A lda 0 d) lda i k = op_addr Order Trans A lda i (d + k).
Proof. unfold op_addr, elem_addr. destruct (is_notrans Trans), (is_row Order); ring. Qed.
Lemma op_addr_row Order Trans A lda k j d :
  op_addr Order Trans (op_addr Order Trans A lda d 0) lda k j = op_addr Order Trans A lda (d + k) j.
Proof. unfold op_addr, elem_addr. destruct (is_notrans Trans), (is_row Order); ring. Qed.
Lemma zseq_shift a n : zseq a n = map (fun i => a + i) (zseq 0 n).
Proof.
  unfold zseq. rewrite map_map. apply map_ext. intros k. lia.
Qed.
Lemma map_split {A} (f : Z -> A) n1 n2 : 0 <= n1 -> 0 <= n2 -> map f (zseq 0 (n1 + n2)) = map f (zseq 0 n1) ++ map (fun k => f (n1 + k)) (zseq 0 n2).
Proof. intros H1 H2. rewrite zseq_app, map_app, Z.add_0_l, (zseq_shift n1), map_map by lia. reflexivity. Qed.

(** The second part of the inner dimension: A without its first K1 columns, B without its first K1
    rows (of the operands op(A), op(B)).  Blocks, tunings and buffers of the three calls may differ. *)
Section GEMM.
  Context {t : ty} (fold : Z) (Hf : 2 <= fold <= MAXFOLD t).
  Variables (tu tu1 tu2 : tuning) (b b1 b2 : gemm_blocks) (Order TransA TransB : ascii) (M N K1 K2 : Z) (alpha : F t).
  Variables (A lda B ldb C ldc bufA bufB bufA1 bufB1 bufA2 bufB2 C2 ldc2 : Z).
  Hypothesis HT : tuned t tu. Hypothesis HT1 : tuned t tu1. Hypothesis HT2 : tuned t tu2.
  Hypothesis LB : legal_gemm b. Hypothesis LB1 : legal_gemm b1. Hypothesis LB2 : legal_gemm b2.
  Hypothesis HM : 0 <= M. Hypothesis HN : 0 <= N. Hypothesis HK1 : 0 <= K1. Hypothesis HK2 : 0 <= K2.
  Notation A2 := (op_addr Order TransA A lda 0 K1).
  Notation B2 := (op_addr Order TransB B ldb K1 0).
  Notation prods m A B K i j := (gemm_products m Order TransA TransB A lda alpha B ldb K i j).
  Lemma prods_split (m : mem t) i j : prods m A B (K1 + K2) i j = prods m A B K1 i j ++ prods m A2 B2 K2 i j.
  Proof.
    unfold gemm_products. rewrite map_split by assumption. f_equal. apply map_ext. intros k. now rewrite op_addr_col, op_addr_row.
  Qed.
  Lemma prods_unchanged (m m1 : mem t) C0 ldc0 lA lB bA bB K i j :
    (forall a, ~ gemm_touched fold Order M N C0 ldc0 bA lA bB lB a -> m1 a = m a) ->
    (forall i k, 0 <= i < M -> K1 <= k < K1 + K -> ~ gemm_touched fold Order M N C0 ldc0 bA lA bB lB (op_addr Order TransA A lda i k)) ->
    (forall k j, K1 <= k < K1 + K -> 0 <= j < N -> ~ gemm_touched fold Order M N C0 ldc0 bA lA bB lB (op_addr Order TransB B ldb k j)) ->
    0 <= i < M -> 0 <= j < N -> prods m1 A2 B2 K i j = prods m A2 B2 K i j.
  Proof.
    intros U HA HB Hi Hj. unfold gemm_products. apply map_ext_in. intros k Hk. apply zseq_In in Hk.
    rewrite op_addr_col, op_addr_row. rewrite (U (op_addr Order TransA A lda i (K1 + k))), (U (op_addr Order TransB B ldb (K1 + k) j)); auto.
    - apply HB; lia.
    - apply HA; lia.
  Qed.
  Variables (us : Z -> Z -> list (F t)) (zs : Z -> Z -> list (F t)) (m : mem t).
  (** The whole matrices are outside of what the calls write. *)
  Hypothesis L : gemm_layout fold Order TransA TransB M N (K1 + K2) A lda B ldb C ldc bufA (bufA_len b M (K1 + K2)) bufB (mxt_block b * myt_block b).
  Hypothesis L1 : gemm_layout fold Order TransA TransB M N (K1 + K2) A lda B ldb C ldc bufA1 (bufA_len b1 M K1) bufB1 (mxt_block b1 * myt_block b1).
  Hypothesis H : forall i j, 0 <= i < M -> 0 <= j < N -> acc_at fold (us i j) (zs i j) m (c_at fold Order C ldc i j) /\
    all_finite (zs i j) = true /\ K1 + K2 + Z.of_nat (length (zs i j)) <= CAPACITY t /\
    all_finite (prods m A B (K1 + K2) i j) = true.
  Hypothesis Al : feq alpha fzero = false.
  Lemma first_part : let m1 := dbdgemm tu1 b1 fold Order TransA TransB M N K1 alpha A lda B ldb C ldc bufA1 bufB1 m in
    (forall i j, 0 <= i < M -> 0 <= j < N -> acc_at fold (us i j) (prods m A B K1 i j ++ zs i j) m1 (c_at fold Order C ldc i j)) /\
    (forall i j, 0 <= i < M -> 0 <= j < N -> prods m1 A2 B2 K2 i j = prods m A2 B2 K2 i j) /\
    (forall a, ~ gemm_touched fold Order M N C ldc bufA1 (bufA_len b1 M K1) bufB1 (mxt_block b1 * myt_block b1) a -> m1 a = m a).
  Proof.
    intros m1. rewrite CAPACITY_eq in H.
    destruct (gemm_holds fold Hf tu1 b1 Order TransA TransB M N K1 alpha A lda B ldb C ldc bufA1 bufB1 us zs m HT1 LB1 HM HN HK1) as [G1 G2].
    { destruct L1 as (X1 & X2 & X3 & X4 & X5). split; [exact X1|]. split; [intros i k Hi Hk; apply X2; lia|].
      split; [intros k j Hk Hj; apply X3; lia|]. split; [exact X4|exact X5]. }
    { exact Al. }
    { intros i j Hi Hj. destruct (H i j Hi Hj) as (Q1 & Q2 & Q3 & Q4). rewrite prods_split, all_finite_app in Q4.
      apply andb_true_iff in Q4. split; [exact Q1|]. split; [lia|tauto]. }
    fold m1 in G1, G2. split; [exact G1|]. split; [|exact G2]. intros i j Hi Hj. destruct L1 as (X1 & X2 & X3 & X4 & X5).
    apply (prods_unchanged m m1 C ldc (bufA_len b1 M K1) (mxt_block b1 * myt_block b1) bufA1 bufB1); auto.
    - intros i' k Hi' Hk. apply X2; lia.
    - intros k j' Hk Hj'. apply X3; lia.
  Qed.
  Lemma whole : let m' := dbdgemm tu b fold Order TransA TransB M N (K1 + K2) alpha A lda B ldb C ldc bufA bufB m in
    forall i j, 0 <= i < M -> 0 <= j < N -> acc_at fold (us i j) (prods m A B (K1 + K2) i j ++ zs i j) m' (c_at fold Order C ldc i j).
  Proof.
    intros m'. rewrite CAPACITY_eq in H.
    apply (gemm_holds fold Hf tu b Order TransA TransB M N (K1 + K2) alpha A lda B ldb C ldc bufA bufB us zs m HT LB HM HN ltac:(lia) L Al).
    intros i j Hi Hj. destruct (H i j Hi Hj) as (? & ? & ? & ?). auto.
  Qed.
  Lemma prods_length (m0 : mem t) A0 B0 K i j : 0 <= K -> Z.of_nat (length (prods m0 A0 B0 K i j)) = K.
  Proof. intros HK. unfold gemm_products. rewrite map_length, zseq_length. lia. Qed.
Theorem C81_gemm :
    gemm_layout fold Order TransA TransB M N K2 A2 lda B2 ldb C ldc bufA2 (bufA_len b2 M K2) bufB2 (mxt_block b2 * myt_block b2) ->
    let m' := dbdgemm tu b fold Order TransA TransB M N (K1 + K2) alpha A lda B ldb C ldc bufA bufB m in
    let m1 := dbdgemm tu1 b1 fold Order TransA TransB M N K1 alpha A lda B ldb C ldc bufA1 bufB1 m in
    let m2 := dbdgemm tu2 b2 fold Order TransA TransB M N K2 alpha A2 lda B2 ldb C ldc bufA2 bufB2 m1 in
    forall i j, 0 <= i < M -> 0 <= j < N ->
      same_words fold m2 (c_at fold Order C ldc i j) m' (c_at fold Order C ldc i j).
  Proof.
    intros L2 m' m1 m2 i j Hi Hj. pose proof whole as W. pose proof first_part as P1. cbv zeta in W, P1. fold m' in W. fold m1 in P1. destruct P1 as (G1 & G2 & _).
    destruct (gemm_holds fold Hf tu2 b2 Order TransA TransB M N K2 alpha A2 lda B2 ldb C ldc bufA2 bufB2 us
      (fun i j => prods m A B K1 i j ++ zs i j) m1 HT2 LB2 HM HN HK2 L2 Al) as [S1 _].
    { intros i' j' Hi' Hj'. destruct (H i' j' Hi' Hj') as (Q1 & Q2 & Q3 & Q4). rewrite prods_split, all_finite_app in Q4.
      apply andb_true_iff in Q4. split; [exact (G1 i' j' Hi' Hj')|]. rewrite CAPACITY_eq in Q3. split.
      - rewrite app_length, Nat2Z.inj_add, prods_length by assumption. lia.
      - rewrite G2 by assumption. tauto. }
    fold m2 in S1. specialize (S1 i j Hi Hj). specialize (W i j Hi Hj). destruct (H i j Hi Hj) as (_ & Q2 & _ & Q4).
    rewrite (G2 i j Hi Hj) in S1.
    rewrite prods_split in W, Q4. clearbody m' m1 m2. pose proof Q4 as AF. rewrite all_finite_app in AF. apply andb_true_iff in AF. destruct AF as [A1 A2'].
    eapply acc_at_same; [exact Hf| | | |exact S1|exact W].
    - rewrite !all_finite_app, A1, A2', Q2. reflexivity.
    - reflexivity.
    - rewrite <- app_assoc. apply Permutation_app_swap_app.
  Qed.
  (** Two processes, each with one part; the second one's accumulators start empty, and are merged
      into the first one's. *)
Theorem C81_gemm_merge (m2 : mem t) C' :
    gemm_layout fold Order TransA TransB M N K2 A2 lda B2 ldb C2 ldc2 bufA2 (bufA_len b2 M K2) bufB2 (mxt_block b2 * myt_block b2) ->
    (forall i k, 0 <= i < M -> 0 <= k < K2 -> m2 (op_addr Order TransA A2 lda i k) = m (op_addr Order TransA A2 lda i k)) ->
    (forall k j, 0 <= k < K2 -> 0 <= j < N -> m2 (op_addr Order TransB B2 ldb k j) = m (op_addr Order TransB B2 ldb k j)) ->
    (forall i j, 0 <= i < M -> 0 <= j < N -> acc_at fold [] [] m2 (c_at fold Order C2 ldc2 i j)) ->
    let m' := dbdgemm tu b fold Order TransA TransB M N (K1 + K2) alpha A lda B ldb C ldc bufA bufB m in
    let m1 := dbdgemm tu1 b1 fold Order TransA TransB M N K1 alpha A lda B ldb C ldc bufA1 bufB1 m in
    let r2 := dbdgemm tu2 b2 fold Order TransA TransB M N K2 alpha A2 lda B2 ldb C2 ldc2 bufA2 bufB2 m2 in
    forall i j (mm : mem t), 0 <= i < M -> 0 <= j < N -> apart (dbnum fold) C' (c_at fold Order C ldc i j) ->
    (* mm holds the first process's accumulator in its place, and the received one at C' *)
    same_words fold mm (c_at fold Order C ldc i j) m1 (c_at fold Order C ldc i j) ->
    same_words fold mm C' r2 (c_at fold Order C2 ldc2 i j) ->
    same_words fold (dbdbadd fold C' (c_at fold Order C ldc i j) mm) (c_at fold Order C ldc i j) m' (c_at fold Order C ldc i j).
  Proof.
    intros L2 EA EB H2 m' m1 r2 i j mm Hi Hj HA E1 E2. pose proof first_part as P1. cbv zeta in P1. fold m1 in P1. destruct P1 as (G1 & _ & _).
    pose proof whole as W. cbv zeta in W. fold m' in W.
    assert (EP : forall i j, 0 <= i < M -> 0 <= j < N -> prods m2 A2 B2 K2 i j = prods m A2 B2 K2 i j).
    { intros i' j' Hi' Hj'. unfold gemm_products. apply map_ext_in. intros k Hk. apply zseq_In in Hk. now rewrite EA, EB by lia. }
    destruct (gemm_holds fold Hf tu2 b2 Order TransA TransB M N K2 alpha A2 lda B2 ldb C2 ldc2 bufA2 bufB2 (fun _ _ => []) (fun _ _ => []) m2 HT2 LB2 HM HN HK2 L2 Al) as [S1 _].
    { intros i' j' Hi' Hj'. destruct (H i' j' Hi' Hj') as (Q1 & Q2 & Q3 & Q4). rewrite prods_split, all_finite_app in Q4.
      apply andb_true_iff in Q4. rewrite CAPACITY_eq in Q3.
      split; [exact (H2 i' j' Hi' Hj')|]. split; [cbn [length]; lia|]. rewrite EP by assumption. tauto. }
    fold r2 in S1. specialize (S1 i j Hi Hj). specialize (G1 i j Hi Hj). specialize (W i j Hi Hj). rewrite EP in S1 by assumption.
    destruct (H i j Hi Hj) as (_ & Q2 & Q3 & Q4). rewrite app_nil_r in S1.
    set (Y := c_at fold Order C ldc i j) in *. set (Y2 := c_at fold Order C2 ldc2 i j) in *. clearbody m' m1 r2 Y Y2.
    assert (B1 : acc_at fold (us i j) (prods m A B K1 i j ++ zs i j) mm Y).
    { unfold acc_at. eapply holds_words_ext; [exact (proj1 Hf)| |exact G1]. intros k Hk. unfold P_of.
      split; [apply E1; lia|]. replace (Y + fold + k * 1) with (Y + (fold + k)) by lia. apply E1. lia. }
    assert (B2' : acc_at fold [] (prods m A2 B2 K2 i j) mm C').
    { unfold acc_at. eapply holds_words_ext; [exact (proj1 Hf)| |exact S1]. intros k Hk. unfold P_of.
      replace (Y2 + k * 1) with (Y2 + k) by lia. replace (C' + k * 1) with (C' + k) by lia.
      replace (C' + fold + k * 1) with (C' + (fold + k)) by lia. replace (Y2 + fold + k * 1) with (Y2 + (fold + k)) by lia. split; apply E2; lia. }
    rewrite CAPACITY_eq in Q3.
    destruct (merge_at t fold C' Y [] (prods m A2 B2 K2 i j) (us i j) (prods m A B K1 i j ++ zs i j) mm Hf HA B2' B1) as [S2 _].
    { rewrite !app_length, !Nat2Z.inj_add, !prods_length by assumption. lia. }
    rewrite prods_split in W, Q4. pose proof Q4 as AF. rewrite all_finite_app in AF. apply andb_true_iff in AF. destruct AF as [A1 A2'].
    eapply acc_at_same; [exact Hf| | | |exact S2|exact W].
    - rewrite !all_finite_app, A1, A2', Q2. reflexivity.
    - reflexivity.
    - rewrite <- app_assoc. apply Permutation_app_swap_app.
  Qed.
End GEMM.
Print Assumptions C81_gemm.
Print Assumptions C81_gemm_merge.

(** The same for matrix-vector products: op(A) has [rows] rows; the first cols1 columns, then the others
    with the rest of x. *)
Definition dim1 (Trans : ascii) (rows cols : Z) : Z := if is_notrans Trans then rows else cols.
Definition dim2 (Trans : ascii) (rows cols : Z) : Z := if is_notrans Trans then cols else rows.
Lemma dims_rows Trans rows cols : op_rows Trans (dim1 Trans rows cols) (dim2 Trans rows cols) = rows.
Proof. unfold op_rows, dim1, dim2. destruct (is_notrans Trans); reflexivity. Qed.
Lemma dims_cols Trans rows cols : op_cols Trans (dim1 Trans rows cols) (dim2 Trans rows cols) = cols.
Proof. unfold op_cols, dim1, dim2. destruct (is_notrans Trans); reflexivity. Qed.
Theorem C81_gemv t tu tu1 tu2 b b1 b2 fold Order Trans rows cols1 cols2 (alpha : F t) A lda X incX Y incY
    bufX bufA bufX1 bufA1 bufX2 bufA2 us zs (m : mem t) :
  2 <= fold <= MAXFOLD t -> tuned t tu -> tuned t tu1 -> tuned t tu2 -> legal_gemv b -> legal_gemv b1 -> legal_gemv b2 ->
  0 <= rows -> 0 <= cols1 -> 0 <= cols2 ->
  let A2 := op_addr Order Trans A lda 0 cols1 in let X2 := X + cols1 * incX in
  gemv_layout fold Order Trans rows (cols1 + cols2) A lda X incX Y incY bufX bufA (xt_block b * yt_block b) ->
  gemv_layout fold Order Trans rows cols1 A lda X incX Y incY bufX1 bufA1 (xt_block b1 * yt_block b1) ->
  gemv_layout fold Order Trans rows cols2 A2 lda X2 incX Y incY bufX2 bufA2 (xt_block b2 * yt_block b2) ->
  (* the buffers of the first call are outside of the operands of the second *)
  (forall i j, 0 <= i < rows -> 0 <= j < cols2 ->
     ~ gemv_touched fold rows Y incY bufX1 cols1 bufA1 (xt_block b1 * yt_block b1) (op_addr Order Trans A2 lda i j)) ->
  (forall j, 0 <= j < cols2 -> ~ gemv_touched fold rows Y incY bufX1 cols1 bufA1 (xt_block b1 * yt_block b1) (X2 + j * incX)) ->
  feq alpha fzero = false ->
  (forall i, 0 <= i < rows -> acc_at fold (us i) (zs i) m (y_at fold Y incY i) /\ all_finite (zs i) = true /\
     cols1 + cols2 + Z.of_nat (length (zs i)) <= CAPACITY t /\
     all_finite (gemv_products m Order Trans A lda alpha X incX (cols1 + cols2) i) = true) ->
  let call tu b cols A X bufX bufA := dbdgemv tu b fold Order Trans (dim1 Trans rows cols) (dim2 Trans rows cols) alpha A lda X incX Y incY bufX bufA in
  forall i, 0 <= i < rows ->
  same_words fold (call tu2 b2 cols2 A2 X2 bufX2 bufA2 (call tu1 b1 cols1 A X bufX1 bufA1 m)) (y_at fold Y incY i)
    (call tu b (cols1 + cols2) A X bufX bufA m) (y_at fold Y incY i).
Proof.
  intros Hf HT HT1 HT2 LB LB1 LB2 HR HC1 HC2 A2 X2 L L1 L2 U1 U2 Al H call i Hi. rewrite CAPACITY_eq in H.
  assert (ND : forall c, 0 <= c -> 0 <= dim1 Trans rows c /\ 0 <= dim2 Trans rows c) by (intros c Hc; unfold dim1, dim2; destruct (is_notrans Trans); lia).
  assert (PS : forall i, gemv_products m Order Trans A lda alpha X incX (cols1 + cols2) i =
    gemv_products m Order Trans A lda alpha X incX cols1 i ++ gemv_products m Order Trans A2 lda alpha X2 incX cols2 i).
  { intros i'. unfold gemv_products. rewrite map_split by assumption. f_equal. apply map_ext. intros k. unfold A2, X2. rewrite op_addr_col.
    replace (X + cols1 * incX + k * incX) with (X + (cols1 + k) * incX) by ring. reflexivity. }
  destruct (ND (cols1 + cols2) ltac:(lia)) as [N1 N2]. destruct (ND cols1 HC1) as [N3 N4]. destruct (ND cols2 HC2) as [N5 N6].
  pose proof (gemv_holds fold Hf tu b Order Trans _ _ alpha A lda X incX Y incY bufX bufA us zs m HT LB N1 N2) as W.
  cbv zeta in W. rewrite dims_rows, dims_cols in W. specialize (W L Al).
  destruct W as [W _]. { intros i' Hi'. destruct (H i' Hi') as (? & ? & ? & ?). auto. }
  pose proof (gemv_holds fold Hf tu1 b1 Order Trans _ _ alpha A lda X incX Y incY bufX1 bufA1 us zs m HT1 LB1 N3 N4) as W1.
  cbv zeta in W1. rewrite dims_rows, dims_cols in W1. specialize (W1 L1 Al).
  destruct W1 as [W1 F1].
  { intros i' Hi'. destruct (H i' Hi') as (? & ? & ? & Q). rewrite PS, all_finite_app in Q. apply andb_true_iff in Q.
    split; auto. split; [lia|tauto]. }
  fold (call tu b (cols1 + cols2) A X bufX bufA) in W. fold (call tu1 b1 cols1 A X bufX1 bufA1) in W1, F1.
  set (m1 := call tu1 b1 cols1 A X bufX1 bufA1 m) in *. clearbody m1.
  assert (EP : forall i, 0 <= i < rows -> gemv_products m1 Order Trans A2 lda alpha X2 incX cols2 i = gemv_products m Order Trans A2 lda alpha X2 incX cols2 i).
  { intros i' Hi'. unfold gemv_products. apply map_ext_in. intros k Hk. apply zseq_In in Hk.
    rewrite (F1 (op_addr Order Trans A2 lda i' k)) by (apply U1; lia). rewrite (F1 (X2 + k * incX)) by (apply U2; lia). reflexivity. }
  assert (LP : forall i, Z.of_nat (length (gemv_products m Order Trans A lda alpha X incX cols1 i)) = cols1).
  { intros i'. unfold gemv_products. rewrite map_length, zseq_length. lia. }
  pose proof (gemv_holds fold Hf tu2 b2 Order Trans _ _ alpha A2 lda X2 incX Y incY bufX2 bufA2 us
    (fun i => gemv_products m Order Trans A lda alpha X incX cols1 i ++ zs i) m1 HT2 LB2 N5 N6) as W2.
  cbv zeta in W2. rewrite dims_rows, dims_cols in W2. specialize (W2 L2 Al).
  destruct W2 as [W2 _].
  { intros i' Hi'. destruct (H i' Hi') as (Q1 & Q2 & Q3 & Q4). rewrite PS, all_finite_app in Q4. apply andb_true_iff in Q4.
    split; [exact (W1 i' Hi')|]. split; [rewrite app_length, Nat2Z.inj_add, LP; lia|]. rewrite EP by assumption. tauto. }
  fold (call tu2 b2 cols2 A2 X2 bufX2 bufA2) in W2. specialize (W i Hi). specialize (W2 i Hi). rewrite EP in W2 by assumption.
  destruct (H i Hi) as (_ & Q2 & _ & Q4). rewrite PS in W, Q4. pose proof Q4 as AF. rewrite all_finite_app in AF. apply andb_true_iff in AF. destruct AF as [AF1 AF2].
  eapply acc_at_same; [exact Hf| | | |exact W2|exact W].
  - rewrite !all_finite_app, AF1, AF2, Q2. reflexivity.
  - reflexivity.
  - rewrite <- app_assoc. apply Permutation_app_swap_app.
Qed.
Print Assumptions C81_gemv.

Example C81_case :
  (forall Order Trans,
     let A2 := op_addr Order Trans 0 6 0 2 in
     gemv_layout 3 Order Trans 3 (2 + 3) 0 6 100 2 1000 1 2000 3000 4 /\
     gemv_layout 3 Order Trans 3 2 0 6 100 2 1000 1 2000 3000 4 /\
     gemv_layout 3 Order Trans 3 3 A2 6 (100 + 2 * 2) 2 1000 1 2000 3000 4 /\
     (forall i j, 0 <= i < 3 -> 0 <= j < 3 -> ~ gemv_touched 3 3 1000 1 2000 2 3000 4 (op_addr Order Trans A2 6 i j)) /\
     (forall j, 0 <= j < 3 -> ~ gemv_touched 3 3 1000 1 2000 2 3000 4 (100 + 2 * 2 + j * 2))) /\
  (forall Order TransA TransB, let ldc := if is_row Order then 3 else 2 in
     gemm_layout 3 Order TransA TransB 2 3 (1 + 3) 0 6 100 6 1000 ldc 2000 (bufA_len sample_mblocks 2 (1 + 3)) 3000 (mxt_block sample_mblocks * myt_block sample_mblocks) /\
     gemm_layout 3 Order TransA TransB 2 3 (1 + 3) 0 6 100 6 1000 ldc 2000 (bufA_len sample_mblocks 2 1) 3000 (mxt_block sample_mblocks * myt_block sample_mblocks) /\
     gemm_layout 3 Order TransA TransB 2 3 3 (op_addr Order TransA 0 6 0 1) 6 (op_addr Order TransB 100 6 1 0) 6 1000 ldc 2000
       (bufA_len sample_mblocks 2 3) 3000 (mxt_block sample_mblocks * myt_block sample_mblocks)).
Proof.
  split.
  - intros Order Trans A2.
    assert (OA : forall i j, 0 <= i < 3 -> 0 <= j < 5 -> 0 <= op_addr Order Trans 0 6 i j < 30) by (intros i j Hi Hj; unfold op_addr, elem_addr; destruct (is_row Order), (is_notrans Trans); lia).
    assert (OB : forall i j, 0 <= i < 3 -> 0 <= j < 3 -> 0 <= op_addr Order Trans A2 6 i j < 30) by (intros i j Hi Hj; unfold A2; rewrite op_addr_col; apply OA; lia).
    clearbody A2. unfold gemv_layout, gemv_touched, within, y_at, dbnum.
    split; [|split; [|split; [|split]]].
    + split; [lia|]. split; [|split; [|split]]; try (intros; lia).
      * intros i j Hi Hj. specialize (OA i j Hi Hj). intros [(r & Hr & H)|[H|H]]; lia.
      * intros j Hj. intros [(r & Hr & H)|[H|H]]; lia.
    + split; [lia|]. split; [|split; [|split]]; try (intros; lia).
      * intros i j Hi Hj. specialize (OA i j Hi ltac:(lia)). intros [(r & Hr & H)|[H|H]]; lia.
      * intros j Hj. intros [(r & Hr & H)|[H|H]]; lia.
    + split; [lia|]. split; [|split; [|split]]; try (intros; lia).
      * intros i j Hi Hj. specialize (OB i j Hi Hj). intros [(r & Hr & H)|[H|H]]; lia.
      * intros j Hj. intros [(r & Hr & H)|[H|H]]; lia.
    + intros i j Hi Hj. specialize (OB i j Hi Hj). intros [(r & Hr & H)|[H|H]]; lia.
    + intros j Hj. intros [(r & Hr & H)|[H|H]]; lia.
  - intros Order TransA TransB ldc.
    assert (E1 : bufA_len sample_mblocks 2 (1 + 3) = 8) by reflexivity. assert (E2 : bufA_len sample_mblocks 2 1 = 4) by reflexivity.
    assert (E3 : bufA_len sample_mblocks 2 3 = 6) by reflexivity. assert (E4 : mxt_block sample_mblocks * myt_block sample_mblocks = 4) by reflexivity.
    rewrite E1, E2, E3, E4. clear E1 E2 E3 E4.
    assert (CA : forall i j, 0 <= i < 2 -> 0 <= j < 3 -> 1000 <= c_at 3 Order 1000 ldc i j <= 1030).
    { intros i j Hi Hj. unfold c_at, dbnum, ldc. destruct (is_row Order); lia. }
    assert (HL : if is_row Order then 3 <= ldc else 2 <= ldc) by (unfold ldc; destruct (is_row Order); lia).
    assert (OA : forall i k, 0 <= i < 2 -> 0 <= k < 4 -> 0 <= op_addr Order TransA 0 6 i k < 30) by (intros i k Hi Hk; unfold op_addr, elem_addr; destruct (is_row Order), (is_notrans TransA); lia).
    assert (OB : forall k j, 0 <= k < 4 -> 0 <= j < 3 -> 100 <= op_addr Order TransB 100 6 k j < 130) by (intros k j Hk Hj; unfold op_addr, elem_addr; destruct (is_row Order), (is_notrans TransB); lia).
    clearbody ldc.
    assert (G : forall K A B lenA, 4 <= lenA <= 8 -> (forall i k, 0 <= i < 2 -> 0 <= k < K -> 0 <= op_addr Order TransA A 6 i k < 30) ->
      (forall k j, 0 <= k < K -> 0 <= j < 3 -> 100 <= op_addr Order TransB B 6 k j < 130) ->
      gemm_layout 3 Order TransA TransB 2 3 K A 6 B 6 1000 ldc 2000 lenA 3000 4).
    { intros K A B lenA HLA GA GB. unfold gemm_layout, gemm_touched, within, dbnum. split; [exact HL|]. split; [|split; [|split]].
      - intros i k Hi Hk. specialize (GA i k Hi Hk). intros [(r & s & Hr & Hs & H)|[H|H]]; try lia. specialize (CA r s Hr Hs). lia.
      - intros k j Hk Hj. specialize (GB k j Hk Hj). intros [(r & s & Hr & Hs & H)|[H|H]]; try lia. specialize (CA r s Hr Hs). lia.
      - intros; lia.
      - intros a i j Ha Hi Hj. specialize (CA i j Hi Hj). lia. }
    split; [apply G; auto; lia|]. split; [apply G; auto; lia|]. apply G; [lia| |].
    + intros i k Hi Hk. rewrite op_addr_col. apply OA; lia.
    + intros k j Hk Hj. rewrite op_addr_row. apply OB; lia.
Qed.
