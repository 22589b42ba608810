(** * C87: splitting the inner dimension of a complex matrix product *)
From Coq Require Import ZArith Bool List Lia Permutation Ascii.
From Flocq Require Import Core BinarySingleNaN.
From Verif Require Import Fp Mem Binned Spec FpProofs BitProofs CoreArith SpecProofs WordProofs MemProofs AccProofs SumProofs ConvProofs Client History ClientProofs StrideProofs PropsSum PropsAcc PropsMem ComplexProofs PropsComplex Gen GenProofs Params ParamsProofs PropsGen Blas LaneProofs ReduceProofs DriverProofs BlasSpec PropsBlas BlasZ ZEvents ZKernel ZDriver ZLoop BlasZSpec PropsBlasZ Gemv GemvSpec GemvProofs PropsGemv GemvZ GemvZSpec GemvZProofs PropsGemvZ PropsGemmZ PropsSplit.
Import ListNotations.
Open Scope Z_scope.

Lemma zop_addr_col Order Trans A lda i k d : zop_addr Order Trans (zop_addr Order Trans A lda 0 d) lda i k = zop_addr Order Trans A lda i (d + k).
Proof. unfold zop_addr, op_addr, elem_addr. destruct (is_notrans Trans), (is_row Order); ring. Qed.
Lemma zop_addr_row Order Trans A lda k j d : zop_addr Order Trans (zop_addr Order Trans A lda d 0) lda k j = zop_addr Order Trans A lda (d + k) j.
Proof. unfold zop_addr, op_addr, elem_addr. destruct (is_notrans Trans), (is_row Order); ring. Qed.
Lemma zop_col {t} (m : mem t) Order Trans A lda i k d : zop m Order Trans (zop_addr Order Trans A lda 0 d) lda i k = zop m Order Trans A lda i (d + k).
Proof. unfold zop. now rewrite zop_addr_col. Qed.
Lemma zop_row {t} (m : mem t) Order Trans A lda k j d : zop m Order Trans (zop_addr Order Trans A lda d 0) lda k j = zop m Order Trans A lda (d + k) j.
Proof. unfold zop. now rewrite zop_addr_row. Qed.
Lemma flat_split {A} (f : Z -> list A) n1 n2 : 0 <= n1 -> 0 <= n2 ->
  flat_map f (zseq 0 (n1 + n2)) = flat_map f (zseq 0 n1) ++ flat_map (fun k => f (n1 + k)) (zseq 0 n2).
Proof. intros H1 H2. rewrite !flat_map_concat_map, map_split, concat_app by assumption. reflexivity. Qed.
Lemma flat_ext_in {A B} (f g : A -> list B) l : (forall a, In a l -> f a = g a) -> flat_map f l = flat_map g l.
Proof. intros H. rewrite !flat_map_concat_map. f_equal. now apply map_ext_in. Qed.
Lemma zfinite_app {t} (a b : list (F t * F t)) : zfinite (a ++ b) = zfinite a && zfinite b.
Proof. unfold zfinite. rewrite !map_app, !all_finite_app. destruct (all_finite (map fst a)), (all_finite (map fst b)), (all_finite (map snd a)), (all_finite (map snd b)); reflexivity. Qed.
Lemma zout_acc {t} fold us vs (zs : list (F t * F t)) m A : zfinite zs = true -> zout fold us vs zs m A -> zacc_at fold us vs zs m A.
Proof. unfold zfinite. intros F [R I]. apply andb_true_iff in F. destruct F as [F0 F1]. unfold cout in R, I. rewrite F0 in R. rewrite F1 in I. split; [exact R|exact I]. Qed.
Lemma zacc_words {t} fold us vs (zs zs' : list (F t * F t)) (m m' : mem t) A A' : 2 <= fold <= MAXFOLD t -> zfinite zs = true -> Permutation zs zs' ->
  zacc_at fold us vs zs m A -> zacc_at fold us vs zs' m' A' -> re_words fold m A m' A' /\ im_words fold m A m' A'.
Proof.
  intros Hf F P [R I] [R' I']. unfold zfinite in F. apply andb_true_iff in F. destruct F as [F0 F1]. split.
  - exact (re_holds fold Hf us _ _ _ _ A A' F0 (Permutation_map fst P) R R').
  - exact (im_holds fold Hf vs _ _ _ _ A A' F1 (Permutation_map snd P) I I').
Qed.

Section GEMM.
  Context {t : ty} (fold : Z) (Hf : 2 <= fold <= MAXFOLD t).
  Variables (tu tu1 tu2 : tuning) (b b1 b2 : gemm_blocks) (Order TransA TransB : ascii) (M N K1 K2 : Z) (alpha : F t * F t).
  Variables (A lda B ldb C ldc bufA bufB bufA1 bufB1 bufA2 bufB2 C2 ldc2 : Z).
  Hypothesis HT : tuned t tu. Hypothesis HT1 : tuned t tu1. Hypothesis HT2 : tuned t tu2.
  Hypothesis LB : legal_gemm b. Hypothesis LB1 : legal_gemm b1. Hypothesis LB2 : legal_gemm b2.
  Hypothesis HM : 0 <= M. Hypothesis HN : 0 <= N. Hypothesis HK1 : 0 <= K1. Hypothesis HK2 : 0 <= K2.
  Hypothesis RS : right_scaling Order TransA alpha.
  (** The dot products of each call are at most ENDURANCE / 2 long (see C29, C47). *)
  Notation short tu b K := (Z.min (Z.min K (Z.max (mx_block b) (mxt_block b))) (block_max tu) <= ENDURANCE t / 2).
  Hypothesis HE : short tu b (K1 + K2). Hypothesis HE1 : short tu1 b1 K1. Hypothesis HE2 : short tu2 b2 K2.
  Notation A2 := (zop_addr Order TransA A lda 0 K1).
  Notation B2 := (zop_addr Order TransB B ldb K1 0).
  Notation prods m A B K i j := (zgemm_products m Order TransA TransB A lda alpha B ldb K i j).
  Lemma zprods_split (m : mem t) i j : prods m A B (K1 + K2) i j = prods m A B K1 i j ++ prods m A2 B2 K2 i j.
  Proof.
    unfold zgemm_products. rewrite flat_split by assumption. f_equal. apply flat_ext_in. intros k _. now rewrite zop_col, zop_row.
  Qed.
  Lemma zprods_same (m m1 : mem t) i j :
    (forall k, 0 <= k < K2 -> complex_at m1 (zop_addr Order TransA A2 lda i k) = complex_at m (zop_addr Order TransA A2 lda i k)) ->
    (forall k, 0 <= k < K2 -> complex_at m1 (zop_addr Order TransB B2 ldb k j) = complex_at m (zop_addr Order TransB B2 ldb k j)) ->
    prods m1 A2 B2 K2 i j = prods m A2 B2 K2 i j.
  Proof.
    intros EA EB. unfold zgemm_products. apply flat_ext_in. intros k Hk. apply zseq_In in Hk. unfold zop. rewrite EA, EB by lia. reflexivity.
  Qed.
  Lemma zprods_length (m : mem t) A0 B0 K i j : 0 <= K -> Z.of_nat (length (prods m A0 B0 K i j)) = 2 * K.
  Proof. intros HK. unfold zgemm_products. apply flat_two; auto. Qed.
  Variables (us vs : Z -> Z -> list (F t)) (zs : Z -> Z -> list (F t * F t)) (m : mem t).
  (** The whole matrices are outside of what the calls write. *)
  Hypothesis L : zgemm_layout fold Order TransA TransB M N (K1 + K2) A lda B ldb C ldc bufA (bufA_len b M (K1 + K2)) bufB (mxt_block b * myt_block b).
  Hypothesis L1 : zgemm_layout fold Order TransA TransB M N (K1 + K2) A lda B ldb C ldc bufA1 (bufA_len b1 M K1) bufB1 (mxt_block b1 * myt_block b1).
  Hypothesis H : forall i j, 0 <= i < M -> 0 <= j < N -> zacc_at fold (us i j) (vs i j) (zs i j) m (zc_at fold Order C ldc i j) /\
    2 * (K1 + K2) + Z.of_nat (length (zs i j)) <= CAPACITY t /\
    zfinite (prods m A B (K1 + K2) i j ++ zs i j) = true.
  Hypothesis Al : is_complex alpha fzero = false.
  Lemma zfirst : let m1 := zbzgemm tu1 b1 fold Order TransA TransB M N K1 alpha A lda B ldb C ldc bufA1 bufB1 m in
    (forall i j, 0 <= i < M -> 0 <= j < N -> zacc_at fold (us i j) (vs i j) (prods m A B K1 i j ++ zs i j) m1 (zc_at fold Order C ldc i j)) /\
    (forall i j, 0 <= i < M -> 0 <= j < N -> prods m1 A2 B2 K2 i j = prods m A2 B2 K2 i j).
  Proof.
    intros m1. rewrite CAPACITY_eq in H. pose proof L1 as (X1 & X2 & X3 & X4 & X5).
    destruct (zgemm_holds fold Hf tu1 b1 Order TransA TransB M N K1 alpha A lda B ldb C ldc bufA1 bufB1 us vs zs m HT1 LB1 HM HN HK1 RS (half_dots _ _ HE1)) as [G1 G2].
    { split; [exact X1|]. split; [intros i k o Hi Hk; apply X2; lia|].
      split; [intros k j o Hk Hj; apply X3; lia|]. split; [exact X4|exact X5]. }
    { exact Al. }
    { intros i j Hi Hj. destruct (H i j Hi Hj) as (Q1 & Q2 & Q3). split; [exact Q1|lia]. }
    fold m1 in G1, G2. split.
    - intros i j Hi Hj. apply zout_acc; [|exact (G1 i j Hi Hj)]. destruct (H i j Hi Hj) as (_ & _ & Q).
      rewrite zprods_split, <- app_assoc, !zfinite_app in Q. apply andb_true_iff in Q. destruct Q as [Q1 Q]. apply andb_true_iff in Q.
      rewrite zfinite_app, Q1. cbn [andb]. tauto.
    - intros i j Hi Hj. apply zprods_same; intros k Hk.
      + rewrite zop_addr_col. unfold complex_at. f_equal; [rewrite <- (Z.add_0_r (zop_addr _ _ _ _ _ _))|]; apply G2, X2; try lia; auto.
      + rewrite zop_addr_row. unfold complex_at. f_equal; [rewrite <- (Z.add_0_r (zop_addr _ _ _ _ _ _))|]; apply G2, X3; try lia; auto.
  Qed.
  Lemma zwhole : let m' := zbzgemm tu b fold Order TransA TransB M N (K1 + K2) alpha A lda B ldb C ldc bufA bufB m in
    forall i j, 0 <= i < M -> 0 <= j < N -> zacc_at fold (us i j) (vs i j) (prods m A B (K1 + K2) i j ++ zs i j) m' (zc_at fold Order C ldc i j).
  Proof.
    intros m' i j Hi Hj. rewrite CAPACITY_eq in H. apply zout_acc; [apply (H i j Hi Hj)|].
    apply (zgemm_holds fold Hf tu b Order TransA TransB M N (K1 + K2) alpha A lda B ldb C ldc bufA bufB us vs zs m HT LB HM HN ltac:(lia) RS (half_dots _ _ HE) L Al); auto.
    intros i' j' Hi' Hj'. destruct (H i' j' Hi' Hj') as (? & ? & ?). auto.
  Qed.
  (** The first K1 columns of op(A) and rows of op(B), then the others: the words of one call. *)
Theorem C87_gemm :
    zgemm_layout fold Order TransA TransB M N K2 A2 lda B2 ldb C ldc bufA2 (bufA_len b2 M K2) bufB2 (mxt_block b2 * myt_block b2) ->
    let m' := zbzgemm tu b fold Order TransA TransB M N (K1 + K2) alpha A lda B ldb C ldc bufA bufB m in
    let m1 := zbzgemm tu1 b1 fold Order TransA TransB M N K1 alpha A lda B ldb C ldc bufA1 bufB1 m in
    let m2 := zbzgemm tu2 b2 fold Order TransA TransB M N K2 alpha A2 lda B2 ldb C ldc bufA2 bufB2 m1 in
    forall i j, 0 <= i < M -> 0 <= j < N ->
      re_words fold m2 (zc_at fold Order C ldc i j) m' (zc_at fold Order C ldc i j) /\
      im_words fold m2 (zc_at fold Order C ldc i j) m' (zc_at fold Order C ldc i j).
  Proof.
    intros L2 m' m1 m2 i j Hi Hj. pose proof zwhole as W. pose proof zfirst as P1. cbv zeta in W, P1. fold m' in W. fold m1 in P1. destruct P1 as (G1 & G2).
    destruct (zgemm_holds fold Hf tu2 b2 Order TransA TransB M N K2 alpha A2 lda B2 ldb C ldc bufA2 bufB2 us vs
      (fun i j => prods m A B K1 i j ++ zs i j) m1 HT2 LB2 HM HN HK2 RS (half_dots _ _ HE2) L2 Al) as [S1 _].
    { intros i' j' Hi' Hj'. destruct (H i' j' Hi' Hj') as (Q1 & Q2 & Q3). rewrite CAPACITY_eq in Q2.
      split; [exact (G1 i' j' Hi' Hj')|]. rewrite app_length, Nat2Z.inj_add, zprods_length by assumption. lia. }
    fold m2 in S1. specialize (S1 i j Hi Hj). specialize (W i j Hi Hj). destruct (H i j Hi Hj) as (_ & _ & Q).
    rewrite (G2 i j Hi Hj) in S1. rewrite zprods_split in W, Q. clearbody m' m1 m2.
    assert (PM : Permutation (prods m A2 B2 K2 i j ++ prods m A B K1 i j ++ zs i j) ((prods m A B K1 i j ++ prods m A2 B2 K2 i j) ++ zs i j)).
    { rewrite <- app_assoc. apply Permutation_app_swap_app. }
    assert (Q' : zfinite (prods m A2 B2 K2 i j ++ prods m A B K1 i j ++ zs i j) = true).
    { rewrite <- app_assoc, !zfinite_app in Q. rewrite !zfinite_app. apply andb_true_iff in Q. destruct Q as [-> Q]. exact Q. }
    apply zout_acc in S1; [|exact Q']. exact (zacc_words fold _ _ _ _ _ _ _ _ Hf Q' PM S1 W).
  Qed.
End GEMM.
Print Assumptions C87_gemm.

(** Two processes, each with one part and accumulators of its own; those of the second are empty at
    the start, and are merged into those of the first. *)
Theorem C87_gemm_merge t fold tu tu1 tu2 b b1 b2 Order TransA TransB M N K1 K2 (alpha : F t * F t) A lda B ldb C ldc C2 ldc2
    bufA bufB bufA1 bufB1 bufA2 bufB2 C' zs (m m2 : mem t) :
  2 <= fold <= MAXFOLD t -> tuned t tu -> tuned t tu1 -> tuned t tu2 -> legal_gemm b -> legal_gemm b1 -> legal_gemm b2 ->
  0 <= M -> 0 <= N -> 0 <= K1 -> 0 <= K2 -> right_scaling Order TransA alpha ->
  (forall tu b K, In (tu, b, K) [(tu, b, K1 + K2); (tu1, b1, K1); (tu2, b2, K2)] ->
     Z.min (Z.min K (Z.max (mx_block b) (mxt_block b))) (block_max tu) <= ENDURANCE t / 2) ->
  let A2 := zop_addr Order TransA A lda 0 K1 in let B2 := zop_addr Order TransB B ldb K1 0 in
  zgemm_layout fold Order TransA TransB M N (K1 + K2) A lda B ldb C ldc bufA (bufA_len b M (K1 + K2)) bufB (mxt_block b * myt_block b) ->
  zgemm_layout fold Order TransA TransB M N (K1 + K2) A lda B ldb C ldc bufA1 (bufA_len b1 M K1) bufB1 (mxt_block b1 * myt_block b1) ->
  zgemm_layout fold Order TransA TransB M N K2 A2 lda B2 ldb C2 ldc2 bufA2 (bufA_len b2 M K2) bufB2 (mxt_block b2 * myt_block b2) ->
  is_complex alpha fzero = false ->
  (forall i j, 0 <= i < M -> 0 <= j < N -> zacc_at fold [] [] (zs i j) m (zc_at fold Order C ldc i j) /\
     zacc_at fold [] [] [] m2 (zc_at fold Order C2 ldc2 i j) /\
     2 * (K1 + K2) + Z.of_nat (length (zs i j)) <= CAPACITY t /\
     zfinite (zgemm_products m Order TransA TransB A lda alpha B ldb (K1 + K2) i j ++ zs i j) = true) ->
  (forall i k, 0 <= i < M -> 0 <= k < K2 -> complex_at m2 (zop_addr Order TransA A2 lda i k) = complex_at m (zop_addr Order TransA A2 lda i k)) ->
  (forall k j, 0 <= k < K2 -> 0 <= j < N -> complex_at m2 (zop_addr Order TransB B2 ldb k j) = complex_at m (zop_addr Order TransB B2 ldb k j)) ->
  let m' := zbzgemm tu b fold Order TransA TransB M N (K1 + K2) alpha A lda B ldb C ldc bufA bufB m in
  let m1 := zbzgemm tu1 b1 fold Order TransA TransB M N K1 alpha A lda B ldb C ldc bufA1 bufB1 m in
  let r2 := zbzgemm tu2 b2 fold Order TransA TransB M N K2 alpha A2 lda B2 ldb C2 ldc2 bufA2 bufB2 m2 in
  forall i j (mm : mem t), 0 <= i < M -> 0 <= j < N ->
  let Y := zc_at fold Order C ldc i j in let Y2 := zc_at fold Order C2 ldc2 i j in
  apart (zbnum fold) C' Y ->
  (* mm holds the first process's accumulator in its place, and the received one at C' *)
  (forall k, 0 <= k < zbnum fold -> mm (Y + k) = m1 (Y + k) /\ mm (C' + k) = r2 (Y2 + k)) ->
  re_words fold (zbzbadd fold C' Y mm) Y m' Y /\ im_words fold (zbzbadd fold C' Y mm) Y m' Y.
Proof.
  intros Hf HT HT1 HT2 LB LB1 LB2 HM HN HK1 HK2 RS HE A2 B2 L L1 L2 Al H EA EB m' m1 r2 i j mm Hi Hj Y Y2 AP EM.
  pose proof (HE tu b (K1 + K2) ltac:(cbn; auto)) as E0. pose proof (HE tu1 b1 K1 ltac:(cbn; auto)) as E1. pose proof (HE tu2 b2 K2 ltac:(cbn; auto)) as E2. clear HE.
  assert (H' : forall i j, 0 <= i < M -> 0 <= j < N -> zacc_at fold ((fun _ _ => []) i j) ((fun _ _ => []) i j) (zs i j) m (zc_at fold Order C ldc i j) /\
    2 * (K1 + K2) + Z.of_nat (length (zs i j)) <= CAPACITY t /\
    zfinite (zgemm_products m Order TransA TransB A lda alpha B ldb (K1 + K2) i j ++ zs i j) = true).
  { intros i' j' Hi' Hj'. destruct (H i' j' Hi' Hj') as (? & ? & ? & ?). auto. }
  assert (W : zacc_at fold [] [] (zgemm_products m Order TransA TransB A lda alpha B ldb (K1 + K2) i j ++ zs i j) m' Y).
  { unfold m', Y. eapply (zwhole fold Hf) with (us := fun _ _ => []) (vs := fun _ _ => []) (zs := zs); eauto. }
  assert (G1 : zacc_at fold [] [] (zgemm_products m Order TransA TransB A lda alpha B ldb K1 i j ++ zs i j) m1 Y).
  { exact (proj1 (zfirst fold Hf tu tu1 tu2 b b1 b2 Order TransA TransB M N K1 K2 alpha A lda B ldb C ldc bufA1 bufB1 HT1 LB1 HM HN HK1 HK2 RS E1
      (fun _ _ => []) (fun _ _ => []) zs m L1 H' Al) i j Hi Hj). }
  clear H'.
  destruct (zgemm_holds fold Hf tu2 b2 Order TransA TransB M N K2 alpha A2 lda B2 ldb C2 ldc2 bufA2 bufB2 (fun _ _ => []) (fun _ _ => []) (fun _ _ => []) m2
    HT2 LB2 HM HN HK2 RS (half_dots _ _ E2) L2 Al) as [S1 _].
  { intros i' j' Hi' Hj'. destruct (H i' j' Hi' Hj') as (Q1 & Q2 & Q3 & Q4). rewrite CAPACITY_eq in Q3. split; [exact Q2|]. cbn [length]. lia. }
  fold r2 in S1. specialize (S1 i j Hi Hj). rewrite app_nil_r in S1.
  unfold A2, B2 in EA, EB, S1. rewrite (zprods_same tu tu1 tu2 b b1 b2 Order TransA TransB K1 K2 alpha A lda B ldb m m2 i j) in S1 by (intros; auto).
  destruct (H i j Hi Hj) as (_ & _ & Q3 & Q4). rewrite (zprods_split Order TransA TransB K1 K2 alpha A lda B ldb HK1 HK2) in W, Q4.
  fold A2 B2 in S1, W, Q4. fold Y in G1, W. fold Y2 in S1.
  set (p1 := zgemm_products m Order TransA TransB A lda alpha B ldb K1 i j) in *.
  set (p2 := zgemm_products m Order TransA TransB A2 lda alpha B2 ldb K2 i j) in *.
  assert (N1 : Z.of_nat (length p1) = 2 * K1) by (apply zprods_length; assumption).
  assert (N2 : Z.of_nat (length p2) = 2 * K2) by (apply zprods_length; assumption).
  clearbody m' m1 r2 Y Y2 p1 p2. clear H EA EB L L1 L2.
  assert (F2 : zfinite p2 = true). { rewrite !zfinite_app in Q4. destruct (zfinite p2); auto. rewrite andb_false_r in Q4. discriminate. }
  apply zout_acc in S1; [|exact F2].
  assert (B1 : zacc_at fold [] [] (p1 ++ zs i j) mm Y).
  { destruct G1 as [GR GI]. split; (eapply holds_words_ext; [exact (ClientProofs.Hf2 fold Hf)| |eassumption]); intros k Hk; cbv beta.
    - split; [exact (proj1 (EM (k * 2) ltac:(unfold zbnum; lia)))|]. replace (Y + 2 * fold + k * 2) with (Y + (2 * fold + k * 2)) by ring. apply EM. unfold zbnum. lia.
    - replace (Y + 1 + k * 2) with (Y + (1 + k * 2)) by ring. replace (Y + 2 * fold + 1 + k * 2) with (Y + (2 * fold + 1 + k * 2)) by ring.
      split; apply EM; unfold zbnum; lia. }
  assert (B2' : zacc_at fold [] [] p2 mm C').
  { destruct S1 as [GR GI]. split; (eapply holds_words_ext; [exact (ClientProofs.Hf2 fold Hf)| |eassumption]); intros k Hk; cbv beta.
    - split; [exact (proj2 (EM (k * 2) ltac:(unfold zbnum; lia)))|].
      replace (C' + 2 * fold + k * 2) with (C' + (2 * fold + k * 2)) by ring. replace (Y2 + 2 * fold + k * 2) with (Y2 + (2 * fold + k * 2)) by ring.
      apply EM. unfold zbnum. lia.
    - replace (C' + 1 + k * 2) with (C' + (1 + k * 2)) by ring. replace (C' + 2 * fold + 1 + k * 2) with (C' + (2 * fold + 1 + k * 2)) by ring.
      replace (Y2 + 1 + k * 2) with (Y2 + (1 + k * 2)) by ring. replace (Y2 + 2 * fold + 1 + k * 2) with (Y2 + (2 * fold + 1 + k * 2)) by ring.
      split; apply EM; unfold zbnum; lia. }
  rewrite CAPACITY_eq in Q3.
  destruct (zmerge_holds fold Hf C' Y p2 (p1 ++ zs i j) mm) as [S2 _].
  { unfold apart in AP. lia. } { exact B2'. } { exact B1. } { rewrite !app_length, !Nat2Z.inj_add. lia. }
  cbv zeta in S2.
  assert (PM : Permutation (p2 ++ p1 ++ zs i j) ((p1 ++ p2) ++ zs i j)) by (rewrite <- app_assoc; apply Permutation_app_swap_app).
  refine (zacc_words fold [] [] _ _ _ _ _ _ Hf _ PM S2 W).
  rewrite <- app_assoc, !zfinite_app in Q4. rewrite !zfinite_app. apply andb_true_iff in Q4. destruct Q4 as [-> Q4]. exact Q4.
Qed.
Print Assumptions C87_gemm_merge.

(** ** zbzgemv *)
(** op(A) has [rows] rows; the first cols1 columns, then the others with the rest of x. *)
Theorem C87_gemv t tu tu1 tu2 b b1 b2 fold Order Trans rows cols1 cols2 (alpha : F t * F t) A lda X incX Y incY
    bufX bufA bufX1 bufA1 bufX2 bufA2 us vs zs (m : mem t) :
  2 <= fold <= MAXFOLD t -> tuned t tu -> tuned t tu1 -> tuned t tu2 -> legal_gemv b -> legal_gemv b1 -> legal_gemv b2 ->
  0 <= rows -> 0 <= cols1 -> 0 <= cols2 ->
  let A2 := zop_addr Order Trans A lda 0 cols1 in let X2 := X + 2 * (cols1 * incX) in
  (forall tu b cols, In (tu, b, cols) [(tu, b, cols1 + cols2); (tu1, b1, cols1); (tu2, b2, cols2)] ->
     right_length b Order Trans (dim1 Trans rows cols) (dim2 Trans rows cols) /\
     Z.min (Z.min cols (dot_block b Order Trans)) (block_max tu) <= ENDURANCE t / 2) ->
  zgemv_layout fold Order Trans rows (cols1 + cols2) A lda X incX Y incY bufX bufA (xt_block b * yt_block b) ->
  zgemv_layout fold Order Trans rows cols1 A lda X incX Y incY bufX1 bufA1 (xt_block b1 * yt_block b1) ->
  zgemv_layout fold Order Trans rows cols2 A2 lda X2 incX Y incY bufX2 bufA2 (xt_block b2 * yt_block b2) ->
  (* the buffers of the first call are outside of the operands of the second *)
  (forall i j o, 0 <= i < rows -> 0 <= j < cols2 -> o = 0 \/ o = 1 ->
     ~ zgemv_touched fold rows Y incY bufX1 cols1 bufA1 (xt_block b1 * yt_block b1) (zop_addr Order Trans A2 lda i j + o)) ->
  (forall j o, 0 <= j < cols2 -> o = 0 \/ o = 1 ->
     ~ zgemv_touched fold rows Y incY bufX1 cols1 bufA1 (xt_block b1 * yt_block b1) (X2 + 2 * (j * incX) + o)) ->
  is_complex alpha fzero = false ->
  (forall i, 0 <= i < rows -> zacc_at fold (us i) (vs i) (zs i) m (zy_at fold Y incY i) /\
     2 * (cols1 + cols2) + Z.of_nat (length (zs i)) <= CAPACITY t /\
     zfinite (zgemv_products m Order Trans A lda alpha X incX (cols1 + cols2) i ++ zs i) = true) ->
  let call tu b cols A X bufX bufA := zbzgemv tu b fold Order Trans (dim1 Trans rows cols) (dim2 Trans rows cols) alpha A lda X incX Y incY bufX bufA in
  let two := call tu2 b2 cols2 A2 X2 bufX2 bufA2 (call tu1 b1 cols1 A X bufX1 bufA1 m) in
  let one := call tu b (cols1 + cols2) A X bufX bufA m in
  forall i, 0 <= i < rows ->
  re_words fold two (zy_at fold Y incY i) one (zy_at fold Y incY i) /\ im_words fold two (zy_at fold Y incY i) one (zy_at fold Y incY i).
Proof.
  intros Hf HT HT1 HT2 LB LB1 LB2 HR HC1 HC2 A2 X2 HE L L1 L2 U1 U2 Al H call two one i Hi. rewrite CAPACITY_eq in H.
  destruct (HE tu b (cols1 + cols2) ltac:(cbn; auto)) as [RL E0]. destruct (HE tu1 b1 cols1 ltac:(cbn; auto)) as [RL1 E1].
  destruct (HE tu2 b2 cols2 ltac:(cbn; auto)) as [RL2 E2]. clear HE.
  apply half_dots in E0, E1, E2.
  assert (ND : forall c, 0 <= c -> 0 <= dim1 Trans rows c /\ 0 <= dim2 Trans rows c) by (intros c Hc; unfold dim1, dim2; destruct (is_notrans Trans); lia).
  assert (PS : forall i, zgemv_products m Order Trans A lda alpha X incX (cols1 + cols2) i =
    zgemv_products m Order Trans A lda alpha X incX cols1 i ++ zgemv_products m Order Trans A2 lda alpha X2 incX cols2 i).
  { intros i'. unfold zgemv_products. rewrite flat_split by assumption. f_equal. apply flat_ext_in. intros k _. unfold A2, X2. rewrite zop_col.
    replace (X + 2 * (cols1 * incX) + 2 * (k * incX)) with (X + 2 * ((cols1 + k) * incX)) by ring. reflexivity. }
  destruct (ND (cols1 + cols2) ltac:(lia)) as [N1 N2]. destruct (ND cols1 HC1) as [N3 N4]. destruct (ND cols2 HC2) as [N5 N6].
  pose proof (zgemv_holds fold Hf tu b Order Trans _ _ alpha A lda X incX Y incY bufX bufA us vs zs m HT LB N1 N2 RL) as W.
  cbv zeta in W. rewrite dims_rows, dims_cols in W. specialize (W E0 L Al).
  destruct W as [W _]. { intros i' Hi'. destruct (H i' Hi') as (? & ? & ?). auto. }
  pose proof (zgemv_holds fold Hf tu1 b1 Order Trans _ _ alpha A lda X incX Y incY bufX1 bufA1 us vs zs m HT1 LB1 N3 N4 RL1) as W1.
  cbv zeta in W1. rewrite dims_rows, dims_cols in W1. specialize (W1 E1 L1 Al).
  destruct W1 as [W1 F1].
  { intros i' Hi'. destruct (H i' Hi') as (? & ? & Q). split; auto. lia. }
  fold (call tu b (cols1 + cols2) A X bufX bufA) in W. fold (call tu1 b1 cols1 A X bufX1 bufA1) in W1, F1. fold one in W.
  unfold two. set (m1 := call tu1 b1 cols1 A X bufX1 bufA1 m) in *. clear two. clearbody m1 one.
  assert (EP : forall i, 0 <= i < rows -> zgemv_products m1 Order Trans A2 lda alpha X2 incX cols2 i = zgemv_products m Order Trans A2 lda alpha X2 incX cols2 i).
  { intros i' Hi'. unfold zgemv_products. apply flat_ext_in. intros k Hk. apply zseq_In in Hk. unfold zop, complex_at.
    rewrite (F1 (zop_addr Order Trans A2 lda i' k + 1)), (F1 (X2 + 2 * (k * incX) + 1)) by (first [apply U1|apply U2]; first [lia|auto]).
    rewrite (F1 (zop_addr Order Trans A2 lda i' k)), (F1 (X2 + 2 * (k * incX))); [reflexivity| |].
    - rewrite <- (Z.add_0_r (X2 + _)). apply U2; [lia|auto].
    - rewrite <- (Z.add_0_r (zop_addr _ _ _ _ _ _)). apply U1; [lia|lia|auto]. }
  assert (LP : forall i, Z.of_nat (length (zgemv_products m Order Trans A lda alpha X incX cols1 i)) = 2 * cols1).
  { intros i'. unfold zgemv_products. apply flat_two; auto. }
  pose proof (zgemv_holds fold Hf tu2 b2 Order Trans _ _ alpha A2 lda X2 incX Y incY bufX2 bufA2 us vs
    (fun i => zgemv_products m Order Trans A lda alpha X incX cols1 i ++ zs i) m1 HT2 LB2 N5 N6 RL2) as W2.
  cbv zeta in W2. rewrite dims_rows, dims_cols in W2. specialize (W2 E2 L2 Al).
  assert (SP : forall i, 0 <= i < rows -> zfinite (zgemv_products m Order Trans A lda alpha X incX cols1 i) = true /\
    zfinite (zgemv_products m Order Trans A2 lda alpha X2 incX cols2 i) = true /\ zfinite (zs i) = true).
  { intros i' Hi'. destruct (H i' Hi') as (_ & _ & Q). rewrite PS, !zfinite_app in Q. apply andb_true_iff in Q. destruct Q as [Q ?]. apply andb_true_iff in Q. tauto. }
  destruct W2 as [W2 _].
  { intros i' Hi'. destruct (H i' Hi') as (Q1 & Q2 & Q3). split.
    - apply zout_acc; [|exact (W1 i' Hi')]. destruct (SP i' Hi') as (S1 & S2 & S3). now rewrite zfinite_app, S1, S3.
    - rewrite app_length, Nat2Z.inj_add, LP. lia. }
  fold (call tu2 b2 cols2 A2 X2 bufX2 bufA2) in W2. specialize (W i Hi). specialize (W2 i Hi). rewrite EP in W2 by assumption.
  destruct (SP i Hi) as (S1 & S2 & S3). rewrite PS in W.
  assert (Q : zfinite (zgemv_products m Order Trans A2 lda alpha X2 incX cols2 i ++ zgemv_products m Order Trans A lda alpha X incX cols1 i ++ zs i) = true) by (rewrite !zfinite_app, S1, S2, S3; reflexivity).
  apply zout_acc in W; [|rewrite !zfinite_app, S1, S2, S3; reflexivity]. apply zout_acc in W2; [|exact Q].
  refine (zacc_words fold _ _ _ _ _ _ _ _ Hf Q _ W2 W). rewrite <- app_assoc. apply Permutation_app_swap_app.
Qed.
Print Assumptions C87_gemv.

Example C87_case :
  (forall Order Trans,
     let A2 := zop_addr Order Trans 0 6 0 2 in
     zgemv_layout 3 Order Trans 3 (2 + 3) 0 6 100 2 1000 1 2000 3000 4 /\
     zgemv_layout 3 Order Trans 3 2 0 6 100 2 1000 1 2000 3000 4 /\
     zgemv_layout 3 Order Trans 3 3 A2 6 (100 + 2 * (2 * 2)) 2 1000 1 2000 3000 4 /\
     (forall i j o, 0 <= i < 3 -> 0 <= j < 3 -> o = 0 \/ o = 1 -> ~ zgemv_touched 3 3 1000 1 2000 2 3000 4 (zop_addr Order Trans A2 6 i j + o)) /\
     (forall j o, 0 <= j < 3 -> o = 0 \/ o = 1 -> ~ zgemv_touched 3 3 1000 1 2000 2 3000 4 (100 + 2 * (2 * 2) + 2 * (j * 2) + o)) /\
     (forall cols, In cols [2 + 3; 2; 3] -> (is_row Order = true \/ is_conj Trans = false ->
        right_length sample_blocks Order Trans (dim1 Trans 3 cols) (dim2 Trans 3 cols)) /\
        Z.min (Z.min cols (dot_block sample_blocks Order Trans)) (block_max half_tuning) <= ENDURANCE Dbl / 2)) /\
  (forall Order TransA TransB, let ldc := if is_row Order then 3 else 2 in
     zgemm_layout 3 Order TransA TransB 2 3 (1 + 3) 0 6 100 6 1000 ldc 2000 (bufA_len sample_mblocks 2 (1 + 3)) 3000 (mxt_block sample_mblocks * myt_block sample_mblocks) /\
     zgemm_layout 3 Order TransA TransB 2 3 (1 + 3) 0 6 100 6 1000 ldc 2000 (bufA_len sample_mblocks 2 1) 3000 (mxt_block sample_mblocks * myt_block sample_mblocks) /\
     zgemm_layout 3 Order TransA TransB 2 3 3 (zop_addr Order TransA 0 6 0 1) 6 (zop_addr Order TransB 100 6 1 0) 6 1000 ldc 2000
       (bufA_len sample_mblocks 2 3) 3000 (mxt_block sample_mblocks * myt_block sample_mblocks)) /\
  (forall b K, Z.min (Z.min K (Z.max (mx_block b) (mxt_block b))) (block_max half_tuning) <= ENDURANCE Dbl / 2).
Proof.
  split; [|split].
  - intros Order Trans A2.
    assert (OA : forall i j, 0 <= i < 3 -> 0 <= j < 5 -> 0 <= zop_addr Order Trans 0 6 i j < 60) by (intros i j Hi Hj; unfold zop_addr, op_addr, elem_addr; destruct (is_row Order), (is_notrans Trans); lia).
    assert (OB : forall i j, 0 <= i < 3 -> 0 <= j < 3 -> 0 <= zop_addr Order Trans A2 6 i j < 60) by (intros i j Hi Hj; unfold A2; rewrite zop_addr_col; apply OA; lia).
    clearbody A2. unfold zgemv_layout, zgemv_touched, within, zy_at, zbnum.
    split; [|split; [|split; [|split; [|split]]]].
    + split; [lia|]. split; [|split; [|split]]; try (intros; lia).
      * intros i j o Hi Hj Ho. specialize (OA i j Hi Hj). intros [(r & Hr & H)|[H|H]]; lia.
      * intros j o Hj Ho. intros [(r & Hr & H)|[H|H]]; lia.
    + split; [lia|]. split; [|split; [|split]]; try (intros; lia).
      * intros i j o Hi Hj Ho. specialize (OA i j Hi ltac:(lia)). intros [(r & Hr & H)|[H|H]]; lia.
      * intros j o Hj Ho. intros [(r & Hr & H)|[H|H]]; lia.
    + split; [lia|]. split; [|split; [|split]]; try (intros; lia).
      * intros i j o Hi Hj Ho. specialize (OB i j Hi Hj). intros [(r & Hr & H)|[H|H]]; lia.
      * intros j o Hj Ho. intros [(r & Hr & H)|[H|H]]; lia.
    + intros i j o Hi Hj Ho. specialize (OB i j Hi Hj). intros [(r & Hr & H)|[H|H]]; lia.
    + intros j o Hj Ho. intros [(r & Hr & H)|[H|H]]; lia.
    + intros cols Hc. split.
      * intros [E|E]; [now left|right; now left].
      * apply Z.le_trans with (block_max half_tuning); [lia|vm_compute; discriminate].
  - intros Order TransA TransB ldc.
    assert (E1 : bufA_len sample_mblocks 2 (1 + 3) = 8) by reflexivity. assert (E2 : bufA_len sample_mblocks 2 1 = 4) by reflexivity.
    assert (E3 : bufA_len sample_mblocks 2 3 = 6) by reflexivity. assert (E4 : mxt_block sample_mblocks * myt_block sample_mblocks = 4) by reflexivity.
    rewrite E1, E2, E3, E4. clear E1 E2 E3 E4.
    assert (CA : forall i j, 0 <= i < 2 -> 0 <= j < 3 -> 1000 <= zc_at 3 Order 1000 ldc i j <= 1060).
    { intros i j Hi Hj. unfold zc_at, zbnum, ldc. destruct (is_row Order); lia. }
    assert (HL : if is_row Order then 3 <= ldc else 2 <= ldc) by (unfold ldc; destruct (is_row Order); lia).
    assert (OA : forall i k, 0 <= i < 2 -> 0 <= k < 4 -> 0 <= zop_addr Order TransA 0 6 i k < 60) by (intros i k Hi Hk; unfold zop_addr, op_addr, elem_addr; destruct (is_row Order), (is_notrans TransA); lia).
    assert (OB : forall k j, 0 <= k < 4 -> 0 <= j < 3 -> 100 <= zop_addr Order TransB 100 6 k j < 160) by (intros k j Hk Hj; unfold zop_addr, op_addr, elem_addr; destruct (is_row Order), (is_notrans TransB); lia).
    clearbody ldc.
    assert (G : forall K A B lenA, 4 <= lenA <= 8 -> (forall i k, 0 <= i < 2 -> 0 <= k < K -> 0 <= zop_addr Order TransA A 6 i k < 60) ->
      (forall k j, 0 <= k < K -> 0 <= j < 3 -> 100 <= zop_addr Order TransB B 6 k j < 160) ->
      zgemm_layout 3 Order TransA TransB 2 3 K A 6 B 6 1000 ldc 2000 lenA 3000 4).
    { intros K A B lenA HLA GA GB. unfold zgemm_layout, zgemm_touched, within, zbnum. split; [exact HL|]. split; [|split; [|split]].
      - intros i k o Hi Hk Ho. specialize (GA i k Hi Hk). intros [(r & s & Hr & Hs & H)|[H|H]]; try lia. specialize (CA r s Hr Hs). lia.
      - intros k j o Hk Hj Ho. specialize (GB k j Hk Hj). intros [(r & s & Hr & Hs & H)|[H|H]]; try lia. specialize (CA r s Hr Hs). lia.
      - intros; lia.
      - intros a i j Ha Hi Hj. specialize (CA i j Hi Hj). lia. }
    split; [apply G; auto; lia|]. split; [apply G; auto; lia|]. apply G; [lia| |].
    + intros i k Hi Hk. rewrite zop_addr_col. apply OA; lia.
    + intros k j Hk Hj. rewrite zop_addr_row. apply OB; lia.
  - intros b K. apply Z.le_trans with (block_max half_tuning); [lia|vm_compute; discriminate].
Qed.
