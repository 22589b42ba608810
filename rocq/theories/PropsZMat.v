(** * C92: entries of complex matrix products are inner products: bit for bit, accurate, exact on integers *)
From Coq Require Import ZArith Reals Bool List Lia Lra Permutation Ascii.
From Flocq Require Import Core BinarySingleNaN.
From Verif Require Import Fp Mem Binned Spec Client FpProofs BitProofs CoreArith SpecProofs WordProofs MemProofs AccProofs SumProofs History ClientProofs ConvProofs SumError ConvFloat PropsSum PropsConv PropsAcc ComplexProofs PropsComplex Gen GenProofs Blas LaneProofs DriverProofs BlasSpec PropsBlas Gemv GemvSpec GemvProofs PropsGemv PropsApi BlasZ BlasZSpec PropsBlasZ GemvZ GemvZSpec GemvZProofs PropsGemvZ PropsGemmZ Exact PropsExact PropsSym PropsZReal PropsShuffleZ AccReal PropsAccuracy PropsAccuracyZ.
Import ListNotations.
Open Scope Z_scope.

(** ** The terms of one entry *)
Definition zterms {t} (p q : Z -> F t * F t) (n : Z) : list (F t * F t) := flat_map (fun k => summands (p k) (q k)) (zseq 0 n).
Lemma zterms_fst {t} (p q : Z -> F t * F t) n : map fst (zterms p q n) =
  pairs (fun k => fmul (fst (p k)) (fst (q k))) (fun k => fneg (fmul (snd (p k)) (snd (q k)))) (zseq 0 n).
Proof. unfold zterms. rewrite map_flat. reflexivity. Qed.
Lemma zterms_snd {t} (p q : Z -> F t * F t) n : map snd (zterms p q n) =
  pairs (fun k => fmul (snd (p k)) (fst (q k))) (fun k => fmul (fst (p k)) (snd (q k))) (zseq 0 n).
Proof. unfold zterms. rewrite map_flat. reflexivity. Qed.
Lemma zterms_length {t} (p q : Z -> F t * F t) n : 0 <= n -> Z.of_nat (length (zterms p q n)) = 2 * n.
Proof. intros Hn. rewrite <- (map_length fst), zterms_fst, pairs_length, zseq_length. lia. Qed.
Lemma zterms_ext {t} (p p' q q' : Z -> F t * F t) n : (forall k, p k = p' k) -> (forall k, q k = q' k) -> zterms p q n = zterms p' q' n.
Proof. intros Hp Hq. unfold zterms. apply flat_map_ext. intros k. now rewrite Hp, Hq. Qed.
Lemma zterms_plain {t} (m : mem t) X incX Y incY n :
  zterms (fun k => complex_at m (X + 2 * (k * incX))) (fun k => complex_at m (Y + 2 * (k * incY))) n = plain_products m X incX Y incY n.
Proof. unfold zterms, plain_products. rewrite zproducts_map, flat_map_map. reflexivity. Qed.
Lemma zterms_conj_l {t} (m : mem t) X incX Y incY n :
  zterms (fun k => conjugate (complex_at m (X + 2 * (k * incX)))) (fun k => complex_at m (Y + 2 * (k * incY))) n = conj_products m X incX Y incY n.
Proof.
  unfold zterms, conj_products. rewrite zproducts_map, flat_map_map. apply flat_map_ext. intros k. unfold summands, conjugate, complex_at. cbn [fst snd].
  now rewrite !fmul_neg_l, fneg_neg.
Qed.
Lemma zterms_conj_r {t} (m : mem t) X incX Y incY n :
  let l := zterms (fun k => complex_at m (X + 2 * (k * incX))) (fun k => conjugate (complex_at m (Y + 2 * (k * incY)))) n in
  map fst l = map fst (conj_products m Y incY X incX n) /\ Permutation (map snd l) (map snd (conj_products m Y incY X incX n)).
Proof.
  cbv zeta. rewrite zterms_fst, zterms_snd, conj_fst, conj_snd. unfold conjugate, complex_at. cbn [fst snd]. unfold pairs. split.
  - apply flat_map_ext. intros k. rewrite fmul_neg_r, fneg_neg. now rewrite (fmul_comm (m (X + 2 * (k * incX)))), (fmul_comm (m (X + 2 * (k * incX) + 1))).
  - induction (zseq 0 n) as [|k l IH]; [constructor|]. cbn [flat_map app]. rewrite fmul_neg_r, IH.
    rewrite (fmul_comm (m (X + 2 * (k * incX) + 1))), (fmul_comm (m (X + 2 * (k * incX)))). apply perm_swap.
Qed.
(** The value of a list of finite terms. *)
Lemma same_pair t fold (zs zs' : list (F t * F t)) (m : mem t) v w : 2 <= fold <= MAXFOLD t -> Z.of_nat (length zs) <= CAPACITY t ->
  Permutation (map fst zs) (map fst zs') -> Permutation (map snd zs) (map snd zs') -> zfinite zs = true ->
  sum_value fold 0 (map fst zs) m (fst v) -> sum_value fold 0 (map snd zs) m (snd v) ->
  sum_value fold 0 (map fst zs') m (fst w) -> sum_value fold 0 (map snd zs') m (snd w) -> v = w.
Proof.
  intros Hf HC P1 P2 FZ V1 V2 W1 W2. apply andb_true_iff in FZ. destruct FZ as [F1 F2]. rewrite CAPACITY_eq in HC.
  destruct v as [v1 v2], w as [w1 w2]. cbn [fst snd] in *. f_equal.
  - apply (same_value t fold 0 (map fst zs) (map fst zs') m m v1 w1 Hf); [rewrite map_length; exact HC|exact P1|exact F1|exact V1|exact W1].
  - apply (same_value t fold 0 (map snd zs) (map snd zs') m m v2 w2 Hf); [rewrite map_length; exact HC|exact P2|exact F2|exact V2|exact W2].
Qed.
Open Scope R_scope.
(** The exact terms of both parts of sum of p_k q_k. *)
Definition re_terms {t} (p q : Z -> F t * F t) (n : Z) : list R :=
  flat_map (fun k => [B2R (fst (p k)) * B2R (fst (q k)); - B2R (snd (p k)) * B2R (snd (q k))]) (zseq 0 n).
Definition im_terms {t} (p q : Z -> F t * F t) (n : Z) : list R :=
  flat_map (fun k => [B2R (snd (p k)) * B2R (fst (q k)); B2R (fst (p k)) * B2R (snd (q k))]) (zseq 0 n).
Lemma zterms_close t fold (p q : Z -> F t * F t) n (m : mem t) v : (2 <= fold <= MAXFOLD t)%Z -> (0 <= n)%Z -> (2 * n <= CAPACITY t)%Z ->
  zfinite (zterms p q n) = true -> sum_value fold 0 (map fst (zterms p q n)) m (fst v) -> sum_value fold 0 (map snd (zterms p q n)) m (snd v) ->
  close_dot t fold (re_terms p q n) (fst v) /\ close_dot t fold (im_terms p q n) (snd v).
Proof.
  intros Hf Hn HC FZ V1 V2. pose proof (zterms_length p q n Hn) as HL. apply andb_true_iff in FZ. destruct FZ as [F1 F2].
  unfold sum_value in V1, V2. rewrite F1 in V1. rewrite F2 in V2. rewrite V1, V2. split.
  - apply (close_terms t fold 0 _ _ (pairs (fun k => (fst (p k), fst (q k))) (fun k => (fneg (snd (p k)), snd (q k))) (zseq 0 n))); auto.
    + rewrite map_length. lia.
    + rewrite zterms_fst, pairs_map. unfold pairs. apply flat_map_ext. intros k. now rewrite fmul_neg_l.
    + rewrite pairs_map. unfold re_terms, pairs. apply flat_map_ext. intros k. unfold fneg. now rewrite B2R_Bopp.
  - apply (close_terms t fold 0 _ _ (pairs (fun k => (snd (p k), fst (q k))) (fun k => (fst (p k), snd (q k))) (zseq 0 n))); auto.
    + rewrite map_length. lia.
    + rewrite zterms_snd, pairs_map. reflexivity.
    + rewrite pairs_map. reflexivity.
Qed.
Open Scope Z_scope.
(** Complex numbers with integer parts. *)
Definition zisint {t} (z : F t * F t) (a b : Z) : Prop := isint (fst z) a /\ isint (snd z) b.
Lemma zterms_ints t fold (p q : Z -> F t * F t) n (a b c d : Z -> Z) (m : mem t) v :
  2 <= fold <= MAXFOLD t -> 0 <= n -> 2 * n <= CAPACITY t ->
  (forall k, 0 <= k < n -> zisint (p k) (a k) (b k) /\ zisint (q k) (c k) (d k)) ->
  zsum (map (fun k => Z.abs (a k * c k) + Z.abs (b k * d k)) (zseq 0 n)) <= 2 ^ prec t ->
  zsum (map (fun k => Z.abs (a k * d k) + Z.abs (b k * c k)) (zseq 0 n)) <= 2 ^ prec t ->
  sum_value fold 0 (map fst (zterms p q n)) m (fst v) -> sum_value fold 0 (map snd (zterms p q n)) m (snd v) ->
  zisint v (zsum (map (fun k => a k * c k - b k * d k) (zseq 0 n))) (zsum (map (fun k => a k * d k + b k * c k) (zseq 0 n))).
Proof.
  intros Hf Hn HC HP HR HI V1 V2.
  assert (TT : forall k, 0 <= k < n -> isint (fmul (fst (p k)) (fst (q k))) (a k * c k) /\ isint (fmul (snd (p k)) (snd (q k))) (b k * d k) /\
    isint (fmul (fst (p k)) (snd (q k))) (a k * d k) /\ isint (fmul (snd (p k)) (fst (q k))) (b k * c k)).
  { intros k Hk. destruct (HP k Hk) as [[P1 P2] [Q1 Q2]].
    pose proof (term_le n (fun i => Z.abs (a i * c i) + Z.abs (b i * d i)) k _ Hk ltac:(intros; lia) HR) as R.
    pose proof (term_le n (fun i => Z.abs (a i * d i) + Z.abs (b i * c i)) k _ Hk ltac:(intros; lia) HI) as I. cbv beta in R, I.
    split; [apply (isint_mul _ _ _ _ P1 Q1); lia|]. split; [apply (isint_mul _ _ _ _ P2 Q2); lia|]. split; [apply (isint_mul _ _ _ _ P1 Q2); lia|apply (isint_mul _ _ _ _ P2 Q1); lia]. }
  rewrite zterms_fst in V1. rewrite zterms_snd in V2. split.
  - match type of V1 with context [pairs ?f ?g _] => destruct (pairs_conv fold n f g (fun k => a k * c k) (fun k => - (b k * d k)) 0 m Hf ltac:(lia)) as [E1 E2] end.
    { intros k Hk. split; [|apply isint_neg]; apply TT, Hk. }
    { erewrite map_ext; [exact HR|]. intros k. cbv beta. rewrite Z.abs_opp. lia. }
    unfold sum_value in V1. rewrite E1 in V1. rewrite V1. erewrite map_ext; [exact E2|]. intros k. cbv beta. lia.
  - match type of V2 with context [pairs ?f ?g _] => destruct (pairs_conv fold n f g (fun k => b k * c k) (fun k => a k * d k) 0 m Hf ltac:(lia)) as [E1 E2] end.
    { intros k Hk. split; apply TT, Hk. }
    { erewrite map_ext; [exact HI|]. intros k. cbv beta. lia. }
    unfold sum_value in V2. rewrite E1 in V2. rewrite V2. erewrite map_ext; [exact E2|]. intros k. cbv beta. lia.
Qed.
Lemma one_complex {t} (alpha : F t * F t) : is_complex alpha (mkf 1 0) = true -> is_complex alpha fzero = false /\ forall z, times_complex alpha z = z.
Proof.
  intros H. split; [|intros z; unfold times_complex; now rewrite H]. unfold is_complex in *. apply andb_true_iff in H. destruct H as [H _].
  now rewrite (feq_one_not_zero _ H).
Qed.
Lemma zrow_addr Order Trans A ld i k : zop_addr Order Trans A ld i k = zop_addr Order Trans A ld i 0 + 2 * (k * row_step Order Trans ld).
Proof. unfold zop_addr. rewrite (op_addr_row Order Trans). ring. Qed.
Lemma zcol_addr Order Trans A ld k j : zop_addr Order Trans A ld k j = zop_addr Order Trans A ld 0 j + 2 * (k * col_step Order Trans ld).
Proof. unfold zop_addr. rewrite (op_addr_col Order Trans). ring. Qed.

(** ** reproBLAS_rzgemm with alpha = 1 and beta = 0 *)
Section GEMM.
  Context (t : ty) (tu : tuning) (b : gemm_blocks) (fold : Z) (Order TransA TransB : ascii) (M N K : Z) (alpha beta : F t * F t).
  Context (A lda B ldb C ldc CI bufA bufB : Z) (m : mem t).
  Hypothesis Hf : 2 <= fold <= MAXFOLD t.
  Hypothesis HT : tuned t tu.
  Hypothesis LB : legal_gemm b.
  Hypothesis HM : 0 < M.
  Hypothesis HN : 0 < N.
  Hypothesis HK : 0 <= K.
  Hypothesis HC : 2 * K + 1 <= CAPACITY t.
  Hypothesis H1 : is_complex alpha (mkf 1 0) = true.
  Hypothesis H0 : is_complex beta fzero = true.
  (** The dot products of the blocks have at most half the endurance (C29). *)
  Hypothesis HE : Z.min (Z.min K (Z.max (mx_block b) (mxt_block b))) (block_max tu) <= ENDURANCE t / 2.
  Local Notation ldi := (if is_row Order then N else M).
  Local Notation lenA := (bufA_len b M K).
  Local Notation lenB := (mxt_block b * myt_block b).
  Hypothesis LY : zgemm_layout fold Order TransA TransB M N K A lda B ldb CI ldi bufA lenA bufB lenB.
  Hypothesis HL : ldi <= ldc.
  Hypothesis HU : forall i j o, 0 <= i < M -> 0 <= j < N -> o = 0 \/ o = 1 ->
    ~ zgemm_touched fold Order M N CI ldi bufA lenA bufB lenB (zelem_addr Order C ldc i j + o).
  Local Notation result := (rzgemm tu b fold Order TransA TransB M N K alpha A lda B ldb beta C ldc CI bufA bufB m).
  (** Row i of op(A), column j of op(B). *)
  Local Notation rowA i := (fun k => zop m Order TransA A lda i k).
  Local Notation colB j := (fun k => zop m Order TransB B ldb k j).
  Lemma gemm_entry i j : 0 <= i < M -> 0 <= j < N ->
    sum_value fold 0 (map fst (zterms (rowA i) (colB j) K)) m (fst (complex_at result (zelem_addr Order C ldc i j))) /\
    sum_value fold 0 (map snd (zterms (rowA i) (colB j) K)) m (snd (complex_at result (zelem_addr Order C ldc i j))).
  Proof.
    intros Hi Hj. destruct (one_complex alpha H1) as [A0 A1].
    destruct (C47_rzgemm_partial t tu b fold Order TransA TransB M N K alpha beta A lda B ldb C ldc CI bufA bufB 0 m Hf HT LB HM HN HK (or_intror (or_intror H1)) HE LY HL HU HC) as [R _].
    specialize (R i j Hi Hj). cbv zeta in R. rewrite A0 in R. unfold zstarted in R. rewrite H0, app_nil_r in R.
    replace (zterms (rowA i) (colB j) K) with (zgemm_products m Order TransA TransB A lda alpha B ldb K i j); [exact R|].
    unfold zgemm_products, zterms. apply flat_map_ext. intros k. now rewrite A1.
  Qed.
(** Each entry is reproBLAS_rzdotu of a row and a column of the stored matrices; with one conjugated operand it is
    reproBLAS_rzdotc, with the stored vector of the conjugated operand first. *)
Theorem C92_gemm_is_dot tu' tmp i j : 0 <= i < M -> 0 <= j < N ->
    tuned t tu' -> Z.min K (block_max tu') <= ENDURANCE t / 2 ->
    zfinite (zgemm_products m Order TransA TransB A lda alpha B ldb K i j) = true ->
    let X := zop_addr Order TransA A lda i 0 in let incX := row_step Order TransA lda in
    let Y := zop_addr Order TransB B ldb 0 j in let incY := col_step Order TransB ldb in
    zclear_of X incX K tmp (zbnum fold) -> zclear_of Y incY K tmp (zbnum fold) ->
    let Cij := complex_at result (zelem_addr Order C ldc i j) in
    match is_conj TransA, is_conj TransB with
    | false, false => Cij = rzdotu tu' fold K X incX Y incY tmp m
    | true, false => Cij = rzdotc tu' fold K X incX Y incY tmp m
    | false, true => Cij = rzdotc tu' fold K Y incY X incX tmp m
    | true, true => True
    end.
  Proof.
    intros Hi Hj HT' HB' FZ X incX Y incY CX CY Cij. destruct (one_complex alpha H1) as [A0 A1].
    assert (EZ : zgemm_products m Order TransA TransB A lda alpha B ldb K i j = zterms (rowA i) (colB j) K).
    { unfold zgemm_products, zterms. apply flat_map_ext. intros k. now rewrite A1. }
    rewrite EZ in FZ. clear EZ. destruct (gemm_entry i j Hi Hj) as [V1 V2]. fold Cij in V1, V2. clearbody Cij.
    assert (HL2 : Z.of_nat (length (zterms (rowA i) (colB j) K)) <= CAPACITY t) by (rewrite zterms_length by exact HK; lia).
    assert (EA : forall k, zop m Order TransA A lda i k = if is_conj TransA then conjugate (complex_at m (X + 2 * (k * incX))) else complex_at m (X + 2 * (k * incX))).
    { intros k. unfold zop. rewrite zrow_addr. reflexivity. }
    assert (EB : forall k, zop m Order TransB B ldb k j = if is_conj TransB then conjugate (complex_at m (Y + 2 * (k * incY))) else complex_at m (Y + 2 * (k * incY))).
    { intros k. unfold zop. rewrite zcol_addr. reflexivity. }
    assert (EZ : zterms (rowA i) (colB j) K =
      zterms (if is_conj TransA then fun k => conjugate (complex_at m (X + 2 * (k * incX))) else fun k => complex_at m (X + 2 * (k * incX)))
             (if is_conj TransB then fun k => conjugate (complex_at m (Y + 2 * (k * incY))) else fun k => complex_at m (Y + 2 * (k * incY))) K).
    { apply zterms_ext; intros k; cbv beta; rewrite ?EA, ?EB; [destruct (is_conj TransA)|destruct (is_conj TransB)]; reflexivity. }
    rewrite EZ in FZ, V1, V2, HL2. clear EA EB EZ. destruct (is_conj TransA), (is_conj TransB); [exact I| | |].
    - rewrite zterms_conj_l in FZ, V1, V2, HL2. destruct (C29_rzdotc_partial t tu' fold K X incX Y incY tmp 0 _ m m Hf HT' HB' ltac:(lia) CX CY (Permutation_refl _)) as [W1 W2].
      exact (same_pair t fold _ _ m _ _ Hf HL2 (Permutation_refl _) (Permutation_refl _) FZ V1 V2 W1 W2).
    - destruct (zterms_conj_r m X incX Y incY K) as [P1 P2].
      destruct (C29_rzdotc_partial t tu' fold K Y incY X incX tmp 0 _ m m Hf HT' HB' ltac:(lia) CY CX (Permutation_refl _)) as [W1 W2].
      refine (same_pair t fold _ _ m _ _ Hf HL2 _ P2 FZ V1 V2 W1 W2). now rewrite P1.
    - rewrite zterms_plain in FZ, V1, V2, HL2. destruct (C29_rzdotu_partial t tu' fold K X incX Y incY tmp 0 _ m m Hf HT' HB' ltac:(lia) CX CY (Permutation_refl _)) as [W1 W2].
      exact (same_pair t fold _ _ m _ _ Hf HL2 (Permutation_refl _) (Permutation_refl _) FZ V1 V2 W1 W2).
  Qed.
(** Both parts of each entry are accurate. *)
Theorem C92_gemm_accurate i j : 0 <= i < M -> 0 <= j < N ->
    zfinite (zgemm_products m Order TransA TransB A lda alpha B ldb K i j) = true ->
    let Cij := complex_at result (zelem_addr Order C ldc i j) in
    close_dot t fold (re_terms (rowA i) (colB j) K) (fst Cij) /\ close_dot t fold (im_terms (rowA i) (colB j) K) (snd Cij).
  Proof.
    intros Hi Hj FZ Cij. destruct (one_complex alpha H1) as [A0 A1].
    assert (EZ : zgemm_products m Order TransA TransB A lda alpha B ldb K i j = zterms (rowA i) (colB j) K).
    { unfold zgemm_products, zterms. apply flat_map_ext. intros k. now rewrite A1. }
    rewrite EZ in FZ. destruct (gemm_entry i j Hi Hj) as [V1 V2]. fold Cij in V1, V2. apply (zterms_close t fold _ _ K m Cij); auto. lia.
  Qed.
(** Integer operands with small enough sums of products: the exact integers. *)
Theorem C92_gemm_integers i j (a a' c c' : Z -> Z) : 0 <= i < M -> 0 <= j < N ->
    (forall k, 0 <= k < K -> zisint (zop m Order TransA A lda i k) (a k) (a' k) /\ zisint (zop m Order TransB B ldb k j) (c k) (c' k)) ->
    zsum (map (fun k => Z.abs (a k * c k) + Z.abs (a' k * c' k)) (zseq 0 K)) <= 2 ^ prec t ->
    zsum (map (fun k => Z.abs (a k * c' k) + Z.abs (a' k * c k)) (zseq 0 K)) <= 2 ^ prec t ->
    zisint (complex_at result (zelem_addr Order C ldc i j)) (zsum (map (fun k => a k * c k - a' k * c' k) (zseq 0 K))) (zsum (map (fun k => a k * c' k + a' k * c k) (zseq 0 K))).
  Proof.
    intros Hi Hj HX HR HI. destruct (gemm_entry i j Hi Hj) as [V1 V2].
    apply (zterms_ints t fold (rowA i) (colB j) K a a' c c' m); auto. lia.
  Qed.
End GEMM.
Print Assumptions C92_gemm_is_dot. Print Assumptions C92_gemm_accurate. Print Assumptions C92_gemm_integers.

(** ** reproBLAS_rzgemv, likewise *)
Section GEMV.
  Context (t : ty) (tu : tuning) (b : gemv_blocks) (fold : Z) (Order Trans : ascii) (M N : Z) (alpha beta : F t * F t).
  Context (A lda X incX Y incY YI bufX bufA : Z) (m : mem t).
  Local Notation rows := (op_rows Trans M N).
  Local Notation cols := (op_cols Trans M N).
  Local Notation lenA := (xt_block b * yt_block b).
  Hypothesis Hf : 2 <= fold <= MAXFOLD t.
  Hypothesis HT : tuned t tu.
  Hypothesis LB : legal_gemv b.
  Hypothesis HM : 0 < M.
  Hypothesis HN : 0 < N.
  Hypothesis RL : right_length b Order Trans M N.
  Hypothesis HE : Z.min (Z.min cols (dot_block b Order Trans)) (block_max tu) <= ENDURANCE t / 2.
  Hypothesis LY : zgemv_layout fold Order Trans rows cols A lda X incX YI 1 bufX bufA lenA.
  Hypothesis NY : incY <> 0.
  Hypothesis HU : forall i o, 0 <= i < rows -> o = 0 \/ o = 1 -> ~ zgemv_touched fold rows YI 1 bufX cols bufA lenA (Y + 2 * (i * incY) + o).
  Hypothesis HC : 2 * cols + 1 <= CAPACITY t.
  Hypothesis H1 : is_complex alpha (mkf 1 0) = true.
  Hypothesis H0 : is_complex beta fzero = true.
  Local Notation result := (rzgemv tu b fold Order Trans M N alpha A lda X incX beta Y incY YI bufX bufA m).
  Local Notation rowA i := (fun k => zop m Order Trans A lda i k).
  Local Notation vecX := (fun k => complex_at m (X + 2 * (k * incX))).
  Lemma cols_nonneg : 0 <= cols. Proof. unfold op_cols. destruct (is_notrans Trans); lia. Qed.
  Lemma gemv_terms i : zgemv_products m Order Trans A lda alpha X incX cols i = zterms (rowA i) vecX cols.
  Proof. destruct (one_complex alpha H1) as [_ A1]. unfold zgemv_products, zterms. apply flat_map_ext. intros k. now rewrite A1. Qed.
  Lemma gemv_entry i : 0 <= i < rows ->
    sum_value fold 0 (map fst (zterms (rowA i) vecX cols)) m (fst (complex_at result (Y + 2 * (i * incY)))) /\
    sum_value fold 0 (map snd (zterms (rowA i) vecX cols)) m (snd (complex_at result (Y + 2 * (i * incY)))).
  Proof.
    intros Hi. destruct (one_complex alpha H1) as [A0 A1].
    destruct (C40_rzgemv_partial t tu b fold Order Trans M N alpha beta A lda X incX Y incY YI bufX bufA 0 m Hf HT LB HM HN RL HE LY NY HU HC) as [R _].
    specialize (R i Hi). cbv zeta in R. rewrite A0 in R. unfold zstarted in R. rewrite H0, app_nil_r in R. rewrite <- gemv_terms. exact R.
  Qed.
Theorem C92_gemv_is_dot tu' tmp i : 0 <= i < rows ->
    tuned t tu' -> Z.min cols (block_max tu') <= ENDURANCE t / 2 ->
    zfinite (zgemv_products m Order Trans A lda alpha X incX cols i) = true ->
    let R := zop_addr Order Trans A lda i 0 in let incR := row_step Order Trans lda in
    zclear_of R incR cols tmp (zbnum fold) -> zclear_of X incX cols tmp (zbnum fold) ->
    complex_at result (Y + 2 * (i * incY)) =
    if is_conj Trans then rzdotc tu' fold cols R incR X incX tmp m else rzdotu tu' fold cols R incR X incX tmp m.
  Proof.
    intros Hi HT' HB' FZ R incR CR CX. pose proof cols_nonneg as Hc. rewrite gemv_terms in FZ. destruct (gemv_entry i Hi) as [V1 V2].
    set (Yi := complex_at result (Y + 2 * (i * incY))) in *. clearbody Yi.
    assert (HL2 : Z.of_nat (length (zterms (rowA i) vecX cols)) <= CAPACITY t) by (rewrite zterms_length by exact Hc; lia).
    assert (EA : forall k, zop m Order Trans A lda i k = if is_conj Trans then conjugate (complex_at m (R + 2 * (k * incR))) else complex_at m (R + 2 * (k * incR))).
    { intros k. unfold zop. rewrite zrow_addr. reflexivity. }
    assert (EZ : zterms (rowA i) vecX cols =
      zterms (if is_conj Trans then fun k => conjugate (complex_at m (R + 2 * (k * incR))) else fun k => complex_at m (R + 2 * (k * incR))) vecX cols).
    { apply zterms_ext; intros k; cbv beta; rewrite ?EA; [destruct (is_conj Trans)|]; reflexivity. }
    rewrite EZ in FZ, V1, V2, HL2. clear EA EZ. destruct (is_conj Trans).
    - rewrite zterms_conj_l in FZ, V1, V2, HL2. destruct (C29_rzdotc_partial t tu' fold cols R incR X incX tmp 0 _ m m Hf HT' HB' ltac:(lia) CR CX (Permutation_refl _)) as [W1 W2].
      exact (same_pair t fold _ _ m _ _ Hf HL2 (Permutation_refl _) (Permutation_refl _) FZ V1 V2 W1 W2).
    - rewrite zterms_plain in FZ, V1, V2, HL2. destruct (C29_rzdotu_partial t tu' fold cols R incR X incX tmp 0 _ m m Hf HT' HB' ltac:(lia) CR CX (Permutation_refl _)) as [W1 W2].
      exact (same_pair t fold _ _ m _ _ Hf HL2 (Permutation_refl _) (Permutation_refl _) FZ V1 V2 W1 W2).
  Qed.
Theorem C92_gemv_accurate i : 0 <= i < rows ->
    zfinite (zgemv_products m Order Trans A lda alpha X incX cols i) = true ->
    let Yi := complex_at result (Y + 2 * (i * incY)) in
    close_dot t fold (re_terms (rowA i) vecX cols) (fst Yi) /\ close_dot t fold (im_terms (rowA i) vecX cols) (snd Yi).
  Proof.
    intros Hi FZ Yi. pose proof cols_nonneg as Hc. rewrite gemv_terms in FZ. destruct (gemv_entry i Hi) as [V1 V2]. fold Yi in V1, V2.
    apply (zterms_close t fold _ _ cols m Yi); auto. lia.
  Qed.
Theorem C92_gemv_integers i (a a' c c' : Z -> Z) : 0 <= i < rows ->
    (forall k, 0 <= k < cols -> zisint (zop m Order Trans A lda i k) (a k) (a' k) /\ zisint (complex_at m (X + 2 * (k * incX))) (c k) (c' k)) ->
    zsum (map (fun k => Z.abs (a k * c k) + Z.abs (a' k * c' k)) (zseq 0 cols)) <= 2 ^ prec t ->
    zsum (map (fun k => Z.abs (a k * c' k) + Z.abs (a' k * c k)) (zseq 0 cols)) <= 2 ^ prec t ->
    zisint (complex_at result (Y + 2 * (i * incY))) (zsum (map (fun k => a k * c k - a' k * c' k) (zseq 0 cols))) (zsum (map (fun k => a k * c' k + a' k * c k) (zseq 0 cols))).
  Proof.
    intros Hi HX HR HI. pose proof cols_nonneg as Hc. destruct (gemv_entry i Hi) as [V1 V2].
    apply (zterms_ints t fold (rowA i) vecX cols a a' c c' m); auto. lia.
  Qed.
End GEMV.
Print Assumptions C92_gemv_is_dot. Print Assumptions C92_gemv_accurate. Print Assumptions C92_gemv_integers.

(** Case: every element of both operands is 1 + 2 I; the 2 by 2 products over an inner dimension of 3. *)
Definition twos_mem : mem Dbl := fun a => if Z.even a then mkf 1 0 else mkf 2 0.
Definition twos_run (Order TransA TransB : ascii) : mem Dbl :=
  rzgemm half_tuning sample_mblocks 3 Order TransA TransB 2 2 3 (mkf 1 0, fzero) 0 6 100 6 (fzero, fzero) 200 4 1000 2000 3000 twos_mem.
Definition twos_entry (Order TransA TransB : ascii) (i j : Z) (re im : Z) : bool :=
  let z := complex_at (twos_run Order TransA TransB) (zelem_addr Order 200 4 i j) in
  feq (fst z) (mkf re 0) && feq (snd z) (mkf im 0) &&
  zfinite (zgemm_products twos_mem Order TransA TransB 0 6 (mkf 1 0, fzero) 100 6 3 i j).
Example C92_case :
  (forall Order TransA TransB, let ldi := if is_row Order then 2 else 2 in let lenB := mxt_block sample_mblocks * myt_block sample_mblocks in
     zgemm_layout 3 Order TransA TransB 2 2 3 0 6 100 6 1000 ldi 2000 (bufA_len sample_mblocks 2 3) 3000 lenB /\ ldi <= 4 /\
     (forall i j o, 0 <= i < 2 -> 0 <= j < 2 -> o = 0 \/ o = 1 ->
        ~ zgemm_touched 3 Order 2 2 1000 ldi 2000 (bufA_len sample_mblocks 2 3) 3000 lenB (zelem_addr Order 200 4 i j + o)) /\
     (forall i j, 0 <= i < 2 -> 0 <= j < 2 ->
        zclear_of (zop_addr Order TransA 0 6 i 0) (row_step Order TransA 6) 3 500 (zbnum 3) /\
        zclear_of (zop_addr Order TransB 100 6 0 j) (col_step Order TransB 6) 3 500 (zbnum 3))) /\
  Z.min (Z.min 3 (Z.max (mx_block sample_mblocks) (mxt_block sample_mblocks))) (block_max half_tuning) <= ENDURANCE Dbl / 2 /\
  is_complex (mkf 1 0 : F Dbl, fzero : F Dbl) (mkf 1 0) = true /\ is_complex (fzero : F Dbl, fzero : F Dbl) fzero = true /\
  twos_entry "R" "n" "n" 0 1 (-9) 12 = true /\ twos_entry "C" "c" "n" 1 0 15 0 = true /\ twos_entry "R" "n" "c" 1 1 15 0 = true /\
  twos_entry "C" "t" "c" 0 0 15 0 = true.
Proof.
  split; [|split; [apply Z.leb_le; vm_compute; reflexivity|]].
  - intros Order TransA TransB ldi lenB.
    assert (E1 : bufA_len sample_mblocks 2 3 = 6) by reflexivity. assert (E2 : lenB = 4) by reflexivity. rewrite E1, E2. clear E1 E2 lenB.
    assert (EL : ldi = 2) by (unfold ldi; destruct (is_row Order); reflexivity). rewrite EL. clear EL ldi.
    assert (OA : forall i k, 0 <= i < 2 -> 0 <= k < 3 -> 0 <= zop_addr Order TransA 0 6 i k < 60) by (intros i k Hi Hk; unfold zop_addr, op_addr, elem_addr; destruct (is_row Order), (is_notrans TransA); lia).
    assert (OB : forall k j, 0 <= k < 3 -> 0 <= j < 2 -> 100 <= zop_addr Order TransB 100 6 k j < 160) by (intros i k Hi Hk; unfold zop_addr, op_addr, elem_addr; destruct (is_row Order), (is_notrans TransB); lia).
    assert (OC : forall i j, 0 <= i < 2 -> 0 <= j < 2 -> 200 <= zelem_addr Order 200 4 i j < 260) by (intros i j Hi Hj; unfold zelem_addr, elem_addr; destruct (is_row Order); lia).
    assert (CA : forall i j, 0 <= i < 2 -> 0 <= j < 2 -> 1000 <= zc_at 3 Order 1000 2 i j <= 1060) by (intros i j Hi Hj; unfold zc_at, zbnum; destruct (is_row Order); lia).
    split; [|split; [lia|split]].
    + unfold zgemm_layout, zgemm_touched, within. split; [destruct (is_row Order); lia|]. split; [|split; [|split]]; try (intros; lia).
      * intros i k o Hi Hk Ho. specialize (OA i k Hi Hk). unfold zbnum. intros [(i1 & j1 & Hi1 & Hj1 & H)|[H|H]]; try lia. specialize (CA i1 j1 Hi1 Hj1). lia.
      * intros k j o Hk Hj Ho. specialize (OB k j Hk Hj). unfold zbnum. intros [(i1 & j1 & Hi1 & Hj1 & H)|[H|H]]; try lia. specialize (CA i1 j1 Hi1 Hj1). lia.
      * intros a i j Ha Hi Hj. specialize (CA i j Hi Hj). unfold zbnum. lia.
    + intros i j o Hi Hj Ho. specialize (OC i j Hi Hj). unfold zgemm_touched, within, zbnum. intros [(i1 & j1 & Hi1 & Hj1 & H)|[H|H]]; try lia. specialize (CA i1 j1 Hi1 Hj1). lia.
    + intros i j Hi Hj. unfold zclear_of, zbnum. split; intros k o Hk Ho.
      * specialize (OA i k Hi Hk). rewrite zrow_addr in OA. lia.
      * specialize (OB k j Hk Hj). rewrite zcol_addr in OB. lia.
  - split; [vm_compute; reflexivity|]. split; [vm_compute; reflexivity|]. split; [vm_compute; reflexivity|]. split; [vm_compute; reflexivity|]. split; vm_compute; reflexivity.
Qed.
Print Assumptions C92_case.
