(** * C88: permuted complex matrix products *)
From Coq Require Import ZArith Bool List Lia Permutation Ascii.
From Flocq Require Import Core BinarySingleNaN.
From Verif Require Import Fp Mem Binned Spec FpProofs BitProofs CoreArith SpecProofs WordProofs MemProofs AccProofs SumProofs ConvProofs Client History ClientProofs StrideProofs PropsSum PropsAcc PropsMem ComplexProofs PropsComplex Gen GenProofs Params ParamsProofs PropsGen Blas LaneProofs ReduceProofs DriverProofs BlasSpec PropsBlas BlasZ ZEvents ZKernel ZDriver ZLoop BlasZSpec PropsBlasZ Gemv GemvSpec GemvProofs PropsGemv GemvZ GemvZSpec GemvZProofs PropsGemvZ PropsGemmZ PropsScale PropsSplit PropsSplitZ PropsShuffle PropsDist.
Import ListNotations.
Open Scope Z_scope.

Lemma flat_reindex {A} (f g : Z -> list A) p n : permutes p n -> (forall k, 0 <= k < n -> g (p k) = f k) ->
  Permutation (flat_map f (zseq 0 n)) (flat_map g (zseq 0 n)).
Proof.
  intros HP E. transitivity (flat_map g (map p (zseq 0 n))).
  - rewrite (flat_map_concat_map g), map_map, <- flat_map_concat_map. erewrite flat_ext_in; [reflexivity|].
    intros k Hk. apply zseq_In in Hk. cbn beta. symmetry. apply E. lia.
  - apply Permutation_flat_map, permutes_perm, HP.
Qed.
Lemma same_value t fold T (xs xs' : list (F t)) (m m' : mem t) v v' : 2 <= fold <= MAXFOLD t -> Z.of_nat (length xs) <= capacity t ->
  Permutation xs xs' -> all_finite xs = true -> sum_value fold T xs m v -> sum_value fold T xs' m' v' -> v = v'.
Proof.
  intros Hf HC P F. unfold sum_value. rewrite <- (all_finite_perm _ _ P), F. intros -> ->.
  eapply conv_acc; [exact Hf|apply Permutation_refl|exact P| |].
  - apply sum_list_at; assumption.
  - apply sum_list_at; [assumption|]. now rewrite <- (Permutation_length P).
Qed.
Lemma same_complex t fold T zs zs' (m m' r r' : mem t) a a' : 2 <= fold <= MAXFOLD t -> Z.of_nat (length zs) <= capacity t ->
  Permutation zs zs' -> zfinite zs = true ->
  sum_value fold T (map fst zs) m (r a) -> sum_value fold T (map snd zs) m (r (a + 1)) ->
  sum_value fold T (map fst zs') m' (r' a') -> sum_value fold T (map snd zs') m' (r' (a' + 1)) -> complex_at r' a' = complex_at r a.
Proof.
  intros Hf HC P F V1 V2 V1' V2'. unfold zfinite in F. apply andb_true_iff in F. destruct F as [F1 F2]. unfold complex_at. f_equal; symmetry.
  - eapply same_value; [exact Hf| |apply Permutation_map; exact P|exact F1|exact V1|exact V1']. now rewrite map_length.
  - eapply same_value; [exact Hf| |apply Permutation_map; exact P|exact F2|exact V2|exact V2']. now rewrite map_length.
Qed.

(** ** reproBLAS_rzgemm
    As C83_gemm: whenever row [i] of one op(A) is row [i'] of the other, its columns permuted by [p],
    column [j] of one op(B) is column [j'] of the other, its rows permuted likewise, and the old values
    agree, the results agree.  The elements of op(A), op(B) are compared after conjugation: a matrix
    given with flag C and its conjugate transpose given with flag N are the same operand. *)
Theorem C88_gemm t tu tu' b b' fold Order Order' TransA TransB TransA' TransB' M N M' N' K (alpha beta : F t * F t)
    A lda B ldb C ldc CI bufA bufB A' lda' B' ldb' C' ldc' CI' bufA' bufB' p (m m' : mem t) :
  2 <= fold <= MAXFOLD t -> tuned t tu -> tuned t tu' -> legal_gemm b -> legal_gemm b' ->
  0 < M -> 0 < N -> 0 < M' -> 0 < N' -> 0 <= K -> 2 * K + 1 <= CAPACITY t -> permutes p K ->
  right_scaling Order TransA alpha -> right_scaling Order' TransA' alpha ->
  Z.min (Z.min K (Z.max (mx_block b) (mxt_block b))) (block_max tu) <= ENDURANCE t / 2 ->
  Z.min (Z.min K (Z.max (mx_block b') (mxt_block b'))) (block_max tu') <= ENDURANCE t / 2 ->
  let ldi := if is_row Order then N else M in let ldi' := if is_row Order' then N' else M' in
  zgemm_layout fold Order TransA TransB M N K A lda B ldb CI ldi bufA (bufA_len b M K) bufB (mxt_block b * myt_block b) -> ldi <= ldc ->
  zgemm_layout fold Order' TransA' TransB' M' N' K A' lda' B' ldb' CI' ldi' bufA' (bufA_len b' M' K) bufB' (mxt_block b' * myt_block b') -> ldi' <= ldc' ->
  (forall i j o, 0 <= i < M -> 0 <= j < N -> o = 0 \/ o = 1 ->
     ~ zgemm_touched fold Order M N CI ldi bufA (bufA_len b M K) bufB (mxt_block b * myt_block b) (zelem_addr Order C ldc i j + o)) ->
  (forall i j o, 0 <= i < M' -> 0 <= j < N' -> o = 0 \/ o = 1 ->
     ~ zgemm_touched fold Order' M' N' CI' ldi' bufA' (bufA_len b' M' K) bufB' (mxt_block b' * myt_block b') (zelem_addr Order' C' ldc' i j + o)) ->
  let r := rzgemm tu b fold Order TransA TransB M N K alpha A lda B ldb beta C ldc CI bufA bufB m in
  let r' := rzgemm tu' b' fold Order' TransA' TransB' M' N' K alpha A' lda' B' ldb' beta C' ldc' CI' bufA' bufB' m' in
  forall i i' j j', 0 <= i < M -> 0 <= i' < M' -> 0 <= j < N -> 0 <= j' < N' ->
    zfinite (zgemm_products m Order TransA TransB A lda alpha B ldb K i j ++ zstarted beta (complex_at m (zelem_addr Order C ldc i j))) = true ->
    (forall k, 0 <= k < K -> zop m' Order' TransA' A' lda' i' (p k) = zop m Order TransA A lda i k) ->
    (forall k, 0 <= k < K -> zop m' Order' TransB' B' ldb' (p k) j' = zop m Order TransB B ldb k j) ->
    complex_at m' (zelem_addr Order' C' ldc' i' j') = complex_at m (zelem_addr Order C ldc i j) ->
    complex_at r' (zelem_addr Order' C' ldc' i' j') = complex_at r (zelem_addr Order C ldc i j).
Proof.
  intros Hf HT HT' LB LB' HM HN HM' HN' HK HC HP RS RS' HE HE' ldi ldi' L HL L' HL' U U' r r' i i' j j' Hi Hi' Hj Hj' FF EA EB EC.
  destruct (C47_rzgemm_partial t tu b fold Order TransA TransB M N K alpha beta A lda B ldb C ldc CI bufA bufB 0 m Hf HT LB HM HN HK RS HE L HL U HC) as [R _].
  destruct (C47_rzgemm_partial t tu' b' fold Order' TransA' TransB' M' N' K alpha beta A' lda' B' ldb' C' ldc' CI' bufA' bufB' 0 m' Hf HT' LB' HM' HN' HK RS' HE' L' HL' U' HC) as [R' _].
  destruct (R i j Hi Hj) as [V1 V2]. destruct (R' i' j' Hi' Hj') as [V1' V2']. fold r in V1, V2. fold r' in V1', V2'.
  rewrite EC in V1', V2'. clear R R' U U' L L'. clearbody r r'. rewrite CAPACITY_eq in HC.
  refine (same_complex t fold 0 _ _ m m' r r' _ _ Hf _ _ _ V1 V2 V1' V2').
  - rewrite app_length, Nat2Z.inj_add. assert (LS : Z.of_nat (length (zstarted beta (complex_at m (zelem_addr Order C ldc i j)))) <= 1) by (unfold zstarted; destruct (is_complex beta fzero); cbn [length]; lia).
    assert (LP : Z.of_nat (length (zgemm_products m Order TransA TransB A lda alpha B ldb K i j)) = 2 * K) by (unfold zgemm_products; apply flat_two; auto).
    destruct (is_complex alpha fzero); cbn [length]; lia.
  - apply Permutation_app_tail. destruct (is_complex alpha fzero); [constructor|].
    apply (flat_reindex _ _ p); [exact HP|]. intros k Hk. cbn beta. now rewrite EA, EB by assumption.
  - rewrite zfinite_app in *. apply andb_true_iff in FF. destruct FF as [F1 F2]. rewrite F2, andb_true_r. destruct (is_complex alpha fzero); [reflexivity|exact F1].
Qed.
Print Assumptions C88_gemm.
(** ** reproBLAS_rzgemv, likewise *)
Theorem C88_gemv t tu tu' b b' fold Order Order' Trans Trans' M N M' N' (alpha beta : F t * F t)
    A lda X incX Y incY YI bufX bufA A' lda' X' incX' Y' incY' YI' bufX' bufA' p (m m' : mem t) :
  2 <= fold <= MAXFOLD t -> tuned t tu -> tuned t tu' -> legal_gemv b -> legal_gemv b' -> 0 < M -> 0 < N -> 0 < M' -> 0 < N' ->
  let rows := op_rows Trans M N in let cols := op_cols Trans M N in let rows' := op_rows Trans' M' N' in
  op_cols Trans' M' N' = cols -> 2 * cols + 1 <= CAPACITY t -> permutes p cols ->
  right_length b Order Trans M N -> right_length b' Order' Trans' M' N' ->
  Z.min (Z.min cols (dot_block b Order Trans)) (block_max tu) <= ENDURANCE t / 2 ->
  Z.min (Z.min cols (dot_block b' Order' Trans')) (block_max tu') <= ENDURANCE t / 2 ->
  zgemv_layout fold Order Trans rows cols A lda X incX YI 1 bufX bufA (xt_block b * yt_block b) -> incY <> 0 ->
  zgemv_layout fold Order' Trans' rows' cols A' lda' X' incX' YI' 1 bufX' bufA' (xt_block b' * yt_block b') -> incY' <> 0 ->
  (forall i o, 0 <= i < rows -> o = 0 \/ o = 1 -> ~ zgemv_touched fold rows YI 1 bufX cols bufA (xt_block b * yt_block b) (Y + 2 * (i * incY) + o)) ->
  (forall i o, 0 <= i < rows' -> o = 0 \/ o = 1 -> ~ zgemv_touched fold rows' YI' 1 bufX' cols bufA' (xt_block b' * yt_block b') (Y' + 2 * (i * incY') + o)) ->
  let r := rzgemv tu b fold Order Trans M N alpha A lda X incX beta Y incY YI bufX bufA m in
  let r' := rzgemv tu' b' fold Order' Trans' M' N' alpha A' lda' X' incX' beta Y' incY' YI' bufX' bufA' m' in
  forall i i', 0 <= i < rows -> 0 <= i' < rows' ->
    zfinite (zgemv_products m Order Trans A lda alpha X incX cols i ++ zstarted beta (complex_at m (Y + 2 * (i * incY)))) = true ->
    (forall k, 0 <= k < cols -> zop m' Order' Trans' A' lda' i' (p k) = zop m Order Trans A lda i k) ->
    (forall k, 0 <= k < cols -> complex_at m' (X' + 2 * (p k * incX')) = complex_at m (X + 2 * (k * incX))) ->
    complex_at m' (Y' + 2 * (i' * incY')) = complex_at m (Y + 2 * (i * incY)) ->
    complex_at r' (Y' + 2 * (i' * incY')) = complex_at r (Y + 2 * (i * incY)).
Proof.
  intros Hf HT HT' LB LB' HM HN HM' HN' rows cols rows' ECO HC HP RL RL' HE HE' L NY L' NY' U U' r r' i i' Hi Hi' FF EA EX EY.
  destruct (C40_rzgemv_partial t tu b fold Order Trans M N alpha beta A lda X incX Y incY YI bufX bufA 0 m Hf HT LB HM HN RL HE L NY U HC) as [R _].
  pose proof (C40_rzgemv_partial t tu' b' fold Order' Trans' M' N' alpha beta A' lda' X' incX' Y' incY' YI' bufX' bufA' 0 m' Hf HT' LB' HM' HN') as R'.
  cbv zeta in R'. rewrite ECO in R'. destruct (R' RL' HE' L' NY' U' HC) as [R'' _]. clear R'.
  destruct (R i Hi) as [V1 V2]. destruct (R'' i' Hi') as [V1' V2']. fold cols in V1, V2. fold r in V1, V2. fold r' in V1', V2'.
  rewrite EY in V1', V2'. clear R R'' U U' L L'. assert (Hc : 0 <= cols) by (unfold cols, op_cols; destruct (is_notrans Trans); lia).
  clearbody r r' cols. rewrite CAPACITY_eq in HC.
  refine (same_complex t fold 0 _ _ m m' r r' _ _ Hf _ _ _ V1 V2 V1' V2').
  - rewrite app_length, Nat2Z.inj_add. assert (LS : Z.of_nat (length (zstarted beta (complex_at m (Y + 2 * (i * incY))))) <= 1) by (unfold zstarted; destruct (is_complex beta fzero); cbn [length]; lia).
    assert (LP : Z.of_nat (length (zgemv_products m Order Trans A lda alpha X incX cols i)) = 2 * cols) by (unfold zgemv_products; apply flat_two; auto).
    destruct (is_complex alpha fzero); cbn [length]; lia.
  - apply Permutation_app_tail. destruct (is_complex alpha fzero); [constructor|].
    apply (flat_reindex _ _ p); [exact HP|]. intros k Hk. cbn beta. now rewrite EA, EX by assumption.
  - rewrite zfinite_app in *. apply andb_true_iff in FF. destruct FF as [F1 F2]. rewrite F2, andb_true_r. destruct (is_complex alpha fzero); [reflexivity|exact F1].
Qed.
Print Assumptions C88_gemv.

(** Case: the sample product (row major, flags N and C) and the same one with the inner dimension reversed, the
    rows of op(A) exchanged and the operands stored column major with flags N and N (B conjugated in memory). *)
Definition c88_mem : mem Dbl := fun a =>
  if a <? 48 then let q := a / 2 in sample_mem (2 * ((1 - q mod 6) * 6 + (3 - q / 6)) + a mod 2)
  else if a <? 100 then fzero
  else if a <? 190 then let q := (a - 100) / 2 in let x := sample_mem (100 + 2 * ((q / 6) * 6 + (3 - q mod 6)) + a mod 2) in if a mod 2 =? 1 then fneg x else x
  else let q := (a - 200) / 2 in sample_mem (200 + 2 * ((1 - q mod 4) * 4 + q / 4) + a mod 2).
Example C88_case : permutes (fun k => 3 - k) 4 /\
  (forall i k, 0 <= i < 2 -> 0 <= k < 4 -> map (fun z => [bits (fst z); bits (snd z)]) [zop c88_mem "C" "N" 0 6 (1 - i) (3 - k)] =
     map (fun z => [bits (fst z); bits (snd z)]) [zop sample_mem "R" "N" 0 6 i k]) /\
  (forall k j, 0 <= k < 4 -> 0 <= j < 3 -> map (fun z => [bits (fst z); bits (snd z)]) [zop c88_mem "C" "N" 100 6 (3 - k) j] =
     map (fun z => [bits (fst z); bits (snd z)]) [zop sample_mem "R" "C" 100 6 k j]) /\
  (let run := zgemm_run "C" "N" "N" 2 3 4 (mkf 1 1, mkf 3 0) (mkf (-3) 0, mkf 1 0) c88_mem in
   map (fun i => map (fun j => map (fun o => Z.shiftr (toZ (run (zelem_addr "C" 200 4 (1 - i) j + o))) 1074) [0; 1]) [0; 1; 2]) [0; 1]) =
  (let run := zgemm_run "R" "N" "C" 2 3 4 (mkf 1 1, mkf 3 0) (mkf (-3) 0, mkf 1 0) sample_mem in
   map (fun i => map (fun j => map (fun o => Z.shiftr (toZ (run (zelem_addr "R" 200 4 i j + o))) 1074) [0; 1]) [0; 1; 2]) [0; 1]).
Proof.
  split; [split; intros; lia|]. split; [|split].
  - intros i k Hi. revert i Hi k. refine (below2 _ _ _); refine (below4 _ _ _ _ _); vm_compute; reflexivity.
  - intros k j Hk. revert k Hk j. refine (below4 _ _ _ _ _); refine (below3 _ _ _ _); vm_compute; reflexivity.
  - vm_compute. reflexivity.
Qed.
