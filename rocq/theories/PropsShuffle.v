(** * C83: shuffled and distributed matrix products *)
From Coq Require Import ZArith Bool List Lia Permutation Ascii.
From Flocq Require Import Core BinarySingleNaN.
From Verif Require Import Fp Mem Binned Spec FpProofs BitProofs CoreArith SpecProofs WordProofs MemProofs AccProofs SumProofs ConvProofs Client History ClientProofs StrideProofs PropsSum PropsAcc PropsMem Gen GenProofs Params Blas LaneProofs ReduceProofs DriverProofs BlasSpec PropsBlas Gemv GemvSpec GemvProofs PropsGemv.
Import ListNotations.
Open Scope Z_scope.

(** [p] permutes 0..n-1. *)
Definition permutes (p : Z -> Z) (n : Z) : Prop :=
  (forall k, 0 <= k < n -> 0 <= p k < n) /\ (forall k k', 0 <= k < n -> 0 <= k' < n -> p k = p k' -> k = k').
Lemma zseq_NoDup n : NoDup (zseq 0 n).
Proof.
  unfold zseq. generalize (seq_NoDup (Z.to_nat n) 0). induction 1 as [|a l Ha Hl IH]; cbn [map]; constructor; auto.
  rewrite in_map_iff. intros (b & E & Hb). assert (a = b) by lia. now subst.
Qed.
Lemma permutes_perm p n : permutes p n -> Permutation (map p (zseq 0 n)) (zseq 0 n).
Proof.
  intros [R I]. apply NoDup_Permutation_bis.
  - assert (G : forall l, NoDup l -> (forall k, In k l -> 0 <= k < n) -> NoDup (map p l)).
    { induction 1 as [|a l Ha Hl IH]; intros HR; cbn [map]; constructor.
      - rewrite in_map_iff. intros (b & E & Hb). apply I in E; [now subst|apply HR; now right|apply HR; now left].
      - apply IH. intros k Hk. apply HR. now right. }
    apply G; [apply zseq_NoDup|]. intros k Hk. apply zseq_In in Hk. lia.
  - rewrite map_length. apply Nat.le_refl.
  - intros x Hx. apply in_map_iff in Hx. destruct Hx as (k & <- & Hk). apply zseq_In in Hk. apply zseq_In. specialize (R k ltac:(lia)). lia.
Qed.
(** Reindexed lists. *)
Lemma reindex {A} (f g : Z -> A) p n : permutes p n -> (forall k, 0 <= k < n -> g (p k) = f k) ->
  Permutation (map f (zseq 0 n)) (map g (zseq 0 n)).
Proof.
  intros HP E. transitivity (map g (map p (zseq 0 n))); [|apply Permutation_map, permutes_perm, HP]. rewrite map_map. erewrite map_ext_in; [reflexivity|].
  intros k Hk. apply zseq_In in Hk. cbn beta. symmetry. apply E. lia.
Qed.
(** A conversion after adding values to a starting value. *)
Lemma shuffled_adds t fold T T' (beta y : F t) xs xs' (m m' : mem t) :
  2 <= fold <= MAXFOLD t -> Permutation xs xs' -> Z.of_nat (length xs) + 1 <= CAPACITY t ->
  ddbconv fold T (add_list fold T xs (start fold T beta y m)) = ddbconv fold T' (add_list fold T' xs' (start fold T' beta y m')).
Proof.
  intros Hf HP HC. rewrite CAPACITY_eq in HC.
  assert (LS : Z.of_nat (length (started beta y)) <= 1) by (unfold started; destruct (feq beta fzero); cbn; lia).
  destruct (start_holds fold Hf T beta y m) as [S _]. destruct (start_holds fold Hf T' beta y m') as [S' _].
  destruct (add_list_holds fold Hf T xs _ _ _ S) as [H _]; [rewrite app_length, Nat2Z.inj_add; lia|].
  destruct (add_list_holds fold Hf T' xs' _ _ _ S') as [H' _]; [rewrite app_length, Nat2Z.inj_add, <- (Permutation_length HP); lia|].
  eapply conv_acc; [exact Hf|reflexivity| |exact H|exact H']. apply Permutation_app_tail. rewrite <- !Permutation_rev. exact HP.
Qed.

(** ** reproBLAS_rdgemm
    One call computes a matrix [M] by [N], another one [M'] by [N'] (of other matrices, in other places,
    with another storage order, other flags, blocks and tuning).  The inner dimension of the second is
    permuted by [p].  Whenever row [i] of the first is row [i'] of the second, column [j] column [j'],
    and the old values agree, the results agree.  So: permuting the rows, the columns or the inner
    dimension of the operands permutes the result and changes no bit; and a block of rows and columns
    can be computed alone, by any process. *)
Theorem C83_gemm t tu tu' b b' fold Order Order' TransA TransB TransA' TransB' M N M' N' K (alpha beta : F t)
    A lda B ldb C ldc CI bufA bufB A' lda' B' ldb' C' ldc' CI' bufA' bufB' p (m m' : mem t) :
  2 <= fold <= MAXFOLD t -> tuned t tu -> tuned t tu' -> legal_gemm b -> legal_gemm b' ->
  0 < M -> 0 < N -> 0 < M' -> 0 < N' -> 0 <= K -> K + 1 <= CAPACITY t -> permutes p K ->
  let ldi := if is_row Order then N else M in let ldi' := if is_row Order' then N' else M' in
  gemm_layout fold Order TransA TransB M N K A lda B ldb CI ldi bufA (bufA_len b M K) bufB (mxt_block b * myt_block b) -> ldi <= ldc ->
  gemm_layout fold Order' TransA' TransB' M' N' K A' lda' B' ldb' CI' ldi' bufA' (bufA_len b' M' K) bufB' (mxt_block b' * myt_block b') -> ldi' <= ldc' ->
  (forall i j, 0 <= i < M -> 0 <= j < N -> ~ gemm_touched fold Order M N CI ldi bufA (bufA_len b M K) bufB (mxt_block b * myt_block b) (elem_addr Order C ldc i j)) ->
  (forall i j, 0 <= i < M' -> 0 <= j < N' -> ~ gemm_touched fold Order' M' N' CI' ldi' bufA' (bufA_len b' M' K) bufB' (mxt_block b' * myt_block b') (elem_addr Order' C' ldc' i j)) ->
  (forall i j, 0 <= i < M -> 0 <= j < N -> all_finite (gemm_products m Order TransA TransB A lda alpha B ldb K i j) = true) ->
  (forall i j, 0 <= i < M' -> 0 <= j < N' -> all_finite (gemm_products m' Order' TransA' TransB' A' lda' alpha B' ldb' K i j) = true) ->
  let r := rdgemm tu b fold Order TransA TransB M N K alpha A lda B ldb beta C ldc CI bufA bufB m in
  let r' := rdgemm tu' b' fold Order' TransA' TransB' M' N' K alpha A' lda' B' ldb' beta C' ldc' CI' bufA' bufB' m' in
  forall i i' j j', 0 <= i < M -> 0 <= i' < M' -> 0 <= j < N -> 0 <= j' < N' ->
    (* row i of op(A) is row i' of op(A'), column j of op(B) is column j' of op(B') *)
    (forall k, 0 <= k < K -> m' (op_addr Order' TransA' A' lda' i' (p k)) = m (op_addr Order TransA A lda i k)) ->
    (forall k, 0 <= k < K -> m' (op_addr Order' TransB' B' ldb' (p k) j') = m (op_addr Order TransB B ldb k j)) ->
    m' (elem_addr Order' C' ldc' i' j') = m (elem_addr Order C ldc i j) ->
    r' (elem_addr Order' C' ldc' i' j') = r (elem_addr Order C ldc i j).
Proof.
  intros Hf HT HT' LB LB' HM HN HM' HN' HK HC HP ldi ldi' L HL L' HL' U U' F F' r r' i i' j j' Hi Hi' Hj Hj' EA EB EC.
  destruct (C25_gemm t tu b fold Order TransA TransB M N K alpha beta A lda B ldb C ldc CI bufA bufB 0 m Hf HT LB HM HN HK L HL U HC F) as [R _].
  destruct (C25_gemm t tu' b' fold Order' TransA' TransB' M' N' K alpha beta A' lda' B' ldb' C' ldc' CI' bufA' bufB' 0 m' Hf HT' LB' HM' HN' HK L' HL' U' HC F') as [R' _].
  fold r in R. fold r' in R'. rewrite (R i j Hi Hj), (R' i' j' Hi' Hj'), EC. clearbody r r'.
  apply shuffled_adds; [exact Hf| |]; destruct (feq alpha fzero); try reflexivity.
  - symmetry. apply (reindex _ _ p); [exact HP|]. intros k Hk. cbn beta. now rewrite EA, EB by assumption.
  - cbn [length]. lia.
  - unfold gemm_products. rewrite zmap_length by exact HK. exact HC.
Qed.
Print Assumptions C83_gemm.
(** ** reproBLAS_rdgemv, likewise *)
Theorem C83_gemv t tu tu' b b' fold Order Order' Trans Trans' M N M' N' (alpha beta : F t)
    A lda X incX Y incY YI bufX bufA A' lda' X' incX' Y' incY' YI' bufX' bufA' p (m m' : mem t) :
  2 <= fold <= MAXFOLD t -> tuned t tu -> tuned t tu' -> legal_gemv b -> legal_gemv b' -> 0 < M -> 0 < N -> 0 < M' -> 0 < N' ->
  let rows := op_rows Trans M N in let cols := op_cols Trans M N in let rows' := op_rows Trans' M' N' in
  op_cols Trans' M' N' = cols -> cols + 1 <= CAPACITY t -> permutes p cols ->
  gemv_layout fold Order Trans rows cols A lda X incX YI 1 bufX bufA (xt_block b * yt_block b) -> incY <> 0 ->
  gemv_layout fold Order' Trans' rows' cols A' lda' X' incX' YI' 1 bufX' bufA' (xt_block b' * yt_block b') -> incY' <> 0 ->
  (forall i, 0 <= i < rows -> ~ gemv_touched fold rows YI 1 bufX cols bufA (xt_block b * yt_block b) (Y + i * incY)) ->
  (forall i, 0 <= i < rows' -> ~ gemv_touched fold rows' YI' 1 bufX' cols bufA' (xt_block b' * yt_block b') (Y' + i * incY')) ->
  (forall i, 0 <= i < rows -> all_finite (gemv_products m Order Trans A lda alpha X incX cols i) = true) ->
  (forall i, 0 <= i < rows' -> all_finite (gemv_products m' Order' Trans' A' lda' alpha X' incX' cols i) = true) ->
  let r := rdgemv tu b fold Order Trans M N alpha A lda X incX beta Y incY YI bufX bufA m in
  let r' := rdgemv tu' b' fold Order' Trans' M' N' alpha A' lda' X' incX' beta Y' incY' YI' bufX' bufA' m' in
  forall i i', 0 <= i < rows -> 0 <= i' < rows' ->
    (forall k, 0 <= k < cols -> m' (op_addr Order' Trans' A' lda' i' (p k)) = m (op_addr Order Trans A lda i k)) ->
    (forall k, 0 <= k < cols -> m' (X' + p k * incX') = m (X + k * incX)) ->
    m' (Y' + i' * incY') = m (Y + i * incY) ->
    r' (Y' + i' * incY') = r (Y + i * incY).
Proof.
  intros Hf HT HT' LB LB' HM HN HM' HN' rows cols rows' EC HC HP L NY L' NY' U U' F F' r r' i i' Hi Hi' EA EX EY.
  destruct (C25_gemv t tu b fold Order Trans M N alpha beta A lda X incX Y incY YI bufX bufA 0 m Hf HT LB HM HN L NY U HC F) as [R _].
  pose proof (C25_gemv t tu' b' fold Order' Trans' M' N' alpha beta A' lda' X' incX' Y' incY' YI' bufX' bufA' 0 m' Hf HT' LB' HM' HN') as R'.
  cbv zeta in R'. rewrite EC in R'. destruct (R' L' NY' U' HC F') as [R'' _]. clear R'.
  fold r in R. fold r' in R''. cbv zeta in R. specialize (R i Hi). specialize (R'' i' Hi'). rewrite R, R'', EY. clearbody r r'.
  assert (Hc : 0 <= cols) by (unfold cols, op_cols; destruct (is_notrans Trans); lia).
  apply shuffled_adds; [exact Hf| |]; destruct (feq alpha fzero); try reflexivity.
  - symmetry. apply (reindex _ _ p); [exact HP|]. intros k Hk. cbn beta. now rewrite EA, EX by assumption.
  - cbn [length]. lia.
  - fold cols. unfold gemv_products. rewrite zmap_length by exact Hc. exact HC.
Qed.
Print Assumptions C83_gemv.

(** Case: the inner dimension of the sample product reversed, column major instead of row major, the rows
    of the first operand exchanged. *)
Definition c83_mem : mem Dbl := fun a =>
  if a <? 100 then sample_mem ((1 - a mod 6) * 6 + (3 - a / 6)) else if a <? 200 then sample_mem (100 + (3 - (a - 100) mod 6) * 6 + (a - 100) / 6)
  else sample_mem (200 + (1 - (a - 200) mod 4) * 4 + (a - 200) / 4).
Example C83_case : permutes (fun k => 3 - k) 4 /\
  (forall i k, 0 <= i < 2 -> 0 <= k < 4 -> c83_mem (op_addr "C" "N" 0 6 (1 - i) (3 - k)) = sample_mem (op_addr "R" "N" 0 6 i k)) /\
  (forall k j, 0 <= k < 4 -> 0 <= j < 3 -> c83_mem (op_addr "C" "N" 100 6 (3 - k) j) = sample_mem (op_addr "R" "N" 100 6 k j)) /\
  (forall i j, 0 <= i < 2 -> 0 <= j < 3 -> c83_mem (elem_addr "C" 200 4 (1 - i) j) = sample_mem (elem_addr "R" 200 4 i j)) /\
  (forall i j, 0 <= i < 2 -> 0 <= j < 3 -> all_finite (gemm_products c83_mem "C" "N" "N" 0 6 (mkf 1 1) 100 6 4 i j) = true) /\
  (let run := rdgemm sample_tuning sample_mblocks 3 "C" "N" "N" 2 3 4 (mkf 1 1) 0 6 100 6 (mkf (-3) 0) 200 4 1000 2000 3000 c83_mem in
   map (fun i => map (fun j => Z.shiftr (toZ (run (elem_addr "C" 200 4 (1 - i) j))) 1074) [0; 1; 2]) [0; 1]) =
  map (fun i => map (fun j => Z.shiftr (toZ (gemm_run "R" "N" "N" (elem_addr "R" 200 4 i j))) 1074) [0; 1; 2]) [0; 1].
Proof.
  assert (M1 : forall i, 0 <= i < 6 -> forall q, (q * 6 + i) mod 6 = i /\ (q * 6 + i) / 6 = q).
  { intros i Hi q. rewrite Z.add_comm, Z.mod_add, Z.div_add by discriminate. rewrite Z.mod_small, Z.div_small by lia. lia. }
  assert (M2 : forall i, 0 <= i < 4 -> forall q, (q * 4 + i) mod 4 = i /\ (q * 4 + i) / 4 = q).
  { intros i Hi q. rewrite Z.add_comm, Z.mod_add, Z.div_add by discriminate. rewrite Z.mod_small, Z.div_small by lia. lia. }
  split; [split; intros; lia|]. split; [|split; [|split; [|split]]].
  - intros i k Hi Hk. unfold c83_mem, op_addr, elem_addr. cbn [is_notrans is_row]. change (is_notrans "N") with true. change (is_row "C") with false. change (is_row "R") with true. cbv iota.
    destruct (M1 (1 - i) ltac:(lia) (3 - k)) as [E1 E2]. rewrite Z.add_0_l, E1, E2. rewrite (proj2 (Z.ltb_lt _ _)) by lia. f_equal. lia.
  - intros k j Hk Hj. unfold c83_mem, op_addr, elem_addr. change (is_notrans "N") with true. change (is_row "C") with false. change (is_row "R") with true. cbv iota.
    destruct (M1 (3 - k) ltac:(lia) j) as [E1 E2]. rewrite (proj2 (Z.ltb_ge _ _)), (proj2 (Z.ltb_lt _ _)) by lia.
    replace (100 + j * 6 + (3 - k) - 100) with (j * 6 + (3 - k)) by lia. rewrite E1, E2. f_equal. lia.
  - intros i j Hi Hj. unfold c83_mem, elem_addr. change (is_row "C") with false. change (is_row "R") with true. cbv iota.
    destruct (M2 (1 - i) ltac:(lia) j) as [E1 E2]. rewrite !(proj2 (Z.ltb_ge _ _)) by lia.
    replace (200 + j * 4 + (1 - i) - 200) with (j * 4 + (1 - i)) by lia. rewrite E1, E2. f_equal. lia.
  - intros i j Hi. revert i Hi j. refine (below2 _ _ _); refine (below3 _ _ _ _); vm_compute; reflexivity.
  - vm_compute. reflexivity.
Qed.
