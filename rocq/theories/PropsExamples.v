(** * C57: the example programs print one and the same sum *)
From Coq Require Import ZArith Bool List Lia Permutation FinFun.
From Flocq Require Import Core BinarySingleNaN.
From Verif Require Import Fp Mem Binned Spec Client FpProofs MemProofs SpecProofs AccProofs SumProofs ClientProofs PropsSum PropsConv Gen GenProofs Params ParamsProofs PropsGen Blas LaneProofs DriverProofs BlasSpec PropsBlas GemvProofs Mpi MpiSpec PropsMpi Defaults Examples.
Import ListNotations.
Open Scope Z_scope.

(** ** The shuffle *)
(** The arrays of n elements at x and y do not overlap. *)
Definition arrays_apart (n x y : Z) : Prop := x + n <= y \/ y + n <= x.
Lemma copy_array_spec {t} n x y (m : mem t) : 0 <= n -> arrays_apart n x y ->
  let m' := copy_array n x y m in (forall i, 0 <= i < n -> m' (y + i) = m (x + i)) /\ unchanged_outside y n m m'.
Proof.
  intros Hn HA m'. unfold arrays_apart in HA.
  pose proof (for_up_inv (fun k m1 => (forall i, 0 <= i < k -> m1 (y + i) = m (x + i)) /\ unchanged_outside y k m m1)
    (fun i m => upd m (y + i) (m (x + i))) 0 n m Hn) as G. cbv beta in G. apply G.
  - split; [intros; lia|]. intros a _. reflexivity.
  - clear G. intros k m1 Hk [G1 G2]. unfold upd. split.
    + intros i Hi. destruct (Z.eqb_spec (y + i) (y + k)) as [E|E].
      * rewrite G2 by lia. f_equal. lia.
      * apply G1. lia.
    + intros a Ha. destruct (Z.eqb_spec a (y + k)); [lia|]. apply G2. lia.
Qed.
Definition swap (i j k : Z) : Z := if k =? i then j else if k =? j then i else k.
Lemma swap_range i j k n : 0 <= i < n -> 0 <= j < n -> 0 <= k < n -> 0 <= swap i j k < n.
Proof. unfold swap. destruct (Z.eqb_spec k i), (Z.eqb_spec k j); lia. Qed.
Lemma swap_swap i j k : swap i j (swap i j k) = k.
Proof.
  unfold swap. destruct (Z.eqb_spec k i) as [->|A].
  - rewrite Z.eqb_refl. destruct (Z.eqb_spec j i); auto.
  - destruct (Z.eqb_spec k j) as [->|B]; [now rewrite Z.eqb_refl|]. destruct (Z.eqb_spec k i), (Z.eqb_spec k j); congruence.
Qed.
Lemma zseq_NoDup lo n : NoDup (zseq lo n).
Proof. unfold zseq. apply Injective_map_NoDup; [intros a b; lia|apply seq_NoDup]. Qed.
Lemma swap_perm i j n : 0 <= i < n -> 0 <= j < n -> Permutation (map (swap i j) (zseq 0 n)) (zseq 0 n).
Proof.
  intros Hi Hj. apply NoDup_Permutation; [|apply zseq_NoDup|].
  - apply Injective_map_NoDup; [|apply zseq_NoDup]. intros a b E. rewrite <- (swap_swap i j a), E. apply swap_swap.
  - intros k. rewrite in_map_iff. split.
    + intros (l & <- & Hl). apply zseq_In in Hl. apply zseq_In. apply swap_range; lia.
    + intros Hk. apply zseq_In in Hk. exists (swap i j k). split; [apply swap_swap|]. apply zseq_In. apply swap_range; lia.
Qed.
Lemma exchange_spec {t} rnd n s i (m : mem t) : 0 <= i < n -> 0 <= rnd i ->
  let m' := exchange rnd n s i m in Permutation (read m' s 1 n) (read m s 1 n) /\ unchanged_outside s n m m'.
Proof.
  intros Hi Hr m'. assert (R : 0 <= cmod (rnd i) (n - i) < n - i) by (apply Z.rem_bound_pos; lia).
  unfold m', exchange. set (j := i + cmod (rnd i) (n - i)) in *. assert (Hj : 0 <= j < n) by lia. clearbody j.
  split.
  - transitivity (map (fun k => m (s + k * 1)) (map (swap i j) (zseq 0 n))).
    + rewrite map_map. unfold read. erewrite map_ext; [reflexivity|]. intros k. cbv beta. unfold upd, swap.
      destruct (Z.eqb_spec (s + k * 1) (s + j)) as [B|B].
      * destruct (Z.eqb_spec k i) as [->|A]; [f_equal; lia|]. destruct (Z.eqb_spec k j); [f_equal; lia|lia].
      * destruct (Z.eqb_spec (s + k * 1) (s + i)) as [C|C]; destruct (Z.eqb_spec k i) as [->|A]; try (exfalso; lia); [f_equal; lia|].
        destruct (Z.eqb_spec k j); [lia|reflexivity].
    + apply Permutation_map, swap_perm; auto.
  - intros a Ha. unfold upd. destruct (Z.eqb_spec a (s + j)); [lia|]. destruct (Z.eqb_spec a (s + i)); [lia|reflexivity].
Qed.
Lemma unchanged_trans {t} Y n (a b c : mem t) : unchanged_outside Y n a b -> unchanged_outside Y n b c -> unchanged_outside Y n a c.
Proof. intros H1 H2 x Hx. etransitivity; [apply H2|apply H1]; auto. Qed.
(** The shuffled array is a permutation of the data, whatever rand() returns, and nothing else is written. *)
Theorem C57_shuffle t rnd n x s (m : mem t) : 0 <= n -> arrays_apart n x s -> (forall i, 0 <= i < n -> 0 <= rnd i) ->
  let m' := shuffle rnd n x s m in
  Permutation (read m' s 1 n) (read m x 1 n) /\ (forall a, ~ (s <= a < s + n) -> m' a = m a).
Proof.
  intros Hn HA HR m'. destruct (copy_array_spec n x s m Hn HA) as [C1 C2]. unfold m', shuffle. set (m1 := copy_array n x s m) in *. clearbody m1.
  assert (E : read m1 s 1 n = read m x 1 n).
  { unfold read. apply map_ext_in. intros i Hi. apply zseq_In in Hi. rewrite !Z.mul_1_r. apply C1. lia. }
  rewrite <- E. clear E C1.
  pose proof (for_up_inv (fun _ m2 => Permutation (read m2 s 1 n) (read m1 s 1 n) /\ unchanged_outside s n m1 m2) (exchange rnd n s) 0 n m1 Hn) as G.
  cbv beta in G. destruct G as [G1 G2].
  - split; [reflexivity|]. intros a _. reflexivity.
  - intros k m2 Hk [G1 G2]. destruct (exchange_spec rnd n s k m2 Hk (HR k Hk)) as [E1 E2]. split; [etransitivity; eauto|eapply unchanged_trans; eauto].
  - split; [exact G1|]. exact (unchanged_trans _ _ _ _ _ C2 G2).
Qed.
Print Assumptions C57_shuffle.

(** ** sum_sine.c *)
Lemma read_snoc {t} (m : mem t) x k : 0 <= k -> read m x 1 (k + 1) = read m x 1 k ++ [m (x + k)].
Proof. intros H. unfold read. rewrite zseq_app, map_app by lia. f_equal. change (zseq (0 + k) 1) with [0 + k + 0]. cbn [map]. repeat f_equal. lia. Qed.
Lemma clear_1 x n A len a : clear_of x 1 n A len -> x <= a < x + n -> ~ (A <= a < A + len).
Proof. intros C H. specialize (C (a - x) ltac:(lia)). lia. Qed.
Section SUMS.
  Context {t : ty} (Hf : 2 <= 3 <= MAXFOLD t).
  Lemma acc_perm us xs ys (m : mem t) Y : Permutation xs ys -> acc_at 3 us xs m Y -> acc_at 3 us ys m Y.
  Proof. intros P. apply holds_perm; [reflexivity|now symmetry]. Qed.
  Lemma merge_spec n x isum itmp (m : mem t) : 0 <= n <= capacity t -> apart (dbnum 3) isum itmp ->
    clear_of x 1 n isum (dbnum 3) -> clear_of x 1 n itmp (dbnum 3) ->
    let '(a, m') := sum_by_merge n x isum itmp m in
    a = ddbconv 3 isum m' /\ acc_at 3 [] (read m x 1 n) m' isum /\
    (forall b, ~ (isum <= b < isum + dbnum 3) -> ~ (itmp <= b < itmp + dbnum 3) -> m' b = m b).
  Proof.
    intros Hn AP C1 C2. unfold sum_by_merge. set (m0 := dbsetzero 3 isum m). destruct (setzero_holds 3 Hf isum m) as [Z0 U0]. fold m0 in Z0, U0. clearbody m0.
    pose proof (for_up_inv (fun k m1 => acc_at 3 [] (read m x 1 k) m1 isum /\
      (forall b, ~ (isum <= b < isum + dbnum 3) -> ~ (itmp <= b < itmp + dbnum 3) -> m1 b = m b))
      (fun i m => dbdbadd 3 itmp isum (dbdconv 3 (m (x + i)) itmp m)) 0 n m0 ltac:(lia)) as G. cbv beta in G. split; [reflexivity|]. apply G; clear G.
    - split; [exact Z0|]. intros b Hb _. apply U0. exact Hb.
    - intros k m1 Hk [G1 G2]. rewrite read_snoc by lia.
      assert (E : m1 (x + k) = m (x + k)) by (apply G2; [apply (clear_1 x n)|apply (clear_1 x n)]; auto; lia). rewrite E.
      destruct (C36_accumulator t 3 (m (x + k)) itmp m1 Hf) as [A1 A2]. set (m2 := dbdconv 3 (m (x + k)) itmp m1) in *. clearbody m2.
      assert (G1' : acc_at 3 [] (read m x 1 k) m2 isum).
      { eapply (acc_at_frame 3 Hf); [|exact G1]. intros a Ha. apply A2. unfold apart in AP. lia. }
      destruct (merge_at t 3 itmp isum [] [m (x + k)] [] (read m x 1 k) m2 Hf) as [M1 M2]; auto.
      { unfold apart in *. lia. }
      { pose proof (read_length m x 1 k ltac:(lia)). cbn [app length]. lia. }
      split.
      + eapply acc_perm; [|exact M1]. apply Permutation_app_comm.
      + intros b B1 B2. rewrite M2 by exact B1. rewrite A2 by exact B2. auto.
  Qed.
  Lemma add_spec n x isum (m : mem t) : 0 <= n <= capacity t -> clear_of x 1 n isum (dbnum 3) ->
    let '(a, m') := sum_by_add n x isum m in
    a = ddbconv 3 isum m' /\ acc_at 3 [] (read m x 1 n) m' isum /\ unchanged_outside isum (dbnum 3) m m'.
  Proof.
    intros Hn C1. unfold sum_by_add. set (m0 := dbsetzero 3 isum m). destruct (setzero_holds 3 Hf isum m) as [Z0 U0]. fold m0 in Z0, U0. clearbody m0.
    pose proof (for_up_inv (fun k m1 => acc_at 3 [] (read m x 1 k) m1 isum /\ unchanged_outside isum (dbnum 3) m m1)
      (fun i m => dbdadd 3 (m (x + i)) isum m) 0 n m0 ltac:(lia)) as G. cbv beta in G. split; [reflexivity|]. apply G; clear G.
    - split; [exact Z0|]. intros b Hb. apply U0. exact Hb.
    - intros k m1 Hk [G1 G2]. rewrite read_snoc by lia.
      assert (E : m1 (x + k) = m (x + k)) by (apply G2, (clear_1 x n); auto; lia). rewrite E.
      destruct (add_list_holds 3 Hf isum [m (x + k)] m1 [] (read m x 1 k) G1) as [A1 A2].
      { pose proof (read_length m x 1 k ltac:(lia)). cbn [app length]. lia. }
      split.
      + eapply acc_perm; [|exact A1]. apply Permutation_app_comm.
      + intros b B1. etransitivity; [apply A2; exact B1|auto].
  Qed.
  Lemma blas_spec tu n x isum (m : mem t) : tuned t tu -> 0 <= n <= capacity t -> clear_of x 1 n isum (dbnum 3) -> all_finite (read m x 1 n) = true ->
    let '(a, m') := sum_by_blas tu n x isum m in
    a = ddbconv 3 isum m' /\ acc_at 3 [] (read m x 1 n) m' isum /\ unchanged_outside isum (dbnum 3) m m'.
  Proof. intros HT Hn C FX. unfold sum_by_blas. split; [reflexivity|]. exact (fresh_fin 3 Hf Sum tu n x 1 x 1 isum m HT Hn C C FX). Qed.
End SUMS.
(** Every pair (sum, sum of shuffled) the program prints consists of the number reproBLAS_dsum
    returns for the data: any data, any n, any random numbers, any tuning. *)
Theorem C57_sum_sine t tu tu' rnd n x s isum itmp acc acc' (m : mem t) :
  tuned t tu -> tuned t tu' -> 0 <= n <= CAPACITY t -> (forall i, 0 <= i < n -> 0 <= rnd i) -> arrays_apart n x s ->
  apart 6 isum itmp -> (forall b, In b [isum; itmp; acc] -> clear_of x 1 n b 6 /\ clear_of s 1 n b 6) ->
  clear_of x 1 n acc' 6 -> all_finite (read m x 1 n) = true ->
  let v := dsum tu' n x 1 acc' m in
  sum_sine tu rnd n x s isum itmp acc m = [(v, v); (v, v); (v, v); (v, v)].
Proof.
  intros HT HT' HN HR HA AP HC C' FX v. assert (Hf : 2 <= 3 <= MAXFOLD t) by (destruct t; vm_compute; split; discriminate).
  destruct (HC isum) as [CX CS]; [now left|]. destruct (HC itmp) as [CX2 CS2]; [right; now left|]. destruct (HC acc) as [CX3 CS3]; [right; right; now left|]. clear HC.
  destruct (C57_shuffle t rnd n x s m ltac:(lia) HA HR) as [SP SU]. unfold sum_sine. set (m0 := shuffle rnd n x s m) in *. clearbody m0.
  set (xs := read m x 1 n) in *. assert (RX : read m0 x 1 n = xs).
  { unfold xs, read. apply map_ext_in. intros i Hi. apply zseq_In in Hi. apply SU. unfold arrays_apart in HA. lia. }
  set (ss := read m0 s 1 n) in *. assert (FS : all_finite ss = true) by (rewrite (all_finite_perm _ _ SP); exact FX).
  (* the data survive every stage *)
  pose (D := fun m1 : mem t => read m1 x 1 n = xs /\ read m1 s 1 n = ss).
  assert (D0 : D m0) by (split; [exact RX|reflexivity]).
  assert (DF : forall m1 m2 : mem t, D m1 -> (forall b, ~ (isum <= b < isum + dbnum 3) -> ~ (itmp <= b < itmp + dbnum 3) -> m2 b = m1 b) -> D m2).
  { intros m1 m2 [D1 D2] U. split; [rewrite <- D1|rewrite <- D2]; unfold read; apply map_ext_in; intros i Hi; apply zseq_In in Hi; apply U; change (dbnum 3) with 6; [apply CX|apply CX2|apply CS|apply CS2]; lia. }
  assert (VV : forall m1 Y ys, acc_at 3 [] ys m1 Y -> Permutation ys xs -> ddbconv 3 Y m1 = v).
  { intros m1 Y ys H P. unfold v, dsum. replace (default_fold t) with 3 by (destruct t; reflexivity). rewrite (C20_is_scalar_sum t tu' 3 n x 1 acc' 0 m m) by auto. fold xs.
    destruct (sum_list_holds 3 Hf 0 xs m) as [S1 _]; [unfold xs; pose proof (read_length m x 1 n ltac:(lia)); rewrite CAPACITY_eq in HN; lia|].
    exact (conv_acc 3 Hf [] ys [] xs _ _ _ _ (perm_nil _) P H S1). }
  assert (HN' : 0 <= n <= capacity t) by (rewrite <- CAPACITY_eq; exact HN).
  assert (U1 : forall m1 m2 : mem t, unchanged_outside isum (dbnum 3) m1 m2 -> forall b, ~ (isum <= b < isum + dbnum 3) -> ~ (itmp <= b < itmp + dbnum 3) -> m2 b = m1 b) by (intros m1 m2 U b B1 _; apply U, B1).
  pose proof (merge_spec Hf n x isum itmp m0 HN' AP CX CX2) as S. destruct (sum_by_merge n x isum itmp m0) as [a1 m1]. destruct S as (-> & A1 & F1).
  rewrite (proj1 D0) in A1. rewrite (VV _ _ _ A1 (Permutation_refl _)). pose proof (DF _ _ D0 F1) as D1. clear A1 F1 D0.
  pose proof (merge_spec Hf n s isum itmp m1 HN' AP CS CS2) as S. destruct (sum_by_merge n s isum itmp m1) as [b1 m2]. destruct S as (-> & A1 & F1).
  rewrite (proj2 D1) in A1. rewrite (VV _ _ _ A1 SP). pose proof (DF _ _ D1 F1) as D2. clear A1 F1 D1.
  pose proof (add_spec Hf n x isum m2 HN' CX) as S. destruct (sum_by_add n x isum m2) as [a2 m3]. destruct S as (-> & A1 & F1).
  rewrite (proj1 D2) in A1. rewrite (VV _ _ _ A1 (Permutation_refl _)). pose proof (DF _ _ D2 (U1 _ _ F1)) as D3. clear A1 F1 D2.
  pose proof (add_spec Hf n s isum m3 HN' CS) as S. destruct (sum_by_add n s isum m3) as [b2 m4]. destruct S as (-> & A1 & F1).
  rewrite (proj2 D3) in A1. rewrite (VV _ _ _ A1 SP). pose proof (DF _ _ D3 (U1 _ _ F1)) as D4. clear A1 F1 D3.
  pose proof (blas_spec Hf tu n x isum m4 HT HN' CX ltac:(rewrite (proj1 D4); exact FX)) as S. destruct (sum_by_blas tu n x isum m4) as [a3 m5]. destruct S as (-> & A1 & F1).
  rewrite (proj1 D4) in A1. rewrite (VV _ _ _ A1 (Permutation_refl _)). pose proof (DF _ _ D4 (U1 _ _ F1)) as D5. clear A1 F1 D4.
  pose proof (blas_spec Hf tu n s isum m5 HT HN' CS ltac:(rewrite (proj2 D5); exact FS)) as S. destruct (sum_by_blas tu n s isum m5) as [b3 m6]. destruct S as (-> & A1 & F1).
  rewrite (proj2 D5) in A1. rewrite (VV _ _ _ A1 SP). pose proof (DF _ _ D5 (U1 _ _ F1)) as D6. clear A1 F1 D5.
  assert (V4 : forall p ys, clear_of p 1 n acc 6 -> read m6 p 1 n = ys -> all_finite ys = true -> Permutation ys xs -> dsum tu n p 1 acc m6 = v).
  { intros p ys Cp E Fp P. unfold dsum. replace (default_fold t) with 3 by (destruct t; reflexivity). rewrite (C20_is_scalar_sum t tu 3 n p 1 acc 0 m6 m) by (auto; rewrite E; auto). rewrite E.
    eapply VV; [|exact P]. apply (sum_list_holds 3 Hf). rewrite (Permutation_length P). unfold xs. pose proof (read_length m x 1 n ltac:(lia)). lia. }
  rewrite (V4 x xs), (V4 s ss); auto; [apply D6|apply D6].
Qed.
Print Assumptions C57_sum_sine.

(** ** MPI_sum_sine.c *)
(** Every process is sent exactly what it expects, and the parts are the whole array. *)
Lemma local_is_count n size r : local_n n size r = counts n size r. Proof. reflexivity. Qed.
Lemma parts_front {t} (m : mem t) n size x k : 0 <= n -> 0 < size -> Z.of_nat k < size ->
  flat_map (fun r => read m (x + displs n size (Z.of_nat r)) 1 (counts n size (Z.of_nat r))) (seq 0 k) = read m x 1 (Z.of_nat k * cdiv n size).
Proof.
  intros Hn Hs. assert (Q : 0 <= cdiv n size) by (apply Z.quot_pos; lia). induction k as [|k IH]; intros Hk.
  - reflexivity.
  - rewrite seq_S, flat_map_app, IH by lia. cbn [flat_map Nat.add]. rewrite app_nil_r. unfold counts, displs.
    destruct (Z.eqb_spec (Z.of_nat k) (size - 1)); [lia|]. set (q := cdiv n size) in *. clearbody q.
    rewrite Nat2Z.inj_succ. unfold Z.succ. rewrite Z.mul_add_distr_r, Z.mul_1_l. unfold read. rewrite zseq_app, map_app by nia. f_equal.
    unfold zseq. rewrite !map_map. apply map_ext. intros i. f_equal. lia.
Qed.
Lemma parts_all {t} (m : mem t) n size x : 0 <= n -> 0 < size ->
  flat_map (fun r => read m (x + displs n size (Z.of_nat r)) 1 (counts n size (Z.of_nat r))) (seq 0 (Z.to_nat size)) = read m x 1 n.
Proof.
  intros Hn Hs. replace (Z.to_nat size) with (S (Z.to_nat (size - 1))) by lia. rewrite seq_S, flat_map_app, parts_front by lia. cbn [flat_map Nat.add].
  rewrite app_nil_r, Z2Nat.id by lia. unfold counts, displs. rewrite Z.eqb_refl. assert (Q : 0 <= cdiv n size) by (apply Z.quot_pos; lia).
  assert (L : cdiv n size * size <= n) by (unfold cdiv; rewrite Z.mul_comm; apply Z.mul_quot_le; lia). set (q := cdiv n size) in *. clearbody q.
  transitivity (read m x 1 ((size - 1) * q + (q + (n - q * size)))); [|f_equal; ring]. unfold read. rewrite (zseq_app 0 ((size - 1) * q) (q + (n - q * size))), map_app by nia. f_equal.
  unfold zseq. rewrite !map_map. apply map_ext. intros i. f_equal. lia.
Qed.
Lemma counts_nonneg n size r : 0 <= n -> 0 < size -> 0 <= counts n size r.
Proof.
  intros Hn Hs. unfold counts. assert (0 <= cdiv n size) by (apply Z.quot_pos; lia).
  assert (cdiv n size * size <= n) by (unfold cdiv; rewrite Z.mul_comm; apply Z.mul_quot_le; lia). destruct (r =? size - 1); lia.
Qed.
Lemma copy_block_in {t} len (from : mem t) a b w i : 0 <= i < len -> copy_block len from a b w (b + i) = from (a + i).
Proof. intros H. unfold copy_block. replace ((b <=? b + i) && (b + i <? b + len)) with true by (symmetry; apply andb_true_iff; lia). f_equal. lia. Qed.
Lemma copy_block_out {t} len (from : mem t) a b w c : ~ (b <= c < b + len) -> copy_block len from a b w c = w c.
Proof. intros H. unfold copy_block. replace ((b <=? c) && (c <? b + len)) with false; [reflexivity|]. symmetry. apply andb_false_iff. lia. Qed.
Lemma load_spec {t} (buf sendbuf : nat -> Z) (ms : nat -> mem t) : forall l w, NoDup l ->
  (forall i j, In i l -> In j l -> i <> j -> apart 6 (buf i) (buf j)) ->
  let w' := fold_left (fun w r => copy_block 6 (ms r) (sendbuf r) (buf r) w) l w in
  (forall r i, In r l -> 0 <= i < 6 -> w' (buf r + i) = ms r (sendbuf r + i)) /\
  (forall c, (forall r, In r l -> ~ (buf r <= c < buf r + 6)) -> w' c = w c).
Proof.
  induction l as [|r l IH]; intros w ND AP; cbn [fold_left].
  - split; [intros r i []|reflexivity].
  - inversion ND as [|? ? NI ND']; subst. destruct (IH (copy_block 6 (ms r) (sendbuf r) (buf r) w) ND') as [I1 I2].
    { intros i j Hi Hj. apply AP; now right. }
    split.
    + intros q i [->|Hq] Hi; [|now apply I1]. rewrite I2; [now apply copy_block_in|]. intros p Hp HH.
      assert (NE : q <> p) by (intros ->; contradiction). pose proof (AP q p (or_introl eq_refl) (or_intror Hp) NE) as A. unfold apart in A. lia.
    + intros c HC. rewrite I2; [apply copy_block_out, HC; now left|]. intros p Hp. apply HC. now right.
Qed.
Lemma acc_copy {t} (Hf : 2 <= 3 <= MAXFOLD t) us xs (m m' : mem t) A B : (forall i, 0 <= i < 6 -> m' (B + i) = m (A + i)) ->
  acc_at 3 us xs m A -> acc_at 3 us xs m' B.
Proof.
  intros E H. unfold acc_at in *. eapply holds_words_ext; [exact (ClientProofs.Hf2 3 Hf)| |exact H]. intros i Hi. cbv beta. rewrite !Z.mul_1_r. rewrite <- !Z.add_assoc. split; apply E; lia.
Qed.
Lemma scatter_read {t} n size x (root m : mem t) local r : 0 <= n -> 0 < size ->
  read (scatterv n size x root local r m) local 1 (counts n size r) = read root (x + displs n size r) 1 (counts n size r).
Proof.
  intros Hn Hs. unfold read. apply map_ext_in. intros i Hi. apply zseq_In in Hi. unfold scatterv.
  replace ((local <=? local + i * 1) && (local + i * 1 <? local + counts n size r)) with true by (symmetry; apply andb_true_iff; lia). f_equal. lia.
Qed.
Lemma mpi_sum_value t tu n size x local lsum isum buf cs result (root : mem t) ms w tu' acc' : 2 <= 3 <= MAXFOLD t ->
  0 < size -> 0 <= n <= CAPACITY t -> (forall r, tuned t (tu r)) -> tuned t tu' ->
  (forall r, (r < Z.to_nat size)%nat -> clear_of (local r) 1 (counts n size (Z.of_nat r)) (lsum r) 6) ->
  buffers 6 1 (seq 0 (Z.to_nat size)) buf -> reduction (seq 0 (Z.to_nat size)) 1 cs (fun _ => result) ->
  all_finite (read root x 1 n) = true -> clear_of x 1 n acc' 6 ->
  mpi_sum tu n size x local lsum isum buf (run_calls 3 buf cs) result root ms w = dsum tu' n x 1 acc' root.
Proof.
  intros Hf Hs HN HT HT' HC HB RD FX CA. unfold mpi_sum. set (ranks := seq 0 (Z.to_nat size)) in *.
  set (ms1 := fun r => scatterv n size x root (local r) (Z.of_nat r) (ms r)).
  set (ms2 := fun r => local_sum (tu r) n size (Z.of_nat r) (local r) (lsum r) (ms1 r)).
  set (part := fun r => read root (x + displs n size (Z.of_nat r)) 1 (counts n size (Z.of_nat r))).
  assert (PA : flat_map part ranks = read root x 1 n) by (apply parts_all; lia).
  assert (HN' : 0 <= n <= capacity t) by (rewrite <- CAPACITY_eq; exact HN).
  assert (LN : Z.of_nat (length (read root x 1 n)) = n) by (apply read_length; lia).
  assert (IR : forall r, In r ranks <-> (r < Z.to_nat size)%nat) by (intros r; unfold ranks; rewrite in_seq; lia).
  assert (LOC : forall r, In r ranks -> acc_at 3 [] (part r) (ms2 r) (lsum r)).
  { intros r Hr. unfold ms2, local_sum. rewrite local_is_count. set (c := counts n size (Z.of_nat r)).
    assert (SR : read (ms1 r) (local r) 1 c = part r) by (apply scatter_read; lia).
    assert (LC : 0 <= c <= capacity t).
    { split; [apply counts_nonneg; lia|]. assert (Z.of_nat (length (part r)) = c) by (apply read_length, counts_nonneg; lia).
      apply in_split in Hr. destruct Hr as (l1 & l2 & E). rewrite <- PA, E, flat_map_app in LN. cbn [flat_map] in LN. rewrite !app_length in LN. lia. }
    destruct (fresh_fin 3 Hf Sum (tu r) c (local r) 1 (local r) 1 (lsum r) (ms1 r) (HT r) LC) as [R1 _].
    { apply HC, IR, Hr. } { apply HC, IR, Hr. }
    { cbn [terms]. change (all_finite (read (ms1 r) (local r) 1 c) = true). rewrite SR. apply in_split in Hr. destruct Hr as (l1 & l2 & E).
      rewrite <- PA, E, flat_map_app in FX. cbn [flat_map] in FX. unfold all_finite in FX |- *. rewrite !forallb_app in FX.
      apply andb_true_iff in FX. destruct FX as [_ FX]. apply andb_true_iff in FX. tauto. }
    change (acc_at 3 [] (read (ms1 r) (local r) 1 c) (dbdsum (tu r) 3 c (local r) 1 (lsum r) (dbsetzero 3 (lsum r) (ms1 r))) (lsum r)) in R1.
    rewrite SR in R1. exact R1. }
  set (w0 := load_buffers (Z.to_nat size) buf lsum ms2 w).
  assert (W0 : forall r, In r ranks -> acc_at 3 [] (part r) w0 (elem 3 (buf r) 0)).
  { intros r Hr. eapply (acc_copy Hf); [|apply LOC, Hr]. intros i Hi. unfold elem. rewrite Z.mul_0_l, Z.add_0_r.
    destruct (load_spec buf lsum ms2 ranks w) as [L1 _]; [apply seq_NoDup| |].
    - intros a b Ha Hb NE. pose proof (HB a b Ha Hb NE) as A. rewrite Z.mul_1_l in A. exact A.
    - apply L1; auto. }
  destruct (reduce_holds t 3 1 ranks buf cs (fun _ => result) (fun _ _ => []) (fun r _ => part r) w0 Hf HB RD) with (e := 0) as (us' & xs' & R1 & R2 & R3).
  { intros e He. assert (e = 0) as -> by lia. split; [|exact W0]. change (Z.of_nat (length (flat_map part ranks)) <= capacity t). rewrite PA. lia. }
  { lia. }
  assert (NU : flat_map (fun _ : nat => @nil (F t)) ranks = []) by (clear; induction ranks; auto).
  rewrite NU in R2. symmetry in R2. apply Permutation_nil in R2. subst us'. change (Permutation xs' (flat_map part ranks)) in R3. rewrite PA in R3.
  unfold elem in R1. rewrite Z.mul_0_l, Z.add_0_r in R1.
  set (w1 := run_calls 3 buf cs w0) in *.
  assert (RI : acc_at 3 [] xs' (mpi_reduce (Z.to_nat size) buf (run_calls 3 buf cs) result lsum ms2 w isum (dbsetzero 3 isum (ms2 0%nat))) isum).
  { eapply (acc_copy Hf); [|exact R1]. intros i Hi. unfold mpi_reduce. change (dbnum 3) with 6. rewrite copy_block_in by exact Hi. reflexivity. }
  unfold dsum. replace (default_fold t) with 3 by (destruct t; reflexivity). rewrite (C20_is_scalar_sum t tu' 3 n x 1 acc' 0 root root) by auto.
  destruct (sum_list_holds 3 Hf 0 (read root x 1 n) root) as [S1 _]; [lia|].
  exact (conv_acc 3 Hf [] xs' [] _ _ _ _ _ (perm_nil _) R3 RI S1).
Qed.
(** The distributed program prints the number reproBLAS_dsum returns for the whole array, twice:
    any n and number of processes, any data and random numbers, any tuning on every process,
    any order and tree of operator calls, different ones for the two reductions. *)
Theorem C57_mpi_sum_sine t rnd tu tu' n size x s local local' lsum isum buf buf' cs cs' result result' (root : mem t) ms w tu0 acc :
  0 < size -> 0 <= n <= CAPACITY t -> (forall r, tuned t (tu r)) -> (forall r, tuned t (tu' r)) -> tuned t tu0 ->
  (forall i, 0 <= i < n -> 0 <= rnd i) -> arrays_apart n x s -> clear_of x 1 n acc 6 ->
  (forall r, (r < Z.to_nat size)%nat -> clear_of (local r) 1 (counts n size (Z.of_nat r)) (lsum r) 6 /\
                                        clear_of (local' r) 1 (counts n size (Z.of_nat r)) (lsum r) 6) ->
  buffers 6 1 (seq 0 (Z.to_nat size)) buf -> buffers 6 1 (seq 0 (Z.to_nat size)) buf' ->
  reduction (seq 0 (Z.to_nat size)) 1 cs (fun _ => result) -> reduction (seq 0 (Z.to_nat size)) 1 cs' (fun _ => result') ->
  all_finite (read root x 1 n) = true ->
  let v := dsum tu0 n x 1 acc root in
  mpi_sum_sine rnd tu tu' n size x s local local' lsum isum buf buf' (run_calls 3 buf cs) (run_calls 3 buf' cs') result result' root ms w = (v, v).
Proof.
  intros Hs HN HT HT' HT0 HR HA CA HL HB HB' RD RD' FX v. assert (Hf : 2 <= 3 <= MAXFOLD t) by (destruct t; vm_compute; split; discriminate).
  destruct (C57_shuffle t rnd n x s root ltac:(lia) HA HR) as [SP SU]. unfold mpi_sum_sine. set (m0 := shuffle rnd n x s root) in *. clearbody m0.
  assert (RX : read m0 x 1 n = read root x 1 n).
  { unfold read. apply map_ext_in. intros i Hi. apply zseq_In in Hi. apply SU. unfold arrays_apart in HA. lia. }
  assert (FS : all_finite (read m0 s 1 n) = true) by (rewrite (all_finite_perm _ _ SP); exact FX).
  assert (CF : forall y, clear_of y 1 n (y + n) 6) by (intros y i Hi; lia).
  rewrite (mpi_sum_value t tu n size x local lsum isum buf cs result m0 ms w tu0 (x + n)); auto; [| |rewrite RX; exact FX]; [|intros r Hr; apply (HL r Hr)].
  rewrite (mpi_sum_value t tu' n size s local' lsum isum buf' cs' result' m0 ms w tu0 (s + n)); auto; [|intros r Hr; apply (HL r Hr)].
  assert (V : forall p, clear_of p 1 n (p + n) 6 -> all_finite (read m0 p 1 n) = true -> Permutation (read m0 p 1 n) (read root x 1 n) -> dsum tu0 n p 1 (p + n) m0 = v).
  { intros p Cp Fp P. unfold v, dsum. replace (default_fold t) with 3 by (destruct t; reflexivity).
    rewrite (C20_is_scalar_sum t tu0 3 n p 1 (p + n) 0 m0 root), (C20_is_scalar_sum t tu0 3 n x 1 acc 0 root root) by auto.
    assert (LN : Z.of_nat (length (read root x 1 n)) = n) by (apply read_length; lia). rewrite CAPACITY_eq in HN.
    apply (conv_acc 3 Hf [] _ [] _ _ _ _ _ (perm_nil _) P); apply (sum_list_holds 3 Hf); [rewrite (Permutation_length P)|]; lia. }
  f_equal; apply V; auto; rewrite RX; auto.
Qed.
Print Assumptions C57_mpi_sum_sine.
(** Five numbers on three processes (1 + 1 + 3 of them), shuffled, and reduced by two trees. *)
Definition sine_data : mem Dbl := fun a => if a =? 0 then mkf 1 60 else if a =? 1 then mkf 3 0 else if a =? 2 then mkf (-1) 60 else
  if a =? 3 then mkf 7 (-60) else if a =? 4 then mkf (-7) (-60) else fzero.
Definition sine_rnd (i : Z) : Z := 9 * i + 13.
Definition sine_buf (r : nat) : Z := 10 * Z.of_nat r.
Definition sine_calls : list call := [Call 1 2 0 1; Call 2 0 0 1].
Definition sine_calls' : list call := [Call 0 2 0 1; Call 1 2 0 1].
Example C57_case :
  clear_of 0 1 5 300 6 /\ clear_of 100 1 5 300 6 /\ clear_of 0 1 5 400 6 /\ clear_of 100 1 5 400 6 /\ arrays_apart 5 0 100 /\ apart 6 300 400 /\
  (forall i, 0 <= i < 5 -> 0 <= sine_rnd i) /\ all_finite (read sine_data 0 1 5) = true /\
  buffers 6 1 (seq 0 3) sine_buf /\
  reduction (seq 0 3) 1 sine_calls (fun _ => 0%nat) /\ reduction (seq 0 3) 1 sine_calls' (fun _ => 2%nat) /\
  map toZ (read (shuffle sine_rnd 5 0 100 sine_data) 100 1 5) = map toZ [mkf 7 (-60); mkf 1 60; mkf 3 0; mkf (-1) 60; mkf (-7) (-60) : F Dbl] /\
  forallb (fun p => feq (fst p) (mkf 3 0) && feq (snd p) (mkf 3 0)) (sum_sine sample_tuning sine_rnd 5 0 100 300 400 500 sine_data) = true /\
  map (counts 5 3) [0; 1; 2] = [1; 1; 3] /\
  (let p := mpi_sum_sine sine_rnd (fun _ => sample_tuning) (fun _ => sample_tuning) 5 3 0 100 (fun _ => 0) (fun _ => 20) (fun _ => 50) 600
     sine_buf sine_buf (run_calls 3 sine_buf sine_calls) (run_calls 3 sine_buf sine_calls') 0 2 sine_data (fun _ _ => fzero) (fun _ => fzero) in
   feq (fst p) (mkf 3 0) && feq (snd p) (mkf 3 0) = true).
Proof.
  repeat match goal with |- clear_of _ _ _ _ _ /\ _ => split; [intros i Hi; lia|] end.
  split; [left; lia|]. split; [left; lia|]. split; [intros i Hi; unfold sine_rnd; lia|]. split; [vm_compute; reflexivity|].
  split; [intros i j [<-|[<-|[<-|[]]]] [<-|[<-|[<-|[]]]] NE; try congruence; unfold apart, sine_buf; lia|].
  assert (ND : NoDup (seq 0 3)) by apply seq_NoDup.
  split; [|split].
  - split; [exact ND|]. split; [repeat constructor; cbn; lia|]. intros e He. assert (e = 0) as -> by lia. cbn.
    apply reduces_call; cbn; [auto|auto|discriminate|]. apply reduces_call; cbn; [auto|auto|discriminate|constructor].
  - split; [exact ND|]. split; [repeat constructor; cbn; lia|]. intros e He. assert (e = 0) as -> by lia. cbn.
    apply reduces_call; cbn; [auto|auto|discriminate|]. apply reduces_call; cbn; [auto|auto|discriminate|constructor].
  - split; [vm_compute; reflexivity|]. split; [vm_compute; reflexivity|]. split; [reflexivity|]. vm_compute. reflexivity.
Qed.
