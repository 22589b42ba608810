(** * C72: every length a C int can hold *)
From Coq Require Import ZArith Bool List Lia Permutation.
From Flocq Require Import Core BinarySingleNaN.
From Verif Require Import Fp Mem Binned Spec Client FpProofs SpecProofs SumProofs ClientProofs ConvProofs PropsAcc Gen Blas BlasSpec LaneProofs PropsSum PropsBlas Ssq SsqProofs SsqSpec PropsSsq.
Import ListNotations.
Open Scope Z_scope.

(** Values of a C int (32 bits). *)
Definition INT_MAX : Z := 2 ^ 31 - 1.
Definition INT_MIN : Z := - 2 ^ 31.
Definition is_int (n : Z) : Prop := INT_MIN <= n <= INT_MAX.

(** No int exceeds the capacity of an accumulator of either type: one call never does. *)
Theorem C72_capacity t N : is_int N -> N <= CAPACITY t.
Proof. intros [_ H]. apply Z.le_trans with INT_MAX; [exact H|]. destruct t; vm_compute; discriminate. Qed.
(** Not so for the two products per element that a complex dot product puts in each part, in single precision ... *)
Theorem C72_complex_products N : is_int N -> 2 * N <= CAPACITY Dbl /\ (2 * N <= CAPACITY Flt <-> N <= 2 ^ 31 - 256).
Proof.
  intros [_ H]. unfold INT_MAX in H. rewrite !CAPACITY_eq.
  replace (capacity Dbl) with (2 ^ 11 * (2 ^ 52 - 1)) by reflexivity. replace (capacity Flt) with (2 ^ 9 * (2 ^ 23 - 1)) by reflexivity. lia.
Qed.
(** ... nor for two full calls added to one single precision accumulator. *)
Theorem C72_two_calls_refuted : ~ (forall N N', is_int N -> is_int N' -> N + N' <= CAPACITY Flt).
Proof. intros H. specialize (H INT_MAX INT_MAX). vm_compute in H. apply H; [split; discriminate|split; discriminate|reflexivity]. Qed.

Lemma reduce_nonpos {t} k tu fold N X iX Y iY p ip c ic (m : mem t) : N <= 0 ->
  reduce k tu fold N X iX Y iY p ip c ic m = reduce k tu fold 0 X iX Y iY p ip c ic m.
Proof.
  intros H. unfold reduce. replace (Z.to_nat N) with 0%nat by lia. cbn [reduce_loop Z.to_nat].
  destruct (Z.ltb_spec 0 N); [lia|]. reflexivity.
Qed.
Lemma read_nonpos {t} (m : mem t) X inc N : N <= 0 -> read m X inc N = read m X inc 0.
Proof. intros H. unfold read, zseq. now replace (Z.to_nat N) with 0%nat by lia. Qed.
Lemma ssq_nonpos {t} tu fold N X iX s p ip c ic (m : mem t) : N <= 0 -> dmdssq tu fold N X iX s p ip c ic m = dmdssq tu fold 0 X iX s p ip c ic m.
Proof.
  intros H. unfold dmdssq. replace (Z.to_nat N) with 0%nat by lia. cbn [ssq_loop Z.to_nat].
  destruct (Z.ltb_spec 0 N); [lia|]. reflexivity.
Qed.
Lemma clear_0 X inc A n : clear_of X inc 0 A n. Proof. intros i Hi. lia. Qed.

(** A length that is not positive means an empty vector: nothing is read, the result is zero and
    an accumulator keeps its words. *)
Theorem C72_nonpositive t tu fold N X incX Y incY tmp (m : mem t) : 2 <= fold <= ssq_fold t -> tuned t tu -> N <= 0 ->
  rdsum tu fold N X incX tmp m = fzero /\ rdasum tu fold N X incX tmp m = fzero /\
  rddot tu fold N X incX Y incY tmp m = fzero /\ rdnrm2 tu fold N X incX tmp m = fzero.
Proof.
  intros Hf HT HN. pose proof (proj2 (proj2 (ssq_fold_ok t fold Hf))) as HM.
  assert (H0 : 0 <= 0 <= CAPACITY t) by (pose proof (C72_capacity t 0); unfold is_int, INT_MIN, INT_MAX in *; lia).
  pose proof HM as Hf'.
  assert (Z0 : ddbconv fold tmp (sum_list fold tmp [] m) = fzero).
  { unfold ddbconv. apply ConvProofs.ddmconv_zero. destruct (sum_list_holds fold Hf' tmp [] m ltac:(rewrite <- CAPACITY_eq; cbn; lia)) as [H _].
    unfold acc_at, holds in H. cbn in H. destruct (H 0 ltac:(lia)) as [E _]. rewrite Z.mul_0_l, Z.add_0_r in E. exact E. }
  assert (R : rdsum tu fold 0 X incX tmp m = fzero).
  { rewrite (C20_is_scalar_sum t tu fold 0 X incX tmp tmp m m) by (auto using clear_0). exact Z0. }
  assert (S : forall k, reduce k tu fold N X incX (match k with Dot => Y | _ => X end) (match k with Dot => incY | _ => incX end) tmp 1 (tmp + fold) 1 (dbsetzero fold tmp m) = dbdsum tu fold 0 X incX tmp (dbsetzero fold tmp m)).
  { intros k. rewrite reduce_nonpos by exact HN. unfold dbdsum, dmdsum, reduce. destruct k; reflexivity. }
  split; [|split; [|split]].
  - unfold rdsum, dbdsum, dmdsum. rewrite (S Sum). exact R.
  - unfold rdasum, dbdasum, dmdasum. rewrite (S ASum). exact R.
  - unfold rddot, dbddot, dmddot. rewrite (S Dot). exact R.
  - unfold rdnrm2, dbdssq. rewrite ssq_nonpos by exact HN. exact (C42_rdnrm2_empty t tu fold X incX tmp m Hf HT).
Qed.
Print Assumptions C72_nonpositive.

(** The reproducibility statements for every int, with no hypothesis on the length. *)
Lemma int_cases t N : is_int N -> (0 <= N <= CAPACITY t) \/ N <= 0.
Proof. intros H. pose proof (C72_capacity t N H). lia. Qed.
Theorem C72_rdsum t tu tu' fold N X incX X' incX' tmp tmp' (m m' : mem t) :
  2 <= fold <= MAXFOLD t -> tuned t tu -> tuned t tu' -> is_int N ->
  clear_of X incX N tmp (dbnum fold) -> clear_of X' incX' N tmp' (dbnum fold) ->
  all_finite (read m X incX N) = true -> Permutation (read m X incX N) (read m' X' incX' N) ->
  rdsum tu fold N X incX tmp m = rdsum tu' fold N X' incX' tmp' m'.
Proof.
  intros Hf HT HT' HN CX CX' FX HP. destruct (int_cases t N HN) as [H|H]; [now apply C20_order_independent|].
  unfold rdsum, dbdsum, dmdsum. rewrite !(reduce_nonpos _ _ _ N) by exact H. rewrite !(read_nonpos _ _ _ N) in * by exact H.
  apply (C20_order_independent t tu tu' fold 0 X incX X' incX' tmp tmp' m m'); auto using clear_0.
  pose proof (C72_capacity t 0). unfold is_int, INT_MIN, INT_MAX in *. lia.
Qed.
Print Assumptions C72_rdsum.
Theorem C72_rdasum t tu tu' fold N X incX X' incX' tmp tmp' (m m' : mem t) :
  2 <= fold <= MAXFOLD t -> tuned t tu -> tuned t tu' -> is_int N ->
  clear_of X incX N tmp (dbnum fold) -> clear_of X' incX' N tmp' (dbnum fold) ->
  all_finite (magnitudes m X incX N) = true -> Permutation (magnitudes m X incX N) (magnitudes m' X' incX' N) ->
  rdasum tu fold N X incX tmp m = rdasum tu' fold N X' incX' tmp' m'.
Proof.
  intros Hf HT HT' HN CX CX' FX HP. destruct (int_cases t N HN) as [H|H]; [now apply C21_rdasum|].
  unfold magnitudes in *. unfold rdasum, dbdasum, dmdasum. rewrite !(reduce_nonpos _ _ _ N) by exact H. rewrite !(read_nonpos _ _ _ N) in * by exact H.
  apply (C21_rdasum t tu tu' fold 0 X incX X' incX' tmp tmp' m m'); auto using clear_0.
  pose proof (C72_capacity t 0). unfold is_int, INT_MIN, INT_MAX in *. lia.
Qed.
Print Assumptions C72_rdasum.
Theorem C72_rddot t tu tu' fold N X incX Y incY X' incX' Y' incY' tmp tmp' (m m' : mem t) :
  2 <= fold <= MAXFOLD t -> tuned t tu -> tuned t tu' -> is_int N ->
  clear_of X incX N tmp (dbnum fold) -> clear_of Y incY N tmp (dbnum fold) ->
  clear_of X' incX' N tmp' (dbnum fold) -> clear_of Y' incY' N tmp' (dbnum fold) ->
  all_finite (products m X incX Y incY N) = true ->
  Permutation (products m X incX Y incY N) (products m' X' incX' Y' incY' N) ->
  rddot tu fold N X incX Y incY tmp m = rddot tu' fold N X' incX' Y' incY' tmp' m'.
Proof.
  intros Hf HT HT' HN CX CY CX' CY' FX HP. destruct (int_cases t N HN) as [H|H]; [now apply C21_rddot|].
  unfold products in *. unfold rddot, dbddot, dmddot. rewrite !(reduce_nonpos _ _ _ N) by exact H. rewrite !(read_nonpos _ _ _ N) in * by exact H.
  apply (C21_rddot t tu tu' fold 0 X incX Y incY X' incX' Y' incY' tmp tmp' m m'); auto using clear_0.
  pose proof (C72_capacity t 0). unfold is_int, INT_MIN, INT_MAX in *. lia.
Qed.
Print Assumptions C72_rddot.
(** The norm needs no hypothesis on the data either. *)
Theorem C72_rdnrm2 t tu tu' fold N X incX X' incX' tmp tmp' (m m' : mem t) :
  2 <= fold <= ssq_fold t -> tuned t tu -> tuned t tu' -> is_int N ->
  clear_of X incX N tmp (dbnum fold) -> clear_of X' incX' N tmp' (dbnum fold) ->
  Permutation (read m X incX N) (read m' X' incX' N) ->
  rdnrm2 tu fold N X incX tmp m = rdnrm2 tu' fold N X' incX' tmp' m'.
Proof.
  intros Hf HT HT' HN CX CX' HP. destruct (int_cases t N HN) as [H|H]; [now apply C42_rdnrm2|].
  destruct (C72_nonpositive t tu fold N X incX X incX tmp m Hf HT H) as (_ & _ & _ & ->).
  destruct (C72_nonpositive t tu' fold N X' incX' X' incX' tmp' m' Hf HT' H) as (_ & _ & _ & ->). reflexivity.
Qed.
Print Assumptions C72_rdnrm2.
Example C72_case : is_int INT_MAX /\ is_int (-5) /\ is_int INT_MIN /\ ~ is_int (2 ^ 31) /\ 2 <= 3 <= ssq_fold Dbl /\ 2 <= 3 <= ssq_fold Flt.
Proof. vm_compute. intuition discriminate. Qed.
