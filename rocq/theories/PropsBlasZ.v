(** * C29, C46: complex vector reductions *)
From Coq Require Import ZArith Bool List Lia Permutation.
From Flocq Require Import Core BinarySingleNaN.
From Verif Require Import Fp Mem Binned Spec FpProofs BitProofs CoreArith SpecProofs WordProofs MemProofs AccProofs SumProofs ConvProofs Client History ClientProofs StrideProofs PropsSum PropsAcc PropsMem ComplexProofs PropsComplex Gen GenProofs Params ParamsProofs Blas LaneProofs ReduceProofs DriverProofs BlasSpec PropsBlas BlasZ ZEvents ZKernel ZDriver ZLoop BlasZSpec.
Import ListNotations.
Open Scope Z_scope.

(** ** The summands *)
Definition zdata {t} (k : zkind) (m : mem t) (X iX Y iY N : Z) : list (F t * F t) :=
  match k with
  | ZSum => zread m X iX N
  | ZDotC => conj_products m X iX Y iY N
  | ZDotU => plain_products m X iX Y iY N
  end.
Lemma zdata_terms {t} k (m : mem t) X iX Y iY N : 0 <= N ->
  map fst (zdata k m X iX Y iY N) = zterms k 0 X iX Y iY m N /\
  map snd (zdata k m X iX Y iY N) = zterms k 1 X iX Y iY m N.
Proof.
  intros HN. rewrite !zterms_elems by auto. unfold zdata, conj_products, plain_products, zread.
  assert (E : forall i iX, 2 * (i * iX) = i * (2 * iX)) by (intros; ring).
  destruct k; cbn [nterms]; [change (zseq 0 1) with [0]|change (zseq 0 2) with [0; 1]|change (zseq 0 2) with [0; 1]];
    generalize (zseq 0 N); intros l; induction l as [|i l IH]; split; try reflexivity; destruct IH as [IH1 IH2];
    cbn [map flat_map combine app fst snd]; rewrite !E; unfold at_elem, zterm; cbn [Z.eqb]; first [rewrite IH1|rewrite IH2]; reflexivity.
Qed.
Lemma zdata_length {t} k (m : mem t) X iX Y iY N : 0 <= N -> Z.of_nat (length (zdata k m X iX Y iY N)) = nterms k * N.
Proof.
  intros HN. destruct (zdata_terms k m X iX Y iY N HN) as [E _]. apply (f_equal (@length _)) in E.
  rewrite map_length, zterms_length in E. rewrite E. pose proof (nterms_pos k). nia.
Qed.

Section ZRED.
  Context {t : ty} (fold : Z) (Hf : 2 <= fold <= MAXFOLD t).
  Notation Hf2' := (ClientProofs.Hf2 fold Hf). Notation Hfm' := (ClientProofs.Hfm fold Hf).

  Lemma zadd_list_acc Y xs : forall (m : mem t) us vs zs, zacc_at fold us vs zs m Y -> Z.of_nat (length (xs ++ zs)) <= capacity t ->
    let m' := zadd_list fold Y xs m in
    zacc_at fold us vs (rev xs ++ zs) m' Y /\ unchanged_outside Y (zbnum fold) m m'.
  Proof.
    induction xs as [|x xs IH]; intros m us vs zs H HC; [split; [exact H|intros a _; reflexivity]|].
    destruct H as [HR HI]. cbn [app length] in HC. rewrite app_length in HC.
    cbn [zadd_list fold_left]. fold (zadd_list fold Y xs (zbzadd fold (fst x) (snd x) Y m)). rewrite zbzadd_parts by auto.
    pose proof (endurance_pos t) as EP.
    destruct (rep_add (layout_complex_re fold Y ltac:(lia)) Hf2' Hfm' m us (map fst zs) 0 (fst x)) as [H1 F1].
    { apply holds_rep; auto. rewrite map_length. lia. } { lia. } { intros _. cbn [length]. rewrite map_length. lia. }
    cbv zeta in H1, F1. set (m1 := dmdadd fold (fst x) Y 2 (Y + 2 * fold) 2 m) in *.
    apply (zim_re fold Hf Y m m1 _ _ F1) in HI.
    destruct (rep_add (layout_complex_im fold Y ltac:(lia)) Hf2' Hfm' m1 vs (map snd zs) 0 (snd x)) as [H2 F2].
    { apply holds_rep; auto. rewrite map_length. lia. } { lia. } { intros _. cbn [length]. rewrite map_length. lia. }
    cbv zeta in H2, F2. set (m2 := dmdadd fold (snd x) (Y + 1) 2 (Y + 2 * fold + 1) 2 m1) in *. clearbody m1 m2.
    destruct (IH m2 us vs (x :: zs)) as [I1 I2].
    - split; [|exact H2]. eapply (zre_im fold Hf); [exact F2|]. exact H1.
    - rewrite app_length. cbn [length]. lia.
    - cbn [rev]. rewrite <- app_assoc. split; [exact I1|]. intros a Ha. rewrite I2 by auto.
      rewrite (zfr fold Hf Y m1 m2 (or_intror F2) a Ha). apply (zfr fold Hf Y m m1 (or_introl F1) a Ha).
  Qed.
  Lemma zclear_outside X iX N Y : zclear_of X iX N Y (zbnum fold) ->
    zoutside (fold := fold) (p := Y) (ip := 1) (c := Y + 2 * fold) (ic := 1) X iX N.
  Proof.
    intros H i o Hi Ho. specialize (H i o Hi Ho). replace (X + i * (2 * iX) + o) with (X + 2 * (i * iX) + o) by ring.
    unfold zbnum in H. split; intros (j & Hj & E); lia.
  Qed.
  Lemma zin_disjoint Y : disjoint (in_acc fold Y (2 * 1) (Y + 2 * fold) (2 * 1)) (in_acc fold (Y + 1) (2 * 1) (Y + 2 * fold + 1) (2 * 1)).
  Proof. intros a (i & Hi & E) (j & Hj & E'). lia. Qed.
  (** Only the smaller of N and the block size matters. *)
  Lemma zreduce_short k tu N X iX Y iY p ip c ic (m : mem t) : 0 <= N -> 1 <= block_max tu ->
    zreduce k tu fold N X iX Y iY p ip c ic m =
    zreduce k (Tuning (Z.max 1 (Z.min N (block_max tu))) (amax_vec tu) (dep_vec tu)) fold N X iX Y iY p ip c ic m.
  Proof.
    intros HN HB. unfold zreduce. cbn [block_max].
    assert (R : forall fuel B X Y i d (m : mem t), 1 <= B ->
      zreduce_loop fuel k tu fold N X iX Y iY p ip c ic i B d m =
      zreduce_loop fuel k (Tuning (Z.max 1 (Z.min N (block_max tu))) (amax_vec tu) (dep_vec tu)) fold N X iX Y iY p ip c ic i B d m).
    { induction fuel as [|fuel IH]; intros B X' Y' i d m0 HB0; [reflexivity|]. cbn [zreduce_loop amax_vec dep_vec].
      destruct (Z.ltb_spec i N) as [L|L]; [|reflexivity].
      repeat match goal with |- context [if ?b then _ else _] => destruct b end;
        try reflexivity; try (apply IH; lia);
        destruct (zkernel _ _ _ _ _ _ _ _) as [m1 p1]; try reflexivity; apply IH; lia. }
    rewrite R by exact HB. cbn [zreduce_loop amax_vec dep_vec]. destruct (Z.ltb_spec 0 N) as [L|L]; [|reflexivity].
    replace (Z.min (N - 0) (Z.max 1 (Z.min N (block_max tu)))) with (Z.min (N - 0) (block_max tu)) by lia. reflexivity.
  Qed.
  Notation cout0 Y := (@cout t fold Y 2 (Y + 2 * fold) 2).
  Notation cout1 Y := (@cout t fold (Y + 1) 2 (Y + 2 * fold + 1) 2).
  Lemma zreduce_out k tu N X iX Y iY A (m : mem t) us vs zs :
    legal_avec (amax_vec tu) -> legal_vec (dep_vec tu) -> 1 <= block_max tu -> nterms k * Z.min N (block_max tu) <= endurance t ->
    0 <= N -> zacc_at fold us vs zs m A ->
    zclear_of X iX N A (zbnum fold) -> zclear_of Y iY N A (zbnum fold) ->
    let l := zdata k m X iX Y iY N in
    nterms k * N + Z.of_nat (length zs) <= capacity t ->
    let m' := zreduce k tu fold N X iX Y iY A 1 (A + 2 * fold) 1 m in
    cout0 A us (map fst (l ++ zs)) m' /\ cout1 A vs (map snd (l ++ zs)) m' /\ unchanged_outside A (zbnum fold) m m'.
  Proof.
    intros LA LV HB HB2 HN [HR HI] CX CY l HC m'. unfold m'. clear m'. rewrite zreduce_short by auto.
    pose proof (endurance_pos t) as EP. pose proof (nterms_pos k) as NP.
    assert (HE : nterms k <= endurance t) by (destruct k; cbn [nterms]; unfold endurance in *; destruct t; cbn; lia).
    set (tu' := Tuning (Z.max 1 (Z.min N (block_max tu))) (amax_vec tu) (dep_vec tu)).
    assert (HB' : 1 <= block_max tu') by (unfold tu'; cbn [block_max]; lia).
    assert (HB2' : nterms k * block_max tu' <= endurance t) by (unfold tu'; cbn [block_max]; nia).
    change (legal_avec (amax_vec tu')) in LA. change (legal_vec (dep_vec tu')) in LV. clearbody tu'.
    clear tu HB HB2. rename tu' into tu, HB' into HB, HB2' into HB2.
    set (m' := zreduce k tu fold N X iX Y iY A 1 (A + 2 * fold) 1 m).
    destruct (zdata_terms k m X iX Y iY N HN) as [E0 E1]. fold l in E0, E1. rewrite !map_app, E0, E1.
    pose proof (zloop_ok (ip := 1) (ic := 1) (layout_complex_re fold A ltac:(lia)) (layout_complex_im fold A ltac:(lia)) (zin_disjoint A) Hf2' Hfm'
      (S (Z.to_nat N)) k tu N X iX Y iY 0 (block_max tu) 0 m us vs (map fst zs) (map snd zs)) as R.
    cbv zeta in R. rewrite Z.sub_0_r in R.
    assert (LZ : Z.of_nat (length zs) <= capacity t) by nia.
    destruct R as (R0 & R1 & R2); auto; try lia.
    - unfold cst. rewrite Z.mul_0_r. destruct (all_finite (map fst zs)) eqn:FZ.
      + apply holds_rep; auto. now rewrite map_length.
      + left. unfold holds in HR. rewrite FZ, Z.mul_0_l, Z.add_0_r in HR. exact HR.
    - unfold cst. rewrite Z.mul_0_r. destruct (all_finite (map snd zs)) eqn:FZ.
      + apply holds_rep; auto. now rewrite map_length.
      + left. unfold holds in HI. rewrite FZ, Z.mul_0_l, Z.add_0_r in HI. exact HI.
    - apply zclear_outside; exact CX.
    - apply zclear_outside; exact CY.
    - intros _. rewrite app_length, map_length, zterms_length. nia.
    - intros _. rewrite app_length, map_length, zterms_length. nia.
    - split; [exact R0|]. split; [exact R1|]. intros a Ha. apply R2; intros (i & Hi & E); apply Ha; unfold zbnum; lia.
  Qed.
  Lemma re_holds us xs xs' (m m' : mem t) A A' : all_finite xs = true -> Permutation xs xs' ->
    holds t fold us xs (P_of m A 2) (P_of m (A + 2 * fold) 2) -> holds t fold us xs' (P_of m' A' 2) (P_of m' (A' + 2 * fold) 2) ->
    re_words fold m A m' A'.
  Proof.
    intros FX P H H' i Hi. symmetry in P. apply (holds_perm _ _ us us _ _ _ _ (Permutation_refl us) P) in H'.
    destruct (holds_unique t fold _ _ _ _ _ _ ltac:(lia) H H') as [_ E]. specialize (E FX). unfold P_of in E.
    destruct (Z_lt_dec i fold).
    - destruct (E i ltac:(lia)) as [E1 _]. now rewrite !(Z.mul_comm i) in E1.
    - destruct (E (i - fold) ltac:(lia)) as [_ E1]. replace (A + 2 * fold + (i - fold) * 2) with (A + 2 * i) in E1 by ring.
      replace (A' + 2 * fold + (i - fold) * 2) with (A' + 2 * i) in E1 by ring. exact E1.
  Qed.
  Lemma im_holds us xs xs' (m m' : mem t) A A' : all_finite xs = true -> Permutation xs xs' ->
    holds t fold us xs (P_of m (A + 1) 2) (P_of m (A + 2 * fold + 1) 2) -> holds t fold us xs' (P_of m' (A' + 1) 2) (P_of m' (A' + 2 * fold + 1) 2) ->
    im_words fold m A m' A'.
  Proof.
    intros FX P H H' i Hi. replace (A + 2 * fold + 1) with (A + 1 + 2 * fold) in H by ring.
    replace (A' + 2 * fold + 1) with (A' + 1 + 2 * fold) in H' by ring.
    pose proof (re_holds us xs xs' m m' (A + 1) (A' + 1) FX P H H' i Hi) as E.
    replace (A + 2 * i + 1) with (A + 1 + 2 * i) by ring. replace (A' + 2 * i + 1) with (A' + 1 + 2 * i) by ring. exact E.
  Qed.
  Lemma zreduce_adds k tu N X iX Y iY A (m : mem t) us vs zs :
    legal_avec (amax_vec tu) -> legal_vec (dep_vec tu) -> 1 <= block_max tu -> nterms k * Z.min N (block_max tu) <= endurance t ->
    0 <= N -> zacc_at fold us vs zs m A ->
    zclear_of X iX N A (zbnum fold) -> zclear_of Y iY N A (zbnum fold) ->
    let l := zdata k m X iX Y iY N in
    nterms k * N + Z.of_nat (length zs) <= capacity t ->
    let m' := zreduce k tu fold N X iX Y iY A 1 (A + 2 * fold) 1 m in
    (all_finite (map fst (l ++ zs)) = true -> re_words fold m' A (zadd_list fold A l m) A) /\
    (all_finite (map snd (l ++ zs)) = true -> im_words fold m' A (zadd_list fold A l m) A) /\
    unchanged_outside A (zbnum fold) m m'.
  Proof.
    intros LA LV HB HB2 HN HA CX CY l HC m'.
    destruct (zreduce_out k tu N X iX Y iY A m us vs zs LA LV HB HB2 HN HA CX CY HC) as (R0 & R1 & R2). fold l in R0, R1. fold m' in R0, R1, R2.
    pose proof (zdata_length k m X iX Y iY N HN) as LL. fold l in LL.
    destruct (zadd_list_acc A l m us vs zs HA ltac:(rewrite app_length; lia)) as [[S0 S1] _].
    assert (P : Permutation (l ++ zs) (rev l ++ zs)) by apply Permutation_app_tail, Permutation_rev.
    split; [|split; [|exact R2]].
    - intros FA. unfold cout in R0. rewrite FA in R0. exact (re_holds us _ _ _ _ A A FA (Permutation_map fst P) R0 S0).
    - intros FA. unfold cout in R1. rewrite FA in R1. exact (im_holds vs _ _ _ _ A A FA (Permutation_map snd P) R1 S1).
  Qed.
  (** Fresh accumulators and conversion. *)
  Lemma zread_clear (m m' : mem t) X iX N A n : zclear_of X iX N A n -> unchanged_outside A n m m' -> zread m' X iX N = zread m X iX N.
  Proof.
    intros C U. unfold zread. apply map_ext_in. intros i Hi. apply zseq_In in Hi. f_equal.
    - rewrite <- (Z.add_0_r (X + 2 * (i * iX))). apply U, C; auto; lia.
    - apply U, C; auto; lia.
  Qed.
  Lemma zfresh_out k tu N X iX Y iY A (m : mem t) :
    legal_avec (amax_vec tu) -> legal_vec (dep_vec tu) -> 1 <= block_max tu -> nterms k * Z.min N (block_max tu) <= endurance t ->
    0 <= N -> zclear_of X iX N A (zbnum fold) -> zclear_of Y iY N A (zbnum fold) -> nterms k * N <= capacity t ->
    let l := zdata k m X iX Y iY N in
    let m' := zreduce k tu fold N X iX Y iY A 1 (A + 2 * fold) 1 (zbsetzero fold A m) in
    cout0 A [] (map fst l) m' /\ cout1 A [] (map snd l) m'.
  Proof.
    intros LA LV HB HB2 HN CX CY HC l m'. destruct (zsetzero_holds fold Hf A m) as [[Z0 Z1] ZF]. cbv zeta in *.
    unfold m'. set (m0 := zbsetzero fold A m) in *. clearbody m0.
    assert (HA : zacc_at fold [] [] [] m0 A) by (split; [exact Z0|exact Z1]).
    destruct (zreduce_out k tu N X iX Y iY A m0 [] [] [] LA LV HB HB2 HN HA CX CY) as (R0 & R1 & _); [cbn; lia|].
    assert (EL : zdata k m0 X iX Y iY N = l).
    { unfold l, zdata, conj_products, plain_products. rewrite !(zread_clear m m0 _ _ N A (zbnum fold)) by auto. reflexivity. }
    rewrite EL, app_nil_r in R0, R1. split; [exact R0|exact R1].
  Qed.
  (** A part that is finite converts as the real sum of that part. *)
  Lemma cout_conv us xs xs' p c (m m' : mem t) B : all_finite xs = true -> Permutation xs xs' -> Z.of_nat (length xs') <= capacity t ->
    us = [] -> @cout t fold p 2 c 2 us xs m -> ddmconv fold p 2 c 2 m = ddbconv fold B (sum_list fold B xs' m').
  Proof.
    intros FA P HC -> H. unfold cout in H. rewrite FA in H.
    destruct (sum_list_holds fold Hf B xs' m' HC) as [S _].
    exact (ddmconv_perm fold p 2 c 2 B 1 (B + fold) 1 m _ [] xs xs' (proj1 Hf) P H S).
  Qed.
End ZRED.

Section ZCONV.
  Context {t : ty} (fold : Z) (Hf : 2 <= fold <= MAXFOLD t).
  Lemma cout_special us xs p c (m : mem t) : all_finite xs = false -> @cout t fold p 2 c 2 us xs m ->
    ddmconv fold p 2 c 2 m = special xs \/ ddmconv fold p 2 c 2 m = B754_nan.
  Proof.
    intros NF H. unfold cout in H. rewrite NF in H. rewrite ddmconv_special; auto.
    rewrite ISNANINF_fin. destruct H as [-> | ->]; [now rewrite special_fin|reflexivity].
  Qed.
  (** What a reduction into a fresh accumulator converts to. *)
  Lemma zfresh_conv k tu N X iX Y iY A (m : mem t) xs B (m' : mem t) :
    legal_avec (amax_vec tu) -> legal_vec (dep_vec tu) -> 1 <= block_max tu -> nterms k * Z.min N (block_max tu) <= endurance t ->
    0 <= N -> zclear_of X iX N A (zbnum fold) -> zclear_of Y iY N A (zbnum fold) -> nterms k * N <= capacity t ->
    Permutation (zdata k m X iX Y iY N) xs ->
    let r := zzbconv_sub fold A (zreduce k tu fold N X iX Y iY A 1 (A + 2 * fold) 1 (zbsetzero fold A m)) in
    (if all_finite (map fst xs) then fst r = ddbconv fold B (sum_list fold B (map fst xs) m')
     else fst r = special (map fst xs) \/ fst r = B754_nan) /\
    (if all_finite (map snd xs) then snd r = ddbconv fold B (sum_list fold B (map snd xs) m')
     else snd r = special (map snd xs) \/ snd r = B754_nan).
  Proof.
    intros LA LV HB HB2 HN CX CY HC P r.
    destruct (zfresh_out fold Hf k tu N X iX Y iY A m LA LV HB HB2 HN CX CY HC) as [R0 R1].
    pose proof (zdata_length k m X iX Y iY N HN) as LL. set (l := zdata k m X iX Y iY N) in *.
    unfold r, zzbconv_sub, zzmconv_sub. cbn [fst snd]. change (1 * 2) with 2. change (1 + 1) with 2.
    set (mm := zreduce k tu fold N X iX Y iY A 1 (A + 2 * fold) 1 (zbsetzero fold A m)) in *. clearbody mm. clear r.
    assert (HL : Z.of_nat (length xs) <= capacity t) by (rewrite <- (Permutation_length P); lia).
    split.
    - rewrite <- (all_finite_perm _ _ (Permutation_map fst P)), <- (special_perm _ _ (Permutation_map fst P)).
      destruct (all_finite (map fst l)) eqn:FA.
      + apply (cout_conv fold Hf [] _ _ _ _ _ _ B FA (Permutation_map fst P)); auto. now rewrite map_length.
      + now apply (cout_special []).
    - rewrite <- (all_finite_perm _ _ (Permutation_map snd P)), <- (special_perm _ _ (Permutation_map snd P)).
      destruct (all_finite (map snd l)) eqn:FA.
      + apply (cout_conv fold Hf [] _ _ _ _ _ _ B FA (Permutation_map snd P)); auto. now rewrite map_length.
      + now apply (cout_special []).
  Qed.
End ZCONV.

(** ** C46 *)
(** One zbzsum call leaves, in each part whose data are finite, the words of one zbzadd per
    element, whatever the other part contains; nothing but the accumulator is written. *)
Theorem C46_sum_is_adds t tu fold N X incX Y us vs zs (m : mem t) :
  2 <= fold <= MAXFOLD t -> tuned t tu -> 0 <= N -> zclear_of X incX N Y (zbnum fold) ->
  zacc_at fold us vs zs m Y -> N + Z.of_nat (length zs) <= CAPACITY t ->
  let xs := zread m X incX N in
  let m' := zbzsum tu fold N X incX Y m in
  (all_finite (map fst (xs ++ zs)) = true -> re_words fold m' Y (zadd_list fold Y xs m) Y) /\
  (all_finite (map snd (xs ++ zs)) = true -> im_words fold m' Y (zadd_list fold Y xs m) Y) /\
  unchanged_outside Y (zbnum fold) m m'.
Proof.
  intros Hf HT HN CX HA HC. rewrite CAPACITY_eq in HC. destruct (tuned_legal t tu HT) as (LB & LA & LV).
  apply (zreduce_adds fold Hf ZSum tu N X incX X incX Y m us vs zs); auto; try lia; cbn [nterms]; lia.
Qed.
Print Assumptions C46_sum_is_adds.
(** The converted sum: each finite part is the real sum of that part of the data in any order
    (so independent of order, stride, block size, lanes and of the other part); a part
    with infinities or NaN gives their sum (Spec.special) or NaN. *)
Theorem C46_rzsum t tu fold N X incX tmp B (xs : list (F t * F t)) (m m' : mem t) :
  2 <= fold <= MAXFOLD t -> tuned t tu -> 0 <= N <= CAPACITY t -> zclear_of X incX N tmp (zbnum fold) ->
  Permutation (zread m X incX N) xs ->
  let r := rzsum tu fold N X incX tmp m in
  (if all_finite (map fst xs) then fst r = ddbconv fold B (sum_list fold B (map fst xs) m')
   else fst r = special (map fst xs) \/ fst r = B754_nan) /\
  (if all_finite (map snd xs) then snd r = ddbconv fold B (sum_list fold B (map snd xs) m')
   else snd r = special (map snd xs) \/ snd r = B754_nan).
Proof.
  intros Hf HT HN CX HP. rewrite CAPACITY_eq in HN. destruct (tuned_legal t tu HT) as (LB & LA & LV).
  apply (zfresh_conv fold Hf ZSum tu N X incX X incX tmp m xs B m'); auto; try lia; cbn [nterms]; lia.
Qed.
Print Assumptions C46_rzsum.
Theorem C46_order_independent t tu tu' fold N X incX X' incX' tmp tmp' (m m' : mem t) :
  2 <= fold <= MAXFOLD t -> tuned t tu -> tuned t tu' -> 0 <= N <= CAPACITY t ->
  zclear_of X incX N tmp (zbnum fold) -> zclear_of X' incX' N tmp' (zbnum fold) ->
  zfinite (zread m X incX N) = true -> Permutation (zread m X incX N) (zread m' X' incX' N) ->
  rzsum tu fold N X incX tmp m = rzsum tu' fold N X' incX' tmp' m'.
Proof.
  intros Hf HT HT' HN CX CX' FX HP. apply andb_true_iff in FX. destruct FX as [FR FI].
  destruct (C46_rzsum t tu fold N X incX tmp 0 (zread m X incX N) m m Hf HT HN CX (Permutation_refl _)) as [A0 A1].
  destruct (C46_rzsum t tu' fold N X' incX' tmp' 0 (zread m X incX N) m' m Hf HT' HN CX' (Permutation_sym HP)) as [B0 B1].
  rewrite FR in A0, B0. rewrite FI in A1, B1.
  destruct (rzsum tu fold N X incX tmp m) as [r0 r1]. destruct (rzsum tu' fold N X' incX' tmp' m') as [s0 s1].
  cbn [fst snd] in *. congruence.
Qed.
Print Assumptions C46_order_independent.
(** Two complex numbers at 0 and 4, with an infinite imaginary part. *)
Definition zcase_mem : mem Dbl := fun a =>
  if a =? 0 then mkf 3 890 else if a =? 1 then mkf 5 (-1000) else
  if a =? 4 then mkf (-7) 850 else if a =? 5 then B754_infinity true else fzero.
Example C46_case : tuned Dbl sample_tuning /\ zclear_of 0 2 2 100 (zbnum 3) /\
  zacc_at 3 [] [] [] (zbsetzero 3 100 zcase_mem) 100 /\
  all_finite (map fst (zread zcase_mem 0 2 2)) = true /\ all_finite (map snd (zread zcase_mem 0 2 2)) = false /\
  feq (fst (rzsum sample_tuning 3 2 0 2 100 zcase_mem)) (mkf (3 * 2 ^ 40 - 7) 850) = true /\
  is_ninf (snd (rzsum sample_tuning 3 2 0 2 100 zcase_mem)) = true.
Proof.
  split; [apply C18_case|]. split; [intros i o Hi Ho; unfold zbnum; lia|].
  split; [|repeat split; vm_compute; reflexivity].
  destruct (zsetzero_holds (t := Dbl) 3 ltac:(vm_compute; split; discriminate) 100 zcase_mem) as [[A B] _]. split; [exact A|exact B].
Qed.

(** ** C29 *)
(** With blocks of at most half the endurance (a smaller block size, or a vector shorter than
    that) the dot products do what the property says: each part whose products (and previous contents) are finite gets the words of
    two zbzadd calls per pair.  Missing for the full property: longer vectors with block sizes
    between ENDURANCE / 2 and ENDURANCE, which the argument files allow and contain (C29_refuted). *)
Theorem C29_dotc_partial t tu fold N X incX Y incY A us vs zs (m : mem t) :
  2 <= fold <= MAXFOLD t -> tuned t tu -> Z.min N (block_max tu) <= ENDURANCE t / 2 -> 0 <= N ->
  zclear_of X incX N A (zbnum fold) -> zclear_of Y incY N A (zbnum fold) ->
  zacc_at fold us vs zs m A -> 2 * N + Z.of_nat (length zs) <= CAPACITY t ->
  let xs := conj_products m X incX Y incY N in
  let m' := zbzdotc tu fold N X incX Y incY A m in
  (all_finite (map fst (xs ++ zs)) = true -> re_words fold m' A (zadd_list fold A xs m) A) /\
  (all_finite (map snd (xs ++ zs)) = true -> im_words fold m' A (zadd_list fold A xs m) A) /\
  unchanged_outside A (zbnum fold) m m'.
Proof.
  intros Hf HT HB HN CX CY HA HC. rewrite CAPACITY_eq in HC. destruct (tuned_legal t tu HT) as (LB & LA & LV).
  rewrite ENDURANCE_eq in HB. pose proof (Z.mul_div_le (endurance t) 2 ltac:(lia)) as HE.
  apply (zreduce_adds fold Hf ZDotC tu N X incX Y incY A m us vs zs); auto; try lia; cbn [nterms]; lia.
Qed.
Print Assumptions C29_dotc_partial.
Theorem C29_dotu_partial t tu fold N X incX Y incY A us vs zs (m : mem t) :
  2 <= fold <= MAXFOLD t -> tuned t tu -> Z.min N (block_max tu) <= ENDURANCE t / 2 -> 0 <= N ->
  zclear_of X incX N A (zbnum fold) -> zclear_of Y incY N A (zbnum fold) ->
  zacc_at fold us vs zs m A -> 2 * N + Z.of_nat (length zs) <= CAPACITY t ->
  let xs := plain_products m X incX Y incY N in
  let m' := zbzdotu tu fold N X incX Y incY A m in
  (all_finite (map fst (xs ++ zs)) = true -> re_words fold m' A (zadd_list fold A xs m) A) /\
  (all_finite (map snd (xs ++ zs)) = true -> im_words fold m' A (zadd_list fold A xs m) A) /\
  unchanged_outside A (zbnum fold) m m'.
Proof.
  intros Hf HT HB HN CX CY HA HC. rewrite CAPACITY_eq in HC. destruct (tuned_legal t tu HT) as (LB & LA & LV).
  rewrite ENDURANCE_eq in HB. pose proof (Z.mul_div_le (endurance t) 2 ltac:(lia)) as HE.
  apply (zreduce_adds fold Hf ZDotU tu N X incX Y incY A m us vs zs); auto; try lia; cbn [nterms]; lia.
Qed.
Print Assumptions C29_dotu_partial.
(** The converted results, for any order of the products. *)
Theorem C29_rzdotc_partial t tu fold N X incX Y incY tmp B (xs : list (F t * F t)) (m m' : mem t) :
  2 <= fold <= MAXFOLD t -> tuned t tu -> Z.min N (block_max tu) <= ENDURANCE t / 2 -> 0 <= 2 * N <= CAPACITY t ->
  zclear_of X incX N tmp (zbnum fold) -> zclear_of Y incY N tmp (zbnum fold) ->
  Permutation (conj_products m X incX Y incY N) xs ->
  let r := rzdotc tu fold N X incX Y incY tmp m in
  (if all_finite (map fst xs) then fst r = ddbconv fold B (sum_list fold B (map fst xs) m')
   else fst r = special (map fst xs) \/ fst r = B754_nan) /\
  (if all_finite (map snd xs) then snd r = ddbconv fold B (sum_list fold B (map snd xs) m')
   else snd r = special (map snd xs) \/ snd r = B754_nan).
Proof.
  intros Hf HT HB HN CX CY HP. rewrite CAPACITY_eq in HN. destruct (tuned_legal t tu HT) as (LB & LA & LV).
  rewrite ENDURANCE_eq in HB. pose proof (Z.mul_div_le (endurance t) 2 ltac:(lia)) as HE.
  apply (zfresh_conv fold Hf ZDotC tu N X incX Y incY tmp m xs B m'); auto; try lia; cbn [nterms]; lia.
Qed.
Print Assumptions C29_rzdotc_partial.
Theorem C29_rzdotu_partial t tu fold N X incX Y incY tmp B (xs : list (F t * F t)) (m m' : mem t) :
  2 <= fold <= MAXFOLD t -> tuned t tu -> Z.min N (block_max tu) <= ENDURANCE t / 2 -> 0 <= 2 * N <= CAPACITY t ->
  zclear_of X incX N tmp (zbnum fold) -> zclear_of Y incY N tmp (zbnum fold) ->
  Permutation (plain_products m X incX Y incY N) xs ->
  let r := rzdotu tu fold N X incX Y incY tmp m in
  (if all_finite (map fst xs) then fst r = ddbconv fold B (sum_list fold B (map fst xs) m')
   else fst r = special (map fst xs) \/ fst r = B754_nan) /\
  (if all_finite (map snd xs) then snd r = ddbconv fold B (sum_list fold B (map snd xs) m')
   else snd r = special (map snd xs) \/ snd r = B754_nan).
Proof.
  intros Hf HT HB HN CX CY HP. rewrite CAPACITY_eq in HN. destruct (tuned_legal t tu HT) as (LB & LA & LV).
  rewrite ENDURANCE_eq in HB. pose proof (Z.mul_div_le (endurance t) 2 ltac:(lia)) as HE.
  apply (zfresh_conv fold Hf ZDotU tu N X incX Y incY tmp m xs B m'); auto; try lia; cbn [nterms]; lia.
Qed.
Print Assumptions C29_rzdotu_partial.
(** Permuting both vectors together does not change the dot product. *)
Lemma flat_map_perm {A B} (f : A -> list B) l l' : Permutation l l' -> Permutation (flat_map f l) (flat_map f l').
Proof.
  induction 1; cbn [flat_map]; auto.
  - now apply Permutation_app_head.
  - rewrite !app_assoc. apply Permutation_app_tail, Permutation_app_comm.
  - etransitivity; eauto.
Qed.
Theorem C29_order_independent_partial t tu tu' fold N X incX Y incY X' incX' Y' incY' tmp tmp' (m m' : mem t) :
  2 <= fold <= MAXFOLD t -> tuned t tu -> tuned t tu' ->
  Z.min N (block_max tu) <= ENDURANCE t / 2 -> Z.min N (block_max tu') <= ENDURANCE t / 2 -> 0 <= 2 * N <= CAPACITY t ->
  zclear_of X incX N tmp (zbnum fold) -> zclear_of Y incY N tmp (zbnum fold) ->
  zclear_of X' incX' N tmp' (zbnum fold) -> zclear_of Y' incY' N tmp' (zbnum fold) ->
  Permutation (combine (zread m X incX N) (zread m Y incY N)) (combine (zread m' X' incX' N) (zread m' Y' incY' N)) ->
  (zfinite (conj_products m X incX Y incY N) = true ->
   rzdotc tu fold N X incX Y incY tmp m = rzdotc tu' fold N X' incX' Y' incY' tmp' m') /\
  (zfinite (plain_products m X incX Y incY N) = true ->
   rzdotu tu fold N X incX Y incY tmp m = rzdotu tu' fold N X' incX' Y' incY' tmp' m').
Proof.
  intros Hf HT HT' HB HB' HN CX CY CX' CY' HP. split; intros FX; apply andb_true_iff in FX; destruct FX as [FR FI].
  - assert (HP' : Permutation (conj_products m' X' incX' Y' incY' N) (conj_products m X incX Y incY N)) by (symmetry; now apply flat_map_perm).
    destruct (C29_rzdotc_partial t tu fold N X incX Y incY tmp 0 _ m m Hf HT HB HN CX CY (Permutation_refl _)) as [A0 A1].
    destruct (C29_rzdotc_partial t tu' fold N X' incX' Y' incY' tmp' 0 _ m' m Hf HT' HB' HN CX' CY' HP') as [B0 B1].
    rewrite FR in A0, B0. rewrite FI in A1, B1.
    destruct (rzdotc tu fold N X incX Y incY tmp m) as [r0 r1]. destruct (rzdotc tu' fold N X' incX' Y' incY' tmp' m') as [s0 s1].
    cbn [fst snd] in *. congruence.
  - assert (HP' : Permutation (plain_products m' X' incX' Y' incY' N) (plain_products m X incX Y incY N)) by (symmetry; now apply flat_map_perm).
    destruct (C29_rzdotu_partial t tu fold N X incX Y incY tmp 0 _ m m Hf HT HB HN CX CY (Permutation_refl _)) as [A0 A1].
    destruct (C29_rzdotu_partial t tu' fold N X' incX' Y' incY' tmp' 0 _ m' m Hf HT' HB' HN CX' CY' HP') as [B0 B1].
    rewrite FR in A0, B0. rewrite FI in A1, B1.
    destruct (rzdotu tu fold N X incX Y incY tmp m) as [r0 r1]. destruct (rzdotu tu' fold N X' incX' Y' incY' tmp' m') as [s0 s1].
    cbn [fst snd] in *. congruence.
Qed.
Print Assumptions C29_order_independent_partial.
Definition zdot_mem : mem Dbl := fun a =>
  if a =? 0 then mkf 3 400 else if a =? 1 then mkf 5 350 else if a =? 2 then mkf 1 0 else if a =? 3 then mkf (-1) 0 else
  if a =? 10 then mkf 7 200 else if a =? 11 then mkf (-1) 190 else if a =? 12 then mkf 1 (-300) else fzero.
Definition half_tuning : tuning := file_tuning Dbl true 4 2 64 8 3 6.
Example C29_case : tuned Dbl half_tuning /\ block_max half_tuning <= ENDURANCE Dbl / 2 /\ zclear_of 0 1 2 100 (zbnum 3) /\
  zclear_of 10 1 2 100 (zbnum 3) /\ zfinite (conj_products zdot_mem 0 1 10 1 2) = true /\
  feq (snd (rzdotc half_tuning 3 2 0 1 10 1 100 zdot_mem)) (mkf (- (35 * 2 ^ 10 + 3 * 2 ^ 50)) 540) = true.
Proof.
  split; [apply C18_argument_files; [right; exists 2; vm_compute; split; congruence|right; exists 1; vm_compute; split; congruence|lia]|].
  split; [vm_compute; discriminate|]. split; [intros i o Hi Ho; unfold zbnum; lia|]. split; [intros i o Hi Ho; unfold zbnum; lia|].
  split; vm_compute; reflexivity.
Qed.
(** The property as stated is false: with the block size 512 that the argument file of cmcdotc
    selects, 1024 deposits (twice the endurance) are made without renormalisation, and the
    dot product of two vectors whose products are all positive comes out negative; with
    block size 256 the same data give another number. *)
Definition over_mem : mem Flt := fun a =>
  if a <? 1000 then fzero else if a <? 10000 then mkf (2 ^ 24 - 1) (-13) else mkf 1 0.
Definition scalar_tuning (block : Z) : tuning := file_tuning Flt false 0 0 block 1 1 1.
Theorem C29_refuted : exists tu tu' fold N X Y tmp (m : mem Flt),
  2 <= fold <= MAXFOLD Flt /\ tuned Flt tu /\ tuned Flt tu' /\ 0 <= 2 * N <= CAPACITY Flt /\
  zclear_of X 1 N tmp (zbnum fold) /\ zclear_of Y 1 N tmp (zbnum fold) /\
  zfinite (conj_products m X 1 Y 1 N) = true /\
  forallb (fun z => flt fzero (fst z)) (conj_products m X 1 Y 1 N) = true /\
  flt (fst (rzdotc tu fold N X 1 Y 1 tmp m)) fzero = true /\
  flt fzero (fst (rzdotc tu' fold N X 1 Y 1 tmp m)) = true.
Proof.
  exists (scalar_tuning 512), (scalar_tuning 256), 2, 512, 2000, 20000, 0, over_mem.
  split; [vm_compute; split; discriminate|].
  split; [apply C18_argument_files; [left; reflexivity|left; reflexivity|discriminate]|].
  split; [apply C18_argument_files; [left; reflexivity|left; reflexivity|discriminate]|].
  split; [vm_compute; split; discriminate|].
  split; [intros i o Hi Ho; unfold zbnum; lia|]. split; [intros i o Hi Ho; unfold zbnum; lia|].
  split; [vm_compute; reflexivity|]. split; [vm_compute; reflexivity|].
  split; vm_compute; reflexivity.
Qed.
Print Assumptions C29_refuted.
