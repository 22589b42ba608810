(** * C43, C27: merging scaled sums of squares *)
From Coq Require Import ZArith Bool List Lia Permutation Reals Lra.
From Flocq Require Import Core BinarySingleNaN.
From Verif Require Import Fp Mem Binned Spec FpProofs BitProofs CoreArith SpecProofs WordProofs MemProofs AccProofs SumProofs ConvProofs Client History ClientProofs PropsSum PropsAcc Gen GenProofs Params ParamsProofs PropsGen Blas LaneProofs ReduceProofs DriverProofs BlasSpec PropsBlas GemvSpec GemvProofs Mpi MpiSpec PropsMpi ScaleProofs RescaleProofs Ssq SsqProofs SsqSpec MaddsqProofs PropsSsq.
Import ListNotations.
Open Scope Z_scope.

Lemma apart_disjoint fold X Y : 0 <= fold -> apart (dbnum fold) X Y -> disjoint (in_acc fold X 1 (X + fold) 1) (in_acc fold Y 1 (Y + fold) 1).
Proof. intros Hf H. apply disjoint_contig; auto. Qed.

Section MERGE.
  Context {t : ty} (fold : Z) (Hf : 2 <= fold <= ssq_fold t).
  Let H2 := proj1 (ssq_fold_ok t fold Hf).
  Let Hs := proj1 (proj2 (ssq_fold_ok t fold Hf)).
  Let HM := proj2 (proj2 (ssq_fold_ok t fold Hf)).
  Lemma merge_ssq xs ys scX scY X Y T (m : mem t) :
    apart (dbnum fold) X Y -> apart (dbnum fold) T X -> apart (dbnum fold) T Y ->
    all_finite xs = true -> all_finite ys = true -> ssq_at fold xs scX m X -> ssq_at fold ys scY m Y ->
    Z.of_nat (length (xs ++ ys)) <= capacity t ->
    let r := dbdbaddsq fold scX X scY Y T m in
    ssq_at fold (xs ++ ys) (fst r) (snd r) Y /\
    (forall a, ~ (Y <= a < Y + dbnum fold) -> ~ (T <= a < T + dbnum fold) -> snd r a = m a).
  Proof.
    intros AXY ATX ATY FX FY SX SY HC r.
    assert (FA : all_finite (xs ++ ys) = true) by (rewrite all_finite_app, FX; exact FY).
    apply ssq_at_out in SX, SY; auto. unfold ssq_out in SX, SY. rewrite FX in SX. rewrite FY in SY. destruct SX as [GX HX], SY as [GY HY].
    destruct (maddsq_fin (layout_contig fold Y ltac:(lia)) H2 Hs T (pX := X) (ipX := 1) (cX := X + fold) (icX := 1)
      (apart_disjoint fold X Y ltac:(lia) AXY) (apart_disjoint fold T Y ltac:(lia) ATY)
      (apart_disjoint fold X T ltac:(lia) ltac:(unfold apart in *; lia)) m scX scY xs ys GX GY FX FY HX HY HC) as (R1 & R2 & R3).
    fold (dbdbaddsq fold scX X scY Y T m) in R1, R2, R3. fold r in R1, R2, R3. split.
    - apply ssq_at_out; auto. unfold ssq_out. rewrite FA. auto.
    - intros a Ha Ht. apply R3; rewrite in_acc_contig by lia; auto.
  Qed.
  Lemma ssq_frame xs sc (m m' : mem t) Y : (forall a, Y <= a < Y + dbnum fold -> m' a = m a) -> ssq_at fold xs sc m Y -> ssq_at fold xs sc m' Y.
  Proof.
    intros E [G H]. split; auto. eapply (acc_at_frame fold HM); [|exact H]. exact E.
  Qed.
  Lemma seval_holds u : forall next (m : mem t) lim,
    (forall q, In q (spieces u) -> piece_ok t q /\ clear_of (p_X q) (p_inc q) (p_N q) next (lim - next)) ->
    all_finite (all_data m (spieces u)) = true -> Z.of_nat (length (all_data m (spieces u))) <= capacity t ->
    let '(s, a, n, m') := seval fold u next m in
    n <= lim ->
    next <= a /\ a + dbnum fold <= n /\
    (exists l, ssq_at fold l s m' a /\ Permutation l (all_data m (spieces u))) /\
    unchanged_outside next (n - next) m m'.
  Proof.
    assert (NXT : forall u next (m : mem t), let '(_, a, n, _) := seval fold u next m in next <= a /\ a + dbnum fold <= n).
    { clear -Hf. induction u as [|q u IH|l IHl r IHr|l IHl r IHr]; intros next m; cbn [seval].
      - lia.
      - specialize (IH next m). destruct (seval fold u next m) as [[[s a] n] m1]. destruct (dbdssq _ _ _ _ _ _ _ _). exact IH.
      - specialize (IHl next m). destruct (seval fold l next m) as [[[s a] n] m1]. specialize (IHr n m1).
        destruct (seval fold r n m1) as [[[s' b] n'] m2]. destruct (dbdbaddsq _ _ _ _ _ _ _). unfold dbnum in *. lia.
      - specialize (IHl next m). destruct (seval fold l next m) as [[[s a] n] m1]. specialize (IHr n m1).
        destruct (seval fold r n m1) as [[[s' b] n'] m2]. destruct (dbdbaddsq _ _ _ _ _ _ _). unfold dbnum in *. lia. }
    assert (SUB : forall q next lim a n, clear_of (p_X q) (p_inc q) (p_N q) next (lim - next) -> next <= a -> a + n <= lim ->
      clear_of (p_X q) (p_inc q) (p_N q) a n).
    { intros q next lim a n H H1 H3 i Hi. specialize (H i Hi). lia. }
    assert (MERGE : forall l r (m : mem t) next lim,
      (forall next (m : mem t) lim,
        (forall q, In q (spieces l) -> piece_ok t q /\ clear_of (p_X q) (p_inc q) (p_N q) next (lim - next)) ->
        all_finite (all_data m (spieces l)) = true -> Z.of_nat (length (all_data m (spieces l))) <= capacity t ->
        let '(s, a, n, m') := seval fold l next m in n <= lim -> next <= a /\ a + dbnum fold <= n /\
        (exists l0, ssq_at fold l0 s m' a /\ Permutation l0 (all_data m (spieces l))) /\ unchanged_outside next (n - next) m m') ->
      (forall next (m : mem t) lim,
        (forall q, In q (spieces r) -> piece_ok t q /\ clear_of (p_X q) (p_inc q) (p_N q) next (lim - next)) ->
        all_finite (all_data m (spieces r)) = true -> Z.of_nat (length (all_data m (spieces r))) <= capacity t ->
        let '(s, a, n, m') := seval fold r next m in n <= lim -> next <= a /\ a + dbnum fold <= n /\
        (exists l0, ssq_at fold l0 s m' a /\ Permutation l0 (all_data m (spieces r))) /\ unchanged_outside next (n - next) m m') ->
      (forall q, In q (spieces l ++ spieces r) -> piece_ok t q /\ clear_of (p_X q) (p_inc q) (p_N q) next (lim - next)) ->
      all_finite (all_data m (spieces l ++ spieces r)) = true -> Z.of_nat (length (all_data m (spieces l ++ spieces r))) <= capacity t ->
      let '(s, a, n, m1) := seval fold l next m in let '(s', b, n', m2) := seval fold r n m1 in
      n' + dbnum fold <= lim ->
      next <= a /\ a + dbnum fold <= n /\ n <= b /\ b + dbnum fold <= n' /\
      exists la lb, ssq_at fold la s m2 a /\ ssq_at fold lb s' m2 b /\ Permutation (la ++ lb) (all_data m (spieces l ++ spieces r)) /\
        all_finite la = true /\ all_finite lb = true /\ Z.of_nat (length la) + Z.of_nat (length lb) <= capacity t /\ unchanged_outside next (n' - next) m m2).
    { intros l r m next lim IHl IHr HQ FX HC. unfold all_data in FX, HC |- *. rewrite flat_map_app in FX, HC |- *.
      fold (all_data m (spieces l)) in FX, HC |- *. fold (all_data m (spieces r)) in FX, HC |- *.
      rewrite all_finite_app in FX. apply andb_true_iff in FX. destruct FX as [FX1 FX2]. rewrite app_length in HC.
      pose proof (NXT l next m) as NL.
      specialize (IHl next m lim (fun q' I => HQ q' (in_or_app _ _ _ (or_introl I))) FX1 ltac:(lia)).
      destruct (seval fold l next m) as [[[s a] n] m1].
      pose proof (NXT r n m1) as NR.
      specialize (IHr n m1 lim). destruct (seval fold r n m1) as [[[s' b] n'] m2]. intros Hlim.
      assert (LN : n <= lim) by (unfold dbnum in *; lia).
      destruct (IHl LN) as (A1 & A2 & (la & A3 & A4) & A5).
      assert (ED : all_data m1 (spieces r) = all_data m (spieces r)).
      { apply all_data_same. intros q I. eapply piece_clear; [|exact A5]. eapply SUB; [apply HQ; apply in_or_app; now right|lia|unfold dbnum in *; lia]. }
      rewrite ED in IHr. destruct IHr as (B1 & B2 & (lb & B3 & B4) & B5); auto; try (unfold dbnum in *; lia).
      { intros q I. destruct (HQ q (in_or_app _ _ _ (or_intror I))) as [K1 K2]. split; auto. eapply SUB; eauto; unfold dbnum in *; lia. }
      split; [lia|]. split; [lia|]. split; [lia|]. split; [lia|]. exists la, lb.
      split; [eapply ssq_frame; [|exact A3]; intros x Hx; apply B5; unfold dbnum in *; lia|].
      split; [exact B3|]. split; [now apply Permutation_app|].
      split; [now rewrite (all_finite_perm _ _ A4)|]. split; [now rewrite (all_finite_perm _ _ B4)|].
      split; [rewrite (Permutation_length A4), (Permutation_length B4); lia|].
      intros x Hx. unfold dbnum in *. rewrite B5 by lia. apply A5. lia. }
    induction u as [|q u IH|l IHl r IHr|l IHl r IHr]; intros next m lim HQ FX HC; cbn [seval spieces] in *.
    - destruct (ssq_start_state fold Hf next m) as [H F]. intros _. split; [lia|]. split; [lia|]. split.
      + exists []. split; [exact H|reflexivity].
      + intros x Hx. apply F. lia.
    - cbn [all_data flat_map] in FX, HC. fold (all_data m (spieces u)) in FX, HC.
      rewrite all_finite_app in FX. apply andb_true_iff in FX. destruct FX as [FX1 FX2]. rewrite app_length in HC.
      specialize (IH next m lim (fun q' I => HQ q' (or_intror I)) FX2 ltac:(lia)).
      destruct (seval fold u next m) as [[[s a] n] m1].
      pose proof (ssq_call fold Hf (p_tu q) (p_N q) (p_X q) (p_inc q) a) as SC.
      destruct (HQ q (or_introl eq_refl)) as [[HT HN] CX].
      destruct (dbdssq (p_tu q) fold (p_N q) (p_X q) (p_inc q) s a m1) as [s2 m2] eqn:ER.
      intros Hlim. destruct (IH Hlim) as (A1 & A2 & (l & A3 & A4) & A5).
      assert (CA : clear_of (p_X q) (p_inc q) (p_N q) a (dbnum fold)) by (eapply SUB; eauto; lia).
      assert (ED : piece_data m1 q = piece_data m q) by (eapply piece_clear; [|exact A5]; eapply SUB; eauto; lia).
      assert (FL : all_finite l = true) by (now rewrite (all_finite_perm _ _ A4)).
      destruct (SC l (s, m1) HT HN CA) as [R1 R2].
      { unfold sstate. rewrite FL. exact A3. }
      { cbn [snd]. fold (piece_data m1 q). rewrite app_length, ED, (Permutation_length A4). lia. }
      cbn [fst snd] in R1, R2. rewrite ER in R1, R2. fold (piece_data m1 q) in R1. rewrite ED in R1.
      assert (FA : all_finite (piece_data m q ++ l) = true) by (rewrite all_finite_app, FX1; exact FL).
      unfold sstate in R1. rewrite FA in R1. cbn [fst snd] in R1, R2.
      split; [exact A1|]. split; [exact A2|]. split.
      + exists (piece_data m q ++ l). split; [exact R1|]. cbn [all_data flat_map]. fold (all_data m (spieces u)).
        now apply Permutation_app_head.
      + intros x Hx. etransitivity; [apply R2; lia|apply A5; exact Hx].
    - specialize (MERGE l r m next lim IHl IHr HQ FX HC). destruct (seval fold l next m) as [[[s a] n] m1].
      destruct (seval fold r n m1) as [[[s' b] n'] m2].
      pose proof (fun la lb => merge_ssq lb la s' s b a n' m2) as MS.
      destruct (dbdbaddsq fold s' b s a n' m2) as [s3 m3]. intros Hlim.
      destruct (MERGE Hlim) as (A1 & A2 & A3 & A4 & la & lb & A5 & A6 & A7 & A8 & A9 & A10 & A11).
      destruct (MS la lb) as [M1 M2]; auto; try (unfold apart, dbnum in *; lia); [rewrite app_length; lia|].
      cbn [fst snd] in M1, M2. split; [lia|]. split; [unfold dbnum in *; lia|]. split.
      + exists (lb ++ la). split; [exact M1|]. rewrite Permutation_app_comm. exact A7.
      + intros x Hx. unfold dbnum in *. rewrite M2 by lia. apply A11. lia.
    - specialize (MERGE l r m next lim IHl IHr HQ FX HC). destruct (seval fold l next m) as [[[s a] n] m1].
      destruct (seval fold r n m1) as [[[s' b] n'] m2].
      pose proof (fun la lb => merge_ssq la lb s s' a b n' m2) as MS.
      destruct (dbdbaddsq fold s a s' b n' m2) as [s3 m3]. intros Hlim.
      destruct (MERGE Hlim) as (A1 & A2 & A3 & A4 & la & lb & A5 & A6 & A7 & A8 & A9 & A10 & A11).
      destruct (MS la lb) as [M1 M2]; auto; try (unfold apart, dbnum in *; lia); [rewrite app_length; lia|].
      cbn [fst snd] in M1, M2. split; [unfold dbnum in *; lia|]. split; [unfold dbnum in *; lia|]. split.
      + exists (la ++ lb). split; [exact M1|]. exact A7.
      + intros x Hx. unfold dbnum in *. rewrite M2 by lia. apply A11. lia.
  Qed.
End MERGE.

(** binned_dbdbaddsq: merging the scaled accumulators of xs and ys gives that of both. *)
Theorem C43_merge t fold X Y tmp xs ys scaleX scaleY (m : mem t) :
  2 <= fold <= ssq_fold t -> apart (dbnum fold) X Y -> apart (dbnum fold) tmp X -> apart (dbnum fold) tmp Y ->
  all_finite xs = true -> all_finite ys = true -> ssq_at fold xs scaleX m X -> ssq_at fold ys scaleY m Y ->
  Z.of_nat (length (xs ++ ys)) <= CAPACITY t ->
  let '(scale, m') := dbdbaddsq fold scaleX X scaleY Y tmp m in
  ssq_at fold (xs ++ ys) scale m' Y /\
  (forall a, ~ (Y <= a < Y + dbnum fold) -> ~ (tmp <= a < tmp + dbnum fold) -> m' a = m a).
Proof.
  intros Hf A1 A2 A3 FX FY SX SY HC. rewrite CAPACITY_eq in HC.
  destruct (merge_ssq fold Hf xs ys scaleX scaleY X Y tmp m) as [R1 R2]; auto.
  destruct (dbdbaddsq fold scaleX X scaleY Y tmp m). auto.
Qed.
Print Assumptions C43_merge.
(** Any tree of partial sums of squares over pieces of the data, merged in any order and
    either way round: scale and words of one dbdssq call over all the data. *)
Theorem C43_tree t tu fold N X incX Y (u : stree) next (m m' : mem t) :
  2 <= fold <= ssq_fold t -> tuned t tu -> 0 <= N <= CAPACITY t -> clear_of X incX N Y (dbnum fold) ->
  let '(scale, a, n, m1) := seval fold u next m in
  (forall q, In q (spieces u) -> piece_ok t q /\ clear_of (p_X q) (p_inc q) (p_N q) next (n - next)) ->
  all_finite (read m' X incX N) = true -> Permutation (read m' X incX N) (all_data m (spieces u)) ->
  same_scaled fold (scale, m1) a (dbdssq tu fold N X incX fzero Y (dbsetzero fold Y m')) Y.
Proof.
  intros Hf HT HN CX. rewrite CAPACITY_eq in HN. pose proof (read_length m' X incX N ltac:(lia)) as LR.
  pose proof (seval_holds fold Hf u next m) as SE.
  destruct (seval fold u next m) as [[[s a] n] m1]. intros HQ FX HP.
  destruct (SE n HQ) as (A1 & A2 & (l & A3 & A4) & A5).
  { now rewrite <- (all_finite_perm _ _ HP). }
  { rewrite <- (Permutation_length HP). lia. }
  { lia. }
  destruct (ssq_fresh fold Hf tu N X incX Y m' HT HN CX) as [S _].
  assert (PL : Permutation (read m' X incX N) l) by (rewrite A4; exact HP).
  apply (sstate_perm fold _ _ _ _ PL) in S. rewrite (all_finite_perm _ _ PL) in FX.
  apply (sstate_same fold Hf l); auto. unfold sstate. now rewrite FX.
Qed.
Print Assumptions C43_tree.
(** So a norm computed from merged partial results is the norm of all the data. *)
Theorem C43_distributed_norm t tu fold N X incX tmp (u : stree) next (m m' : mem t) :
  2 <= fold <= ssq_fold t -> tuned t tu -> 0 <= N <= CAPACITY t -> clear_of X incX N tmp (dbnum fold) ->
  let '(scale, a, n, m1) := seval fold u next m in
  (forall q, In q (spieces u) -> piece_ok t q /\ clear_of (p_X q) (p_inc q) (p_N q) next (n - next)) ->
  all_finite (read m' X incX N) = true -> Permutation (read m' X incX N) (all_data m (spieces u)) ->
  scaled_root scale (ddbconv fold a m1) = rdnrm2 tu fold N X incX tmp m'.
Proof.
  intros Hf HT HN CX. pose proof (proj2 (proj2 (ssq_fold_ok t fold Hf))) as HM.
  pose proof HN as HN'. rewrite CAPACITY_eq in HN'. pose proof (read_length m' X incX N ltac:(lia)) as LR.
  pose proof (seval_holds fold Hf u next m) as SE.
  destruct (seval fold u next m) as [[[s a] n] m1]. intros HQ FX HP.
  destruct (SE n HQ) as (A1 & A2 & (l & A3 & A4) & A5).
  { now rewrite <- (all_finite_perm _ _ HP). }
  { rewrite <- (Permutation_length HP). lia. }
  { lia. }
  destruct (ssq_fresh fold Hf tu N X incX tmp m' HT HN' CX) as [S _].
  assert (PL : Permutation (read m' X incX N) l) by (rewrite A4; exact HP).
  apply (sstate_perm fold _ _ _ _ PL) in S. rewrite (all_finite_perm _ _ PL) in FX.
  assert (S' : sstate fold l (s, m1) a) by (unfold sstate; now rewrite FX).
  pose proof (sstate_same fold Hf l _ _ _ _ FX S' S) as [E _]. unfold rdnrm2.
  destruct (dbdssq tu fold N X incX fzero tmp (dbsetzero fold tmp m')) as [sc m2]. cbn [fst] in E. subst sc. f_equal.
  unfold sstate in S. rewrite FX in S. destruct S as [_ S], A3 as [_ A3]. cbn [fst snd] in *.
  exact (conv_acc fold HM [] _ [] _ _ _ _ _ (perm_nil _) (Permutation_refl _) A3 S).
Qed.
Print Assumptions C43_distributed_norm.

(** Data with infinities or NaNs.  A NaN is never lost. *)
Lemma scaled_operand {t} fold (xs : list (F t)) sc m Y : scaled_at fold xs sc m Y ->
  operand (fold := fold) (p := Y) (ip := 1) (c := Y + fold) (ic := 1) xs sc m.
Proof.
  unfold scaled_at, operand. destruct (all_finite xs) eqn:F.
  - intros H. apply ssq_at_out in H; auto. unfold ssq_out in H. now rewrite F in H.
  - intros [H (M & ->)]. rewrite special_fabs by auto. split; auto. exists (scale_z M). split; [apply scale_z_range|apply dscale_eq].
Qed.
Lemma scaled_special t fold X Y tmp (xs ys : list (F t)) scaleX scaleY (m : mem t) :
  2 <= fold <= ssq_fold t -> apart (dbnum fold) X Y -> apart (dbnum fold) tmp X -> apart (dbnum fold) tmp Y ->
  scaled_at fold xs scaleX m X -> scaled_at fold ys scaleY m Y -> all_finite (xs ++ ys) = false ->
  Z.of_nat (length (xs ++ ys)) <= CAPACITY t ->
  let r := dbdbaddsq fold scaleX X scaleY Y tmp m in
  (existsb f_isnan (xs ++ ys) = true -> snd r Y = B754_nan) /\
  (existsb f_isnan (xs ++ ys) = false ->
    (forall zX zY, zmin t <= zX <= zmax t -> zmin t <= zY <= zmax t -> scaleX = scl t zX -> scaleY = scl t zY -> width t * (2 * Z.abs (zX - zY)) < emax t) ->
    snd r Y = B754_infinity false).
Proof.
  intros Hf A1 A2 A3 SX SY NF HC. rewrite CAPACITY_eq in HC. destruct (ssq_fold_ok t fold Hf) as (H2 & Hs & _).
  destruct (maddsq_special (layout_contig fold Y ltac:(lia)) (layout_contig fold X ltac:(lia)) H2 Hs tmp
     (apart_disjoint fold X Y ltac:(lia) A1) (apart_disjoint fold tmp Y ltac:(lia) A3)
     (apart_disjoint fold X tmp ltac:(lia) ltac:(unfold apart in *; lia)) m scaleX scaleY xs ys) as [_ R]; auto; now apply scaled_operand.
Qed.
Theorem C43_nan t fold X Y tmp (xs ys : list (F t)) scaleX scaleY (m : mem t) :
  2 <= fold <= ssq_fold t -> apart (dbnum fold) X Y -> apart (dbnum fold) tmp X -> apart (dbnum fold) tmp Y ->
  scaled_at fold xs scaleX m X -> scaled_at fold ys scaleY m Y -> existsb f_isnan (xs ++ ys) = true ->
  Z.of_nat (length (xs ++ ys)) <= CAPACITY t ->
  snd (dbdbaddsq fold scaleX X scaleY Y tmp m) Y = B754_nan.
Proof.
  intros Hf A1 A2 A3 SX SY NN HC.
  destruct (scaled_special t fold X Y tmp xs ys scaleX scaleY m) as [R _]; auto.
  destruct (all_finite (xs ++ ys)) eqn:F; auto. apply all_finite_flags in F. destruct F as [F _]. congruence.
Qed.
Print Assumptions C43_nan.
(** An infinity gives +Inf, provided the square of the ratio of the scales does not
    overflow ... *)
Theorem C43_inf_partial t fold X Y tmp (xs ys : list (F t)) scaleX scaleY (m : mem t) :
  2 <= fold <= ssq_fold t -> apart (dbnum fold) X Y -> apart (dbnum fold) tmp X -> apart (dbnum fold) tmp Y ->
  scaled_at fold xs scaleX m X -> scaled_at fold ys scaleY m Y ->
  all_finite (xs ++ ys) = false -> existsb f_isnan (xs ++ ys) = false ->
  Z.of_nat (length (xs ++ ys)) <= CAPACITY t ->
  f_isinf (fmul (fdiv scaleX scaleY) (fdiv scaleX scaleY)) = false ->
  f_isinf (fmul (fdiv scaleY scaleX) (fdiv scaleY scaleX)) = false ->
  snd (dbdbaddsq fold scaleX X scaleY Y tmp m) Y = B754_infinity false.
Proof.
  intros Hf A1 A2 A3 SX SY NF NN HC O1 O2.
  destruct (scaled_special t fold X Y tmp xs ys scaleX scaleY m) as [_ R]; auto. apply R; auto.
  intros zX zY RX RY -> ->. destruct (Z.lt_trichotomy zX zY) as [G|[G|G]].
  - rewrite (rescale_factor t zX zY) in O2 by lia. destruct (Z.ltb_spec (width t * (2 * (zY - zX))) (emax t)); [|discriminate].
    rewrite Z.abs_neq by lia. replace (- (zX - zY)) with (zY - zX) by lia. auto.
  - subst. rewrite Z.sub_diag. destruct t; cbn; lia.
  - rewrite (rescale_factor t zY zX) in O1 by lia. destruct (Z.ltb_spec (width t * (2 * (zX - zY))) (emax t)); [|discriminate].
    rewrite Z.abs_eq by lia. auto.
Qed.
Print Assumptions C43_inf_partial.
(** ... and is turned into NaN otherwise: the data are 1, +Inf and 2^600; one partial sum
    of squares takes 1 and then +Inf (its scale is 1), the other 2^600; merging them either
    way round gives NaN, one call over everything +Inf. *)
Definition inf_and_huge : mem Dbl :=
  fun a => if a =? 0 then mkf 1 0 else if a =? 1 then finf false else if a =? 2 then mkf 1 600 else fzero.
Theorem C43_inf_refuted :
  let tu := scalar_tuning Dbl in let fold := 3 in let m := inf_and_huge in
  let l := SPiece (Piece tu 1 1 1) (SPiece (Piece tu 0 1 1) SEmpty) in let r := SPiece (Piece tu 2 1 1) SEmpty in
  tuned Dbl tu /\ Permutation (read m 0 1 3) (all_data m (spieces (SMergeL l r))) /\
  (let '(_, a, _, m') := seval fold (SMergeL l r) 100 m in f_isnan (m' a) = true /\ f_isnan (ddbconv fold a m') = true) /\
  (let '(_, a, _, m') := seval fold (SMergeR l r) 100 m in f_isnan (m' a) = true) /\
  f_isinf (snd (dbdssq tu fold 3 0 1 fzero 100 (dbsetzero fold 100 m)) 100) = true.
Proof.
  cbv zeta. split; [apply file_scalar|]. split.
  - change (Permutation [inf_and_huge 0; inf_and_huge 1; inf_and_huge 2] ([inf_and_huge 1] ++ ([inf_and_huge 0] ++ []) ++ [inf_and_huge 2] ++ [])).
    cbn [app]. apply perm_swap.
  - split; [|split]; vm_compute; auto.
Qed.
Print Assumptions C43_inf_refuted.

Definition merge_data : mem Dbl :=
  fun a => if a =? 0 then mkf 3 600 else if a =? 1 then mkf 1 (-900) else if a =? 2 then mkf 4 600 else fzero.
Example C43_case :
  let q i n := Piece sample_tuning i 1 n in
  let u := SMergeR (SMergeL (SPiece (q 1 1) SEmpty) (SPiece (q 2 1) SEmpty)) (SPiece (q 0 1) SEmpty) in
  Permutation (read merge_data 0 1 3) (all_data merge_data (spieces u)) /\
  clear_of 0 1 3 100 30 /\ clear_of 0 1 3 400 (dbnum 3) /\
  (* the partial scales differ: 2^-880 and 2^600; the norm is still 5 * 2^600 *)
  feq (dscale (merge_data 1)) (mkf 1 (-880)) = true /\
  (let '(scale, a, n, m') := seval 3 u 100 merge_data in
   n = 130 /\ feq scale (mkf 1 600) = true /\ feq (scaled_root scale (ddbconv 3 a m')) (mkf 5 600) = true).
Proof.
  cbv zeta. split; [|split; [|split; [|split]]].
  - change (Permutation [merge_data 0; merge_data 1; merge_data 2] (([merge_data 1] ++ []) ++ ([merge_data 2] ++ []) ++ [merge_data 0] ++ [])).
    cbn [app]. rewrite perm_swap. apply perm_skip, perm_swap.
  - intros i Hi; unfold dbnum; lia.
  - intros i Hi; unfold dbnum; lia.
  - vm_compute; reflexivity.
  - vm_compute; auto.
Qed.

(** ** C27: the MPI operator for scaled sums of squares *)
(** Element e of a buffer: a scale, then an accumulator. *)
Definition selem (fold b e : Z) : Z := b + e * mpi_scaled_num fold.
Definition stored_at {t} (fold : Z) (xs : list (F t)) (m : mem t) (b : Z) : Prop := ssq_at fold xs (m b) m (b + 1).
Lemma scale_feq {t} (a b : F t) xs ys : scale_of a xs -> scale_of b ys -> feq a b = true -> a = b.
Proof.
  unfold scale_of. destruct xs, ys; [intros -> ->; auto| | |].
  - intros -> (M & _ & ->). rewrite dscale_eq. pose proof (scl_pos t (scale_z M) (scale_z_range t M)) as H. intros E. exfalso. revert H E. unfold feq, fzero.
    destruct (scl t (scale_z M)) as [[]|[]| |[] ? ? ?]; cbn; congruence.
  - intros (M & _ & ->) ->. rewrite dscale_eq. pose proof (scl_pos t (scale_z M) (scale_z_range t M)) as H. congruence.
  - intros (M & _ & ->) (M' & _ & ->). rewrite !dscale_eq, feq_scl by apply scale_z_range. intros E. apply Z.eqb_eq in E. now rewrite E.
Qed.
(** What does hold: where no scale of the first operand exceeds the one stored with the
    second, every element ends up as the scaled accumulator of both operands. *)
Theorem C27_larger_scale_kept_partial t fold len invec inoutvec tmp (xs ys : Z -> list (F t)) (m : mem t) :
  2 <= fold <= ssq_fold t -> 0 <= len ->
  apart (len * mpi_scaled_num fold) invec inoutvec ->
  (tmp + dbnum fold <= invec \/ invec + len * mpi_scaled_num fold <= tmp) ->
  (tmp + dbnum fold <= inoutvec \/ inoutvec + len * mpi_scaled_num fold <= tmp) ->
  (forall e, 0 <= e < len -> all_finite (xs e) = true /\ all_finite (ys e) = true /\
     stored_at fold (xs e) m (selem fold invec e) /\ stored_at fold (ys e) m (selem fold inoutvec e) /\
     Z.of_nat (length (xs e ++ ys e)) <= CAPACITY t /\
     flt (m (selem fold inoutvec e)) (m (selem fold invec e)) = false) ->
  let m' := mpi_dbdbaddsq fold len invec inoutvec tmp m in
  (forall e, 0 <= e < len -> stored_at fold (xs e ++ ys e) m' (selem fold inoutvec e)) /\
  (forall a, ~ within inoutvec (len * mpi_scaled_num fold) a -> ~ within tmp (dbnum fold) a -> m' a = m a).
Proof.
  intros Hf Hn AP T1 T2 H m'.
  pose proof (for_up_inv (fun k m1 => (forall e, 0 <= e < k -> stored_at fold (xs e ++ ys e) m1 (selem fold inoutvec e)) /\
      (forall a, ~ within inoutvec (k * mpi_scaled_num fold) a -> ~ within tmp (dbnum fold) a -> m1 a = m a))
      (fun i m => let X := invec + i * (dbnum fold + 1) in let Y := inoutvec + i * (dbnum fold + 1) in
         snd (dmdmaddsq fold (m X) (X + 1) 1 (X + 1 + fold) 1 (m Y) (Y + 1) 1 (Y + 1 + fold) 1 tmp m))
      0 len m Hn) as G. cbv beta in G. change (for_up 0 len _ m) with m' in G. apply G.
  - split; auto. intros; lia.
  - clear G. intros k m1 Hk (G1 & G2). cbv zeta.
    change (dbnum fold + 1) with (mpi_scaled_num fold). fold (selem fold invec k). fold (selem fold inoutvec k).
    destruct (H k Hk) as (H1 & H2 & H3 & H4 & H5 & H6). clear H. unfold stored_at in H3, H4.
    set (X := selem fold invec k) in *. set (Y := selem fold inoutvec k) in *.
    assert (NX : X = invec + k * (2 * fold + 1)) by reflexivity. assert (NY : Y = inoutvec + k * (2 * fold + 1)) by reflexivity. clearbody X Y.
    unfold within, mpi_scaled_num, apart, dbnum in *.
    assert (EX : forall a, X <= a < X + (2 * fold + 1) -> m1 a = m a) by (intros a Ha; apply G2; nia).
    assert (EY : forall a, Y <= a < Y + (2 * fold + 1) -> m1 a = m a) by (intros a Ha; apply G2; nia).
    rewrite (EX X), (EY Y) by lia.
    fold (dbdbaddsq fold (m X) (X + 1) (m Y) (Y + 1) tmp m1).
    rewrite CAPACITY_eq in H5.
    destruct (merge_ssq fold Hf (xs k) (ys k) (m X) (m Y) (X + 1) (Y + 1) tmp m1) as [M1 M2]; auto; try (unfold apart, dbnum; nia).
    { eapply (ssq_frame fold Hf); [|exact H3]. intros a Ha. apply EX. unfold dbnum in Ha. lia. }
    { eapply (ssq_frame fold Hf); [|exact H4]. intros a Ha. apply EY. unfold dbnum in Ha. lia. }
    unfold dbnum in *.
    assert (FS : fst (dbdbaddsq fold (m X) (X + 1) (m Y) (Y + 1) tmp m1) = m Y).
    { unfold dbdbaddsq, dmdmaddsq. rewrite H6. destruct (feq (m X) (m Y)) eqn:FE; auto. cbn [fst].
      destruct H3 as [S3 _], H4 as [S4 _]. exact (scale_feq _ _ _ _ S3 S4 FE). }
    rewrite FS in M1. clear FS. set (m2 := snd (dbdbaddsq fold (m X) (X + 1) (m Y) (Y + 1) tmp m1)) in *. clearbody m2.
    split.
    + intros e He. destruct (Z.eq_dec e k) as [-> |NE].
      * unfold stored_at, selem, mpi_scaled_num, dbnum. rewrite <- NY.
        replace (m2 Y) with (m Y); [exact M1|]. rewrite M2 by nia. symmetry. apply EY. lia.
      * unfold stored_at in *. specialize (G1 e ltac:(lia)). unfold selem, mpi_scaled_num, dbnum in G1 |- *.
        rewrite M2 by nia. eapply (ssq_frame fold Hf); [|exact G1]. intros a Ha. unfold dbnum in Ha. apply M2; nia.
    + intros a Ha Ht. rewrite M2 by nia. apply G2; nia.
Qed.
Print Assumptions C27_larger_scale_kept_partial.
(** What does not hold: merging the larger scale into the smaller one.  X and Y hold the
    scaled accumulators of 2^100 and of 1; the result is rescaled to 2^80, but the stored
    scale stays 1, and the norm computed from it is 2^20 instead of about 2^100. *)
Definition scaled_pair : mem Dbl := fun a => if a =? 0 then mkf 1 100 else if a =? 1 then mkf 1 0 else fzero.
Definition scaled_buffers : mem Dbl :=
  let m := scaled_pair in
  let '(s, m) := dbdssq (scalar_tuning Dbl) 3 1 0 1 fzero 101 (dbsetzero 3 101 m) in
  let m := upd m 100 s in
  let '(s, m) := dbdssq (scalar_tuning Dbl) 3 1 1 1 fzero 201 (dbsetzero 3 201 m) in
  upd m 200 s.
Theorem C27_refuted :
  stored_at 3 [mkf 1 100] scaled_buffers 100 /\ stored_at 3 [mkf 1 0] scaled_buffers 200 /\
  let m' := mpi_dbdbaddsq 3 1 100 200 300 scaled_buffers in
  feq (scaled_root (m' 200) (ddbconv 3 201 m')) (mkf 1 20) = true /\
  feq (rdnrm2 (scalar_tuning Dbl) 3 2 0 1 400 scaled_pair) (mkf 1 100) = true /\
  ~ stored_at 3 [mkf 1 100; mkf 1 0] m' 200.
Proof.
  assert (A : stored_at 3 [mkf 1 100] scaled_buffers 100 /\ stored_at 3 [mkf 1 0] scaled_buffers 200).
  { unfold scaled_buffers.
    pose proof (ssq_fresh 3 (t := Dbl) ltac:(cbn; lia) (scalar_tuning Dbl) 1 0 1 101 scaled_pair (file_scalar Dbl) ltac:(vm_compute; split; discriminate)
      ltac:(intros i Hi; unfold dbnum; lia)) as [S U].
    change (read scaled_pair 0 1 1) with [mkf (t := Dbl) 1 100] in S.
    destruct (dbdssq (scalar_tuning Dbl) 3 1 0 1 fzero 101 (dbsetzero 3 101 scaled_pair)) as [s1 m1]. cbv zeta. cbn [snd] in S, U.
    set (m1' := upd m1 100 s1).
    pose proof (ssq_fresh 3 (t := Dbl) ltac:(cbn; lia) (scalar_tuning Dbl) 1 1 1 201 m1' (file_scalar Dbl) ltac:(vm_compute; split; discriminate)
      ltac:(intros i Hi; unfold dbnum; lia)) as [S2 U2].
    assert (RD : read m1' 1 1 1 = [mkf (t := Dbl) 1 0]).
    { change (read m1' 1 1 1) with [m1' 1]. unfold m1'. rewrite upd_other, U by (unfold dbnum; lia). reflexivity. }
    rewrite RD in S2.
    destruct (dbdssq (scalar_tuning Dbl) 3 1 1 1 fzero 201 (dbsetzero 3 201 m1')) as [s2 m2]. cbn [snd] in S2, U2.
    assert (F1 : all_finite [mkf (t := Dbl) 1 100] = true) by (vm_compute; reflexivity).
    assert (F2 : all_finite [mkf (t := Dbl) 1 0] = true) by (vm_compute; reflexivity).
    unfold sstate in S, S2. rewrite F1 in S. rewrite F2 in S2. cbn [fst snd] in S, S2. unfold stored_at.
    split.
    - rewrite upd_other, U2 by (unfold dbnum; lia). unfold m1' at 1. rewrite upd_same.
      eapply (ssq_frame 3 (t := Dbl) ltac:(cbn; lia)); [|exact S]. intros a Ha. unfold dbnum in *.
      rewrite upd_other, U2 by lia. unfold m1'. rewrite upd_other by lia. reflexivity.
    - rewrite upd_same. eapply (ssq_frame 3 (t := Dbl) ltac:(cbn; lia)); [|exact S2]. intros a Ha. unfold dbnum in *.
      rewrite upd_other by lia. reflexivity. }
  destruct A as [A1 A2]. split; [exact A1|]. split; [exact A2|]. clear A1 A2. cbv zeta. split; [vm_compute; reflexivity|]. split; [vm_compute; reflexivity|].
  assert (E : feq (mpi_dbdbaddsq 3 1 100 200 300 scaled_buffers 200) (mkf 1 0) = true) by (vm_compute; reflexivity).
  set (m' := mpi_dbdbaddsq 3 1 100 200 300 scaled_buffers) in *. clearbody m'.
  intros [S _]. apply scale_of_good in S; [|vm_compute; reflexivity].
  assert (G : scale_of (mkf 1 80) [mkf (t := Dbl) 1 100; mkf 1 0]).
  { exists (mkf 1 100). split; [|]. 2:{ rewrite dscale_eq. assert (Z0 : scale_z (mkf 1 100 : F Dbl) = 2) by (vm_compute; reflexivity). now rewrite Z0. }
    split; [intros x [<-|[<-|[]]]; vm_compute; reflexivity|]. right. exists (mkf 1 100). split; [now left|]. apply float_ext; [vm_compute; reflexivity..|left; vm_compute; discriminate]. }
  apply scale_of_good in G; [|vm_compute; reflexivity]. rewrite (good_scale_unique _ _ _ S G) in E. vm_compute in E. discriminate.
Qed.
Print Assumptions C27_refuted.
