(** * C40, C47: complex matrix products *)
From Coq Require Import ZArith Bool List Lia Permutation Ascii.
From Flocq Require Import Core BinarySingleNaN.
From Verif Require Import Fp Mem Binned Spec FpProofs BitProofs CoreArith SpecProofs WordProofs MemProofs AccProofs SumProofs ConvProofs Client History ClientProofs StrideProofs PropsSum PropsAcc PropsMem ComplexProofs PropsComplex Gen GenProofs Params ParamsProofs PropsGen Blas LaneProofs ReduceProofs DriverProofs BlasSpec PropsBlas BlasZ ZEvents ZKernel ZDriver ZLoop BlasZSpec PropsBlasZ Gemv GemvSpec GemvProofs PropsGemv GemvZ GemvZSpec GemvZProofs.
Import ListNotations.
Open Scope Z_scope.

Section VZ.
  Context {t : ty} (fold : Z) (Hf : 2 <= fold <= MAXFOLD t).
  Lemma not_conj Trans : is_trans Trans = true -> is_conj Trans = false.
  Proof. intros E. unfold is_conj. unfold is_trans in E. now rewrite E, andb_false_r. Qed.
  Lemma yes_conj Trans : is_notrans Trans = false -> is_trans Trans = false -> is_conj Trans = true.
  Proof. intros E1 E. unfold is_conj. unfold is_trans in E. now rewrite E, E1. Qed.
  Lemma notrans_conj Trans : is_notrans Trans = true -> is_conj Trans = false.
  Proof. intros E1. unfold is_conj. now rewrite E1. Qed.
  Lemma zgemv_holds tu b Order Trans M N (alpha : F t * F t) A lda X incX Y incY bufX bufA us vs zs (m : mem t) :
    tuned t tu -> legal_gemv b -> 0 <= M -> 0 <= N -> right_length b Order Trans M N ->
    2 * Z.min (Z.min (op_cols Trans M N) (dot_block b Order Trans)) (block_max tu) <= endurance t ->
    zgemv_layout fold Order Trans (op_rows Trans M N) (op_cols Trans M N) A lda X incX Y incY bufX bufA (xt_block b * yt_block b) ->
    is_complex alpha fzero = false ->
    (forall i, 0 <= i < op_rows Trans M N -> zacc_at fold (us i) (vs i) (zs i) m (zy_at fold Y incY i) /\
       2 * op_cols Trans M N + Z.of_nat (length (zs i)) <= capacity t) ->
    let m' := zbzgemv tu b fold Order Trans M N alpha A lda X incX Y incY bufX bufA m in
    (forall i, 0 <= i < op_rows Trans M N ->
       zout fold (us i) (vs i) (zgemv_products m Order Trans A lda alpha X incX (op_cols Trans M N) i ++ zs i) m' (zy_at fold Y incY i)) /\
    (forall a, ~ zgemv_touched fold (op_rows Trans M N) Y incY bufX (op_cols Trans M N) bufA (xt_block b * yt_block b) a -> m' a = m a).
  Proof.
    intros HT LB HM HN RL HE (L1 & L2 & L3 & L4 & L5) Al H. cbv zeta. unfold zbzgemv. rewrite z_zero, Al.
    unfold op_rows, op_cols in *.
    assert (HC : forall i, 0 <= i < (if is_notrans Trans then M else N) -> 2 * (if is_notrans Trans then N else M) + Z.of_nat (length (zs i)) <= capacity t).
    { intros i Hi. apply (H i Hi). }
    assert (H0 : forall i, 0 <= i < (if is_notrans Trans then M else N) -> zacc_at fold (us i) (vs i) (zs i) m (zy_at fold Y incY i)).
    { intros i Hi. apply (H i Hi). }
    clear H.
    destruct (Z.eqb_spec M 0) as [-> |NM]; [|destruct (Z.eqb_spec N 0) as [-> |NN]].
    - cbn [orb]. split; auto. intros i Hi. unfold zgemv_products. destruct (is_notrans Trans); [lia|].
      rewrite zseq_nil by lia. apply zacc_out, H0. exact Hi.
    - cbn [orb]. split; auto. intros i Hi. unfold zgemv_products. destruct (is_notrans Trans); [|lia].
      rewrite zseq_nil by lia. apply zacc_out, H0. exact Hi.
    - cbn [orb]. unfold dot_block, right_length in *.
      set (el := fun i j => zop_addr Order Trans A lda i j) in *.
      assert (EL : forall i j, el i j = if Bool.eqb (is_row Order) (is_notrans Trans) then A + 2 * (i * lda + j) else A + 2 * (j * lda + i)).
      { intros i j. unfold el, zop_addr, op_addr, elem_addr. destruct (is_row Order), (is_notrans Trans); cbn [Bool.eqb]; lia. }
      assert (D : forall R K limit conj, conj = is_conj Trans -> 0 <= K ->
        Bool.eqb (is_row Order) (is_notrans Trans) = true -> (if is_notrans Trans then M else N) = R -> (if is_notrans Trans then N else M) = K ->
        (forall j, 0 <= j < K -> (x_block b | j) -> Z.min (x_block b) (limit - j) = Z.min (x_block b) (K - j)) ->
        zresult fold conj b R K alpha X incX Y incY bufX bufA el m us vs zs (zgemv_direct conj tu b fold R K limit alpha A lda X incX Y incY bufX m)).
      { intros R K limit conj -> HK EB <- <- HLim. rewrite EB in EL, HE.
        apply (zdirect_ok fold Hf (is_conj Trans) tu HT b LB _ _ HK alpha X incX Y incY bufX bufA el m L1 L2 L3 L5 us vs zs HC H0 A lda limit); auto. }
      assert (T : forall R K conj, conj = is_conj Trans -> 0 <= K ->
        Bool.eqb (is_row Order) (is_notrans Trans) = false -> (if is_notrans Trans then M else N) = R -> (if is_notrans Trans then N else M) = K ->
        zresult fold conj b R K alpha X incX Y incY bufX bufA el m us vs zs (zgemv_trans conj tu b fold K R alpha A lda X incX Y incY bufX bufA m)).
      { intros R K conj -> HK EB <- <-. rewrite EB in EL, HE.
        apply (ztrans_ok fold Hf (is_conj Trans) tu HT b LB _ _ HK alpha X incX Y incY bufX bufA el m L1 L2 L3 L4 L5 us vs zs HC H0 A lda); auto. }
      assert (RES : forall R K m' conj, conj = is_conj Trans -> (if is_notrans Trans then M else N) = R -> (if is_notrans Trans then N else M) = K ->
        zresult fold conj b R K alpha X incX Y incY bufX bufA el m us vs zs m' ->
        (forall i, 0 <= i < (if is_notrans Trans then M else N) ->
           zout fold (us i) (vs i) (zgemv_products m Order Trans A lda alpha X incX (if is_notrans Trans then N else M) i ++ zs i) m' (zy_at fold Y incY i)) /\
        (forall a, ~ zgemv_touched fold (if is_notrans Trans then M else N) Y incY bufX (if is_notrans Trans then N else M) bufA (xt_block b * yt_block b) a -> m' a = m a)).
      { intros R K m' conj -> <- <- [R1 R2]. split; [exact R1|exact R2]. }
      clearbody el. clear EL HE L1 L2 L3 L4 L5 HC H0.
      destruct (is_row Order) eqn:EO, (is_notrans Trans) eqn:ET.
      + eapply RES; [|reflexivity|reflexivity|apply (D M N N false)]; auto; try lia; now rewrite notrans_conj.
      + destruct (is_trans Trans) eqn:ETT.
        * eapply RES; [|reflexivity|reflexivity|apply (T N M false)]; auto; try lia; now rewrite not_conj.
        * eapply RES; [|reflexivity|reflexivity|apply (T N M true)]; auto; try lia; now rewrite yes_conj.
      + eapply RES; [|reflexivity|reflexivity|apply (T M N false)]; auto; try lia; now rewrite notrans_conj.
      + destruct (is_trans Trans) eqn:ETT.
        * eapply RES; [|reflexivity|reflexivity|apply (D N M M false)]; auto; try lia; now rewrite not_conj.
        * eapply RES; [|reflexivity|reflexivity|apply (D N M N true)]; auto; try lia; try (now rewrite yes_conj).
          rewrite yes_conj in RL by auto. intros j Hj (z & Dj). destruct RL as [RL|[RL|[RL|((q & Dq) & RL)]]]; try discriminate; [subst; reflexivity|].
          assert (X1 : 1 <= x_block b) by (apply block_div; apply LB). assert (z < q) by nia. rewrite !Z.min_l; auto; nia.
  Qed.
End VZ.
Lemma flat_two {A : Type} (f : Z -> list A) n : 0 <= n -> (forall k, length (f k) = 2%nat) -> Z.of_nat (length (flat_map f (zseq 0 n))) = 2 * n.
Proof.
  intros Hn H. assert (E : forall l, length (flat_map f l) = (2 * length l)%nat).
  { induction l as [|k l IH]; [reflexivity|]. cbn [flat_map length]. rewrite app_length, H, IH. lia. }
  rewrite E, zseq_length. lia.
Qed.
(** From the invariant to words. *)
Lemma zout_words {t} fold us vs ps zs (m m' : mem t) A : 2 <= fold <= MAXFOLD t -> zacc_at fold us vs zs m A ->
  Z.of_nat (length ps) + Z.of_nat (length zs) <= capacity t -> zout fold us vs (ps ++ zs) m' A ->
  (all_finite (map fst (ps ++ zs)) = true -> re_words fold m' A (zadd_list fold A ps m) A) /\
  (all_finite (map snd (ps ++ zs)) = true -> im_words fold m' A (zadd_list fold A ps m) A).
Proof.
  intros Hf HA HC [R0 R1].
  destruct (zadd_list_acc fold Hf A ps m us vs zs HA ltac:(rewrite app_length; lia)) as [[S0 S1] _].
  assert (P : Permutation (ps ++ zs) (rev ps ++ zs)) by apply Permutation_app_tail, Permutation_rev.
  split.
  - intros FA. unfold cout in R0. rewrite FA in R0. exact (re_holds fold Hf us _ _ _ _ A A FA (Permutation_map fst P) R0 S0).
  - intros FA. unfold cout in R1. rewrite FA in R1. exact (im_holds fold Hf vs _ _ _ _ A A FA (Permutation_map snd P) R1 S1).
Qed.
Lemma half_dots t n : n <= ENDURANCE t / 2 -> 2 * n <= endurance t.
Proof. intros H. rewrite ENDURANCE_eq in H. pose proof (Z.mul_div_le (endurance t) 2 ltac:(lia)). lia. Qed.

(** ** C40 *)
(** zbzgemv leaves in each part of Y_i the words left by adding the products op(A)_ij * (alpha * x_j)
    (two complex summands each) with zbzadd, when that part is finite throughout; nothing but the accumulators
    and the buffers changes.  Missing: column major conjugate transposes with M <> N (C40_refuted), and dot
    products of more than ENDURANCE / 2 elements when the tuned block of zbzdotc / zbzdotu is longer than that (C29_refuted). *)
Theorem C40_gemv_is_adds_partial t tu b fold Order Trans M N (alpha : F t * F t) A lda X incX Y incY bufX bufA us vs zs (m : mem t) :
  2 <= fold <= MAXFOLD t -> tuned t tu -> legal_gemv b -> 0 <= M -> 0 <= N ->
  let rows := op_rows Trans M N in let cols := op_cols Trans M N in let lenA := xt_block b * yt_block b in
  right_length b Order Trans M N ->
  Z.min (Z.min cols (dot_block b Order Trans)) (block_max tu) <= ENDURANCE t / 2 ->
  zgemv_layout fold Order Trans rows cols A lda X incX Y incY bufX bufA lenA ->
  is_complex alpha fzero = false ->
  (forall i, 0 <= i < rows -> zacc_at fold (us i) (vs i) (zs i) m (zy_at fold Y incY i) /\
     2 * cols + Z.of_nat (length (zs i)) <= CAPACITY t) ->
  let m' := zbzgemv tu b fold Order Trans M N alpha A lda X incX Y incY bufX bufA m in
  (forall i, 0 <= i < rows ->
     let ps := zgemv_products m Order Trans A lda alpha X incX cols i in
     let Yi := zy_at fold Y incY i in
     (all_finite (map fst (ps ++ zs i)) = true -> re_words fold m' Yi (zadd_list fold Yi ps m) Yi) /\
     (all_finite (map snd (ps ++ zs i)) = true -> im_words fold m' Yi (zadd_list fold Yi ps m) Yi)) /\
  (forall a, ~ zgemv_touched fold rows Y incY bufX cols bufA lenA a -> m' a = m a).
Proof.
  intros Hf HT LB HM HN rows cols lenA RL HE HL Al H m'. rewrite CAPACITY_eq in H. apply half_dots in HE.
  destruct (zgemv_holds fold Hf tu b Order Trans M N alpha A lda X incX Y incY bufX bufA us vs zs m HT LB HM HN RL HE HL Al H) as [G1 G2].
  split; [|exact G2]. intros i Hi. cbv zeta. destruct (H i Hi) as (H1 & H2).
  assert (Hc : 0 <= cols) by (unfold cols, op_cols; destruct (is_notrans Trans); lia).
  refine (zout_words fold (us i) (vs i) _ (zs i) m _ _ Hf H1 _ (G1 i Hi)).
  unfold zgemv_products. rewrite flat_two by auto. exact H2.
Qed.
Print Assumptions C40_gemv_is_adds_partial.
Theorem C40_alpha_zero t tu b fold Order Trans M N (alpha : F t * F t) A lda X incX Y incY bufX bufA (m : mem t) :
  is_complex alpha fzero = true -> zbzgemv tu b fold Order Trans M N alpha A lda X incX Y incY bufX bufA m = m.
Proof. intros H. unfold zbzgemv. now rewrite z_zero, H, !orb_true_r. Qed.
Print Assumptions C40_alpha_zero.
Lemma zout_same {t} fold us vs zs zs' (m m' : mem t) A A' : 2 <= fold <= MAXFOLD t -> zs = zs' ->
  zout fold us vs zs m A -> zout fold us vs zs' m' A' ->
  (all_finite (map fst zs) = true -> re_words fold m A m' A') /\ (all_finite (map snd zs) = true -> im_words fold m A m' A').
Proof.
  intros Hf <- [R0 R1] [S0 S1]. unfold cout in R0, R1, S0, S1. split; intros FA.
  - rewrite FA in R0, S0. exact (re_holds fold Hf us _ _ _ _ A A' FA (Permutation_refl _) R0 S0).
  - rewrite FA in R1, S1. exact (im_holds fold Hf vs _ _ _ _ A A' FA (Permutation_refl _) R1 S1).
Qed.
(** Two computations with the same op(A) and x: the same words, whatever the block sizes, kernels,
    storage order, flag, strides and addresses. *)
Theorem C40_independent_partial t tu tu' b b' fold Order Order' Trans Trans' M N M' N' (alpha : F t * F t)
    A lda A' lda' X incX X' incX' Y incY Y' incY' bufX bufA bufX' bufA' us vs zs (m m' : mem t) :
  2 <= fold <= MAXFOLD t -> tuned t tu -> tuned t tu' -> legal_gemv b -> legal_gemv b' ->
  0 <= M -> 0 <= N -> 0 <= M' -> 0 <= N' ->
  let rows := op_rows Trans M N in let cols := op_cols Trans M N in
  rows = op_rows Trans' M' N' -> cols = op_cols Trans' M' N' ->
  right_length b Order Trans M N -> right_length b' Order' Trans' M' N' ->
  Z.min (Z.min cols (dot_block b Order Trans)) (block_max tu) <= ENDURANCE t / 2 ->
  Z.min (Z.min cols (dot_block b' Order' Trans')) (block_max tu') <= ENDURANCE t / 2 ->
  zgemv_layout fold Order Trans rows cols A lda X incX Y incY bufX bufA (xt_block b * yt_block b) ->
  zgemv_layout fold Order' Trans' rows cols A' lda' X' incX' Y' incY' bufX' bufA' (xt_block b' * yt_block b') ->
  (forall i j, 0 <= i < rows -> 0 <= j < cols -> zop m Order Trans A lda i j = zop m' Order' Trans' A' lda' i j) ->
  (forall j, 0 <= j < cols -> complex_at m (X + 2 * (j * incX)) = complex_at m' (X' + 2 * (j * incX'))) ->
  (forall i, 0 <= i < rows -> zacc_at fold (us i) (vs i) (zs i) m (zy_at fold Y incY i) /\ zacc_at fold (us i) (vs i) (zs i) m' (zy_at fold Y' incY' i) /\
     2 * cols + Z.of_nat (length (zs i)) <= CAPACITY t /\
     zfinite (zgemv_products m Order Trans A lda alpha X incX cols i ++ zs i) = true) ->
  forall i, 0 <= i < rows ->
  let r := zbzgemv tu b fold Order Trans M N alpha A lda X incX Y incY bufX bufA m in
  let r' := zbzgemv tu' b' fold Order' Trans' M' N' alpha A' lda' X' incX' Y' incY' bufX' bufA' m' in
  re_words fold r (zy_at fold Y incY i) r' (zy_at fold Y' incY' i) /\ im_words fold r (zy_at fold Y incY i) r' (zy_at fold Y' incY' i).
Proof.
  intros Hf HT HT' LB LB' HM HN HM' HN' rows cols ER EC RL RL' HE HE' HL HL' EA EX H i Hi r r'. rewrite CAPACITY_eq in H.
  apply half_dots in HE, HE'.
  assert (EP : forall i, 0 <= i < rows -> zgemv_products m Order Trans A lda alpha X incX cols i = zgemv_products m' Order' Trans' A' lda' alpha X' incX' cols i).
  { intros i' Hi'. unfold zgemv_products. rewrite !flat_map_concat_map. f_equal. apply map_ext_in. intros j Hj. apply zseq_In in Hj.
    rewrite (EA i' j), (EX j) by lia. reflexivity. }
  destruct (H i Hi) as (H1 & H2 & H3 & H4). apply andb_true_iff in H4. destruct H4 as [F0 F1].
  unfold r, r'. destruct (is_complex alpha fzero) eqn:Al.
  - rewrite !C40_alpha_zero by exact Al. apply zacc_out in H1, H2.
    destruct (zout_same fold _ _ _ _ m m' _ _ Hf eq_refl H1 H2) as [G1 G2].
    split; [apply G1|apply G2]; [revert F0|revert F1]; rewrite map_app, all_finite_app; intros F; apply andb_true_iff in F; apply F.
  - destruct (zgemv_holds fold Hf tu b Order Trans M N alpha A lda X incX Y incY bufX bufA us vs zs m HT LB HM HN RL HE HL Al) as [G1 _].
    { intros k Hk. destruct (H k Hk) as (? & ? & ? & ?). auto. }
    rewrite ER, EC in HL'. rewrite EC in HE'.
    destruct (zgemv_holds fold Hf tu' b' Order' Trans' M' N' alpha A' lda' X' incX' Y' incY' bufX' bufA' us vs zs m' HT' LB' HM' HN' RL' HE' HL' Al) as [G2 _].
    { rewrite <- ER, <- EC. intros k Hk. destruct (H k Hk) as (? & ? & ? & ?). auto. }
    rewrite <- ER, <- EC in G2. specialize (G1 i Hi). specialize (G2 i Hi). rewrite <- (EP i Hi) in G2. fold cols in G1.
    destruct (zout_same fold _ _ _ _ _ _ _ _ Hf eq_refl G1 G2) as [W1 W2]. auto.
Qed.
Print Assumptions C40_independent_partial.

(** ** reproBLAS_rzgemv *)
Section LOADZ.
  Context {t : ty} (fold : Z) (Hf : 2 <= fold <= MAXFOLD t).
  Notation Hf2' := (ClientProofs.Hf2 fold Hf). Notation Hfm' := (ClientProofs.Hfm fold Hf).
  Lemma zconv_holds T (z : F t * F t) (m : mem t) : let m' := zbzconv fold (fst z) (snd z) T m in
    zacc_at fold [] [] [z] m' T /\ (forall a, ~ within T (zbnum fold) a -> m' a = m a).
  Proof.
    intros m'. unfold m', zbzconv, zmzconv, dmdconv. change (1 * 2) with 2. cbv zeta. pose proof (endurance_pos t) as EP.
    assert (HC : Z.of_nat (length [fst z]) <= capacity t) by (unfold capacity; destruct t; discriminate).
    destruct (rep_setzero (layout_complex_re fold T ltac:(lia)) Hf2' m) as [H1 F1]. cbv zeta in H1, F1.
    set (m1 := dmsetzero fold T 2 (T + 2 * fold) 2 m) in *. clearbody m1.
    destruct (rep_add (layout_complex_re fold T ltac:(lia)) Hf2' Hfm' m1 [] [] 0 (fst z) H1 ltac:(lia)) as [H2 F2]; [intros _; exact HC|].
    cbv zeta in H2, F2. set (m2 := dmdadd fold (fst z) T 2 (T + 2 * fold) 2 m1) in *. clearbody m2.
    destruct (rep_setzero (layout_complex_im fold T ltac:(lia)) Hf2' m2) as [H3 F3]. cbv zeta in H3, F3.
    set (m3 := dmsetzero fold (T + 1) 2 (T + 2 * fold + 1) 2 m2) in *. clearbody m3.
    destruct (rep_add (layout_complex_im fold T ltac:(lia)) Hf2' Hfm' m3 [] [] 0 (snd z) H3 ltac:(lia)) as [H4 F4]; [intros _; exact HC|].
    cbv zeta in H4, F4. set (m4 := dmdadd fold (snd z) (T + 1) 2 (T + 2 * fold + 1) 2 m3) in *. clearbody m4.
    split; [split|].
    - eapply (zre_im fold Hf); [exact F4|]. eapply (zre_im fold Hf); [exact F3|]. exact H2.
    - exact H4.
    - intros a Ha. rewrite (zfr fold Hf T m3 m4 (or_intror F4) a Ha), (zfr fold Hf T m2 m3 (or_intror F3) a Ha), (zfr fold Hf T m1 m2 (or_introl F2) a Ha).
      apply (zfr fold Hf T m m1 (or_introl F1) a Ha).
  Qed.
  Lemma zmemset_holds n T (m : mem t) : 0 <= n ->
    let m' := for_up 0 (n * zbnum fold) (fun a m => upd m (T + a) fzero) m in
    (forall i, 0 <= i < n -> zacc_at fold [] [] [] m' (T + i * zbnum fold)) /\
    (forall a, ~ within T (n * zbnum fold) a -> m' a = m a).
  Proof.
    intros Hn m'. assert (D : 0 <= n * zbnum fold) by (unfold zbnum; nia).
    pose proof (for_up_inv (fun k m1 => (forall a, 0 <= a < k -> m1 (T + a) = fzero) /\ (forall a, ~ within T (n * zbnum fold) a -> m1 a = m a))
      (fun a m => upd m (T + a) fzero) 0 (n * zbnum fold) m D) as G. cbv beta in G. fold m' in G.
    destruct G as [G1 G2].
    - split; auto. intros; lia.
    - intros k m1 Hk (G1 & G2). split.
      + intros a Ha. destruct (Z.eq_dec a k) as [-> |]; [apply upd_same|]. rewrite upd_other by lia. apply G1. lia.
      + intros a Ha. rewrite upd_other; auto. unfold within in Ha. lia.
    - split; [|exact G2]. intros i Hi. unfold zbnum in *. split; intros j Hj; split; rewrite <- ?Z.add_assoc; apply G1; nia.
  Qed.
  Lemma zacc_frame us vs zs (m m' : mem t) A : (forall a, A <= a < A + zbnum fold -> m' a = m a) -> zacc_at fold us vs zs m A -> zacc_at fold us vs zs m' A.
  Proof.
    intros E (H1 & H2). split.
    - eapply holds_words_ext; [exact Hf2'| |exact H1]. intros i Hi. cbv beta. split; apply E; unfold zbnum; lia.
    - eapply holds_words_ext; [exact Hf2'| |exact H2]. intros i Hi. cbv beta. split; apply E; unfold zbnum; lia.
  Qed.
  Lemma zload_step (ad : Z -> Z) n k z (zs : Z -> F t * F t) (m0 m : mem t) : 0 <= k < n -> zs k = z ->
    (forall i, 0 <= i < n -> i <> k -> apart (zbnum fold) (ad i) (ad k)) ->
    (forall i, 0 <= i < k -> zacc_at fold [] [] [zs i] m (ad i)) ->
    (forall a, (forall i, 0 <= i < n -> ~ within (ad i) (zbnum fold) a) -> m a = m0 a) ->
    (forall i, 0 <= i < k + 1 -> zacc_at fold [] [] [zs i] (zbzconv fold (fst z) (snd z) (ad k) m) (ad i)) /\
    (forall a, (forall i, 0 <= i < n -> ~ within (ad i) (zbnum fold) a) -> zbzconv fold (fst z) (snd z) (ad k) m a = m0 a).
  Proof.
    intros Hk Ex AP G1 G2. destruct (zconv_holds (ad k) z m) as [C1 C2]. split.
    - intros i Hi. destruct (Z.eq_dec i k) as [-> |NE]; [rewrite Ex; exact C1|].
      eapply zacc_frame; [|apply (G1 i); lia]. intros a Ha. apply C2.
      specialize (AP i ltac:(lia) NE). unfold apart, within in *. lia.
    - intros a Ha. rewrite C2; auto.
  Qed.
  (** The n outputs of an R by S nest, R * S = n. *)
  Lemma zload_ok R S (beta : F t * F t) (src : Z -> Z -> Z) CI (m : mem t) : 0 <= R -> 0 <= S -> is_complex beta fzero = false ->
    (forall i j o, 0 <= i < R -> 0 <= j < S -> o = 0 \/ o = 1 -> ~ within CI (R * S * zbnum fold) (src i j + o)) ->
    let m' := for_up 0 R (fun i m => for_up 0 S (fun j m =>
      let z := zload beta (cell2 m (src i j)) in zbzconv fold (fst z) (snd z) (CI + (i * S + j) * zbnum fold) m) m) m in
    (forall i j, 0 <= i < R -> 0 <= j < S -> zacc_at fold [] [] (zstarted beta (complex_at m (src i j))) m' (CI + (i * S + j) * zbnum fold)) /\
    (forall a, ~ within CI (R * S * zbnum fold) a -> m' a = m a).
  Proof.
    intros HR HS NB HY m'. assert (HRS : 0 <= R * S) by nia. unfold zstarted. rewrite NB.
    assert (FL : forall i j, 0 <= i < R -> 0 <= j < S -> 0 <= i * S + j < R * S) by (intros; nia).
    assert (O : forall a, ~ within CI (R * S * zbnum fold) a -> forall k, 0 <= k < R * S -> ~ within (CI + k * zbnum fold) (zbnum fold) a).
    { intros a Ha i Hi Hw. apply Ha. unfold within, zbnum in *. nia. }
    set (fs := fun k => src (k / S) (k mod S)).
    assert (ES : forall i j, 0 <= j < S -> fs (i * S + j) = src i j).
    { intros i j Hj. unfold fs. destruct (flat_index i j S Hj) as [-> ->]. reflexivity. }
    pose proof (nest_inv (fun k m1 => (forall i, 0 <= i < k -> zacc_at fold [] [] [times_complex beta (complex_at m (fs i))] m1 (CI + i * zbnum fold)) /\
      (forall a, (forall i, 0 <= i < R * S -> ~ within (CI + i * zbnum fold) (zbnum fold) a) -> m1 a = m a))
      (fun i j m => let z := zload beta (cell2 m (src i j)) in zbzconv fold (fst z) (snd z) (CI + (i * S + j) * zbnum fold) m) R S m HR HS) as G.
    cbv beta in G. fold m' in G.
    destruct G as [G1 G2].
    - split; auto. intros; lia.
    - intros i j m1 Hi Hj (G1 & G2). cbv zeta.
      apply (zload_step (fun i => CI + i * zbnum fold) (R * S) (i * S + j) _ (fun i => times_complex beta (complex_at m (fs i))) m m1); auto.
      + rewrite ES by exact Hj. symmetry. change (zload beta (cell2 m1 (src i j))) with (times_complex beta (complex_at m1 (src i j))). f_equal.
        unfold complex_at. f_equal; apply G2; apply O; [rewrite <- (Z.add_0_r (src i j))|]; apply HY; auto.
      + intros k Hk NE. unfold apart, zbnum. nia.
    - split.
      + intros i j Hi Hj. specialize (G1 (i * S + j) (FL i j Hi Hj)). rewrite ES in G1 by exact Hj. exact G1.
      + intros a Ha. apply G2. apply O. exact Ha.
  Qed.
  (** From accumulators to values. *)
  Lemma zout_value zs (m : mem t) A T (mT : mem t) : Z.of_nat (length zs) <= capacity t -> zout fold [] [] zs m A ->
    sum_value fold T (map fst zs) mT (fst (zzbconv_sub fold A m)) /\ sum_value fold T (map snd zs) mT (snd (zzbconv_sub fold A m)).
  Proof.
    intros HC [R0 R1]. unfold zzbconv_sub, zzmconv_sub, sum_value. cbn [fst snd]. change (1 * 2) with 2. change (1 + 1) with 2. split.
    - destruct (all_finite (map fst zs)) eqn:FA.
      + apply (cout_conv fold Hf [] _ _ _ _ _ _ T FA (Permutation_refl _)); auto. now rewrite map_length.
      + now apply (cout_special fold []).
    - destruct (all_finite (map snd zs)) eqn:FA.
      + apply (cout_conv fold Hf [] _ _ _ _ _ _ T FA (Permutation_refl _)); auto. now rewrite map_length.
      + now apply (cout_special fold []).
  Qed.
  Lemma zstore_ok R S (dst : Z -> Z -> Z) CI (zs : Z -> Z -> list (F t * F t)) T (mT m : mem t) : 0 <= R -> 0 <= S ->
    (forall i j i' j', 0 <= i < R -> 0 <= j < S -> 0 <= i' < R -> 0 <= j' < S -> (i, j) <> (i', j') -> apart 2 (dst i j) (dst i' j')) ->
    (forall i j o, 0 <= i < R -> 0 <= j < S -> o = 0 \/ o = 1 -> ~ within CI (R * S * zbnum fold) (dst i j + o)) ->
    (forall i j, 0 <= i < R -> 0 <= j < S -> zout fold [] [] (zs i j) m (CI + (i * S + j) * zbnum fold) /\ Z.of_nat (length (zs i j)) <= capacity t) ->
    let m' := for_up 0 R (fun i m => for_up 0 S (fun j m =>
      upd2 m (dst i j) (zzbconv_sub fold (CI + (i * S + j) * zbnum fold) m)) m) m in
    (forall i j, 0 <= i < R -> 0 <= j < S ->
       sum_value fold T (map fst (zs i j)) mT (m' (dst i j)) /\ sum_value fold T (map snd (zs i j)) mT (m' (dst i j + 1))) /\
    (forall a, (forall i j, 0 <= i < R -> 0 <= j < S -> a <> dst i j /\ a <> dst i j + 1) -> m' a = m a).
  Proof.
    intros HR HS AP HY HA m'.
    assert (FL : forall i j, 0 <= i < R -> 0 <= j < S -> 0 <= i * S + j < R * S) by (intros; nia).
    pose proof (nest_inv (fun k m1 => (forall i j, 0 <= i < R -> 0 <= j < S -> i * S + j < k ->
        sum_value fold T (map fst (zs i j)) mT (m1 (dst i j)) /\ sum_value fold T (map snd (zs i j)) mT (m1 (dst i j + 1))) /\
      (forall a, (forall i j, 0 <= i < R -> 0 <= j < S -> a <> dst i j /\ a <> dst i j + 1) -> m1 a = m a))
      (fun i j m => upd2 m (dst i j) (zzbconv_sub fold (CI + (i * S + j) * zbnum fold) m)) R S m HR HS) as G. cbv beta in G. fold m' in G.
    destruct G as [G1 G2].
    - split; auto. intros; nia.
    - intros i j m1 Hi Hj (G1 & G2). destruct (HA i j Hi Hj) as [A1 A2].
      assert (A3 : zout fold [] [] (zs i j) m1 (CI + (i * S + j) * zbnum fold)).
      { eapply (zout_frame fold Hf); [|exact A1]. intros a Ha. apply G2. intros i' j' Hi' Hj'.
        pose proof (HY i' j' 0 Hi' Hj' ltac:(auto)) as N0. pose proof (HY i' j' 1 Hi' Hj' ltac:(auto)) as N1. rewrite Z.add_0_r in N0.
        pose proof (FL i j Hi Hj) as FF.
        assert (W : within CI (R * S * zbnum fold) a) by (unfold within, zbnum in *; nia). split; intros ->; auto. }
      pose proof (zout_value _ m1 _ T mT A2 A3) as V. set (v := zzbconv_sub fold (CI + (i * S + j) * zbnum fold) m1) in *. clearbody v.
      split.
      + intros i' j' Hi' Hj' Hlt.
        assert (DEC : (i', j') = (i, j) \/ (i', j') <> (i, j)).
        { destruct (Z.eq_dec i' i) as [-> |]; [destruct (Z.eq_dec j' j) as [-> |]|]; [left; reflexivity|right; congruence|right; congruence]. }
        destruct DEC as [E|NE].
        * injection E as -> ->. unfold upd2. rewrite upd_same, upd_other by lia. rewrite upd_same. exact V.
        * pose proof (AP i' j' i j Hi' Hj' Hi Hj NE) as P. unfold apart in P. unfold upd2. rewrite !upd_other by lia. apply G1; auto.
          assert (i' * S + j' <> i * S + j).
          { intros E. apply NE. destruct (flat_index i' j' S Hj') as [D1 D2]. destruct (flat_index i j S Hj) as [D3 D4]. rewrite E in D1, D2. congruence. }
          lia.
      + intros a Ha. destruct (Ha i j Hi Hj). unfold upd2. rewrite !upd_other by auto. apply G2. exact Ha.
    - split; [|exact G2]. intros i j Hi Hj. apply G1; auto. apply FL; auto.
  Qed.
End LOADZ.
Lemma for_one {St : Type} (f : Z -> St -> St) s : for_up 0 1 f s = f 0 s.
Proof. reflexivity. Qed.
(** Each part of each output is the reproducible sum of that part of the products and of beta * y (of
    nothing else when beta = 0, of no product when alpha = 0). *)
Theorem C40_rzgemv_partial t tu b fold Order Trans M N (alpha beta : F t * F t) A lda X incX Y incY YI bufX bufA T (m : mem t) :
  2 <= fold <= MAXFOLD t -> tuned t tu -> legal_gemv b -> 0 < M -> 0 < N ->
  let rows := op_rows Trans M N in let cols := op_cols Trans M N in let lenA := xt_block b * yt_block b in
  right_length b Order Trans M N ->
  Z.min (Z.min cols (dot_block b Order Trans)) (block_max tu) <= ENDURANCE t / 2 ->
  zgemv_layout fold Order Trans rows cols A lda X incX YI 1 bufX bufA lenA -> incY <> 0 ->
  (forall i o, 0 <= i < rows -> o = 0 \/ o = 1 -> ~ zgemv_touched fold rows YI 1 bufX cols bufA lenA (Y + 2 * (i * incY) + o)) ->
  2 * cols + 1 <= CAPACITY t ->
  let m' := rzgemv tu b fold Order Trans M N alpha A lda X incX beta Y incY YI bufX bufA m in
  (forall i, 0 <= i < rows ->
     let products := if is_complex alpha fzero then [] else zgemv_products m Order Trans A lda alpha X incX cols i in
     let Yi := Y + 2 * (i * incY) in
     let all := products ++ zstarted beta (complex_at m Yi) in
     sum_value fold T (map fst all) m (m' Yi) /\ sum_value fold T (map snd all) m (m' (Yi + 1))) /\
  (forall a, (forall i, 0 <= i < rows -> a <> Y + 2 * (i * incY) /\ a <> Y + 2 * (i * incY) + 1) ->
     ~ zgemv_touched fold rows YI 1 bufX cols bufA lenA a -> m' a = m a).
Proof.
  intros Hf HT LB HM HN rows cols lenA RL HE HL NY HY HC. cbv zeta. rewrite CAPACITY_eq in HC. apply half_dots in HE.
  assert (Hr : 0 <= rows) by (unfold rows, op_rows; destruct (is_notrans Trans); lia).
  assert (Hc : 0 <= cols) by (unfold cols, op_cols; destruct (is_notrans Trans); lia).
  unfold rzgemv. replace ((N =? 0) || (M =? 0)) with false by (symmetry; apply orb_false_iff; split; apply Z.eqb_neq; lia).
  change (if is_notrans Trans then M else N) with rows. cbv zeta.
  assert (YT : forall a, within YI (1 * rows * zbnum fold) a -> zgemv_touched fold rows YI 1 bufX cols bufA lenA a).
  { intros a Ha. left. exists ((a - YI) / zbnum fold). unfold within, zy_at, zbnum in *. pose proof (Z.div_mod (a - YI) (4 * fold) ltac:(lia)).
    pose proof (Z.mod_pos_bound (a - YI) (4 * fold) ltac:(lia)). assert (0 <= (a - YI) / (4 * fold)) by (apply Z.div_pos; lia). nia. }
  set (dst := fun i j : Z => Y + 2 * j * incY).
  assert (ED : forall i j, dst i j = Y + 2 * (j * incY)) by (intros; unfold dst; ring).
  assert (HY' : forall i j o, 0 <= i < 1 -> 0 <= j < rows -> o = 0 \/ o = 1 -> ~ within YI (1 * rows * zbnum fold) (dst i j + o)).
  { intros i j o Hi Hj Ho Hw. rewrite ED in Hw. exact (HY j o Hj Ho (YT _ Hw)). }
  assert (LD : let m1 := zload_outputs fold rows beta Y incY YI m in
    (forall j, 0 <= j < rows -> zacc_at fold [] [] (zstarted beta (complex_at m (Y + 2 * (j * incY)))) m1 (YI + j * zbnum fold)) /\
    (forall a, ~ within YI (1 * rows * zbnum fold) a -> m1 a = m a)).
  { unfold zload_outputs. rewrite z_zero. destruct (is_complex beta fzero) eqn:EB.
    - destruct (zmemset_holds fold Hf rows YI m Hr) as [M1 M2]. rewrite Z.mul_1_l. unfold zstarted. rewrite EB. auto.
    - destruct (zload_ok fold Hf 1 rows beta dst YI m ltac:(lia) Hr EB HY') as [M1 M2]. rewrite for_one in M1, M2. split; [|exact M2].
      intros j Hj. specialize (M1 0 j ltac:(lia) Hj). rewrite ED in M1. exact M1. }
  cbv zeta in LD. destruct LD as [L1 L2].
  set (m1 := zload_outputs fold rows beta Y incY YI m) in *. clearbody m1.
  assert (LU : forall a, ~ zgemv_touched fold rows YI 1 bufX cols bufA lenA a -> m1 a = m a).
  { intros a Ha. apply L2. intros Hw. apply Ha. apply YT. exact Hw. }
  assert (LU2 : forall a, (forall o, o = 0 \/ o = 1 -> ~ zgemv_touched fold rows YI 1 bufX cols bufA lenA (a + o)) -> complex_at m1 a = complex_at m a).
  { intros a Ha. unfold complex_at. f_equal; apply LU; [rewrite <- (Z.add_0_r a)|]; apply Ha; auto. }
  assert (EP : forall i, 0 <= i < rows -> zgemv_products m1 Order Trans A lda alpha X incX cols i = zgemv_products m Order Trans A lda alpha X incX cols i).
  { destruct HL as (_ & HA & HX & _). intros i Hi. unfold zgemv_products. rewrite !flat_map_concat_map. f_equal. apply map_ext_in. intros j Hj. apply zseq_In in Hj.
    unfold zop. rewrite (LU2 (zop_addr Order Trans A lda i j)) by (intros o Ho; apply HA; auto; lia).
    rewrite (LU2 (X + 2 * (j * incX))) by (intros o Ho; apply HX; auto; lia). reflexivity. }
  set (prods := fun i => if is_complex alpha fzero then [] else zgemv_products m Order Trans A lda alpha X incX cols i).
  assert (G : let m2 := zbzgemv tu b fold Order Trans M N alpha A lda X incX YI 1 bufX bufA m1 in
    (forall i, 0 <= i < rows -> zout fold [] [] (prods i ++ zstarted beta (complex_at m (Y + 2 * (i * incY)))) m2 (YI + i * zbnum fold)) /\
    (forall a, ~ zgemv_touched fold rows YI 1 bufX cols bufA lenA a -> m2 a = m1 a)).
  { unfold prods. destruct (is_complex alpha fzero) eqn:Al.
    - rewrite C40_alpha_zero by exact Al. cbn [app]. split; auto. intros i Hi. apply zacc_out. auto.
    - destruct (zgemv_holds fold Hf tu b Order Trans M N alpha A lda X incX YI 1 bufX bufA (fun _ => []) (fun _ => []) (fun i => zstarted beta (complex_at m (Y + 2 * (i * incY)))) m1 HT LB ltac:(lia) ltac:(lia) RL HE HL Al) as [G1 G2].
      + fold rows cols. intros i Hi. split.
        * unfold zy_at. rewrite Z.mul_1_r. apply L1. exact Hi.
        * unfold zstarted. destruct (is_complex beta fzero); cbn [length]; lia.
      + fold rows cols in G1, G2. split; [|exact G2]. intros i Hi. specialize (G1 i Hi). rewrite (EP i Hi) in G1.
        unfold zy_at in G1. rewrite Z.mul_1_r in G1. exact G1. }
  cbv zeta in G. destruct G as [G1 G2].
  set (m2 := zbzgemv tu b fold Order Trans M N alpha A lda X incX YI 1 bufX bufA m1) in *. clearbody m2.
  destruct (zstore_ok fold Hf 1 rows dst YI (fun _ i => prods i ++ zstarted beta (complex_at m (Y + 2 * (i * incY)))) T m m2 ltac:(lia) Hr) as [S1 S2].
  { intros i j i' j' Hi Hj Hi' Hj' NE. assert (j <> j') by (intros ->; apply NE; f_equal; lia). rewrite !ED. unfold apart. nia. }
  { exact HY'. }
  { intros i j Hi Hj. replace i with 0 by lia. split; [exact (G1 j Hj)|]. cbv beta. rewrite app_length.
    assert (LP : Z.of_nat (length (prods j)) <= 2 * cols).
    { unfold prods. destruct (is_complex alpha fzero); [cbn [length]; lia|]. unfold zgemv_products. rewrite flat_two by auto. lia. }
    unfold zstarted. destruct (is_complex beta fzero); cbn [length]; lia. }
  rewrite for_one in S1, S2. change (for_up 0 rows (fun j m => upd2 m (dst 0 j) (zzbconv_sub fold (YI + (0 * rows + j) * zbnum fold) m)) m2) with (zstore_outputs fold rows Y incY YI m2) in S1, S2.
  set (m' := zstore_outputs fold rows Y incY YI m2) in *. clearbody m'. split.
  - intros i Hi. specialize (S1 0 i ltac:(lia) Hi). rewrite ED in S1. exact S1.
  - intros a Ha Hn. rewrite S2, G2, LU; auto. intros i j Hi Hj. rewrite ED. apply Ha. exact Hj.
Qed.
Print Assumptions C40_rzgemv_partial.
Theorem C40_rzgemv_empty t tu b fold Order Trans M N (alpha beta : F t * F t) A lda X incX Y incY YI bufX bufA (m : mem t) :
  M = 0 \/ N = 0 -> rzgemv tu b fold Order Trans M N alpha A lda X incX beta Y incY YI bufX bufA m = m.
Proof. intros [-> | ->]; unfold rzgemv; rewrite ?orb_true_r; reflexivity. Qed.
Print Assumptions C40_rzgemv_empty.

(** *** Cases *)
Definition ones_mem : mem Dbl := fun a => mkf (1 - a mod 2) 0.
Definition zgemv_run (Order Trans : ascii) (M N : Z) (alpha beta : F Dbl * F Dbl) (m : mem Dbl) : mem Dbl :=
  rzgemv sample_tuning sample_blocks 3 Order Trans M N alpha 0 6 100 2 beta 900 10 1000 2000 3000 m.
(** Column major, conjugate transpose, M = 2, N = 1, A and x all ones: y becomes 1, the dot product is 2.
    Everything but right_length holds. *)
Theorem C40_refuted :
  let M := 2 in let N := 1 in let T := 5000 in let one : F Dbl * F Dbl := (mkf 1 0, mkf 0 0) in let zero : F Dbl * F Dbl := (mkf 0 0, mkf 0 0) in
  let m' := zgemv_run "C" "c" M N one zero ones_mem in
  tuned Dbl sample_tuning /\ legal_gemv sample_blocks /\
  zgemv_layout 3 "C" "c" N M 0 6 100 2 1000 1 2000 3000 (xt_block sample_blocks * yt_block sample_blocks) /\
  Z.min (Z.min M (dot_block sample_blocks "C" "c")) (block_max sample_tuning) <= ENDURANCE Dbl / 2 /\
  let all := zgemv_products ones_mem "C" "c" 0 6 one 100 2 M 0 in
  all_finite (map fst all) = true /\
  toZ (m' 900) = toZ (mkf 1 0 : F Dbl) /\ toZ (ddbconv 3 T (sum_list 3 T (map fst all) ones_mem)) = toZ (mkf 2 0 : F Dbl) /\
  ~ sum_value 3 T (map fst all) ones_mem (m' 900).
Proof.
  assert (E1 : all_finite (map fst (zgemv_products ones_mem "C" "c" 0 6 (mkf 1 0, mkf 0 0) 100 2 2 0)) = true) by (vm_compute; reflexivity).
  assert (E2 : toZ (zgemv_run "C" "c" 2 1 (mkf 1 0, mkf 0 0) (mkf 0 0, mkf 0 0) ones_mem 900) = toZ (mkf 1 0 : F Dbl)) by (vm_compute; reflexivity).
  assert (E3 : toZ (ddbconv 3 5000 (sum_list 3 5000 (map fst (zgemv_products ones_mem "C" "c" 0 6 (mkf 1 0, mkf 0 0) 100 2 2 0)) ones_mem)) = toZ (mkf 2 0 : F Dbl)) by (vm_compute; reflexivity).
  assert (E4 : toZ (mkf 1 0 : F Dbl) <> toZ (mkf 2 0 : F Dbl)) by (vm_compute; discriminate).
  cbv zeta. split; [apply C18_case|]. split; [apply C23_case|]. split; [|split; [vm_compute; discriminate|]].
  - change (xt_block sample_blocks * yt_block sample_blocks) with 4.
    assert (OA : forall i j, 0 <= i < 1 -> 0 <= j < 2 -> 0 <= zop_addr "C" "c" 0 6 i j < 12).
    { intros i j Hi Hj. unfold zop_addr, op_addr, elem_addr. cbn -[Z.mul Z.add]. lia. }
    unfold zgemv_layout, zgemv_touched, within, zy_at, zbnum. split; [lia|]. split; [|split; [|split]].
    + intros i j o Hi Hj Ho. specialize (OA i j Hi Hj). intros [(r & Hr & H)|[H|H]]; lia.
    + intros j o Hj Ho. intros [(r & Hr & H)|[H|H]]; lia.
    + intros; lia.
    + intros; lia.
  - split; [exact E1|]. split; [exact E2|]. split; [exact E3|]. unfold sum_value. rewrite E1. intros E. apply (f_equal toZ) in E. congruence.
Qed.
Print Assumptions C40_refuted.
(** M = 1, N = 2: y depends on memory that is in neither A nor x nor y. *)
Theorem C40_reads_beyond_refuted :
  let one : F Dbl * F Dbl := (mkf 1 0, mkf 0 0) in let zero : F Dbl * F Dbl := (mkf 0 0, mkf 0 0) in
  let m' := upd ones_mem 104 (mkf 7 0) in
  (forall i j o, 0 <= i < 2 -> 0 <= j < 1 -> o = 0 \/ o = 1 -> zop_addr "C" "c" 0 6 i j + o <> 104) /\
  (forall j o, 0 <= j < 1 -> o = 0 \/ o = 1 -> 100 + 2 * (j * 2) + o <> 104) /\
  toZ (zgemv_run "C" "c" 1 2 one zero ones_mem 900) <> toZ (zgemv_run "C" "c" 1 2 one zero m' 900).
Proof.
  cbv zeta. split; [|split].
  - intros i j o Hi Hj Ho. unfold zop_addr, op_addr, elem_addr. cbn -[Z.mul Z.add]. lia.
  - intros; lia.
  - vm_compute. discriminate.
Qed.
Print Assumptions C40_reads_beyond_refuted.
(** The hypotheses of C40 hold for every order and flag. *)
Example C40_case :
  (forall Order Trans, zgemv_layout 3 Order Trans 3 3 0 6 100 2 1000 1 2000 3000 (xt_block sample_blocks * yt_block sample_blocks) /\
     right_length sample_blocks Order Trans 3 3 /\
     Z.min (Z.min 3 (dot_block sample_blocks Order Trans)) (block_max sample_tuning) <= ENDURANCE Dbl / 2) /\
  (forall i o, 0 <= i < 3 -> o = 0 \/ o = 1 -> ~ zgemv_touched 3 3 1000 1 2000 3 3000 4 (900 + 2 * (i * 10) + o)) /\
  2 * 3 + 1 <= CAPACITY Dbl /\
  map (fun OT => let m' := zgemv_run (fst OT) (snd OT) 3 3 (mkf 1 1, mkf 3 0) (mkf (-3) 0, mkf 1 0) sample_mem in
      map (fun i => Z.shiftr (toZ (m' (900 + i))) 1074) [0; 1; 20; 21; 40; 41])
    [("r", "N"); ("C", "n"); ("R", "t"); ("c", "T"); ("r", "c"); ("c", "C")]%char =
    [[-6601383604227; -9902034514943; -19791206158349; -29686816053269; 13198437649426; 19797649652763];
     [-28986812401; 19347306485; -19795513710605; -29679291474965; 4302301184; -7525624832];
     [-28986812401; 19347306485; -19795513710605; -29679291474965; 4302301184; -7525624832];
     [-6601383604227; -9902034514943; -19791206158349; -29686816053269; 13198437649426; 19797649652763];
     [29011986447; -19309551627; -19795551447029; -29679266290673; -17172535296; -11820592128];
     [-6592781086723; -9889158001663; -19791262781429; -29686778304497; 13189898046446; 19784731196389]].
Proof.
  split; [|split; [|split; [vm_compute; discriminate|vm_compute; reflexivity]]].
  - intros Order Trans. split; [|split].
    + change (xt_block sample_blocks * yt_block sample_blocks) with 4.
      assert (OA : forall i j, 0 <= i < 3 -> 0 <= j < 3 -> 0 <= zop_addr Order Trans 0 6 i j < 30).
      { intros i j Hi Hj. unfold zop_addr, op_addr, elem_addr. destruct (is_row Order), (is_notrans Trans); lia. }
      unfold zgemv_layout, zgemv_touched, within, zy_at, zbnum. split; [lia|]. split; [|split; [|split]].
      * intros i j o Hi Hj Ho. specialize (OA i j Hi Hj). intros [(r & Hr & H)|[H|H]]; lia.
      * intros j o Hj Ho. intros [(r & Hr & H)|[H|H]]; lia.
      * intros; lia.
      * intros; lia.
    + right. right. left. reflexivity.
    + apply Z.le_trans with 3; [lia|vm_compute; discriminate].
  - intros i o Hi Ho. unfold zgemv_touched, within, zy_at, zbnum. intros [(r & Hr & H)|[H|H]]; lia.
Qed.
