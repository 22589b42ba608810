(** * C75: sums of nonnegative data, absolute sums and norms are nonnegative, and zero only for zero data *)
From Coq Require Import ZArith Bool List Lia Reals Lra Permutation.
From Flocq Require Import Core BinarySingleNaN.
From Verif Require Import Fp Mem Binned Spec Client FpProofs BitProofs CoreArith SpecProofs WordProofs MemProofs AccProofs SumProofs ClientProofs ConvProofs RescaleProofs ScaleProofs SumError ConvTerms ConvFloat ConvSpec RoundTrip PropsSum Gen GenProofs Blas LaneProofs ReduceProofs BlasSpec PropsBlas PropsScale PropsAcc PropsConv PropsSign PropsApi Ssq SsqProofs SsqSpec PropsSsq AccReal NrmAcc PropsNrm Exact PropsExact PropsZero.
Import ListNotations.
Open Scope Z_scope.

(** What the kept bins hold of a nonnegative number is nonnegative, and positive if its first bin is kept
    and another bin follows. *)
Lemma kept_nonneg t X j : 0 <= j -> 0 <= X -> 0 <= X - remainder t X (Z.to_nat (j + 1)).
Proof.
  intros Hj HX. pose proof (remainder_half t X j Hj) as HH. destruct (rem_div t X j Hj) as [c E]. pose proof (unit_exp_ge t j).
  pose proof (pow2_pos (unit_exp t j) ltac:(lia)). assert (0 <= c); [|nia]. destruct (Z.le_gt_cases 0 c); [assumption|]. nia.
Qed.
Lemma kept_pos t X k j : 0 < X -> X < 2 ^ (emax t - emin t) -> k = bin_of t X -> k < j -> j <= jmax t -> 0 < X - remainder t X (Z.to_nat (j + 1)).
Proof.
  intros HX HS EK Hj HJ. pose proof (bin_of_range t X) as BR. rewrite <- EK in BR. specialize (BR ltac:(unfold span; rewrite Z.abs_eq by lia; exact HS)).
  pose proof (remainder_half t X j ltac:(lia)) as HH. pose proof (width_pos t) as WP.
  assert (UX : 2 ^ unit_exp t j <= X).
  { unfold bin_of in EK. destruct (Z.eqb_spec X 0); [lia|]. rewrite Z.abs_eq in EK by lia.
    set (g := emax t - emin t - (Z.log2 X + 1)) in *. assert (Q : k = g / width t) by lia.
    pose proof (Z.div_mod g (width t) ltac:(lia)) as DM. pose proof (Z.mod_pos_bound g (width t) ltac:(lia)). rewrite <- Q in DM.
    destruct (Z.log2_spec X HX) as [L1 _]. apply (Z.le_trans _ (2 ^ Z.log2 X)); [|exact L1]. apply Z.pow_le_mono_r; [lia|].
    unfold unit_exp. rewrite Z.min_l by lia. unfold g in *. nia. }
  pose proof (unit_exp_ge t j). pose proof (pow2_pos (unit_exp t j) ltac:(lia)). lia.
Qed.

Section pos.
  Context {t : ty} (fold : Z) (xs : list (F t)) (Y : Z) (m : mem t).
  Hypothesis Hf : 2 <= fold <= MAXFOLD t.
  Hypothesis AF : all_finite xs = true.
  Hypothesis NE : xs <> [].
  Hypothesis HC : Z.of_nat (length xs) <= CAPACITY t.
  Local Notation k := (fold_right Z.min (jmax t) (map (fun x => bin_of t (toZ x)) xs)).
  Hypothesis HK : k + fold - 1 <= jmax t.
  Hypothesis HT : 2 * Z.abs (exact_sum xs) + Z.of_nat (length xs) * 2 ^ unit_exp t (k + fold - 1) <= 2 * (2 ^ (emax t - emin t) - 2 ^ (emax t - emin t - 20)).
  Hypothesis HP : forall x, In x xs -> 0 <= toZ x.
  Local Notation M := (sum_list fold Y xs m).
  Local Notation v := (value t fold (lead xs) (fun i => M (Y + i * 1)) (fun i => M (Y + fold + i * 1))).
  Lemma v_left : v = exact_sum xs - left_of xs (lead xs + fold).
  Proof.
    pose proof (hyps fold xs Y m Hf AF NE HC HK) as H. unfold value.
    pose proof (value_sums fold [] xs _ _ (Z.to_nat fold) H 0 ltac:(lia) ltac:(lia)) as E. cbn [app] in E. rewrite E. clear E H.
    rewrite <- (left_lead t xs 0 AF (lead xs)) by lia. pose proof (lead_range xs) as LR.
    assert (G : forall n, fold_right Z.add 0 (map (fun a => sums xs (lead xs + 0 + Z.of_nat a) * 2 ^ unit_exp t (lead xs + 0 + Z.of_nat a)) (seq 0 n)) = left_of xs (lead xs) - left_of xs (lead xs + Z.of_nat n)).
    { clear - LR. induction n as [|n IH]; [cbn [seq map fold_right]; rewrite Z.add_0_r; lia|].
      rewrite seq_S, map_app, fold_right_app. cbn [map fold_right Nat.add]. replace (lead xs + Z.of_nat (S n)) with (lead xs + Z.of_nat n + 1) by lia.
      rewrite left_succ by lia. rewrite Z.add_0_r.
      assert (FA : forall l c, fold_right Z.add c l = fold_right Z.add 0 l + c) by (induction l as [|y l IHl]; intros c; cbn [fold_right]; [lia|]; rewrite IHl; lia).
      rewrite FA, Z.add_0_r. rewrite Z.add_0_r in IH. rewrite IH. ring. }
    rewrite G, Z2Nat.id by lia. reflexivity.
  Qed.
  Lemma v_pos : 0 < v.
  Proof.
    rewrite v_left. pose proof (k_lead xs AF) as KL. rewrite KL in HK. pose proof (lead_range xs) as LR.
    replace (lead xs + fold) with (lead xs + fold - 1 + 1) by lia. set (j := lead xs + fold - 1) in *.
    assert (NN : forall l : list (F t), (forall x, In x l -> 0 <= toZ x) -> 0 <= exact_sum l - left_of l (j + 1)).
    { intros l H. unfold exact_sum, left_of. induction l as [|x l IH]; cbn [map fold_right]; [lia|].
      specialize (IH (fun y I => H y (or_intror I))). pose proof (kept_nonneg t (toZ x) j ltac:(lia) (H x (or_introl eq_refl))). lia. }
    destruct (PropsExact.lead_in xs AF) as [E|(x & I & E)]; [lia|].
    destruct (in_split _ _ I) as (l1 & l2 & EX).
    assert (S1 : exact_sum xs - left_of xs (j + 1) = (exact_sum l1 - left_of l1 (j + 1)) + (toZ x - remainder t (toZ x) (Z.to_nat (j + 1))) + (exact_sum l2 - left_of l2 (j + 1))).
    { rewrite EX. unfold exact_sum, left_of. rewrite !map_app, !fold_right_app. cbn [map fold_right].
      assert (FA : forall l c, fold_right Z.add c l = fold_right Z.add 0 l + c) by (induction l as [|y l IHl]; intros c; cbn [fold_right]; [lia|]; rewrite IHl; lia).
      rewrite FA. rewrite (FA _ (remainder _ _ _ + _)). lia. }
    rewrite S1. pose proof (NN l1 ltac:(intros y Iy; apply HP; rewrite EX; apply in_or_app; now left)). pose proof (NN l2 ltac:(intros y Iy; apply HP; rewrite EX; apply in_or_app; right; now right)).
    assert (X0 : 0 < toZ x). { pose proof (HP x I). destruct (Z.eq_dec (toZ x) 0) as [Z0|]; [|lia]. rewrite Z0 in E. unfold bin_of in E. cbn in E. lia. }
    pose proof (kept_pos t (toZ x) (lead xs) j X0) as KP. pose proof (toZ_span t x) as SP. unfold span in SP. specialize (KP ltac:(lia) E ltac:(lia) ltac:(lia)). lia.
  Qed.
  Lemma conv_pos : is_finite (ddbconv fold Y M) = true /\ 0 < toZ (ddbconv fold Y M).
  Proof.
    pose proof (hyps fold xs Y m Hf AF NE HC HK) as H. pose proof (fits_v fold xs Y m Hf AF NE HC HT) as FT.
    destruct (conv_accuracy fold [] xs _ _ H FT) as [A B]. cbv zeta in B. cbn [app] in B. rewrite <- conv_words_ddb in A, B.
    split; [exact A|]. pose proof v_pos as VP. set (r := toZ _) in *. set (w := v) in *.
    assert (CU : conv_ulps t < 1000 * 2 ^ prec t) by (destruct t; vm_compute; reflexivity). nia.
  Qed.
End pos.

(** Sums of nonnegative data whose largest element is not among the tiniest (its bin and the fold - 1 next ones exist):
    strictly positive. *)
Theorem C75_sum t tu fold N X incX tmp (m : mem t) :
  2 <= fold <= MAXFOLD t -> tuned t tu -> 0 < N <= CAPACITY t -> clear_of X incX N tmp (dbnum fold) ->
  let xs := read m X incX N in
  all_finite xs = true -> (forall x, In x xs -> 0 <= toZ x) ->
  let k := fold_right Z.min (jmax t) (map (fun x => bin_of t (toZ x)) xs) in k + fold - 1 <= jmax t ->
  2 * exact_sum xs + N * 2 ^ unit_exp t (k + fold - 1) <= 2 * (2 ^ (emax t - emin t) - 2 ^ (emax t - emin t - 20)) ->
  let r := rdsum tu fold N X incX tmp m in is_finite r = true /\ 0 < toZ r.
Proof.
  intros Hf HT HN CX xs FX HP k HK HB r. pose proof (read_length m X incX N ltac:(lia)) as LN. fold xs in LN.
  assert (E : r = ddbconv fold 0 (sum_list fold 0 xs (fun _ => fzero))) by (apply C20_is_scalar_sum; auto; lia). rewrite E.
  assert (S0 : 0 <= exact_sum xs) by (clear - HP; unfold exact_sum; induction xs as [|x l IH]; cbn [map fold_right]; [lia|]; specialize (IH (fun y I => HP y (or_intror I))); specialize (HP x (or_introl eq_refl)); lia).
  apply conv_pos; auto; try (rewrite LN; fold k; lia). intros E0. rewrite E0 in LN. cbn in LN. lia.
Qed.
Print Assumptions C75_sum.
(** Data of zeros only (of either sign): +0. *)
Theorem C75_zero t tu fold N X incX tmp (m : mem t) :
  2 <= fold <= MAXFOLD t -> tuned t tu -> 0 <= N <= CAPACITY t -> clear_of X incX N tmp (dbnum fold) ->
  (forall i, 0 <= i < N -> feq (m (X + i * incX)) fzero = true) ->
  rdsum tu fold N X incX tmp m = fzero /\ rdasum tu fold N X incX tmp m = fzero /\ (fold <= ssq_fold t -> rdnrm2 tu fold N X incX tmp m = fzero).
Proof.
  intros Hf HT HN CX HZ.
  assert (HX : forall x, In x (read m X incX N) -> feq x fzero = true).
  { intros x Hx. apply in_map_iff in Hx. destruct Hx as (i & <- & Hi). apply zseq_In in Hi. apply HZ. lia. }
  assert (FX : all_finite (read m X incX N) = true) by (unfold all_finite; apply forallb_forall; intros x Hx; apply zero_toZ, HX, Hx).
  assert (NZ : nonzeros (read m X incX N) = []).
  { unfold nonzeros. revert HX. generalize (read m X incX N). clear. induction l as [|x l IH]; intros HX; [reflexivity|]. cbn [filter]. rewrite (HX x (or_introl eq_refl)). cbn [negb]. apply IH. intros y Hy. apply HX. now right. }
  assert (FM : all_finite (magnitudes m X incX N) = true) by (unfold magnitudes; now rewrite all_finite_fabs).
  assert (NM : nonzeros (magnitudes m X incX N) = []).
  { unfold magnitudes. rewrite nz_map, NZ; [reflexivity|]. intros x Ex. destruct (zero_toZ x Ex) as [Fx Zx]. rewrite feq_zero by (unfold fabs; now rewrite is_finite_Babs). rewrite toZ_fabs, Zx. reflexivity. }
  assert (A0 : acc_at fold [] [] (dbsetzero fold 0 (fun _ => fzero : F t)) 0) by (destruct (setzero_holds fold Hf 0 (fun _ => fzero : F t)) as [A _]; exact A).
  assert (CZ : ddbconv fold 0 (dbsetzero fold 0 (fun _ => fzero : F t)) = fzero).
  { unfold ddbconv. apply ddmconv_zero. unfold acc_at, holds in A0. cbn [all_finite forallb app] in A0. destruct (A0 0 ltac:(lia)) as [E _]. exact E. }
  pose proof (read_length m X incX N ltac:(lia)) as LN. pose proof HN as HN'. rewrite CAPACITY_eq in HN'.
  split; [|split].
  - rewrite (C20_is_scalar_sum t tu fold N X incX tmp 0 m (fun _ => fzero)) by auto. rewrite <- CZ.
    apply (conv_nz t fold (read m X incX N) []); auto; [rewrite NZ; constructor|]. apply sum_list_at; auto. lia.
  - rewrite (rdasum_value t tu fold N X incX tmp 0 m (fun _ => fzero)) by auto. rewrite <- CZ.
    apply (conv_nz t fold (magnitudes m X incX N) []); auto; [rewrite NM; constructor|]. apply sum_list_at; auto. rewrite magnitudes_length; lia.
  - intros Hs. apply nrm2_zeros; auto. lia.
Qed.
Print Assumptions C75_zero.
Theorem C75_asum t tu fold N X incX tmp (m : mem t) :
  2 <= fold <= MAXFOLD t -> tuned t tu -> 0 < N <= CAPACITY t -> clear_of X incX N tmp (dbnum fold) ->
  let xs := read m X incX N in
  all_finite xs = true ->
  let k := fold_right Z.min (jmax t) (map (fun x => bin_of t (toZ x)) xs) in k + fold - 1 <= jmax t ->
  2 * fold_right Z.add 0 (map (fun x => Z.abs (toZ x)) xs) + N * 2 ^ unit_exp t (k + fold - 1) <= 2 * (2 ^ (emax t - emin t) - 2 ^ (emax t - emin t - 20)) ->
  let r := rdasum tu fold N X incX tmp m in is_finite r = true /\ 0 < toZ r.
Proof.
  intros Hf HT HN CX xs FX k HK HB r. pose proof (magnitudes_length m X incX N ltac:(lia)) as LN.
  assert (FM : all_finite (magnitudes m X incX N) = true) by (unfold magnitudes; now rewrite all_finite_fabs).
  assert (E : r = ddbconv fold 0 (sum_list fold 0 (magnitudes m X incX N) (fun _ => fzero))) by (apply rdasum_value; auto; lia). rewrite E.
  assert (EA : exact_sum (magnitudes m X incX N) = fold_right Z.add 0 (map (fun x => Z.abs (toZ x)) xs)) by (unfold exact_sum, magnitudes; rewrite map_map; f_equal; apply map_ext; intros x; apply toZ_fabs).
  assert (EK : fold_right Z.min (jmax t) (map (fun x => bin_of t (toZ x)) (magnitudes m X incX N)) = k).
  { unfold magnitudes, k. rewrite map_map. f_equal. apply map_ext. intros x. rewrite toZ_fabs. unfold bin_of. rewrite Z.abs_involutive.
    destruct (Z.eqb_spec (toZ x) 0) as [->|]; [reflexivity|]. destruct (Z.eqb_spec (Z.abs (toZ x)) 0); [lia|reflexivity]. }
  assert (S0 : 0 <= fold_right Z.add 0 (map (fun x => Z.abs (toZ x)) xs)) by (clear; induction xs as [|x l IH]; cbn [map fold_right]; lia).
  apply conv_pos; auto; rewrite ?EK, ?EA, ?LN; try lia.
  - intros E0. rewrite E0 in LN. cbn in LN. lia.
  - intros x Hx. apply in_map_iff in Hx. destruct Hx as (y & <- & _). rewrite toZ_fabs. lia.
Qed.
Print Assumptions C75_asum.
Open Scope R_scope.
(** The norm: positive as soon as one element is not zero, however tiny. *)
Theorem C75_nrm2 t tu fold N X incX tmp (m : mem t) :
  (2 <= fold <= ssq_fold t - 1)%Z -> tuned t tu -> (0 <= N <= CAPACITY t)%Z -> clear_of X incX N tmp (dbnum fold) ->
  let xs := read m X incX N in
  all_finite xs = true -> IZR N * bpow radix2 (- width t * (fold - 1)) <= / 8 ->
  (1 + nrm_eps t fold N) * norm xs <= bpow radix2 (emax t) - bpow radix2 (emax t - prec t) ->
  let r := rdnrm2 tu fold N X incX tmp m in
  ((exists x, In x xs /\ toZ x <> 0%Z) -> is_finite r = true /\ (0 < toZ r)%Z) /\ ((forall x, In x xs -> toZ x = 0%Z) -> r = fzero).
Proof.
  intros Hf HT HN CX xs FX Hh HO r. split.
  - intros (x & Hx & X0). destruct (C56_nrm2 t tu fold N X incX tmp m Hf HT HN CX FX Hh HO) as [A B]. fold xs r in A, B. split; [exact A|].
    set (e := nrm_eps t fold N) in *. set (L := norm xs) in *.
    assert (E2 : e < / 2).
    { unfold e, nrm_eps. assert (bpow radix2 (- prec t) <= bpow radix2 (-24)) by (apply bpow_le; destruct t; vm_compute; discriminate).
      assert (bpow radix2 (-24) <= / 1000) by (change (bpow radix2 (-24)) with (/ IZR 16777216); apply Rinv_le; [lra|apply IZR_le; lia]).
      pose proof (bpow_gt_0 radix2 (- prec t)). destruct t; lra. }
    assert (LB : bpow radix2 (emin t) <= L).
    { assert (AB : bpow radix2 (emin t) <= Rabs (B2R x)).
      { rewrite toZ_B2R, Rabs_mult, (Rabs_pos_eq (bpow _ _)) by apply bpow_ge_0. pose proof (bpow_gt_0 radix2 (emin t)).
        assert (1 <= Rabs (IZR (toZ x))) by (rewrite <- abs_IZR; apply IZR_le; lia). nra. }
      assert (SQ : B2R x * B2R x <= total (map (fun x => x * x) (reals xs))).
      { clear - Hx. unfold reals. induction xs as [|y l IH]; [destruct Hx|]. cbn [map fold_right].
        assert (NN : forall l : list R, 0 <= total (map (fun x => x * x) l)) by (induction l0; cbn [map fold_right]; unfold total in *; cbn [map fold_right]; [lra|]; nra).
        unfold total in *. cbn [map fold_right]. specialize (NN (map B2R l)). destruct Hx as [->|Hx]; [lra|]. specialize (IH Hx). pose proof (Rle_0_sqr (B2R y)) as Q. unfold Rsqr in Q. lra. }
      apply (Rle_trans _ _ _ AB). rewrite <- sqrt_Rsqr_abs. unfold L, norm. apply sqrt_le_1_alt. exact SQ. }
    assert (BP : bpow radix2 (emin t) = 2 * bpow radix2 (emin t - 1)) by (replace (emin t) with (1 + (emin t - 1))%Z at 1 by lia; rewrite bpow_plus; reflexivity).
    apply Rabs_le_inv in B. pose proof (bpow_gt_0 radix2 (emin t - 1)). pose proof (nrm_eps_pos t fold N ltac:(lia)) as E0. fold e in E0.
    assert (0 < B2R r) by nra. rewrite toZ_B2R in H0. apply lt_IZR. pose proof (bpow_gt_0 radix2 (emin t)). nra.
  - intros HZ. apply nrm2_zeros; auto; [lia|]. fold xs. unfold nonzeros. clearbody xs. clear - HZ FX. unfold all_finite in FX. induction xs as [|x l IH]; [reflexivity|].
    cbn [forallb] in FX. apply andb_prop in FX. destruct FX as [Fx Fl]. cbn [filter]. rewrite feq_zero, (HZ x (or_introl eq_refl)) by exact Fx. cbn [Z.eqb negb].
    apply IH; [exact Fl|intros y Hy; apply HZ; now right].
Qed.
Print Assumptions C75_nrm2.
Open Scope Z_scope.
(** Inner products whose rounded products are all nonnegative (equal signs componentwise, for instance x with itself). *)
Theorem C75_dot t tu fold N X incX Y incY tmp (m : mem t) :
  2 <= fold <= MAXFOLD t -> tuned t tu -> 0 < N <= CAPACITY t -> clear_of X incX N tmp (dbnum fold) -> clear_of Y incY N tmp (dbnum fold) ->
  let ps := products m X incX Y incY N in
  all_finite ps = true -> (forall p, In p ps -> 0 <= toZ p) ->
  let k := fold_right Z.min (jmax t) (map (fun x => bin_of t (toZ x)) ps) in k + fold - 1 <= jmax t ->
  2 * exact_sum ps + N * 2 ^ unit_exp t (k + fold - 1) <= 2 * (2 ^ (emax t - emin t) - 2 ^ (emax t - emin t - 20)) ->
  let r := rddot tu fold N X incX Y incY tmp m in is_finite r = true /\ 0 < toZ r.
Proof.
  intros Hf HT HN CX CY ps FX HP k HK HB r.
  assert (LN : Z.of_nat (length ps) = N) by (unfold ps; rewrite products_map, map_length, zseq_length; lia).
  assert (E : r = ddbconv fold 0 (sum_list fold 0 ps (fun _ => fzero))) by (apply rddot_value; auto; lia). rewrite E.
  assert (S0 : 0 <= exact_sum ps) by (clear - HP; unfold exact_sum; induction ps as [|x l IH]; cbn [map fold_right]; [lia|]; specialize (IH (fun y I => HP y (or_intror I))); specialize (HP x (or_introl eq_refl)); lia).
  apply conv_pos; auto; try (rewrite LN; fold k; lia). intros E0. rewrite E0 in LN. cbn in LN. lia.
Qed.
Print Assumptions C75_dot.

(** Signs do not matter to the absolute sum and the norm: any two vectors with the same magnitudes, wherever and however
    strided, give the same bits. *)
Theorem C75_signs t tu tu' fold N X incX X' incX' tmp tmp' (m m' : mem t) :
  2 <= fold <= MAXFOLD t -> tuned t tu -> tuned t tu' -> 0 <= N <= CAPACITY t ->
  clear_of X incX N tmp (dbnum fold) -> clear_of X' incX' N tmp' (dbnum fold) ->
  all_finite (read m X incX N) = true ->
  (forall i, 0 <= i < N -> m' (X' + i * incX') = m (X + i * incX) \/ m' (X' + i * incX') = Bopp (m (X + i * incX))) ->
  rdasum tu fold N X incX tmp m = rdasum tu' fold N X' incX' tmp' m'.
Proof.
  intros Hf HT HT' HN CX CX' FX HE.
  assert (EM : magnitudes m' X' incX' N = magnitudes m X incX N).
  { unfold magnitudes, read. rewrite !map_map. apply map_ext_in. intros i Hi. apply zseq_In in Hi. destruct (HE i ltac:(lia)) as [->| ->]; [reflexivity|].
    unfold fabs. destruct (m (X + i * incX)); reflexivity. }
  assert (FM : all_finite (magnitudes m X incX N) = true) by (unfold magnitudes; now rewrite all_finite_fabs).
  rewrite (rdasum_value t tu fold N X incX tmp 0 m (fun _ => fzero)), (rdasum_value t tu' fold N X' incX' tmp' 0 m' (fun _ => fzero)); auto; rewrite EM; auto.
Qed.
Print Assumptions C75_signs.
(** Without the condition on the bin the absolute sum of a nonzero vector can be zero: the smallest subnormal is below
    the unit of the last bin. *)
Theorem C75_tiny_refuted :
  let m : mem Dbl := fun _ => mkf 1 (-1074) in
  clear_of 0 1 1 100 (dbnum 3) /\ all_finite (read m 0 1 1) = true /\ toZ (m 0) = 1 /\
  rdasum sample_tuning 3 1 0 1 100 m = fzero /\ 0 < toZ (rdnrm2 sample_tuning 3 1 0 1 100 m).
Proof.
  intros m.
  assert (CX : clear_of 0 1 1 100 (dbnum 3)) by (intros i Hi; unfold dbnum; lia).
  assert (FX : all_finite (read m 0 1 1) = true) by (vm_compute; reflexivity).
  split; [exact CX|]. split; [exact FX|]. split; [vm_compute; reflexivity|]. split.
  - assert (Q : forall x : F Dbl, feq x fzero = true -> Bsign x = false -> x = fzero) by (intros x E S; destruct x as [[|]|[|]| |[|] ? ? ?]; try discriminate; reflexivity).
    apply Q; vm_compute; reflexivity.
  - vm_compute. reflexivity.
Qed.
Print Assumptions C75_tiny_refuted.

(** Non-vacuity: a vector with a huge and a tiny element. *)
Definition pos_mem : mem Dbl := fun a => if Z.eqb a 0 then mkf 3 900 else if Z.eqb a 1 then mkf 1 (-1074) else if Z.eqb a 2 then mkf 7 (-3) else fzero.
Example C75_case : clear_of 0 1 3 100 (dbnum 3) /\ let xs := read pos_mem 0 1 3 in all_finite xs = true /\ (forall x, In x xs -> 0 <= toZ x) /\
  let k := fold_right Z.min (jmax Dbl) (map (fun x => bin_of Dbl (toZ x)) xs) in k + 3 - 1 <= jmax Dbl /\
  2 * exact_sum xs + 3 * 2 ^ unit_exp Dbl (k + 3 - 1) <= 2 * (2 ^ (emax Dbl - emin Dbl) - 2 ^ (emax Dbl - emin Dbl - 20)) /\
  0 < toZ (rdsum sample_tuning 3 3 0 1 100 pos_mem).
Proof.
  split; [intros i Hi; unfold dbnum; lia|]. cbv zeta. split; [vm_compute; reflexivity|]. split.
  - assert (B : forallb (fun x => Z.leb 0 (toZ x)) (read pos_mem 0 1 3) = true) by (vm_compute; reflexivity). rewrite forallb_forall in B.
    intros x Hx. specialize (B x Hx). now apply Z.leb_le.
  - split; [apply Z.leb_le; vm_compute; reflexivity|]. split; [apply Z.leb_le; vm_compute; reflexivity|]. apply Z.ltb_lt. vm_compute. reflexivity.
Qed.
