(** * C55: accuracy of sums, absolute sums, dot products and matrix-vector products *)
From Coq Require Import ZArith Reals Bool List Lia Lra Permutation Ascii.
From Flocq Require Import Core Relative BinarySingleNaN.
From Verif Require Import Fp Mem Binned Spec Client FpProofs BitProofs SpecProofs MemProofs AccProofs SumProofs ScaleProofs ClientProofs ConvProofs SumError ConvFloat PropsSum PropsConv PropsAcc Gen GenProofs Blas LaneProofs DriverProofs BlasSpec PropsBlas Gemv GemvSpec GemvProofs PropsGemv SsqProofs Defaults PropsDefault PropsApi AccReal.
Import ListNotations.
Open Scope R_scope.

(** The sum: at most 4.1 * 2^-53 (double) or 1.001 * 2^-24 (float) of the exact sum, plus 1.001 * N * 2^(-W (fold-1)) times
    the largest summand.  No intermediate overflow; the largest summand is not tiny. *)
Theorem C55_sum t tu fold N X incX tmp (m : mem t) M :
  (2 <= fold <= MAXFOLD t)%Z -> tuned t tu -> (0 < N <= CAPACITY t)%Z -> clear_of X incX N tmp (dbnum fold) ->
  let xs := read m X incX N in
  all_finite xs = true -> max_abs M (reals xs) -> bpow radix2 (emax t - (jmax t - fold + 2) * width t) <= M ->
  let S := total (reals xs) in let E := sum_eps t fold N M in
  Rabs S + E <= bpow radix2 (emax t) - bpow radix2 (emax t - 20) ->
  let r := rdsum tu fold N X incX tmp m in
  is_finite r = true /\ Rabs (B2R r - S) <= conv_eps t * Rabs S + 1001 / 1000 * E.
Proof.
  intros Hf HT HN CX xs FX HM HB S E HS r.
  assert (ER : r = ddbconv fold 0 (sum_list fold 0 xs m)) by (apply C20_is_scalar_sum; auto; lia).
  assert (LN : Z.of_nat (length xs) = N) by (apply read_length; lia).
  destruct (sum_error fold xs M Hf FX HM HB 0 m) as [R1 R2].
  { intros E0. rewrite E0 in LN. cbn in LN. lia. }
  { lia. }
  { rewrite LN. exact HS. }
  rewrite LN in R2. rewrite ER. auto.
Qed.
Print Assumptions C55_sum.
(** The routine without a fold argument, double precision, in plain numbers. *)
Theorem C55_dsum tu N X incX tmp (m : mem Dbl) M :
  tuned Dbl tu -> (0 < N <= CAPACITY Dbl)%Z -> clear_of X incX N tmp 6 ->
  let xs := read m X incX N in
  all_finite xs = true -> max_abs M (reals xs) -> bpow radix2 (-976) <= M ->
  let S := total (reals xs) in
  Rabs S + IZR N * bpow radix2 (-80) * M <= bpow radix2 1024 - bpow radix2 1004 ->
  let r := dsum tu N X incX tmp m in
  is_finite r = true /\ Rabs (B2R r - S) <= 41 / 10 * bpow radix2 (-53) * Rabs S + 1001 / 1000 * (IZR N * bpow radix2 (-80) * M).
Proof. intros HT HN CX xs FX HM HB S HS r. apply (C55_sum Dbl tu 3 N X incX tmp m M); auto. vm_compute. split; discriminate. Qed.
Print Assumptions C55_dsum.
Theorem C55_ssum tu N X incX tmp (m : mem Flt) M :
  tuned Flt tu -> (0 < N <= CAPACITY Flt)%Z -> clear_of X incX N tmp 6 ->
  let xs := read m X incX N in
  all_finite xs = true -> max_abs M (reals xs) -> bpow radix2 (-119) <= M ->
  let S := total (reals xs) in
  Rabs S + IZR N * bpow radix2 (-26) * M <= bpow radix2 128 - bpow radix2 108 ->
  let r := dsum tu N X incX tmp m in
  is_finite r = true /\ Rabs (B2R r - S) <= 1001 / 1000 * bpow radix2 (-24) * Rabs S + 1001 / 1000 * (IZR N * bpow radix2 (-26) * M).
Proof. intros HT HN CX xs FX HM HB S HS r. apply (C55_sum Flt tu 3 N X incX tmp m M); auto. vm_compute. split; discriminate. Qed.
Print Assumptions C55_ssum.

(** ** Absolute sums: relative accuracy *)
Lemma total_max l M : (forall x, In x l -> 0 <= x) -> (exists x, In x l /\ Rabs x = M) -> M <= total l /\ 0 <= total l.
Proof.
  unfold total. intros HP (x & Ix & Ex).
  assert (P : 0 <= fold_right Rplus 0 l).
  { clear Ix Ex. induction l as [|y l IH]; cbn [fold_right]; [lra|]. assert (0 <= y) by (apply HP; now left).
    assert (0 <= fold_right Rplus 0 l) by (apply IH; intros z Hz; apply HP; now right). lra. }
  split; [|exact P]. induction l as [|y l IH]; [destruct Ix|]. cbn [fold_right].
  assert (Y0 : 0 <= y) by (apply HP; now left).
  assert (P' : 0 <= fold_right Rplus 0 l).
  { clear - HP. induction l as [|z l IH]; cbn [fold_right]; [lra|]. assert (0 <= z) by (apply HP; cbn; auto).
    assert (0 <= fold_right Rplus 0 l) by (apply IH; intros w [->|Hw]; apply HP; cbn; auto). lra. }
  destruct Ix as [->|Ix].
  - rewrite Rabs_pos_eq in Ex by exact Y0. lra.
  - assert (M <= fold_right Rplus 0 l) by (apply IH; auto; intros z Hz; apply HP; now right). lra.
Qed.
Lemma reals_fabs {t} (xs : list (F t)) : reals (map fabs xs) = map Rabs (reals xs).
Proof. unfold reals. rewrite !map_map. apply map_ext. intros x. unfold fabs. apply B2R_Babs. Qed.
Theorem C55_asum t tu fold N X incX tmp (m : mem t) M :
  (2 <= fold <= MAXFOLD t)%Z -> tuned t tu -> (0 < N <= CAPACITY t)%Z -> clear_of X incX N tmp (dbnum fold) ->
  let xs := read m X incX N in
  all_finite xs = true -> max_abs M (reals xs) -> bpow radix2 (emax t - (jmax t - fold + 2) * width t) <= M ->
  let S := total (map Rabs (reals xs)) in
  S + sum_eps t fold N M <= bpow radix2 (emax t) - bpow radix2 (emax t - 20) ->
  let r := rdasum tu fold N X incX tmp m in
  is_finite r = true /\
  Rabs (B2R r - S) <= (conv_eps t + 1001 / 1000 * (IZR N * bpow radix2 (- width t * (fold - 1)))) * S.
Proof.
  intros Hf HT HN CX xs FX HM HB S HS r.
  assert (FM : all_finite (magnitudes m X incX N) = true) by (unfold magnitudes; now rewrite all_finite_fabs).
  assert (ER : r = ddbconv fold 0 (sum_list fold 0 (magnitudes m X incX N) m)) by (apply rdasum_value; auto; lia).
  pose proof (magnitudes_length m X incX N ltac:(lia)) as LN.
  assert (MA : max_abs M (reals (magnitudes m X incX N))).
  { unfold magnitudes. rewrite reals_fabs. destruct HM as [H1 (x & Ix & Ex)]. split.
    - intros y Hy. apply in_map_iff in Hy. destruct Hy as (z & <- & Hz). rewrite Rabs_Rabsolu. auto.
    - exists (Rabs x). split; [now apply in_map|]. now rewrite Rabs_Rabsolu. }
  assert (SE : S = total (reals (magnitudes m X incX N))) by (unfold magnitudes; now rewrite reals_fabs).
  destruct (total_max (map Rabs (reals xs)) M) as [SM S0].
  { intros y Hy. apply in_map_iff in Hy. destruct Hy as (z & <- & _). apply Rabs_pos. }
  { destruct HM as [_ (x & Ix & Ex)]. exists (Rabs x). split; [now apply in_map|]. now rewrite Rabs_Rabsolu. }
  fold S in SM, S0.
  destruct (sum_error fold (magnitudes m X incX N) M Hf FM MA HB 0 m) as [R1 R2].
  { intros E0. rewrite E0 in LN. cbn in LN. lia. }
  { lia. }
  { rewrite LN, <- SE, Rabs_pos_eq by exact S0. exact HS. }
  rewrite ER. split; [exact R1|]. rewrite LN, <- SE, (Rabs_pos_eq S) in R2 by exact S0. eapply Rle_trans; [exact R2|].
  unfold sum_eps. assert (0 <= IZR N * bpow radix2 (- width t * (fold - 1))) by (apply Rmult_le_pos; [apply IZR_le; lia|apply bpow_ge_0]).
  set (w := IZR N * bpow radix2 (- width t * (fold - 1))) in *. assert (w * M <= w * S) by (apply Rmult_le_compat_l; auto). lra.
Qed.
Print Assumptions C55_asum.
(** Double, default fold: relative error below 5 * 2^-53 for up to 2^26 elements. *)
Theorem C55_dasum tu N X incX tmp (m : mem Dbl) M :
  tuned Dbl tu -> (0 < N <= 2 ^ 26)%Z -> clear_of X incX N tmp 6 ->
  let xs := read m X incX N in
  all_finite xs = true -> max_abs M (reals xs) -> bpow radix2 (-976) <= M ->
  let S := total (map Rabs (reals xs)) in
  S <= bpow radix2 1024 - bpow radix2 1005 ->
  let r := dasum tu N X incX tmp m in
  is_finite r = true /\ Rabs (B2R r - S) <= 5 * bpow radix2 (-53) * S.
Proof.
  intros HT HN CX xs FX HM HB S HS r.
  destruct (total_max (map Rabs (reals xs)) M) as [SM S0].
  { intros y Hy. apply in_map_iff in Hy. destruct Hy as (z & <- & _). apply Rabs_pos. }
  { destruct HM as [_ (x & Ix & Ex)]. exists (Rabs x). split; [now apply in_map|]. now rewrite Rabs_Rabsolu. }
  fold S in SM, S0.
  assert (NB : IZR N <= bpow radix2 26) by (rewrite bpow_IZR by lia; apply IZR_le; lia). assert (N0 : 0 <= IZR N) by (apply IZR_le; lia).
  assert (WB : IZR N * bpow radix2 (- width Dbl * (3 - 1)) <= bpow radix2 (-54)).
  { eapply Rle_trans; [apply Rmult_le_compat_r; [apply bpow_ge_0|exact NB]|]. rewrite <- bpow_plus. apply bpow_le. cbn. lia. }
  assert (M0 : 0 <= M) by (eapply Rle_trans; [apply bpow_ge_0|exact HB]).
  destruct (C55_asum Dbl tu 3 N X incX tmp m M) as [R1 R2]; auto.
  - vm_compute. split; discriminate.
  - assert (2 ^ 26 <= CAPACITY Dbl)%Z by (vm_compute; discriminate). lia.
  - fold xs S. unfold sum_eps.
    assert (IZR N * bpow radix2 (- width Dbl * (3 - 1)) * M <= bpow radix2 (-54) * bpow radix2 1024).
    { apply Rmult_le_compat; auto; [|eapply Rle_trans; [exact SM|]; eapply Rle_trans; [exact HS|]; pose proof (bpow_ge_0 radix2 1005); lra].
      apply Rmult_le_pos; [exact N0|apply bpow_ge_0]. }
    rewrite <- bpow_plus in H. change (emax Dbl) with 1024%Z. change (1024 - 20)%Z with 1004%Z.
    assert (E : bpow radix2 1005 = 2 * bpow radix2 1004) by (change 1005%Z with (1 + 1004)%Z; rewrite bpow_plus; reflexivity).
    assert (bpow radix2 (-54 + 1024) <= bpow radix2 1004) by (apply bpow_le; lia). pose proof (bpow_gt_0 radix2 1004). lra.
  - split; [exact R1|]. eapply Rle_trans; [exact R2|]. apply Rmult_le_compat_r; [exact S0|]. unfold conv_eps.
    assert (E : bpow radix2 (-53) = 2 * bpow radix2 (-54)) by (change (-53)%Z with (1 + -54)%Z; rewrite bpow_plus; reflexivity).
    change (- prec Dbl)%Z with (-53)%Z. pose proof (bpow_gt_0 radix2 (-54)). lra.
Qed.
Print Assumptions C55_dasum.
(** ** Dot products: the products are rounded once each *)
Lemma fmul_real_round t (x y : F t) : is_finite (fmul x y) = true -> B2R (fmul x y) = RN t (B2R x * B2R y).
Proof.
  intros H. pose proof (Bmult_correct (prec t) (emax t) (prec_gt_0 t) (prec_lt_emax t) mode_NE x y) as C.
  rewrite fexp_FLT in C. unfold fmul in *. cbn [round_mode] in C. destruct (Rlt_bool _ _).
  - destruct C as [C _]. exact C.
  - assert (FF : is_finite_SF (B2SF (Bmult mode_NE x y)) = true) by (rewrite is_finite_SF_B2SF; exact H).
    rewrite C in FF. unfold binary_overflow in FF. destruct (overflow_to_inf mode_NE (xorb (Bsign x) (Bsign y))) eqn:O; [discriminate FF|].
    cbn in O. discriminate O.
Qed.
Lemma RN_any t x : Rabs (RN t x - x) <= u_ t * Rabs x + bpow radix2 (emin t - 1).
Proof.
  destruct (error_N_FLT radix2 (emin t) (prec t) ltac:(destruct t; reflexivity) (fun z => negb (Z.even z)) x) as (e & d & He & Hd & _ & E).
  rewrite E. replace (x * (1 + e) + d - x) with (e * x + d) by ring. eapply Rle_trans; [apply Rabs_triang|]. rewrite Rabs_mult.
  assert (E1 : / 2 * bpow radix2 (- prec t + 1) = u_ t) by (rewrite bpow_plus; change (bpow radix2 1) with 2; field).
  assert (E2 : / 2 * bpow radix2 (emin t) = bpow radix2 (emin t - 1)) by (unfold Z.sub; rewrite bpow_plus; change (bpow radix2 (-(1))) with (/ 2); ring).
  rewrite E1 in He. rewrite E2 in Hd. apply Rplus_le_compat; [|exact Hd]. apply Rmult_le_compat_r; [apply Rabs_pos|exact He].
Qed.
(** The exact products. *)
Definition real_products {t} (m : mem t) (X incX Y incY N : Z) : list R :=
  map (fun '(x, y) => B2R x * B2R y) (combine (read m X incX N) (read m Y incY N)).
Definition prod_eps (t : ty) (N : Z) (A : R) : R := u_ t * A + IZR N * bpow radix2 (emin t - 1).
Lemma rounded_total t (ps : list (F t * F t)) : all_finite (map (fun '(x, y) => fmul x y) ps) = true ->
  Rabs (total (reals (map (fun '(x, y) => fmul x y) ps)) - total (map (fun '(x, y) => B2R x * B2R y) ps)) <=
  prod_eps t (Z.of_nat (length ps)) (total (map Rabs (map (fun '(x, y) => B2R x * B2R y) ps))).
Proof.
  unfold prod_eps, total, reals. induction ps as [|[x y] ps IH]; intros H.
  - cbn. rewrite Rminus_0_r, Rabs_R0. lra.
  - cbn [map all_finite forallb] in H. apply andb_true_iff in H. destruct H as [H1 H2]. specialize (IH H2). cbn [map fold_right length].
    rewrite fmul_real_round by exact H1. rewrite Nat2Z.inj_succ. unfold Z.succ. rewrite plus_IZR.
    set (a := fold_right Rplus 0 (map B2R _)) in *. set (b := fold_right Rplus 0 (map (fun '(x, y) => B2R x * B2R y) ps)) in *.
    set (c := fold_right Rplus 0 (map Rabs _)) in *. pose proof (RN_any t (B2R x * B2R y)) as R.
    replace (RN t (B2R x * B2R y) + a - (B2R x * B2R y + b)) with ((RN t (B2R x * B2R y) - B2R x * B2R y) + (a - b)) by ring.
    eapply Rle_trans; [apply Rabs_triang|]. lra.
Qed.
Lemma abs_total l : Rabs (total l) <= total (map Rabs l).
Proof. unfold total. induction l as [|x l IH]; cbn [map fold_right]; [rewrite Rabs_R0; lra|]. eapply Rle_trans; [apply Rabs_triang|lra]. Qed.
Theorem C55_dot t tu fold N X incX Y incY tmp (m : mem t) M :
  (2 <= fold <= MAXFOLD t)%Z -> tuned t tu -> (0 < N <= CAPACITY t)%Z ->
  clear_of X incX N tmp (dbnum fold) -> clear_of Y incY N tmp (dbnum fold) ->
  all_finite (products m X incX Y incY N) = true ->
  let ps := real_products m X incX Y incY N in
  max_abs M ps -> bpow radix2 (emax t - (jmax t - fold + 2) * width t) <= M ->
  let S := total ps in let D := prod_eps t N (total (map Rabs ps)) in let E := sum_eps t fold N M in
  Rabs S + D + 1001 / 1000 * E <= bpow radix2 (emax t) - bpow radix2 (emax t - 20) ->
  let r := rddot tu fold N X incX Y incY tmp m in
  is_finite r = true /\ Rabs (B2R r - S) <= conv_eps t * Rabs S + 1001 / 1000 * D + 1003 / 1000 * E.
Proof.
  intros Hf HT HN CX CY FX ps HM HB S D E HS r.
  assert (ER : r = ddbconv fold 0 (sum_list fold 0 (products m X incX Y incY N) m)) by (apply rddot_value; auto; lia).
  set (pp := combine (read m X incX N) (read m Y incY N)) in *.
  assert (LP : Z.of_nat (length pp) = N).
  { unfold pp. rewrite combine_length. pose proof (read_length m X incX N ltac:(lia)). pose proof (read_length m Y incY N ltac:(lia)). lia. }
  change (products m X incX Y incY N) with (map (fun '(x, y) => fmul x y) pp) in *.
  set (xs := map (fun '(x, y) => fmul x y) pp) in *.
  assert (LN : Z.of_nat (length xs) = N) by (unfold xs; rewrite map_length; exact LP).
  change ps with (map (fun '(x, y) => B2R x * B2R y) pp) in *.
  pose proof (rounded_total t pp FX) as RT. rewrite LP in RT. fold xs S in RT.
  change (prod_eps t N (total (map Rabs (map (fun '(x, y) => B2R x * B2R y) pp)))) with D in RT.
  set (thr := (emax t - (jmax t - fold + 2) * width t)%Z) in *.
  assert (UB : u_ t <= / 16777216) by (destruct t; cbn; lra). pose proof (bpow_gt_0 radix2 (- prec t)) as UP.
  assert (TP : (emin t + 17 <= thr)%Z) by (unfold thr; rewrite MAXFOLD_eq in Hf; destruct t; unfold emin; cbn [emax prec jmax width] in *; lia).
  assert (EM : bpow radix2 (emin t - 1) <= / 262144 * M).
  { apply Rle_trans with (bpow radix2 (-18) * bpow radix2 thr); [rewrite <- bpow_plus; apply bpow_le; lia|].
    replace (/ 262144) with (bpow radix2 (-18)) by (cbn; lra). apply Rmult_le_compat_l; [apply bpow_ge_0|exact HB]. }
  assert (M0 : 0 < M) by (eapply Rlt_le_trans; [apply bpow_gt_0|exact HB]).
  (* the largest rounded product *)
  assert (FIN : forall x y, In (x, y) pp -> is_finite (fmul x y) = true).
  { intros x y I. unfold all_finite in FX. rewrite forallb_forall in FX. apply FX. unfold xs. apply in_map_iff. exists (x, y). auto. }
  assert (BIG : forall z, In z (reals xs) -> Rabs z <= 1001 / 1000 * M).
  { intros z Hz. unfold reals, xs in Hz. rewrite map_map in Hz. apply in_map_iff in Hz. destruct Hz as ([x y] & <- & I).
    rewrite fmul_real_round by (apply FIN; exact I). pose proof (RN_any t (B2R x * B2R y)) as R.
    assert (A : Rabs (B2R x * B2R y) <= M) by (apply HM; apply in_map_iff; exists (x, y); auto).
    pose proof (Rabs_pos (B2R x * B2R y)) as A0.
    assert (Rabs (RN t (B2R x * B2R y)) <= Rabs (B2R x * B2R y) + Rabs (RN t (B2R x * B2R y) - B2R x * B2R y)).
    { replace (RN t (B2R x * B2R y)) with (B2R x * B2R y + (RN t (B2R x * B2R y) - B2R x * B2R y)) at 1 by ring. apply Rabs_triang. }
    assert (u_ t * Rabs (B2R x * B2R y) <= / 16777216 * M) by (apply Rmult_le_compat; lra). lra. }
  assert (THR : exists z, In z (reals xs) /\ bpow radix2 thr <= Rabs z).
  { destruct HM as [_ (z & I & Ez)]. apply in_map_iff in I. destruct I as ([x y] & <- & I). exists (B2R (fmul x y)). split.
    - unfold reals, xs. rewrite map_map. apply in_map_iff. exists (x, y). auto.
    - rewrite fmul_real_round by (apply FIN; exact I). rewrite <- Ez in HB.
      assert (FT : fmt t (bpow radix2 thr)) by (apply generic_format_FLT_bpow; [apply (prec_gt_0 t)|lia]).
      apply abs_round_ge_generic; [apply FLT_exp_valid; apply (prec_gt_0 t)|apply valid_rnd_N|exact FT|exact HB]. }
  assert (MX : exists M', max_abs M' (reals xs)).
  { assert (NEr : reals xs <> []) by (intros E0; apply map_eq_nil in E0; rewrite E0 in LN; cbn in LN; lia).
    clear - NEr. induction (reals xs) as [|a l IH]; [congruence|]. destruct l as [|b l].
    - exists (Rabs a). split; [|exists a; cbn; auto]. intros x [<-|[]]; lra.
    - destruct (IH ltac:(discriminate)) as (M1 & A1 & (x & I & Ex)). destruct (Rle_lt_dec M1 (Rabs a)).
      + exists (Rabs a). split; [|exists a; cbn; auto]. intros y [<-|Hy]; [lra|]. specialize (A1 y Hy). lra.
      + exists M1. split; [|exists x; split; [now right|exact Ex]]. intros y [<-|Hy]; [lra|]. exact (A1 y Hy). }
  destruct MX as (M' & MX). assert (ML : bpow radix2 thr <= M').
  { destruct THR as (z & I & Hz). destruct MX as [A _]. specialize (A z I). lra. }
  assert (MU : M' <= 1001 / 1000 * M) by (destruct MX as [_ (z & I & <-)]; auto).
  assert (EE : sum_eps t fold N M' <= 1001 / 1000 * E).
  { unfold E, sum_eps. assert (0 <= IZR N * bpow radix2 (- width t * (fold - 1))) by (apply Rmult_le_pos; [apply IZR_le; lia|apply bpow_ge_0]).
    set (w := IZR N * bpow radix2 (- width t * (fold - 1))) in *. assert (w * M' <= w * (1001 / 1000 * M)) by (apply Rmult_le_compat_l; auto). lra. }
  set (S' := total (reals xs)) in *.
  assert (AS : Rabs S' <= Rabs S + D). { replace S' with (S + (S' - S)) by ring. eapply Rle_trans; [apply Rabs_triang|]. lra. }
  destruct (sum_error fold xs M' Hf FX MX ML 0 m) as [R1 R2].
  { intros E0. rewrite E0 in LN. cbn in LN. lia. }
  { lia. }
  { rewrite LN. fold S'. lra. }
  rewrite LN in R2. fold S' in R2. rewrite ER. split; [exact R1|]. fold r in ER.
  set (rr := ddbconv fold 0 (sum_list fold 0 xs m)) in *.
  replace (B2R rr - S) with ((B2R rr - S') + (S' - S)) by ring. eapply Rle_trans; [apply Rabs_triang|].
  assert (CE : 0 < conv_eps t <= / 1000).
  { unfold conv_eps. destruct t; cbn; lra. }
  assert (D0 : 0 <= D) by (eapply Rle_trans; [apply Rabs_pos|exact RT]).
  assert (conv_eps t * Rabs S' <= conv_eps t * (Rabs S + D)) by (apply Rmult_le_compat_l; lra).
  assert (conv_eps t * D <= / 1000 * D) by (apply Rmult_le_compat_r; lra).
  assert (E0 : 0 <= E).
  { unfold E, sum_eps. apply Rmult_le_pos; [|lra]. apply Rmult_le_pos; [apply IZR_le; lia|apply bpow_ge_0]. }
  lra.
Qed.
Print Assumptions C55_dot.
(** ** Matrix products: every entry is a dot product *)
Theorem C55_gemv t tu b fold Order Trans M N (alpha beta : F t) A lda X incX Y incY YI bufX bufA (m : mem t) :
  (2 <= fold <= MAXFOLD t)%Z -> tuned t tu -> legal_gemv b -> (0 < M)%Z -> (0 < N)%Z ->
  feq alpha (mkf 1 0) = true -> feq beta fzero = true ->
  let rows := op_rows Trans M N in let cols := op_cols Trans M N in let lenA := (xt_block b * yt_block b)%Z in
  gemv_layout fold Order Trans rows cols A lda X incX YI 1 bufX bufA lenA -> incY <> 0%Z ->
  (forall i, (0 <= i < rows)%Z -> ~ gemv_touched fold rows YI 1 bufX cols bufA lenA (Y + i * incY)%Z) ->
  (cols + 1 <= CAPACITY t)%Z ->
  forall i Mi, (0 <= i < rows)%Z ->
  (forall k, (0 <= k < rows)%Z -> all_finite (gemv_products m Order Trans A lda alpha X incX cols k) = true) ->
  let ps := map (fun j => B2R (m (op_addr Order Trans A lda i j)) * B2R (m (X + j * incX)%Z)) (zseq 0 cols) in
  max_abs Mi ps -> bpow radix2 (emax t - (jmax t - fold + 2) * width t) <= Mi ->
  let S := total ps in let D := prod_eps t cols (total (map Rabs ps)) in let E := sum_eps t fold cols Mi in
  Rabs S + D + 1001 / 1000 * E <= bpow radix2 (emax t) - bpow radix2 (emax t - 20) ->
  let r := rdgemv tu b fold Order Trans M N alpha A lda X incX beta Y incY YI bufX bufA m (Y + i * incY)%Z in
  is_finite r = true /\ Rabs (B2R r - S) <= conv_eps t * Rabs S + 1001 / 1000 * D + 1003 / 1000 * E.
Proof.
  intros Hf HT LG HM HN H1 H0 rows cols lenA LY NY HY HC i Mi Hi FX ps HMi HB S D E HS r.
  assert (Cp : (0 < cols)%Z) by (unfold cols, op_cols; destruct (is_notrans Trans); lia).
  (* a copy of row i and of x to run a dot product on, far from its accumulator *)
  set (mm := fun a : Z => if (a <? cols)%Z then m (op_addr Order Trans A lda i a) else m (X + (a - cols) * incX)%Z).
  assert (MX0 : forall j, (0 <= j < cols)%Z -> mm (0 + j * 1)%Z = m (op_addr Order Trans A lda i j)).
  { intros j Hj. unfold mm. replace (0 + j * 1)%Z with j by lia. destruct (Z.ltb_spec j cols); [reflexivity|lia]. }
  assert (MY0 : forall j, (0 <= j < cols)%Z -> mm (cols + j * 1)%Z = m (X + j * incX)%Z).
  { intros j Hj. unfold mm. replace (cols + j * 1 - cols)%Z with j by lia. destruct (Z.ltb_spec (cols + j * 1) cols); [lia|reflexivity]. }
  clearbody mm.
  assert (EP : gemv_products m Order Trans A lda alpha X incX cols i = products mm 0 1 cols 1 cols).
  { rewrite products_map. unfold gemv_products. apply map_ext_in. intros j Hj. apply zseq_In in Hj. rewrite (fmul_one _ alpha) by exact H1.
    rewrite MX0, MY0 by lia. reflexivity. }
  assert (ES : ps = real_products mm 0 1 cols 1 cols).
  { unfold ps, real_products, read. rewrite combine_map, map_map. apply map_ext_in. intros j Hj. apply zseq_In in Hj.
    rewrite MX0, MY0 by lia. reflexivity. }
  destruct (C25_gemv t tu b fold Order Trans M N alpha beta A lda X incX Y incY YI bufX bufA 0 m Hf HT LG HM HN LY NY HY HC FX) as [R _].
  assert (ER : r = rddot tu fold cols 0 1 cols 1 (2 * cols) mm).
  { unfold r. rewrite (R i Hi). cbv zeta. fold cols. rewrite start_zero, feq_one_not_zero by assumption. rewrite EP.
    symmetry. apply rddot_value; auto; try lia.
    - intros k Hk. lia.
    - intros k Hk. lia.
    - rewrite <- EP. apply FX. exact Hi. }
  rewrite ER. unfold S, D in *. rewrite ES in *. apply (C55_dot t tu fold cols 0 1 cols 1 (2 * cols) mm Mi); auto; try lia.
  - intros k Hk. lia.
  - intros k Hk. lia.
  - rewrite <- EP. apply FX. exact Hi.
Qed.
Print Assumptions C55_gemv.
Theorem C55_gemm t tu b fold Order TransA TransB M N K (alpha beta : F t) A lda B ldb C ldc CI bufA bufB (m : mem t) :
  (2 <= fold <= MAXFOLD t)%Z -> tuned t tu -> legal_gemm b -> (0 < M)%Z -> (0 < N)%Z -> (0 < K)%Z ->
  feq alpha (mkf 1 0) = true -> feq beta fzero = true ->
  let ldi := if is_row Order then N else M in
  let lenA := bufA_len b M K in let lenB := (mxt_block b * myt_block b)%Z in
  gemm_layout fold Order TransA TransB M N K A lda B ldb CI ldi bufA lenA bufB lenB -> (ldi <= ldc)%Z ->
  (forall i j, (0 <= i < M)%Z -> (0 <= j < N)%Z -> ~ gemm_touched fold Order M N CI ldi bufA lenA bufB lenB (elem_addr Order C ldc i j)) ->
  (K + 1 <= CAPACITY t)%Z ->
  (forall i j, (0 <= i < M)%Z -> (0 <= j < N)%Z -> all_finite (gemm_products m Order TransA TransB A lda alpha B ldb K i j) = true) ->
  forall i j Mij, (0 <= i < M)%Z -> (0 <= j < N)%Z ->
  let ps := map (fun k => B2R (m (op_addr Order TransA A lda i k)) * B2R (m (op_addr Order TransB B ldb k j))) (zseq 0 K) in
  max_abs Mij ps -> bpow radix2 (emax t - (jmax t - fold + 2) * width t) <= Mij ->
  let S := total ps in let D := prod_eps t K (total (map Rabs ps)) in let E := sum_eps t fold K Mij in
  Rabs S + D + 1001 / 1000 * E <= bpow radix2 (emax t) - bpow radix2 (emax t - 20) ->
  let r := rdgemm tu b fold Order TransA TransB M N K alpha A lda B ldb beta C ldc CI bufA bufB m (elem_addr Order C ldc i j) in
  is_finite r = true /\ Rabs (B2R r - S) <= conv_eps t * Rabs S + 1001 / 1000 * D + 1003 / 1000 * E.
Proof.
  intros Hf HT LG HM HN HK H1 H0 ldi lenA lenB LY NY HY HC FX i j Mij Hi Hj ps HMi HB S D E HS r.
  set (mm := fun a : Z => if (a <? K)%Z then m (op_addr Order TransA A lda i a) else m (op_addr Order TransB B ldb (a - K) j)).
  assert (MX0 : forall k, (0 <= k < K)%Z -> mm (0 + k * 1)%Z = m (op_addr Order TransA A lda i k)).
  { intros k Hk. unfold mm. replace (0 + k * 1)%Z with k by lia. destruct (Z.ltb_spec k K); [reflexivity|lia]. }
  assert (MY0 : forall k, (0 <= k < K)%Z -> mm (K + k * 1)%Z = m (op_addr Order TransB B ldb k j)).
  { intros k Hk. unfold mm. replace (K + k * 1 - K)%Z with k by lia. destruct (Z.ltb_spec (K + k * 1) K); [lia|reflexivity]. }
  clearbody mm.
  assert (EP : gemm_products m Order TransA TransB A lda alpha B ldb K i j = products mm 0 1 K 1 K).
  { rewrite products_map. unfold gemm_products. apply map_ext_in. intros k Hk. apply zseq_In in Hk. rewrite (fmul_one _ alpha) by exact H1.
    rewrite MX0, MY0 by lia. reflexivity. }
  assert (ES : ps = real_products mm 0 1 K 1 K).
  { unfold ps, real_products, read. rewrite combine_map, map_map. apply map_ext_in. intros k Hk. apply zseq_In in Hk.
    rewrite MX0, MY0 by lia. reflexivity. }
  destruct (C25_gemm t tu b fold Order TransA TransB M N K alpha beta A lda B ldb C ldc CI bufA bufB 0 m Hf HT LG HM HN ltac:(lia) LY NY HY HC FX) as [R _].
  assert (ER : r = rddot tu fold K 0 1 K 1 (2 * K) mm).
  { unfold r. rewrite (R i j Hi Hj). cbv zeta. rewrite start_zero, feq_one_not_zero by assumption. rewrite EP.
    symmetry. apply rddot_value; auto; try lia.
    - intros k Hk. lia.
    - intros k Hk. lia.
    - rewrite <- EP. apply FX; assumption. }
  rewrite ER. unfold S, D in *. rewrite ES in *. apply (C55_dot t tu fold K 0 1 K 1 (2 * K) mm Mij); auto; try lia.
  - intros k Hk. lia.
  - intros k Hk. lia.
  - rewrite <- EP. apply FX; assumption.
Qed.
Print Assumptions C55_gemm.
(** ** A case meeting the hypotheses: 1, 2^-60, 1 *)
Definition acc_mem : mem Dbl := fun a => if (a =? 1)%Z then mkf 1 (-60) else mkf 1 0.
Example C55_case : let xs := read acc_mem 0 1 3 in
  clear_of 0 1 3 100 6 /\ all_finite xs = true /\ max_abs 1 (reals xs) /\ bpow radix2 (-976) <= 1 /\
  max_abs 1 (real_products acc_mem 0 1 0 1 3) /\ total (reals xs) = 2 + bpow radix2 (-60) /\
  Rabs (total (reals xs)) + IZR 3 * bpow radix2 (-80) * 1 <= bpow radix2 1024 - bpow radix2 1004 /\
  feq (dsum sample_tuning 3 0 1 100 acc_mem) (mkf 1 1) = true.
Proof.
  assert (E0 : B2R (mkf 1 0 : F Dbl) = 1) by (apply (WordProofs.mkf_pow2 Dbl 0); vm_compute; split; congruence).
  assert (E6 : B2R (mkf 1 (-60) : F Dbl) = bpow radix2 (-60)) by (apply (WordProofs.mkf_pow2 Dbl (-60)); vm_compute; split; congruence).
  assert (B6 : 0 < bpow radix2 (-60) <= / 1000) by (split; [apply bpow_gt_0|cbn; lra]).
  assert (B8 : 0 < bpow radix2 (-80) <= / 1000) by (split; [apply bpow_gt_0|cbn; lra]).
  cbv zeta. assert (ER : reals (read acc_mem 0 1 3) = [1; bpow radix2 (-60); 1]) by (rewrite <- E6, <- E0 at 1; rewrite <- E0 at 1; reflexivity).
  assert (ET : total (reals (read acc_mem 0 1 3)) = 2 + bpow radix2 (-60)) by (rewrite ER; unfold total; cbn [fold_right]; lra).
  split; [intros i Hi; lia|]. split; [vm_compute; reflexivity|]. split; [|split; [|split; [|split; [exact ET|split]]]].
  - rewrite ER. split; [|exists 1; split; [now left|apply Rabs_R1]]. intros x [<-|[<-|[<-|[]]]]; rewrite Rabs_pos_eq; lra.
  - change 1 with (bpow radix2 0). apply bpow_le. lia.
  - assert (EP : real_products acc_mem 0 1 0 1 3 = [1 * 1; bpow radix2 (-60) * bpow radix2 (-60); 1 * 1]).
    { rewrite <- E6. rewrite <- E0. reflexivity. }
    rewrite EP, <- bpow_plus. assert (0 < bpow radix2 (-60 + -60) <= / 1000) by (split; [apply bpow_gt_0|cbn; lra]).
    split; [|exists (1 * 1); split; [now left|rewrite Rmult_1_r; apply Rabs_R1]]. intros x [<-|[<-|[<-|[]]]]; rewrite Rabs_pos_eq; lra.
  - rewrite ET, Rabs_pos_eq by lra. assert (bpow radix2 1024 = bpow radix2 20 * bpow radix2 1004) by (rewrite <- bpow_plus; reflexivity).
    assert (bpow radix2 20 = 1048576) by (cbn; lra). assert (1 <= bpow radix2 1004) by (change 1 with (bpow radix2 0) at 1; apply bpow_le; lia). nra.
  - vm_compute. reflexivity.
Qed.
