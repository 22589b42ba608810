(** * Accuracy of the conversion of an accumulator to a float *)
From Coq Require Import ZArith Bool List Lia Reals Lra.
From Flocq Require Import Core Relative BinarySingleNaN.
From Verif Require Import Fp Mem Binned Spec Client FpProofs BitProofs SpecProofs WordProofs AccProofs MemProofs SumProofs ClientProofs ScaleProofs SumError ConvTerms ConvFloat ConvProofs.
Import ListNotations.
Open Scope R_scope.

Definition Vs {t} (xs : list (F t)) (j : Z) : Z := if (j <=? jmax t)%Z then (sums xs (Z.max 0 j) mod quarter t)%Z else 0%Z.
Definition Cs {t} (xs : list (F t)) (j : Z) : Z := if (j <=? jmax t)%Z then (sums xs (Z.max 0 j) / quarter t)%Z else 0%Z.
Definition cround (t : ty) (x : R) : R := match t with Dbl => x | Flt => RN Flt x end.
(** The terms added for [xs], and their sum. *)
Definition cterms {t} (fold : Z) (us xs : list (F t)) : list (R * Z) := all_terms t (Vs xs) (Cs xs) (Z.to_nat (fold - 1)) (lead (us ++ xs)).

Section core.
  Context {t : ty} (fold : Z) (us xs : list (F t)) (P W : Z -> F t).
  Hypothesis Hf : (2 <= fold <= MAXFOLD t)%Z.
  Hypothesis AF : all_finite xs = true.
  Hypothesis NE : us ++ xs <> [].
  Hypothesis HL : (Z.of_nat (length xs) <= capacity t)%Z.
  Hypothesis HH : holds t fold us xs P W.
  Local Notation k := (lead (us ++ xs)).
  Hypothesis HT : forall j, (jmax t < j < k + fold)%Z -> sums xs j = 0%Z.

  Lemma Vs_range j : (0 <= Vs xs j < quarter t)%Z.
  Proof. unfold Vs. pose proof (quarter_pos t). destruct (j <=? jmax t)%Z; [apply Z.mod_pos_bound|]; lia. Qed.
  Lemma Cs_range j : (Z.abs (Cs xs j) <= 2 ^ prec t)%Z.
  Proof. unfold Cs. destruct (j <=? jmax t)%Z; [apply carry_cap; lia|]. pose proof (prec_pos t). pose proof (pow2_pos (prec t)). cbn. lia. Qed.
  Lemma VCs_zero j : (jmax t < j)%Z -> Vs xs j = 0%Z /\ Cs xs j = 0%Z.
  Proof. intros H. unfold Vs, Cs. destruct (Z.leb_spec j (jmax t)); [lia|auto]. Qed.
  Lemma kr : (0 <= k <= jmax t)%Z. Proof. pose proof (lead_range (us ++ xs)). lia. Qed.
  Lemma acc_vc : acc t fold k (Vs xs) (Cs xs) P W.
  Proof.
    split; [apply kr|]. intros i Hi. pose proof kr as K. pose proof (quarter_pos t) as QP.
    unfold holds in HH. rewrite AF in HH. destruct (us ++ xs) eqn:E; [congruence|]. rewrite <- E in *. destruct (HH i Hi) as [-> ->].
    assert (EV : Vs xs (k + i) = (sums xs (k + i) mod quarter t)%Z /\ Cs xs (k + i) = (sums xs (k + i) / quarter t)%Z).
    { unfold Vs, Cs. destruct (Z.leb_spec (k + i) (jmax t)); [rewrite Z.max_r by lia; auto|].
      rewrite HT by lia. rewrite Z.mod_0_l, Z.div_0_l by lia. auto. }
    destruct EV as [EV EC]. rewrite EV, EC. split; [apply pri_word_priw; lia|]. apply ofZ_carw. apply carry_cap; [lia|exact HL].
  Qed.
  Lemma total_value n : forall i, (0 <= i)%Z -> (i + Z.of_nat n <= fold)%Z ->
    total t (Vs xs) (Cs xs) n (k + i) = IZR (value_from t n k i P W) * bpow radix2 (emin t).
  Proof.
    induction n as [|n IH]; intros i Hi Hn; cbn [total value_from]; [ring|].
    pose proof kr as K. replace (k + i + 1)%Z with (k + (i + 1))%Z by ring. rewrite IH by lia. rewrite plus_IZR, Rmult_plus_distr_r. f_equal.
    rewrite (content_acc t fold k _ _ P W i acc_vc) by lia. unfold cval. rewrite mult_IZR.
    assert (UG : (0 <= unit_exp t (k + i))%Z) by (pose proof (unit_exp_ge t (k + i)); lia).
    rewrite <- bpow_IZR by exact UG. rewrite Rmult_assoc, <- bpow_plus.
    destruct (Z_le_dec (k + i) (jmax t)) as [H|H]; [now rewrite ux_unit|].
    destruct (VCs_zero (k + i)%Z ltac:(lia)) as [-> ->]. rewrite Z.mul_0_l, Z.add_0_l. ring.
  Qed.
  Lemma cterms_value : fsum (map fst (cterms fold us xs)) = IZR (value t fold k P W) * bpow radix2 (emin t).
  Proof.
    unfold cterms. rewrite terms_total. replace (S (Z.to_nat (fold - 1))) with (Z.to_nat fold) by lia.
    rewrite <- (Z.add_0_r k) at 1. rewrite total_value by lia. reflexivity.
  Qed.
  Local Notation v := (value t fold k P W).
  Definition conv_words : F t := match t return (Z -> F t) -> (Z -> F t) -> F t with Dbl => fun P W => ddmconv_v fold P W | Flt => fun P W => ssmconv_v fold P W end P W.
  Definition fits : Prop := (Z.abs v <= 2 ^ (emax t - emin t) - 2 ^ (emax t - emin t - 20))%Z.
  Lemma fits_real : fits -> Rabs (fsum (map fst (cterms fold us xs))) <= bpow radix2 (emax t) - bpow radix2 (emax t - 20).
  Proof.
    intros H. rewrite cterms_value, Rabs_mult, (Rabs_pos_eq (bpow _ _)) by apply bpow_ge_0. rewrite <- abs_IZR. apply IZR_le in H. rewrite minus_IZR in H.
    assert (E : (0 <= emax t - emin t - 20)%Z) by (destruct t; cbv; discriminate).
    rewrite <- !bpow_IZR in H by lia.
    replace (emax t) with ((emax t - emin t) + emin t)%Z at 1 by lia. replace (emax t - 20)%Z with ((emax t - emin t - 20) + emin t)%Z by lia.
    rewrite !bpow_plus, <- Rmult_minus_distr_r. apply Rmult_le_compat_r; [apply bpow_ge_0|exact H].
  Qed.
End core.

Section accuracy.
  Context {t : ty} (fold : Z) (us xs : list (F t)) (P W : Z -> F t).
  Local Notation k := (lead (us ++ xs)).
  Local Notation v := (value t fold k P W).
  Definition conv_hyps : Prop := (2 <= fold <= MAXFOLD t)%Z /\ all_finite xs = true /\ us ++ xs <> [] /\
    (Z.of_nat (length xs) <= capacity t)%Z /\ holds t fold us xs P W /\ (forall j, (jmax t < j < k + fold)%Z -> sums xs j = 0%Z).
End accuracy.
(** The result is the rounded sum. *)
Lemma conv_real {t} fold (us xs : list (F t)) P W : conv_hyps fold us xs P W -> fits fold us xs P W ->
  is_finite (conv_words fold P W) = true /\ B2R (conv_words fold P W) = cround t (rsum Dbl 0 (map fst (cterms fold us xs))).
Proof.
  intros (Hf & AF & NE & HL & HH & HT) FT. pose proof (fits_real fold us xs P W Hf AF NE HL HH HT FT) as FR.
  pose proof (Vs_range xs) as HV. pose proof (Cs_range xs HL) as HC. pose proof (VCs_zero xs) as HZ.
  pose proof (acc_vc fold us xs P W AF NE HL HH HT) as HA. pose proof (kr us xs) as K.
  assert (Hf' : (2 <= fold <= jmax t + 1)%Z) by (rewrite <- MAXFOLD_eq; exact Hf).
  destruct t.
  - destruct (ddmconv_rsum fold (lead (us ++ xs)) (Vs xs) (Cs xs) P W Hf' K HV HC HZ HA) as [F E].
    + intros l1 l2 E L. apply (prefix_fits Dbl (Vs xs) (Cs xs) (Z.to_nat (fold - 1)) (lead (us ++ xs)) ltac:(lia) HV HC HZ l1 l2 E).
      { apply (late_size Dbl (Vs xs) (Cs xs) (Z.to_nat (fold - 1)) (lead (us ++ xs)) HV HC HZ); [|exact L]. intros j Hj. rewrite uxd. cbn [prec width]. lia. }
      eapply Rle_trans; [exact FR|]. change (emax Dbl) with 1024%Z. assert (bpow radix2 1000 <= bpow radix2 (1024 - 20)) by (apply bpow_le; lia). lra.
    + split; [exact F|]. cbn [bpow] in E. rewrite Rmult_1_r in E. exact E.
  - destruct (ssmconv_rsum fold (lead (us ++ xs)) (Vs xs) (Cs xs) P W Hf' K HV HC HZ HA) as (Y & EY & [F E]).
    cbn [conv_words cround]. rewrite EY. cbn [bpow] in E. rewrite Rmult_1_r in E. fold (cterms fold us xs) in E. rewrite <- E. apply d2f_real; auto.
    rewrite E.
    assert (E1 : all_terms Flt (Vs xs) (Cs xs) (Z.to_nat (fold - 1)) (lead (us ++ xs)) = all_terms Flt (Vs xs) (Cs xs) (Z.to_nat (fold - 1)) (lead (us ++ xs)) ++ []) by (symmetry; apply app_nil_r).
    destruct (rsum_near Flt (Vs xs) (Cs xs) (Z.to_nat (fold - 1)) (lead (us ++ xs)) ltac:(lia) HV HC HZ _ [] E1) as [_ N].
    unfold cterms in *. set (l := map fst _) in *. set (s := Rabs (fsum l)) in *. set (r := rsum Dbl 0 l) in *.
    change (emax Flt) with 128%Z in *. change (128 - 20)%Z with 108%Z in FR.
    assert (E2 : bpow radix2 128 = bpow radix2 20 * bpow radix2 108) by (rewrite <- bpow_plus; reflexivity).
    assert (E20 : bpow radix2 20 = 1048576) by (cbn; lra).
    pose proof (bpow_gt_0 radix2 108) as G. set (g := bpow radix2 108) in *.
    assert (UD : u_ Dbl <= / 1000000000) by (cbn; lra). pose proof (bpow_gt_0 radix2 (- prec Dbl)) as UP.
    pose proof (Rabs_pos (fsum l)) as SP. fold s in SP.
    assert (RB : Rabs r <= 1048576 * g - 9 / 10 * g) by (rewrite E2, E20 in FR; nra).
    (* one more rounding *)
    assert (HR : Rabs (RN Flt r - r) <= u_ Flt * Rabs r).
    { apply RN_rel. apply (ismul_le (ux Flt (jmax Flt))); [cbv; discriminate|].
      apply rsum_mul; [cbv; discriminate|apply ismul_0|]. intros x I. eapply terms_mul; eauto. }
    assert (UF : u_ Flt <= / 16777216) by (cbn; lra). pose proof (bpow_gt_0 radix2 (- prec Flt)) as UFP.
    assert (Rabs (RN Flt r) <= Rabs r + Rabs (RN Flt r - r)) by (replace (RN Flt r) with (r + (RN Flt r - r)) at 1 by ring; apply Rabs_triang).
    rewrite E2, E20. pose proof (Rabs_pos r). nra.
Qed.

(** Units in the last place times 1000: double 4.1, float 1.001. *)
Definition conv_ulps (t : ty) : Z := match t with Dbl => 4100 | Flt => 1001 end.
Lemma conv_hyps_error {t} fold (us xs : list (F t)) P W : conv_hyps fold us xs P W ->
  let l := map fst (cterms fold us xs) in
  rsum Dbl 0 l = fsum l \/
  bpow radix2 (Z.max (ux t (lead (us ++ xs) + (fold - 1))) (ux t (jmax t)) + 53) * (1 - bpow radix2 (-10)) <= Rabs (fsum l) /\
  Rabs (rsum Dbl 0 l - fsum l) <= cfac t * u_ Dbl * Rabs (fsum l).
Proof.
  intros (Hf & AF & NE & HL & HH & HT) l. pose proof (kr us xs) as K.
  assert (E : all_terms t (Vs xs) (Cs xs) (Z.to_nat (fold - 1)) (lead (us ++ xs)) = cterms fold us xs ++ []) by (symmetry; apply app_nil_r).
  destruct (conv_error t (Vs xs) (Cs xs) (Vs_range xs) (Cs_range xs HL) (VCs_zero xs) (Z.to_nat (fold - 1)) (lead (us ++ xs)) _ [] ltac:(lia) E) as [[D _]|(D1 & _ & D2)]; [left; exact D|right].
  replace (Z.of_nat (Z.to_nat (fold - 1))) with (fold - 1)%Z in D1 by lia. auto.
Qed.
Lemma real_units t (a b n c : Z) (e : Z) : (0 <= n)%Z -> Rabs (IZR a * bpow radix2 (emin t) - IZR b * bpow radix2 (emin t)) * IZR n <= IZR c * Rabs (IZR b * bpow radix2 (emin t)) ->
  (n * Z.abs (a - b) <= c * Z.abs b)%Z.
Proof.
  intros Hn H. rewrite <- Rmult_minus_distr_r, <- minus_IZR, !Rabs_mult, (Rabs_pos_eq (bpow _ _)), <- !abs_IZR in H by apply bpow_ge_0.
  pose proof (bpow_gt_0 radix2 (emin t)) as G. apply le_IZR. rewrite !mult_IZR.
  apply (Rmult_le_reg_r (bpow radix2 (emin t))); [exact G|]. lra.
Qed.
Theorem conv_accuracy {t} fold (us xs : list (F t)) P W : conv_hyps fold us xs P W -> fits fold us xs P W ->
  let v := value t fold (lead (us ++ xs)) P W in
  is_finite (conv_words fold P W) = true /\
  (1000 * 2 ^ prec t * Z.abs (toZ (conv_words fold P W) - v) <= conv_ulps t * Z.abs v)%Z.
Proof.
  intros HH FT v. destruct (conv_real fold us xs P W HH FT) as [F E]. split; auto.
  pose proof (conv_hyps_error fold us xs P W HH) as CE. cbv zeta in CE.
  destruct HH as (Hf & AF & NE & HL & HH & HT).
  pose proof (cterms_value fold us xs P W Hf AF NE HL HH HT) as CV. fold v in CV.
  apply (real_units t _ _ _ _ 0); [pose proof (prec_pos t); pose proof (pow2_pos (prec t)); lia|].
  rewrite <- toZ_B2R, E, <- CV. set (l := map fst (cterms fold us xs)) in *. set (s := fsum l) in *. set (r := rsum Dbl 0 l) in *.
  assert (CE' : Rabs (r - s) <= cfac t * u_ Dbl * Rabs s).
  { destruct CE as [->|[_ D]]; [|exact D]. rewrite Rminus_diag_eq, Rabs_R0 by reflexivity.
    apply Rmult_le_pos; [|apply Rabs_pos]. apply Rmult_le_pos; [|apply bpow_ge_0]. destruct (cfac_ok t). lra. }
  pose proof (Rabs_pos s) as SP.
  rewrite mult_IZR, <- bpow_IZR by (pose proof (prec_pos t); lia).
  assert (ML : ismul (ux t (jmax t)) r).
  { apply rsum_mul; [destruct t; cbv; discriminate|apply ismul_0|]. intros x I. eapply (terms_mul t (Vs xs) (Cs xs)); try apply VCs_zero; eauto using Vs_range, Cs_range. }
  clear - CE' SP ML. destruct t; cbn [cround cfac conv_ulps] in *.
  - assert (u_ Dbl * bpow radix2 (prec Dbl) = 1) by (rewrite <- bpow_plus; reflexivity).
    pose proof (bpow_gt_0 radix2 (prec Dbl)) as G. set (g := bpow radix2 (prec Dbl)) in *.
    apply Rle_trans with ((41 / 10 * u_ Dbl * Rabs s) * (1000 * g)); [apply Rmult_le_compat_r; lra|]. right. replace (41 / 10 * u_ Dbl * Rabs s * (1000 * g)) with (4100 * Rabs s * (u_ Dbl * g)) by lra. rewrite H. ring.
  - assert (HR : Rabs (RN Flt r - r) <= u_ Flt * Rabs r) by (apply RN_rel; eapply ismul_le; [|exact ML]; cbv; discriminate).
    assert (T1 : Rabs (RN Flt r - s) <= Rabs (RN Flt r - r) + Rabs (r - s)) by (replace (RN Flt r - s) with ((RN Flt r - r) + (r - s)) by ring; apply Rabs_triang).
    assert (T2 : Rabs r <= Rabs s + Rabs (r - s)) by (replace r with (s + (r - s)) at 1 by ring; apply Rabs_triang).
    assert (EU : u_ Flt * bpow radix2 (prec Flt) = 1) by (rewrite <- bpow_plus; reflexivity).
    assert (ED : u_ Dbl = u_ Flt * / 536870912) by (cbn; lra).
    pose proof (bpow_gt_0 radix2 (prec Flt)) as G. set (g := bpow radix2 (prec Flt)) in *. pose proof (bpow_gt_0 radix2 (- prec Flt)) as UP.
    assert (UF : u_ Flt <= / 16777216) by (cbn; lra). set (u := u_ Flt) in *. rewrite ED in CE'.
    assert (B : Rabs (RN Flt r - s) <= u * (10001 / 10000) * Rabs s).
    { assert (Rabs (r - s) <= u * (/ 80000000) * Rabs s).
      { eapply Rle_trans; [exact CE'|]. apply Rmult_le_compat_r; [lra|]. nra. }
      assert (R1 : u * (/ 80000000) * Rabs s <= / 80000000 * Rabs s) by (apply Rmult_le_compat_r; lra).
      assert (Rabs r <= (1 + / 80000000) * Rabs s) by lra.
      assert (u * Rabs r <= u * ((1 + / 80000000) * Rabs s)) by (apply Rmult_le_compat_l; lra).
      assert (0 <= u * Rabs s) by (apply Rmult_le_pos; lra). nra. }
    apply Rle_trans with ((u * (10001 / 10000) * Rabs s) * (1000 * g)); [apply Rmult_le_compat_r; lra|].
    replace (u * (10001 / 10000) * Rabs s * (1000 * g)) with (10001 / 10 * Rabs s * (u * g)) by lra. rewrite EU. lra.
Qed.
