(** * Sums that need no more than 53 bits are converted without rounding *)
From Coq Require Import ZArith Bool List Lia Reals Lra.
From Flocq Require Import Core Relative BinarySingleNaN.
From Verif Require Import Fp Mem Binned Spec Client FpProofs BitProofs CoreArith SpecProofs WordProofs AccProofs MemProofs SumProofs ClientProofs ScaleProofs SumError ConvTerms ConvFloat ConvProofs ConvSpec RoundTrip.
Import ListNotations.
Open Scope R_scope.

(** What is left of the data below bin j - 1, and the sum of the magnitudes. *)
Definition left_of {t} (xs : list (F t)) (j : Z) : Z := fold_right Z.add 0%Z (map (fun x => remainder t (toZ x) (Z.to_nat j)) xs).
Definition mags_sum {t} (xs : list (F t)) : Z := fold_right Z.add 0%Z (map (fun x => Z.abs (toZ x)) xs).

Section exact.
  Context (t : ty) (xs : list (F t)) (fold e : Z).
  Local Notation z := (exact_sum xs). Local Notation k := (lead xs).
  Local Notation rm j := (left_of xs j).
  Hypothesis AF : all_finite xs = true.
  Hypothesis HL : (Z.of_nat (length xs) <= capacity t)%Z.
  Hypothesis Hf : (2 <= fold <= MAXFOLD t)%Z.
  Hypothesis He : (unit_exp t (k + fold - 1) <= e)%Z.
  Hypothesis HD : forall x, In x xs -> (2 ^ e | toZ x)%Z.
  Hypothesis HM : (mags_sum xs <= 2 ^ (53 + e))%Z.
  Local Notation V := (Vs xs). Local Notation C := (Cs xs).
  Local Notation cterm := (cterm t C). Local Notation pterm := (pterm t V). Local Notation pre := (pre t V C k).
  Local Notation val a := (IZR a * bpow radix2 (emin t)).

  Lemma e_pos : (0 <= e)%Z. Proof. pose proof (unit_exp_ge t (k + fold - 1)). lia. Qed.
  Lemma left_succ j : (0 <= j)%Z -> rm (j + 1) = (rm j - sums xs j * 2 ^ unit_exp t j)%Z.
  Proof.
    intros Hj. unfold left_of, sums, bin_sum. clear - Hj. induction xs as [|x l IH]; cbn [map fold_right]; [ring|].
    rewrite IH, remainder_succ by exact Hj. ring.
  Qed.
  Lemma left_lead j : (j <= k)%Z -> rm j = z.
  Proof.
    intros Hj. unfold left_of, exact_sum. f_equal. apply map_ext_in. intros x Hx. apply remainder_below.
    assert (k <= bin_of t (toZ x))%Z.
    { unfold lead. assert (EF : findex x = bin_of t (toZ x)) by (unfold findex; unfold all_finite in AF; rewrite forallb_forall in AF; now rewrite (AF x Hx)).
      rewrite <- EF. clear - Hx. induction xs as [|y l IH]; [destruct Hx|]. cbn [map fold_right]. destruct Hx as [->|Hx]; [lia|]. specialize (IH Hx). lia. }
    pose proof (bin_of_range t (toZ x) (toZ_span t x)). lia.
  Qed.
  Lemma left_abs j : (Z.abs (rm j) <= mags_sum xs)%Z.
  Proof.
    unfold left_of, mags_sum. clear. induction xs as [|x l IH]; cbn [map fold_right]; [lia|]. pose proof (remainder_abs_le t (toZ x) (Z.to_nat j)). lia.
  Qed.
  Lemma z_abs : (Z.abs z <= mags_sum xs)%Z.
  Proof. unfold exact_sum, mags_sum. clear. induction xs as [|x l IH]; cbn [map fold_right]; lia. Qed.
  Lemma z_mul : (2 ^ e | z)%Z.
  Proof.
    unfold exact_sum. clear - HD. induction xs as [|x l IH]; cbn [map fold_right]; [apply Z.divide_0_r|].
    apply Z.divide_add_r; [apply HD; now left|apply IH; intros y Hy; apply HD; now right].
  Qed.
  (** Nothing is left once the unit is at most 2^e. *)
  Lemma left_zero j i : (0 <= j)%Z -> (unit_exp t j <= e)%Z -> (j < i)%Z -> rm i = 0%Z /\ sums xs i = 0%Z.
  Proof.
    intros Hj HU Hi.
    assert (Z0 : forall x, In x xs -> remainder t (toZ x) (Z.to_nat i) = 0%Z).
    { intros x Hx. apply (rem_stay t (toZ x) (Z.to_nat (j + 1))); [lia|]. apply rem_zero; [exact Hj|]. pose proof (unit_exp_ge t j).
      eapply Z.divide_trans; [|apply HD, Hx]. exists (2 ^ (e - unit_exp t j))%Z. rewrite <- Z.pow_add_r by lia. f_equal. lia. }
    unfold left_of, sums, bin_sum, slice. clear - Z0. induction xs as [|x l IH]; cbn [map fold_right]; [auto|].
    rewrite Z0 by now left. rewrite rhaz_0. apply IH. intros y Hy. apply Z0. now right.
  Qed.
  Lemma k_range' : (0 <= k <= jmax t)%Z. Proof. apply lead_range. Qed.
  Lemma beyond j : (jmax t < j \/ k + fold - 1 < j)%Z -> (0 <= j)%Z -> rm j = 0%Z /\ sums xs j = 0%Z.
  Proof.
    intros H H0. pose proof k_range' as K. assert (L : (2 <= fold)%Z) by lia. apply (left_zero (Z.min (k + fold - 1) (jmax t))); [pose proof (jmax_pos t); lia| |lia].
    replace (unit_exp t (Z.min (k + fold - 1) (jmax t))) with (unit_exp t (k + fold - 1)); [exact He|]. unfold unit_exp. f_equal. f_equal. lia.
  Qed.
  Lemma C_zero j : (0 <= j)%Z -> sums xs j = 0%Z -> C j = 0%Z.
  Proof. intros Hj E. unfold Cs. destruct (j <=? jmax t)%Z; auto. rewrite Z.max_r, E by lia. pose proof (quarter_pos t). apply Z.div_0_l. lia. Qed.
  Lemma term_zero j : C j = 0%Z -> fst (cterm j) = 0. Proof. intros E. unfold ConvTerms.cterm. cbn [fst]. rewrite E. ring. Qed.
  Lemma cval_left j : (0 <= j)%Z -> fst (cterm j) + fst (pterm j) = val (rm j - rm (j + 1)).
  Proof.
    intros Hj. rewrite <- (cval_eq t V C). unfold cval, Vs, Cs. rewrite left_succ by auto. replace (rm j - (rm j - sums xs j * 2 ^ unit_exp t j))%Z with (sums xs j * 2 ^ unit_exp t j)%Z by ring.
    destruct (Z.leb_spec j (jmax t)) as [L|L].
    - rewrite Z.max_r by lia. rewrite (Z.mul_comm (_ / _)), <- Z.div_mod by (pose proof (quarter_pos t); lia).
      rewrite mult_IZR, <- bpow_IZR by (pose proof (unit_exp_ge t j); lia). rewrite Rmult_assoc, <- bpow_plus, ux_unit by lia. reflexivity.
    - destruct (beyond j ltac:(lia) Hj) as [_ ->]. rewrite !Z.mul_0_l. cbn [Z.add]. lra.
  Qed.
  (** The sums along the way *)
  Lemma sum_pre' m : fsum (map fst (pre m)) = val (z - rm (k + Z.of_nat m)) + fst (cterm (k + Z.of_nat m)).
  Proof.
    pose proof k_range' as K. induction m as [|m IH].
    - cbn [ConvFloat.pre map fsum fold_right]. rewrite Z.add_0_r. rewrite left_lead by lia. rewrite Z.sub_diag. lra.
    - cbn [ConvFloat.pre]. rewrite map_app, fsum_app, IH. cbn [map fsum fold_right].
      pose proof (cval_left (k + Z.of_nat m) ltac:(lia)) as E. replace (k + Z.of_nat (S m))%Z with (k + Z.of_nat m + 1)%Z by lia.
      set (a := fst (cterm (k + Z.of_nat m))) in *. set (p := fst (pterm (k + Z.of_nat m))) in *. set (c := fst (cterm (k + Z.of_nat m + 1))) in *.
      rewrite !minus_IZR in *. lra.
  Qed.
  Lemma sum_all' : fsum (map fst (pre (Z.to_nat (fold - 1)) ++ [pterm (k + (fold - 1))])) = val z.
  Proof.
    pose proof k_range' as K. assert (L : (2 <= fold)%Z) by lia. rewrite map_app, fsum_app, sum_pre'. cbn [map fsum fold_right].
    replace (k + Z.of_nat (Z.to_nat (fold - 1)))%Z with (k + (fold - 1))%Z by lia.
    pose proof (cval_left (k + (fold - 1)) ltac:(lia)) as E. rewrite (proj1 (beyond (k + (fold - 1) + 1) ltac:(lia) ltac:(lia))) in E.
    rewrite !minus_IZR in *. set (a := fst (cterm (k + (fold - 1)))) in *. set (p := fst (pterm (k + (fold - 1)))) in *. lra.
  Qed.
  Lemma v_abs a i : (0 <= i)%Z -> (Z.abs a <= 2 ^ i)%Z -> Rabs (val a) <= bpow radix2 (i + emin t).
  Proof.
    intros Hi H. rewrite Rabs_mult, (Rabs_pos_eq (bpow _ _)), <- abs_IZR, bpow_plus by apply bpow_ge_0.
    apply Rmult_le_compat_r; [apply bpow_ge_0|]. rewrite bpow_IZR by exact Hi. now apply IZR_le.
  Qed.
  Lemma v_mul a i : (0 <= i)%Z -> (2 ^ i | a)%Z -> ismul (i + emin t) (val a).
  Proof. intros Hi [c ->]. exists c. rewrite mult_IZR, <- bpow_IZR, Rmult_assoc, <- bpow_plus by exact Hi. reflexivity. Qed.
  Lemma u_range j : (j <= jmax t)%Z -> (0 <= unit_exp t j /\ unit_exp t j + emin t = ux t j /\ emin Dbl <= ux t j)%Z.
  Proof.
    intros Hj. pose proof (unit_exp_ge t j). split; [lia|]. split; [now apply ux_unit|]. pose proof (dbl_prec t) as [_ D]. pose proof (width_pos t). assert (ux t (jmax t) <= ux t j)%Z by (unfold ux; nia). lia.
  Qed.
  Lemma fmt_z : fmt Dbl (val z).
  Proof.
    pose proof e_pos as EP. apply (fmt_mul Dbl (e + emin t)); [clear - EP; destruct t; cbn; lia|apply v_mul; [exact EP|apply z_mul]|].
    replace (e + emin t + prec Dbl)%Z with (53 + e + emin t)%Z by (cbn [prec]; lia). apply v_abs; [lia|]. pose proof z_abs. lia.
  Qed.
  Lemma p_abs j : Rabs (fst (pterm j)) <= bpow radix2 (ux t j + prec t - 3). Proof. apply p_size, Vs_range. Qed.
  Lemma c_multiple j : ismul (ux t j + prec t - 3) (fst (cterm j)). Proof. eexists. reflexivity. Qed.
  Lemma left_mul j : (0 <= j)%Z -> (2 ^ unit_exp t j | z - rm (j + 1))%Z.
  Proof.
    intros Hj. unfold exact_sum, left_of. clear - Hj. induction xs as [|x l IH]; cbn [map fold_right]; [apply Z.divide_0_r|].
    match goal with |- (_ | ?a + ?b - (?c + ?d))%Z => replace (a + b - (c + d))%Z with ((a - c) + (b - d))%Z by ring end.
    apply Z.divide_add_r; [now apply rem_div|exact IH].
  Qed.

  Lemma fmt_pre' m : fmt Dbl (fsum (map fst (pre m))).
  Proof.
    pose proof k_range' as K. pose proof (dbl_prec t) as [DP DE]. pose proof (prec_pos t) as PP. pose proof (width_pos t) as WP. pose proof e_pos as EP. rewrite sum_pre'. set (j := (k + Z.of_nat m)%Z).
    assert (WQ : (2 <= width t <= prec t - 3 /\ prec t - 3 - width t <= 10)%Z) by (clear; destruct t; cbv; repeat split; discriminate).
    destruct m as [|m].
    - unfold j. rewrite Z.add_0_r, left_lead, Z.sub_diag, Rmult_0_l, Rplus_0_l by lia. unfold ConvTerms.cterm. cbn [fst].
      destruct (u_range k ltac:(lia)) as (_ & _ & UE). apply fmt_int; [lia|]. pose proof (Cs_range xs HL k). eapply Z.le_trans; [eassumption|]. apply Z.pow_le_mono_r; lia.
    - destruct (Z_le_gt_dec (unit_exp t (j - 1)) e) as [LE|GT].
      + destruct (left_zero (j - 1) j ltac:(lia) LE ltac:(lia)) as [E1 E2]. rewrite E1, (term_zero j) by (apply C_zero; auto; lia). rewrite Z.sub_0_r, Rplus_0_r. apply fmt_z.
      + assert (JM : (j <= jmax t)%Z).
        { destruct (Z_le_gt_dec j (jmax t)); auto. exfalso. assert (unit_exp t (j - 1) <= unit_exp t (k + fold - 1))%Z; [|lia]. unfold unit_exp. clear - g WP. nia. }
        destruct (u_range (j - 1) ltac:(lia)) as (UG & EU & UE). destruct (u_range j JM) as (UG' & EU' & UE').
        assert (UJ : ux t j = (ux t (j - 1) - width t)%Z) by (unfold ux; lia).
        assert (EA : val (z - rm j) + fst (cterm j) = val (z - rm (j + 1)) - fst (pterm j)).
        { pose proof (cval_left j ltac:(lia)) as E. rewrite !minus_IZR in *. set (a := fst (cterm j)) in *. set (p := fst (pterm j)) in *. lra. }
        apply (fmt_mul Dbl (ux t (j - 1))); [lia| |].
        * apply ismul_plus; [rewrite <- EU; apply v_mul; [lia|]; pose proof (left_mul (j - 1) ltac:(lia)) as D; replace (j - 1 + 1)%Z with j in D by lia; exact D|].
          eapply ismul_le; [|apply c_multiple]. lia.
        * rewrite EA. unfold Rminus. eapply Rle_trans; [apply Rabs_triang|]. rewrite Rabs_Ropp. pose proof (p_abs j) as PA.
          assert (VA : Rabs (val (z - rm (j + 1))) <= bpow radix2 (ux t (j - 1) + 52)).
          { rewrite <- EU. replace (unit_exp t (j - 1) + emin t + 52)%Z with (unit_exp t (j - 1) + 52 + emin t)%Z by lia. apply v_abs; [lia|].
            destruct (Z_le_gt_dec (unit_exp t j) e) as [LE|GT'].
            - destruct (left_zero j (j + 1) ltac:(lia) LE ltac:(lia)) as [-> _]. rewrite Z.sub_0_r. pose proof z_abs. eapply Z.le_trans; [eassumption|]. eapply Z.le_trans; [exact HM|]. apply Z.pow_le_mono_r; lia.
            - pose proof z_abs. pose proof (left_abs (j + 1)). apply Z.le_trans with (2 ^ 1 * 2 ^ (53 + e))%Z; [change (2 ^ 1)%Z with 2%Z; lia|].
              rewrite <- Z.pow_add_r by lia. apply Z.pow_le_mono_r; lia. }
          assert (P1 : bpow radix2 (ux t (j - 1) + prec Dbl) = 2 * bpow radix2 (ux t (j - 1) + 52)).
          { change 2 with (bpow radix2 1). rewrite <- bpow_plus. f_equal. cbn [prec]. lia. }
          assert (P2 : bpow radix2 (ux t j + prec t - 3) <= bpow radix2 (ux t (j - 1) + 52)) by (apply bpow_le; lia).
          lra.
  Qed.
  Lemma fmt_mid' m : fmt Dbl (fsum (map fst (pre m ++ [cterm (k + Z.of_nat m + 1)]))).
  Proof.
    pose proof k_range' as K. pose proof (dbl_prec t) as [DP DE]. pose proof (prec_pos t) as PP. pose proof (width_pos t) as WP. pose proof e_pos as EP.
    rewrite map_app, fsum_app. cbn [map fsum fold_right]. rewrite Rplus_0_r.
    set (j := (k + Z.of_nat m)%Z).
    destruct (Z_le_gt_dec (unit_exp t j) e) as [LE|GT].
    - destruct (left_zero j (j + 1) ltac:(lia) LE ltac:(lia)) as [_ E2]. rewrite (term_zero (j + 1)) by (apply C_zero; auto; lia). rewrite Rplus_0_r. apply fmt_pre'.
    - assert (JM : (j + 1 <= jmax t)%Z).
      { destruct (Z_le_gt_dec (j + 1) (jmax t)); auto. exfalso. assert (unit_exp t j <= unit_exp t (k + fold - 1))%Z; [|lia]. unfold unit_exp. clear - g WP. nia. }
      destruct (u_range j ltac:(lia)) as (UG & EU & UE). destruct (u_range (j + 1) JM) as (UG' & EU' & UE').
      assert (UJ : ux t (j + 1) = (ux t j - width t)%Z) by (unfold ux; lia).
      rewrite sum_pre'. fold j.
      set (q := (ux t (j + 1) + prec t - 3)%Z).
      assert (EB : val (z - rm j) + fst (cterm j) + fst (cterm (j + 1)) = val (z - rm (j + 1 + 1)) - fst (pterm j) - fst (pterm (j + 1))).
      { pose proof (cval_left j ltac:(lia)) as E. pose proof (cval_left (j + 1) ltac:(lia)) as E'. rewrite !minus_IZR in *.
        set (a := fst (cterm j)) in *. set (p := fst (pterm j)) in *. set (b := fst (cterm (j + 1))) in *. set (p' := fst (pterm (j + 1))) in *. lra. }
      apply (fmt_mul Dbl q); [unfold q; clear - UE' PP; destruct t; cbn [prec] in *; lia| |].
      + apply ismul_plus; [apply ismul_plus|].
        * destruct m as [|m]; [unfold j; rewrite Z.add_0_r, left_lead, Z.sub_diag, Rmult_0_l by lia; apply ismul_0|].
          pose proof (left_mul (j - 1) ltac:(lia)) as D. replace (j - 1 + 1)%Z with j in D by lia.
          destruct (u_range (j - 1) ltac:(lia)) as (UG1 & EU1 & _).
          apply (ismul_le (unit_exp t (j - 1) + emin t)); [|apply v_mul; [lia|exact D]].
          rewrite EU1. unfold q. rewrite UJ. assert (E0 : ux t (j - 1) = (ux t j + width t)%Z) by (unfold ux; lia). rewrite E0. clear. destruct t; cbv [prec width]; lia.
        * eapply ismul_le; [|apply c_multiple]. unfold q. lia.
        * apply c_multiple.
      + rewrite EB. unfold Rminus. eapply Rle_trans; [apply Rabs_triang|]. eapply Rle_trans; [apply Rplus_le_compat_r, Rabs_triang|]. rewrite !Rabs_Ropp.
        pose proof (p_abs j) as CA. pose proof (p_abs (j + 1)) as CB.
        assert (VA : Rabs (val (z - rm (j + 1 + 1))) <= bpow radix2 (ux t j + 53)).
        { rewrite <- EU. replace (unit_exp t j + emin t + 53)%Z with (unit_exp t j + 53 + emin t)%Z by lia. apply v_abs; [lia|].
          pose proof z_abs. pose proof (left_abs (j + 1 + 1)). apply Z.le_trans with (2 ^ 1 * 2 ^ (53 + e))%Z; [change (2 ^ 1)%Z with 2%Z; lia|].
          rewrite <- Z.pow_add_r by lia. apply Z.pow_le_mono_r; lia. }
        assert (P1 : 4 * bpow radix2 (ux t j + 53) <= bpow radix2 (q + prec Dbl)).
        { change 4 with (bpow radix2 2). rewrite <- bpow_plus. apply bpow_le. unfold q. rewrite UJ. clear. destruct t; cbv [prec width]; lia. }
        assert (P2 : bpow radix2 (ux t j + prec t - 3) <= bpow radix2 (ux t j + 53)) by (apply bpow_le; clear; destruct t; cbn [prec]; lia).
        assert (P3 : bpow radix2 (ux t (j + 1) + prec t - 3) <= bpow radix2 (ux t j + 53)) by (apply bpow_le; rewrite UJ; clear - WP; destruct t; cbn [prec]; lia).
        pose proof (bpow_gt_0 radix2 (ux t j + 53)). lra.
  Qed.
  Local Notation n := (Z.to_nat (fold - 1)).
  Local Notation Q := (fun l : list (R * Z) => fmt Dbl (fsum (map fst l))).
  Lemma all_prefixes' : pfx Q [] (all_terms t V C n k).
  Proof.
    assert (L : (2 <= fold)%Z) by lia.
    assert (G : forall d m, (d + m = n)%nat -> pfx Q (pre m) (rest t V C d (k + Z.of_nat m))).
    { induction d as [|d IH]; intros m E; cbn [rest].
      - apply pfx_cons; [apply fmt_pre'|]. apply pfx_nil. replace m with n by lia. replace (Z.of_nat n) with (fold - 1)%Z by lia.
        cbv beta. rewrite sum_all'. apply fmt_z.
      - apply pfx_cons; [apply fmt_pre'|]. apply pfx_cons; [apply fmt_mid'|].
        specialize (IH (S m) ltac:(lia)). cbn [ConvFloat.pre] in IH. rewrite <- app_assoc. cbn [app].
        replace (k + Z.of_nat m + 1)%Z with (k + Z.of_nat (S m))%Z at 2 by lia. exact IH. }
    unfold all_terms. apply pfx_cons; [apply fmt_0|]. cbn [app]. specialize (G n 0%nat ltac:(lia)). rewrite Z.add_0_r in G. exact G.
  Qed.
  Lemma exact_terms : rsum Dbl 0 (map fst (all_terms t V C n k)) = val z.
  Proof.
    assert (L : (2 <= fold)%Z) by lia.
    rewrite (rsum_exact _ _ all_prefixes'). rewrite (pre_last t V C k n). replace (Z.of_nat n) with (fold - 1)%Z by lia. apply sum_all'.
  Qed.
  Lemma exact_hyps P W : xs <> [] -> holds t fold [] xs P W -> conv_hyps fold [] xs P W.
  Proof.
    intros NE HH. split; [exact Hf|]. split; [exact AF|]. split; [exact NE|]. split; [exact HL|]. split; [exact HH|].
    cbn [app]. intros j Hj. pose proof (jmax_pos t). apply (beyond j); lia.
  Qed.
  Lemma exact_value P W : xs <> [] -> holds t fold [] xs P W -> value t fold k P W = z.
  Proof.
    intros NE HH. destruct (exact_hyps P W NE HH) as (_ & _ & _ & _ & _ & HT).
    pose proof (cterms_value fold [] xs P W Hf AF NE HL HH HT) as E. cbn [app] in E.
    unfold cterms in E. cbn [app] in E. rewrite (pre_last t V C k n) in E. replace (Z.of_nat n) with (fold - 1)%Z in E by lia. rewrite sum_all' in E.
    pose proof (bpow_gt_0 radix2 (emin t)). apply eq_IZR. apply (Rmult_eq_reg_r (bpow radix2 (emin t))); [symmetry; exact E|lra].
  Qed.
  Theorem exact_conv P W : xs <> [] -> holds t fold [] xs P W -> (Z.abs z <= 2 ^ (emax t - emin t) - 2 ^ (emax t - emin t - 20))%Z ->
    is_finite (conv_words fold P W) = true /\ B2R (conv_words fold P W) = cround t (IZR z * bpow radix2 (emin t)).
  Proof.
    intros NE HH HB. pose proof (exact_hyps P W NE HH) as CH.
    destruct (conv_real fold [] xs P W CH) as [A B].
    - unfold fits. cbn [app]. now rewrite (exact_value P W NE HH).
    - split; [exact A|]. rewrite B. f_equal. apply exact_terms.
  Qed.
End exact.
