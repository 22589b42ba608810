(** * Converting the accumulator of one float gives the float back *)
From Coq Require Import ZArith Bool List Lia Reals Lra.
From Flocq Require Import Core Relative BinarySingleNaN.
From Verif Require Import Fp Mem Binned Spec Client FpProofs BitProofs CoreArith SpecProofs WordProofs AccProofs MemProofs SumProofs ClientProofs ScaleProofs SumError ConvTerms ConvFloat ConvProofs ConvSpec.
Import ListNotations.
Open Scope R_scope.

(** All prefixes of a list *)
Definition pfx (Q : list (R * Z) -> Prop) (s l : list (R * Z)) : Prop := forall l1 l2, l = l1 ++ l2 -> Q (s ++ l1).
Lemma pfx_nil (Q : list (R * Z) -> Prop) s : Q s -> pfx Q s [].
Proof. intros H l1 l2 E. symmetry in E. apply app_eq_nil in E. destruct E as [-> _]. now rewrite app_nil_r. Qed.
Lemma pfx_cons (Q : list (R * Z) -> Prop) s x l : Q s -> pfx Q (s ++ [x]) l -> pfx Q s (x :: l).
Proof.
  intros H HP l1 l2 E. destruct l1 as [|y l1]; [now rewrite app_nil_r|]. cbn [app] in E. injection E as <- E.
  specialize (HP l1 l2 E). rewrite <- app_assoc in HP. exact HP.
Qed.
Lemma rsum_exact t (l : list (R * Z)) : pfx (fun l => fmt t (fsum (map fst l))) [] l -> rsum t 0 (map fst l) = fsum (map fst l).
Proof.
  intros H. assert (G : forall l2 l1 : list (R * Z), l = l1 ++ l2 -> rsum t 0 (map fst l1) = fsum (map fst l1) -> rsum t 0 (map fst l) = fsum (map fst l)); [|apply (G l []); reflexivity].
  induction l2 as [|[x q] l2 IH]; intros l1 E E1; [rewrite app_nil_r in E; now rewrite E|].
  apply (IH (l1 ++ [(x, q)])); [rewrite <- app_assoc; exact E|].
  specialize (H (l1 ++ [(x, q)]) l2 ltac:(rewrite <- app_assoc; exact E)). cbn [app] in H.
  rewrite map_app, rsum_app, E1. rewrite map_app, fsum_app in *. cbn [map fst rsum fold_left fsum fold_right] in *. rewrite Rplus_0_r in *.
  apply round_generic; [apply valid_rnd_N|exact H].
Qed.

(** ** Remainders *)
Open Scope Z_scope.
Lemma rem_div t X j : 0 <= j -> (2 ^ unit_exp t j | X - remainder t X (Z.to_nat (j + 1))).
Proof.
  intros Hj. pattern j. apply natlike_ind; auto.
  - rewrite remainder_succ by lia. cbn [Z.to_nat remainder]. exists (slice t X 0). ring.
  - clear j Hj. intros j Hj [c Hc]. rewrite remainder_succ by lia. change (Z.succ j) with (j + 1) in *.
    pose proof (unit_exp_succ t j) as [_ U]. pose proof (unit_exp_ge t (j + 1)) as G.
    exists (c * 2 ^ (unit_exp t j - unit_exp t (j + 1)) + slice t X (j + 1)). rewrite Z.mul_add_distr_r, <- Z.mul_assoc, <- Z.pow_add_r by lia.
    replace (unit_exp t j - unit_exp t (j + 1) + unit_exp t (j + 1)) with (unit_exp t j) by lia. lia.
Qed.
Lemma rem_zero t X j : 0 <= j -> (2 ^ unit_exp t j | X) -> remainder t X (Z.to_nat (j + 1)) = 0.
Proof.
  intros Hj HD. pose proof (rem_div t X j Hj) as HR. pose proof (remainder_half t X j Hj) as HH.
  assert (D : (2 ^ unit_exp t j | remainder t X (Z.to_nat (j + 1)))).
  { replace (remainder t X (Z.to_nat (j + 1))) with (X - (X - remainder t X (Z.to_nat (j + 1)))) by lia. now apply Z.divide_sub_r. }
  destruct D as [c Hc]. rewrite Hc in HH. rewrite Z.abs_mul in HH. pose proof (unit_exp_ge t j). pose proof (pow2_pos (unit_exp t j) ltac:(lia)) as P.
  rewrite (Z.abs_eq (2 ^ _)) in HH by lia. assert (c = 0) by nia. subst c. lia.
Qed.
Lemma rem_stay t X n m : (n <= m)%nat -> remainder t X n = 0 -> remainder t X m = 0.
Proof.
  intros H E. induction m as [|m IH]; [now replace 0%nat with n by lia|]. destruct (Nat.eq_dec n (S m)) as [->|N]; auto.
  cbn [remainder]. rewrite IH by lia. rewrite rhaz_0. ring.
Qed.
(** If something is left, the float is small compared with its last bit. *)
Lemma rem_size t (x : F t) j : 0 <= j -> remainder t (toZ x) (Z.to_nat (j + 1)) <> 0 -> Z.abs (toZ x) < 2 ^ (unit_exp t j + prec t - 1).
Proof.
  intros Hj HR. destruct (repr_toZ t x) as (M & e & E & He & HM & _). pose proof (unit_exp_ge t j). pose proof (prec_pos t).
  assert (e < unit_exp t j).
  { destruct (Z_lt_le_dec e (unit_exp t j)); auto. destruct HR. apply rem_zero; auto. rewrite E. exists (M * 2 ^ (e - unit_exp t j)).
    rewrite <- Z.mul_assoc, <- Z.pow_add_r by lia. do 2 f_equal. lia. }
  rewrite E, Z.abs_mul, (Z.abs_eq (2 ^ e)) by (apply Z.pow_nonneg; lia). apply Z.lt_le_trans with (2 ^ prec t * 2 ^ e).
  - apply Z.mul_lt_mono_pos_r; [apply pow2_pos|]; lia.
  - rewrite <- Z.pow_add_r by lia. apply Z.pow_le_mono_r; lia.
Qed.
Open Scope R_scope.

Lemma fmt_dbl t (x : F t) : is_finite x = true -> fmt Dbl (B2R x).
Proof. intros H. destruct t; [apply fmt_B2R|]. destruct (f2d_real x H) as [_ E]. rewrite <- E. apply fmt_B2R. Qed.

Section trip.
  Context (t : ty) (X : F t) (fold : Z).
  Local Notation z := (toZ X). Local Notation k := (bin_of t z). Local Notation xs := [X].
  Local Notation rm j := (remainder t z (Z.to_nat j)).
  Hypothesis FX : is_finite X = true.
  Hypothesis Hf : (2 <= fold <= MAXFOLD t)%Z.
  Hypothesis HD : (2 ^ unit_exp t (k + fold - 1) | z)%Z.
  Local Notation V := (Vs xs). Local Notation C := (Cs xs).
  Local Notation cterm := (cterm t C). Local Notation pterm := (pterm t V). Local Notation pre := (pre t V C k).
  Local Notation val a := (IZR a * bpow radix2 (emin t)).

  Lemma k_range : (0 <= k <= jmax t)%Z. Proof. apply bin_of_range, toZ_span. Qed.
  Lemma sums_one j : sums xs j = slice t z j. Proof. unfold sums, bin_sum. cbn. ring. Qed.
  Lemma unit_zero j : (k + fold - 1 < j \/ jmax t < j)%Z -> (0 <= j)%Z -> rm j = 0%Z.
  Proof.
    intros H H0. pose proof k_range as K. assert (L : (2 <= fold)%Z) by lia.
    assert (E : rm (Z.min (k + fold - 1) (jmax t) + 1) = 0%Z).
    { apply rem_zero; [pose proof (jmax_pos t); lia|]. replace (unit_exp t (Z.min (k + fold - 1) (jmax t))) with (unit_exp t (k + fold - 1)); [exact HD|]. unfold unit_exp. f_equal. f_equal. lia. }
    eapply rem_stay; [|exact E]. lia.
  Qed.
  Lemma slice_rm j : (0 <= j)%Z -> rm j = 0%Z -> slice t z j = 0%Z.
  Proof. intros Hj E. unfold slice. rewrite E. apply rhaz_0. Qed.
  Lemma cval_slice j : (0 <= j)%Z -> fst (cterm j) + fst (pterm j) = val (rm j - rm (j + 1)).
  Proof.
    intros Hj. rewrite <- (cval_eq t V C). unfold cval, Vs, Cs. rewrite remainder_succ by auto. replace (rm j - (rm j - slice t z j * 2 ^ unit_exp t j))%Z with (slice t z j * 2 ^ unit_exp t j)%Z by ring.
    destruct (Z.leb_spec j (jmax t)) as [L|L].
    - rewrite Z.max_r, sums_one by lia. rewrite (Z.mul_comm (_ / _)), <- Z.div_mod by (pose proof (quarter_pos t); lia).
      rewrite mult_IZR, <- bpow_IZR by (pose proof (unit_exp_ge t j); lia). rewrite Rmult_assoc, <- bpow_plus, ux_unit by lia. reflexivity.
    - rewrite slice_rm by (auto; apply unit_zero; lia). rewrite !Z.mul_0_l. cbn [Z.add]. lra.
  Qed.
  Lemma C_cases j : (0 <= j)%Z -> (C j = 0 \/ C j = -1 /\ j <= jmax t /\ rm j <> 0)%Z.
  Proof.
    intros Hj. unfold Cs. destruct (Z.leb_spec j (jmax t)) as [L|L]; [|auto]. rewrite Z.max_r, sums_one by lia.
    pose proof (slice_bound t z j Hj ltac:(pose proof (toZ_span t X); lia)) as B. pose proof (quarter_pos t) as QP.
    pose proof (width_quarter t) as WQ. pose proof (pow2_pos (width t - 1) ltac:(pose proof (width_pos t); lia)) as PW.
    destruct (Z_lt_le_dec (slice t z j) 0) as [S|S].
    - right. split; [|split; [exact L|]]; [|intros E; rewrite slice_rm in S by auto; lia].
      symmetry. apply (Z.div_unique _ _ (-1) (slice t z j + quarter t)); lia.
    - left. apply Z.div_small. lia.
  Qed.
  (** The sums along the way *)
  Lemma sum_pre m : fsum (map fst (pre m)) = val (z - rm (k + Z.of_nat m)) + fst (cterm (k + Z.of_nat m)).
  Proof.
    pose proof k_range as K. induction m as [|m IH].
    - cbn [ConvFloat.pre map fsum fold_right]. rewrite Z.add_0_r. rewrite remainder_below by lia. rewrite Z.sub_diag. lra.
    - cbn [ConvFloat.pre]. rewrite map_app, fsum_app, IH. cbn [map fsum fold_right].
      pose proof (cval_slice (k + Z.of_nat m) ltac:(lia)) as E. replace (k + Z.of_nat (S m))%Z with (k + Z.of_nat m + 1)%Z by lia.
      set (a := fst (cterm (k + Z.of_nat m))) in *. set (p := fst (pterm (k + Z.of_nat m))) in *. set (c := fst (cterm (k + Z.of_nat m + 1))) in *.
      rewrite !minus_IZR in *. lra.
  Qed.
  Lemma sum_all : fsum (map fst (pre (Z.to_nat (fold - 1)) ++ [pterm (k + (fold - 1))])) = B2R X.
  Proof.
    pose proof k_range as K. assert (L : (2 <= fold)%Z) by lia. rewrite map_app, fsum_app, sum_pre. cbn [map fsum fold_right].
    replace (k + Z.of_nat (Z.to_nat (fold - 1)))%Z with (k + (fold - 1))%Z by lia.
    pose proof (cval_slice (k + (fold - 1)) ltac:(lia)) as E. rewrite (unit_zero (k + (fold - 1) + 1)) in E by lia.
    rewrite toZ_B2R. rewrite !minus_IZR in *. set (a := fst (cterm (k + (fold - 1)))) in *. set (p := fst (pterm (k + (fold - 1)))) in *. lra.
  Qed.
  Lemma val_abs a e : (0 <= e)%Z -> (Z.abs a <= 2 ^ e)%Z -> Rabs (val a) <= bpow radix2 (e + emin t).
  Proof.
    intros He H. rewrite Rabs_mult, (Rabs_pos_eq (bpow _ _)), <- abs_IZR, bpow_plus by apply bpow_ge_0.
    apply Rmult_le_compat_r; [apply bpow_ge_0|]. rewrite bpow_IZR by exact He. now apply IZR_le.
  Qed.
  Lemma val_mul a e : (0 <= e)%Z -> (2 ^ e | a)%Z -> ismul (e + emin t) (val a).
  Proof. intros He [c ->]. exists c. rewrite mult_IZR, <- bpow_IZR, Rmult_assoc, <- bpow_plus by exact He. reflexivity. Qed.
  Lemma c_abs j : (0 <= j)%Z -> Rabs (fst (cterm j)) <= bpow radix2 (ux t j + prec t - 3).
  Proof.
    intros Hj. unfold ConvTerms.cterm. cbn [fst]. rewrite Rabs_mult, (Rabs_pos_eq (bpow _ _)), <- abs_IZR by apply bpow_ge_0.
    rewrite <- (Rmult_1_l (bpow radix2 _)) at 2. apply Rmult_le_compat_r; [apply bpow_ge_0|]. apply IZR_le. destruct (C_cases j Hj) as [->|[-> _]]; lia.
  Qed.
  Lemma c_mult j : ismul (ux t j + prec t - 3) (fst (cterm j)). Proof. eexists. reflexivity. Qed.
  Lemma c_zero j : C j = 0%Z -> fst (cterm j) = 0. Proof. intros E. unfold ConvTerms.cterm. cbn [fst]. rewrite E. ring. Qed.
  Lemma dbl_prec : (prec t <= prec Dbl /\ emin Dbl <= ux t (jmax t))%Z. Proof. clear. destruct t; cbv; split; discriminate. Qed.

  Lemma fmt_pre m : fmt Dbl (fsum (map fst (pre m))).
  Proof.
    pose proof k_range as K. pose proof dbl_prec as [DP DE]. pose proof (prec_pos t) as PP. pose proof (width_pos t) as WP. rewrite sum_pre. set (j := (k + Z.of_nat m)%Z).
    destruct (Z.eq_dec (rm j) 0) as [E|N].
    - assert (CZ : C j = 0%Z) by (destruct (C_cases j ltac:(lia)) as [?|(_ & _ & N)]; auto; contradiction).
      rewrite (c_zero j CZ), E, Z.sub_0_r, Rplus_0_r, <- toZ_B2R. now apply fmt_dbl.
    - assert (JM : (j <= jmax t)%Z) by (destruct (Z_le_dec j (jmax t)); auto; destruct N; apply unit_zero; lia).
      assert (WQ : (width t <= prec t - 3)%Z) by (clear; destruct t; cbv; discriminate).
      destruct m as [|m].
      + unfold j. rewrite Z.add_0_r, remainder_below, Z.sub_diag, Rmult_0_l, Rplus_0_l by lia. unfold ConvTerms.cterm. cbn [fst].
        apply fmt_int; [assert (ux t (jmax t) <= ux t k)%Z by (unfold ux; nia); lia|]. destruct (C_cases k ltac:(lia)) as [->|[-> _]]; cbv; discriminate.
      + assert (UJ : ux t j = (ux t (j - 1) - width t)%Z) by (unfold ux; lia).
        assert (UM : (ux t (jmax t) <= ux t (j - 1))%Z) by (unfold ux; nia).
        assert (EU : (unit_exp t (j - 1) + emin t = ux t (j - 1))%Z) by (apply ux_unit; lia).
        pose proof (unit_exp_ge t (j - 1)) as UG.
        replace j with (j - 1 + 1)%Z in N at 1 by lia. pose proof (rem_size t X (j - 1) ltac:(lia) N) as RS.
        pose proof (remainder_half t z (j - 1) ltac:(lia)) as RH. replace (j - 1 + 1)%Z with j in RH by lia.
        pose proof (rem_div t z (j - 1) ltac:(lia)) as RD. replace (j - 1 + 1)%Z with j in RD by lia.
        apply (fmt_mul Dbl (ux t (j - 1))); [lia| |].
        * apply ismul_plus; [rewrite <- EU; apply val_mul; [lia|exact RD]|]. eapply ismul_le; [|apply c_mult]. lia.
        * eapply Rle_trans; [apply Rabs_triang|]. pose proof (c_abs j ltac:(lia)) as CA.
          assert (VA : Rabs (val (z - rm j)) <= bpow radix2 (ux t (j - 1) + prec t - 1) + bpow radix2 (ux t (j - 1))).
          { rewrite minus_IZR, Rmult_minus_distr_r. eapply Rle_trans; [apply Rabs_triang|]. rewrite Rabs_Ropp. apply Rplus_le_compat.
            - replace (ux t (j - 1) + prec t - 1)%Z with (unit_exp t (j - 1) + prec t - 1 + emin t)%Z by lia. apply val_abs; lia.
            - rewrite <- EU. apply val_abs; lia. }
          assert (P1 : bpow radix2 (ux t (j - 1) + prec Dbl) >= 2 * bpow radix2 (ux t (j - 1) + prec t - 1)).
          { change 2 with (bpow radix2 1). rewrite <- bpow_plus. apply Rle_ge, bpow_le. lia. }
          assert (P2 : bpow radix2 (ux t j + prec t - 3) <= bpow radix2 (ux t (j - 1) + prec t - 3)) by (apply bpow_le; lia).
          assert (P3 : bpow radix2 (ux t (j - 1)) <= bpow radix2 (ux t (j - 1) + prec t - 3)) by (apply bpow_le; lia).
          assert (P4 : bpow radix2 (ux t (j - 1) + prec t - 1) = 4 * bpow radix2 (ux t (j - 1) + prec t - 3)).
          { change 4 with (bpow radix2 2). rewrite <- bpow_plus. f_equal. lia. }
          pose proof (bpow_gt_0 radix2 (ux t (j - 1) + prec t - 3)). lra.
  Qed.
  Lemma fmt_mid m : fmt Dbl (fsum (map fst (pre m ++ [cterm (k + Z.of_nat m + 1)]))).
  Proof.
    pose proof k_range as K. pose proof dbl_prec as [DP DE]. pose proof (prec_pos t) as PP. pose proof (width_pos t) as WP. rewrite map_app, fsum_app. cbn [map fsum fold_right]. rewrite Rplus_0_r.
    set (j := (k + Z.of_nat m)%Z).
    destruct (C_cases (j + 1) ltac:(lia)) as [CZ|(_ & JM & N)]; [rewrite (c_zero _ CZ), Rplus_0_r; apply fmt_pre|].
    assert (WQ : (width t <= prec t - 3)%Z) by (clear; destruct t; cbv; discriminate).
    assert (UJ : ux t (j + 1) = (ux t j - width t)%Z) by (unfold ux; lia).
    assert (UM : (ux t (jmax t) <= ux t (j + 1))%Z) by (unfold ux; nia).
    assert (EU : (unit_exp t j + emin t = ux t j)%Z) by (apply ux_unit; lia). pose proof (unit_exp_ge t j) as UG.
    pose proof (rem_size t X j ltac:(lia) N) as RS. rewrite sum_pre. fold j.
    pose proof (remainder_abs_le t z (Z.to_nat j)) as RA.
    set (q := (ux t (j + 1) + prec t - 3)%Z).
    apply (fmt_mul Dbl q); [unfold q; lia| |].
    - apply ismul_plus; [apply ismul_plus|].
      + destruct m as [|m]; [unfold j; rewrite Z.add_0_r, remainder_below, Z.sub_diag, Rmult_0_l by lia; apply ismul_0|].
        pose proof (rem_div t z (j - 1) ltac:(lia)) as RD. replace (j - 1 + 1)%Z with j in RD by lia.
        pose proof (unit_exp_ge t (j - 1)). apply (ismul_le (unit_exp t (j - 1) + emin t)); [|apply val_mul; [lia|exact RD]].
        rewrite ux_unit by lia. unfold q. rewrite UJ. assert (ux t (j - 1) = ux t j + width t)%Z by (unfold ux; lia). clear - H0 WQ. destruct t; cbv [prec width] in *; lia.
      + eapply ismul_le; [|apply c_mult]. unfold q. lia.
      + apply c_mult.
    - eapply Rle_trans; [apply Rabs_triang|]. eapply Rle_trans; [apply Rplus_le_compat_r, Rabs_triang|].
      pose proof (c_abs j ltac:(lia)) as CA. pose proof (c_abs (j + 1) ltac:(lia)) as CB.
      assert (VA : Rabs (val (z - rm j)) <= bpow radix2 (ux t j + prec t)).
      { replace (ux t j + prec t)%Z with (unit_exp t j + prec t + emin t)%Z by lia. apply val_abs; [lia|].
        replace (unit_exp t j + prec t)%Z with (1 + (unit_exp t j + prec t - 1))%Z by lia. rewrite Z.pow_add_r by lia. change (2 ^ 1)%Z with 2%Z. lia. }
      assert (P1 : bpow radix2 (ux t j + prec t + 1) <= bpow radix2 (q + prec Dbl)).
      { apply bpow_le. unfold q. rewrite UJ. clear. destruct t; cbv [prec width]; lia. }
      assert (P2 : bpow radix2 (ux t j + prec t + 1) = 2 * bpow radix2 (ux t j + prec t)) by (rewrite bpow_plus; change (bpow radix2 1) with 2; ring).
      assert (P3 : bpow radix2 (ux t j + prec t) = 8 * bpow radix2 (ux t j + prec t - 3)) by (change 8 with (bpow radix2 3); rewrite <- bpow_plus; f_equal; lia).
      assert (P4 : bpow radix2 (ux t (j + 1) + prec t - 3) <= bpow radix2 (ux t j + prec t - 3)) by (apply bpow_le; lia).
      pose proof (bpow_gt_0 radix2 (ux t j + prec t - 3)). lra.
  Qed.
  Local Notation n := (Z.to_nat (fold - 1)).
  Local Notation Q := (fun l : list (R * Z) => fmt Dbl (fsum (map fst l))).
  Lemma all_prefixes : pfx Q [] (all_terms t V C n k).
  Proof.
    assert (L : (2 <= fold)%Z) by lia.
    assert (G : forall d m, (d + m = n)%nat -> pfx Q (pre m) (rest t V C d (k + Z.of_nat m))).
    { induction d as [|d IH]; intros m E; cbn [rest].
      - apply pfx_cons; [apply fmt_pre|]. apply pfx_nil. replace m with n by lia. replace (Z.of_nat n) with (fold - 1)%Z by lia.
        cbv beta. rewrite sum_all. now apply fmt_dbl.
      - apply pfx_cons; [apply fmt_pre|]. apply pfx_cons; [apply fmt_mid|].
        specialize (IH (S m) ltac:(lia)). cbn [ConvFloat.pre] in IH. rewrite <- app_assoc. cbn [app].
        replace (k + Z.of_nat m + 1)%Z with (k + Z.of_nat (S m))%Z at 2 by lia. exact IH. }
    unfold all_terms. apply pfx_cons; [apply fmt_0|]. cbn [app]. specialize (G n 0%nat ltac:(lia)). rewrite Z.add_0_r in G. exact G.
  Qed.
  Lemma prefix_exact l1 l2 : all_terms t V C n k = l1 ++ l2 -> rsum Dbl 0 (map fst l1) = fsum (map fst l1).
  Proof.
    intros E. apply rsum_exact. intros la lb E1. apply (all_prefixes la (lb ++ l2)). rewrite E, E1, app_assoc. reflexivity.
  Qed.
  Lemma total_exact : rsum Dbl 0 (map fst (all_terms t V C n k)) = B2R X.
  Proof.
    assert (L : (2 <= fold)%Z) by lia.
    rewrite (prefix_exact _ []) by (symmetry; apply app_nil_r). rewrite (pre_last t V C k n). replace (Z.of_nat n) with (fold - 1)%Z by lia. apply sum_all.
  Qed.
  (** Nothing is left after bin 1, or the float is far from the largest. *)
  Lemma late_zero l2 : rm 2 = 0%Z -> late t V C n k l2 -> fsum (map fst l2) = 0.
  Proof.
    intros R2 H. pose proof k_range as K.
    assert (Z0 : forall j, (2 <= j)%Z -> V j = 0%Z /\ C j = 0%Z).
    { intros j Hj. assert (S : slice t z j = 0%Z) by (apply slice_rm; [lia|]; eapply rem_stay; [|exact R2]; lia).
      unfold Vs, Cs. destruct (j <=? jmax t)%Z; auto. rewrite Z.max_r, sums_one, S by lia. pose proof (quarter_pos t). rewrite Z.mod_0_l, Z.div_0_l by lia. auto. }
    assert (A : forall d j, (2 <= j)%Z -> asum (map fst (rest t V C d j)) = 0).
    { assert (CZ : forall j, (2 <= j)%Z -> fst (cterm j) = 0 /\ fst (pterm j) = 0).
      { intros j Hj. destruct (Z0 j Hj) as [E1 E2]. unfold ConvTerms.cterm, ConvTerms.pterm. cbn [fst]. rewrite E1, E2. lra. }
      induction d as [|d IH]; intros j Hj; cbn [rest map asum fold_right]; destruct (CZ j Hj) as [E1 E2].
      - rewrite E2, Rabs_R0. lra.
      - destruct (CZ (j + 1)%Z ltac:(lia)) as [E3 _]. specialize (IH (j + 1)%Z ltac:(lia)). unfold asum in IH. rewrite IH, E2, E3, !Rabs_R0. lra. }
    destruct H as [->|(m & l0 & Hm & H2 & E)]; [reflexivity|].
    specialize (A (n - m)%nat _ H2). rewrite E, map_app, asum_app in A. pose proof (asum_pos (map fst l0)) as P0. pose proof (asum_pos (map fst l2)). pose proof (fsum_asum (map fst l2)) as FA.
    assert (Rabs (fsum (map fst l2)) = 0) by (pose proof (Rabs_pos (fsum (map fst l2))); lra). now apply Rabs_eq_R0.
  Qed.
End trip.

Lemma trip_hyps {t} fold (X : F t) P W : is_finite X = true -> (2 <= fold <= MAXFOLD t)%Z ->
  (2 ^ unit_exp t (bin_of t (toZ X) + fold - 1) | toZ X)%Z -> holds t fold [] [X] P W -> conv_hyps fold [] [X] P W.
Proof.
  intros FX Hf HD HH. assert (L : (2 <= fold)%Z) by lia. split; [exact Hf|]. split; [cbn; rewrite FX; reflexivity|]. split; [discriminate|]. split; [destruct t; cbv; discriminate|]. split; [exact HH|].
  intros j Hj. rewrite sums_one. pose proof (jmax_pos t). apply slice_rm; [lia|]. apply (unit_zero t X fold Hf HD); lia.
Qed.
Theorem round_trip {t} fold (X : F t) P W : is_finite X = true -> (2 <= fold <= MAXFOLD t)%Z ->
  (2 ^ unit_exp t (bin_of t (toZ X) + fold - 1) | toZ X)%Z -> holds t fold [] [X] P W -> is_finite (conv_words fold P W) = true /\ B2R (conv_words fold P W) = B2R X.
Proof.
  intros FX Hf HD HH.
  assert (L : (2 <= fold)%Z) by lia.
  destruct (trip_hyps fold X P W FX Hf HD HH) as (_ & AF & NE & HL & _ & HT).
  assert (KE : lead ([] ++ [X]) = bin_of t (toZ X)).
  { cbn [app lead map fold_right]. unfold lead, findex. cbn [map fold_right]. rewrite FX. pose proof (bin_of_range t (toZ X) (toZ_span t X)). lia. }
  pose proof (Vs_range [X]) as HV. pose proof (Cs_range [X] HL) as HC. pose proof (VCs_zero [X]) as HZ.
  pose proof (acc_vc fold [] [X] P W AF NE HL HH HT) as HA. pose proof (kr [] [X]) as K. rewrite KE in HA, K.
  assert (Hf' : (2 <= fold <= jmax t + 1)%Z) by (rewrite <- MAXFOLD_eq; exact Hf).
  pose proof (total_exact t X fold FX Hf HD) as TE.
  destruct t.
  - destruct (ddmconv_rsum fold (bin_of Dbl (toZ X)) (Vs [X]) (Cs [X]) P W Hf' K HV HC HZ HA) as [F E].
    + intros l1 l2 E L2. rewrite (prefix_exact Dbl X fold FX Hf HD l1 l2 E).
      pose proof (prefix_exact Dbl X fold FX Hf HD _ [] ltac:(symmetry; apply app_nil_r)) as E0. rewrite TE in E0.
      rewrite E, map_app, fsum_app in E0.
      destruct (Z.eq_dec (remainder Dbl (toZ X) (Z.to_nat 2)) 0) as [R2|R2].
      * pose proof (late_zero Dbl X fold l2 R2 L2) as LZ. rewrite LZ, Rplus_0_r in E0. rewrite <- E0. apply B2R_lt.
      * pose proof (rem_size Dbl X 1 ltac:(lia) R2) as RS. change (unit_exp Dbl 1 + prec Dbl - 1)%Z with 2071%Z in RS.
        assert (XB : Rabs (B2R X) <= bpow radix2 997).
        { rewrite toZ_B2R. change 997%Z with (2071 + emin Dbl)%Z. apply val_abs; lia. }
        assert (LB : asum (map fst l2) <= bpow radix2 975).
        { apply (late_size Dbl (Vs [X]) (Cs [X]) (Z.to_nat (fold - 1)) (bin_of Dbl (toZ X)) HV HC HZ); [|exact L2]. intros j Hj. rewrite uxd. cbn [prec width]. lia. }
        pose proof (fsum_asum (map fst l2)) as FA.
        assert (Rabs (fsum (map fst l1)) <= Rabs (B2R X) + Rabs (fsum (map fst l2))).
        { replace (fsum (map fst l1)) with (B2R X + - fsum (map fst l2)) by lra. rewrite <- (Rabs_Ropp (fsum (map fst l2))). apply Rabs_triang. }
        assert (bpow radix2 975 <= bpow radix2 997) by (apply bpow_le; lia).
        assert (E3 : bpow radix2 998 = 2 * bpow radix2 997) by (change 998%Z with (1 + 997)%Z; rewrite bpow_plus; reflexivity).
        apply Rle_lt_trans with (bpow radix2 998); [lra|apply bpow_lt; lia].
    + split; [exact F|]. cbn [bpow] in E. rewrite Rmult_1_r in E. rewrite TE in E. exact E.
  - destruct (ssmconv_rsum fold (bin_of Flt (toZ X)) (Vs [X]) (Cs [X]) P W Hf' K HV HC HZ HA) as (Y & EY & [F E]).
    cbn [conv_words]. rewrite EY. cbn [bpow] in E. rewrite Rmult_1_r, TE in E.
    assert (R : RN Flt (B2R Y) = B2R X) by (rewrite E; apply round_generic; [apply valid_rnd_N|apply fmt_B2R]).
    rewrite <- R. apply d2f_real; auto. rewrite R. apply B2R_lt.
Qed.
