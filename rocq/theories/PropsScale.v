(** * C32, C33, C34: scale factors, rescaling, unit in the first place *)
From Coq Require Import ZArith Bool List Lia Reals Lra.
From Flocq Require Import Core BinarySingleNaN.
From Verif Require Import Fp Mem Binned Spec FpProofs BitProofs CoreArith SpecProofs WordProofs MemProofs AccProofs SumProofs ConvProofs Client History ClientProofs PropsSum PropsAcc ScaleProofs RescaleProofs ReduceProofs SsqProofs.
Import ListNotations.
Open Scope Z_scope.

(** ** C32: binned_dscale, binned_sscale *)
(** The result is 2^(W z) for an integer z, for every argument (zeros, subnormals,
    infinities and NaN included), and so is its reciprocal. *)
Theorem C32_power_of_two t (X : F t) : exists z,
  dscale X = mkf 1 (WIDTH t * z) /\ is_finite (dscale X) = true /\ B2R (dscale X) = bpow radix2 (WIDTH t * z) /\
  is_finite (fdiv (mkf 1 0) (dscale X)) = true /\ B2R (fdiv (mkf 1 0) (dscale X)) = bpow radix2 (- (WIDTH t * z)).
Proof.
  exists (scale_z X). rewrite dscale_eq. pose proof (scale_z_range t X) as R. pose proof (scale_exp_range t _ R) as [E1 E2].
  pose proof (prec_pos t). change (WIDTH t) with (width t). rewrite inv_scale by auto.
  destruct (mkf_pow2 t (width t * scale_z X)) as [A1 A2]; [lia|]. destruct (mkf_pow2 t (- (width t * scale_z X))) as [B1 B2]; [lia|]. auto.
Qed.
Print Assumptions C32_power_of_two.
(** |X| < Y 2^W for every finite X; Y 2^(1-W) <= |X| unless X is so small that the
    exponent was clamped. *)
Theorem C32_bracket t (X : F t) : is_finite X = true ->
  (Rabs (B2R X) < B2R (dscale X) * bpow radix2 (WIDTH t))%R /\
  ((bpow radix2 (emin t + prec t - 2 + WIDTH t) <= Rabs (B2R X))%R ->
   (B2R (dscale X) * bpow radix2 (1 - WIDTH t) <= Rabs (B2R X))%R).
Proof.
  intros FX. rewrite dscale_eq. pose proof (scale_z_range t X) as R. pose proof (scale_exp_range t _ R) as [E1 E2].
  pose proof (prec_pos t) as PP. destruct (mkf_pow2 t (width t * scale_z X)) as [_ ->]; [lia|]. rewrite <- !bpow_plus.
  rewrite toZ_B2R, Rabs_mult, (Rabs_pos_eq (bpow radix2 (emin t))) by apply bpow_ge_0. rewrite <- abs_IZR. change (WIDTH t) with (width t).
  pose proof (scale_lt t X FX) as SL. pose proof (width_pos t) as WP.
  assert (CV : forall e, emin t <= e -> bpow radix2 e = (IZR (2 ^ (e - emin t)) * bpow radix2 (emin t))%R).
  { intros e He. rewrite <- bpow_IZR by lia. rewrite <- bpow_plus. f_equal. lia. }
  pose proof (bpow_gt_0 radix2 (emin t)) as BP. split.
  - rewrite (CV (width t * scale_z X + width t)) by lia. apply Rmult_lt_compat_r; auto. apply IZR_lt. exact SL.
  - intros H. rewrite (CV (emin t + prec t - 2 + width t)) in H by lia. apply Rmult_le_reg_r in H; auto. apply le_IZR in H.
    destruct (Z.eq_dec (scale_z X) (zmin t)) as [Ez|Ez].
    + (* lowest scale, exponent not clamped *)
      rewrite (CV (width t * scale_z X + (1 - width t))) by (rewrite Ez; unfold emin; destruct t; cbn; lia).
      apply Rmult_le_compat_r; [lra|]. apply IZR_le. etransitivity; [|exact H]. apply Z.pow_le_mono_r; [lia|].
      rewrite Ez. unfold emin. destruct t; cbn; lia.
    + pose proof (scale_ge t X FX ltac:(lia)) as SG.
      rewrite (CV (width t * scale_z X + (1 - width t))) by (destruct R; unfold emin; destruct t; cbn [prec emax width zmin zmax] in *; lia).
      apply Rmult_le_compat_r; [lra|]. apply IZR_le. replace (width t * scale_z X + (1 - width t) - emin t) with (width t * scale_z X - width t + 1 - emin t) by lia. exact SG.
Qed.
Print Assumptions C32_bracket.
(** The documented bounds Y 2^(-p-W-1) < |X| < Y 2^(W+2): the upper one always, the
    lower one exactly when |X| is not tiny. *)
Definition scale_floor (t : ty) : Z := match t with Dbl => -1054 | Flt => -142 end.
Theorem C32_documented_bound t (X : F t) : is_finite X = true ->
  (Rabs (B2R X) < B2R (dscale X) * bpow radix2 (WIDTH t + 2))%R /\
  ((B2R (dscale X) * bpow radix2 (- prec t - WIDTH t - 1) < Rabs (B2R X))%R <-> (bpow radix2 (scale_floor t) < Rabs (B2R X))%R).
Proof.
  intros FX. destruct (C32_bracket t X FX) as [U L]. pose proof (scale_z_range t X) as R.
  pose proof (scale_exp_range t _ R) as [E1 _]. pose proof (prec_pos t) as PP. pose proof (width_pos t) as WP.
  destruct (mkf_pow2 t (width t * scale_z X)) as [_ V]; [lia|]. rewrite <- dscale_eq in V. split.
  - eapply Rlt_trans; [exact U|]. apply Rmult_lt_compat_l; [rewrite V; apply bpow_gt_0|]. apply bpow_lt. lia.
  - assert (FL : forall z, zmin t <= z -> (bpow radix2 (scale_floor t) <= bpow radix2 (width t * z) * bpow radix2 (- prec t - WIDTH t - 1))%R).
    { intros z Hz. rewrite <- bpow_plus. apply bpow_le. change (WIDTH t) with (width t). clear -Hz. destruct t; cbn [prec width zmin scale_floor] in *; lia. }
    split; intros H.
    + rewrite V in H. eapply Rle_lt_trans; [apply FL; apply R|exact H].
    + destruct (Rle_lt_dec (bpow radix2 (emin t + prec t - 2 + WIDTH t)) (Rabs (B2R X))) as [G|G].
      * specialize (L G). eapply Rlt_le_trans; [|exact L]. apply Rmult_lt_compat_l; [rewrite V; apply bpow_gt_0|]. apply bpow_lt. lia.
      * (* the exponent is clamped: the scale is the lowest one *)
        assert (scale_z X = zmin t) as Ez.
        { destruct (Z.eq_dec (scale_z X) (zmin t)); auto. exfalso. pose proof (scale_ge t X FX ltac:(lia)) as SG.
          assert (X1 : (bpow radix2 (width t * scale_z X - width t + 1) <= Rabs (B2R X))%R).
          { rewrite toZ_B2R, Rabs_mult, (Rabs_pos_eq (bpow radix2 (emin t))), <- abs_IZR by apply bpow_ge_0.
            replace (width t * scale_z X - width t + 1) with (width t * scale_z X - width t + 1 - emin t + emin t) by lia.
            rewrite bpow_plus. apply Rmult_le_compat_r; [apply bpow_ge_0|]. rewrite bpow_IZR; [apply IZR_le; exact SG|].
            unfold emin. clear -R n. generalize dependent (scale_z X). intros q. destruct t; cbn [prec emax width zmin zmax]; intros; lia. }
          assert (G' : (bpow radix2 (width t * scale_z X - width t + 1) < bpow radix2 (emin t + prec t - 2 + WIDTH t))%R) by lra.
          apply lt_bpow in G'. change (WIDTH t) with (width t) in G'. unfold emin in G'. clear -G' R n. generalize dependent (scale_z X). intros q. destruct t; cbn [prec emax width zmin zmax]; intros; lia. }
        eapply Rle_lt_trans; [|exact H]. rewrite V, Ez, <- bpow_plus. apply bpow_le. change (WIDTH t) with (width t). destruct t; cbn; lia.
Qed.
Print Assumptions C32_documented_bound.
Theorem C32_documented_bound_refuted : exists X : F Dbl, is_finite X = true /\ (0 < B2R X)%R /\
  ~ (B2R (dscale X) * bpow radix2 (- prec Dbl - WIDTH Dbl - 1) < Rabs (B2R X))%R.
Proof.
  exists (mkf 1 (-1060)). destruct (mkf_pow2 Dbl (-1060)) as [A B]; [unfold emin; cbn; lia|]. split; auto.
  rewrite B. split; [apply bpow_gt_0|]. intros H. rewrite <- B in H. apply C32_documented_bound in H; auto. rewrite B, Rabs_pos_eq in H by apply bpow_ge_0.
  apply lt_bpow in H. cbn in H. lia.
Qed.
Print Assumptions C32_documented_bound_refuted.
(** Larger magnitudes get no smaller scales. *)
Theorem C32_monotone t (X Y : F t) : is_finite X = true -> is_finite Y = true ->
  (Rabs (B2R X) <= Rabs (B2R Y))%R -> (B2R (dscale X) <= B2R (dscale Y))%R.
Proof.
  intros FX FY H. rewrite !dscale_eq.
  pose proof (scale_z_range t X) as R. pose proof (scale_exp_range t _ R) as [E1 _].
  pose proof (scale_z_range t Y) as R'. pose proof (scale_exp_range t _ R') as [E1' _]. pose proof (prec_pos t). pose proof (width_pos t).
  destruct (mkf_pow2 t (width t * scale_z X)) as [_ ->]; [lia|]. destruct (mkf_pow2 t (width t * scale_z Y)) as [_ ->]; [lia|].
  apply bpow_le. apply Z.mul_le_mono_nonneg_l; [lia|]. apply scale_z_mono; auto.
  rewrite !toZ_B2R, !Rabs_mult, <- !abs_IZR in H. apply Rmult_le_reg_r in H; [now apply le_IZR|].
  apply Rabs_pos_lt. pose proof (bpow_gt_0 radix2 (emin t)). lra.
Qed.
Print Assumptions C32_monotone.
Example C32_case : exists X : F Dbl, is_finite X = true /\ (bpow radix2 (emin Dbl + prec Dbl - 2 + WIDTH Dbl) <= Rabs (B2R X))%R /\
  feq (dscale X) (mkf 1 80) = true.
Proof.
  exists (mkf 1 100). destruct (mkf_pow2 Dbl 100) as [A B]; [unfold emin; cbn; lia|]. split; auto.
  split; [|vm_compute; reflexivity]. rewrite B, Rabs_pos_eq by apply bpow_ge_0. apply bpow_le. vm_compute. discriminate.
Qed.

(** ** C33: binned_dmdrescale *)
Lemma rescale_value t fold k s P W P' W' : 0 <= k -> 0 <= s -> k + fold - 1 + s <= jmax t ->
  (forall i, 0 <= i < fold -> content t (k + i) (P i) (W i) = content t (k + s + i) (P' i) (W' i)) ->
  value t fold (k + s) P' W' * 2 ^ (width t * s) = value t fold k P W.
Proof.
  intros Hk Hs Hm HC. unfold value. pose proof (width_pos t) as WP.
  assert (G : forall n i, 0 <= i -> i + Z.of_nat n <= fold -> value_from t n (k + s) i P' W' * 2 ^ (width t * s) = value_from t n k i P W).
  { induction n as [|n IH]; intros i Hi Hn; cbn [value_from]; [reflexivity|].
    rewrite Z.mul_add_distr_r, IH by lia. f_equal. rewrite (HC i) by lia. rewrite <- Z.mul_assoc. f_equal.
    rewrite <- Z.pow_add_r by (try (pose proof (unit_exp_ge t (k + s + i)); lia); nia). f_equal. unfold unit_exp. rewrite !Z.min_l by lia. ring. }
  destruct (Z.le_gt_cases 0 fold); [apply G; lia|]. destruct fold; try lia. reflexivity.
Qed.
(** An accumulator of finite data, none of its bins 0, rescaled from one dscale value to
    a larger one, no bin passing the last one, the squared ratio representable:
    every bin moves by s = 2 (z' - z), contents and carries stay, so the value is
    divided by (X/scaleY)^2 = 2^(W s) exactly. *)
Theorem C33_rescale t fold Y us (xs : list (F t)) a b z z' (m : mem t) :
  2 <= fold <= MAXFOLD t -> acc_at fold us xs m Y -> all_finite xs = true -> us ++ xs <> [] ->
  Z.of_nat (length xs) <= CAPACITY t ->
  dscale a = mkf 1 (WIDTH t * z) -> dscale b = mkf 1 (WIDTH t * z') -> zmin t <= z -> z < z' -> z' <= zmax t ->
  let s := 2 * (z' - z) in let k := lead (us ++ xs) in
  1 <= k -> k + fold - 1 + s <= MAXINDEX t ->
  f_isinf (fmul (fdiv (dscale b) (dscale a)) (fdiv (dscale b) (dscale a))) = false ->
  let m' := dmdrescale fold (dscale b) (dscale a) Y 1 (Y + fold) 1 m in
  dmindex (m' Y) = k + s /\
  (forall i, 0 <= i < fold -> toZ (m' (Y + i)) * 2 ^ (WIDTH t * s) = toZ (m (Y + i)) /\ m' (Y + fold + i) = m (Y + fold + i) /\
     content_at fold (k + s) m' Y i = content_at fold k m Y i) /\
  value t fold (k + s) (fun i => m' (Y + i)) (fun i => m' (Y + fold + i)) * 2 ^ (WIDTH t * s) =
    value t fold k (fun i => m (Y + i)) (fun i => m (Y + fold + i)) /\
  unchanged_outside Y (dbnum fold) m m'.
Proof.
  intros Hf HA FX NE HC Ea Eb Z1 Z2 Z3 s k K1 K2 NI m'. rewrite CAPACITY_eq in HC.
  pose proof (MAXFOLD_eq t) as MF.
  assert (MI : MAXINDEX t = jmax t) by (destruct t; reflexivity). rewrite MI in K2. change (WIDTH t) with (width t) in *.
  assert (H1f : 1 <= fold) by lia. assert (Hm : fold <= jmax t + 1) by lia.
  pose proof (layout_contig fold Y ltac:(lia)) as L.
  assert (R : rep t fold us xs 0 (P_of m Y 1) (P_of m (Y + fold) 1)).
  { apply holds_rep; auto; exact HA. }
  unfold rep in R. rewrite FX in R. assert (R' : exists V C, acc t fold k V C (P_of m Y 1) (P_of m (Y + fold) 1) /\
      (forall j, 0 <= j -> - quarter t - 0 * 2 ^ (width t - 1) < V j < quarter t + 0 * 2 ^ (width t - 1))).
  { destruct (us ++ xs) eqn:E; [contradiction|]. destruct R as (V & C & A & _ & _ & _ & BV). exists V, C. auto. }
  clear R. destruct R' as (V & C & A & BV). pose proof (quarter_pos t) as QP.
  destruct (rescale_ok L H1f Hm m k V C z z' A K1) as (F1 & N1 & N2 & N3 & W); auto.
  { intros i Hi. destruct A as [A0 _]. specialize (BV (k + i) ltac:(lia)). unfold inbin. lia. }
  fold s in N3, W. rewrite <- Ea, <- Eb in F1, N1, N2, N3, W. fold m' in F1, N1, N2, N3, W.
  assert (HW : width t * s < emax t).
  { rewrite Ea, Eb in NI. rewrite (rescale_factor t z z') in NI by lia. fold s in NI. destruct (Z.ltb_spec (width t * s) (emax t)); [auto|discriminate]. }
  specialize (W HW). rewrite (proj2 (Z.ltb_lt _ _) HW) in N3. rewrite Z.min_l in N3 by lia. split; [exact N3|].
  clearbody m'. destruct A as [A0 A]. pose proof (width_pos t) as WP.
  assert (G : forall i, 0 <= i < fold -> toZ (m' (Y + i)) * 2 ^ (width t * s) = toZ (m (Y + i)) /\ m' (Y + fold + i) = m (Y + fold + i) /\
     content_at fold (k + s) m' Y i = content_at fold k m Y i).
  { intros i Hi. destruct (W i Hi ltac:(lia)) as [[W1 W1'] W2]. destruct (A i Hi) as [[A1 A1'] [A2 A2']]. unfold P_of in *. rewrite !Z.mul_1_r in *.
    assert (SE : stored_exp t (k + i) = stored_exp t (k + i + s) + width t * s).
    { unfold stored_exp, unit_exp. rewrite !Z.min_l by lia. destruct (Z.eqb_spec (k + i) 0); [lia|]. destruct (Z.eqb_spec (k + i + s) 0); [lia|]. ring. }
    pose proof (stored_exp_ge t (k + i + s) ltac:(lia)) as SG.
    split; [|split; auto].
    - rewrite W1', A1', SE. rewrite Z.pow_add_r by nia. ring.
    - unfold content_at, content. rewrite W2, W1', A1'. replace (k + s + i) with (k + i + s) by lia.
      pose proof (stored_exp_ge t (k + i) ltac:(lia)). rewrite !Z.div_mul by (apply Z.pow_nonzero; lia). reflexivity. }
  split; [exact G|]. split.
  - apply rescale_value; try lia. intros i Hi. symmetry. apply G; auto.
  - intros x Hx. apply (frame_contig fold Y m m' ltac:(lia) F1). exact Hx.
Qed.
Print Assumptions C33_rescale.
Lemma sum_list_at t fold Y (xs : list (F t)) m : 2 <= fold <= MAXFOLD t -> Z.of_nat (length xs) <= capacity t ->
  acc_at fold [] xs (sum_list fold Y xs m) Y.
Proof. intros Hf HC. destruct (sum_list_holds fold Hf Y xs m HC) as [H _]. exact H. Qed.
Example C33_case : forall m : mem Dbl, m = sum_list 3 10 [mkf 5 100; mkf (-3) 61] (fun _ => fzero) ->
  let k := lead ([] ++ [mkf 5 100; mkf (-3) 61] : list (F Dbl)) in
  acc_at 3 [] [mkf 5 100; mkf (-3) 61] m 10 /\ k = 23 /\ k + 3 - 1 + 2 * (1 - 0) <= MAXINDEX Dbl /\
  dscale (mkf 1 0 : F Dbl) = mkf 1 (WIDTH Dbl * 0) /\ dscale (mkf 1 50 : F Dbl) = mkf 1 (WIDTH Dbl * 1) /\
  f_isinf (fmul (fdiv (dscale (mkf 1 50 : F Dbl)) (dscale (mkf 1 0))) (fdiv (dscale (mkf 1 50)) (dscale (mkf 1 0)))) = false /\
  (* the value 5 2^100 - 3 2^61 becomes that divided by 2^80 *)
  feq (ddbconv 3 10 m) (mkf (5 * 2 ^ 39 - 3) 61) = true /\
  feq (ddbconv 3 10 (dmdrescale 3 (dscale (mkf 1 50)) (dscale (mkf 1 0)) 10 1 13 1 m)) (mkf (5 * 2 ^ 39 - 3) (-19)) = true.
Proof.
  intros m ->. cbv zeta. split; [|split; [vm_compute; reflexivity|split; [vm_compute; discriminate|]]].
  - apply sum_list_at; [vm_compute; split; discriminate|vm_compute; discriminate].
  - split; [rewrite dscale_eq; f_equal; vm_compute; reflexivity|]. split; [rewrite dscale_eq; f_equal; vm_compute; reflexivity|].
    split; [vm_compute; reflexivity|]. split; vm_compute; reflexivity.
Qed.
(** Without the hypothesis on the squared ratio the value is lost although every bin it
    would move to exists: 2^960 rescaled from 1 to 2^520 gives 0, not 2^-80. *)
Theorem C33_overflow_refuted : exists m : mem Dbl,
  acc_at 2 [] [mkf 1 960] m 10 /\ lead ([] ++ [mkf 1 960] : list (F Dbl)) = 1 /\
  dscale (mkf 1 0 : F Dbl) = mkf 1 (WIDTH Dbl * 0) /\ dscale (mkf 1 520 : F Dbl) = mkf 1 (WIDTH Dbl * 13) /\
  1 + 2 - 1 + 2 * (13 - 0) <= MAXINDEX Dbl /\
  feq (ddbconv 2 10 m) (mkf 1 960) = true /\
  feq (ddbconv 2 10 (dmdrescale 2 (dscale (mkf 1 520)) (dscale (mkf 1 0)) 10 1 12 1 m)) fzero = true.
Proof.
  exists (sum_list 2 10 [mkf 1 960] (fun _ => fzero)). split.
  - apply sum_list_at; [vm_compute; split; discriminate|vm_compute; discriminate].
  - split; [vm_compute; reflexivity|]. split; [rewrite dscale_eq; f_equal; vm_compute; reflexivity|]. split; [rewrite dscale_eq; f_equal; vm_compute; reflexivity|].
    split; [vm_compute; discriminate|]. split; vm_compute; reflexivity.
Qed.
Print Assumptions C33_overflow_refuted.

(** ** C34: binned_ufp, binned_ufpf *)
Lemma land_exp t s f fr : 0 <= fr < 2 ^ mw t -> 0 <= f <= expmask t ->
  Z.land (pack t s f fr) (Z.shiftl (expmask t) (mw t)) = pack t false f 0.
Proof.
  intros Hfr Hf. pose proof (mw_pos t) as MP. rewrite expmask_ew in Hf.
  assert (E : Z.shiftl (Z.land (Z.shiftr (pack t s f fr) (mw t)) (expmask t)) (mw t) = pack t false f 0).
  { rewrite pack_exp by (auto; lia). unfold pack. rewrite Z.shiftl_mul_pow2 by lia. lia. }
  rewrite <- E. clear E. apply Z.bits_inj'. intros n Hn. rewrite Z.land_spec.
  destruct (Z.lt_ge_cases n (mw t)) as [L|L].
  - rewrite !Z.shiftl_spec_low by lia. apply andb_false_r.
  - rewrite !Z.shiftl_spec_high by lia. rewrite Z.land_spec, Z.shiftr_spec by lia. now replace (n - mw t + mw t) with n by lia.
Qed.
Lemma ufp_word_val t (X : F t) : is_finite X = true -> 2 ^ mw t <= Z.abs (toZ X) ->
  is_finite (ufp_word X) = true /\ Bsign (ufp_word X) = false /\ toZ (ufp_word X) = 2 ^ Z.log2 (Z.abs (toZ X)).
Proof.
  intros FX HX. destruct (bits_finite t X FX) as (f & fr & E & H1 & H2 & H3). unfold ufp_word. rewrite E, land_exp by (auto; lia).
  pose proof (mw_pos t). pose proof (pow2_pos (mw t) ltac:(lia)).
  destruct (of_bits_pack t false f 0 H2 ltac:(lia)) as (A & B & C). split; [exact A|]. split; [exact B|]. rewrite C.
  assert (HA : Z.abs (toZ X) = (if f =? 0 then fr else fr + 2 ^ mw t) * 2 ^ (if f =? 0 then 0 else f - 1)).
  { rewrite H3. set (q := _ * _). assert (0 <= q) by (unfold q; destruct (f =? 0); apply Z.mul_nonneg_nonneg; try lia; apply Z.pow_nonneg; lia).
    destruct (Bsign X); cbn; lia. }
  destruct (Z.eqb_spec f 0) as [->|N]; [rewrite Z.mul_1_r in HA; lia|]. rewrite HA. cbn [cond_Zopp].
  rewrite log2_mul_pow by lia. replace (Z.log2 (fr + 2 ^ mw t)) with (mw t).
  - rewrite Z.pow_add_r by lia. lia.
  - symmetry. apply Z.log2_unique; [lia|]. rewrite Z.pow_succ_r by lia. lia.
Qed.
(** Y is the largest power of two that does not exceed |X|. *)
Definition is_ufp {t} (X Y : F t) : Prop :=
  exists e, B2R Y = bpow radix2 e /\ (bpow radix2 e <= Rabs (B2R X) < bpow radix2 (e + 1))%R.
Lemma is_ufp_val t (X Y : F t) : toZ X <> 0 -> toZ Y = 2 ^ Z.log2 (Z.abs (toZ X)) -> is_ufp X Y.
Proof.
  intros NX E. exists (Z.log2 (Z.abs (toZ X)) + emin t). pose proof (Z.log2_nonneg (Z.abs (toZ X))) as L0. pose proof (Z.log2_spec (Z.abs (toZ X)) ltac:(lia)) as [L1 L2].
  assert (P : forall n, 0 <= n -> bpow radix2 (n + emin t) = (IZR (2 ^ n) * bpow radix2 (emin t))%R) by (intros n Hn; rewrite bpow_plus, bpow_IZR by lia; reflexivity).
  pose proof (bpow_gt_0 radix2 (emin t)) as B0. rewrite !toZ_B2R, E. replace (Z.log2 (Z.abs (toZ X)) + emin t + 1) with (Z.log2 (Z.abs (toZ X)) + 1 + emin t) by lia.
  rewrite !P by lia. split; [reflexivity|]. rewrite Rabs_mult, <- abs_IZR, (Rabs_pos_eq (bpow radix2 (emin t))) by lra.
  split; [apply Rmult_le_compat_r; [lra|]; apply IZR_le; exact L1|apply Rmult_lt_compat_r; [lra|]; apply IZR_lt; rewrite Z.add_1_r; exact L2].
Qed.
Lemma normal_toZ t (X : F t) : (bpow radix2 (emin t + prec t - 1) <= Rabs (B2R X))%R -> 2 ^ mw t <= Z.abs (toZ X).
Proof.
  intros H. rewrite toZ_B2R, Rabs_mult, <- abs_IZR, (Rabs_pos_eq (bpow radix2 (emin t))) in H by apply bpow_ge_0.
  replace (emin t + prec t - 1) with (mw t + emin t) in H by (unfold mw; lia). rewrite bpow_plus, bpow_IZR in H by (pose proof (mw_pos t); lia).
  apply Rmult_le_reg_r in H; [now apply le_IZR|apply bpow_gt_0].
Qed.
(** Single precision: every normal float. *)
Theorem C34_ufpf (X : F Flt) : is_finite X = true -> (bpow radix2 (emin Flt + prec Flt - 1) <= Rabs (B2R X))%R ->
  is_finite (binned_ufpf X) = true /\ is_ufp X (binned_ufpf X).
Proof.
  intros FX HX. apply normal_toZ in HX. destruct (ufp_word_val Flt X FX HX) as (A & B & C). split; [exact A|].
  apply is_ufp_val; auto. pose proof (pow2_pos (mw Flt) ltac:(pose proof (mw_pos Flt); lia)). lia.
Qed.
Print Assumptions C34_ufpf.
Lemma d2f_pow2 e : emin Flt <= e < emax Flt -> d2f (pow2 Dbl e) = pow2 Flt e.
Proof.
  intros He. assert (He' : emin Dbl <= e < emax Dbl) by (unfold emin in *; cbn [prec emax] in *; lia).
  destruct (mkf_pow2 Dbl e He') as [A B]. pose proof (pow2_sign Dbl e He') as S. generalize dependent (pow2 Dbl e). intros x A B S.
  destruct x as [s|s| |s mm ee Hb]; try discriminate.
  - cbn in B. pose proof (bpow_gt_0 radix2 e). lra.
  - cbn in S. subst s. unfold d2f. cbn [cond_Zopp].
    pose proof (binary_normalize_correct (prec Flt) (emax Flt) (prec_gt_0 Flt) (prec_lt_emax Flt) mode_NE (Zpos mm) ee false) as C.
    cbn in B. unfold F2R in B. cbn [Fnum Fexp] in B. unfold F2R in C. cbn [Fnum Fexp] in C. rewrite B in C.
    change (SpecFloat.fexp (prec Flt) (emax Flt)) with (FLT_exp (emin Flt) (prec Flt)) in C. cbn [round_mode] in C.
    rewrite round_generic in C; [|apply valid_rnd_N|apply generic_format_FLT_bpow; [exact (prec_gt_0 Flt)|lia]].
    rewrite Rlt_bool_true in C by (rewrite Rabs_pos_eq by apply bpow_ge_0; apply bpow_lt; lia). destruct C as (C1 & C2 & _).
    apply bpow_float; auto.
Qed.
Lemma f2d_pow2 e : emin Flt <= e < emax Flt -> f2d (pow2 Flt e) = pow2 Dbl e.
Proof.
  intros He. assert (He' : emin Dbl <= e < emax Dbl) by (unfold emin in *; cbn [prec emax] in *; lia).
  destruct (mkf_pow2 Flt e He) as [A B]. pose proof (pow2_sign Flt e He) as S. generalize dependent (pow2 Flt e). intros x A B S.
  destruct x as [s|s| |s mm ee Hb]; try discriminate.
  - cbn in B. pose proof (bpow_gt_0 radix2 e). lra.
  - cbn in S. subst s. unfold f2d, mkf. cbn [cond_Zopp].
    pose proof (binary_normalize_correct (prec Dbl) (emax Dbl) (prec_gt_0 Dbl) (prec_lt_emax Dbl) mode_NE (Zpos mm) ee false) as C.
    cbn in B. unfold F2R in B. cbn [Fnum Fexp] in B. unfold F2R in C. cbn [Fnum Fexp] in C. rewrite B in C.
    change (SpecFloat.fexp (prec Dbl) (emax Dbl)) with (FLT_exp (emin Dbl) (prec Dbl)) in C. cbn [round_mode] in C.
    rewrite round_generic in C; [|apply valid_rnd_N|apply generic_format_FLT_bpow; [exact (prec_gt_0 Dbl)|lia]].
    rewrite Rlt_bool_true in C by (rewrite Rabs_pos_eq by apply bpow_ge_0; apply bpow_lt; lia). destruct C as (C1 & C2 & _).
    apply bpow_float; auto.
Qed.
(** Double precision: only magnitudes in the range of float, because the macro's
    function returns float. *)
Theorem C34_ufp_partial (X : F Dbl) : is_finite X = true ->
  (bpow radix2 (emin Flt) <= Rabs (B2R X) < bpow radix2 (emax Flt))%R ->
  is_finite (binned_ufp X) = true /\ is_ufp X (binned_ufp X).
Proof.
  intros FX [H1 H2].
  assert (HX : 2 ^ mw Dbl <= Z.abs (toZ X)) by (apply normal_toZ; eapply Rle_trans; [|exact H1]; apply bpow_le; vm_compute; discriminate).
  pose proof (pow2_pos (mw Dbl) ltac:(pose proof (mw_pos Dbl); lia)) as PM.
  destruct (ufp_word_val Dbl X FX HX) as (A & B & C). assert (NX : toZ X <> 0) by lia. destruct (is_ufp_val _ _ _ NX C) as (e & E1 & E2).
  assert (He : emin Flt <= e < emax Flt).
  { assert (G1 : (bpow radix2 (emin Flt) < bpow radix2 (e + 1))%R) by lra. assert (G2 : (bpow radix2 e < bpow radix2 (emax Flt))%R) by lra.
    apply lt_bpow in G1, G2. lia. }
  assert (He' : emin Dbl <= e < emax Dbl) by (unfold emin in *; cbn [prec emax] in *; lia).
  unfold binned_ufp. rewrite (bpow_float Dbl _ _ A He' E1), d2f_pow2, f2d_pow2 by auto.
  destruct (mkf_pow2 Dbl e He') as [F1 F2]. split; [exact F1|]. exists e. auto.
Qed.
Print Assumptions C34_ufp_partial.
Theorem C34_ufp_refuted : exists X Y : F Dbl, is_finite X = true /\ is_finite Y = true /\ feq X (mkf 1 200) = true /\ feq Y (mkf 1 (-200)) = true /\
  f_isinf (binned_ufp X) = true /\ feq (binned_ufp Y) fzero = true.
Proof. exists (mkf 1 200), (mkf 1 (-200)). split; [|split; [|split; [|split; [|split]]]]; vm_compute; reflexivity. Qed.
Print Assumptions C34_ufp_refuted.
(** Subnormal floats give 0. *)
Theorem C34_ufpf_subnormal_refuted : exists X : F Flt, is_finite X = true /\ feq X fzero = false /\ feq (binned_ufpf X) fzero = true.
Proof. exists (mkf 1 (-149)). split; [|split]; vm_compute; reflexivity. Qed.
Example C34_case : (exists X : F Dbl, is_finite X = true /\ toZ X = -5 * 2 ^ (7 - emin Dbl) /\ feq (binned_ufp X) (mkf 4 7) = true) /\
  (exists X : F Flt, is_finite X = true /\ toZ X = 5 * 2 ^ (7 - emin Flt) /\ feq (binned_ufpf X) (mkf 4 7) = true).
Proof. split; [exists (mkf (-5) 7)|exists (mkf 5 7)]; (split; [|split]; vm_compute; reflexivity). Qed.
