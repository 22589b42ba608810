(** * dmdrescale moves an accumulator by whole bins *)
From Coq Require Import ZArith Reals Bool List Lia Lra.
From Flocq Require Import Core BinarySingleNaN.
From Verif Require Import Fp Mem Binned Spec FpProofs BitProofs CoreArith SpecProofs WordProofs MemProofs AccProofs SumProofs ScaleProofs.
Import ListNotations.
Open Scope Z_scope.

(** ** The factor (X / scaleY)^2 *)
Lemma overflow_inf t (x : F t) s : B2SF x = binary_overflow (prec t) (emax t) mode_NE s -> x = B754_infinity s.
Proof. destruct x as [s'|s'| |s' mm e H]; intros E; cbn in E; try discriminate. injection E as ->. reflexivity. Qed.
Lemma fdiv_pow2_pow2 t a b : emin t <= a < emax t -> emin t <= b < emax t -> a - b >= emin t ->
  fdiv (pow2 t a) (pow2 t b) = if a - b <? emax t then pow2 t (a - b) else B754_infinity false.
Proof.
  intros Ha Hb Hab. destruct (mkf_pow2 t a Ha) as [A1 A2]. destruct (mkf_pow2 t b Hb) as [B1 B2].
  assert (Nb : B2R (pow2 t b) <> 0%R) by (rewrite B2; pose proof (bpow_gt_0 radix2 b); lra).
  assert (E : (B2R (pow2 t a) / B2R (pow2 t b) = bpow radix2 (a - b))%R).
  { rewrite A2, B2. unfold Rdiv. rewrite <- bpow_opp, <- bpow_plus. f_equal. }
  assert (G : RN t (bpow radix2 (a - b)) = bpow radix2 (a - b)).
  { apply round_generic; [apply valid_rnd_N|]. apply generic_format_FLT_bpow; [exact (prec_gt_0 t)|lia]. }
  destruct (Z.ltb_spec (a - b) (emax t)) as [L|L].
  - destruct (fdiv_round t (pow2 t a) (pow2 t b) A1 Nb) as (C1 & C2 & C3).
    + rewrite E, G, Rabs_pos_eq by apply bpow_ge_0. now apply bpow_lt.
    + apply bpow_float; auto; try lia. rewrite C2, E. exact G.
  - pose proof (Bdiv_correct (prec t) (emax t) (prec_gt_0 t) (prec_lt_emax t) mode_NE (pow2 t a) (pow2 t b) Nb) as C.
    rewrite fexp_FLT in C. unfold F in *. rewrite E in C. cbn [round_mode] in C. rewrite G in C. rewrite Rlt_bool_false in C.
    + apply overflow_inf in C. unfold fdiv. unfold F in *. rewrite C. rewrite (pow2_sign t a), (pow2_sign t b) by auto. reflexivity.
    + rewrite Rabs_pos_eq by apply bpow_ge_0. apply bpow_le. lia.
Qed.
Lemma fmul_pow2_pow2 t a : 0 <= a < emax t ->
  fmul (pow2 t a) (pow2 t a) = if a + a <? emax t then pow2 t (a + a) else B754_infinity false.
Proof.
  intros Ha. pose proof (emin_neg t) as EN. assert (Ha' : emin t <= a < emax t) by lia. destruct (mkf_pow2 t a Ha') as [A1 A2].
  assert (E : (B2R (pow2 t a) * B2R (pow2 t a) = bpow radix2 (a + a))%R) by (rewrite A2; symmetry; apply bpow_plus).
  assert (G : RN t (bpow radix2 (a + a)) = bpow radix2 (a + a)).
  { apply round_generic; [apply valid_rnd_N|]. apply generic_format_FLT_bpow; [exact (prec_gt_0 t)|lia]. }
  destruct (Z.ltb_spec (a + a) (emax t)) as [L|L].
  - destruct (fmul_round t (pow2 t a) (pow2 t a) A1 A1) as (C1 & C2 & C3).
    + rewrite E, G, Rabs_pos_eq by apply bpow_ge_0. now apply bpow_lt.
    + apply bpow_float; auto; try lia. rewrite C2, E. exact G.
  - pose proof (Bmult_correct (prec t) (emax t) (prec_gt_0 t) (prec_lt_emax t) mode_NE (pow2 t a) (pow2 t a)) as C.
    rewrite fexp_FLT in C. unfold F in *. rewrite E in C. cbn [round_mode] in C. rewrite G in C. rewrite Rlt_bool_false in C.
    + apply overflow_inf in C. unfold fmul. unfold F in *. rewrite C. rewrite (pow2_sign t a) by auto. reflexivity.
    + rewrite Rabs_pos_eq by apply bpow_ge_0. apply bpow_le. lia.
Qed.
Lemma rescale_factor t z z' : zmin t <= z -> z < z' -> z' <= zmax t ->
  let r := fdiv (pow2 t (width t * z')) (pow2 t (width t * z)) in
  fmul r r = if width t * (2 * (z' - z)) <? emax t then pow2 t (width t * (2 * (z' - z))) else B754_infinity false.
Proof.
  intros H1 H2 H3 r. pose proof (scale_exp_range t z ltac:(lia)) as [E1 _]. pose proof (scale_exp_range t z' ltac:(lia)) as [E2 _].
  pose proof (prec_pos t). pose proof (width_pos t). pose proof (emin_neg t).
  unfold r. assert (0 < width t * (z' - z)) by (apply Z.mul_pos_pos; lia).
  replace (width t * (2 * (z' - z))) with (width t * (z' - z) + width t * (z' - z)) by ring.
  rewrite fdiv_pow2_pow2 by lia. replace (width t * z' - width t * z) with (width t * (z' - z)) by ring.
  set (a := width t * (z' - z)) in *. destruct (Z.ltb_spec a (emax t)) as [L|L].
  - apply fmul_pow2_pow2. lia.
  - destruct (Z.ltb_spec (a + a) (emax t)); [lia|]. reflexivity.
Qed.

(** ** One word *)
Lemma fdiv_priw t j n (P : F t) s : 1 <= j -> priw t j n P -> inbin t n -> 0 <= s -> width t * s < emax t ->
  (j + s <= jmax t -> priw t (j + s) n (fdiv P (pow2 t (width t * s)))) /\
  (jmax t < j + s -> j <= jmax t -> let Q := fdiv P (pow2 t (width t * s)) in is_finite Q = true /\ EXP Q = 0).
Proof.
  intros Hj [FP VP] Hn Hs HW. pose proof (emin_neg t) as EN. pose proof (width_pos t) as WP. pose proof (prec_pos t) as PP. pose proof (prec_emax t) as PE.
  assert (K : emin t <= width t * s < emax t) by nia.
  pose proof (inbin_pos t n Hn) as [N1 N2].
  assert (VR : (B2R P * bpow radix2 (- (width t * s)) = IZR n * bpow radix2 (stored_exp t j + emin t - width t * s))%R).
  { rewrite toZ_B2R, VP, mult_IZR, <- bpow_IZR by (pose proof (stored_exp_ge t j); lia).
    rewrite Rmult_assoc, Rmult_assoc, <- !bpow_plus. f_equal. f_equal. lia. }
  assert (BD : (Rabs (B2R P * bpow radix2 (- (width t * s))) <= bpow radix2 (prec t + (stored_exp t j + emin t - width t * s)))%R).
  { rewrite VR, Rabs_mult, (Rabs_pos_eq (bpow _ _)) by apply bpow_ge_0. rewrite bpow_plus. apply Rmult_le_compat_r; [apply bpow_ge_0|].
    rewrite <- abs_IZR, (bpow_IZR (prec t)) by lia. apply IZR_le. lia. }
  rewrite stored_exp_pos in * by lia.
  assert (UB : unit_exp t j + prec t <= span t) by (pose proof (stored_exp_le t j ltac:(lia)) as B; rewrite stored_exp_pos in B by lia; exact B).
  unfold span in UB. split.
  - intros HJ. pose proof (unit_exp_ge t (j + s)) as UG.
    assert (U : unit_exp t j = unit_exp t (j + s) + width t * s) by (rewrite !unit_exp_in by lia; ring).
    destruct (Z.eq_dec s 0) as [->|Ns].
    + rewrite Z.mul_0_r in *. rewrite Z.add_0_r.
      destruct (fdiv_pow2 t P 0 (emax t - 1)) as (C1 & C2 & C3); auto; try lia.
      * rewrite Z.opp_0, Rmult_1_r. apply Rlt_le. change (bpow radix2 0) with 1%R in VR. rewrite Z.opp_0 in VR. cbn in VR. rewrite Rmult_1_r in VR. rewrite VR.
        rewrite Rabs_mult, (Rabs_pos_eq (bpow _ _)), <- abs_IZR by apply bpow_ge_0.
        apply Rlt_le_trans with (bpow radix2 (prec t) * bpow radix2 (unit_exp t j + emin t - 0))%R.
        -- apply Rmult_lt_compat_r; [apply bpow_gt_0|]. rewrite bpow_IZR by lia. apply IZR_lt. lia.
        -- rewrite <- bpow_plus. apply bpow_le. unfold span in *.
           assert (1 * width t <= j * width t) by (apply Z.mul_le_mono_nonneg_r; lia).
           rewrite unit_exp_in in * by lia. unfold span in *. pose proof (width_prec2 t). lia.
      * split; auto. assert (E : B2R (fdiv P (pow2 t 0)) = B2R P).
        { rewrite C2, Z.opp_0. change (bpow radix2 0) with 1%R. rewrite Rmult_1_r. apply round_generic; [apply valid_rnd_N|].
          rewrite <- fexp_FLT. apply generic_format_B2R. }
        rewrite stored_exp_pos by lia. rewrite <- VP. apply (IZR_bpow_inj t). rewrite <- !toZ_B2R. exact E.
    + assert (Hs' : width t <= width t * s) by nia.
      destruct (fdiv_pow2 t P (width t * s) (prec t + (unit_exp t j + emin t - width t * s))) as (C1 & C2 & C3); auto; try lia.
      split; auto. rewrite stored_exp_pos by lia. apply (IZR_bpow_inj t). rewrite <- toZ_B2R, C2, VR.
      replace (unit_exp t j + emin t - width t * s) with (unit_exp t (j + s) + emin t) by lia.
      rewrite mult_IZR, <- bpow_IZR, Rmult_assoc, <- bpow_plus by lia. apply round_generic; [apply valid_rnd_N|].
      apply generic_format_FLT. exists (Float radix2 n (unit_exp t (j + s) + emin t)); cbn; [reflexivity| |lia].
      change (radix_val radix2) with 2. lia.
  - intros HJ Hj'. cbv zeta.
    assert (U : unit_exp t j - width t * s <= unit_exp t (jmax t) - width t).
    { rewrite !unit_exp_in by lia. nia. }
    assert (HB : prec t + unit_exp t (jmax t) - width t < mw t) by (destruct t; reflexivity).
    assert (BD' : (Rabs (B2R P * bpow radix2 (- (width t * s))) <= bpow radix2 (prec t + unit_exp t (jmax t) - width t + emin t))%R).
    { eapply Rle_trans; [exact BD|]. apply bpow_le. lia. }
    assert (HB0 : 0 <= prec t + unit_exp t (jmax t) - width t) by (destruct t; cbn; lia).
    assert (EM : mw t + emin t < emax t) by (destruct t; reflexivity).
    destruct (fdiv_pow2 t P (width t * s) (prec t + unit_exp t (jmax t) - width t + emin t)) as (C1 & C2 & C3); auto; try lia.
    split; auto. rewrite EXP_val by auto.
    assert (T : Z.abs (toZ (fdiv P (pow2 t (width t * s)))) <= 2 ^ (prec t + unit_exp t (jmax t) - width t)).
    { apply le_IZR. apply Rmult_le_reg_r with (bpow radix2 (emin t)); [apply bpow_gt_0|].
      rewrite abs_IZR, <- (bpow_IZR _ HB0), <- bpow_plus. rewrite <- (Rabs_pos_eq (bpow radix2 (emin t))) at 1 by apply bpow_ge_0.
      rewrite <- Rabs_mult, <- toZ_B2R, C2. apply RN_le; [lia|exact BD']. }
    destruct (Z.ltb_spec (Z.abs (toZ (fdiv P (pow2 t (width t * s))))) (2 ^ mw t)); auto.
    assert (2 ^ (prec t + unit_exp t (jmax t) - width t) < 2 ^ mw t) by (apply Z.pow_lt_mono_r; lia). lia.
Qed.
Lemma EXP0_index t (Q : F t) : EXP Q = 0 -> dmindex Q = jmax t.
Proof. intros E. unfold dmindex. rewrite E. destruct t; reflexivity. Qed.
Lemma fdiv_inf t j n (P : F t) : 0 <= j -> priw t j n P -> inbin t n -> feq (fdiv P (B754_infinity false)) fzero = true.
Proof.
  intros Hj HP Hn. destruct (priw_nonzero t j n P Hj HP Hn) as [A B]. destruct HP as [FP _].
  destruct P as [s|s| |s m e H]; try discriminate. reflexivity.
Qed.
Lemma feq_zero_fin {t} (x : F t) : feq x fzero = true -> ISNANINF x = false.
Proof. destruct x as [s|[]| |s m e H]; intros E; try discriminate; rewrite ISNANINF_fin; reflexivity. Qed.

Section RESCALE.
  Context {t : ty} {fold p ip c ic : Z} (L : layout fold p ip c ic).
  Hypothesis Hf : 1 <= fold.
  Hypothesis Hm : fold <= jmax t + 1.
  Notation accm m k V C := (acc t fold k V C (P_of m p ip) (P_of m c ic)).
  Notation framem := (frame (t := t) fold p ip c ic).

  Lemma sub_layout i : 0 <= i < fold -> layout (fold - i) (p + i * ip) ip (c + i * ic) ic.
  Proof.
    intros Hi. split; intros a b Ha Hb E.
    - assert (i + a = i + b); [|lia]. apply (lay_p _ _ _ _ _ L); try lia.
    - assert (i + a = i + b); [|lia]. apply (lay_c _ _ _ _ _ L); try lia.
    - apply (lay_pc _ _ _ _ _ L (i + a) (i + b)); try lia.
  Qed.
  Lemma rescale_loop_ok r : forall n i (m : mem t), 0 <= i -> i + Z.of_nat n = fold ->
    let m' := rescale_loop n i fold r p ip c ic m in
    (forall a, (forall i0, i <= i0 < fold -> a <> p + i0 * ip /\ a <> c + i0 * ic) -> m' a = m a) /\
    (forall i0, i <= i0 < fold -> (forall i1, i <= i1 <= i0 -> feq (fdiv (m (p + i1 * ip)) r) fzero = false) ->
       m' (p + i0 * ip) = fdiv (m (p + i0 * ip)) r /\ m' (c + i0 * ic) = m (c + i0 * ic)).
  Proof.
    induction n as [|n IH]; intros i m Hi Hn; cbn [rescale_loop].
    - split; [auto|intros; lia].
    - set (m1 := upd m (p + i * ip) (fdiv (m (p + i * ip)) r)).
      assert (E1 : m1 (p + i * ip) = fdiv (m (p + i * ip)) r) by apply upd_same.
      assert (O1 : forall a, a <> p + i * ip -> m1 a = m a) by (intros; now apply upd_other).
      clearbody m1. rewrite E1. destruct (feq (fdiv (m (p + i * ip)) r) fzero) eqn:Z0.
      + pose proof (upd_zero_done (sub_layout i ltac:(lia)) ltac:(lia) m1 fzero) as D. rewrite E1 in D.
        specialize (D (feq_zero_fin _ Z0) Z0).
        destruct D as [_ D]. split.
        * intros a Ha. rewrite D; [apply O1; apply Ha; lia|].
          intros j Hj. destruct (Ha (i + j) ltac:(lia)) as [A B]. split; intros ->; [apply A|apply B]; ring.
        * intros i0 Hi0 HN. rewrite (HN i ltac:(lia)) in Z0. discriminate.
      + destruct (IH (i + 1) m1 ltac:(lia) ltac:(lia)) as [A B]. split.
        * intros a Ha. rewrite A; [apply O1; apply Ha; lia|]. intros j Hj. apply Ha. lia.
        * intros i0 Hi0 HN. destruct (Z.eq_dec i0 i) as [->|Ne].
          -- rewrite !A; [rewrite E1, O1; auto; lay_neq L| |]; intros j Hj; split; lay_neq L.
          -- destruct (B i0 ltac:(lia)) as [B1 B2].
             ++ intros i1 Hi1. rewrite O1 by lay_neq L. apply HN. lia.
             ++ rewrite B1, B2, !O1 by lay_neq L. auto.
  Qed.

  Lemma rescale_ok m k V C z z' : accm m k V C -> 1 <= k ->
    (forall i, 0 <= i < fold -> inbin t (6 * quarter t + V (k + i))) ->
    zmin t <= z -> z < z' -> z' <= zmax t ->
    let s := 2 * (z' - z) in
    let m' := dmdrescale fold (pow2 t (width t * z')) (pow2 t (width t * z)) p ip c ic m in
    framem m m' /\ feq (m' p) fzero = false /\ ISNANINF (m' p) = false /\
    dmindex (m' p) = (if width t * s <? emax t then Z.min (k + s) (jmax t) else jmax t) /\
    (width t * s < emax t -> forall i, 0 <= i < fold -> k + i + s <= jmax t ->
       priw t (k + i + s) (6 * quarter t + V (k + i)) (m' (p + i * ip)) /\ m' (c + i * ic) = m (c + i * ic)).
  Proof.
    intros [Hk A] K1 HB H1 H2 H3 s m'.
    pose proof (scale_exp_range t z ltac:(lia)) as [E1 _]. pose proof (scale_exp_range t z' ltac:(lia)) as [E2 _].
    pose proof (prec_pos t) as PP. pose proof (emin_neg t). pose proof (width_pos t) as WP.
    assert (EM : m' = rescale_loop (Z.to_nat fold) 0 fold
      (if width t * s <? emax t then pow2 t (width t * s) else B754_infinity false) p ip c ic m).
    { unfold m', dmdrescale. replace (feq (pow2 t (width t * z')) (pow2 t (width t * z))) with false.
      2:{ symmetry. unfold feq. destruct (mkf_pow2 t (width t * z')) as [A1 A2]; [lia|]. destruct (mkf_pow2 t (width t * z)) as [B1 B2]; [lia|].
          rewrite Beqb_correct, A2, B2 by auto. apply Req_bool_false. intros E. apply bpow_inj in E. nia. }
      assert (NZ : forall e, emin t <= e < emax t -> feq (pow2 t e) fzero = false).
      { intros e He. destruct (mkf_pow2 t e He) as [A1 A2]. rewrite feq_zero, pow2_toZ by auto. apply Z.eqb_neq.
        pose proof (pow2_pos (e - emin t) ltac:(lia)). lia. }
      rewrite !NZ by lia. cbn [orb]. rewrite (rescale_factor t z z') by auto. reflexivity. }
    clearbody m'. set (r := if width t * s <? emax t then _ else _) in *.
    destruct (rescale_loop_ok r (Z.to_nat fold) 0 m ltac:(lia) ltac:(lia)) as [R1 R2]. rewrite <- EM in R1, R2.
    assert (A0 : priw t k (6 * quarter t + V k) (m p)).
    { destruct (A 0 ltac:(lia)) as [A0 _]. rewrite P_of_0, Z.add_0_r in A0. exact A0. }
    assert (B0 : inbin t (6 * quarter t + V k)) by (specialize (HB 0 ltac:(lia)); rewrite Z.add_0_r in HB; exact HB).
    split. { intros a Ha. apply R1. intros i0 Hi0. split; intros ->; apply Ha; [apply in_pri|apply in_car]; lia. }
    assert (Hs : 0 < s) by lia.
    (* exact words *)
    assert (X : width t * s < emax t -> forall i, 0 <= i < fold -> k + i + s <= jmax t ->
       priw t (k + i + s) (6 * quarter t + V (k + i)) (fdiv (m (p + i * ip)) r)).
    { intros HW i Hi HI. unfold r. destruct (Z.ltb_spec (width t * s) (emax t)); [|lia].
      destruct (A i Hi) as [Ai _]. unfold P_of in Ai.
      destruct (fdiv_priw t (k + i) _ _ s ltac:(lia) Ai (HB i Hi) ltac:(lia) HW) as [D _]. apply D. lia. }
    assert (XZ : width t * s < emax t -> forall i, 0 <= i < fold -> k + i + s <= jmax t ->
       feq (fdiv (m (p + i * ip)) r) fzero = false).
    { intros HW i Hi HI. eapply priw_nonzero; [|apply X; auto|apply HB; auto]. lia. }
    assert (XE : width t * s < emax t -> forall i, 0 <= i < fold -> k + i + s <= jmax t ->
       m' (p + i * ip) = fdiv (m (p + i * ip)) r /\ m' (c + i * ic) = m (c + i * ic)).
    { intros HW i Hi HI. apply R2; [lia|]. intros i1 Hi1. apply XZ; auto; lia. }
    set (IDX := if width t * s <? emax t then Z.min (k + s) (jmax t) else jmax t).
    assert (G : feq (m' p) fzero = false /\ ISNANINF (m' p) = false /\ dmindex (m' p) = IDX).
    { assert (ZC : feq (fdiv (m p) r) fzero = true -> IDX = jmax t ->
        feq (m' p) fzero = false /\ ISNANINF (m' p) = false /\ dmindex (m' p) = IDX).
      { intros Z0 ->. rewrite EM. destruct (Z.to_nat fold) as [|n] eqn:En; [lia|]. cbn [rescale_loop].
        rewrite !Z.mul_0_l, !Z.add_0_r, !Z.sub_0_r, upd_same, Z0.
        destruct (acc_update_zero L Hf (upd m p (fdiv (m p) r)) fzero Hm) as [U _].
        - rewrite upd_same. exact Z0.
        - rewrite upd_same. now apply feq_zero_fin.
        - rewrite dindex_spec by reflexivity. apply bin_of_range. apply (toZ_span t fzero).
        - assert (DI : dindex (fzero : F t) = jmax t) by (rewrite dindex_spec by reflexivity; reflexivity).
          rewrite DI in U. destruct (priw_0 _ _ _ _ _ _ _ U Hf) as (U1 & U2 & U3 & _).
          + unfold inbin. pose proof (quarter_pos t). lia.
          + rewrite P_of_0 in U1, U2, U3. auto. }
      unfold IDX in *. destruct (Z.ltb_spec (width t * s) (emax t)) as [HW|HW].
      - destruct (Z_le_gt_dec (k + s) (jmax t)) as [HK|HK].
        + destruct (XE HW 0 ltac:(lia) ltac:(lia)) as [XE1 _]. pose proof (X HW 0 ltac:(lia) ltac:(lia)) as X0.
          rewrite <- XE1 in X0. rewrite Z.mul_0_l, !Z.add_0_r in X0. 
          destruct (priw_nonzero t (k + s) _ _ ltac:(lia) X0 B0). rewrite Z.min_l by lia.
          repeat split; auto. eapply priw_index; eauto. lia.
        + destruct (fdiv_priw t k _ _ s ltac:(lia) A0 B0 ltac:(lia) HW) as [_ D]. destruct (D ltac:(lia) ltac:(lia)) as [D1 D2]. clear D.
          assert (Er : r = pow2 t (width t * s)) by (unfold r; destruct (Z.ltb_spec (width t * s) (emax t)); [reflexivity|lia]).
          rewrite <- Er in D1, D2. destruct (feq (fdiv (m p) r) fzero) eqn:Z0; [apply ZC; auto; lia|].
          destruct (R2 0 ltac:(lia)) as [R3 _].
          { intros i1 Hi1. replace i1 with 0 by lia. rewrite Z.mul_0_l, Z.add_0_r. exact Z0. }
          rewrite Z.mul_0_l, Z.add_0_r in R3. rewrite R3. rewrite Z0, ISNANINF_fin, D1, EXP0_index by auto. repeat split; auto. lia.
      - assert (Er : r = B754_infinity false) by (unfold r; destruct (Z.ltb_spec (width t * s) (emax t)); [lia|reflexivity]).
        apply ZC.
        + rewrite Er. eapply fdiv_inf; eauto. lia.
        + reflexivity. }
    destruct G as (G1 & G2 & G3). split; [exact G1|]. split; [exact G2|]. split; [exact G3|].
    intros HW i Hi HI. destruct (XE HW i Hi HI) as [X1 X2]. rewrite X1, X2. split; auto.
  Qed.
End RESCALE.

(** ** Rescaling followed by an update to the leading bin of the new data: bins up to
    lim stay, the others do not matter *)
Section REPRESCALE.
  Context {t : ty} {fold p ip c ic : Z} (L : layout fold p ip c ic).
  Hypothesis Hf : 2 <= fold.
  Hypothesis Hm : fold <= jmax t + 1.
  Notation repm m us xs d := (rep t fold us xs d (P_of m p ip) (P_of m c ic)).
  Notation framem := (frame (t := t) fold p ip c ic).
  (** What rescaling by s bins leaves of an accumulator in bin k; the head may have become 0. *)
  Definition rescaled k (V : Z -> Z) s (m m1 : mem t) : Prop :=
    ISNANINF (m1 p) = false /\
    ((feq (m1 p) fzero = false /\ dmindex (m1 p) = if width t * s <? emax t then Z.min (k + s) (jmax t) else jmax t) \/
     (feq (m1 p) fzero = true /\ (jmax t < k + s \/ emax t <= width t * s))) /\
    (width t * s < emax t -> forall i, 0 <= i < fold -> k + i + s <= jmax t ->
       priw t (k + i + s) (6 * quarter t + V (k + i)) (m1 (p + i * ip)) /\ m1 (c + i * ic) = m (c + i * ic)).
  Lemma rep_rescaled m m1 us xs xs' d s am lim :
    repm m us xs d -> 0 <= d <= endurance t -> all_finite xs = true -> all_finite xs' = true -> us ++ xs <> [] ->
    0 < s -> let k := lead (us ++ xs) in let b := findex am in
    1 <= k -> is_finite am = true -> b <= k + s -> b + fold - 1 <= lim -> lim < jmax t ->
    (k + s <= lim -> width t * s < emax t) -> b <= lead xs' ->
    (forall j, 0 <= j <= lim -> sums xs' j = if j <? s then 0 else sums xs (j - s)) ->
    (forall V C, acc t fold k V C (P_of m p ip) (P_of m c ic) ->
       (forall j, 0 <= j -> inbin t (6 * quarter t + V j)) -> rescaled k V s m m1) ->
    let m' := dmdupdate fold am p ip c ic m1 in
    repm m' [am] xs' d /\ framem m1 m'.
  Proof.
    intros R Hd FX FX' NE Hs k b K1 Fam Hb1 Hb2 Hl Hov Hlead HS HR m'.
    assert (Hf1 : 1 <= fold) by lia.
    unfold rep in R. rewrite FX in R. assert (R' : exists V C, acc t fold k V C (P_of m p ip) (P_of m c ic) /\
        (forall j, 0 <= j -> C j * quarter t + V j = sums xs j) /\ zero_below k V /\ zero_below k C /\
        (forall j, 0 <= j -> - quarter t - d * 2 ^ (width t - 1) < V j < quarter t + d * 2 ^ (width t - 1))).
    { destruct (us ++ xs) eqn:E; [contradiction|]. exact R. }
    clear R. destruct R' as (V & C & A & HV & ZV & ZC & BV).
    pose proof (quarter_endurance t) as QE. pose proof (quarter_pos t) as QP. pose proof (width_pos t) as WP.
    pose proof (pow2_pos (width t - 1) ltac:(lia)) as P2.
    assert (BQ : d * 2 ^ (width t - 1) <= quarter t).
    { rewrite QE. apply Z.mul_le_mono_nonneg_r; lia. }
    assert (IB : forall j, 0 <= j -> inbin t (6 * quarter t + V j)) by (intros j Hj; specialize (BV j Hj); unfold inbin; lia).
    destruct (HR V C A IB) as (N2 & N1 & W). clear HR.
    pose proof (findex_range am) as BR. fold b in BR.
    assert (DX : dindex am = b) by (unfold b, findex; rewrite Fam; now apply dindex_spec).
    set (idx := if width t * s <? emax t then Z.min (k + s) (jmax t) else jmax t) in *.
    destruct A as [Hk A].
    assert (IX : (idx = k + s /\ width t * s < emax t) \/ (idx = jmax t /\ lim < k + s)).
    { unfold idx. destruct (Z.ltb_spec (width t * s) (emax t)) as [HW|HW].
      - destruct (Z_le_gt_dec (k + s) (jmax t)); [left|right]; lia.
      - right. split; auto. destruct (Z_le_gt_dec (k + s) lim) as [G|G]; [|lia]. specialize (Hov G). lia. }
    assert (IB' : b <= idx) by (destruct IX as [[-> _]|[-> _]]; lia).
    clearbody idx.
    set (V' := fun j => if j <=? lim then (if j <? s then 0 else V (j - s)) else sums xs' j mod quarter t).
    set (C' := fun j => if j <=? lim then (if j <? s then 0 else C (j - s)) else sums xs' j / quarter t).
    assert (ZB : forall G : Z -> Z, zero_below k G -> forall j, 0 <= j < k + s -> (if j <? s then 0 else G (j - s)) = 0).
    { intros G HG j Hj. destruct (Z.ltb_spec j s); auto. apply HG. lia. }
    (* words *)
    assert (MW : (forall i, 0 <= i < fold -> priw t (b + i) (6 * quarter t + V' (b + i)) (m' (p + i * ip)) /\ carw t (C' (b + i)) (m' (c + i * ic))) /\ framem m1 m').
    { destruct N1 as [[N1 N3]|[N1 N3]].
      2:{ (* head 0 *)
        assert (FAR : lim < k + s) by (destruct (Z_le_gt_dec (k + s) lim) as [G|G]; [specialize (Hov G)|]; lia).
        destruct (acc_update_zero L Hf1 m1 am Hm N1 N2) as [[_ U] UF]; [rewrite DX; lia|]. fold m' in U, UF. rewrite DX in U.
        split; [|exact UF]. intros i Hi. destruct (U i Hi) as [U1 U2]. unfold P_of in U1, U2. unfold V', C'.
        destruct (Z.leb_spec (b + i) lim); [|lia]. rewrite (ZB V ZV), (ZB C ZC) by lia. auto. }
      destruct (Z.eq_dec idx b) as [Eq|Ne].
      - assert (m' = m1) by (unfold m'; apply (upd_noop (ip := ip) (c := c) (ic := ic)); right; rewrite N3, DX; split; auto; lia).
        rewrite H. split; [|intros a _; reflexivity]. destruct IX as [[E HW]|[E _]]; [|lia].
        intros i Hi. destruct (W HW i Hi ltac:(lia)) as [W1 W2]. unfold V', C'.
        destruct (Z.leb_spec (b + i) lim); [|lia]. destruct (Z.ltb_spec (b + i) s); [lia|].
        replace (b + i - s) with (k + i) by lia. replace (k + i + s) with (b + i) in W1 by lia. split; auto.
        rewrite W2. apply A; auto.
      - pose proof (upd_shift_done L Hf1 m1 am) as D. cbv zeta in D. rewrite N3, DX in D. specialize (D N2 N1 ltac:(lia)).
        fold m' in D. split; [|eapply done_frame; exact D]. destruct D as [D _]. intros i Hi. destruct (D i Hi) as [D1 D2].
        rewrite D1, D2. clear D D1 D2. unfold P_of. unfold V', C'. destruct (Z.leb_spec (b + i) lim); [|lia].
        destruct (Z.ltb_spec i (idx - b)) as [G|G].
        + rewrite (ZB V ZV), (ZB C ZC) by (destruct IX as [[E _]|[_ E]]; lia). rewrite Z.add_0_r. split; [apply bins_priw; lia|apply carw_zero].
        + destruct IX as [[E HW]|[E _]]; [|lia]. destruct (W HW (i - (idx - b)) ltac:(lia) ltac:(lia)) as [W1 W2].
          rewrite W2. destruct (Z.ltb_spec (b + i) s); [lia|].
          replace (k + (i - (idx - b))) with (b + i - s) in W1 by lia. replace (b + i - s + s) with (b + i) in W1 by lia. split; auto.
          destruct (A (i - (idx - b)) ltac:(lia)) as [_ A2]. replace (k + (i - (idx - b))) with (b + i - s) in A2 by lia. exact A2. }
    destruct MW as [MW F2]. clearbody m'. split; [|exact F2].
    unfold rep. rewrite FX'. cbn [app]. assert (EL : lead (am :: xs') = b) by (rewrite lead_cons; fold b; lia).
    rewrite EL. exists V', C'. split; [split; [lia|exact MW]|]. split; [|split; [|split]].
    - intros j Hj. unfold V', C'. destruct (Z.leb_spec j lim).
      + rewrite HS by lia. destruct (Z.ltb_spec j s); [ring|]. apply HV. lia.
      + rewrite Z.mul_comm, <- Z.div_mod by lia. reflexivity.
    - intros j Hj. unfold V'. destruct (Z.leb_spec j lim); [|lia]. apply ZB; auto. lia.
    - intros j Hj. unfold C'. destruct (Z.leb_spec j lim); [|lia]. apply ZB; auto. lia.
    - intros j Hj. assert (0 <= d * 2 ^ (width t - 1)) by (apply Z.mul_nonneg_nonneg; lia). unfold V'. destruct (Z.leb_spec j lim).
      + destruct (Z.ltb_spec j s); [lia|]. apply BV. lia.
      + pose proof (Z.mod_pos_bound (sums xs' j) (quarter t) ltac:(lia)). lia.
  Qed.
  Lemma rep_rescale_update m us xs xs' d z z' am lim :
    repm m us xs d -> 0 <= d <= endurance t -> all_finite xs = true -> all_finite xs' = true -> us ++ xs <> [] ->
    zmin t <= z -> z < z' -> z' <= zmax t ->
    let s := 2 * (z' - z) in let k := lead (us ++ xs) in let b := findex am in
    1 <= k -> is_finite am = true -> b <= k + s -> b + fold - 1 <= lim -> lim < jmax t ->
    (k + s <= lim -> width t * s < emax t) -> b <= lead xs' ->
    (forall j, 0 <= j <= lim -> sums xs' j = if j <? s then 0 else sums xs (j - s)) ->
    let m' := dmdupdate fold am p ip c ic (dmdrescale fold (pow2 t (width t * z')) (pow2 t (width t * z)) p ip c ic m) in
    repm m' [am] xs' d /\ framem m m'.
  Proof.
    intros R Hd FX FX' NE Z1 Z2 Z3 s k b K1 Fam Hb1 Hb2 Hl Hov Hlead HS m'.
    set (m1 := dmdrescale _ _ _ _ _ _ _ _) in *.
    assert (RS : forall V C, acc t fold k V C (P_of m p ip) (P_of m c ic) ->
       (forall j, 0 <= j -> inbin t (6 * quarter t + V j)) -> rescaled k V s m m1 /\ framem m m1).
    { intros V C A IB. pose proof A as [Hk _]. destruct (rescale_ok L ltac:(lia) Hm m k V C z z' A K1) as (F1 & N1 & N2 & N3 & W); auto.
      { intros i Hi. apply IB. lia. }
      split; [|exact F1]. split; [exact N2|]. split; [left; auto|exact W]. }
    assert (F1 : framem m m1).
    { pose proof R as R0. unfold rep in R0. rewrite FX in R0.
      assert (R' : exists V C, acc t fold k V C (P_of m p ip) (P_of m c ic) /\
        (forall j, 0 <= j -> - quarter t - d * 2 ^ (width t - 1) < V j < quarter t + d * 2 ^ (width t - 1))).
      { destruct (us ++ xs) eqn:E; [contradiction|]. destruct R0 as (V & C & A & _ & _ & _ & B). exists V, C. auto. }
      destruct R' as (V & C & A & BV). apply (RS V C A). intros j Hj. specialize (BV j Hj).
      pose proof (quarter_endurance t) as QE. pose proof (width_pos t) as WP. pose proof (pow2_pos (width t - 1) ltac:(lia)) as P2.
      assert (BQ : d * 2 ^ (width t - 1) <= quarter t) by (rewrite QE; apply Z.mul_le_mono_nonneg_r; lia).
      unfold inbin. lia. }
    destruct (rep_rescaled m m1 us xs xs' d s am lim R Hd FX FX' NE) as [A B]; auto; [unfold s; lia| |].
    { intros V C HA HB. now apply RS with (C := C). }
    split; [exact A|eapply frame_trans; eauto].
  Qed.
End REPRESCALE.
