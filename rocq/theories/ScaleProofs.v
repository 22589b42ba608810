(** * Scale factors and multiplication by powers of two *)
From Coq Require Import ZArith Reals Bool List Lia Lra.
From Flocq Require Import Core BinarySingleNaN.
From Verif Require Import Fp Mem Binned Spec FpProofs BitProofs CoreArith SpecProofs WordProofs.
Import ListNotations.
Open Scope Z_scope.

Notation pow2 t e := (mkf 1 e : F t).
Lemma pow2_sign t e : emin t <= e < emax t -> Bsign (pow2 t e) = false.
Proof.
  intros H. destruct (mkf_pow2 t e H) as [A B]. destruct (pow2 t e) as [s|s| |s m x Hb]; try discriminate.
  - cbn in B. pose proof (bpow_gt_0 radix2 e). lra.
  - destruct s; [|reflexivity]. exfalso. cbn in B. pose proof (bpow_gt_0 radix2 e) as G. rewrite <- B in G.
    unfold F2R in G. cbn in G. pose proof (bpow_gt_0 radix2 x). assert (IZR (Z.neg m) < 0)%R by (apply IZR_lt; lia). nra.
Qed.
Lemma pow2_toZ t e : emin t <= e < emax t -> toZ (pow2 t e) = 2 ^ (e - emin t).
Proof.
  intros H. destruct (mkf_pow2 t e H) as [A B]. rewrite toZ_B2R in B.
  apply (IZR_bpow_inj t). rewrite B. rewrite <- bpow_IZR by lia. rewrite <- bpow_plus. f_equal. lia.
Qed.
Lemma bpow_float t (x : F t) e : is_finite x = true -> emin t <= e < emax t -> B2R x = bpow radix2 e -> x = pow2 t e.
Proof.
  intros Fx He E. destruct (mkf_pow2 t e He) as [A B].
  assert (EZ : toZ x = toZ (pow2 t e)) by (apply (IZR_bpow_inj t); rewrite <- !toZ_B2R; congruence).
  apply float_ext; auto. left. rewrite EZ, pow2_toZ by auto. pose proof (pow2_pos (e - emin t) ltac:(lia)). lia.
Qed.

(** ** dscale *)
Definition scale_z {t} (X : F t) : Z :=
  Z.quot ((if EXP X <? WIDTH t then WIDTH t else EXP X) - EXP_BIAS t - 1) (WIDTH t).
Definition zmin (t : ty) : Z := match t with Dbl => -24 | Flt => -8 end.
Definition zmax (t : ty) : Z := match t with Dbl => 25 | Flt => 9 end.

Lemma EXP_range t (x : F t) : 0 <= EXP x <= expmask t.
Proof.
  destruct (is_finite x) eqn:Fx.
  - pose proof (EXP_finite_lt t x Fx). lia.
  - pose proof (ISNANINF_fin t x) as H. rewrite Fx, ISNANINF_EXP in H. apply Z.eqb_eq in H. rewrite H. destruct t; cbn; lia.
Qed.
Lemma scale_z_range t (X : F t) : zmin t <= scale_z X <= zmax t.
Proof.
  unfold scale_z. pose proof (EXP_range t X) as R.
  set (e := EXP X) in *. clearbody e. set (f := if e <? WIDTH t then WIDTH t else e).
  assert (R' : WIDTH t <= f <= expmask t) by (unfold f; destruct (Z.ltb_spec e (WIDTH t)); destruct t; cbn in *; lia).
  clearbody f. split.
  - unfold EXP_BIAS, expmask in *; destruct t; cbn in *; [change (-24) with (Z.quot (-983) 40)|change (-8) with (Z.quot (-114) 13)]; apply Z.quot_le_mono; lia.
  - unfold EXP_BIAS, expmask in *; destruct t; cbn in *; [change 25 with (Z.quot 1024 40)|change 9 with (Z.quot 128 13)]; apply Z.quot_le_mono; lia.
Qed.
Lemma scale_exp_range t z : zmin t <= z <= zmax t -> emin t + prec t <= width t * z < emax t - 1 /\ emin t + prec t <= - (width t * z) < emax t - 1.
Proof. unfold emin. destruct t; cbn [prec emax width zmin zmax]; lia. Qed.
Lemma dscale_eq t (X : F t) : dscale X = pow2 t (width t * scale_z X).
Proof.
  pose proof (scale_z_range t X) as SR. pose proof (scale_exp_range t _ SR) as [ER _].
  pose proof (prec_pos t) as PP.
  unfold dscale. set (e := if EXP X <? WIDTH t then WIDTH t else EXP X). unfold scale_z in *. fold e in SR, ER |- *.
  unfold cmod. set (d := e - EXP_BIAS t - 1) in *.
  assert (E : e - Z.rem d (WIDTH t) - EXP_BIAS t = WIDTH t * Z.quot d (WIDTH t) + 1).
  { pose proof (Z.quot_rem' d (WIDTH t)). unfold d in *. lia. }
  rewrite E. clear E. rewrite <- (WIDTH_eq t) in ER |- *. set (z := Z.quot d (WIDTH t)) in *. clearbody z. clear d e. rewrite (WIDTH_eq t) in ER |- *.
  apply bpow_float; try lia.
  - unfold fldexp. pose proof (Bldexp_correct (prec t) (emax t) (prec_gt_0 t) (prec_lt_emax t) mode_NE (mkf 1 (-1)) (width t * z + 1)) as H.
    destruct (mkf_pow2 t (-1)) as [A B]; [pose proof (emin_neg t); pose proof (prec_emax t); lia|].
    unfold F in *. rewrite B, <- bpow_plus in H. replace (-1 + (width t * z + 1)) with (width t * z) in H by lia.
    rewrite round_generic in H; [|apply valid_rnd_N|apply generic_format_bpow; unfold SpecFloat.fexp, SpecFloat.emin, emin in *; lia].
    rewrite Rlt_bool_true in H.
    + destruct H as (_ & H & _). rewrite H. exact A.
    + rewrite Rabs_pos_eq by apply bpow_ge_0. apply bpow_lt. lia.
  - unfold fldexp. pose proof (Bldexp_correct (prec t) (emax t) (prec_gt_0 t) (prec_lt_emax t) mode_NE (mkf 1 (-1)) (width t * z + 1)) as H.
    destruct (mkf_pow2 t (-1)) as [A B]; [pose proof (emin_neg t); pose proof (prec_emax t); lia|].
    unfold F in *. rewrite B, <- bpow_plus in H. replace (-1 + (width t * z + 1)) with (width t * z) in H by lia.
    rewrite round_generic in H; [|apply valid_rnd_N|apply generic_format_bpow; unfold SpecFloat.fexp, SpecFloat.emin, emin in *; lia].
    rewrite Rlt_bool_true in H.
    + apply H.
    + rewrite Rabs_pos_eq by apply bpow_ge_0. apply bpow_lt. lia.
Qed.
(** Bracket, on integers: 2^-emin * scale against |X|. *)
Lemma scale_z_mono t (X Y : F t) : is_finite X = true -> is_finite Y = true -> Z.abs (toZ X) <= Z.abs (toZ Y) -> scale_z X <= scale_z Y.
Proof.
  intros FX FY H. unfold scale_z. apply Z.quot_le_mono; [destruct t; cbn; lia|].
  assert (E : EXP X <= EXP Y).
  { rewrite !EXP_val by auto. pose proof (mw_pos t).
    destruct (Z.ltb_spec (Z.abs (toZ X)) (2 ^ mw t)) as [A|A], (Z.ltb_spec (Z.abs (toZ Y)) (2 ^ mw t)) as [B|B]; try lia.
    - assert (mw t <= Z.log2 (Z.abs (toZ Y))) by (apply Z.log2_le_pow2; [pose proof (pow2_pos (mw t)); lia|auto]). lia.
    - pose proof (Z.log2_le_mono _ _ H). lia. }
  destruct (Z.ltb_spec (EXP X) (WIDTH t)), (Z.ltb_spec (EXP Y) (WIDTH t)); lia.
Qed.
Lemma quot_bracket a b : 0 < b -> b * Z.quot a b - b < a < b * Z.quot a b + b /\ (0 <= a -> b * Z.quot a b <= a) /\ (a <= 0 -> a <= b * Z.quot a b).
Proof.
  intros Hb. destruct (Z.eq_dec a 0) as [->|N]; [rewrite Z.quot_0_l by lia; lia|].
  pose proof (Z.quot_rem' a b) as E. pose proof (Z.rem_bound_pos a b) as B1. pose proof (Z.rem_bound_pos_neg a b) as B2.
  set (r := Z.rem a b) in *. set (q := Z.quot a b) in *. clearbody q r. set (n := b * q) in *. clearbody n.
  destruct (Z_le_gt_dec 0 a) as [G|G]; [specialize (B1 G Hb)|specialize (B2 Hb ltac:(lia))]; lia.
Qed.
(** log2 |X| = d with 2^d <= |X| < 2^(d+1), in absolute terms. *)
Lemma scale_log t (X : F t) : is_finite X = true -> WIDTH t <= EXP X ->
  toZ X <> 0 /\ EXP X - EXP_BIAS t - 1 = Z.log2 (Z.abs (toZ X)) + emin t.
Proof.
  intros FX HE. rewrite EXP_val in * by auto. destruct (Z.ltb_spec (Z.abs (toZ X)) (2 ^ mw t)).
  - exfalso. pose proof (width_pos t). rewrite WIDTH_eq in HE. lia.
  - pose proof (pow2_pos (mw t)). pose proof (mw_pos t). split; [lia|].
    unfold EXP_BIAS, emin, mw. lia.
Qed.
Lemma scale_lt t (X : F t) : is_finite X = true -> Z.abs (toZ X) < 2 ^ (width t * scale_z X + width t - emin t).
Proof.
  intros FX. pose proof (scale_z_range t X) as SR. pose proof (scale_exp_range t _ SR) as [ER _]. pose proof (prec_pos t).
  destruct (Z.leb_spec (WIDTH t) (EXP X)) as [H1|H1].
  - destruct (scale_log t X FX H1) as [N E]. unfold scale_z in *.
    destruct (Z.ltb_spec (EXP X) (WIDTH t)); [lia|]. rewrite E in *. rewrite WIDTH_eq in *.
    pose proof (quot_bracket (Z.log2 (Z.abs (toZ X)) + emin t) (width t) ltac:(pose proof (width_pos t); lia)) as [Q _].
    set (q := Z.quot _ _) in *. clearbody q.
    apply Z.log2_lt_pow2; [lia|]. lia.
  - assert (E : scale_z X = zmin t).
    { unfold scale_z. destruct (Z.ltb_spec (EXP X) (WIDTH t)); [|lia]. destruct t; reflexivity. }
    rewrite E. rewrite EXP_val in H1 by auto.
    assert (HW : forall k, mw t + width t <= k -> Z.abs (toZ X) < 2 ^ k); [|apply HW; destruct t; cbn; lia].
    intros k Hk. pose proof (mw_pos t). pose proof (width_pos t).
    destruct (Z.ltb_spec (Z.abs (toZ X)) (2 ^ mw t)).
    + assert (2 ^ mw t <= 2 ^ k) by (apply Z.pow_le_mono_r; lia). lia.
    + rewrite WIDTH_eq in H1. apply Z.log2_lt_pow2; [pose proof (pow2_pos (mw t)); lia|]. lia.
Qed.
Lemma scale_ge t (X : F t) : is_finite X = true -> zmin t < scale_z X ->
  2 ^ (width t * scale_z X - width t + 1 - emin t) <= Z.abs (toZ X).
Proof.
  intros FX HZ. pose proof (scale_z_range t X) as SR. pose proof (scale_exp_range t _ SR) as [ER _]. pose proof (prec_pos t).
  destruct (Z.leb_spec (WIDTH t) (EXP X)) as [H1|H1].
  - destruct (scale_log t X FX H1) as [N E]. unfold scale_z in *.
    destruct (Z.ltb_spec (EXP X) (WIDTH t)); [lia|]. rewrite E in *. rewrite WIDTH_eq in *.
    pose proof (quot_bracket (Z.log2 (Z.abs (toZ X)) + emin t) (width t) ltac:(pose proof (width_pos t); lia)) as [Q _].
    set (q := Z.quot _ _) in *. clearbody q.
    apply Z.log2_le_pow2; [lia|]. lia.
  - exfalso. assert (E : scale_z X = zmin t); [|lia].
    unfold scale_z. destruct (Z.ltb_spec (EXP X) (WIDTH t)); [|lia]. destruct t; reflexivity.
Qed.

(** ** Products and quotients with powers of two *)
Lemma fmul_round t (x y : F t) : is_finite x = true -> is_finite y = true ->
  (Rabs (round radix2 (FLT_exp (emin t) (prec t)) ZnearestE (B2R x * B2R y)) < bpow radix2 (emax t))%R ->
  is_finite (fmul x y) = true /\ B2R (fmul x y) = round radix2 (FLT_exp (emin t) (prec t)) ZnearestE (B2R x * B2R y) /\
  Bsign (fmul x y) = xorb (Bsign x) (Bsign y).
Proof.
  intros Fx Fy H. pose proof (Bmult_correct (prec t) (emax t) (prec_gt_0 t) (prec_lt_emax t) mode_NE x y) as C.
  rewrite fexp_FLT in C. unfold F in *. cbn [round_mode] in C. rewrite Rlt_bool_true in C by exact H.
  destruct C as (C1 & C2 & C3). unfold fmul. rewrite C2, Fx, Fy. repeat split; auto. apply C3.
  assert (FF : is_finite (Bmult mode_NE x y) = true) by (rewrite C2, Fx, Fy; reflexivity).
  destruct (Bmult mode_NE x y); auto; discriminate.
Qed.
Lemma fdiv_round t (x y : F t) : is_finite x = true -> B2R y <> 0%R ->
  (Rabs (round radix2 (FLT_exp (emin t) (prec t)) ZnearestE (B2R x / B2R y)) < bpow radix2 (emax t))%R ->
  is_finite (fdiv x y) = true /\ B2R (fdiv x y) = round radix2 (FLT_exp (emin t) (prec t)) ZnearestE (B2R x / B2R y) /\
  Bsign (fdiv x y) = xorb (Bsign x) (Bsign y).
Proof.
  intros Fx Ny H. pose proof (Bdiv_correct (prec t) (emax t) (prec_gt_0 t) (prec_lt_emax t) mode_NE x y Ny) as C.
  rewrite fexp_FLT in C. unfold F in *. cbn [round_mode] in C. rewrite Rlt_bool_true in C by exact H.
  destruct C as (C1 & C2 & C3). unfold fdiv. rewrite C2, Fx. repeat split; auto. apply C3.
  assert (FF : is_finite (Bdiv mode_NE x y) = true) by (rewrite C2, Fx; reflexivity).
  destruct (Bdiv mode_NE x y); auto; discriminate.
Qed.

Notation RN t := (round radix2 (FLT_exp (emin t) (prec t)) ZnearestE).
Global Instance FLT_valid t : Valid_exp (FLT_exp (emin t) (prec t)).
Proof. apply FLT_exp_valid. exact (prec_gt_0 t). Qed.
Lemma RN_le t v e : emin t <= e -> (Rabs v <= bpow radix2 e)%R -> (Rabs (RN t v) <= bpow radix2 e)%R.
Proof.
  intros He H. apply abs_round_le_generic; auto; try apply valid_rnd_N.
  - apply FLT_valid.
  - apply generic_format_FLT_bpow; auto. exact (prec_gt_0 t).
Qed.
Lemma RN_ge t v e : emin t <= e -> (bpow radix2 e <= Rabs v)%R -> (bpow radix2 e <= Rabs (RN t v))%R.
Proof.
  intros He H. apply abs_round_ge_generic; auto; try apply valid_rnd_N.
  - apply FLT_valid.
  - apply generic_format_FLT_bpow; auto. exact (prec_gt_0 t).
Qed.
Lemma RN_mono t u v : (u <= v)%R -> (RN t u <= RN t v)%R.
Proof. apply round_le; [apply FLT_valid|apply valid_rnd_N]. Qed.
Lemma RN_scale t v k : 0 <= k -> (bpow radix2 (emin t + prec t - 1) <= Rabs v)%R ->
  RN t (v * bpow radix2 k) = (RN t v * bpow radix2 k)%R.
Proof.
  intros Hk Hv. assert (N : v <> 0%R).
  { intros ->. rewrite Rabs_R0 in Hv. pose proof (bpow_gt_0 radix2 (emin t + prec t - 1)). lra. }
  assert (M : emin t + prec t <= mag radix2 v) by (pose proof (mag_ge_bpow radix2 v _ Hv); lia).
  unfold round, scaled_mantissa, cexp. rewrite (mag_mult_bpow radix2 v k N). unfold FLT_exp.
  rewrite !Z.max_l by lia. replace (mag radix2 v + k - prec t) with (mag radix2 v - prec t + k) by lia.
  rewrite Rmult_assoc, <- bpow_plus. replace (k + - (mag radix2 v - prec t + k)) with (- (mag radix2 v - prec t)) by lia.
  unfold F2R. cbn [Fnum Fexp]. rewrite bpow_plus. ring.
Qed.
Lemma RN_exact t (x : F t) k : (bpow radix2 (emin t + prec t - 1) <= Rabs (B2R x * bpow radix2 k))%R ->
  RN t (B2R x * bpow radix2 k) = (B2R x * bpow radix2 k)%R.
Proof.
  intros H. apply round_generic; [apply valid_rnd_N|]. pose proof (prec_pos t) as PP.
  assert (N : B2R x <> 0%R).
  { intros E. rewrite E, Rmult_0_l, Rabs_R0 in H. pose proof (bpow_gt_0 radix2 (emin t + prec t - 1)). lra. }
  assert (G : generic_format radix2 (FLT_exp (emin t) (prec t)) (B2R x)) by (rewrite <- fexp_FLT; apply generic_format_B2R).
  assert (G' : generic_format radix2 (FLX_exp (prec t)) (B2R x)) by (eapply generic_format_FLX_FLT; exact G).
  apply (generic_format_FLT_FLX radix2 (emin t) (prec t)); [exact H|].
  apply FLX_format_generic in G'; [|exact (prec_gt_0 t)]. destruct G' as [f E Hm].
  apply generic_format_FLX. exists (Float radix2 (Fnum f) (Fexp f + k)); [|exact Hm].
  unfold F2R. cbn [Fnum Fexp]. rewrite bpow_plus, E. unfold F2R. ring.
Qed.
(** x * 2^k *)
Lemma fmul_pow2 t (x : F t) k e : is_finite x = true -> emin t <= k < emax t -> emin t <= e < emax t ->
  (Rabs (B2R x * bpow radix2 k) <= bpow radix2 e)%R ->
  is_finite (fmul x (pow2 t k)) = true /\ B2R (fmul x (pow2 t k)) = RN t (B2R x * bpow radix2 k) /\
  Bsign (fmul x (pow2 t k)) = Bsign x.
Proof.
  intros Fx Hk He H. destruct (mkf_pow2 t k Hk) as [A B].
  destruct (fmul_round t x (pow2 t k) Fx A) as (C1 & C2 & C3).
  - rewrite B. eapply Rle_lt_trans; [apply RN_le; [|exact H]; lia|]. apply bpow_lt. lia.
  - rewrite C1, C2, B, C3, pow2_sign by auto. rewrite xorb_false_r. auto.
Qed.
(** x / 2^k *)
Lemma fdiv_pow2 t (x : F t) k e : is_finite x = true -> emin t <= k < emax t -> emin t <= e < emax t ->
  (Rabs (B2R x * bpow radix2 (- k)) <= bpow radix2 e)%R ->
  is_finite (fdiv x (pow2 t k)) = true /\ B2R (fdiv x (pow2 t k)) = RN t (B2R x * bpow radix2 (- k)) /\
  Bsign (fdiv x (pow2 t k)) = Bsign x.
Proof.
  intros Fx Hk He H. destruct (mkf_pow2 t k Hk) as [A B].
  assert (E : (B2R x / B2R (pow2 t k) = B2R x * bpow radix2 (- k))%R) by (rewrite B, bpow_opp; reflexivity).
  destruct (fdiv_round t x (pow2 t k) Fx) as (C1 & C2 & C3).
  - rewrite B. pose proof (bpow_gt_0 radix2 k). lra.
  - rewrite E. eapply Rle_lt_trans; [apply RN_le; [|exact H]; lia|]. apply bpow_lt. lia.
  - rewrite C1, C2, E, C3, pow2_sign by auto. rewrite xorb_false_r. auto.
Qed.
Lemma B2R_ext t (x y : F t) : is_finite x = true -> is_finite y = true -> B2R x = B2R y -> Bsign x = Bsign y -> x = y.
Proof. intros. now apply B2R_Bsign_inj. Qed.
Lemma inv_scale t z : zmin t <= z <= zmax t -> fdiv (mkf 1 0) (pow2 t (width t * z)) = pow2 t (- (width t * z)).
Proof.
  intros Hz. pose proof (scale_exp_range t z Hz) as [E1 E2]. pose proof (prec_pos t). pose proof (emin_neg t). pose proof (prec_emax t).
  destruct (mkf_pow2 t 0) as [A B]; [lia|]. change (bpow radix2 0) with 1%R in B.
  destruct (fdiv_pow2 t (mkf 1 0) (width t * z) (- (width t * z))) as (C1 & C2 & C3); try lia; auto.
  - rewrite B, Rmult_1_l, Rabs_pos_eq by apply bpow_ge_0. apply Rle_refl.
  - apply bpow_float; auto; try lia. rewrite C2, B, Rmult_1_l. apply round_generic; [apply valid_rnd_N|].
    apply generic_format_FLT_bpow; [exact (prec_gt_0 t)|lia].
Qed.

(** ** Slices of scaled numbers *)
Lemma remainder_small t X n : 2 * Z.abs X < 2 ^ unit_exp t (Z.of_nat n) -> remainder t X (S n) = X.
Proof.
  intros H. assert (G : forall i, (i <= S n)%nat -> remainder t X i = X); [|apply G; lia].
  induction i as [|i IH]; intros Hi; [reflexivity|]. cbn [remainder]. rewrite IH by lia.
  rewrite rhaz_small; [ring|]. eapply Z.lt_le_trans; [exact H|]. pose proof (unit_exp_ge t (Z.of_nat n)).
  apply Z.pow_le_mono_r; [lia|]. unfold unit_exp. pose proof (width_pos t).
  assert (Z.min (Z.of_nat i) (jmax t) * width t <= Z.min (Z.of_nat n) (jmax t) * width t) by (apply Z.mul_le_mono_nonneg_r; lia). lia.
Qed.
Lemma slice_small t X i j : 2 * Z.abs X < 2 ^ unit_exp t j -> 0 <= i <= j -> slice t X i = 0.
Proof.
  intros H Hi. pose proof (unit_exp_ge t j) as UG. pose proof (width_pos t).
  assert (U : 2 ^ unit_exp t j <= 2 ^ unit_exp t i).
  { apply Z.pow_le_mono_r; [lia|]. unfold unit_exp.
    assert (Z.min i (jmax t) * width t <= Z.min j (jmax t) * width t) by (apply Z.mul_le_mono_nonneg_r; lia). lia. }
  unfold slice. assert (R : remainder t X (Z.to_nat i) = X).
  { destruct (Z.to_nat i) as [|n] eqn:E; [reflexivity|]. apply remainder_small. eapply Z.lt_le_trans; [exact H|].
    etransitivity; [exact U|]. pose proof (unit_exp_ge t i). apply Z.pow_le_mono_r; [lia|]. unfold unit_exp.
    assert (Z.min (Z.of_nat n) (jmax t) * width t <= Z.min i (jmax t) * width t) by (apply Z.mul_le_mono_nonneg_r; lia). lia. }
  rewrite R. apply rhaz_small. lia.
Qed.
Lemma slice_shift t X X' s j : 0 <= s -> Z.abs X < 2 ^ span t -> X = X' * 2 ^ (width t * s) -> 0 <= j <= jmax t ->
  slice t X' j = if j <? s then 0 else slice t X (j - s).
Proof.
  intros Hs HX EX Hj. pose proof (width_pos t) as WP. pose proof (pow2_pos (width t * s) ltac:(nia)) as PW.
  assert (SM : forall i, 0 <= i < s -> i <= jmax t -> 2 * Z.abs X' < 2 ^ unit_exp t i).
  { intros i Hi Hi'. pose proof (unit_exp_ge t i). rewrite unit_exp_in by lia.
    apply (Z.mul_lt_mono_pos_r (2 ^ (width t * s))); auto. rewrite <- Z.pow_add_r by (rewrite ?unit_exp_in in * by lia; nia).
    replace (2 * Z.abs X' * 2 ^ (width t * s)) with (2 * Z.abs X) by (rewrite EX, Z.abs_mul, (Z.abs_eq (2 ^ _)) by lia; ring).
    apply Z.lt_le_trans with (2 * 2 ^ span t); [lia|]. rewrite <- Z.pow_succ_r by (unfold span; destruct t; cbn; lia).
    apply Z.pow_le_mono_r; [lia|]. nia. }
  destruct (Z.ltb_spec j s) as [L|L].
  - apply (slice_small t X' j j); [|lia]. apply SM; lia.
  - assert (R : forall n : nat, s + Z.of_nat n <= jmax t + 1 -> remainder t X' (Z.to_nat (s + Z.of_nat n)) * 2 ^ (width t * s) = remainder t X n).
    { induction n as [|n IH]; intros Hn.
      - cbn [remainder Z.of_nat]. rewrite Z.add_0_r, EX. f_equal. destruct (Z.to_nat s) as [|k] eqn:E; [reflexivity|].
        apply remainder_small. apply SM; lia.
      - specialize (IH ltac:(lia)). replace (Z.to_nat (s + Z.of_nat (S n))) with (S (Z.to_nat (s + Z.of_nat n))) by lia.
        cbn [remainder]. rewrite <- IH. rewrite Z2Nat.id by lia.
        assert (U : 2 ^ unit_exp t (Z.of_nat n) = 2 ^ unit_exp t (s + Z.of_nat n) * 2 ^ (width t * s)).
        { pose proof (unit_exp_ge t (s + Z.of_nat n)). rewrite <- Z.pow_add_r by nia. f_equal. rewrite !unit_exp_in by lia. ring. }
        rewrite U. rewrite rhaz_scale; [ring|exact PW|]. apply pow2_pos. pose proof (unit_exp_ge t (s + Z.of_nat n)). lia. }
    unfold slice. specialize (R (Z.to_nat (j - s)) ltac:(lia)). rewrite Z2Nat.id in R by lia. replace (s + (j - s)) with j in R by lia.
    rewrite <- R.
    assert (U : 2 ^ unit_exp t (j - s) = 2 ^ unit_exp t j * 2 ^ (width t * s)).
    { pose proof (unit_exp_ge t j). rewrite <- Z.pow_add_r by nia. f_equal. rewrite !unit_exp_in by lia. ring. }
    rewrite U, rhaz_scale; auto. apply pow2_pos. pose proof (unit_exp_ge t j). lia.
Qed.
