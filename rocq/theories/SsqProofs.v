(** * Scaled squares, and the loop of dmdssq *)
From Coq Require Import ZArith Reals Bool List Lia Lra Permutation.
From Flocq Require Import Core BinarySingleNaN.
From Verif Require Import Fp Mem Binned Spec FpProofs BitProofs CoreArith SpecProofs WordProofs MemProofs AccProofs SumProofs Gen GenProofs Blas LaneProofs ReduceProofs DriverProofs ScaleProofs RescaleProofs Ssq.
Import ListNotations.
Open Scope Z_scope.

Notation scl t z := (pow2 t (width t * z)).

(** ** Bounds, in reals and in integers *)
Lemma toZ_le t (x : F t) e : emin t <= e -> (Rabs (B2R x) <= bpow radix2 e)%R <-> Z.abs (toZ x) <= 2 ^ (e - emin t).
Proof.
  intros He. rewrite toZ_B2R, Rabs_mult, (Rabs_pos_eq (bpow _ _)) by apply bpow_ge_0.
  replace (bpow radix2 e) with (IZR (2 ^ (e - emin t)) * bpow radix2 (emin t))%R.
  2:{ rewrite <- bpow_IZR by lia. rewrite <- bpow_plus. f_equal. lia. }
  rewrite <- abs_IZR. pose proof (bpow_gt_0 radix2 (emin t)). split; intros G.
  - apply le_IZR. apply (Rmult_le_reg_r (bpow radix2 (emin t))); auto.
  - apply Rmult_le_compat_r; [lra|]. now apply IZR_le.
Qed.
Lemma toZ_lt t (x : F t) e : emin t <= e -> (Rabs (B2R x) < bpow radix2 e)%R <-> Z.abs (toZ x) < 2 ^ (e - emin t).
Proof.
  intros He. rewrite toZ_B2R, Rabs_mult, (Rabs_pos_eq (bpow _ _)) by apply bpow_ge_0.
  replace (bpow radix2 e) with (IZR (2 ^ (e - emin t)) * bpow radix2 (emin t))%R.
  2:{ rewrite <- bpow_IZR by lia. rewrite <- bpow_plus. f_equal. lia. }
  rewrite <- abs_IZR. pose proof (bpow_gt_0 radix2 (emin t)). split; intros G.
  - apply lt_IZR. apply (Rmult_lt_reg_r (bpow radix2 (emin t))); auto.
  - apply Rmult_lt_compat_r; [lra|]. now apply IZR_lt.
Qed.
Lemma toZ_ge t (x : F t) e : emin t <= e -> (bpow radix2 e <= Rabs (B2R x))%R <-> 2 ^ (e - emin t) <= Z.abs (toZ x).
Proof.
  intros He. pose proof (toZ_lt t x e He) as T. split; intros G.
  - destruct (Z_le_gt_dec (2 ^ (e - emin t)) (Z.abs (toZ x))); auto. exfalso. assert (H : Z.abs (toZ x) < 2 ^ (e - emin t)) by lia.
    apply T in H. lra.
  - destruct (Rle_or_lt (bpow radix2 e) (Rabs (B2R x))) as [|H]; auto. apply T in H. lia.
Qed.
Lemma pow2_half t : exists h, 2 * h = emin t + prec t - 1 /\ emin t + prec t - 1 <= h < 0.
Proof. destruct t; [exists (-511)|exists (-63)]; cbn; lia. Qed.

(** ** One scaled square *)
Definition ysc {t} (z : Z) (x : F t) : R := RN t (B2R x * bpow radix2 (- (width t * z))).
(** x is in the range of the scale *)
Definition in_scale {t} (z : Z) (x : F t) : Prop :=
  is_finite x = true /\ zmin t <= z <= zmax t /\ Z.abs (toZ x) < 2 ^ (width t * z + width t - emin t).
Lemma ysc_le {t} z (x : F t) : in_scale z x -> (Rabs (B2R x * bpow radix2 (- (width t * z))) <= bpow radix2 (width t))%R.
Proof.
  intros (Fx & Hz & Hx). pose proof (scale_exp_range t z Hz) as [E1 _]. pose proof (prec_pos t). pose proof (width_pos t).
  apply toZ_lt in Hx; [|lia]. rewrite Rabs_mult, (Rabs_pos_eq (bpow _ _)) by apply bpow_ge_0.
  replace (bpow radix2 (width t)) with (bpow radix2 (width t * z + width t) * bpow radix2 (- (width t * z)))%R
    by (rewrite <- bpow_plus; f_equal; lia).
  apply Rmult_le_compat_r; [apply bpow_ge_0|]. lra.
Qed.
Lemma width_emax t : 2 * width t + 1 < emax t. Proof. destruct t; cbn; lia. Qed.
Lemma sq_val {t} z (x : F t) : in_scale z x ->
  let q := sq (scl t z) x in
  is_finite q = true /\ Bsign q = false /\ B2R q = RN t (ysc z x * ysc z x) /\ (Rabs (ysc z x) <= bpow radix2 (width t))%R.
Proof.
  intros HX q. pose proof (ysc_le z x HX) as YL. destruct HX as (Fx & Hz & Hx).
  pose proof (scale_exp_range t z Hz) as [E1 E2]. pose proof (prec_pos t). pose proof (width_pos t). pose proof (emin_neg t).
  pose proof (width_emax t) as WE.
  unfold q, sq. rewrite (inv_scale t z Hz).
  destruct (fmul_pow2 t x (- (width t * z)) (width t) Fx) as (A1 & A2 & A3); try lia; [exact YL|].
  set (y := fmul x _) in *. clearbody y. fold (ysc z x) in A2.
  assert (YB : (Rabs (ysc z x) <= bpow radix2 (width t))%R) by (apply RN_le; [lia|exact YL]).
  assert (QB : (Rabs (ysc z x * ysc z x) <= bpow radix2 (2 * width t))%R).
  { rewrite Rabs_mult. replace (2 * width t) with (width t + width t) by lia. rewrite bpow_plus.
    apply Rmult_le_compat; auto using Rabs_pos. }
  destruct (fmul_round t y y A1 A1) as (B1 & B2 & B3).
  - rewrite A2. eapply Rle_lt_trans; [apply RN_le; [|exact QB]; lia|]. apply bpow_lt. lia.
  - rewrite B1, B2, B3, A2, xorb_nilpotent. auto.
Qed.
Lemma sq_fin {t} z (x : F t) : in_scale z x -> is_finite (sq (scl t z) x) = true.
Proof. intros H. apply (sq_val z x H). Qed.
Lemma sq_le {t} z (x : F t) e : in_scale z x -> emin t <= e -> emin t <= 2 * e ->
  (Rabs (B2R x * bpow radix2 (- (width t * z))) <= bpow radix2 e)%R -> Z.abs (toZ (sq (scl t z) x)) <= 2 ^ (2 * e - emin t).
Proof.
  intros HX He He' H. destruct (sq_val z x HX) as (A1 & A2 & A3 & A4). apply toZ_le; auto. rewrite A3. apply RN_le; auto.
  rewrite Rabs_mult. replace (2 * e) with (e + e) by lia. rewrite bpow_plus.
  assert (Y : (Rabs (ysc z x) <= bpow radix2 e)%R) by (apply RN_le; auto).
  apply Rmult_le_compat; auto using Rabs_pos.
Qed.
Lemma sq_mono {t} z (x y : F t) : in_scale z x -> in_scale z y -> Z.abs (toZ x) <= Z.abs (toZ y) ->
  toZ (sq (scl t z) x) <= toZ (sq (scl t z) y).
Proof.
  intros HX HY H. destruct (sq_val z x HX) as (A1 & A2 & A3 & A4). destruct (sq_val z y HY) as (B1 & B2 & B3 & B4).
  assert (G : (Rabs (B2R x) <= Rabs (B2R y))%R).
  { rewrite !toZ_B2R, !Rabs_mult, <- !abs_IZR. apply Rmult_le_compat_r; [apply Rabs_pos|]. now apply IZR_le. }
  assert (Y : (Rabs (ysc z x) <= Rabs (ysc z y))%R).
  { unfold ysc. rewrite <- !round_NE_abs by apply FLT_valid. apply RN_mono. rewrite !Rabs_mult. apply Rmult_le_compat_r; auto. apply Rabs_pos. }
  assert (Q : (B2R (sq (scl t z) x) <= B2R (sq (scl t z) y))%R).
  { rewrite A3, B3. apply RN_mono. rewrite <- (Rabs_pos_eq (ysc z x * ysc z x)), <- (Rabs_pos_eq (ysc z y * ysc z y)) by apply Rle_0_sqr.
    rewrite !Rabs_mult. apply Rmult_le_compat; auto; apply Rabs_pos. }
  rewrite !toZ_B2R in Q. pose proof (bpow_gt_0 radix2 (emin t)). apply le_IZR. eapply Rmult_le_reg_r; eauto.
Qed.
Lemma sq_pos {t} z (x : F t) : in_scale z x -> 0 <= toZ (sq (scl t z) x).
Proof. intros H. destruct (sq_val z x H) as (_ & A & _). now apply sign_toZ. Qed.
Lemma fmul_ext t (x i x' i' : F t) : is_finite x = true -> is_finite i = true -> is_finite x' = true -> is_finite i' = true ->
  (B2R x * B2R i = B2R x' * B2R i')%R -> xorb (Bsign x) (Bsign i) = xorb (Bsign x') (Bsign i') -> fmul x i = fmul x' i'.
Proof.
  intros F1 F2 F3 F4 E S. unfold F, fmul in *.
  pose proof (Bmult_correct (prec t) (emax t) (prec_gt_0 t) (prec_lt_emax t) mode_NE x i) as C1.
  pose proof (Bmult_correct (prec t) (emax t) (prec_gt_0 t) (prec_lt_emax t) mode_NE x' i') as C2.
  rewrite <- E, <- S in C2. rewrite F1, F2 in C1. rewrite F3, F4 in C2. destruct (Rlt_bool _ _).
  - destruct C1 as (C11 & C12 & C13). destruct C2 as (C21 & C22 & C23). cbn in C12, C22.
    assert (N1 : is_nan (Bmult mode_NE x i) = false) by (destruct (Bmult mode_NE x i); auto; discriminate).
    assert (N2 : is_nan (Bmult mode_NE x' i') = false) by (destruct (Bmult mode_NE x' i'); auto; discriminate).
    apply B2R_Bsign_inj; auto; [congruence|]. rewrite C13, C23; auto.
  - rewrite (overflow_inf t _ _ C1), (overflow_inf t _ _ C2). reflexivity.
Qed.
Lemma sq_fabs {t} (s x : F t) : sq s (fabs x) = sq s x.
Proof.
  unfold sq. set (i := fdiv _ s). clearbody i.
  destruct (is_finite x) eqn:Fx; [|destruct x as [|[]| |]; try discriminate; destruct i as [[]|[]| |[] ? ? ?]; reflexivity].
  destruct x as [[]| | |[] mx ex Hx]; try discriminate; try reflexivity; [destruct i as [[]|[]| |[] ? ? ?]; reflexivity|].
  change (fabs (B754_finite true mx ex Hx)) with (B754_finite false mx ex Hx : F t).
  set (x := B754_finite true mx ex Hx : F t). assert (E : (B754_finite false mx ex Hx : F t) = Bopp x) by reflexivity. rewrite E.
  assert (S : fmul (Bopp x) i = Bopp (fmul x i)).
  { clear E. destruct i as [si|si| |si mi ei Hi]; unfold fmul, x.
    - destruct si; reflexivity.
    - destruct si; reflexivity.
    - reflexivity.
    - unfold F in *. set (i := B754_finite si mi ei Hi : binary_float (prec t) (emax t)). fold x.
      pose proof (Bmult_correct (prec t) (emax t) (prec_gt_0 t) (prec_lt_emax t) mode_NE x i) as C1.
      pose proof (Bmult_correct (prec t) (emax t) (prec_gt_0 t) (prec_lt_emax t) mode_NE (Bopp x) i) as C2.
      rewrite B2R_Bopp in C2. rewrite Ropp_mult_distr_l_reverse in C2. rewrite fexp_FLT in *. cbn [round_mode] in *.
      rewrite round_NE_opp, Rabs_Ropp in C2.
      destruct (Rlt_bool _ _).
      + destruct C1 as (C11 & C12 & C13). destruct C2 as (C21 & C22 & C23).
        assert (F1 : is_finite (Bmult mode_NE x i) = true) by (rewrite C12; reflexivity).
        assert (F2 : is_finite (Bmult mode_NE (Bopp x) i) = true) by (rewrite C22; reflexivity).
        assert (N1 : is_nan (Bmult mode_NE x i) = false) by (destruct (Bmult mode_NE x i); auto; discriminate).
        assert (N2 : is_nan (Bmult mode_NE (Bopp x) i) = false) by (destruct (Bmult mode_NE (Bopp x) i); auto; discriminate).
        apply B2R_Bsign_inj; auto.
        * now rewrite is_finite_Bopp.
        * rewrite B2R_Bopp, C11, C21. reflexivity.
        * rewrite Bsign_Bopp by auto. rewrite C13, C23 by auto. unfold x, i. cbn. now destruct si.
      + set (a := Bmult mode_NE x i) in *. set (b := Bmult mode_NE (Bopp x) i) in *. clearbody a b.
        assert (Ea : a = B754_infinity (xorb (Bsign x) (Bsign i))) by (apply (overflow_inf t); exact C1).
        assert (Eb : b = B754_infinity (xorb (Bsign (Bopp x)) (Bsign i))) by (apply (overflow_inf t); exact C2).
        rewrite Ea, Eb. unfold x, i. cbn. now destruct si. }
  rewrite S. generalize (fmul x i). clear. intros y. destruct (is_finite y) eqn:Fy.
  - apply fmul_ext; rewrite ?is_finite_Bopp; auto.
    + rewrite B2R_Bopp. ring.
    + now rewrite !xorb_nilpotent.
  - destruct y as [|[]| |]; try discriminate; reflexivity.
Qed.

(** ** Change of scale *)
Lemma in_scale_up {t} z z' (x : F t) : in_scale z x -> z <= z' -> z' <= zmax t -> in_scale z' x.
Proof.
  intros (Fx & Hz & Hx) H1 H2. split; auto. split; [lia|]. eapply Z.lt_le_trans; [exact Hx|].
  pose proof (scale_exp_range t z Hz) as [E1 _]. pose proof (prec_pos t). pose proof (width_pos t).
  apply Z.pow_le_mono_r; [lia|]. nia.
Qed.
Lemma sq_change {t} z z' (x : F t) : in_scale z x -> z < z' -> z' <= zmax t ->
  let s := 2 * (z' - z) in
  toZ (sq (scl t z) x) = toZ (sq (scl t z') x) * 2 ^ (width t * s) \/
  (Z.abs (toZ (sq (scl t z) x)) <= 2 ^ (prec t - 1 + width t * s) /\ Z.abs (toZ (sq (scl t z') x)) <= 2 ^ (prec t - 1)).
Proof.
  intros HX H1 H2 s. pose proof (in_scale_up z z' x HX ltac:(lia) H2) as HX'.
  destruct (pow2_half t) as (h & Eh & Hh). pose proof (width_pos t) as WP. pose proof (prec_pos t) as PP. pose proof (emin_neg t) as EN.
  assert (Ew : width t * s = 2 * (width t * (z' - z))) by (unfold s; ring).
  assert (Wd : 0 < width t * (z' - z)) by nia. set (d := width t * (z' - z)) in *.
  assert (EX : (B2R x * bpow radix2 (- (width t * z)) = B2R x * bpow radix2 (- (width t * z')) * bpow radix2 d)%R).
  { rewrite Rmult_assoc, <- bpow_plus. do 2 f_equal. unfold d. ring. }
  destruct (Rle_or_lt (bpow radix2 h) (Rabs (B2R x * bpow radix2 (- (width t * z'))))) as [G|G].
  - left. destruct (sq_val z x HX) as (_ & _ & A3 & _). destruct (sq_val z' x HX') as (_ & _ & B3 & _).
    assert (Y' : ysc z' x = (B2R x * bpow radix2 (- (width t * z')))%R).
    { unfold ysc. apply RN_exact. eapply Rle_trans; [|exact G]. apply bpow_le. lia. }
    assert (Y : ysc z x = (B2R x * bpow radix2 (- (width t * z)))%R).
    { unfold ysc. apply RN_exact. rewrite EX, Rabs_mult, (Rabs_pos_eq (bpow radix2 d)) by apply bpow_ge_0.
      eapply Rle_trans; [|apply Rmult_le_compat_r; [apply bpow_ge_0|exact G]]. rewrite <- bpow_plus. apply bpow_le. lia. }
    rewrite Y, EX, <- Y' in A3. set (u := ysc z' x) in *. clearbody u. rewrite <- Y' in G.
    replace (u * bpow radix2 d * (u * bpow radix2 d))%R with (u * u * bpow radix2 (2 * d))%R in A3.
    2:{ replace (2 * d) with (d + d) by lia. rewrite bpow_plus. ring. }
    rewrite RN_scale in A3; [|lia|].
    + rewrite <- B3 in A3. rewrite !toZ_B2R in A3. rewrite Ew.
      apply (IZR_bpow_inj t). rewrite A3, mult_IZR, <- bpow_IZR by lia. ring.
    + rewrite Rabs_mult, <- Eh. replace (2 * h) with (h + h) by lia. rewrite bpow_plus.
      apply Rmult_le_compat; auto; apply bpow_ge_0.
  - right. apply Rlt_le in G. split.
    + replace (prec t - 1 + width t * s) with (2 * (h + d) - emin t) by lia. apply sq_le; auto; try lia.
      rewrite EX, Rabs_mult, (Rabs_pos_eq (bpow radix2 d)), bpow_plus by apply bpow_ge_0.
      apply Rmult_le_compat_r; auto. apply bpow_ge_0.
    + replace (prec t - 1) with (2 * h - emin t) by lia. apply sq_le; auto; lia.
Qed.
(** The last bin whose content survives every change of scale. *)
Definition lim (t : ty) : Z := match t with Dbl => 48 | Flt => 16 end.
Lemma lim_unit t j : j <= lim t -> prec t < unit_exp t j.
Proof. intros H. unfold unit_exp. pose proof (width_pos t). assert (Z.min j (jmax t) * width t <= lim t * width t) by (apply Z.mul_le_mono_nonneg_r; lia).
  unfold emin in *. destruct t; cbn [prec emax width jmax lim] in *; lia. Qed.
Lemma lim_jmax t : lim t < jmax t. Proof. destruct t; cbn; lia. Qed.
Lemma slice_change {t} z z' (x : F t) j : in_scale z x -> z < z' -> z' <= zmax t -> 0 <= j <= lim t ->
  let s := 2 * (z' - z) in
  slice t (toZ (sq (scl t z') x)) j = if j <? s then 0 else slice t (toZ (sq (scl t z) x)) (j - s).
Proof.
  intros HX H1 H2 Hj s. pose proof (lim_unit t j ltac:(lia)) as LU. pose proof (lim_jmax t). pose proof (prec_pos t). pose proof (width_pos t).
  pose proof (sq_change z z' x HX H1 H2) as C. cbv zeta in C. fold s in C. destruct C as [E|[E1 E2]].
  - apply slice_shift; auto; try lia. apply toZ_span.
  - rewrite (slice_small t _ j j); [|apply Z.le_lt_trans with (2 * 2 ^ (prec t - 1)); [lia|]; rewrite <- Z.pow_succ_r by lia; apply Z.pow_lt_mono_r; lia|lia].
    destruct (Z.ltb_spec j s); [reflexivity|]. symmetry. apply (slice_small t _ (j - s) (j - s)); [|lia].
    assert (US : unit_exp t (j - s) = unit_exp t j + width t * s) by (rewrite !unit_exp_in by lia; ring).
    assert (0 <= width t * s) by nia.
    apply Z.le_lt_trans with (2 * 2 ^ (prec t - 1 + width t * s)); [lia|]. rewrite <- Z.pow_succ_r by lia. apply Z.pow_lt_mono_r; lia.
Qed.
Lemma sums_change {t} z z' (xs : list (F t)) j : (forall x, In x xs -> in_scale z x) -> z < z' -> z' <= zmax t -> 0 <= j <= lim t ->
  let s := 2 * (z' - z) in
  sums (map (sq (scl t z')) xs) j = if j <? s then 0 else sums (map (sq (scl t z)) xs) (j - s).
Proof.
  intros HX H1 H2 Hj s. induction xs as [|x xs IH]; cbn [map].
  - unfold sums, bin_sum. cbn [map fold_right]. case (j <? s); reflexivity.
  - rewrite !sums_cons, IH by (intros; apply HX; now right).
    rewrite (slice_change z z' x j (HX x (or_introl eq_refl)) H1 H2 Hj). fold s. destruct (j <? s); lia.
Qed.
(** ** Leading bins *)
Definition lo_bin (t : ty) : Z := match t with Dbl => 23 | Flt => 7 end.
Definition hi_bin (t : ty) : Z := match t with Dbl => 27 | Flt => 11 end.
Lemma findex_fin {t} (x : F t) : is_finite x = true -> findex x = bin_of t (toZ x).
Proof. unfold findex. now intros ->. Qed.
Lemma bin_pow t X e : X <> 0 -> 0 <= e -> Z.abs X <= 2 ^ e -> Z.min ((emax t - emin t - (e + 1)) / width t) (jmax t) <= bin_of t X.
Proof.
  intros N He H. unfold bin_of. destruct (Z.eqb_spec X 0); [contradiction|]. pose proof (width_pos t).
  assert (Z.log2 (Z.abs X) <= e) by (rewrite <- (Z.log2_pow2 e) by lia; now apply Z.log2_le_mono).
  assert ((emax t - emin t - (e + 1)) / width t <= (emax t - emin t - (Z.log2 (Z.abs X) + 1)) / width t) by (apply Z.div_le_mono; lia). lia.
Qed.
Lemma sq_lo {t} z (x : F t) : in_scale z x -> lo_bin t <= findex (sq (scl t z) x).
Proof.
  intros HX. rewrite findex_fin by now apply sq_fin.
  destruct (Z.eq_dec (toZ (sq (scl t z) x)) 0) as [->|N]; [change (bin_of t 0) with (jmax t); destruct t; cbn; lia|].
  pose proof (width_pos t). pose proof (emin_neg t).
  pose proof (sq_le z x (width t) HX ltac:(lia) ltac:(lia) (ysc_le z x HX)) as B.
  etransitivity; [|apply (bin_pow t _ (2 * width t - emin t)); auto; lia]. destruct t; cbn; lia.
Qed.
Lemma sq_hi {t} (M : F t) : is_finite M = true -> zmin t < scale_z M -> findex (sq (dscale M) M) <= hi_bin t.
Proof.
  intros FM HZ. rewrite dscale_eq. set (z := scale_z M) in *. pose proof (scale_z_range t M) as SR. fold z in SR.
  pose proof (scale_exp_range t z SR) as [E1 E2]. pose proof (prec_pos t). pose proof (width_pos t). pose proof (emin_neg t). pose proof (width_emax t).
  assert (HX : in_scale z M) by (split; [auto|split; [auto|now apply scale_lt]]).
  rewrite findex_fin by now apply sq_fin. pose proof (scale_ge t M FM HZ) as G. fold z in G.
  assert (HE : emin t + prec t - 1 <= 1 - width t) by (destruct t; cbn; lia).
  assert (HE2 : emin t + prec t - 1 <= 2 * (1 - width t)) by (destruct t; cbn; lia).
  assert (G' : (bpow radix2 (1 - width t) <= Rabs (B2R M * bpow radix2 (- (width t * z))))%R).
  { rewrite Rabs_mult, (Rabs_pos_eq (bpow _ _)) by apply bpow_ge_0.
    replace (bpow radix2 (1 - width t)) with (bpow radix2 (width t * z - width t + 1) * bpow radix2 (- (width t * z)))%R
      by (rewrite <- bpow_plus; f_equal; lia).
    apply Rmult_le_compat_r; [apply bpow_ge_0|]. apply toZ_ge; auto.
    unfold emin in *. destruct t; cbn [prec emax width zmin zmax] in *; lia. }
  destruct (sq_val z M HX) as (A1 & A2 & A3 & A4).
  assert (YG : (bpow radix2 (1 - width t) <= Rabs (ysc z M))%R) by (apply RN_ge; [lia|exact G']).
  assert (QG : (bpow radix2 (2 * (1 - width t)) <= Rabs (B2R (sq (scl t z) M)))%R).
  { rewrite A3. apply RN_ge; [lia|]. rewrite Rabs_mult. replace (2 * (1 - width t)) with ((1 - width t) + (1 - width t)) by lia.
    rewrite bpow_plus. apply Rmult_le_compat; auto; apply bpow_ge_0. }
  apply toZ_ge in QG; [|lia]. set (X := toZ (sq (scl t z) M)) in *. clearbody X.
  pose proof (pow2_pos (2 * (1 - width t) - emin t) ltac:(lia)).
  unfold bin_of. destruct (Z.eqb_spec X 0) as [E0|N0]; [rewrite E0, Z.abs_0 in QG; lia|].
  apply Z.log2_le_mono in QG. rewrite Z.log2_pow2 in QG by lia.
  assert ((emax t - emin t - (Z.log2 (Z.abs X) + 1)) / width t <= (emax t - emin t - (2 * (1 - width t) - emin t + 1)) / width t) by (apply Z.div_le_mono; lia).
  unfold emin in *. destruct t; cbn [prec emax width jmax hi_bin] in *; [change ((1024 - (3 - 1024 - 53) - (2 * (1 - 40) - (3 - 1024 - 53) + 1)) / 40) with 27 in *|change ((128 - (3 - 128 - 24) - (2 * (1 - 13) - (3 - 128 - 24) + 1)) / 13) with 11 in *]; lia.
Qed.
Lemma sq_findex_mono {t} z (x y : F t) : in_scale z x -> in_scale z y -> Z.abs (toZ x) <= Z.abs (toZ y) ->
  findex (sq (scl t z) y) <= findex (sq (scl t z) x).
Proof.
  intros HX HY H. rewrite !findex_fin by now apply sq_fin. apply bin_mono.
  pose proof (sq_mono z x y HX HY H). pose proof (sq_pos z x HX). pose proof (sq_pos z y HY). lia.
Qed.
Lemma findex_change {t} z z' (x : F t) b : in_scale z x -> z < z' -> z' <= zmax t ->
  b <= hi_bin t -> b <= findex (sq (scl t z') x) -> b <= findex (sq (scl t z) x) + 2 * (z' - z).
Proof.
  intros HX H1 H2 Hb Hb'. pose proof (in_scale_up z z' x HX ltac:(lia) H2) as HX'.
  rewrite findex_fin in * by (now apply sq_fin). pose proof (width_pos t) as WP. pose proof (prec_pos t) as PP.
  set (X := toZ (sq (scl t z) x)) in *. destruct (Z.eq_dec X 0) as [E|N].
  { rewrite E. change (bin_of t 0) with (jmax t). assert (hi_bin t <= jmax t) by (destruct t; cbn; lia). lia. }
  pose proof (sq_change z z' x HX H1 H2) as C. cbv zeta in C. fold X in C. destruct C as [E|[E1 E2]].
  - set (X' := toZ (sq (scl t z') x)) in *. set (s := 2 * (z' - z)) in *.
    assert (0 <= width t * s) by nia. assert (N' : X' <> 0) by (intros ->; lia).
    unfold bin_of in *. destruct (Z.eqb_spec X 0); [contradiction|]. destruct (Z.eqb_spec X' 0); [contradiction|].
    rewrite E, Z.abs_mul, (Z.abs_eq (2 ^ _)) by (apply Z.pow_nonneg; lia). rewrite Z.log2_mul_pow2 by lia.
    replace (emax t - emin t - (width t * s + Z.log2 (Z.abs X') + 1)) with (emax t - emin t - (Z.log2 (Z.abs X') + 1) + (- s) * width t) by ring.
    rewrite Z.div_add by lia. lia.
  - set (s := 2 * (z' - z)) in *. assert (0 <= width t * s) by nia.
    pose proof (bin_pow t X (prec t - 1 + width t * s) N ltac:(lia) E1) as B.
    replace (emax t - emin t - (prec t - 1 + width t * s + 1)) with (emax t - emin t - prec t + (- s) * width t) in B by ring.
    rewrite Z.div_add in B by lia. assert (hi_bin t <= (emax t - emin t - prec t) / width t) by (destruct t; cbn; lia).
    assert (hi_bin t <= jmax t) by (destruct t; cbn; lia). lia.
Qed.

(** ** Cells written by update and rescale, whatever the memory holds *)
Section FRAMES.
  Context {t : ty} {fold p ip c ic : Z} (L : layout fold p ip c ic).
  Notation framem := (frame (t := t) fold p ip c ic).
  Lemma frame_two (m m' : mem t) i v w : framem m m' -> 0 <= i < fold -> framem m (upd (upd m' (p + i * ip) v) (c + i * ic) (w (upd m' (p + i * ip) v))).
  Proof.
    intros H Hi a Ha. rewrite !upd_other; [now apply H| |]; intros ->; apply Ha; [now apply in_pri|now apply in_car].
  Qed.
  Lemma update_frame (m : mem t) X : 0 <= fold -> framem m (dmdupdate fold X p ip c ic m).
  Proof.
    intros Hf. unfold dmdupdate. destruct (ISNANINF (m p)); [apply frame_refl|]. destruct (feq (m p) fzero).
    - apply (for_up_inv (fun _ m' => framem m m')); [lia|apply frame_refl|]. intros k s Hk H.
      apply (frame_two m s k _ (fun _ => fzero)); auto.
    - set (shift := dmindex (m p) - dindex X). destruct (Z.ltb_spec 0 shift); [|apply frame_refl].
      apply (for_up_inv (fun _ m' => framem m m')); [lia| |].
      + destruct (Z_le_gt_dec (shift - 1) (fold - 1)) as [G|G].
        * apply (for_down_inv (fun _ m' => framem m m')); [lia|apply frame_refl|]. intros k s Hk HH.
          apply (frame_two m s k _ (fun m' => m' (c + (k - shift) * ic))); auto. lia.
        * unfold for_down. replace (Z.to_nat (fold - 1 - shift + 1)) with 0%nat by lia. cbn. apply frame_refl.
      + intros k s Hk HH. apply (frame_two m s k _ (fun _ => fzero)); auto. lia.
  Qed.
  Lemma rescale_frame (m : mem t) X Y : 0 <= fold -> framem m (dmdrescale fold X Y p ip c ic m).
  Proof.
    intros Hf. unfold dmdrescale. destruct (_ || _); [apply frame_refl|].
    destruct (rescale_loop_ok L (fmul (fdiv X Y) (fdiv X Y)) (Z.to_nat fold) 0 m ltac:(lia) ltac:(lia)) as [A _].
    intros a Ha. apply A. intros i Hi. split; intros ->; apply Ha; [now apply in_pri|now apply in_car].
  Qed.
End FRAMES.

(** ** The loop *)
Lemma flt_scl t z z' : zmin t <= z <= zmax t -> zmin t <= z' <= zmax t -> flt (scl t z) (scl t z') = (z <? z').
Proof.
  intros H H'. pose proof (scale_exp_range t z H) as [E _]. pose proof (scale_exp_range t z' H') as [E' _]. pose proof (prec_pos t). pose proof (width_pos t).
  destruct (mkf_pow2 t (width t * z) ltac:(lia)) as [A _]. destruct (mkf_pow2 t (width t * z') ltac:(lia)) as [A' _].
  rewrite flt_toZ, !pow2_toZ by (auto; lia). destruct (Z.ltb_spec z z').
  - apply Z.ltb_lt. apply Z.pow_lt_mono_r; [lia|lia|]. nia.
  - apply Z.ltb_ge. apply Z.pow_le_mono_r; [lia|]. nia.
Qed.
Lemma flt_0_scl t z : zmin t <= z <= zmax t -> flt fzero (scl t z) = true.
Proof.
  intros H. pose proof (scale_exp_range t z H) as [E _]. pose proof (prec_pos t).
  destruct (mkf_pow2 t (width t * z) ltac:(lia)) as [A _]. rewrite flt_toZ, pow2_toZ by (auto; lia).
  apply Z.ltb_lt. apply pow2_pos. lia.
Qed.
Lemma in_own_scale {t} (M : F t) : is_finite M = true -> in_scale (scale_z M) M.
Proof. intros FM. split; [auto|split; [apply scale_z_range|now apply scale_lt]]. Qed.
Lemma in_scale_le {t} z (x y : F t) : in_scale z y -> is_finite x = true -> Z.abs (toZ x) <= Z.abs (toZ y) -> in_scale z x.
Proof. intros (A & B & C) Fx H. split; [auto|split; [auto|lia]]. Qed.
Lemma div_mul_scl t z (x : F t) : in_scale z x -> fdiv x (scl t z) = fmul x (fdiv (mkf 1 0) (scl t z)).
Proof.
  intros HX. pose proof (ysc_le z x HX) as YL. destruct HX as (Fx & Hz & Hx).
  pose proof (scale_exp_range t z Hz) as [E1 E2]. pose proof (prec_pos t). pose proof (width_pos t). pose proof (emin_neg t). pose proof (width_emax t).
  rewrite (inv_scale t z Hz).
  destruct (fmul_pow2 t x (- (width t * z)) (width t) Fx) as (A1 & A2 & A3); try lia; [exact YL|].
  destruct (fdiv_pow2 t x (width t * z) (width t) Fx) as (B1 & B2 & B3); try lia; [exact YL|].
  apply B2R_ext; auto; congruence.
Qed.
(** The scale that goes with the data zs. *)
Definition good_scale {t} (sc : F t) (zs : list (F t)) : Prop :=
  match zs with [] => sc = fzero | _ => exists M, is_max M zs /\ sc = dscale M end.
Lemma good_scale_unique {t} (a b : F t) zs : good_scale a zs -> good_scale b zs -> a = b.
Proof.
  unfold good_scale. destruct zs; [congruence|]. intros (M & H1 & ->) (M' & H2 & ->). f_equal. eapply is_max_unique; eauto.
Qed.
Lemma good_scale_perm {t} (a : F t) zs zs' : Permutation zs zs' -> good_scale a zs -> good_scale a zs'.
Proof.
  intros P H. unfold good_scale in *. destruct zs as [|z zs].
  - apply Permutation_nil in P. now subst.
  - destruct zs' as [|z' zs']; [symmetry in P; now apply Permutation_nil_cons in P|].
    destruct H as (M & H & E). exists M. split; auto. eapply is_max_incl; [exact H|]. intros x.
    split; apply Permutation_in; [exact P|now symmetry].
Qed.
Lemma max_mags {t} (M : F t) xs x : is_max M xs -> all_finite xs = true -> In x xs -> is_finite x = true /\ Z.abs (toZ x) <= Z.abs (toZ M).
Proof.
  intros H HF I. pose proof (max_finite M xs H HF) as FM. unfold all_finite in HF. rewrite forallb_forall in HF. pose proof (HF x I) as Fx.
  split; auto. destruct H as (_ & _ & U & _). specialize (U x I). unfold mag in U. now rewrite FM, Fx in U.
Qed.
Lemma max_in_scale {t} (M : F t) xs x : is_max M xs -> all_finite xs = true -> In x xs -> in_scale (scale_z M) x.
Proof.
  intros H HF I. destruct (max_mags M xs x H HF I). eapply in_scale_le; eauto. apply in_own_scale. eapply max_finite; eauto.
Qed.
Lemma good_scale_fin {t} (sc : F t) zs : good_scale sc zs -> all_finite zs = true -> all_finite (map (sq sc) zs) = true.
Proof.
  intros G HF. unfold all_finite. apply forallb_forall. intros y I. apply in_map_iff in I. destruct I as (x & <- & I).
  destruct zs as [|z zs]; [destruct I|]. destruct G as (M & HM & ->). rewrite dscale_eq. apply sq_fin. eapply max_in_scale; eauto.
Qed.
Lemma fmax_cases {t} (a b : F t) : fmax a b = a \/ fmax a b = b.
Proof. unfold fmax. destruct (flt b a); auto. Qed.

Section STEP.
  Context {t : ty} {fold p ip c ic : Z} (L : layout fold p ip c ic).
  Hypothesis Hf : 2 <= fold.
  Hypothesis Hs : hi_bin t + fold - 1 <= lim t.
  Notation repm m us xs d := (rep t fold us xs d (P_of m p ip) (P_of m c ic)).
  Notation framem := (frame (t := t) fold p ip c ic).
  Lemma Hm' : fold <= jmax t + 1. Proof. assert (lim t <= jmax t + hi_bin t) by (destruct t; cbn; lia). lia. Qed.

  Lemma ssq_step (m : mem t) zs d sc (xs : list (F t)) amax :
    good_scale sc zs -> repm m [] (map (sq sc) zs) d -> 0 <= d <= endurance t -> all_finite zs = true ->
    is_max amax xs -> all_finite xs = true -> xs <> [] ->
    exists m1 sc1, (if flt sc (dscale amax) then
        (if flt fzero sc then dmdrescale fold (dscale amax) sc p ip c ic m else m, dscale amax) else (m, sc)) = (m1, sc1) /\
      let am := fmul (fdiv amax sc1) (fdiv amax sc1) in
      let m2 := dmdupdate fold am p ip c ic m1 in
      good_scale sc1 (xs ++ zs) /\ am = sq sc1 amax /\ is_finite am = true /\
      repm m2 [am] (map (sq sc1) zs) d /\ framem m m2 /\
      (forall x, In x xs -> findex am <= findex (sq sc1 x)) /\ lead (map (sq sc1) xs) <= findex am.
  Proof.
    intros G R Hd HZ HM HX NE. pose proof Hm' as Hm. pose proof (max_finite _ _ HM HX) as FA.
    set (za := scale_z amax). pose proof (scale_z_range t amax) as ZA. fold za in ZA.
    assert (TAIL : forall z, in_scale z amax ->
      let am := fmul (fdiv amax (scl t z)) (fdiv amax (scl t z)) in
      am = sq (scl t z) amax /\ is_finite am = true /\
      (forall x, In x xs -> findex am <= findex (sq (scl t z) x)) /\ lead (map (sq (scl t z)) xs) <= findex am).
    { intros z IS am. assert (E : am = sq (scl t z) amax) by (unfold am, sq; now rewrite div_mul_scl).
      split; [exact E|]. rewrite E. split; [now apply sq_fin|]. split.
      - intros x I. destruct (max_mags _ _ x HM HX I) as [Fx Lx]. apply sq_findex_mono; auto. eapply in_scale_le; eauto.
      - destruct HM as (_ & _ & _ & [E0|(x & I & E0)]).
        + rewrite E0. rewrite findex_fin by (apply sq_fin; rewrite <- E0; exact IS).
          assert (T : toZ (sq (scl t z) fzero) = 0).
          { rewrite E0 in IS. destruct (sq_val z fzero IS) as (A1 & A2 & A3 & A4). apply (IZR_bpow_inj t). rewrite <- toZ_B2R, A3.
            assert (Y : ysc z (@fzero t) = 0%R) by (unfold ysc; cbn [fzero B2R]; rewrite Rmult_0_l; apply round_0, valid_rnd_N).
            rewrite Y, Rmult_0_l, Rmult_0_l. apply round_0, valid_rnd_N. }
          rewrite T. change (bin_of t 0) with (jmax t). apply lead_range.
        + rewrite E0, sq_fabs. apply lead_le. apply in_map. exact I. }
    rewrite dscale_eq. fold za. destruct zs as [|z0 zs0].
    - (* empty accumulator *)
      cbn [good_scale] in G. subst sc. rewrite flt_0_scl by auto. change (flt (@fzero t) fzero) with false.
      eexists _, _. split; [reflexivity|]. cbv zeta. rewrite app_nil_r.
      destruct (TAIL za (in_own_scale _ FA)) as (T1 & T2 & T3 & T4). cbn [map] in R |- *.
      destruct (rep_update L Hf Hm m [] [] d (fmul (fdiv amax (scl t za)) (fdiv amax (scl t za))) R Hd) as [R2 F2].
      repeat (split; auto). destruct xs as [|x xs]; [contradiction|]. exists amax. split; auto. now rewrite dscale_eq.
    - destruct G as (M & MX & ->). rewrite !dscale_eq in *. set (z := scale_z M) in *.
      pose proof (scale_z_range t M) as ZR. fold z in ZR. set (zs := z0 :: zs0) in *.
      pose proof (max_finite _ _ MX HZ) as FM. rewrite flt_scl, flt_0_scl by auto.
      pose proof (is_max_merge _ _ _ _ HM MX) as MM.
      assert (CE : xs ++ zs <> []) by (destruct xs; [contradiction|discriminate]).
      assert (GS : forall a, is_max a (xs ++ zs) -> good_scale (scl t (scale_z a)) (xs ++ zs)).
      { intros a Ha. unfold good_scale. destruct (xs ++ zs); [contradiction|]. exists a. split; auto. now rewrite dscale_eq. }
      assert (MA : forall y, In y (map (sq (scl t z)) zs) -> exists x, y = sq (scl t z) x /\ In x zs /\ in_scale z x).
      { intros y I. apply in_map_iff in I. destruct I as (x & <- & I). exists x. split; [auto|]. split; [auto|].
        apply (max_in_scale M zs x MX HZ I). }
      destruct (Z.ltb_spec z za) as [Lz|Lz].
      + (* larger scale *)
        eexists _, _. split; [reflexivity|]. cbv zeta.
        destruct (TAIL za (in_own_scale _ FA)) as (T1 & T2 & T3 & T4).
        set (am := fmul (fdiv amax (scl t za)) (fdiv amax (scl t za))) in *. clearbody am.
        assert (AM : Z.abs (toZ M) <= Z.abs (toZ amax)).
        { destruct (Z_le_gt_dec (Z.abs (toZ M)) (Z.abs (toZ amax))); auto. exfalso.
          assert (za <= z) by (apply scale_z_mono; auto; lia). lia. }
        assert (ZM : forall x, In x zs -> in_scale z x /\ findex am <= findex (sq (scl t za) x)).
        { intros x I. destruct (max_mags _ _ x MX HZ I) as [Fx Lx]. split; [now apply (max_in_scale M zs x MX HZ I)|].
          rewrite T1. apply sq_findex_mono; [|now apply in_own_scale|lia]. eapply in_scale_le; [apply (in_own_scale amax FA)|auto|lia]. }
        assert (HB : findex am <= hi_bin t).
        { rewrite T1. unfold za. rewrite <- dscale_eq. apply sq_hi; auto. fold za. lia. }
        assert (LD : forall b, (forall x, In x zs -> b <= findex (sq (scl t za) x)) -> b <= jmax t -> b <= lead (map (sq (scl t za)) zs)).
        { clear. intros b H J. induction zs as [|x xs IH]; cbn [map]; [now rewrite lead_nil|]. rewrite lead_cons.
          pose proof (H x (or_introl eq_refl)). assert (b <= lead (map (sq (scl t za)) xs)) by (apply IH; intros; apply H; now right). lia. }
        assert (LD' : forall b k, (forall x, In x zs -> b <= findex (sq (scl t z) x) + k) -> b <= jmax t + k -> b <= lead (map (sq (scl t z)) zs) + k).
        { clear. intros b k H J. induction zs as [|x xs IH]; cbn [map]; [now rewrite lead_nil|]. rewrite lead_cons.
          pose proof (H x (or_introl eq_refl)). assert (b <= lead (map (sq (scl t z)) xs) + k) by (apply IH; intros; apply H; now right). lia. }
        assert (HJ : hi_bin t <= jmax t) by (destruct t; cbn; lia).
        assert (LO : lo_bin t <= lead (map (sq (scl t z)) zs)).
        { rewrite <- (Z.add_0_r (lead _)). apply LD'; [|destruct t; cbn; lia].
          intros x I. rewrite Z.add_0_r. apply sq_lo. now apply ZM. }
        destruct (rep_rescale_update L Hf Hm m [] (map (sq (scl t z)) zs) (map (sq (scl t za)) zs) d z za am (lim t)) as [R2 F2]; auto.
        * apply (good_scale_fin _ zs); auto. exists M. split; auto. now rewrite dscale_eq.
        * unfold all_finite. apply forallb_forall. intros y I. apply in_map_iff in I. destruct I as (x & <- & I).
          apply sq_fin. apply (in_scale_up z); try lia. now apply ZM.
        * discriminate.
        * lia.
        * lia.
        * cbn [app]. assert (1 <= lo_bin t) by (destruct t; cbn; lia). lia.
        * cbn [app]. apply LD'; [|lia]. intros x I. apply findex_change; try lia; [now apply ZM|]. now apply ZM.
        * lia.
        * apply lim_jmax.
        * cbn [app]. intros HK. assert (W2 : 2 * (za - z) <= lim t - lo_bin t) by lia.
          destruct t; cbn [lim lo_bin width emax] in *; lia.
        * apply LD; [|lia]. intros x I. now apply ZM.
        * intros j Hj. apply sums_change; auto; try lia. intros x I. now apply ZM.
        * split. { apply GS. assert (E : amax = fmax amax M \/ amax = M).
            { unfold fmax. rewrite flt_mag by (apply HM || apply MX). unfold mag. rewrite FA, FM.
              destruct (Z.ltb_spec (Z.abs (toZ M)) (Z.abs (toZ amax))); [now left|]. right.
              apply mag_inj; try (apply HM || apply MX). unfold mag. rewrite FA, FM. lia. }
            destruct E as [E|E]; [rewrite E; exact MM|]. exfalso. unfold za, z in Lz. rewrite E in Lz. lia. }
          repeat (split; auto).
      + eexists _, _. split; [reflexivity|]. cbv zeta.
        assert (EQ : scale_z (fmax amax M) = z /\ (forall x, In x (amax :: xs ++ zs) -> in_scale z x)).
        { assert (FF : is_finite (fmax amax M) = true) by (destruct (fmax_cases amax M) as [->| ->]; auto).
          assert (E : scale_z (fmax amax M) = z).
          { unfold fmax. rewrite flt_mag by (apply HM || apply MX). unfold mag. rewrite FA, FM.
            destruct (Z.ltb_spec (Z.abs (toZ M)) (Z.abs (toZ amax))); [|reflexivity]. fold za.
            assert (z <= za) by (apply scale_z_mono; auto; lia). lia. }
          split; auto. intros x I. rewrite <- E. destruct I as [<-|I].
          - eapply in_scale_le; [apply (in_own_scale _ FF)|auto|].
            unfold fmax. rewrite flt_mag by (apply HM || apply MX). unfold mag. rewrite FA, FM.
            destruct (Z.ltb_spec (Z.abs (toZ M)) (Z.abs (toZ amax))); lia.
          - apply (max_in_scale _ (xs ++ zs)); auto. rewrite all_finite_app, HX, HZ. reflexivity. }
        destruct EQ as [EQ IS].
        destruct (TAIL z (IS _ (or_introl eq_refl))) as (T1 & T2 & T3 & T4).
        set (am := fmul (fdiv amax (scl t z)) (fdiv amax (scl t z))) in *. clearbody am.
        destruct (rep_update L Hf Hm m [] (map (sq (scl t z)) zs) d am R Hd) as [R2 F2].
        split. { rewrite <- EQ. now apply GS. }
        repeat (split; auto).
  Qed.
End STEP.

Lemma all_finite_fabs {t} (xs : list (F t)) : all_finite (map fabs xs) = all_finite xs.
Proof. induction xs as [|x xs IH]; [reflexivity|]. cbn [map]. now rewrite !all_finite_cons, fin_fabs, IH. Qed.
Lemma nan_fabs_list {t} (xs : list (F t)) : existsb f_isnan (map fabs xs) = existsb f_isnan xs.
Proof. induction xs as [|x xs IH]; [reflexivity|]. cbn [map existsb]. now rewrite nan_fabs, IH. Qed.
Lemma terms_fabs {t} X iX (m : mem t) n : terms ASum X iX X iX m n = map fabs (terms Sum X iX X iX m n).
Proof. unfold terms. rewrite map_map. reflexivity. Qed.
Lemma sq_nan {t} (s x : F t) : f_isnan x = true -> is_finite (sq s x) = false.
Proof. destruct x; try discriminate. intros _. reflexivity. Qed.
Lemma special_fabs {t} (xs : list (F t)) : all_finite xs = false ->
  special (map fabs xs) = if existsb f_isnan xs then B754_nan else B754_infinity false.
Proof.
  intros _. unfold special. rewrite nan_fabs_list.
  assert (E : existsb is_ninf (map fabs xs) = false).
  { induction xs as [|x xs IH]; [reflexivity|]. cbn [map existsb]. rewrite IH, orb_false_r. destruct x as [|[]| |[]]; reflexivity. }
  rewrite E, andb_false_r, orb_false_r. reflexivity.
Qed.

Section SSQ.
  Context {t : ty} {fold p ip c ic : Z} (L : layout fold p ip c ic).
  Hypothesis Hf : 2 <= fold.
  Hypothesis Hs : hi_bin t + fold - 1 <= lim t.
  Notation repm m us xs d := (rep t fold us xs d (P_of m p ip) (P_of m c ic)).
  Notation holdsm m us xs := (holds t fold us xs (P_of m p ip) (P_of m c ic)).
  Notation framem := (frame (t := t) fold p ip c ic).
  Notation outs := (outside (fold := fold) (p := p) (ip := ip) (c := c) (ic := ic)).

  Definition ssq_in (zs : list (F t)) d sc (m : mem t) : Prop :=
    if all_finite zs then good_scale sc zs /\ repm m [] (map (sq sc) zs) d else m p = special (map fabs zs).
  Definition ssq_out (zs : list (F t)) sc (m : mem t) : Prop :=
    if all_finite zs then good_scale sc zs /\ holdsm m [] (map (sq sc) zs)
    else m p = special (map fabs zs) /\ sc = dscale (mkf 1 0).
  Lemma ssq_out_perm (zs zs' : list (F t)) sc m : Permutation zs zs' -> ssq_out zs sc m -> ssq_out zs' sc m.
  Proof.
    intros P. unfold ssq_out. rewrite <- (all_finite_perm _ _ P), <- (special_perm _ _ (Permutation_map fabs P)).
    destruct (all_finite zs); auto. intros [G H]. split; [eapply good_scale_perm; eauto|].
    eapply holds_perm; [reflexivity| |exact H]. now apply Permutation_map.
  Qed.

  Lemma ssq_loop_ok : forall fuel tu N X iX i NB d sc (m : mem t) zs,
    legal_tuning (t := t) tu -> 0 <= i <= N -> N - i < Z.of_nat fuel -> 1 <= NB <= endurance t -> 0 <= d <= endurance t ->
    ssq_in zs d sc m -> outs X iX (N - i) ->
    let ts := terms Sum X iX X iX m (N - i) in
    (all_finite zs = true -> Z.of_nat (length (ts ++ zs)) <= capacity t) ->
    let r := ssq_loop fuel tu fold N X iX p ip c ic i NB d sc m in
    ssq_out (ts ++ zs) (fst r) (snd r) /\ framem m (snd r).
  Proof.
    pose proof (Hm' Hs) as Hm.
    induction fuel as [|fuel IH]; intros tu N X iX i NB d sc m zs LT Hi Hfu HNB Hd ST OX ts HC; [lia|].
    cbn [ssq_loop]. destruct (Z.ltb_spec i N) as [Li|Li].
    2:{ assert (E : ts = []) by (unfold ts, terms; rewrite zseq_nil by lia; reflexivity).
        rewrite E in *. cbn [app fst snd] in *. clear E ts. unfold ssq_in, ssq_out in *. destruct (all_finite zs) eqn:FZ.
        - destruct ST as [G R]. destruct (rep_renorm L Hf m [] (map (sq sc) zs) d R Hd) as [A B]; [intros _; rewrite map_length; now apply HC|].
          assert (NI : ISNANINF (dmrenorm fold p ip c ic m p) = false).
          { pose proof (good_scale_fin sc zs G FZ) as FF.
            assert (LC : Z.of_nat (length (map (sq sc) zs)) <= capacity t) by (rewrite map_length; now apply HC).
            pose proof (holds_rep t fold [] (map (sq sc) zs) _ _ LC A) as R'.
            pose proof (rep_head (ip := ip) (c := c) (ic := ic) Hf _ _ _ _ R' ltac:(pose proof (endurance_pos t); lia)) as RH.
            rewrite FF in RH. rewrite ISNANINF_fin. cbn [app] in RH.
            destruct (map (sq sc) zs); [rewrite RH|rewrite (proj2 RH)]; reflexivity. }
          rewrite NI. auto.
        - assert (NI : ISNANINF (m p) = true) by (rewrite ST; apply special_nonfinite).
          assert (E : dmrenorm fold p ip c ic m = m) by (unfold dmrenorm; rewrite NI; now rewrite orb_true_r).
          rewrite E, NI. split; [split; auto|]. apply frame_refl. }
    set (n := Z.min (N - i) NB). assert (Hn : 1 <= n <= endurance t) by lia.
    assert (En : N - i = n + (N - (i + n))) by lia. assert (Hr : 0 <= N - (i + n)) by lia.
    assert (Hn1 : n <= N - i) by lia. clearbody n.
    set (xs := terms Sum X iX X iX m n). set (ts' := terms Sum (X + n * iX) iX (X + n * iX) iX m (N - (i + n))).
    assert (Ets : ts = xs ++ ts') by (unfold ts; rewrite En; apply terms_split; lia).
    rewrite Ets in *. clear Ets ts. rewrite En in OX.
    destruct (outside_shift X iX n _ ltac:(lia) Hr OX) as [OX1 OX2].
    destruct LT as (LT1 & LA & LV).
    assert (LX : Z.of_nat (length xs) = n) by (unfold xs; rewrite terms_length; lia).
    assert (PERM : forall l : list (F t), Permutation (ts' ++ xs ++ l) ((xs ++ ts') ++ l)).
    { intros l. rewrite app_assoc, (Permutation_app_comm ts' xs). reflexivity. }
    assert (REC : forall m1 d1 sc1, framem m m1 -> 0 <= d1 <= endurance t -> ssq_in (xs ++ zs) d1 sc1 m1 ->
      let r := ssq_loop fuel tu fold N (X + n * iX) iX p ip c ic (i + n) n d1 sc1 m1 in
      ssq_out ((xs ++ ts') ++ zs) (fst r) (snd r) /\ framem m (snd r)).
    { intros m1 d1 sc1 F1 Hd1 ST1. pose proof (outside_terms Sum _ _ _ _ _ m m1 OX2 OX2 F1) as ET. fold ts' in ET.
      pose proof (IH tu N (X + n * iX) iX (i + n) n d1 sc1 m1 (xs ++ zs)) as R.
      cbv zeta in R. rewrite ET in R. destruct R as [R1 R2]; auto; try lia; [now split|..].
      - intros FA. rewrite all_finite_app in FA. apply andb_true_iff in FA. destruct FA as [_ FA]. specialize (HC FA).
        rewrite !app_length in *. lia.
      - split; [|eapply frame_trans; eauto]. eapply ssq_out_perm; [|exact R1]. apply PERM. }
    unfold damax. pose proof (scan_terms (amax_vec tu) Sum X iX X iX m n LA ltac:(lia)) as SC. cbv zeta in SC.
    cbn [skind] in SC. fold xs in SC. set (amax := scan (amax_vec tu) n _) in *. clearbody amax. destruct SC as [SC1 SC2].
    assert (HD : if all_finite zs then is_finite (m p) = true else m p = special (map fabs zs)).
    { unfold ssq_in in ST. destruct (all_finite zs) eqn:FZ; auto. destruct ST as [G R].
      pose proof (rep_head (ip := ip) (c := c) (ic := ic) Hf m _ _ d R Hd) as RH. rewrite (good_scale_fin sc zs G FZ) in RH.
      cbn [app] in RH. destruct (map (sq sc) zs); [now rewrite RH|apply RH]. }
    assert (SA : forall x, In x (map fabs xs) -> f_isnan x = false -> sgn_ok false x).
    { intros x I. apply in_map_iff in I. destruct I as (y & <- & _). destruct y; easy. }
    destruct (f_isinf amax || f_isinf (m p)) eqn:BI.
    - (* infinities *)
      destruct (for_up_head m p n (fun j m => fabs (m (X + j * iX))) ltac:(lia)) as [H1 H2].
      { intros j m1 Hj HF. rewrite !HF; [reflexivity|]; intros E; apply (OX1 j Hj); rewrite E; apply in_acc_p; auto. }
      set (m1 := for_up 0 n _ m) in *. clearbody m1.
      assert (EX : map (fun j => fabs (m (X + j * iX))) (zseq 0 n) = map fabs xs) by (unfold xs, terms; rewrite map_map; reflexivity).
      rewrite EX in H1. clear EX.
      assert (F1 : framem m m1) by (intros a Ha; apply H2; intros ->; apply Ha, in_acc_p; auto).
      assert (NF : all_finite (xs ++ zs) = false).
      { rewrite all_finite_app. destruct (all_finite zs) eqn:FZ; [|apply andb_false_r]. rewrite andb_true_r.
        apply orb_true_iff in BI. destruct BI as [BI|BI]; [|destruct (m p); discriminate].
        destruct (SC2 BI) as (x & I & E). destruct (all_finite xs) eqn:FX; auto. unfold all_finite in FX. rewrite forallb_forall in FX.
        apply FX in I. destruct x; discriminate. }
      assert (HH : m1 p = special (map fabs (xs ++ zs))).
      { destruct (existsb f_isnan xs) eqn:NX.
        - (* a NaN *)
          rewrite special_fabs by auto. rewrite existsb_app, NX. cbn [orb]. rewrite H1.
          assert (NE : existsb f_isnan (map fabs xs) = true) by now rewrite nan_fabs_list.
          clear -NE. generalize (m p). induction (map fabs xs) as [|x l IHl]; intros h; [discriminate|]. cbn [existsb] in NE.
          cbn [fold_left]. destruct (f_isnan x) eqn:Nx.
          + replace (fadd h x) with (@B754_nan (prec t) (emax t)) by (destruct x; try discriminate; now rewrite fadd_nan_r).
            clear. induction l; [reflexivity|]. cbn [fold_left]. rewrite fadd_nan_l. exact IHl.
          + now apply IHl.
        - assert (HO : head_ok true false (map fabs (xs ++ zs)) (m1 p)).
          { rewrite map_app. apply (head_perm true false (rev (map fabs xs) ++ map fabs zs)); [apply Permutation_app_tail; symmetry; apply Permutation_rev|]. rewrite H1.
            apply head_fold.
            - unfold head_ok. rewrite all_finite_fabs. destruct (all_finite zs); auto.
            - intros _. right. intros x I. apply SA; auto. apply in_map_iff in I. destruct I as (y & <- & I). rewrite nan_fabs.
              destruct (f_isnan y) eqn:Ny; auto. rewrite <- NX. symmetry. apply existsb_exists. eauto. }
          unfold head_ok in HO. rewrite all_finite_fabs, NF in HO. destruct HO as [HO|[? _]]; [exact HO|discriminate]. }
      destruct (f_isnan (m1 p)) eqn:NN.
      + split; [|exact F1]. cbn [fst snd]. eapply ssq_out_perm; [apply PERM|].
        unfold ssq_out. rewrite all_finite_app, NF, andb_false_r. split; [|reflexivity]. rewrite map_app. symmetry.
        assert (E : m1 p = B754_nan) by (destruct (m1 p); try discriminate; reflexivity). rewrite E in HH |- *.
        apply special_nan_more; [now rewrite all_finite_fabs|now symmetry].
      + assert (II : f_isinf (m1 p) = true).
        { pose proof (special_fin (map fabs (xs ++ zs))) as SF. rewrite <- HH in SF. destruct (m1 p); try discriminate; reflexivity. }
        rewrite II. apply REC; auto. unfold ssq_in. rewrite NF. exact HH.
    - apply orb_false_iff in BI. destruct BI as [BI1 BI2].
      destruct (f_isnan (m p)) eqn:NN.
      + split; [|apply frame_refl]. cbn [fst snd]. unfold ssq_out. destruct (all_finite zs) eqn:FZ; [destruct (m p); discriminate|].
        rewrite all_finite_app, FZ, andb_false_r. split; [|reflexivity]. rewrite map_app. symmetry.
        assert (E : m p = B754_nan) by (destruct (m p); try discriminate; reflexivity). rewrite E in HD |- *.
        apply special_nan_more; [now rewrite all_finite_fabs|now symmetry].
      + rewrite BI2. assert (FZ : all_finite zs = true).
        { destruct (all_finite zs); auto. pose proof (special_fin (map fabs zs)) as SF. rewrite <- HD in SF. destruct (m p); discriminate. }
        rewrite FZ in *. clear HD. unfold ssq_in in ST. rewrite FZ in ST. destruct ST as [G R]. specialize (HC eq_refl).
        rewrite (ENDURANCE_eq t).
        assert (RN : exists m1 d1, (if endurance t <? d + n then (dmrenorm fold p ip c ic m, 0) else (m, d)) = (m1, d1) /\
          repm m1 [] (map (sq sc) zs) d1 /\ 0 <= d1 /\ d1 + n <= endurance t /\ framem m m1).
        { destruct (Z.ltb_spec (endurance t) (d + n)).
          - destruct (rep_renorm L Hf m [] (map (sq sc) zs) d R Hd) as [A B]; [intros _; rewrite map_length; rewrite !app_length in HC; lia|].
            eexists _, _. split; [reflexivity|]. split; [apply holds_rep; auto; rewrite map_length; rewrite !app_length in HC; lia|]. split; [lia|]. split; [lia|exact B].
          - eexists _, _. split; [reflexivity|]. split; [exact R|]. split; [lia|]. split; [lia|apply frame_refl]. }
        destruct RN as (m1 & d1 & -> & R1 & Hd1 & Hd2 & F1).
        destruct (all_finite xs) eqn:FX.
        * assert (NA : existsb f_isnan xs = false) by (apply all_finite_flags; auto).
          assert (NE : xs <> []) by (destruct xs; [cbn in LX; lia|discriminate]).
          destruct (ssq_step L Hf Hs m1 zs d1 sc xs amax G R1 ltac:(lia) FZ (SC1 NA) FX NE) as (m1' & sc1 & -> & S1 & S2 & S3 & S4 & S5 & S6 & S7).
          set (am := fmul (fdiv amax sc1) (fdiv amax sc1)) in *. clearbody am.
          set (m2 := dmdupdate fold am p ip c ic m1') in *. clearbody m2.
          assert (F12 : framem m m2) by (eapply frame_trans; eauto).
          assert (EX : terms Sum X iX X iX m2 n = xs) by (exact (outside_terms Sum X iX X iX n m m2 OX1 OX1 F12)).
          assert (EV : map (fun i0 => sqval sc1 X iX m2 (Some i0)) (zseq 0 n) = map (sq sc1) xs).
          { rewrite <- EX. unfold terms. rewrite map_map. reflexivity. }
          assert (FF : all_finite (map (sq sc1) (xs ++ zs)) = true).
          { apply good_scale_fin; auto. now rewrite all_finite_app, FX, FZ. }
          rewrite map_app, all_finite_app in FF. apply andb_true_iff in FF. destruct FF as [FF1 FF2].
          pose proof (rep_kernel L Hf (dep_vec tu) m2 [am] (map (sq sc1) zs) d1 n (sqval sc1 X iX m2) LV ltac:(lia)) as RK.
          cbv zeta in RK. rewrite EV in RK.
          destruct (kernel (dep_vec tu) fold n (sqval sc1 X iX m2) p ip m2) as [m3 adv].
          destruct RK as (K1 & K2 & K3); auto.
          { discriminate. }
          { intros x Ix. apply in_map_iff in Ix. destruct Ix as (y & <- & Iy).
            etransitivity; [|apply S6; exact Iy]. apply lead_le. now left. }
          { cbn [sqval]. destruct xs as [|x0 xs0] eqn:Exs; [contradiction|]. destruct S1 as (M & HM & ->). rewrite dscale_eq. apply sq_fin.
            split; [reflexivity|]. split; [apply scale_z_range|]. apply pow2_pos. pose proof (scale_exp_range t _ (scale_z_range t M)) as [? _].
            pose proof (prec_pos t). pose proof (width_pos t). lia. }
          { cbn [sqval]. unfold sq. set (i0 := fdiv _ _). clear. clearbody i0. 
            destruct i0 as [[]|[]| |[]]; reflexivity. }
          rewrite K1. apply REC; [eapply frame_trans; eauto|lia|]. unfold ssq_in. rewrite all_finite_app, FX, FZ. cbn [andb].
          split; [exact S1|]. rewrite map_app.
          apply (rep_drop (fold := fold) _ _ am); auto.
          -- destruct xs; [contradiction|discriminate].
          -- cbn [app]. rewrite lead_app. lia.
        * assert (NA : existsb f_isnan xs = true).
          { destruct (existsb f_isnan xs) eqn:NA; auto. exfalso. specialize (SC1 eq_refl). destruct SC1 as (M1 & M2 & M3 & M4).
            assert (EI : exists x, In x xs /\ is_finite x = false).
            { clear -FX. induction xs as [|x xs IH]; [discriminate|]. rewrite all_finite_cons in FX. destruct (is_finite x) eqn:E.
              - destruct (IH FX) as (y & I & Fy). exists y. split; auto. now right.
              - exists x. split; auto. now left. }
            destruct EI as (x & I & Fx). specialize (M3 x I). unfold mag in M3 at 1. rewrite Fx in M3.
            destruct (is_finite amax) eqn:FA; [apply mag_fin in FA; lia|]. destruct amax; discriminate. }
          assert (RS : exists m1' sc1, (if flt sc (dscale amax) then
             (if flt fzero sc then dmdrescale fold (dscale amax) sc p ip c ic m1 else m1, dscale amax) else (m1, sc)) = (m1', sc1) /\ framem m1 m1').
          { destruct (flt sc (dscale amax)); [destruct (flt fzero sc)|]; eexists _, _; (split; [reflexivity|]); try apply frame_refl.
            apply rescale_frame; auto. lia. }
          destruct RS as (m1' & sc1 & -> & F1').
          pose proof (update_frame (fold := fold) (p := p) (ip := ip) (c := c) (ic := ic) m1' (fmul (fdiv amax sc1) (fdiv amax sc1)) ltac:(lia)) as F2.
          set (m2 := dmdupdate fold _ p ip c ic m1') in *. clearbody m2.
          assert (F12 : framem m m2) by (eapply frame_trans; [eapply frame_trans; eauto|eauto]).
          assert (EX : terms Sum X iX X iX m2 n = xs) by (exact (outside_terms Sum X iX X iX n m m2 OX1 OX1 F12)).
          pose proof (kernel_nan L Hf (dep_vec tu) m2 n (sqval sc1 X iX m2) LV ltac:(lia)) as RK.
          destruct (kernel (dep_vec tu) fold n (sqval sc1 X iX m2) p ip m2) as [m3 adv].
          destruct RK as (K1 & K2 & K3).
          { apply existsb_exists in NA. destruct NA as (x & I & Nx). rewrite <- EX in I. unfold terms in I.
            apply in_map_iff in I. destruct I as (j & <- & I). apply zseq_In in I. exists j. split; [lia|]. cbn [sqval].
            now apply sq_nan. }
          rewrite K1. apply REC; [eapply frame_trans; eauto|lia|]. unfold ssq_in. rewrite all_finite_app, FX. cbn [andb].
          rewrite K2. rewrite special_fabs by (now rewrite all_finite_app, FX). rewrite existsb_app, NA. reflexivity.
  Qed.
End SSQ.
