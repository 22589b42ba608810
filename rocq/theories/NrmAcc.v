(** * Error of the Euclidean norm in terms of real numbers (lemmas) *)
From Coq Require Import ZArith Reals Bool List Lia Lra Permutation.
From Flocq Require Import Core Relative BinarySingleNaN.
From Verif Require Import Fp Mem Binned Spec Client FpProofs BitProofs CoreArith SpecProofs WordProofs MemProofs AccProofs SumProofs ConvProofs SumError ConvFloat ClientProofs PropsSum PropsConv PropsAcc Gen GenProofs Blas LaneProofs ReduceProofs DriverProofs BlasSpec PropsBlas ScaleProofs RescaleProofs Ssq SsqProofs SsqSpec PropsSsq Gemv GemvSpec Defaults PropsDefault PropsApi AccReal PropsAccuracy.
Import ListNotations.
Open Scope R_scope.

(** ** One scaled square *)
Definition yy {t} (z : Z) (x : F t) : R := B2R x * bpow radix2 (- (width t * z)).
Lemma ysc_yy {t} z (x : F t) : ysc z x = yy z x \/
  (Rabs (yy z x) <= bpow radix2 (emin t + prec t - 1) /\ Rabs (ysc z x) <= bpow radix2 (emin t + prec t - 1) /\ Rabs (ysc z x - yy z x) <= bpow radix2 (emin t)).
Proof.
  pose proof (prec_pos t) as PP. unfold ysc. fold (yy z x). destruct (Rle_or_lt (bpow radix2 (emin t + prec t - 1)) (Rabs (yy z x))) as [H|H].
  - left. apply RN_exact, H.
  - right. split; [lra|]. split; [apply RN_le; [lia|lra]|]. eapply Rle_trans; [apply RN_any|].
    assert (u_ t * bpow radix2 (emin t + prec t - 1) = bpow radix2 (emin t - 1)) as E by (rewrite <- bpow_plus; f_equal; lia).
    assert (bpow radix2 (emin t) = 2 * bpow radix2 (emin t - 1)) as E2 by (change 2 with (bpow radix2 1); rewrite <- bpow_plus; f_equal; lia).
    rewrite E2. pose proof (Rmult_le_compat_l (u_ t) _ _ (bpow_ge_0 radix2 _) (Rlt_le _ _ H)). lra.
Qed.
Lemma sq_real {t} z (x : F t) : in_scale z x ->
  Rabs (B2R (sq (scl t z) x) - yy z x * yy z x) <= u_ t * (yy z x * yy z x) + bpow radix2 (emin t).
Proof.
  intros HX. destruct (sq_val z x HX) as (_ & _ & E & _). rewrite E. set (a := ysc z x) in *. set (y := yy z x) in *.
  pose proof (RN_any t (a * a)) as R. assert (AA : Rabs (a * a) = a * a) by (apply Rabs_pos_eq; nra). rewrite AA in R.
  assert (E2 : bpow radix2 (emin t) = 2 * bpow radix2 (emin t - 1)) by (change 2 with (bpow radix2 1); rewrite <- bpow_plus; f_equal; lia).
  pose proof (bpow_gt_0 radix2 (emin t - 1)) as G. assert (U : 0 < u_ t <= / 16777216) by (split; [apply bpow_gt_0|destruct t; cbn; lra]).
  pose proof (ysc_yy z x) as YY. fold a y in YY. destruct YY as [Q|(Q1 & Q2 & Q3)].
  - rewrite <- Q. lra.
  - (* both tiny *)
    set (b := bpow radix2 (emin t + prec t - 1)) in *. set (d := bpow radix2 (emin t)) in *.
    assert (B : b <= / 1000000) by (destruct t; [eapply Rle_trans; [apply (bpow_le radix2 _ (-20)); cbv; discriminate|cbn; lra]|eapply Rle_trans; [apply (bpow_le radix2 _ (-20)); cbv; discriminate|cbn; lra]]).
    assert (B0 : 0 < b) by apply bpow_gt_0. assert (D0 : 0 < d) by apply bpow_gt_0.
    assert (T : Rabs (a * a - y * y) <= d * (2 * b)).
    { replace (a * a - y * y) with ((a - y) * (a + y)) by ring. rewrite Rabs_mult. apply Rmult_le_compat; try apply Rabs_pos; auto.
      eapply Rle_trans; [apply Rabs_triang|lra]. }
    replace (RN t (a * a) - y * y) with ((RN t (a * a) - a * a) + (a * a - y * y)) by ring.
    eapply Rle_trans; [apply Rabs_triang|]. assert (A2 : a * a <= y * y + d * (2 * b)) by (apply Rabs_le_inv in T; lra).
    assert (d * (2 * b) <= d * / 500000) by (apply Rmult_le_compat_l; lra).
    assert (u_ t * (a * a) <= u_ t * (y * y + d * (2 * b))) by (apply Rmult_le_compat_l; lra).
    assert (u_ t * (d * (2 * b)) <= 1 * (d * (2 * b))) by (apply Rmult_le_compat_r; nra). set (g := bpow radix2 (emin t - 1)) in *. lra.
Qed.
(** Smallest scaled magnitude of the largest element. *)
Definition e0 (t : ty) : Z := match t with Dbl => -114 | Flt => -45 end.
Lemma yy_max {t} (M : F t) : is_finite M = true -> toZ M <> 0%Z -> bpow radix2 (e0 t) <= Rabs (yy (scale_z M) M).
Proof.
  intros FM NZ. unfold yy. rewrite Rabs_mult, (Rabs_pos_eq (bpow _ _)) by apply bpow_ge_0. pose proof (scale_z_range t M) as SR.
  pose proof (scale_exp_range t _ SR) as [ER _]. pose proof (prec_pos t) as PP. pose proof (width_pos t) as WP.
  destruct (Z.eq_dec (scale_z M) (zmin t)) as [E|E].
  - assert (L : bpow radix2 (emin t) <= Rabs (B2R M)).
    { rewrite abs_toZ. pose proof (bpow_gt_0 radix2 (emin t)). assert (1 <= IZR (Z.abs (toZ M))) by (apply IZR_le; lia). nra. }
    rewrite E. eapply Rle_trans; [|apply Rmult_le_compat_r; [apply bpow_ge_0|exact L]]. rewrite <- bpow_plus. apply bpow_le.
    destruct t; cbv; discriminate.
  - assert (ZZ : (zmin t < scale_z M)%Z) by lia. pose proof (scale_ge t M FM ZZ) as G. apply toZ_ge in G; [|clear - SR ZZ; revert SR ZZ; unfold emin; destruct t; cbn [width zmin zmax prec emax]; lia].
    eapply Rle_trans; [|apply Rmult_le_compat_r; [apply bpow_ge_0|exact G]]. rewrite <- bpow_plus. apply bpow_le.
    replace (width t * scale_z M - width t + 1 + - (width t * scale_z M))%Z with (1 - width t)%Z by ring. destruct t; cbv; discriminate.
Qed.
Lemma yy_sq_ge {t} z (x : F t) : in_scale z x -> bpow radix2 (e0 t) <= Rabs (yy z x) ->
  bpow radix2 (2 * e0 t) <= yy z x * yy z x /\ bpow radix2 (2 * e0 t) <= B2R (sq (scl t z) x).
Proof.
  intros HX H. assert (EE : (emin t <= e0 t)%Z /\ (emin t <= 2 * e0 t)%Z) by (destruct t; cbv; split; discriminate).
  assert (P : forall a, bpow radix2 (e0 t) <= Rabs a -> bpow radix2 (2 * e0 t) <= a * a).
  { intros a Ha. replace (2 * e0 t)%Z with (e0 t + e0 t)%Z by lia. rewrite bpow_plus. pose proof (bpow_gt_0 radix2 (e0 t)).
    replace (a * a) with (Rabs a * Rabs a) by (rewrite <- Rabs_mult; apply Rabs_pos_eq; nra). apply Rmult_le_compat; lra. }
  split; [apply P, H|]. destruct (sq_val z x HX) as (_ & S & E & _).
  assert (Y : bpow radix2 (e0 t) <= Rabs (ysc z x)) by (apply RN_ge; [lia|exact H]).
  rewrite E. set (a := ysc z x) in *. pose proof (P a Y) as PA.
  assert (R : bpow radix2 (2 * e0 t) <= Rabs (RN t (a * a))) by (apply RN_ge; [lia|]; rewrite Rabs_pos_eq; [exact PA|nra]).
  rewrite Rabs_pos_eq in R; auto. assert (0 <= a * a) by nra. rewrite <- (round_0 radix2 (FLT_exp (emin t) (prec t)) ZnearestE). apply RN_mono. lra.
Qed.

(** ** The sum of squares *)
Definition sumsq {t} (z : Z) (xs : list (F t)) : R := total (map (fun x => yy z x * yy z x) xs).
Lemma squares_total {t} z (xs : list (F t)) : (forall x, In x xs -> in_scale z x) ->
  Rabs (total (reals (map (sq (scl t z)) xs)) - sumsq z xs) <= u_ t * sumsq z xs + IZR (Z.of_nat (length xs)) * bpow radix2 (emin t).
Proof.
  unfold sumsq, total, reals. induction xs as [|x xs IH]; intros H.
  - cbn. rewrite Rminus_0_r, Rabs_R0. lra.
  - specialize (IH (fun x Hx => H x (or_intror Hx))). pose proof (sq_real z x (H x (or_introl eq_refl))) as Q.
    cbn [map fold_right length]. rewrite Nat2Z.inj_succ. unfold Z.succ. rewrite plus_IZR.
    set (a := fold_right Rplus 0 (map B2R _)) in *. set (b := fold_right Rplus 0 (map _ xs)) in *.
    set (q := B2R (sq (scl t z) x)) in *. set (y := yy z x * yy z x) in *. replace (q + a - (y + b)) with ((q - y) + (a - b)) by ring.
    eapply Rle_trans; [apply Rabs_triang|]. lra.
Qed.
Lemma sumsq_bound {t} z (xs : list (F t)) : (forall x, In x xs -> in_scale z x) ->
  0 <= sumsq z xs <= IZR (Z.of_nat (length xs)) * bpow radix2 (2 * width t).
Proof.
  unfold sumsq, total. induction xs as [|x xs IH]; intros H.
  - cbn. lra.
  - specialize (IH (fun x Hx => H x (or_intror Hx))). pose proof (ysc_le z x (H x (or_introl eq_refl))) as Q. fold (yy z x) in Q.
    cbn [map fold_right length]. rewrite Nat2Z.inj_succ. unfold Z.succ. rewrite plus_IZR.
    assert (0 <= yy z x * yy z x <= bpow radix2 (2 * width t)); [|lra].
    split; [nra|]. replace (2 * width t)%Z with (width t + width t)%Z by lia. rewrite bpow_plus.
    replace (yy z x * yy z x) with (Rabs (yy z x) * Rabs (yy z x)) by (rewrite <- Rabs_mult; apply Rabs_pos_eq; nra).
    apply Rmult_le_compat; try apply Rabs_pos; auto.
Qed.
Definition eta (t : ty) (fold N : Z) : R := IZR N * bpow radix2 (- width t * (fold - 1)).
Lemma sumsq_conv {t} fold (xs : list (F t)) (M : F t) Y (m : mem t) :
  (2 <= fold <= ssq_fold t - 1)%Z -> all_finite xs = true -> (Z.of_nat (length xs) <= CAPACITY t)%Z ->
  is_max M xs -> toZ M <> 0%Z ->
  let z := scale_z M in let V := sumsq z xs in let h := eta t fold (Z.of_nat (length xs)) in
  h <= / 8 ->
  let r := ddbconv fold Y (sum_list fold Y (map (sq (scl t z)) xs) m) in
  bpow radix2 (2 * e0 t) <= V <= bpow radix2 (emax t - 2) /\ is_finite r = true /\
  Rabs (B2R r - V) <= (match t with Dbl => 511 / 100 | Flt => 2 + / 100 end * u_ t + 1012 / 1000 * h) * V.
Proof.
  intros Hf FX HC HM NZ z V h Hh r. set (qs := map (sq (scl t z)) xs) in *. set (n := Z.of_nat (length xs)) in *.
  assert (IS : forall x, In x xs -> in_scale z x) by (intros x I; eapply max_in_scale; eauto).
  assert (FM : is_finite M = true) by (eapply max_finite; eauto).
  assert (XX : exists x, In x xs /\ M = fabs x).
  { destruct HM as (_ & _ & _ & [->|H]); auto. cbn in NZ. contradiction. }
  destruct XX as (x0 & I0 & E0). pose proof (yy_max M FM NZ) as YM. fold z in YM.
  assert (AM : Z.abs (toZ x0) = Z.abs (toZ M)).
  { assert (F0 : is_finite x0 = true) by (apply (IS x0 I0)). apply (IZR_bpow_inj t). rewrite <- !abs_toZ, E0. unfold fabs. rewrite B2R_Babs. now rewrite Rabs_Rabsolu. }
  assert (Y0 : bpow radix2 (e0 t) <= Rabs (yy z x0)).
  { unfold yy in *. rewrite Rabs_mult, abs_toZ in *. now rewrite AM. }
  destruct (yy_sq_ge z x0 (IS x0 I0) Y0) as [L1 L2].
  pose proof (sumsq_bound z xs IS) as [V0 VU]. fold V in V0, VU. fold n in VU.
  assert (VL : yy z x0 * yy z x0 <= V).
  { destruct (total_max (map (fun x => yy z x * yy z x) xs) (yy z x0 * yy z x0)) as [T _]; [| |exact T].
    - intros v Hv. apply in_map_iff in Hv. destruct Hv as (w & <- & _). nra.
    - exists (yy z x0 * yy z x0). split; [apply (in_map (fun x => yy z x * yy z x)), I0|]. apply Rabs_pos_eq. nra. }
  assert (N1 : (1 <= n)%Z) by (unfold n; destruct xs; [destruct I0|cbn [length]; lia]).
  assert (CB : IZR n * bpow radix2 (2 * width t) <= bpow radix2 (emax t - 2)).
  { replace (emax t - 2)%Z with ((emax t - 2 - 2 * width t) + 2 * width t)%Z by ring. rewrite bpow_plus. apply Rmult_le_compat_r; [apply bpow_ge_0|].
    eapply Rle_trans; [apply IZR_le, HC|]. rewrite bpow_IZR by (destruct t; cbv; discriminate). apply IZR_le. destruct t; vm_compute; discriminate. }
  split; [split; lra|].
  pose proof (squares_total z xs IS) as QT. fold qs V n in QT. set (Q := total (reals qs)) in *.
  assert (FQ : all_finite qs = true).
  { unfold all_finite. apply forallb_forall. intros q Hq. apply in_map_iff in Hq. destruct Hq as (x & <- & I). apply sq_fin, IS, I. }
  assert (MQ : max_abs (B2R (sq (scl t z) x0)) (reals qs)).
  { split.
    - intros v Hv. apply in_map_iff in Hv. destruct Hv as (q & <- & Hq). apply in_map_iff in Hq. destruct Hq as (x & <- & I).
      destruct (max_mags M xs x HM FX I) as [_ LE]. rewrite <- AM in LE. pose proof (sq_mono z x x0 (IS x I) (IS x0 I0) LE) as G.
      pose proof (sq_pos z x (IS x I)) as P. rewrite abs_toZ, (toZ_B2R _ (sq (scl t z) x0)). apply Rmult_le_compat_r; [apply bpow_ge_0|]. apply IZR_le. lia.
    - exists (B2R (sq (scl t z) x0)). split; [apply in_map, in_map, I0|]. apply Rabs_pos_eq. pose proof (bpow_ge_0 radix2 (2 * e0 t)). lra. }
  assert (QP : forall v, In v (reals qs) -> 0 <= v).
  { intros v Hv. apply in_map_iff in Hv. destruct Hv as (q & <- & Hq). apply in_map_iff in Hq. destruct Hq as (x & <- & I).
    pose proof (sq_pos z x (IS x I)) as P. rewrite toZ_B2R. apply Rmult_le_pos; [now apply IZR_le|apply bpow_ge_0]. }
  destruct (total_max (reals qs) (B2R (sq (scl t z) x0)) QP (proj2 MQ)) as [QL Q0]. fold Q in QL, Q0.
  assert (EM : IZR n * bpow radix2 (emin t) <= h / 128 * V).
  { unfold h, eta. fold n. apply Rle_trans with (IZR n * bpow radix2 (- width t * (fold - 1)) / 128 * bpow radix2 (2 * e0 t)).
    - unfold Rdiv. rewrite !Rmult_assoc. apply Rmult_le_compat_l; [apply IZR_le; lia|]. change (/ 128) with (bpow radix2 (-7)). rewrite <- !bpow_plus. apply bpow_le.
      clear - Hf. destruct t; unfold emin; cbn [width prec emax e0 ssq_fold] in *; lia.
    - apply Rmult_le_compat_l; [|lra]. apply Rmult_le_pos; [|lra]. apply Rmult_le_pos; [apply IZR_le; lia|apply bpow_ge_0]. }
  assert (H0 : 0 <= h) by (apply Rmult_le_pos; [apply IZR_le; lia|apply bpow_ge_0]).
  assert (U : 0 < u_ t <= / 16777216) by (split; [apply bpow_gt_0|destruct t; cbn; lra]).
  assert (HV : h * V <= / 8 * V) by (apply Rmult_le_compat_r; lra).
  assert (UV : 0 <= u_ t * V <= / 16777216 * V) by (split; [apply Rmult_le_pos; lra|apply Rmult_le_compat_r; lra]).
  apply Rabs_le_inv in QT.
  assert (QB : Q <= 2 * V) by lra.
  set (E := sum_eps t fold n (B2R (sq (scl t z) x0))).
  assert (EE : 0 <= E <= h * Q).
  { unfold E, sum_eps. fold (eta t fold n). fold h. pose proof (bpow_ge_0 radix2 (2 * e0 t)). split; [apply Rmult_le_pos; lra|apply Rmult_le_compat_l; lra]. }
  assert (HQ : h * Q <= / 8 * Q) by (apply Rmult_le_compat_r; lra).
  assert (LQ : length qs = length xs) by apply map_length.
  destruct (sum_error fold qs (B2R (sq (scl t z) x0))) with (Y := Y) (m := m) as [R1 R2].
  - pose proof (proj2 (proj2 (ssq_fold_ok t fold ltac:(lia)))). exact H.
  - exact FQ.
  - exact MQ.
  - eapply Rle_trans; [|exact L2]. apply bpow_le. clear - Hf. destruct t; cbn [width prec emax e0 ssq_fold jmax] in *; lia.
  - intros EQ. rewrite EQ in LQ. cbn [length] in LQ. lia.
  - rewrite LQ. exact HC.
  - fold Q. rewrite LQ. fold n. fold E. rewrite Rabs_pos_eq by lra.
    assert (BB : bpow radix2 (emax t) = 4 * bpow radix2 (emax t - 2)) by (change 4 with (bpow radix2 2); rewrite <- bpow_plus; f_equal; lia).
    assert (bpow radix2 (emax t - 20) <= bpow radix2 (emax t - 2)) by (apply bpow_le; lia). lra.
  - fold r Q in R1, R2. rewrite LQ in R2. fold n E in R2. split; [exact R1|]. rewrite (Rabs_pos_eq Q) in R2 by lra. unfold conv_eps in R2.
    set (d := match t with Dbl => 41 / 10 | Flt => 1001 / 1000 end) in *. assert (D : 1 <= d <= 41 / 10) by (unfold d; destruct t; lra).
    replace (match t with Dbl => 511 / 100 | Flt => 2 + / 100 end) with (d + 1 + match t with Dbl => 1 / 100 | Flt => 9 / 1000 end) by (unfold d; destruct t; lra).
    set (d' := match t with Dbl => 1 / 100 | Flt => 9 / 1000 end). assert (D' : 9 / 1000 <= d') by (unfold d'; destruct t; lra).
    replace (B2R r - V) with ((B2R r - Q) + (Q - V)) by ring. eapply Rle_trans; [apply Rabs_triang|].
    assert (A1 : Rabs (Q - V) <= u_ t * V + h / 128 * V) by (apply Rabs_le; lra).
    set (u := u_ t) in *. set (k := d * u) in *. assert (K0 : 0 <= k <= 5 * / 16777216) by (unfold k; split; nra).
    (* Q <= (1 + u + h/128) V *)
    assert (QV : Q <= V + u * V + h / 128 * V) by lra.
    assert (K1 : k * Q <= k * (V + u * V + h / 128 * V)) by (apply Rmult_le_compat_l; lra).
    assert (K2 : k * (V + u * V + h / 128 * V) <= k * V + (5 * / 16777216) * (u * V + h / 128 * V)).
    { assert (k * (u * V + h / 128 * V) <= 5 * / 16777216 * (u * V + h / 128 * V)); [apply Rmult_le_compat_r|]; nra. }
    assert (K3 : h * Q <= h * (V + u * V + h / 128 * V)) by (apply Rmult_le_compat_l; lra).
    assert (K4 : h * (V + u * V + h / 128 * V) <= h * (V + / 900 * V)) by (apply Rmult_le_compat_l; [lra|]; nra).
    replace ((d + 1 + d') * u) with (k + u + d' * u) by (unfold k; ring).
    assert (d' * u * V >= 9 / 1000 * (u * V)) by (apply Rle_ge; rewrite (Rmult_assoc d'); apply Rmult_le_compat_r; lra).
    clearbody k d d'. nra.
Qed.
