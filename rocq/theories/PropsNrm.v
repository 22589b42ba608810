(** * C56: accuracy of the Euclidean norms *)
From Coq Require Import ZArith Reals Bool List Lia Lra Permutation.
From Flocq Require Import Core Relative BinarySingleNaN.
From Verif Require Import Fp Mem Binned Spec Client FpProofs BitProofs CoreArith SpecProofs WordProofs MemProofs AccProofs SumProofs ConvProofs SumError ConvFloat RoundTrip ClientProofs PropsSum PropsConv PropsAcc Gen GenProofs Blas LaneProofs ReduceProofs DriverProofs BlasSpec PropsBlas ScaleProofs RescaleProofs Ssq SsqProofs SsqSpec PropsSsq PropsScale Gemv GemvSpec BlasZ BlasZSpec BlasDZ BlasDZSpec PropsBlasDZ Defaults PropsDefault PropsApi AccReal PropsAccuracy NrmAcc.
Import ListNotations.
Open Scope R_scope.

(** The Euclidean norm of the real values. *)
Definition norm {t} (xs : list (F t)) : R := sqrt (total (map (fun x => x * x) (reals xs))).
(** Relative error: 4 * 2^-53 (double), 2.25 * 2^-24 (float), plus 0.55 * N * 2^(-W (fold-1)). *)
Definition nrm_eps (t : ty) (fold N : Z) : R :=
  match t with Dbl => 4 | Flt => 9 / 4 end * bpow radix2 (- prec t) + 55 / 100 * (IZR N * bpow radix2 (- width t * (fold - 1))).

Lemma sqrt_rel V r d : 0 < V -> d <= 127 / 1000 -> Rabs (r - V) <= d * V ->
  0 < r /\ Rabs (sqrt r - sqrt V) <= 52 / 100 * d * sqrt V.
Proof.
  intros V0 D H. assert (D0 : 0 <= d) by (pose proof (Rabs_pos (r - V)); nra).
  assert (RL : 873 / 1000 * V <= r) by (apply Rabs_le_inv in H; nra). assert (R0 : 0 < r) by lra. split; [exact R0|].
  pose proof (sqrt_lt_R0 V V0) as S0. pose proof (sqrt_lt_R0 r R0) as T0.
  pose proof (sqrt_sqrt V (Rlt_le _ _ V0)) as SS. pose proof (sqrt_sqrt r (Rlt_le _ _ R0)) as TT.
  set (s := sqrt V) in *. set (q := sqrt r) in *. assert (QL : 93 / 100 * s <= q).
  { destruct (Rle_or_lt (93 / 100 * s) q) as [|C]; auto. exfalso. assert (q * q < (93 / 100 * s) * (93 / 100 * s)) by (apply Rmult_le_0_lt_compat; lra). nra. }
  assert (E : Rabs (q - s) * (q + s) <= d * (s * s)).
  { rewrite SS. rewrite <- (Rabs_pos_eq (q + s)) by lra. rewrite <- Rabs_mult. replace ((q - s) * (q + s)) with (r - V) by (rewrite <- TT, <- SS; ring). exact H. }
  pose proof (Rabs_pos (q - s)) as P. set (e := Rabs (q - s)) in *. clearbody e.
  assert (e * (193 / 100 * s) <= d * (s * s)) by (eapply Rle_trans; [apply Rmult_le_compat_l; [exact P|]|exact E]; lra).
  apply (Rmult_le_reg_r (193 / 100 * s)); [lra|]. eapply Rle_trans; [exact H0|].
  assert (0 <= d * (s * s)) by (apply Rmult_le_pos; nra). lra.
Qed.
Lemma fsqrt_real t (r : F t) : is_finite r = true -> 0 < B2R r ->
  is_finite (fsqrt r) = true /\ B2R (fsqrt r) = RN t (sqrt (B2R r)).
Proof.
  intros Fr P. pose proof (Bsqrt_correct (prec t) (emax t) (prec_gt_0 t) (prec_lt_emax t) mode_NE r) as (A & B & _).
  rewrite fexp_FLT in A. unfold fsqrt. split; [|exact A]. rewrite B. destruct r as [s|s| |s mm e H]; try discriminate; [reflexivity|].
  destruct s; [|reflexivity]. exfalso. cbn in P. pose proof (F2R_lt_0 radix2 {| Fnum := Z.neg mm; Fexp := e |} ltac:(reflexivity)). lra.
Qed.
Lemma RN_normal t x : bpow radix2 (emin t + prec t - 1) <= Rabs x -> Rabs (RN t x - x) <= u_ t * Rabs x.
Proof.
  intros H. pose proof (relative_error_N_FLT radix2 (emin t) (prec t) ltac:(destruct t; reflexivity) (fun z => negb (Z.even z)) x H) as R.
  replace (/ 2 * bpow radix2 (- prec t + 1)) with (u_ t) in R by (rewrite bpow_plus; change (bpow radix2 1) with 2; field). exact R.
Qed.
Lemma RN_max t v : Rabs v <= bpow radix2 (emax t) - bpow radix2 (emax t - prec t) -> Rabs (RN t v) < bpow radix2 (emax t).
Proof.
  intros H. apply Rle_lt_trans with (bpow radix2 (emax t) - bpow radix2 (emax t - prec t)); [|pose proof (bpow_gt_0 radix2 (emax t - prec t)); lra].
  apply abs_round_le_generic; try exact H; try apply valid_rnd_N; [apply FLT_valid|].
  apply generic_format_FLT. exists (Float radix2 (2 ^ prec t - 1) (emax t - prec t)).
  - unfold F2R. cbn [Fnum Fexp]. rewrite minus_IZR, <- bpow_IZR by (pose proof (prec_pos t); lia). rewrite Rmult_minus_distr_r, <- bpow_plus.
    replace (prec t + (emax t - prec t))%Z with (emax t) by ring. ring.
  - cbn [Fnum]. destruct t; reflexivity.
  - cbn [Fexp]. destruct t; cbv; discriminate.
Qed.
Lemma emin_ge t v : Rabs v < bpow radix2 (emin t + prec t - 1) -> Rabs (RN t v - v) <= bpow radix2 (emin t - 1).
Proof.
  intros H. replace (bpow radix2 (emin t - 1)) with (/ 2 * ulp radix2 (FLT_exp (emin t) (prec t)) v).
  - apply error_le_half_ulp. apply FLT_valid.
  - rewrite ulp_FLT_small; [|apply prec_gt_0|].
    + unfold Z.sub. rewrite bpow_plus. change (bpow radix2 (- (1))) with (/ 2). ring.
    + eapply Rlt_le_trans; [exact H|]. apply bpow_le. lia.
Qed.
Lemma norm_scaled {t} z (xs : list (F t)) : norm xs = sqrt (sumsq z xs) * bpow radix2 (width t * z).
Proof.
  unfold norm. set (b := bpow radix2 (width t * z)). assert (B0 : 0 < b) by apply bpow_gt_0.
  assert (E : total (map (fun x => x * x) (reals xs)) = sumsq z xs * (b * b)).
  { unfold sumsq, total, reals. induction xs as [|x xs IH]; cbn [map fold_right]; [ring|]. rewrite IH. unfold yy.
    assert (bpow radix2 (- (width t * z)) * b = 1) as I by (unfold b; rewrite <- bpow_plus, Z.add_opp_diag_l; reflexivity).
    set (c := bpow radix2 (- (width t * z))) in *. rewrite Rmult_plus_distr_r. f_equal.
    replace (B2R x * c * (B2R x * c) * (b * b)) with (B2R x * B2R x * ((c * b) * (c * b))) by ring. rewrite I. ring. }
  rewrite E, sqrt_mult_alt.
  - rewrite sqrt_square by lra. reflexivity.
  - unfold sumsq, total. clear. induction xs as [|x xs IH]; cbn [map fold_right]; [lra|]. nra.
Qed.

(** ** The last two operations *)
Lemma root_error t z (r : F t) V d L : (zmin t <= z <= zmax t)%Z -> bpow radix2 (2 * e0 t) <= V <= bpow radix2 (emax t - 2) -> is_finite r = true ->
  d <= 1266 / 10000 -> Rabs (B2R r - V) <= (match t with Dbl => 511 / 100 | Flt => 2 + / 100 end * u_ t + d) * V ->
  L = sqrt V * bpow radix2 (width t * z) ->
  let e := match t with Dbl => 4 | Flt => 9 / 4 end * u_ t + 53 / 100 * d in
  (1 + e) * L <= bpow radix2 (emax t) - bpow radix2 (emax t - prec t) ->
  let n := scaled_root (scl t z) r in
  is_finite n = true /\ Rabs (B2R n - L) <= e * L + bpow radix2 (emin t - 1).
Proof.
  intros Hz [VL VU] Fr Hd HR EL e HO n.
  assert (U : 0 < u_ t <= / 16777216) by (split; [apply bpow_gt_0|destruct t; cbn; lra]).
  assert (V0 : 0 < V) by (pose proof (bpow_gt_0 radix2 (2 * e0 t)); lra).
  set (c := match t with Dbl => 511 / 100 | Flt => 2 + / 100 end) in *. assert (C : 0 <= c <= 6) by (unfold c; destruct t; lra).
  destruct (sqrt_rel V (B2R r) (c * u_ t + d) V0) as [R0 SR]; [nra|exact HR|].
  pose proof (scale_exp_range t z Hz) as [ER _]. set (b := bpow radix2 (width t * z)) in *. assert (B0 : 0 < b) by apply bpow_gt_0.
  pose proof (sqrt_lt_R0 V V0) as S0. set (s := sqrt V) in *.
  assert (CD : 0 <= c * u_ t + d) by (pose proof (Rabs_pos (B2R r - V)); nra).
  assert (SL : bpow radix2 (e0 t) <= s).
  { unfold s. rewrite <- (sqrt_square (bpow radix2 (e0 t))) by apply bpow_ge_0. apply sqrt_le_1_alt. rewrite <- bpow_plus. replace (e0 t + e0 t)%Z with (2 * e0 t)%Z by lia. exact VL. }
  assert (SU : s <= bpow radix2 ((emax t - 2) / 2)).
  { unfold s. rewrite <- (sqrt_square (bpow radix2 ((emax t - 2) / 2))) by apply bpow_ge_0. apply sqrt_le_1_alt. rewrite <- bpow_plus.
    replace ((emax t - 2) / 2 + (emax t - 2) / 2)%Z with (emax t - 2)%Z by (destruct t; reflexivity). exact VU. }
  set (q := sqrt (B2R r)) in *. assert (Q0 : 0 < q) by (apply sqrt_lt_R0, R0).
  assert (SR' : Rabs (q - s) <= 7 / 100 * s).
  { eapply Rle_trans; [exact SR|]. apply Rmult_le_compat_r; [lra|]. assert (c * u_ t <= 6 * / 16777216) by (apply Rmult_le_compat; lra). lra. }
  apply Rabs_le_inv in SR'. assert (L0 : 0 < L) by (rewrite EL; apply Rmult_lt_0_compat; lra).
  (* the square root in a format with at least the precision of t *)
  assert (RT : forall t', (e0 t' < 0)%Z -> (emin t' + prec t' - 1 <= e0 t - 1)%Z -> Rabs (RN t' q - s) <= (52 / 100 * (c * u_ t + d) + 107 / 100 * u_ t') * s).
  { intros t' _ He. assert (QN : bpow radix2 (emin t' + prec t' - 1) <= Rabs q).
    { rewrite Rabs_pos_eq by lra. apply Rle_trans with (bpow radix2 (e0 t - 1)); [apply bpow_le, He|]. unfold Z.sub at 1. rewrite bpow_plus. change (bpow radix2 (- (1))) with (/ 2). lra. }
    pose proof (RN_normal t' q QN) as RQ. rewrite (Rabs_pos_eq q) in RQ by lra. pose proof (bpow_gt_0 radix2 (- prec t')) as U'.
    assert (u_ t' * q <= u_ t' * (107 / 100 * s)) by (apply Rmult_le_compat_l; lra).
    replace (RN t' q - s) with ((RN t' q - q) + (q - s)) by ring. eapply Rle_trans; [apply Rabs_triang|]. lra. }
  destruct (mkf_pow2 t (width t * z) ltac:(pose proof (prec_pos t); lia)) as [FS ES]. fold b in ES.
  destruct t.
  - (* double *)
    destruct (fsqrt_real Dbl r Fr R0) as [FG EG]. specialize (RT Dbl ltac:(reflexivity) ltac:(cbv; discriminate)). fold q in EG. rewrite <- EG in RT.
    set (g := fsqrt r) in *. set (u := u_ Dbl) in *. unfold c in *. clear c.
    assert (VE : Rabs (B2R g * b - L) <= e * L).
    { rewrite EL. replace (B2R g * b - s * b) with ((B2R g - s) * b) by ring. rewrite Rabs_mult, (Rabs_pos_eq b) by lra. rewrite <- Rmult_assoc.
      apply Rmult_le_compat_r; [lra|]. eapply Rle_trans; [exact RT|]. apply Rmult_le_compat_r; [lra|]. unfold e. lra. }
    assert (VM : Rabs (B2R g * b) <= bpow radix2 (emax Dbl) - bpow radix2 (emax Dbl - prec Dbl)).
    { eapply Rle_trans; [|exact HO]. replace (B2R g * b) with ((B2R g * b - L) + L) by ring. eapply Rle_trans; [apply Rabs_triang|]. rewrite (Rabs_pos_eq L) by lra. lra. }
    destruct (fmul_round Dbl (scl Dbl z) g FS FG) as (N1 & N2 & _).
    { rewrite ES, Rmult_comm. apply RN_max, VM. }
    change (fmul (scl Dbl z) g) with n in N1, N2. split; [exact N1|]. rewrite N2, ES, (Rmult_comm b).
    destruct (Rle_or_lt (bpow radix2 (emin Dbl + prec Dbl - 1)) (Rabs (B2R g * b))) as [K|K].
    + assert (EX : RN Dbl (B2R g * b) = B2R g * b) by (apply RN_exact, K). pose proof (bpow_ge_0 radix2 (emin Dbl - 1)).
      change (round radix2 (FLT_exp (emin Dbl) (prec Dbl)) ZnearestE (B2R g * b)) with (RN Dbl (B2R g * b)). rewrite EX. lra.
    + replace (RN Dbl (B2R g * b) - L) with ((RN Dbl (B2R g * b) - B2R g * b) + (B2R g * b - L)) by ring.
      eapply Rle_trans; [apply Rabs_triang|]. pose proof (emin_ge Dbl _ K). lra.
  - (* float *)
    destruct (f2d_real r Fr) as [FD ED]. destruct (fsqrt_real Dbl (f2d r) FD ltac:(rewrite ED; exact R0)) as [FG EG].
    specialize (RT Dbl ltac:(reflexivity) ltac:(cbv; discriminate)). rewrite ED in EG. fold q in EG. rewrite <- EG in RT.
    set (g := fsqrt (f2d r)) in *. set (u := u_ Flt) in *. unfold c in *. clear c.
    assert (UD : u_ Dbl <= / 1000 * u) by (unfold u; change (/ 1000 * u_ Flt) with (/ 1000 * / 16777216); cbn; lra).
    assert (UD0 : 0 < u_ Dbl) by apply bpow_gt_0. set (ud := u_ Dbl) in *.
    set (e' := 112 / 100 * u + 52 / 100 * d).
    assert (VE : Rabs (B2R g * b - L) <= e' * L).
    { rewrite EL. replace (B2R g * b - s * b) with ((B2R g - s) * b) by ring. rewrite Rabs_mult, (Rabs_pos_eq b) by lra. rewrite <- Rmult_assoc.
      apply Rmult_le_compat_r; [lra|]. eapply Rle_trans; [exact RT|]. apply Rmult_le_compat_r; [lra|]. unfold e'. lra. }
    assert (D0 : - u * 3 <= d) by lra.
    assert (EE : e' + 107 / 100 * u <= e /\ 0 <= e' <= 69 / 1000) by (unfold e, e'; lra).
    assert (LE : e' * L <= e * L /\ 0 <= e' * L <= 69 / 1000 * L) by (split; [apply Rmult_le_compat_r; lra|split; [apply Rmult_le_pos; lra|apply Rmult_le_compat_r; lra]]).
    pose proof (Rabs_le_inv _ _ VE) as VE2.
    assert (VP : 0 < B2R g * b <= 107 / 100 * L) by lra.
    assert (LU : L <= bpow radix2 128) by (assert (L <= (1 + e) * L) by nra; pose proof (bpow_ge_0 radix2 (128 - 24)); change (emax Flt) with 128%Z in HO; change (prec Flt) with 24%Z in HO; lra).
    assert (BD : B2R (f2d (scl Flt z)) = b) by (rewrite <- ES; apply f2d_real, FS).
    assert (SN : bpow radix2 (emin Dbl + prec Dbl - 1) <= Rabs (B2R g * b)).
    { assert (LL : bpow radix2 (e0 Flt + emin Flt + prec Flt) <= L).
      { rewrite EL. rewrite <- Z.add_assoc, bpow_plus. apply Rmult_le_compat; try apply bpow_ge_0; auto. unfold b. apply bpow_le. lia. }
      rewrite Rabs_pos_eq by lra. apply Rle_trans with (/ 2 * L); [|lra]. apply Rle_trans with (/ 2 * bpow radix2 (e0 Flt + emin Flt + prec Flt)); [|lra].
      change (/ 2) with (bpow radix2 (-1)). rewrite <- bpow_plus. apply bpow_le. cbv. discriminate. }
    assert (EX : RN Dbl (B2R g * b) = B2R g * b) by (apply RN_exact, SN).
    destruct (fmul_round Dbl (f2d (scl Flt z)) g) as (N1 & N2 & _); [apply f2d_real, FS|exact FG| |].
    { rewrite BD, Rmult_comm. change (round radix2 (FLT_exp (emin Dbl) (prec Dbl)) ZnearestE (B2R g * b)) with (RN Dbl (B2R g * b)). rewrite EX, Rabs_pos_eq by lra.
      apply Rle_lt_trans with (2 * bpow radix2 128); [lra|]. change 2 with (bpow radix2 1). rewrite <- bpow_plus. apply bpow_lt. reflexivity. }
    rewrite BD, (Rmult_comm b) in N2. change (round radix2 (FLT_exp (emin Dbl) (prec Dbl)) ZnearestE (B2R g * b)) with (RN Dbl (B2R g * b)) in N2. rewrite EX in N2.
    destruct (d2f_real _ N1) as [K1 K2].
    { rewrite N2. apply RN_max. rewrite Rabs_pos_eq by lra. eapply Rle_trans; [|exact HO]. lra. }
    change (d2f (fmul (f2d (scl Flt z)) g)) with n in K1, K2. split; [exact K1|]. rewrite K2, N2. pose proof (RN_any Flt (B2R g * b)) as RA. rewrite (Rabs_pos_eq (B2R g * b)) in RA by lra.
    fold u in RA. assert (u * (B2R g * b) <= u * (107 / 100 * L)) by (apply Rmult_le_compat_l; lra).
    assert (HH : (e' + 107 / 100 * u) * L <= e * L) by (apply Rmult_le_compat_r; lra).
    replace (RN Flt (B2R g * b) - L) with ((RN Flt (B2R g * b) - B2R g * b) + (B2R g * b - L)) by ring.
    eapply Rle_trans; [apply Rabs_triang|]. lra.
Qed.

(** ** Data that are all zero *)
Lemma zeros_lead {t} fold (xs : list (F t)) P W : xs <> [] -> all_finite xs = true -> (forall x, In x xs -> toZ x = 0%Z) ->
  holds t fold [] xs P W -> holds t fold [] [fzero] P W.
Proof.
  intros NE FX HZ. unfold holds. rewrite FX. cbn [all_finite forallb andb is_finite fzero app].
  assert (EL : lead xs = lead [@fzero t]).
  { unfold lead. cbn [map fold_right]. change (findex (@fzero t)) with (jmax t). rewrite Z.min_id. clear NE. induction xs as [|x xs IH]; [reflexivity|].
    cbn [all_finite forallb] in FX. apply andb_true_iff in FX. destruct FX as [F1 F2]. cbn [map fold_right]. rewrite IH; auto; [|intros; apply HZ; now right].
    unfold findex. rewrite F1, (HZ x (or_introl eq_refl)). change (bin_of t 0) with (jmax t). apply Z.min_id. }
  assert (ES : forall j, sums xs j = sums [@fzero t] j).
  { intros j. unfold sums, bin_sum. change (map toZ [@fzero t]) with [0%Z]. cbn [map fold_right].
    pose proof (slice_zero t j) as S0.
    clear NE FX EL. induction xs as [|x xs IH]; cbn [map fold_right]; [lia|]. rewrite IH by (intros; apply HZ; now right). rewrite (HZ x (or_introl eq_refl)). lia. }
  destruct xs as [|x xs]; [contradiction|]. cbv zeta. rewrite EL. intros H i Hi. rewrite <- ES. apply H, Hi.
Qed.

Lemma norm_nonneg {t} (xs : list (F t)) : 0 <= norm xs. Proof. apply sqrt_pos. Qed.
Lemma nrm_eps_pos t fold N : (0 <= N)%Z -> 0 < nrm_eps t fold N.
Proof.
  intros H. unfold nrm_eps. pose proof (bpow_gt_0 radix2 (- prec t)). apply IZR_le in H. pose proof (bpow_ge_0 radix2 (- width t * (fold - 1))).
  assert (0 <= IZR N * bpow radix2 (- width t * (fold - 1))) by (apply Rmult_le_pos; lra). destruct t; lra.
Qed.
Lemma root_zero t z (r : F t) : (zmin t <= z <= zmax t)%Z -> is_finite r = true -> B2R r = 0 ->
  is_finite (scaled_root (scl t z) r) = true /\ B2R (scaled_root (scl t z) r) = 0.
Proof.
  intros Hz Fr E. pose proof (scale_exp_range t z Hz) as [ER _]. destruct (mkf_pow2 t (width t * z) ltac:(pose proof (prec_pos t); lia)) as [FS ES].
  assert (NZ : B2R (scl t z) <> 0) by (rewrite ES; apply Rgt_not_eq, bpow_gt_0).
  assert (RZ : exists s, r = B754_zero s).
  { destruct r as [s|s| |s mm e H]; try discriminate; [now exists s|]. exfalso. cbn in E. destruct s.
    - pose proof (F2R_lt_0 radix2 {| Fnum := Z.neg mm; Fexp := e |} ltac:(reflexivity)). cbn in E. lra.
    - pose proof (F2R_gt_0 radix2 {| Fnum := Z.pos mm; Fexp := e |} ltac:(reflexivity)). cbn in E. lra. }
  destruct RZ as [s ->]. set (p := scl t z) in *. clearbody p. destruct p as [sp|sp| |sp mp ep Hp]; try discriminate; [cbn in NZ; lra|].
  destruct t; cbn [scaled_root].
  - split; reflexivity.
  - destruct (f2d_real (B754_finite sp mp ep Hp : F Flt) eq_refl) as [F1 E1]. set (d := f2d (B754_finite sp mp ep Hp : F Flt)) in *. clearbody d.
    rewrite <- E1 in NZ. destruct d as [sd|sd| |sd md ed Hd]; try discriminate; [cbn in NZ; lra|]. split; reflexivity.
Qed.
(** reproBLAS_rdnrm2 (rsnrm2): relative accuracy whatever the magnitudes of the data, without spurious overflow or
    underflow; N 2^(-W (fold-1)) is at most 1/8. *)
Theorem C56_nrm2 t tu fold N X incX tmp (m : mem t) :
  (2 <= fold <= ssq_fold t - 1)%Z -> tuned t tu -> (0 <= N <= CAPACITY t)%Z -> clear_of X incX N tmp (dbnum fold) ->
  let xs := read m X incX N in
  all_finite xs = true -> IZR N * bpow radix2 (- width t * (fold - 1)) <= / 8 ->
  let L := norm xs in let e := nrm_eps t fold N in
  (1 + e) * L <= bpow radix2 (emax t) - bpow radix2 (emax t - prec t) ->
  let r := rdnrm2 tu fold N X incX tmp m in
  is_finite r = true /\ Rabs (B2R r - L) <= e * L + bpow radix2 (emin t - 1).
Proof.
  intros Hf HT HN CX xs FX Hh L e HO r. assert (Hf' : (2 <= fold <= ssq_fold t)%Z) by lia.
  pose proof (proj2 (proj2 (ssq_fold_ok t fold Hf'))) as HM. pose proof HN as HN'. rewrite CAPACITY_eq in HN'.
  assert (LN : Z.of_nat (length xs) = N) by (apply read_length; lia).
  pose proof (norm_nonneg xs) as L0. fold L in L0. pose proof (nrm_eps_pos t fold N ltac:(lia)) as E0. fold e in E0.
  pose proof (bpow_gt_0 radix2 (emin t - 1)) as G.
  destruct (list_eq_dec Z.eq_dec (map toZ xs) []) as [EN|NE].
  { apply map_eq_nil in EN. assert (N0 : N = 0%Z) by (rewrite <- LN, EN; reflexivity).
    unfold r. rewrite N0, C42_rdnrm2_empty by auto. split; [reflexivity|]. unfold L. rewrite EN. unfold norm, total, reals. cbn. rewrite sqrt_0, Rminus_0_r, Rabs_R0. nra. }
  assert (NE' : xs <> []) by (intros E; apply NE; now rewrite E). clear NE.
  destruct (ssq_fresh fold Hf' tu N X incX tmp m HT HN' CX) as [S _]. fold xs in S. unfold r, rdnrm2.
  destruct (dbdssq tu fold N X incX fzero tmp (dbsetzero fold tmp m)) as [sc m1]. unfold sstate in S. rewrite FX in S. destruct S as [GS S]. cbn [fst snd] in *.
  clearbody xs. apply (scale_of_good sc xs FX) in GS. unfold acc_at in S. rewrite (squares_sq sc xs FX GS) in S.
  assert (GS' : exists M, is_max M xs /\ sc = dscale M) by (unfold good_scale in GS; destruct xs; [contradiction|exact GS]). destruct GS' as (M & MM & ES). subst sc.
  rewrite dscale_eq in *. set (z := scale_z M) in *. pose proof (scale_z_range t M) as ZR. fold z in ZR.
  assert (IS : forall x, In x xs -> in_scale z x) by (intros x I; eapply max_in_scale; eauto).
  destruct (Z.eq_dec (toZ M) 0) as [MZ|MZ].
  - (* all data are zero *)
    assert (XZ : forall x, In x xs -> toZ x = 0%Z) by (intros x I; destruct (max_mags M xs x MM FX I); lia).
    assert (L1 : L = 0).
    { unfold L, norm, reals. rewrite map_map. replace (total _) with 0; [apply sqrt_0|]. clear - XZ. unfold total. induction xs as [|x xs IH]; cbn [map fold_right]; [reflexivity|].
      rewrite <- IH by (intros; apply XZ; now right). rewrite toZ_B2R, (XZ x (or_introl eq_refl)). ring. }
    assert (QZ : forall q, In q (map (sq (scl t z)) xs) -> toZ q = 0%Z).
    { intros q Hq. apply in_map_iff in Hq. destruct Hq as (x & <- & I). destruct (sq_val z x (IS x I)) as (_ & _ & E & _). unfold ysc in E. rewrite toZ_B2R, (toZ_B2R _ x), (XZ x I) in E.
      rewrite !Rmult_0_l, round_0, Rmult_0_l, round_0 in E by apply valid_rnd_N. apply (IZR_bpow_inj t). rewrite E. ring. }
    assert (FQ : all_finite (map (sq (scl t z)) xs) = true).
    { unfold all_finite. apply forallb_forall. intros q Hq. apply in_map_iff in Hq. destruct Hq as (x & <- & I). apply sq_fin, IS, I. }
    apply zeros_lead in S; [|intros E; apply map_eq_nil in E; contradiction|exact FQ|exact QZ].
    destruct (round_trip fold (@fzero t) _ _ eq_refl HM ltac:(apply Z.divide_0_r) S) as [F E].
    rewrite conv_words_ddb. destruct (root_zero t z _ ZR F E) as [R1 R2]. split; [exact R1|]. rewrite R2, L1, Rminus_0_r, Rabs_R0. lra.
  - destruct (sumsq_conv fold xs M tmp m Hf FX) as (VV & RF & RE); auto; [lia|rewrite LN; exact Hh|]. fold z in VV, RF, RE. rewrite LN in RE. fold (eta t fold N) in Hh.
    set (h := eta t fold N) in *. set (V := sumsq z xs) in *.
    assert (EC : ddbconv fold tmp m1 = ddbconv fold tmp (sum_list fold tmp (map (sq (scl t z)) xs) m)).
    { eapply (conv_acc fold HM [] _ [] _ _ _ _ _ (perm_nil _) (Permutation_refl _) S). apply (sum_list_holds fold HM). rewrite map_length. lia. }
    rewrite EC. set (r0 := ddbconv fold tmp (sum_list fold tmp (map (sq (scl t z)) xs) m)) in *.
    assert (EL : L = sqrt V * bpow radix2 (width t * z)) by apply norm_scaled.
    assert (H0 : 0 <= h) by (apply Rmult_le_pos; [apply IZR_le; lia|apply bpow_ge_0]).
    assert (EE : match t with Dbl => 4 | Flt => 9 / 4 end * u_ t + 53 / 100 * (1012 / 1000 * h) <= e) by (unfold e, nrm_eps; fold (eta t fold N); fold h; lra).
    assert (EEL : (match t with Dbl => 4 | Flt => 9 / 4 end * u_ t + 53 / 100 * (1012 / 1000 * h)) * L <= e * L) by (apply Rmult_le_compat_r; lra).
    destruct (root_error t z r0 V (1012 / 1000 * h) L ZR VV RF) as [R1 R2]; [lra|exact RE|exact EL|lra|].
    split; [exact R1|]. lra.
Qed.
Print Assumptions C56_nrm2.
(** reproBLAS_dnrm2, snrm2 (default fold). *)
Theorem C56_dnrm2 tu N X incX tmp (m : mem Dbl) :
  tuned Dbl tu -> (0 <= N <= 2 ^ 26)%Z -> clear_of X incX N tmp 6 ->
  let xs := read m X incX N in
  all_finite xs = true ->
  let L := norm xs in let e := 43 / 10 * bpow radix2 (-53) in
  (1 + e) * L <= bpow radix2 1024 - bpow radix2 971 ->
  let r := dnrm2 tu N X incX tmp m in
  is_finite r = true /\ Rabs (B2R r - L) <= e * L + bpow radix2 (-1075).
Proof.
  intros HT HN CX xs FX L e HO r. pose proof (norm_nonneg xs) as L0. fold L in L0.
  assert (HC : (2 ^ 26 <= CAPACITY Dbl)%Z) by (vm_compute; discriminate).
  assert (NB : IZR N <= bpow radix2 26) by (rewrite bpow_IZR by lia; apply IZR_le; lia). assert (N0 : 0 <= IZR N) by (apply IZR_le; lia).
  assert (HB : IZR N * bpow radix2 (- width Dbl * (3 - 1)) <= bpow radix2 (-54)).
  { change (-54)%Z with (26 + - width Dbl * (3 - 1))%Z. rewrite bpow_plus. apply Rmult_le_compat_r; [apply bpow_ge_0|exact NB]. }
  assert (EH : bpow radix2 (-53) = 2 * bpow radix2 (-54)) by (change (-53)%Z with (1 + -54)%Z; rewrite bpow_plus; reflexivity).
  pose proof (bpow_gt_0 radix2 (-54)) as G.
  assert (EE : nrm_eps Dbl 3 N <= e) by (unfold nrm_eps, e; change (- prec Dbl)%Z with (-53)%Z; lra).
  pose proof (Rmult_le_compat_r L _ _ L0 EE) as EL.
  assert (Hf : (2 <= 3 <= ssq_fold Dbl - 1)%Z) by (cbn [ssq_fold]; lia). assert (HN' : (0 <= N <= CAPACITY Dbl)%Z) by lia.
  destruct (C56_nrm2 Dbl tu 3 N X incX tmp m Hf HT HN' CX FX) as [R1 R2].
  - eapply Rle_trans; [exact HB|]. cbn. lra.
  - fold xs L. change (emax Dbl) with 1024%Z. change (1024 - prec Dbl)%Z with 971%Z. lra.
  - split; [exact R1|]. fold xs L in R2. change (emin Dbl - 1)%Z with (-1075)%Z in R2. change (dnrm2 tu N X incX tmp m) with r in R2. unfold r. change (dnrm2 tu N X incX tmp m) with (rdnrm2 tu 3 N X incX tmp m). lra.
Qed.
Print Assumptions C56_dnrm2.
Theorem C56_snrm2 tu N X incX tmp (m : mem Flt) :
  tuned Flt tu -> (0 <= N <= 2 ^ 23)%Z -> clear_of X incX N tmp 6 ->
  let xs := read m X incX N in
  all_finite xs = true ->
  let L := norm xs in let e := (9 + 55 / 100 * IZR N) * bpow radix2 (-26) in
  (1 + e) * L <= bpow radix2 128 - bpow radix2 104 ->
  let r := dnrm2 tu N X incX tmp m in
  is_finite r = true /\ Rabs (B2R r - L) <= e * L + bpow radix2 (-150).
Proof.
  intros HT HN CX xs FX L e HO r.
  assert (HC : (2 ^ 23 <= CAPACITY Flt)%Z) by (vm_compute; discriminate).
  assert (NB : IZR N <= bpow radix2 23) by (rewrite bpow_IZR by lia; apply IZR_le; lia).
  assert (EE : nrm_eps Flt 3 N = e).
  { unfold nrm_eps, e. change (- prec Flt)%Z with (-24)%Z. change (- width Flt * (3 - 1))%Z with (-26)%Z.
    replace (bpow radix2 (-24)) with (4 * bpow radix2 (-26)) by (change 4 with (bpow radix2 2); rewrite <- bpow_plus; reflexivity). field. }
  assert (HB : IZR N * bpow radix2 (- width Flt * (3 - 1)) <= / 8).
  { change (/ 8) with (bpow radix2 (-3)). change (-3)%Z with (23 + - width Flt * (3 - 1))%Z. rewrite bpow_plus. apply Rmult_le_compat_r; [apply bpow_ge_0|exact NB]. }
  assert (Hf : (2 <= 3 <= ssq_fold Flt - 1)%Z) by (cbn [ssq_fold]; lia). assert (HN' : (0 <= N <= CAPACITY Flt)%Z) by lia.
  destruct (C56_nrm2 Flt tu 3 N X incX tmp m Hf HT HN' CX FX) as [R1 R2].
  - exact HB.
  - fold xs L. rewrite EE. exact HO.
  - split; [exact R1|]. rewrite EE in R2. exact R2.
Qed.
Print Assumptions C56_snrm2.
(** reproBLAS_rdznrm2 (rscnrm2): the norm of all components. *)
Theorem C56_znrm2 t tu fold N X incX Y A T (m : mem t) :
  (2 <= fold <= ssq_fold t - 1)%Z -> tuned t tu -> (0 <= 2 * N <= CAPACITY t)%Z -> nrm_layout fold N X incX Y A T ->
  let xs := components m X incX N in
  all_finite xs = true -> IZR (2 * N) * bpow radix2 (- width t * (fold - 1)) <= / 8 ->
  let L := norm xs in let e := nrm_eps t fold (2 * N) in
  (1 + e) * L <= bpow radix2 (emax t) - bpow radix2 (emax t - prec t) ->
  let r := rdznrm2 tu fold N X incX Y A T m in
  is_finite r = true /\ Rabs (B2R r - L) <= e * L + bpow radix2 (emin t - 1).
Proof.
  intros Hf HT HN LY xs FX Hh L e HO r. pose proof (components_length m X incX N ltac:(lia)) as LC. fold xs in LC.
  set (mm := fun a => nth (Z.to_nat a) xs fzero).
  assert (ER : read mm 0 1 (2 * N) = xs).
  { unfold read, mm. replace (2 * N)%Z with (0 + Z.of_nat (length xs))%Z by lia. apply stored_list. }
  assert (CX : clear_of 0 1 (2 * N) (2 * N) (dbnum fold)) by (intros i Hi; lia).
  unfold r. rewrite (C49_rdznrm2 t tu tu fold N X incX 0 1 Y (2 * N) A T m mm); auto; [|lia|rewrite ER; reflexivity].
  pose proof (C56_nrm2 t tu fold (2 * N) 0 1 (2 * N) mm Hf HT HN CX) as K. rewrite ER in K. apply K; auto.
Qed.
Print Assumptions C56_znrm2.

(** A vector whose squares overflow: 3 * 2^1000, 4 * 2^1000, and a tiny element. *)
Definition nrm_mem : mem Dbl := fun a => if Z.eqb a 0 then mkf 3 1000 else if Z.eqb a 1 then mkf (-4) 1000 else if Z.eqb a 2 then mkf 1 (-1074) else fzero.
Example C56_case : let xs := read nrm_mem 0 1 3 in
  clear_of 0 1 3 100 6 /\ all_finite xs = true /\ f_isinf (fmul (nrm_mem 0%Z) (nrm_mem 0%Z)) = true /\
  0 < norm xs /\ (1 + 43 / 10 * bpow radix2 (-53)) * norm xs <= bpow radix2 1024 - bpow radix2 971 /\
  feq (dnrm2 sample_tuning 3 0 1 100 nrm_mem) (mkf 5 1000) = true.
Proof.
  cbv zeta. split; [intros i Hi; lia|]. split; [vm_compute; reflexivity|]. split; [vm_compute; reflexivity|].
  assert (EB : forall a k, toZ (nrm_mem a) = (k * 2 ^ 2074)%Z -> B2R (nrm_mem a) = IZR k * bpow radix2 1000).
  { intros a k E. rewrite toZ_B2R, E, mult_IZR, <- bpow_IZR, Rmult_assoc, <- bpow_plus by lia. reflexivity. }
  assert (E3 : B2R (nrm_mem 0%Z) = 3 * bpow radix2 1000) by (apply EB; vm_compute; reflexivity).
  assert (E4 : B2R (nrm_mem 1%Z) = -4 * bpow radix2 1000) by (apply EB; vm_compute; reflexivity).
  assert (E1 : B2R (nrm_mem 2%Z) = bpow radix2 (-1074)) by (apply (WordProofs.mkf_pow2 Dbl (-1074)); cbv; split; congruence).
  set (b := bpow radix2 1000) in *. set (d := bpow radix2 (-1074)) in *. assert (B0 : 0 < b) by apply bpow_gt_0. assert (D0 : 0 < d) by apply bpow_gt_0.
  assert (DB : d <= b) by (apply bpow_le; lia).
  assert (EN : norm (read nrm_mem 0 1 3) = sqrt (25 * (b * b) + d * d)).
  { unfold norm. f_equal. unfold reals. change (read nrm_mem 0 1 3) with [nrm_mem 0%Z; nrm_mem 1%Z; nrm_mem 2%Z]. cbn [map]. rewrite E3, E4, E1. unfold total. cbn [fold_right]. ring. }
  rewrite EN. split; [apply sqrt_lt_R0; nra|]. split.
  - assert (sqrt (25 * (b * b) + d * d) <= 6 * b).
    { rewrite <- (sqrt_square (6 * b)) by lra. apply sqrt_le_1_alt. nra. }
    assert (E5 : bpow radix2 1024 = 16777216 * b) by (change 1024%Z with (24 + 1000)%Z; rewrite bpow_plus; reflexivity).
    assert (bpow radix2 971 <= b) by (apply bpow_le; lia). assert (0 < bpow radix2 (-53) <= 1) by (split; [apply bpow_gt_0|change 1 with (bpow radix2 0); apply bpow_le; lia]).
    rewrite E5. pose proof (sqrt_pos (25 * (b * b) + d * d)). nra.
  - vm_compute. reflexivity.
Qed.
