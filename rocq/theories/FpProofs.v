(** * Integer-valued facts about the floating point model *)
From Coq Require Import ZArith Bool Lia Reals Lra.
From Flocq Require Import Core BinarySingleNaN.
From Verif Require Import Fp Spec.
Open Scope Z_scope.

Lemma prec_pos t : 3 < prec t. Proof. destruct t; reflexivity. Qed.
Lemma prec_emax t : prec t + 3 < emax t. Proof. destruct t; reflexivity. Qed.
Lemma emin_neg t : emin t < 0. Proof. destruct t; reflexivity. Qed.
Lemma fexp_FLT t : SpecFloat.fexp (prec t) (emax t) = FLT_exp (emin t) (prec t).
Proof. reflexivity. Qed.

Lemma pow2_pos n : 0 <= n -> 0 < 2 ^ n.
Proof. intros; apply Z.pow_pos_nonneg; lia. Qed.
Lemma bpow_IZR n : 0 <= n -> bpow radix2 n = IZR (2 ^ n).
Proof. intros; rewrite <- IZR_Zpower by easy; reflexivity. Qed.

Lemma e_bounds t s m e (H : SpecFloat.bounded (prec t) (emax t) m e = true) :
  (B754_finite s m e H : F t) = B754_finite s m e H ->
  emin t <= e /\ Z.pos m < 2 ^ prec t /\ (2 ^ mw t <= Z.pos m \/ e = emin t)
  /\ e <= emax t - prec t.
Proof.
  intros _.
  unfold SpecFloat.bounded in H. apply andb_prop in H. destruct H as [H1 H2].
  apply Zle_bool_imp_le in H2.
  unfold SpecFloat.canonical_mantissa in H1. apply Zeq_bool_eq in H1.
  unfold SpecFloat.fexp, SpecFloat.emin in H1.
  rewrite Digits.Zpos_digits2_pos in H1.
  pose proof (prec_pos t).
  pose proof (Digits.Zdigits_correct radix2 (Z.pos m)) as D.
  change (Z.pow_pos 2) with (fun p => Z.pow 2 (Z.pos p)) in *.
  assert (DP : 0 < Digits.Zdigits radix2 (Z.pos m)) by (apply Digits.Zdigits_gt_0; lia).
  change (radix_val radix2) with 2 in D.
  rewrite (Z.abs_eq (Z.pos m)) in D by lia.
  set (d := Digits.Zdigits radix2 (Z.pos m)) in *.
  unfold emin, mw.
  assert (Hd : d <= prec t) by lia.
  split; [lia|]. split.
  - eapply Z.lt_le_trans; [apply D|]. apply Z.pow_le_mono_r; lia.
  - split; [|lia].
    destruct (Z.eq_dec e (3 - emax t - prec t)); [now right|left].
    replace (prec t - 1) with (d - 1) by lia. apply D.
Qed.

Lemma toZ_B2R t (x : F t) : B2R x = (IZR (toZ x) * bpow radix2 (emin t))%R.
Proof.
  destruct x as [s|s| |s m e H]; simpl; try ring.
  destruct (e_bounds t s m e H eq_refl) as [He _].
  unfold F2R; simpl. rewrite mult_IZR, <- bpow_IZR by lia.
  rewrite Rmult_assoc, <- bpow_plus. f_equal. f_equal. lia.
Qed.

(** Integers (in units of 2^emin) that are exactly representable. *)
Definition repr (t : ty) (n : Z) : Prop :=
  exists mm e, n = mm * 2 ^ e /\ 0 <= e /\ Z.abs mm < 2 ^ prec t /\ Z.abs n < 2 ^ (emax t - emin t).

Lemma repr_opp t n : repr t n -> repr t (- n).
Proof.
  intros (mm & e & H1 & H2 & H3 & H4). exists (- mm), e.
  rewrite !Z.abs_opp. repeat split; auto. lia.
Qed.

Lemma repr_toZ t (x : F t) : repr t (toZ x).
Proof.
  pose proof (prec_pos t). pose proof (prec_emax t). pose proof (emin_neg t).
  destruct x as [s|s| |s m e H']; simpl;
    try (exists 0, 0; repeat split; simpl; try lia; apply pow2_pos; lia).
  destruct (e_bounds t s m e H' eq_refl) as (He & Hm & _ & Hu).
  exists (cond_Zopp s (Z.pos m)), (e - emin t).
  assert (A : Z.abs (cond_Zopp s (Z.pos m)) = Z.pos m) by (destruct s; reflexivity).
  repeat split; auto; try lia.
  rewrite Z.abs_mul, A, (Z.abs_eq (2 ^ _)) by (apply Z.lt_le_incl, pow2_pos; lia).
  apply Z.lt_le_trans with (2 ^ prec t * 2 ^ (e - emin t)).
  - apply Z.mul_lt_mono_pos_r; auto. apply pow2_pos; lia.
  - rewrite <- Z.pow_add_r by lia. apply Z.pow_le_mono_r; lia.
Qed.

Lemma repr_format t n : repr t n ->
  generic_format radix2 (SpecFloat.fexp (prec t) (emax t)) (IZR n * bpow radix2 (emin t)).
Proof.
  intros (mm & e & H1 & H2 & H3 & _). rewrite fexp_FLT.
  apply generic_format_FLT. exists (Float radix2 mm (e + emin t)).
  - unfold F2R; simpl. rewrite H1, mult_IZR, bpow_plus, (bpow_IZR e) by easy. ring.
  - simpl. exact H3.
  - simpl. lia.
Qed.

Lemma repr_small t n : repr t n -> (Rabs (IZR n * bpow radix2 (emin t)) < bpow radix2 (emax t))%R.
Proof.
  intros (mm & e & _ & _ & _ & H). pose proof (prec_emax t). pose proof (emin_neg t). pose proof (prec_pos t).
  rewrite Rabs_mult, <- abs_IZR, (Rabs_pos_eq (bpow _ _)) by apply bpow_ge_0.
  replace (emax t) with ((emax t - emin t) + emin t) by lia.
  rewrite bpow_plus. apply Rmult_lt_compat_r. apply bpow_gt_0.
  rewrite bpow_IZR by lia. apply IZR_lt. exact H.
Qed.

Lemma IZR_bpow_inj t a b :
  (IZR a * bpow radix2 (emin t) = IZR b * bpow radix2 (emin t))%R -> a = b.
Proof.
  intros H. apply Rmult_eq_reg_r in H. now apply eq_IZR.
  apply Rgt_not_eq, bpow_gt_0.
Qed.

Definition sgn_of {t} (x : F t) (n : Z) (sz : bool) : Prop :=
  Bsign x = match n ?= 0 with Eq => sz | Lt => true | Gt => false end.

Lemma Rcompare_IZR_bpow t n :
  Rcompare (IZR n * bpow radix2 (emin t)) 0 = (n ?= 0).
Proof.
  pose proof (bpow_gt_0 radix2 (emin t)) as B.
  destruct (Z.compare_spec n 0).
  - subst. rewrite Rmult_0_l. apply Rcompare_Eq. reflexivity.
  - apply Rcompare_Lt. apply IZR_lt in H. nra.
  - apply Rcompare_Gt. apply IZR_lt in H. nra.
Qed.

Lemma fadd_exact t (x y : F t) :
  is_finite x = true -> is_finite y = true -> repr t (toZ x + toZ y) ->
  is_finite (fadd x y) = true /\ toZ (fadd x y) = toZ x + toZ y
  /\ sgn_of (fadd x y) (toZ x + toZ y) (Bsign x && Bsign y).
Proof.
  intros Fx Fy R. unfold fadd.
  pose proof (Bplus_correct _ _ (prec_gt_0 t) (prec_lt_emax t) mode_NE x y Fx Fy) as C.
  rewrite (toZ_B2R t x), (toZ_B2R t y), <- Rmult_plus_distr_r, <- plus_IZR in C.
  rewrite round_generic in C; [|apply valid_rnd_round_mode|now apply repr_format].
  rewrite Rlt_bool_true in C by now apply repr_small.
  destruct C as (C1 & C2 & C3). repeat split; auto.
  - rewrite toZ_B2R in C1. now apply IZR_bpow_inj in C1.
  - unfold sgn_of. rewrite C3, Rcompare_IZR_bpow. reflexivity.
Qed.

Lemma fsub_exact t (x y : F t) :
  is_finite x = true -> is_finite y = true -> repr t (toZ x - toZ y) ->
  is_finite (fsub x y) = true /\ toZ (fsub x y) = toZ x - toZ y
  /\ sgn_of (fsub x y) (toZ x - toZ y) (Bsign x && negb (Bsign y)).
Proof.
  intros Fx Fy R. unfold fsub.
  pose proof (Bminus_correct _ _ (prec_gt_0 t) (prec_lt_emax t) mode_NE x y Fx Fy) as C.
  rewrite (toZ_B2R t x), (toZ_B2R t y), <- Rmult_minus_distr_r, <- minus_IZR in C.
  rewrite round_generic in C; [|apply valid_rnd_round_mode|now apply repr_format].
  rewrite Rlt_bool_true in C by now apply repr_small.
  destruct C as (C1 & C2 & C3). repeat split; auto.
  - rewrite toZ_B2R in C1. now apply IZR_bpow_inj in C1.
  - unfold sgn_of. rewrite C3, Rcompare_IZR_bpow. reflexivity.
Qed.

Lemma normalize_exact t m e n sz :
  repr t n -> (IZR m * bpow radix2 e = IZR n * bpow radix2 (emin t))%R ->
  let z := binary_normalize (prec t) (emax t) (prec_gt_0 t) (prec_lt_emax t) mode_NE m e sz in
  is_finite z = true /\ toZ (z : F t) = n /\ sgn_of (z : F t) n sz.
Proof.
  intros R E z.
  pose proof (binary_normalize_correct _ _ (prec_gt_0 t) (prec_lt_emax t) mode_NE m e sz) as C.
  cbv zeta in C. fold z in C.
  unfold F2R in C; cbn [Fnum Fexp] in C. rewrite E in C.
  rewrite round_generic in C; [|apply valid_rnd_round_mode|now apply repr_format].
  rewrite Rlt_bool_true in C by now apply repr_small.
  destruct C as (C1 & C2 & C3). repeat split; auto.
  - rewrite toZ_B2R in C1. now apply IZR_bpow_inj in C1.
  - unfold sgn_of. rewrite C3, Rcompare_IZR_bpow. reflexivity.
Qed.

Lemma mkf_exact t m e :
  emin t <= e -> repr t (m * 2 ^ (e - emin t)) ->
  is_finite (mkf m e : F t) = true /\ toZ (mkf m e : F t) = m * 2 ^ (e - emin t)
  /\ sgn_of (mkf m e : F t) m false.
Proof.
  intros He R.
  destruct (normalize_exact t m e _ false R) as (A & B & C).
  - rewrite mult_IZR, <- bpow_IZR, Rmult_assoc, <- bpow_plus by lia. f_equal. f_equal. lia.
  - repeat split; auto. unfold sgn_of in *. unfold mkf. rewrite C.
    pose proof (pow2_pos (e - emin t) ltac:(lia)).
    destruct (Z.compare_spec m 0); destruct (Z.compare_spec (m * 2 ^ (e - emin t)) 0); auto; nia.
Qed.

Lemma float_ext t (x y : F t) :
  is_finite x = true -> is_finite y = true -> toZ x = toZ y ->
  (toZ x <> 0 \/ Bsign x = Bsign y) -> x = y.
Proof.
  intros Fx Fy E S.
  apply B2R_Bsign_inj; auto.
  - now rewrite !toZ_B2R, E.
  - destruct S as [S|S]; auto.
    destruct x as [s|s| |s m e H], y as [s'|s'| |s' m' e' H']; cbn [toZ is_finite Bsign] in *; try easy; try lia.
    destruct (e_bounds t s m e H eq_refl) as [He _], (e_bounds t s' m' e' H' eq_refl) as [He' _].
    pose proof (pow2_pos (e - emin t) ltac:(lia)). pose proof (pow2_pos (e' - emin t) ltac:(lia)).
    clear - E H0 H1.
    destruct s, s'; auto; cbn [cond_Zopp] in E; exfalso.
    + assert (0 < Z.pos m * 2 ^ (e - emin t)) by (apply Z.mul_pos_pos; lia).
      assert (0 < Z.pos m' * 2 ^ (e' - emin t)) by (apply Z.mul_pos_pos; lia). lia.
    + assert (0 < Z.pos m * 2 ^ (e - emin t)) by (apply Z.mul_pos_pos; lia).
      assert (0 < Z.pos m' * 2 ^ (e' - emin t)) by (apply Z.mul_pos_pos; lia). lia.
Qed.

(** Rounded addition landing in the binade [2^(p-1), 2^p) * 2^E. *)
Lemma fadd_round t (x y : F t) n E :
  is_finite x = true -> is_finite y = true ->
  0 <= E -> 2 ^ (prec t - 1) < n < 2 ^ prec t -> E + prec t <= emax t - emin t ->
  Z.abs (2 * (toZ x + toZ y) - 2 * n * 2 ^ E) < 2 ^ E ->
  is_finite (fadd x y) = true /\ toZ (fadd x y) = n * 2 ^ E.
Proof.
  intros Fx Fy HE Hn HEp HR. pose proof (prec_pos t) as PP. pose proof (emin_neg t).
  unfold fadd.
  pose proof (Bplus_correct _ _ (prec_gt_0 t) (prec_lt_emax t) mode_NE x y Fx Fy) as C.
  rewrite (toZ_B2R t x), (toZ_B2R t y), <- Rmult_plus_distr_r, <- plus_IZR in C.
  set (S := toZ x + toZ y) in *.
  pose proof (pow2_pos E HE) as PE.
  assert (HS : 2 ^ (prec t - 1) * 2 ^ E < S < 2 ^ prec t * 2 ^ E).
  { assert ((2 ^ (prec t - 1) + 1) * 2 ^ E <= n * 2 ^ E) by (apply Z.mul_le_mono_nonneg_r; lia).
    assert (n * 2 ^ E <= (2 ^ prec t - 1) * 2 ^ E) by (apply Z.mul_le_mono_nonneg_r; lia).
    lia. }
  assert (RN : round radix2 (SpecFloat.fexp (prec t) (emax t)) (round_mode mode_NE)
            (IZR S * bpow radix2 (emin t)) = (IZR (n * 2 ^ E) * bpow radix2 (emin t))%R).
  { unfold round. simpl round_mode.
    assert (CE : cexp radix2 (SpecFloat.fexp (prec t) (emax t)) (IZR S * bpow radix2 (emin t)) = E + emin t).
    { unfold cexp.
      rewrite (mag_unique_pos radix2 _ (prec t + E + emin t)).
      - unfold SpecFloat.fexp, SpecFloat.emin. unfold emin. lia.
      - replace (prec t + E + emin t - 1) with ((prec t - 1 + E) + emin t) by lia.
        rewrite !(bpow_plus _ (_ + _) (emin t)).
        rewrite (bpow_IZR (prec t - 1 + E)), (bpow_IZR (prec t + E)) by lia.
        rewrite !Z.pow_add_r by lia.
        pose proof (bpow_gt_0 radix2 (emin t)).
        split.
        + apply Rmult_le_compat_r; [lra|]. apply IZR_le. lia.
        + apply Rmult_lt_compat_r; [lra|]. apply IZR_lt. lia. }
    unfold scaled_mantissa. rewrite CE.
    rewrite Rmult_assoc, <- bpow_plus. replace (emin t + - (E + emin t)) with (- E) by lia.
    rewrite (Znearest_imp _ _ n).
    - unfold F2R; simpl. rewrite bpow_plus, mult_IZR, (bpow_IZR E) by lia. ring.
    - rewrite bpow_opp, (bpow_IZR E) by lia.
      apply IZR_lt in HR. rewrite abs_IZR, minus_IZR, !mult_IZR in HR.
      assert (0 < IZR (2 ^ E))%R by now apply (IZR_lt 0).
      replace (IZR S * / IZR (2 ^ E) - IZR n)%R with ((2 * IZR S - 2 * IZR n * IZR (2 ^ E)) * (/ 2 * / IZR (2 ^ E)))%R
        by (field; lra).
      rewrite Rabs_mult. rewrite (Rabs_pos_eq (/ 2 * / _)).
      2:{ apply Rmult_le_pos; [lra|]. left. now apply Rinv_0_lt_compat. }
      apply Rlt_le_trans with (IZR (2 ^ E) * (/ 2 * / IZR (2 ^ E)))%R.
      + apply Rmult_lt_compat_r; auto. apply Rmult_lt_0_compat; [lra|]. now apply Rinv_0_lt_compat.
      + right. field. lra. }
  rewrite RN in C.
  assert (R : repr t (n * 2 ^ E)).
  { exists n, E. repeat split; auto; try lia.
    rewrite Z.abs_eq by nia. apply Z.lt_le_trans with (2 ^ prec t * 2 ^ E); [nia|].
    rewrite <- Z.pow_add_r by lia. apply Z.pow_le_mono_r; lia. }
  rewrite Rlt_bool_true in C by now apply repr_small.
  destruct C as (C1 & C2 & C3). repeat split; auto.
  rewrite toZ_B2R in C1. now apply IZR_bpow_inj in C1.
Qed.
