(** * C66: what the print routines show *)
From Coq Require Import ZArith Bool List Lia Reals Lra.
From Flocq Require Import Core Relative BinarySingleNaN.
From Verif Require Import Fp Mem Binned Spec Client Print FpProofs BitProofs SpecProofs WordProofs AccProofs MemProofs SumProofs ClientProofs ScaleProofs SumError ConvTerms ConvFloat ConvProofs ConvSpec BoundProofs ComplexProofs BlasZSpec PropsSum PropsBound.
Import ListNotations.
Open Scope R_scope.

(** ** Specification

    A line for bin j whose slice sum is v, in units of 2^s: the exponent just above the
    stored word, the part of v in the primary, the part in the carry, and v itself (the
    nearest double), in units of 2^s.  For bins other than bin 0, s is the exponent of
    the unit of the bin; bin 0 is shown as it is stored, scaled down. *)
Definition line_shows (t : ty) (j v : Z) (l : line) : Prop :=
  let s := (stored_exp t j + emin t)%Z in
  l_exp l = Some (s + prec t)%Z /\
  (is_finite (l_sum l) = true /\ B2R (l_sum l) = IZR (v mod quarter t) * bpow radix2 s) /\
  (is_finite (l_car l) = true /\ B2R (l_car l) = IZR (v / quarter t)) /\
  (is_finite (l_total l) = true /\ B2R (l_total l) = RN Dbl (IZR v * bpow radix2 s)).
(** Bins a double accumulator can show: those whose stored words lie in the range of float. *)
Definition shown (t : ty) (j : Z) : Prop := match t with Dbl => (23 <= j <= 29)%Z | Flt => (0 <= j)%Z end.

(** ** Unit in the first place *)
Lemma land_shift a mm n : (0 <= n)%Z -> Z.land a (Z.shiftl mm n) = Z.shiftl (Z.land (Z.shiftr a n) mm) n.
Proof.
  intros Hn. apply Z.bits_inj'. intros i Hi. rewrite Z.land_spec, !Z.shiftl_spec by lia.
  destruct (Z_lt_dec i n) as [L|L].
  - rewrite !(Z.testbit_neg_r _ (i - n)) by lia. apply andb_false_r.
  - rewrite Z.land_spec, Z.shiftr_spec by lia. now replace (i - n + n)%Z with i by lia.
Qed.
Lemma ufp_val t (x : F t) : is_finite x = true -> (2 ^ mw t <= toZ x)%Z ->
  is_finite (ufp_word x) = true /\ toZ (ufp_word x) = (2 ^ Z.log2 (toZ x))%Z.
Proof.
  intros Fx H. destruct (bits_finite t x Fx) as (f & fr & E & H1 & H2 & H3). pose proof (mw_pos t) as MP.
  pose proof (pow2_pos (mw t) ltac:(lia)) as PP.
  pose proof (EXP_val t x Fx) as EV. rewrite Z.abs_eq in EV by lia. destruct (Z.ltb_spec (toZ x) (2 ^ mw t)) as [Q|Q]; [lia|].
  assert (EF : EXP x = f) by (unfold EXP; rewrite E; apply pack_exp; auto; rewrite expmask_ew in *; lia).
  assert (EU : ufp_word x = of_bits (pack t false f 0)).
  { unfold ufp_word. rewrite land_shift by lia. change (Z.land (Z.shiftr (bits x) (mw t)) (expmask t)) with (EXP x). rewrite EF.
    unfold pack. rewrite Z.shiftl_mul_pow2 by lia. f_equal. lia. }
  destruct (of_bits_pack t false f 0 H2 ltac:(lia)) as (A & _ & B). rewrite EU. split; [exact A|]. rewrite B. cbn [cond_Zopp].
  assert (L : (mw t <= Z.log2 (toZ x))%Z) by (apply Z.log2_le_pow2; lia).
  destruct (Z.eqb_spec f 0) as [Z0|Z0]; [lia|]. rewrite Z.add_0_l, <- Z.pow_add_r by lia. f_equal. lia.
Qed.
Lemma int_log2_pow t (x : F t) e : is_finite x = true -> toZ x = (2 ^ e)%Z -> (0 <= e)%Z -> int_log2 x = Some (e + emin t)%Z.
Proof.
  intros Fx E He. pose proof (pow2_pos e He) as PP. destruct x as [s|s| |s mm ee B]; try discriminate.
  - cbn [toZ] in E. lia.
  - destruct s; cbn [toZ cond_Zopp] in E.
    + destruct (e_bounds t true mm ee B eq_refl) as (L & _). pose proof (pow2_pos (ee - emin t) ltac:(lia)). nia.
    + destruct (e_bounds t false mm ee B eq_refl) as (L & _). cbn [int_log2]. f_equal.
      pose proof (log2_mul_pow (Z.pos mm) (ee - emin t) ltac:(lia) ltac:(lia)) as Q. rewrite E, Z.log2_pow2 in Q by lia. lia.
Qed.

(** ** One line *)
Section word.
  Context (t : ty) (j v : Z).
  Local Notation s := (stored_exp t j + emin t)%Z.
  Local Notation p := (pri_word t j v).
  Local Notation w := (car_word t v : F t).
  Hypothesis Hj : (0 <= j)%Z.
  Hypothesis Hv : (Z.abs v <= quarter t * (2 ^ (prec t - 1) - 1))%Z.

  Lemma inbin_v : inbin t (6 * quarter t + v mod quarter t).
  Proof. pose proof (quarter_pos t). pose proof (Z.mod_pos_bound v (quarter t) ltac:(lia)). unfold inbin. lia. Qed.
  Lemma p_val : is_finite p = true /\ B2R p = IZR (6 * quarter t + v mod quarter t) * bpow radix2 s.
  Proof.
    destruct (pri_word_priw t j v Hj) as [F E]. split; [exact F|]. pose proof (stored_exp_ge t j Hj).
    rewrite toZ_B2R, E, mult_IZR, <- bpow_IZR, bpow_plus by lia. ring.
  Qed.
  Lemma c_small : (Z.abs (v / quarter t) <= 2 ^ (prec t - 1) - 1)%Z.
  Proof. apply div_bound; auto. pose proof (prec_pos t). pose proof (pow2_pos (prec t - 1)). lia. Qed.
  Lemma w_val : is_finite w = true /\ B2R w = IZR (v / quarter t).
  Proof.
    pose proof c_small as C. pose proof (prec_pos t). assert (2 ^ (prec t - 1) <= 2 ^ prec t)%Z by (apply Z.pow_le_mono_r; lia).
    destruct (ofZ_carw t (v / quarter t) ltac:(lia)) as [[F E] _]. split; [exact F|].
    unfold car_word in *. rewrite toZ_B2R, E, mult_IZR, <- bpow_IZR by (pose proof (emin_neg t); lia).
    rewrite Rmult_assoc, <- bpow_plus, Z.add_opp_diag_l. cbn. ring.
  Qed.
  Lemma M_val : is_finite (ufp_word p) = true /\ toZ (ufp_word p) = (2 ^ (mw t + stored_exp t j))%Z /\ B2R (ufp_word p) = bpow radix2 (s + prec t - 1).
  Proof.
    destruct (priw_log2 t j _ p Hj (pri_word_priw t j v Hj) inbin_v) as [L P]. destruct (pri_word_priw t j v Hj) as [F E].
    pose proof (mw_pos t) as MP. pose proof (stored_exp_ge t j Hj) as SG.
    destruct (ufp_val t p F) as [A B].
    - apply Z.log2_le_pow2; [exact P|]. lia.
    - rewrite L in B. split; [exact A|]. split; [exact B|]. rewrite toZ_B2R, B, <- bpow_IZR, <- bpow_plus by lia. f_equal. unfold mw. lia.
  Qed.
  Lemma c6_val : is_finite (fsub w (ofZ 6)) = true /\ B2R (fsub w (ofZ 6)) = IZR (v / quarter t - 6).
  Proof.
    pose proof c_small as C. pose proof (prec_pos t) as PP. assert (E2 : (2 ^ prec t = 2 * 2 ^ (prec t - 1))%Z) by (rewrite <- Z.pow_succ_r by lia; f_equal; lia).
    assert (L8 : (8 <= 2 ^ (prec t - 1))%Z) by (change 8%Z with (2 ^ 3)%Z; apply Z.pow_le_mono_r; lia).
    destruct (ofZ_carw t (v / quarter t) ltac:(lia)) as [[F E] _]. destruct (ofZ_carw t 6 ltac:(lia)) as [[F6 E6] _].
    destruct (fsub_exact t w (ofZ 6) F F6) as (R1 & R2 & _).
    - unfold car_word. rewrite E, E6, <- Z.mul_sub_distr_r. pose proof (emin_neg t). apply repr_le; [lia|lia|].
      unfold span, emin. pose proof (prec_emax t). lia.
    - split; [exact R1|]. unfold car_word in *. rewrite toZ_B2R, R2, E, E6, <- Z.mul_sub_distr_r, mult_IZR, <- bpow_IZR by (pose proof (emin_neg t); lia).
      rewrite Rmult_assoc, <- bpow_plus, Z.add_opp_diag_l. cbn. ring.
  Qed.
End word.

(** ** The arithmetic of one line, in double *)
Lemma fsub_real t (x y : F t) v : is_finite x = true -> is_finite y = true -> B2R x - B2R y = v -> fmt t v -> Rabs v < bpow radix2 (emax t) ->
  is_finite (fsub x y) = true /\ B2R (fsub x y) = v.
Proof.
  intros Fx Fy E F H. pose proof (Bminus_correct _ _ (prec_gt_0 t) (prec_lt_emax t) mode_NE x y Fx Fy) as C.
  rewrite fexp_FLT in C. unfold SumError.fmt in F. cbn [round_mode] in C. rewrite E, round_generic in C by (auto; apply valid_rnd_N).
  rewrite Rlt_bool_true in C by exact H. destruct C as (C1 & C2 & _). unfold fsub. auto.
Qed.
Lemma half3 : is_finite (mkf 3 (-1) : F Dbl) = true /\ B2R (mkf 3 (-1) : F Dbl) = 3 / 2.
Proof. split; [reflexivity|]. cbn. unfold F2R. cbn. lra. Qed.
Lemma quarter1 : is_finite (mkf 1 (-2) : F Dbl) = true /\ B2R (mkf 1 (-2) : F Dbl) = / 4.
Proof. split; [reflexivity|]. cbn. unfold F2R. cbn. lra. Qed.
Section line.
  Context (t : ty) (s c r : Z) (p c6 M : F Dbl).
  Local Notation q := (quarter t).
  Hypothesis S0 : (emin Dbl <= s)%Z.
  Hypothesis S1 : (s + prec t <= 200)%Z.
  Hypothesis HC : (Z.abs c <= 2 ^ (prec t - 1) - 1)%Z.
  Hypothesis HR : (0 <= r < q)%Z.
  Hypothesis HP : is_finite p = true /\ B2R p = IZR (6 * q + r) * bpow radix2 s.
  Hypothesis H6 : is_finite c6 = true /\ B2R c6 = IZR (c - 6).
  Hypothesis HM : is_finite M = true /\ B2R M = bpow radix2 (s + prec t - 1).

  Lemma M_split : B2R M = 4 * IZR q * bpow radix2 s.
  Proof.
    destruct HM as [_ ->]. replace (s + prec t - 1)%Z with (2 + (prec t - 3) + s)%Z by lia. rewrite !bpow_plus. unfold quarter.
    rewrite <- bpow_IZR by (pose proof (prec_pos t); lia). change (bpow radix2 2) with 4. ring.
  Qed.
  Lemma q_small : (8 * q <= 2 ^ prec Dbl)%Z.
  Proof. unfold quarter. change 8%Z with (2 ^ 3)%Z. rewrite <- Z.pow_add_r by (pose proof (prec_pos t); lia). apply Z.pow_le_mono_r; [lia|]. destruct t; cbn; lia. Qed.
  Lemma q_exp : (q <= 2 ^ 50)%Z. Proof. unfold quarter. apply Z.pow_le_mono_r; destruct t; cbn; lia. Qed.
  Lemma sum_val : is_finite (fsub p (fmul (mkf 3 (-1)) M)) = true /\ B2R (fsub p (fmul (mkf 3 (-1)) M)) = IZR r * bpow radix2 s.
  Proof.
    destruct half3 as [F3 E3]. pose proof M_split as MS. destruct HM as [FM _]. destruct HP as [FP EP]. pose proof q_small as QS. pose proof q_exp as QE.
    assert (PT : (3 < prec t)%Z) by apply prec_pos.
    destruct (fmul_real Dbl (mkf 3 (-1)) M (IZR (6 * q) * bpow radix2 s) F3 FM) as [FA EA].
    - rewrite E3, MS, mult_IZR. field.
    - apply fmt_int; [exact S0|]. lia.
    - apply (size_int _ 53); [lia| |change (emax Dbl) with 1024%Z; lia]. lia.
    - apply fsub_real; auto.
      + rewrite EP, EA, <- Rmult_minus_distr_r, <- minus_IZR. do 2 f_equal. lia.
      + apply fmt_int; [exact S0|]. lia.
      + apply (size_int _ 53); [lia| |change (emax Dbl) with 1024%Z; lia]. lia.
  Qed.
  Lemma total_val : is_finite (fadd (fmul (fmul c6 (mkf 1 (-2))) M) p) = true /\
    B2R (fadd (fmul (fmul c6 (mkf 1 (-2))) M) p) = RN Dbl (IZR (c * q + r) * bpow radix2 s).
  Proof.
    destruct quarter1 as [F4 E4]. pose proof M_split as MS. destruct HM as [FM _]. destruct HP as [FP EP]. destruct H6 as [F6 E6]. pose proof q_small as QS. pose proof q_exp as QE.
    assert (PT : (3 < prec t)%Z) by apply prec_pos.
    assert (C6 : (Z.abs (c - 6) <= 2 ^ 53)%Z). { assert (2 ^ (prec t - 1) <= 2 ^ 52)%Z by (apply Z.pow_le_mono_r; destruct t; cbn; lia). lia. }
    destruct (fmul_real Dbl c6 (mkf 1 (-2)) (IZR (c - 6) * bpow radix2 (-2)) F6 F4) as [FA EA].
    - rewrite E6, E4. reflexivity.
    - apply fmt_int; [cbv; discriminate|]. exact C6.
    - apply (size_int _ 53); [lia|exact C6|reflexivity].
    - destruct (fmul_real Dbl (fmul c6 (mkf 1 (-2))) M (IZR (c - 6) * bpow radix2 (prec t - 3 + s)) FA FM) as [FB EB].
      + rewrite EA, MS, bpow_plus. unfold quarter. rewrite <- bpow_IZR by lia. change (bpow radix2 (-2)) with (/ 4). field.
      + apply fmt_int; [|exact C6]. lia.
      + apply (size_int _ 53); [lia|exact C6|]. change (emax Dbl) with 1024%Z. lia.
      + assert (EQ : B2R (fmul (fmul c6 (mkf 1 (-2))) M) + B2R p = IZR (c * q + r) * bpow radix2 s).
        { rewrite EB, EP, bpow_plus. replace (bpow radix2 (prec t - 3)) with (IZR q) by (unfold quarter; rewrite <- bpow_IZR by lia; reflexivity).
          rewrite !plus_IZR, !mult_IZR, minus_IZR. ring. }
        destruct (fadd_real Dbl _ p FB FP) as [FT ET].
        * rewrite EQ. apply Rle_lt_trans with (bpow radix2 (105 + s)).
          -- apply abs_round_le_generic; [apply FLT_exp_valid; reflexivity|apply valid_rnd_N|apply generic_format_bpow; unfold FLT_exp, emin; cbn [prec emax]; change (emin Dbl) with (-1074)%Z in S0; lia|].
             rewrite Rabs_mult, (Rabs_pos_eq (bpow _ _)), bpow_plus by apply bpow_ge_0. apply Rmult_le_compat_r; [apply bpow_ge_0|].
             rewrite <- abs_IZR, bpow_IZR by lia. apply IZR_le. change (2 ^ 105)%Z with (2 ^ 55 * 2 ^ 50)%Z.
             apply Z.le_trans with ((2 ^ 54 + 1) * q)%Z; [|apply Z.mul_le_mono_nonneg; lia].
             assert (Z.abs (c * q) = Z.abs c * q)%Z by (rewrite Z.abs_mul, (Z.abs_eq q); lia).
             assert (Z.abs c * q <= 2 ^ 54 * q)%Z by (apply Z.mul_le_mono_nonneg_r; lia). lia.
          -- apply bpow_lt. change (emax Dbl) with 1024%Z. lia.
        * rewrite EQ in ET. auto.
  Qed.
End line.

(** ** Lines of canonical words *)
Lemma exp_pow t (x : F t) e : is_finite x = true -> B2R x = bpow radix2 e -> int_log2 x = Some e.
Proof.
  intros Fx E. pose proof (toZ_B2R t x) as T. assert (G : (0 < toZ x)%Z).
  { apply lt_IZR. apply (Rmult_lt_reg_r (bpow radix2 (emin t))); [apply bpow_gt_0|]. rewrite Rmult_0_l, <- T, E. apply bpow_gt_0. }
  assert (L : (emin t <= e)%Z).
  { apply (le_bpow radix2). rewrite <- E, T. rewrite <- (Rmult_1_l (bpow radix2 (emin t))) at 1. apply Rmult_le_compat_r; [apply bpow_ge_0|]. apply IZR_le. lia. }
  rewrite (int_log2_pow t x (e - emin t)); [f_equal; lia|exact Fx| |lia].
  apply eq_IZR. rewrite <- bpow_IZR by lia. apply (Rmult_eq_reg_r (bpow radix2 (emin t))); [|pose proof (bpow_gt_0 radix2 (emin t)); lra].
  rewrite <- T, E, <- bpow_plus. f_equal. lia.
Qed.
Lemma float_pow e : (-149 <= e <= 127)%Z -> fmt Flt (bpow radix2 e).
Proof. intros H. apply generic_format_bpow. unfold FLT_exp, emin. cbn [prec emax]. lia. Qed.
Lemma dbl_shown j : shown Dbl j -> (-149 <= stored_exp Dbl j + emin Dbl + prec Dbl - 1 <= 127)%Z.
Proof. cbn [shown]. intros H. rewrite stored_exp_pos by lia. unfold unit_exp, emin. cbn [jmax width prec emax]. lia. Qed.
Lemma line_canon t j v : shown t j -> (0 <= j)%Z -> (Z.abs v <= quarter t * (2 ^ (prec t - 1) - 1))%Z ->
  line_shows t j v (print_words (pri_word t j v) (car_word t v)).
Proof.
  intros HS Hj Hv. pose proof (c_small t v Hv) as HC. pose proof (quarter_pos t) as QP. pose proof (Z.mod_pos_bound v (quarter t) ltac:(lia)) as HR.
  pose proof (p_val t j v Hj) as HP. pose proof (w_val t v Hv) as HW. pose proof (c6_val t v Hv) as H6. pose proof (M_val t j v Hj Hv) as (FM & _ & EM).
  assert (EV : (v / quarter t * quarter t + v mod quarter t = v)%Z) by (rewrite (Z.div_mod v (quarter t)) at 3 by lia; ring).
  pose proof (stored_exp_ge t j Hj) as SG. unfold line_shows. cbv zeta. set (s := (stored_exp t j + emin t)%Z) in *.
  destruct t; cbn [print_words]; unfold print_double, print_float, binned_ufp, binned_ufpf; cbv zeta; cbn [l_exp l_sum l_car l_total].
  - pose proof (dbl_shown j HS) as R. fold s in R. 
    pose proof (float_pow _ R) as FF.
    destruct (d2f_real (ufp_word (pri_word Dbl j v)) FM) as [FD ED].
    { rewrite EM, round_generic by (auto; apply valid_rnd_N). rewrite Rabs_pos_eq by apply bpow_ge_0. apply bpow_lt. change (emax Flt) with 128%Z. lia. }
    rewrite EM, round_generic in ED by (auto; apply valid_rnd_N).
    destruct (f2d_real _ FD) as [FG EG]. rewrite ED in EG.
    rewrite (exp_pow Dbl _ _ FG EG). cbn [option_map]. split; [f_equal; lia|].
    assert (S0 : (emin Dbl <= s)%Z) by (unfold s; lia). assert (S1 : (s + prec Dbl <= 200)%Z) by (cbn [prec] in *; lia).
    split; [eapply sum_val; eauto|]. split; [exact HW|].
    pose proof (total_val Dbl s (v / quarter Dbl) (v mod quarter Dbl) _ _ _ S0 S1 HC HR HP H6 (conj FG EG)) as TV. rewrite EV in TV. exact TV.
  - rewrite (exp_pow Flt _ _ FM EM). cbn [option_map]. split; [f_equal; lia|].
    destruct HP as [FP EP]. destruct HW as [FW EW]. destruct H6 as [F6 E6].
    destruct (f2d_real _ FP) as [FP' EP']. destruct (f2d_real _ FW) as [FW' EW']. destruct (f2d_real _ F6) as [F6' E6']. destruct (f2d_real _ FM) as [FM' EM'].
    rewrite EP in EP'. rewrite EW in EW'. rewrite E6 in E6'. rewrite EM in EM'.
    assert (S1 : (s + prec Flt <= 200)%Z) by (unfold s, stored_exp, unit_exp, emin; cbn [jmax width prec emax]; destruct (j =? 0)%Z; lia).
    assert (S0 : (emin Dbl <= s)%Z) by (change (emin Dbl) with (-1074)%Z; unfold s; change (emin Flt) with (-149)%Z; lia).
    split; [eapply sum_val; eauto|]. split; [split; [exact FW'|exact EW']|].
    pose proof (total_val Flt s (v / quarter Flt) (v mod quarter Flt) _ _ _ S0 S1 HC HR (conj FP' EP') (conj F6' E6') (conj FM' EM')) as TV. rewrite EV in TV. exact TV.
Qed.

(** ** Accumulators *)
Lemma printed_nth {t} fold priX incX carX incC (m : mem t) i d : (0 <= i < fold)%Z ->
  nth (Z.to_nat i) (dmprint fold priX incX carX incC m) d = print_words (m (priX + i * incX)%Z) (m (carX + i * incC)%Z).
Proof.
  intros Hi. unfold dmprint. set (f := fun n : nat => _).
  rewrite (nth_indep _ d (f 0%nat)) by (rewrite map_length, seq_length; lia).
  rewrite map_nth, seq_nth by lia. cbn [Nat.add]. unfold f. rewrite Z2Nat.id by lia. reflexivity.
Qed.
Lemma holds_line t fold us xs P W i : all_finite xs = true -> us ++ xs <> [] -> (Z.of_nat (length xs) <= CAPACITY t)%Z ->
  holds t fold us xs P W -> (0 <= i < fold)%Z -> let j := (lead (us ++ xs) + i)%Z in shown t j ->
  line_shows t j (sums xs j) (print_words (P i) (W i)).
Proof.
  intros AF NE HC HH Hi. unfold holds in HH. rewrite AF in HH. destruct (us ++ xs) eqn:E; [congruence|]. rewrite <- E in *. clear E.
  intros j HS. destruct (HH i Hi) as [-> ->]. fold j. pose proof (lead_range (us ++ xs)). apply line_canon; auto; [unfold j; lia|].
  apply sums_cap; [unfold j; lia|]. now rewrite <- CAPACITY_eq.
Qed.

(** An accumulator of [xs] (room having been made for [us]) prints one line per level, and
    line i shows the slice sum of its bin: for float always, for double if the bin can be shown. *)
Theorem C66_print t fold priX incX carX incC us xs (m : mem t) :
  all_finite xs = true -> us ++ xs <> [] -> (Z.of_nat (length xs) <= CAPACITY t)%Z ->
  holds t fold us xs (fun i => m (priX + i * incX)%Z) (fun i => m (carX + i * incC)%Z) ->
  let out := dmprint fold priX incX carX incC m in
  length out = Z.to_nat fold /\
  forall i d, (0 <= i < fold)%Z -> let j := (lead (us ++ xs) + i)%Z in shown t j ->
    line_shows t j (sums xs j) (nth (Z.to_nat i) out d).
Proof.
  intros AF NE HC HH out. split; [unfold out, dmprint; now rewrite map_length, seq_length|].
  intros i d Hi j HS. unfold out. rewrite printed_nth by exact Hi. exact (holds_line t fold us xs _ _ i AF NE HC HH Hi HS).
Qed.
Print Assumptions C66_print.
(** The complex routine shows the same for the two parts. *)
Theorem C66_print_complex t fold X us vs zs (m : mem t) :
  all_finite (map fst zs) = true -> all_finite (map snd zs) = true -> zs <> [] -> (Z.of_nat (length zs) <= CAPACITY t)%Z ->
  zacc_at fold us vs zs m X ->
  let out := zbprint fold X m in
  length out = Z.to_nat fold /\
  forall i d, (0 <= i < fold)%Z ->
    let j := (lead (us ++ map fst zs) + i)%Z in let j' := (lead (vs ++ map snd zs) + i)%Z in
    (shown t j -> line_shows t j (sums (map fst zs) j) (fst (nth (Z.to_nat i) out d))) /\
    (shown t j' -> line_shows t j' (sums (map snd zs) j') (snd (nth (Z.to_nat i) out d))).
Proof.
  intros AF AF' NE HC [HR HI] out. split; [unfold out, zbprint, zmprint; now rewrite map_length, seq_length|].
  assert (NF : us ++ map fst zs <> [] /\ vs ++ map snd zs <> []) by (destruct zs; [congruence|]; split; intros E; apply app_eq_nil in E; destruct E; discriminate).
  intros i d Hi j j'.
  assert (EN : nth (Z.to_nat i) out d = (print_words (m (X + i * 2)%Z) (m (X + 2 * fold + i * 2)%Z), print_words (m (X + 1 + i * 2)%Z) (m (X + 2 * fold + 1 + i * 2)%Z))).
  { unfold out, zbprint, zmprint. set (f := fun n : nat => _). rewrite (nth_indep _ d (f 0%nat)) by (rewrite map_length, seq_length; lia).
    rewrite map_nth, seq_nth by lia. cbn [Nat.add]. unfold f. rewrite Z2Nat.id by lia.
    replace (X + 1 + i * 2)%Z with (X + i * 2 + 1)%Z by ring. replace (X + 2 * fold + 1 + i * 2)%Z with (X + 2 * fold + i * 2 + 1)%Z by ring. reflexivity. }
  rewrite EN. cbn [fst snd]. split; intros HS.
  - apply (holds_line t fold us (map fst zs) _ _ i AF (proj1 NF) ltac:(now rewrite map_length) HR Hi HS).
  - apply (holds_line t fold vs (map snd zs) _ _ i AF' (proj2 NF) ltac:(now rewrite map_length) HI Hi HS).
Qed.
Print Assumptions C66_print_complex.

(** Float: the total shown is the slice sum itself, not rounded. *)
Theorem C66_float_exact j v l : line_shows Flt j v l -> (0 <= j)%Z -> (Z.abs v <= quarter Flt * (2 ^ (prec Flt - 1) - 1))%Z ->
  B2R (l_total l) = IZR v * bpow radix2 (stored_exp Flt j + emin Flt).
Proof.
  intros (_ & _ & _ & _ & ->) Hj Hv. apply round_generic; [apply valid_rnd_N|]. apply (fmt_int Dbl).
  - pose proof (stored_exp_ge Flt j Hj). change (emin Dbl) with (-1074)%Z. change (emin Flt) with (-149)%Z. lia.
  - eapply Z.le_trans; [exact Hv|]. vm_compute. discriminate.
Qed.
Print Assumptions C66_float_exact.

(** The full claim (every line shows its bin) is false of double accumulators outside the range
    of float: there the conversion of the logarithm to int is undefined for every content. *)
Theorem C66_double_range_refuted j v : (0 <= j)%Z -> ~ shown Dbl j -> (Z.abs v <= quarter Dbl * (2 ^ (prec Dbl - 1) - 1))%Z ->
  l_exp (print_words (pri_word Dbl j v) (car_word Dbl v)) = None.
Proof.
  intros Hj HS Hv. pose proof (M_val Dbl j v Hj Hv) as (FM & _ & EM). set (s := (stored_exp Dbl j + emin Dbl)%Z) in *.
  assert (R : (s + prec Dbl - 1 < -150 \/ 128 <= s + prec Dbl - 1)%Z).
  { unfold s, stored_exp, unit_exp, emin. cbn [shown] in HS. cbn [jmax width prec emax].
    destruct (Z.eqb_spec j 0) as [->|]; [right; cbn; lia|]. lia. }
  cbn [print_words]. unfold print_double, binned_ufp. cbv zeta. cbn [l_exp]. destruct R as [R|R].
  - assert (Z0 : RN Flt (B2R (ufp_word (pri_word Dbl j v))) = 0).
    { rewrite EM. apply round_N_small_pos with (ex := (s + prec Dbl)%Z).
      - split; [now right|apply bpow_lt; lia].
      - unfold FLT_exp. change (emin Flt) with (-149)%Z. lia. }
    destruct (d2f_real _ FM) as [FD ED]; [rewrite Z0, Rabs_R0; apply bpow_gt_0|]. rewrite Z0 in ED.
    destruct (d2f (ufp_word (pri_word Dbl j v))) as [b|b| |b mm e B]; try discriminate FD; [reflexivity|].
    exfalso. cbn [B2R] in ED. apply eq_0_F2R in ED. destruct b; discriminate.
  - rewrite (d2f_over _ FM); [reflexivity| |].
    + rewrite EM. apply bpow_ge_0.
    + apply RN_keep; [apply generic_format_bpow; unfold FLT_exp, emin; cbn [prec emax]; lia|]. rewrite EM. now apply bpow_le.
Qed.
Print Assumptions C66_double_range_refuted.
Lemma sum_acc {t} fold xs (m : mem t) : (2 <=? fold)%Z = true -> (fold <=? MAXFOLD t)%Z = true -> (Z.of_nat (length xs) <=? capacity t)%Z = true ->
  acc_at fold [] xs (sum_list fold 0 xs m) 0.
Proof. intros A B C. apply Z.leb_le in A, B, C. exact (proj1 (sum_list_holds fold (conj A B) 0 xs m C)). Qed.
(** So one double 2^200, or one 2^-200, added to an accumulator is enough, and so is an empty
    accumulator; and bin 0 (float 2^127) is shown scaled down: 2^115. *)
Theorem C66_print_refuted :
  (exists fold (xs : list (F Dbl)) (m : mem Dbl), all_finite xs = true /\ xs <> [] /\ acc_at fold [] xs m 0 /\
     map l_exp (dbprint fold 0 m) = [None; None] /\ map (fun l => is_finite (l_total l)) (dbprint fold 0 m) = [false; false]) /\
  (exists fold (xs : list (F Dbl)) (m : mem Dbl), all_finite xs = true /\ xs <> [] /\ acc_at fold [] xs m 0 /\
     map l_exp (dbprint fold 0 m) = [None; None]) /\
  (forall t (m : mem t), map l_exp (dbprint 2 0 (dbsetzero 2 0 m)) = [None; None]) /\
  (let m : mem Flt := sum_list 2 0 [mkf 1 127] (fun _ => fzero) in
   map (fun l => feq (l_total l) (mkf 1 127)) (dbprint 2 0 m) = [false; false] /\
   map (fun l => feq (l_total l) (mkf 1 115)) (dbprint 2 0 m) = [true; false]).
Proof.
  split; [|split; [|split]].
  - exists 2%Z, [mkf 1 200], (sum_list 2 0 [mkf 1 200] (fun _ => fzero)). split; [reflexivity|]. split; [discriminate|].
    split; [apply sum_acc; reflexivity|]. split; vm_compute; reflexivity.
  - exists 2%Z, [mkf 1 (-200)], (sum_list 2 0 [mkf 1 (-200)] (fun _ => fzero)). split; [reflexivity|]. split; [discriminate|].
    split; [apply sum_acc; reflexivity|]. vm_compute; reflexivity.
  - intros t m. destruct t; vm_compute; reflexivity.
  - split; vm_compute; reflexivity.
Qed.
Print Assumptions C66_print_refuted.
Lemma zholds_acc {t} fold zs (m : mem t) Y : zholds fold zs m Y -> zacc_at fold [] [] zs m Y.
Proof.
  intros [A B]. split; [exact A|]. unfold zim, zic in B. revert B. unfold holds. destruct (all_finite _); [|exact (fun B => B)].
  cbn [app]. destruct (map snd zs); exact (fun B => B).
Qed.
(** The strides of the complex routine count words: calling it with strides 1, as the other
    routines on separate vectors expect, mixes the parts. *)
Theorem C66_stride_refuted : exists (m : mem Flt), (* the accumulator of 1 + 3i *)
  zacc_at 2 [] [] [(mkf 1 0, mkf 3 0)] m 0 /\
  map (fun l => bits (l_total (fst l))) (zmprint 2 0 1 4 1 m) <> map (fun l => bits (l_total (fst l))) (zbprint 2 0 m).
Proof.
  exists (zsum_list 2 0 [(mkf 1 0, mkf 3 0)] (fun _ => fzero)). split; [|vm_compute; discriminate].
  assert (H2 : (2 <= 2 <= MAXFOLD Flt)%Z) by (split; vm_compute; discriminate).
  destruct (zsum_list_holds 2 H2 0 [(mkf 1 0, mkf 3 0)] (fun _ => fzero : F Flt)) as [A _]; [vm_compute; discriminate|].
  exact (zholds_acc _ _ _ _ A).
Qed.
Print Assumptions C66_stride_refuted.
(** Non-vacuity: the accumulator of 1000, -3 and 2^-20 (fold 3), printed. *)
Example C66_case : let xs : list (F Dbl) := [mkf 1000 0; mkf (-3) 0; mkf 1 (-20)] in let m := sum_list 3 0 xs (fun _ => fzero) in
  lead xs = 25%Z /\ acc_at 3 [] xs m 0 /\ shown Dbl 25 /\ shown Dbl 27 /\
  map l_exp (dbprint 3 0 m) = [Some 38; Some (-2); Some (-42)]%Z /\
  map (fun l => feq (l_total l) (ofZ 997)) (dbprint 3 0 m) = [true; false; false] /\
  map (fun l => feq (l_total l) (mkf 1 (-20))) (dbprint 3 0 m) = [false; true; false].
Proof.
  cbv zeta. split; [vm_compute; reflexivity|]. split; [apply sum_acc; reflexivity|]. split; [cbn; lia|]. split; [cbn; lia|].
  split; [vm_compute; reflexivity|]. split; vm_compute; reflexivity.
Qed.
