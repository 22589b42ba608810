(** * C68: when binned_dmdenorm says 0, deposits may be done with denormals as zeros *)
From Coq Require Import ZArith Bool List Lia Reals Lra Permutation.
From Flocq Require Import Core BinarySingleNaN.
From Verif Require Import Fp Mem Binned Spec Client FpProofs BitProofs CoreArith SpecProofs WordProofs MemProofs AccProofs SumProofs ConvProofs History ClientProofs StrideProofs ComplexProofs BlasZSpec PropsSum PropsAcc Flush.
Import ListNotations.
Open Scope Z_scope.

(** ** The operations on the numbers of a deposit *)
Lemma zero_val t (x : F t) : is_zero x -> is_finite x = true /\ toZ x = 0.
Proof. intros [-> | ->]; split; reflexivity. Qed.
Section OPS.
  Context {t : ty} (ar : arith t).
  Hypothesis HA : flushing ar.
  Let T := least_normal t.
  Lemma T_pos : 1 <= T.
  Proof. unfold T, least_normal. pose proof (prec_pos t). pose proof (pow2_pos (prec t - 1) ltac:(lia)). lia. Qed.
  Lemma repr_int n : Z.abs n < 2 ^ prec t -> repr t n.
  Proof.
    intros H. rewrite <- (Z.mul_1_r n). change 1 with (2 ^ 0). apply repr_le; try lia.
    unfold span. pose proof (prec_emax t). pose proof (emin_neg t). lia.
  Qed.
  Lemma repr_T n : Z.abs n <= T -> repr t n.
  Proof. intros H. apply repr_int. eapply Z.le_lt_trans; [exact H|]. apply Z.pow_lt_mono_r; pose proof (prec_pos t); lia. Qed.
  Lemma read_big (x x' : F t) : read_as x x' -> is_finite x = false \/ T <= Z.abs (toZ x) -> x' = x.
  Proof. intros [E|(F1 & H & _)] [C|C]; auto; [congruence|fold T in H; lia]. Qed.
  Lemma deliver_big (x x' : F t) : delivered x x' -> is_finite x = false \/ T < Z.abs (toZ x) -> x' = x.
  Proof. intros [E|(F1 & H & _)] [C|C]; auto; [congruence|fold T in H; lia]. Qed.
  (** An operand or result that was exchanged is tiny. *)
  Lemma read_val (x x' : F t) : read_as x x' -> is_finite x = true -> is_finite x' = true /\ (x' = x \/ toZ x' = 0 /\ Z.abs (toZ x) < T).
  Proof. intros [-> |(F1 & H & Z0)] Fx; auto. apply zero_val in Z0. tauto. Qed.
  Lemma deliver_val (x x' : F t) : delivered x x' -> is_finite x = true -> is_finite x' = true /\ (x' = x \/ toZ x' = 0 /\ Z.abs (toZ x) <= T).
  Proof. intros [-> |(F1 & H & Z0)] Fx; auto. apply zero_val in Z0. tauto. Qed.

  (** What is left of X in the two runs. *)
  Definition simx (x' x : F t) : Prop := is_finite x' = true /\ is_finite x = true /\ (x' = x \/ Z.abs (toZ x') <= T /\ Z.abs (toZ x) <= T).
  Lemma or1_tiny (x : F t) : is_finite x = true -> Z.abs (toZ x) <= T -> is_finite (or1 x) = true /\ Z.abs (toZ (or1 x)) <= 2 * T.
  Proof.
    intros Fx H. destruct (or1_val t x Fx) as (mm & e & H1 & H2 & _ & H3 & H4 & H5 & H6). split; auto.
    pose proof T_pos. pose proof (mw_pos t). rewrite H1, abs_cond_Zopp in H. rewrite H3, abs_cond_Zopp.
    destruct H6 as [-> |H6].
    - rewrite Z.pow_0_r, Z.mul_1_r in *. pose proof (Z.mod_pos_bound mm 2 ltac:(lia)). lia.
    - change (2 ^ mw t) with T in H6. pose proof (Z.mod_pos_bound mm 2 ltac:(lia)). pose proof (pow2_pos e H5).
      rewrite Z.abs_eq in * by nia. assert (2 ^ e = 1) as E by nia. rewrite E in *. nia.
  Qed.
  Lemma or1_grows (x : F t) : is_finite x = true -> Z.abs (toZ x) <= Z.abs (toZ (or1 x)).
  Proof.
    intros Fx. destruct (or1_val t x Fx) as (mm & e & H1 & H2 & _ & H3 & H4 & H5 & H6).
    rewrite H1, H3, !abs_cond_Zopp. pose proof (Z.mod_pos_bound mm 2 ltac:(lia)). pose proof (pow2_pos e H5).
    rewrite !Z.abs_eq by nia. apply Z.mul_le_mono_nonneg_r; lia.
  Qed.

  Section STEP.
    Context (j n d : Z) (M : F t).
    Let E := stored_exp t j.
    Hypothesis Hj : 0 <= j.
    Hypothesis HM : priw t j n M.
    Hypothesis Hn : 4 * quarter t < n < 8 * quarter t.
    Hypothesis HD : 4 * quarter t < n + d < 8 * quarter t.
    Hypothesis HE : prec t + 2 <= E.
    Lemma big_T : 4 * T < 2 ^ E.
    Proof.
      unfold T, least_normal. pose proof (prec_pos t). replace (4 * 2 ^ (prec t - 1)) with (2 ^ (prec t + 1)).
      - apply Z.pow_lt_mono_r; lia.
      - replace (prec t + 1) with (2 + (prec t - 1)) by lia. rewrite Z.pow_add_r by lia. reflexivity.
    Qed.
    Lemma word_big k (q : F t) : 4 * quarter t < k < 8 * quarter t -> priw t j k q -> T < Z.abs (toZ q).
    Proof.
      intros Hk [Fq Vq]. rewrite Vq. fold E. pose proof big_T. pose proof (quarter_pos t). pose proof T_pos. nia.
    Qed.
    Lemma add_tiny (a : F t) : is_finite a = true -> Z.abs (toZ a) <= 2 * T -> priw t j n (fadd a M) /\ priw t j n (fadd M a).
    Proof.
      intros Fa Ha. destruct HM as [FM VM]. pose proof big_T as BT. pose proof (stored_exp_le t j Hj) as HL. unfold span in HL. fold E in HL, VM.
      pose proof Hn as Hn'. rewrite quarter4, quarter8 in Hn'. unfold mw in Hn'. pose proof (prec_pos t).
      split.
      - destruct (fadd_round t a M n E Fa FM) as [A B]; try lia. split; auto.
      - destruct (fadd_round t M a n E FM Fa) as [A B]; try lia. split; auto.
    Qed.
    (** The new word. [y] is what is added to the word, y' what the other run adds. *)
    Lemma word_sim (y' y : F t) : simx y' y -> (Z.abs (toZ y) <= T -> d = 0) ->
      (priw t j (n + d) (fadd (or1 y) M) -> aadd ar (or1 y') M = fadd (or1 y) M) /\
      (priw t j (n + d) (fadd M (or1 y)) -> aadd ar M (or1 y') = fadd M (or1 y)).
    Proof.
      intros (Fy' & Fy & S) H0. pose proof (quarter_pos t).
      assert (BM : T < Z.abs (toZ M)) by (apply (word_big n); auto).
      destruct (or1_val t y' Fy') as (_ & _ & _ & FO' & _). destruct (or1_val t y Fy) as (_ & _ & _ & FO & _).
      assert (G : forall a, read_as (or1 y') a -> a = or1 y \/ (d = 0 /\ is_finite a = true /\ Z.abs (toZ a) <= 2 * T)).
      { intros a Ra. destruct S as [-> |[S1 S2]].
        - destruct (read_val _ _ Ra FO) as [Fa [-> |[Z0 L0]]]; auto. right. pose proof (or1_grows y Fy). pose proof T_pos.
          rewrite Z0. cbn [Z.abs]. repeat split; auto; try lia; try (apply H0; lia).
        - right. destruct (or1_tiny y' Fy' S1) as [_ O1]. destruct (read_val _ _ Ra FO') as [Fa [-> |[Z0 L0]]].
          + auto.
          + rewrite Z0. pose proof T_pos. cbn [Z.abs]. repeat split; auto. lia. }
      destruct HA as [HAdd _]. split; intros PW.
      - destruct (HAdd (or1 y') M) as (a & b & Ra & Rb & D). apply read_big in Rb; [|right; lia]. subst b.
        assert (PW' : priw t j (n + d) (fadd a M)).
        { destruct (G a Ra) as [-> |(D0 & Fa & La)]; auto. rewrite D0, Z.add_0_r. apply add_tiny; auto. }
        apply deliver_big in D; [|right; apply (word_big (n + d)); auto]. rewrite D.
        apply (priw_inj t j (n + d)); auto; lia.
      - destruct (HAdd M (or1 y')) as (b & a & Rb & Ra & D). apply read_big in Rb; [|right; lia]. subst b.
        assert (PW' : priw t j (n + d) (fadd M a)).
        { destruct (G a Ra) as [-> |(D0 & Fa & La)]; auto. rewrite D0, Z.add_0_r. apply add_tiny; auto. }
        apply deliver_big in D; [|right; apply (word_big (n + d)); auto]. rewrite D.
        apply (priw_inj t j (n + d)); auto; lia.
    Qed.
    (** What the word took, with the same value in both runs. *)
    Lemma taken_sim (q : F t) : priw t j (n + d) q -> Z.abs d < 2 ^ prec t ->
      is_finite (asub ar M q) = true /\ toZ (asub ar M q) = - d * 2 ^ E /\ is_finite (fsub M q) = true /\ toZ (fsub M q) = - d * 2 ^ E.
    Proof.
      intros Pq Hd. assert (BM : T < Z.abs (toZ M)) by (apply (word_big n); auto).
      assert (Bq : T < Z.abs (toZ q)) by (apply (word_big (n + d)); auto).
      pose proof (priw_sub t j n (n + d) M q Hj HM Pq ltac:(lia)) as [Fs Vs]. fold E in Vs.
      replace (n - (n + d)) with (- d) in Vs by lia. destruct HA as (_ & HSub & _).
      destruct (HSub M q) as (a & b & Ra & Rb & D). apply read_big in Ra; [|right; lia]. apply read_big in Rb; [|right; lia]. subst a b.
      destruct (deliver_val _ _ D Fs) as [Fr [-> |[Z0 L0]]]; auto. repeat split; auto.
      rewrite Vs in L0. pose proof big_T. pose proof T_pos. rewrite Z0.
      assert (d = 0) as -> by (rewrite Z.abs_mul, (Z.abs_eq (2 ^ E)) in L0 by lia; nia). reflexivity.
    Qed.
  End STEP.
  (** x + s, s being a multiple of a large power of two. *)
  Lemma left_sim (x' x s' s : F t) (w : Z) : simx x' x -> is_finite s' = true -> is_finite s = true -> toZ s' = w -> toZ s = w ->
    (w = 0 \/ T < Z.abs w) -> (Z.abs (toZ x) <= T -> w = 0) -> repr t (toZ x + w) ->
    simx (aadd ar x' s') (fadd x s) /\ toZ (fadd x s) = toZ x + w.
  Proof.
    intros (Fx' & Fx & S) Fs' Fs Vs' Vs HW H0 HR.
    destruct (fadd_exact t x s Fx Fs) as (F1 & V1 & _); [rewrite Vs; exact HR|]. rewrite Vs in V1. split; [|exact V1].
    destruct HA as [HAdd _]. destruct (HAdd x' s') as (a & b & Ra & Rb & D).
    assert (B : is_finite b = true /\ toZ b = w).
    { destruct (read_val _ _ Rb Fs') as [Fb [-> |[Z0 L0]]]; auto. split; auto. rewrite Z0. rewrite Vs' in L0. lia. }
    destruct B as [Fb Vb].
    assert (C : a = x \/ (is_finite a = true /\ Z.abs (toZ a) <= T /\ Z.abs (toZ x) <= T)).
    { destruct (read_val _ _ Ra Fx') as [Fa [-> |[Z0 L0]]].
      - destruct S as [-> |[S1 S2]]; auto.
      - right. rewrite Z0. pose proof T_pos. cbn [Z.abs]. destruct S as [-> |[S1 S2]]; repeat split; auto; lia. }
    destruct C as [-> |(Fa & La & Lx)].
    - destruct (fadd_exact t x b Fx Fb) as (F2 & V2 & _); [rewrite Vb; exact HR|]. rewrite Vb in V2.
      destruct (deliver_val _ _ D F2) as [Fr R]. split; auto. split; auto.
      destruct R as [-> |[Z0 L0]].
      + destruct (Z.eq_dec (toZ x + w) 0) as [E0|N0].
        * right. rewrite V1, V2, E0. pose proof T_pos. cbn [Z.abs]. lia.
        * left. apply float_ext; auto; [congruence|]. left. rewrite V2. exact N0.
      + right. rewrite Z0, V1. rewrite V2 in L0. pose proof T_pos. cbn [Z.abs]. lia.
    - rewrite (H0 Lx) in *. rewrite Z.add_0_r in V1.
      destruct (fadd_exact t a b Fa Fb) as (F2 & V2 & _); [rewrite Vb, Z.add_0_r; apply repr_T; exact La|]. rewrite Vb, Z.add_0_r in V2.
      destruct (deliver_val _ _ D F2) as [Fr R]. split; auto. split; auto. right. rewrite V1.
      destruct R as [-> |[Z0 L0]]; [rewrite V2|rewrite Z0]; pose proof T_pos; cbn [Z.abs]; lia.
  Qed.
  (** Scaling by a power of two: COMPRESSION, EXPANSION / 2. *)
  Lemma mul_const (a b : F t) : is_finite a = true -> is_finite b = true -> T <= Z.abs (toZ a) -> T <= Z.abs (toZ b) ->
    T < Z.abs (toZ (fmul a b)) -> amul ar a b = fmul a b.
  Proof.
    intros Fa Fb La Lb Lr. destruct HA as (_ & _ & HMul). destruct (HMul a b) as (a1 & b1 & Ra & Rb & D).
    apply read_big in Ra; [|right; exact La]. apply read_big in Rb; [|right; exact Lb]. subst. apply deliver_big in D; auto.
  Qed.
  Lemma mul_shrinks (x y : F t) : is_finite x = true -> is_finite y = true -> (Rabs (B2R y) <= 1)%R -> Z.abs (toZ x) <= T ->
    is_finite (fmul x y) = true /\ Z.abs (toZ (fmul x y)) <= T.
  Proof.
    intros Fx Fy Hy Hx. pose proof (prec_pos t). pose proof (prec_emax t). pose proof (emin_neg t).
    pose proof (Bmult_correct _ _ (prec_gt_0 t) (prec_lt_emax t) mode_NE x y) as C.
    assert (BR : (Rabs (round radix2 (SpecFloat.fexp (prec t) (emax t)) (round_mode mode_NE) (B2R x * B2R y)) <= IZR T * bpow radix2 (emin t))%R).
    { apply abs_round_le_generic.
      - apply FLT_exp_valid. apply prec_gt_0.
      - apply valid_rnd_round_mode.
      - apply repr_format. apply repr_T. rewrite Z.abs_eq; pose proof T_pos; lia.
      - rewrite toZ_B2R, !Rabs_mult, (Rabs_pos_eq (bpow _ _)) by apply bpow_ge_0. rewrite <- abs_IZR.
        apply IZR_le in Hx. pose proof (bpow_gt_0 radix2 (emin t)). pose proof (Rabs_pos (B2R y)).
        assert (0 <= IZR (Z.abs (toZ x)))%R by (apply IZR_le; lia).
        apply Rle_trans with (IZR (Z.abs (toZ x)) * bpow radix2 (emin t) * 1)%R; [|nra].
        apply Rmult_le_compat_l; auto. nra. }
    rewrite Rlt_bool_true in C.
    2:{ eapply Rle_lt_trans; [exact BR|]. unfold T, least_normal. rewrite <- bpow_IZR, <- bpow_plus by lia. apply bpow_lt. lia. }
    destruct C as (C1 & C2 & _). rewrite Fx, Fy in C2. split; [exact C2|].
    rewrite <- C1 in BR. change (Bmult mode_NE x y) with (fmul x y) in BR.
    rewrite toZ_B2R, Rabs_mult, <- abs_IZR, (Rabs_pos_eq (bpow _ _)) in BR by apply bpow_ge_0.
    apply Rmult_le_reg_r in BR; [|apply bpow_gt_0]. now apply le_IZR.
  Qed.
  Definition gap (v : Z) : Prop := v = 0 \/ T < Z.abs v.
  Lemma gap_mult v e : prec t <= e -> (exists k, v = k * 2 ^ e) -> gap v.
  Proof.
    intros He [k ->]. unfold gap. pose proof (prec_pos t). assert (T < 2 ^ e) by (unfold T, least_normal; apply Z.pow_lt_mono_r; lia).
    destruct (Z.eq_dec k 0) as [-> |N]; [left; lia|right]. rewrite Z.abs_mul, (Z.abs_eq (2 ^ e)) by (pose proof T_pos; lia). pose proof T_pos. nia.
  Qed.
  Lemma add_gap (a b : F t) A B : is_finite a = true -> is_finite b = true -> toZ a = A -> toZ b = B ->
    gap A -> gap B -> gap (A + B) -> repr t (A + B) -> is_finite (aadd ar a b) = true /\ toZ (aadd ar a b) = A + B.
  Proof.
    intros Fa Fb <- <- GA GB GC HR. destruct HA as [HAdd _]. destruct (HAdd a b) as (a1 & b1 & Ra & Rb & D).
    destruct (read_val _ _ Ra Fa) as [Fa1 Va1]. destruct (read_val _ _ Rb Fb) as [Fb1 Vb1]. unfold gap in *.
    assert (E1 : toZ a1 = toZ a) by (destruct Va1 as [-> |[]]; lia). assert (E2 : toZ b1 = toZ b) by (destruct Vb1 as [-> |[]]; lia).
    rewrite <- E1, <- E2 in HR. destruct (fadd_exact t a1 b1 Fa1 Fb1 HR) as (F & V & _).
    destruct (deliver_val _ _ D F) as [Fr [-> |[Z0 L0]]]; split; auto; [lia|]. rewrite V in L0. lia.
  Qed.
End OPS.

(** ** Bin 0 *)
(** Half of the slice taken off is still a number of the format (from the proof of slice_step0). *)
Lemma half_repr t (x : F t) : is_finite x = true ->
  let h := unit_exp t 0 - 1 in let d := rhaz (toZ x) (2 ^ unit_exp t 0) in repr t (toZ x + (- d) * 2 ^ h).
Proof.
  intros Fx h d. pose proof (prec_pos t). pose proof (width_prec t). pose proof (width_pos t).
  pose proof (prec_emax t). pose proof (emin_neg t). pose proof (stored_exp_ge t 0 ltac:(lia)) as HE.
  assert (UE : unit_exp t 0 = stored_exp t 0 + cexp0 t) by (rewrite stored_exp_0, unit_exp_0; unfold cexp0; lia).
  assert (0 < cexp0 t) by (unfold cexp0; lia).
  pose proof (pow2_pos (unit_exp t 0) ltac:(lia)) as PU.
  assert (Hd : Z.abs d <= 2 ^ (width t - 1)).
  { apply rhaz_le; auto. apply Z.lt_le_incl, pow2_pos; lia.
    rewrite <- Z.pow_add_r, unit_exp_0 by lia.
    replace (width t - 1 + (span t - width t + 1)) with (span t) by lia.
    pose proof (toZ_span t x). lia. }
  assert (UH : 2 ^ unit_exp t 0 = 2 * 2 ^ (unit_exp t 0 - 1)).
  { rewrite <- Z.pow_succ_r by lia. f_equal. lia. }
  fold h in UH. pose proof (pow2_pos h ltac:(unfold h; lia)) as Ph.
  set (X := toZ x) in *.
  assert (HZ : 2 * Z.abs (X - d * 2 ^ unit_exp t 0) <= 2 ^ unit_exp t 0) by (apply rhaz_near; auto).
  replace (X + (- d) * 2 ^ h) with (X - d * 2 ^ h) by ring.
  eapply (repr_smaller t X (2 ^ h) h (repr_toZ t x) eq_refl ltac:(unfold h; lia)); [reflexivity| |].
  - destruct (Z.eq_dec d 0) as [-> |Nd]; [replace (X - 0 * 2 ^ h) with X by ring; lia|].
    destruct (Z_lt_dec (2 * Z.abs X) (2 ^ unit_exp t 0)) as [HS|HS].
    { exfalso. apply Nd. unfold d. apply rhaz_small. exact HS. }
    assert (SD : 0 <= X /\ 0 <= d \/ X <= 0 /\ d <= 0).
    { unfold d. destruct (Z_le_gt_dec 0 X).
      - left. split; auto. rewrite rhaz_nonneg by auto. apply Z.div_pos; lia.
      - right. split; [lia|]. replace X with (- - X) by lia. rewrite rhaz_opp, rhaz_nonneg by lia.
        assert (0 <= (2 * - X + 2 ^ unit_exp t 0) / (2 * 2 ^ unit_exp t 0)) by (apply Z.div_pos; lia). lia. }
    rewrite UH in *. set (u := 2 ^ h) in *.
    replace (d * (2 * u)) with (2 * (d * u)) in HZ by ring.
    destruct SD as [[S1 S2]|[S1 S2]].
    + assert (0 <= d * u) by (apply Z.mul_nonneg_nonneg; lia). lia.
    + assert (d * u <= 0) by (apply Z.mul_nonpos_nonneg; lia). lia.
  - intros k HK.
    assert (repr t ((k - d) * 2 ^ h)).
    { apply repr_scaled; try (unfold h; lia).
      - assert (Z.abs k <= 2 ^ width t).
        { pose proof (toZ_span t x) as TS. fold X in TS. rewrite HK, Z.abs_mul, (Z.abs_eq (2 ^ h)) in TS by lia.
          replace (span t) with (width t + h) in TS by (unfold h; rewrite unit_exp_0; lia).
          rewrite Z.pow_add_r in TS by (unfold h; lia). apply Z.mul_lt_mono_pos_r in TS; lia. }
        apply Z.le_lt_trans with (2 ^ width t + 2 ^ (width t - 1)); [lia|].
        apply Z.lt_le_trans with (2 ^ (width t + 1)); [|apply Z.pow_le_mono_r; lia].
        replace (width t + 1) with (Z.succ (Z.succ (width t - 1))) by lia.
        replace (width t) with (Z.succ (width t - 1)) at 1 by lia.
        rewrite !Z.pow_succ_r by lia. pose proof (pow2_pos (width t - 1) ltac:(lia)). lia.
      - replace ((k - d) * 2 ^ h) with (X - d * 2 ^ h) by (rewrite HK; ring).
        rewrite UH in HZ. replace (d * (2 * 2 ^ h)) with (2 * (d * 2 ^ h)) in HZ by ring.
        pose proof (toZ_span t x) as TS. fold X in TS.
        assert (PS : 2 ^ span t = 2 ^ width t * 2 ^ h).
        { rewrite <- Z.pow_add_r by (unfold h; lia). f_equal. unfold h. rewrite unit_exp_0. lia. }
        assert (8 * 2 ^ h <= 2 ^ span t).
        { rewrite PS. apply Z.mul_le_mono_nonneg_r; [lia|]. change 8 with (2 ^ 3). apply Z.pow_le_mono_r; lia. }
        lia. }
    replace (X - d * 2 ^ h) with ((k - d) * 2 ^ h) by (rewrite HK; ring). auto.
Qed.
Definition kexp (t : ty) : F t := fmul (EXPANSION t) (mkf 1 (-1)).
Lemma compression_big t : is_finite (COMPRESSION t) = true /\ least_normal t <= Z.abs (toZ (COMPRESSION t)) /\ (Rabs (B2R (COMPRESSION t)) <= 1)%R.
Proof.
  assert (E : COMPRESSION t = mkf 1 (- cexp0 t)) by (unfold COMPRESSION, cexp0; rewrite WIDTH_eq; reflexivity).
  destruct (mkf_pow2 t (- cexp0 t)) as [FC VC]; [unfold cexp0; destruct t; split; reflexivity || discriminate|].
  rewrite <- E in *. split; auto. split.
  - destruct t; vm_compute; discriminate.
  - rewrite VC, Rabs_pos_eq by apply bpow_ge_0. change 1%R with (bpow radix2 0). apply bpow_le.
    unfold cexp0. destruct t; vm_compute; discriminate.
Qed.
Lemma kexp_val t : is_finite (EXPANSION t) = true /\ is_finite (mkf 1 (-1) : F t) = true /\ least_normal t <= Z.abs (toZ (EXPANSION t)) /\
  least_normal t <= Z.abs (toZ (mkf 1 (-1) : F t)) /\ is_finite (kexp t) = true /\ B2R (kexp t) = bpow radix2 (cexp0 t - 1) /\ least_normal t < Z.abs (toZ (kexp t)).
Proof.
  pose proof (prec_pos t). pose proof (width_prec t). pose proof (width_pos t). pose proof (prec_emax t). pose proof (emin_neg t).
  set (c := cexp0 t). assert (Hc : 0 < c) by (unfold c, cexp0; lia).
  destruct (mkf_pow2 t c) as [F1 V1]; [unfold c, cexp0; lia|].
  destruct (mkf_pow2 t (-1)) as [F2 V2]; [unfold emin in *; lia|].
  replace (mkf 1 c) with (EXPANSION t) in F1, V1 by (unfold EXPANSION, c, cexp0; rewrite WIDTH_eq; reflexivity).
  destruct (fmul_exact t (EXPANSION t) (mkf 1 (-1)) (1 * 2 ^ (c - 1 - emin t))) as [F3 V3]; auto.
  - apply repr_le; [lia| |unfold span, c, cexp0; destruct t; vm_compute; discriminate].
    change (Z.abs 1) with 1. apply (Z.pow_gt_1 2); lia.
  - rewrite V1, V2, Z.mul_1_l, <- bpow_IZR, <- !bpow_plus by lia. f_equal. lia.
  - split; auto. split; auto. split; [destruct t; vm_compute; discriminate|]. split; [destruct t; vm_compute; discriminate|].
    split; auto. split.
    + unfold kexp. rewrite toZ_B2R, V3, Z.mul_1_l, <- bpow_IZR, <- bpow_plus by lia. f_equal. lia.
    + unfold kexp. rewrite V3. unfold c. destruct t; vm_compute; reflexivity.
Qed.
Section BIN0.
  Context {t : ty} (ar : arith t).
  Hypothesis HA : flushing ar.
  Local Notation T := (least_normal t).
  Lemma compress_sim (x : F t) : is_finite x = true -> simx (amul ar x (COMPRESSION t)) (fmul x (COMPRESSION t)).
  Proof.
    intros Fx. destruct (compression_big t) as (FC & BC & RC). destruct (compress_ok t x Fx) as (Fy & _ & _).
    destruct HA as (_ & _ & HMul). destruct (HMul x (COMPRESSION t)) as (a & b & Ra & Rb & D).
    apply (read_big ) in Rb; [|right; exact BC]. subst b.
    destruct (read_val _ _ Ra Fx) as [Fa [-> |[Z0 L0]]].
    - destruct (deliver_val _ _ D Fy) as [Fr [-> |[Z1 L1]]]; split; auto. split; auto. right. rewrite Z1. cbn [Z.abs]. pose proof (@T_pos t). lia.
    - destruct (mul_shrinks x (COMPRESSION t) Fx FC RC ltac:(lia)) as [_ Ly].
      destruct (mul_shrinks a (COMPRESSION t) Fa FC RC ltac:(rewrite Z0; pose proof (@T_pos t); cbn; lia)) as [Fr Lr].
      destruct (deliver_val _ _ D Fr) as [F2 [-> |[Z1 L1]]]; split; auto; split; auto; right; auto. rewrite Z1. cbn [Z.abs]. pose proof (@T_pos t). lia.
  Qed.
  Lemma step0_sim (x M : F t) n : is_finite x = true -> priw t 0 n M ->
    let d := rhaz (toZ x) (2 ^ unit_exp t 0) in
    4 * quarter t < n < 8 * quarter t -> 4 * quarter t < n + d < 8 * quarter t ->
    let q := fadd (or1 (fmul x (COMPRESSION t))) M in
    let M' := fmul (fsub M q) (fmul (EXPANSION t) (mkf 1 (-1))) in
    let q1 := aadd ar (or1 (amul ar x (COMPRESSION t))) M in
    let M1 := amul ar (asub ar M q1) (amul ar (EXPANSION t) (mkf 1 (-1))) in
    q1 = q /\ simx (aadd ar (aadd ar x M1) M1) (fadd (fadd x M') M').
  Proof.
    intros Fx HM d Hn HD q M' q1 M1.
    destruct (compress_ok t x Fx) as (Fy & HY & DY). fold d in DY.
    destruct (slice_step0 t x M n Fx HM HD) as (Pq & Fx2 & Vx2). fold q in Pq. fold q M' in Fx2, Vx2. fold d in Pq, Vx2.
    pose proof (prec_pos t). pose proof (width_prec t). pose proof (width_pos t). pose proof (prec_emax t). pose proof (emin_neg t).
    assert (HE : prec t + 2 <= stored_exp t 0) by (rewrite stored_exp_0; destruct t; vm_compute; discriminate).
    pose proof (@T_pos t) as TP. pose proof (big_T 0 HE) as BT. cbv zeta in BT.
    assert (Q : q1 = q).
    { apply (word_sim ar HA 0 n d M ltac:(lia) HM Hn HD HE); auto.
      - apply compress_sim; auto.
      - intros L. rewrite <- DY. apply rhaz_small. lia. }
    split; [exact Q|].
    set (c := cexp0 t) in *. assert (Hc : 0 < c) by (unfold c, cexp0; lia).
    assert (UE : unit_exp t 0 = stored_exp t 0 + c) by (rewrite stored_exp_0, unit_exp_0; unfold c, cexp0; lia).
    set (h := unit_exp t 0 - 1). pose proof (pow2_pos h ltac:(unfold h; lia)) as Ph.
    assert (UH : 2 ^ unit_exp t 0 = 2 * 2 ^ h).
    { unfold h. rewrite <- Z.pow_succ_r by lia. f_equal. lia. }
    assert (Hd : Z.abs d <= 2 ^ (width t - 1)).
    { apply rhaz_le; [apply pow2_pos; lia|apply Z.lt_le_incl, pow2_pos; lia|].
      rewrite <- Z.pow_add_r, unit_exp_0 by lia. replace (width t - 1 + (span t - width t + 1)) with (span t) by lia.
      pose proof (toZ_span t x). lia. }
    assert (Hd2 : Z.abs d < 2 ^ prec t) by (eapply Z.le_lt_trans; [exact Hd|apply Z.pow_lt_mono_r; lia]).
    assert (DIV : forall s, is_finite s = true -> toZ s = - d * 2 ^ stored_exp t 0 ->
       is_finite (fmul s (kexp t)) = true /\ toZ (fmul s (kexp t)) = - d * 2 ^ h).
    { intros s Fs Vs. destruct (kexp_val t) as (_ & _ & _ & _ & FK & VK & _). apply fmul_exact; auto.
      - apply repr_scaled; [unfold h; lia|rewrite Z.abs_opp; exact Hd2|].
        rewrite Z.abs_mul, Z.abs_opp, (Z.abs_eq (2 ^ h)) by lia.
        apply Z.le_lt_trans with (2 ^ (width t - 1) * 2 ^ h); [apply Z.mul_le_mono_nonneg_r; lia|].
        rewrite <- Z.pow_add_r by (unfold h; lia). apply Z.pow_lt_mono_r; [lia| |]; unfold h; rewrite ?unit_exp_0; unfold span; lia.
      - rewrite toZ_B2R, Vs, VK, !mult_IZR, <- !bpow_IZR by (unfold h; lia).
        replace h with (stored_exp t 0 + (c - 1)) by (unfold h; lia). rewrite (bpow_plus _ (stored_exp t 0) (c - 1)). fold c. ring. }
    destruct (taken_sim ar HA 0 n d M ltac:(lia) HM Hn HD HE q Pq Hd2) as (F1 & V1 & F2 & V2).
    destruct (DIV _ F2 V2) as [FM' VM']. fold (kexp t) in M'. fold M' in FM', VM'.
    assert (KK : amul ar (EXPANSION t) (mkf 1 (-1)) = kexp t).
    { destruct (kexp_val t) as (K1 & K2 & K3 & K4 & K5 & _ & K6). apply mul_const; auto. }
    assert (GE : gap (t := t) (- d * 2 ^ h)).
    { apply (gap_mult _ h); [|eexists; reflexivity]. unfold h. rewrite unit_exp_0. unfold span. destruct t; vm_compute; discriminate. }
    assert (MM : is_finite M1 = true /\ toZ M1 = - d * 2 ^ h).
    { unfold M1. rewrite KK, Q. destruct HA as (_ & _ & HMul).
      destruct (HMul (asub ar M q) (kexp t)) as (a & b & Ra & Rb & D).
      destruct (kexp_val t) as (_ & _ & _ & _ & _ & _ & K6). apply read_big in Rb; [|right; lia]. subst b.
      assert (A : is_finite a = true /\ toZ a = - d * 2 ^ stored_exp t 0).
      { destruct (read_val _ _ Ra F1) as [Fa [-> |[Z0 L0]]]; auto. split; auto. rewrite V1 in L0. rewrite Z0.
        assert (d = 0) as -> by (rewrite Z.abs_mul, (Z.abs_eq (2 ^ _)) in L0 by lia; nia). reflexivity. }
      destruct A as [Fa Va]. destruct (DIV a Fa Va) as [F3 V3].
      destruct (deliver_val _ _ D F3) as [Fr [-> |[Z0 L0]]]; auto. split; auto. rewrite V3 in L0. unfold gap in GE. lia. }
    destruct MM as [FM1 VM1]. pose proof (half_repr t x Fx) as HALF. cbv zeta in HALF. fold d h in HALF.
    destruct (Z.eq_dec d 0) as [D0|ND].
    - assert (W0 : - d * 2 ^ h = 0) by (rewrite D0; reflexivity). rewrite W0 in *.
      destruct (left_sim ar HA x x M1 M' 0) as [S1 E1];
        [split; auto|exact FM1|exact FM'|exact VM1|exact VM'|left; reflexivity|intros _; reflexivity|exact HALF|].
      destruct (left_sim ar HA (aadd ar x M1) (fadd x M') M1 M' 0 S1) as [S2 E2];
        [exact FM1|exact FM'|exact VM1|exact VM'|left; reflexivity|intros _; reflexivity| |exact S2].
      rewrite E1, !Z.add_0_r in *. exact HALF.
    - assert (GX : forall k, gap (t := t) (toZ x + k * 2 ^ h)).
      { assert (XH : 2 ^ h <= Z.abs (toZ x)).
        { destruct (Z_lt_dec (2 * Z.abs (toZ x)) (2 ^ unit_exp t 0)) as [HS|HS]; [|lia].
          exfalso. apply ND. unfold d. apply rhaz_small. exact HS. }
        destruct (repr_toZ t x) as (mm & e & HX & He & Hm & _).
        assert (h - prec t < e).
        { destruct (Z_le_gt_dec e (h - prec t)); [|lia]. exfalso.
          assert (Z.abs (toZ x) < 2 ^ h); [|lia]. rewrite HX, Z.abs_mul, (Z.abs_eq (2 ^ e)) by (pose proof (pow2_pos e He); lia).
          replace h with (prec t + (h - prec t)) by lia. rewrite Z.pow_add_r by lia.
          apply Z.lt_le_trans with (2 ^ prec t * 2 ^ e); [apply Z.mul_lt_mono_pos_r; auto; apply pow2_pos; lia|].
          apply Z.mul_le_mono_nonneg_l; [apply Z.lt_le_incl, pow2_pos; lia|]. apply Z.pow_le_mono_r; lia. }
        assert (HH : 2 * prec t <= h) by (unfold h; rewrite unit_exp_0; unfold span; destruct t; vm_compute; discriminate).
        intros k. apply (gap_mult _ (Z.min e h)); [lia|]. exists (mm * 2 ^ (e - Z.min e h) + k * 2 ^ (h - Z.min e h)).
        rewrite HX, Z.mul_add_distr_r, <- !Z.mul_assoc, <- !Z.pow_add_r by lia.
        replace (e - Z.min e h + Z.min e h) with e by lia. replace (h - Z.min e h + Z.min e h) with h by lia. reflexivity. }
      destruct (add_gap ar HA x M1 (toZ x) (- d * 2 ^ h) Fx FM1 eq_refl VM1) as [F3 V3]; auto.
      { pose proof (GX 0) as G. rewrite Z.mul_0_l, Z.add_0_r in G. exact G. }
      destruct (add_gap ar HA (aadd ar x M1) M1 (toZ x + - d * 2 ^ h) (- d * 2 ^ h) F3 FM1 V3 VM1) as [F4 V4]; auto.
      { replace (toZ x + - d * 2 ^ h + - d * 2 ^ h) with (toZ x + (- d - d) * 2 ^ h) by ring. apply GX. }
      { replace (toZ x + - d * 2 ^ h + - d * 2 ^ h) with (toZ x - d * 2 ^ unit_exp t 0) by (rewrite UH; ring).
        rewrite <- Vx2. apply repr_toZ. }
      split; auto. split; auto.
      replace (toZ x + - d * 2 ^ h + - d * 2 ^ h) with (toZ x - d * 2 ^ unit_exp t 0) in V4 by (rewrite UH; ring). rewrite <- Vx2 in V4.
      set (r1 := aadd ar (aadd ar x M1) M1) in *. set (r := fadd (fadd x M') M') in *.
      destruct (Z.eq_dec (toZ r) 0) as [E0|N0].
      + right. rewrite V4, E0. cbn [Z.abs]. lia.
      + left. apply float_ext; auto. left. congruence.
  Qed.
End BIN0.
(** ** A whole deposit *)
Section RUN.
  Context {t : ty} (ar : arith t).
  Hypothesis HA : flushing ar.
  Context (p ip k X : Z) (V : Z -> Z).
  Hypothesis HX : Z.abs X <= 2 ^ span t.
  Definition ready (m : mem t) (l : Z) : Prop :=
    priw t (k + l) (6 * quarter t + V (k + l)) (m (p + l * ip)) /\
    - 2 * quarter t < V (k + l) < 2 * quarter t /\ - 2 * quarter t < V (k + l) + slice t X (k + l) < 2 * quarter t /\
    prec t + 2 <= stored_exp t (k + l).
  Lemma run_sim n : forall i (m : mem t) x1 x,
    (forall a b, i <= a <= i + Z.of_nat n -> i <= b <= i + Z.of_nat n -> p + a * ip = p + b * ip -> a = b) ->
    0 < k + i -> simx x1 x -> toZ x = remainder t X (Z.to_nat (k + i)) ->
    (forall l, i <= l <= i + Z.of_nat n -> ready m l) ->
    let s1 := loop n i (deposit_step_in ar p ip) (m, x1) in let s := loop n i (deposit_step p ip) (m, x) in
    let a := p + (i + Z.of_nat n) * ip in
    upd (fst s1) a (aadd ar (fst s1 a) (or1 (snd s1))) = upd (fst s) a (fadd (fst s a) (or1 (snd s))).
  Proof.
    induction n as [|n IH]; intros i m x1 x Inj Hk S Vx R.
    - cbn [loop fst snd Z.of_nat]. cbv zeta. rewrite Z.add_0_r. f_equal.
      destruct (R i ltac:(lia)) as (R1 & R2 & R3 & R4). pose proof S as (_ & Fx & _).
      assert (HR : Z.abs (toZ x) <= 2 ^ (unit_exp t (k + i) + width t - 1)).
      { rewrite Vx. pose proof (remainder_bound t X (Z.to_nat (k + i)) HX) as B. rewrite Z2Nat.id in B by lia. exact B. }
      assert (SL : rhaz (toZ x) (2 ^ unit_exp t (k + i)) = slice t X (k + i)) by (unfold slice; now rewrite Vx).
      apply (word_sim ar HA (k + i) (6 * quarter t + V (k + i)) (slice t X (k + i)) _ ltac:(lia) R1 ltac:(lia) ltac:(lia) R4 x1 x S).
      + intros L. rewrite <- SL. apply rhaz_small. rewrite <- stored_exp_pos by lia. pose proof (big_T (k + i) R4) as B. cbv zeta in B. lia.
      + pose proof (slice_last t x _ (k + i) _ Fx Hk R1 HR) as SS. cbv zeta in SS. rewrite SL in SS. apply SS. lia.
    - destruct (R i ltac:(lia)) as (R1 & R2 & R3 & R4). pose proof S as (_ & Fx & _).
      assert (HR : Z.abs (toZ x) <= 2 ^ (unit_exp t (k + i) + width t - 1)).
      { rewrite Vx. pose proof (remainder_bound t X (Z.to_nat (k + i)) HX) as B. rewrite Z2Nat.id in B by lia. exact B. }
      assert (SL : rhaz (toZ x) (2 ^ unit_exp t (k + i)) = slice t X (k + i)) by (unfold slice; now rewrite Vx).
      pose proof (big_T (k + i) R4) as BT. cbv zeta in BT. pose proof (@T_pos t) as TP. rewrite stored_exp_pos in BT by lia.
      assert (T0 : Z.abs (toZ x) <= least_normal t -> slice t X (k + i) = 0).
      { intros L. rewrite <- SL. apply rhaz_small. lia. }
      pose proof (slice_step t x _ (k + i) _ Fx Hk R1 HR) as SS. cbv zeta in SS. rewrite SL in SS. destruct SS as (Pq & Fx2 & Vx2); [lia|].
      set (M := m (p + i * ip)) in *.
      destruct (word_sim ar HA (k + i) (6 * quarter t + V (k + i)) (slice t X (k + i)) M ltac:(lia) R1 ltac:(lia) ltac:(lia) R4 x1 x S T0) as [Q _].
      specialize (Q Pq). pose proof (width_prec t). pose proof (width_pos t).
      assert (Hd2 : Z.abs (slice t X (k + i)) < 2 ^ prec t).
      { eapply Z.le_lt_trans; [apply slice_bound; [lia|exact HX]|]. apply Z.pow_lt_mono_r; lia. }
      destruct (taken_sim ar HA (k + i) _ (slice t X (k + i)) M ltac:(lia) R1 ltac:(lia) ltac:(lia) R4 _ Pq Hd2) as (F1 & V1 & F2 & V2).
      destruct (left_sim ar HA x1 x _ _ _ S F1 F2 V1 V2) as [S2 E2].
      { rewrite stored_exp_pos by lia. destruct (Z.eq_dec (slice t X (k + i)) 0) as [-> |N0]; [left; reflexivity|right].
        rewrite Z.abs_mul, (Z.abs_eq (2 ^ _)) by lia. revert BT N0. generalize (slice t X (k + i)) (2 ^ unit_exp t (k + i)). clear - TP. intros; nia. }
      { intros L. rewrite (T0 L). reflexivity. }
      { rewrite stored_exp_pos by lia. replace (toZ x + - slice t X (k + i) * 2 ^ unit_exp t (k + i)) with (toZ x - slice t X (k + i) * 2 ^ unit_exp t (k + i)) by ring.
        rewrite <- Vx2. apply repr_toZ. }
      cbn [loop]. unfold deposit_step_in at 2 4 6. unfold deposit_step at 2 4 6. cbv zeta. fold M. rewrite Q.
      replace (i + Z.of_nat (Datatypes.S n)) with (i + 1 + Z.of_nat n) by lia.
      apply (IH (i + 1)).
      + intros a b Ha Hb. apply Inj; lia.
      + lia.
      + exact S2.
      + rewrite Vx2, Vx. replace (k + (i + 1)) with (k + i + 1) by lia. rewrite remainder_succ by lia. reflexivity.
      + intros l Hl. destruct (R l ltac:(lia)) as (Q1 & Q2). split; auto. rewrite upd_other; auto. intros E. apply Inj in E; lia.
  Qed.
End RUN.
Lemma special_add t (ar : arith t) (a b : F t) : flushing ar -> is_finite a && is_finite b = false -> aadd ar a b = fadd a b.
Proof.
  intros [HAdd _] F. destruct (HAdd a b) as (a' & b' & Ra & Rb & D).
  assert (N : fadd a' b' = fadd a b /\ is_finite (fadd a b) = false).
  { destruct (is_finite a) eqn:Fa.
    - cbn [andb] in F. apply (read_big b) in Rb; auto. subst b'. destruct (read_val _ _ Ra Fa) as [Fa' _].
      rewrite !fadd_fin_l by auto. auto.
    - apply (read_big a) in Ra; auto. subst a'. destruct (is_finite b) eqn:Fb.
      + destruct (read_val _ _ Rb Fb) as [Fb' _]. rewrite !fadd_fin_r by auto. auto.
      + apply (read_big b) in Rb; auto. subst b'. split; auto. destruct a as [|[]| |], b as [|[]| |]; try discriminate; reflexivity. }
  destruct N as [N1 N2]. rewrite N1 in D. destruct D as [D|(C & _)]; [exact D|congruence].
Qed.
(** The exponent of a word of bin k passes the test of binned_dmdenorm. *)
Definition calm (t : ty) (fold k : Z) : Prop := min_exp t + prec t + EXP_BIAS t + width t <= stored_exp t k + 1 - width t * fold.
Lemma denorm_calm t fold k (p0 : F t) n : 0 <= k <= jmax t -> priw t k n p0 -> inbin t n -> dmdenorm fold p0 = false <-> calm t fold k.
Proof.
  intros Hk HP Hn. unfold dmdenorm, calm. rewrite (priw_EXP t k n) by (auto; lia). rewrite Z.ltb_ge, WIDTH_eq. reflexivity.
Qed.
Lemma calm_bins t fold k i : 0 <= k <= jmax t -> calm t fold k -> 0 <= i < fold -> prec t + 2 <= stored_exp t (k + i).
Proof.
  intros Hk HD Hi. unfold calm in HD.
  pose proof (width_pos t). assert (2 <= width t) by (destruct t; vm_compute; discriminate).
  assert (ME : min_exp t + EXP_BIAS t = 1) by (unfold min_exp, EXP_BIAS; lia).
  assert (UE : stored_exp t k <= unit_exp t k). { unfold stored_exp. pose proof (width_prec t). destruct (k =? 0); lia. }
  assert (unit_exp t k - i * width t <= unit_exp t (k + i)) by (unfold unit_exp; nia).
  destruct (Z.eq_dec (k + i) 0) as [E0|N0].
  - assert (i = 0) as -> by lia. rewrite Z.add_0_r. nia.
  - rewrite stored_exp_pos by lia. nia.
Qed.
Lemma rep_calm t fold us xs d P W : 2 <= fold -> rep t fold us xs d P W -> 0 <= d < endurance t -> us ++ xs <> [] ->
  is_finite (P 0) = true -> dmdenorm fold (P 0) = false <-> calm t fold (lead (us ++ xs)).
Proof.
  intros Hf H Hd NE FP. unfold rep in H. destruct (all_finite xs) eqn:HF.
  2:{ rewrite H, special_fin in FP. discriminate. }
  destruct (us ++ xs) eqn:E; [congruence|]. rewrite <- E in *. clear E.
  set (k := lead (us ++ xs)) in *. pose proof (lead_range (us ++ xs)) as LR. fold k in LR.
  destruct H as (V & C & A & S & ZV & ZC & B). pose proof (quarter_endurance t) as QE. pose proof (quarter_pos t) as QP. pose proof (width_pos t).
  pose proof (pow2_pos (width t - 1) ltac:(lia)) as WP. assert (DB : (d + 1) * 2 ^ (width t - 1) <= quarter t) by nia.
  destruct A as [_ A]. destruct (A 0 ltac:(lia)) as [A0 _]. rewrite Z.add_0_r in A0.
  eapply denorm_calm; eauto. specialize (B k ltac:(lia)). unfold inbin. lia.
Qed.
Lemma deposit_sim t fold (ar : arith t) p ip c ic us xs d X (m : mem t) : 2 <= fold <= MAXFOLD t -> layout fold p ip c ic -> flushing ar ->
  rep t fold us xs d (P_of m p ip) (P_of m c ic) -> 0 <= d < endurance t -> us ++ xs <> [] -> lead (us ++ xs) <= findex X ->
  (is_finite (m p) = true -> calm t fold (lead (us ++ xs))) -> dmddeposit_in ar fold X p ip m = dmddeposit fold X p ip m.
Proof.
  intros Hf L HA H Hd NE HL HN.
  destruct (is_finite X && is_finite (m p)) eqn:FF.
  2:{ unfold dmddeposit_in, dmddeposit. rewrite !ISNANINF_fin.
      assert (negb (is_finite X) || negb (is_finite (m p)) = true) as -> by (destruct (is_finite X), (is_finite (m p)); auto).
      rewrite special_add; auto. rewrite andb_comm. exact FF. }
  apply andb_true_iff in FF. destruct FF as [FX FP].
  unfold rep in H. destruct (all_finite xs) eqn:HF.
  2:{ rewrite P_of_0 in H. rewrite H, special_fin in FP. discriminate. }
  destruct (us ++ xs) eqn:E; [congruence|]. rewrite <- E in *. clear E.
  set (k := lead (us ++ xs)) in *. pose proof (lead_range (us ++ xs)) as LR. fold k in LR.
  destruct H as (V & C & A & S & ZV & ZC & B).
  assert (HL' : k <= bin_of t (toZ X)) by (unfold findex in HL; rewrite FX in HL; auto).
  assert (HX : Z.abs (toZ X) <= 2 ^ span t) by (pose proof (toZ_span t X); lia).
  assert (SB : forall j, 0 <= j -> Z.abs (slice t (toZ X) j) <= 2 ^ (width t - 1)) by (intros; apply slice_bound; auto).
  pose proof (quarter_endurance t) as QE. pose proof (quarter_pos t) as QP. pose proof (width_pos t).
  pose proof (pow2_pos (width t - 1) ltac:(lia)) as WP.
  assert (DB : (d + 1) * 2 ^ (width t - 1) <= quarter t) by nia.
  assert (IB : inbin t (6 * quarter t + V k)) by (specialize (B k ltac:(lia)); unfold inbin; lia).
  destruct (priw_0 _ _ _ _ _ _ _ A ltac:(lia) IB) as (N1 & N2 & N3 & N4). rewrite P_of_0 in N1, N2, N3, N4.
  assert (RD : forall l, 0 <= l < fold -> ready p ip k (toZ X) V m l).
  { intros w Hw. destruct A as [_ A]. destruct (A w Hw) as [A1 _]. pose proof (B (k + w) ltac:(lia)). pose proof (SB (k + w) ltac:(lia)).
    split; [exact A1|]. split; [lia|]. split; [lia|]. apply (calm_bins t fold); auto. }
  assert (Inj : forall a b, 0 <= a < fold -> 0 <= b < fold -> p + a * ip = p + b * ip -> a = b) by (intros; apply (lay_p _ _ _ _ _ L); auto).
  unfold dmddeposit_in, dmddeposit. rewrite N2, N4, ISNANINF_fin, FX. cbn [negb orb].
  destruct (Z.eqb_spec k 0) as [K0|NK].
  - cbv zeta. destruct (RD 0 ltac:(lia)) as (R1 & R2 & R3 & R4). replace (k + 0) with 0 in R1, R2, R3, R4 by lia.
    replace (p + 0 * ip) with p in R1 by lia.
    assert (SL : rhaz (toZ X) (2 ^ unit_exp t 0) = slice t (toZ X) 0) by reflexivity.
    pose proof (step0_sim ar HA X (m p) _ FX R1) as S0. cbv zeta in S0. rewrite SL in S0. destruct S0 as [Q S1]; [lia|lia|]. rewrite Q in *.
    pose proof (slice_step0 t X (m p) _ FX R1) as S2. cbv zeta in S2. rewrite SL in S2. destruct S2 as (_ & F2 & V2); [lia|].
    set (q := fadd (or1 (fmul X (COMPRESSION t))) (m p)) in *.
    set (x1 := aadd ar (aadd ar X _) _) in *. set (x := fadd (fadd X _) _) in *. clearbody x1 x.
    pose proof (run_sim ar HA p ip 0 (toZ X) V HX (Z.to_nat (fold - 1 - 1)) 1 (upd m p q) x1 x) as RS. cbv zeta in RS.
    rewrite Z2Nat.id in RS by lia. unfold for_up. rewrite Z.max_l by lia.
    replace (1 + (fold - 1 - 1)) with (fold - 1) in RS by lia.
    destruct (loop (Z.to_nat (fold - 1 - 1)) 1 (deposit_step_in ar p ip) (upd m p q, x1)) as [ma xa].
    destruct (loop (Z.to_nat (fold - 1 - 1)) 1 (deposit_step p ip) (upd m p q, x)) as [mb xb]. cbn [fst snd] in RS. apply RS; auto.
    + intros a b Ha Hb. apply Inj; lia.
    + lia.
    + intros w Hw. destruct (RD w ltac:(lia)) as (Q1 & Q2). rewrite K0 in Q1, Q2. split; auto. rewrite upd_other; auto. intros E.
      assert (w = 0) by (apply Inj; lia). lia.
  - cbv zeta. pose proof (run_sim ar HA p ip k (toZ X) V HX (Z.to_nat (fold - 1 - 0)) 0 m X X) as RS. cbv zeta in RS.
    rewrite Z2Nat.id in RS by lia. unfold for_up. rewrite Z.max_l by lia.
    replace (0 + (fold - 1 - 0)) with (fold - 1) in RS by lia.
    destruct (loop (Z.to_nat (fold - 1 - 0)) 0 (deposit_step_in ar p ip) (m, X)) as [ma xa].
    destruct (loop (Z.to_nat (fold - 1 - 0)) 0 (deposit_step p ip) (m, X)) as [mb xb]. cbn [fst snd] in RS. apply RS; auto.
    + intros a b Ha Hb. apply Inj; lia.
    + lia.
    + split; auto.
    + rewrite Z.add_0_r, remainder_below by lia. reflexivity.
    + intros w Hw. apply RD. lia.
Qed.

(** ** C68 *)
(** Deposits done while binned_dmdenorm of the accumulator is 0 give the same memory in
    every arithmetic that flushes denormals. *)
Lemma deposit_list_sim t fold (ar : arith t) Y us ys : 2 <= fold <= MAXFOLD t -> flushing ar -> forall xs d (m : mem t),
  rep t fold us xs d (dpri m Y) (dcar m Y fold) -> 0 <= d -> d + Z.of_nat (length ys) <= endurance t -> us ++ xs <> [] ->
  (forall y, In y ys -> lead (us ++ xs) <= findex y) -> (is_finite (m Y) = true -> calm t fold (lead (us ++ xs))) ->
  deposit_list_in ar fold ys Y m = deposit_list fold ys Y m.
Proof.
  intros Hf HA. induction ys as [|y ys IH]; intros xs d m H Hd HL NE HB HC; [reflexivity|]. cbn [length] in HL.
  cbn [deposit_list_in deposit_list fold_left].
  assert (LY := layout_contig fold Y ltac:(lia)).
  assert (E : dbddeposit_in ar fold y Y m = dbddeposit fold y Y m).
  { unfold dbddeposit_in, dbddeposit. eapply (deposit_sim t fold ar Y 1 (Y + fold) 1 us xs d); eauto; [lia|apply HB; left; reflexivity]. }
  rewrite E. destruct (rep_deposit LY (Hf2 fold Hf) m us xs d y H ltac:(lia) NE (HB y (or_introl eq_refl))) as [H1 _]. cbv zeta in H1.
  fold (dbddeposit fold y Y m) in H1.
  assert (LE : lead (us ++ y :: xs) = lead (us ++ xs)).
  { specialize (HB y (or_introl eq_refl)). rewrite !lead_app, lead_cons in *. lia. }
  apply (IH (y :: xs) (d + 1)); auto; try lia.
  - intros E0. apply app_eq_nil in E0. destruct E0; discriminate.
  - intros z Hz. rewrite LE. apply HB. right. exact Hz.
  - intros F1. rewrite LE. apply HC. destruct (is_finite (m Y)) eqn:F0; auto.
    unfold dbddeposit, dmddeposit in F1. rewrite (ISNANINF_fin t (m Y)), F0, orb_true_r, upd_same in F1.
    destruct (m Y) as [|[]| |]; try discriminate; destruct y as [|[]| |]; discriminate.
Qed.
Theorem C68_deposits t fold (ar : arith t) Y us xs ys (m : mem t) :
  2 <= fold <= MAXFOLD t -> flushing ar -> acc_at fold us xs m Y -> us ++ xs <> [] ->
  Z.of_nat (length xs) <= CAPACITY t -> Z.of_nat (length ys) <= ENDURANCE t ->
  (forall y, In y ys -> is_finite y = true /\ lead (us ++ xs) <= dindex y) ->
  dmdenorm fold (m Y) = false ->
  deposit_list_in ar fold ys Y m = deposit_list fold ys Y m.
Proof.
  intros Hf HA H NE HC HE HB HD. rewrite CAPACITY_eq in HC. rewrite ENDURANCE_eq in HE.
  apply holds_rep in H; [|exact HC].
  apply (deposit_list_sim t fold ar Y us ys Hf HA xs 0 m H); auto; try lia.
  - intros y Hy. destruct (HB y Hy) as [Fy B]. unfold findex. rewrite Fy, <- dindex_spec by exact Fy. exact B.
  - intros FP. pose proof (rep_calm t fold us xs 0 _ _ ltac:(lia) H ltac:(pose proof (endurance_pos t); lia) NE) as R. cbv beta in R.
    replace (Y + 0 * 1) with Y in R by lia. apply R; auto.
Qed.
Print Assumptions C68_deposits.
(** The modes of the processor are such arithmetics. *)
Lemma flush_zero t (x : F t) : flush x = x \/ (is_finite x = true /\ Z.abs (toZ x) < least_normal t /\ is_zero (flush x)).
Proof.
  unfold flush. destruct (is_finite x) eqn:F1; cbn [andb]; auto. destruct (Z.ltb_spec (Z.abs (toZ x)) (least_normal t)); auto.
  right. repeat split; auto. destruct (Bsign x); [right|left]; reflexivity.
Qed.
Lemma C68_ieee t : flushing (ieee t).
Proof. split; [|split]; intros a b; exists a, b; repeat split; try (left; reflexivity). Qed.
Lemma C68_daz_ftz t : flushing (daz_ftz t).
Proof.
  assert (G : forall f : F t -> F t -> F t, may_flush (fun a b => flush (f (flush a) (flush b))) f).
  { intros f a b. exists (flush a), (flush b). split; [apply flush_zero|]. split; [apply flush_zero|].
    destruct (flush_zero t (f (flush a) (flush b))) as [E|(F1 & L & Z0)]; [left; exact E|right]. split; auto. split; auto. lia. }
  split; [|split]; apply G.
Qed.

(** Exactly when the answer is 0: the last bin of the accumulator is at most bin 48
    (double, of 0..51) or 16 (single, of 0..20); one less when the accumulator starts in bin 0. *)
Definition quiet (t : ty) (fold k : Z) : Prop :=
  k + fold - 1 <= match t with Dbl => 48 | Flt => 16 end - (if k =? 0 then 1 else 0).
Lemma calm_quiet t fold k : 0 <= k <= jmax t -> calm t fold k <-> quiet t fold k.
Proof.
  intros Hk. unfold calm, quiet.
  assert (N : span t = match t with Dbl => 2098 | Flt => 277 end /\ prec t = match t with Dbl => 53 | Flt => 24 end /\
    width t = match t with Dbl => 40 | Flt => 13 end /\ min_exp t + EXP_BIAS t = 1) by (destruct t; repeat split; reflexivity).
  destruct N as (N1 & N2 & N3 & N4). destruct (Z.eqb_spec k 0) as [-> |N].
  - rewrite stored_exp_0, N1, N2, N3. destruct t; lia.
  - rewrite stored_exp_pos, unit_exp_in, N1, N2, N3 by lia. destruct t; lia.
Qed.
Theorem C68_test t fold Y us xs (m : mem t) :
  2 <= fold <= MAXFOLD t -> acc_at fold us xs m Y -> us ++ xs <> [] -> all_finite xs = true -> Z.of_nat (length xs) <= CAPACITY t ->
  dmdenorm fold (m Y) = false <-> quiet t fold (lead (us ++ xs)).
Proof.
  intros Hf H NE AF HC. rewrite CAPACITY_eq in HC. apply holds_rep in H; [|exact HC].
  rewrite <- calm_quiet by apply lead_range. replace (m Y) with (m (Y + 0 * 1)) by (f_equal; lia).
  pose proof (rep_calm t fold us xs 0 _ _ ltac:(lia) H ltac:(pose proof (endurance_pos t); lia) NE) as R. cbv beta in R. apply R.
  unfold rep in H. rewrite AF in H. destruct (us ++ xs) eqn:E; [congruence|]. destruct H as (V & C & [_ A] & _).
  destruct (A 0 ltac:(lia)) as [[A0 _] _]. exact A0.
Qed.
Print Assumptions C68_test.
Theorem C68_test_complex t fold Y us vs zs (m : mem t) :
  2 <= fold <= MAXFOLD t -> zacc_at fold us vs zs m Y -> us ++ map fst zs <> [] -> vs ++ map snd zs <> [] ->
  all_finite (map fst zs) = true -> all_finite (map snd zs) = true -> Z.of_nat (length zs) <= CAPACITY t ->
  zmdenorm fold Y m = false <-> quiet t fold (lead (us ++ map fst zs)) /\ quiet t fold (lead (vs ++ map snd zs)).
Proof.
  intros Hf [HR HI] N1 N2 A1 A2 HC. rewrite CAPACITY_eq in HC. apply holds_rep in HR; [|rewrite map_length; exact HC].
  apply holds_rep in HI; [|rewrite map_length; exact HC].
  assert (G : forall us xs P W, rep t fold us xs 0 P W -> us ++ xs <> [] -> all_finite xs = true -> dmdenorm fold (P 0) = false <-> quiet t fold (lead (us ++ xs))).
  { clear - Hf. intros us xs P W H NE AF. rewrite <- calm_quiet by apply lead_range.
    apply (rep_calm t fold us xs 0 P W ltac:(lia) H ltac:(pose proof (endurance_pos t); lia) NE).
    unfold rep in H. rewrite AF in H. destruct (us ++ xs) eqn:E; [congruence|]. destruct H as (V & C & [_ A] & _).
    destruct (A 0 ltac:(lia)) as [[A0 _] _]. exact A0. }
  specialize (G us _ _ _ HR N1 A1) as G1. specialize (G vs _ _ _ HI N2 A2) as G2. cbv beta in G1, G2.
  replace (Y + 0 * 2) with Y in G1 by lia. replace (Y + 1 + 0 * 2) with (Y + 1) in G2 by lia.
  unfold zmdenorm. rewrite orb_false_iff, G1, G2. reflexivity.
Qed.
Print Assumptions C68_test_complex.
(** A case: fold 3, numbers near 1 and a denormal one, in the flushing mode. *)
Example C68_case : flushing (daz_ftz Dbl) /\ dmdenorm 3 (sum_list 3 0 [mkf 1 0; mkf 3 5] (fun _ => fzero : F Dbl) 0) = false /\
  jmax Dbl = dindex (mkf 1 (-1074) : F Dbl).
Proof. split; [apply C68_daz_ftz|]. split; vm_compute; reflexivity. Qed.
(** When the answer is 1 the words can differ: a denormal number deposited in its own bin. *)
Definition c68_mem : mem Dbl := dbdupdate 2 (mkf 1 (-1074)) 0 (fun _ => fzero).
Example C68_needed : dmdenorm 2 (c68_mem 0) = true /\
  bits (deposit_list_in (daz_ftz Dbl) 2 [mkf 1 (-1040)] 0 c68_mem 0) <> bits (deposit_list 2 [mkf 1 (-1040)] 0 c68_mem 0).
Proof. split; vm_compute; [reflexivity|discriminate]. Qed.
