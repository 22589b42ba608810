(** * One-word steps of the accumulator algorithms *)
From Coq Require Import ZArith Bool List Lia Reals Lra.
From Flocq Require Import Core BinarySingleNaN.
From Verif Require Import Fp Spec FpProofs Mem Binned BitProofs CoreArith SpecProofs.
Open Scope Z_scope.

Lemma fmul_exact t (x y : F t) n :
  is_finite x = true -> is_finite y = true -> repr t n ->
  (B2R x * B2R y = IZR n * bpow radix2 (emin t))%R ->
  is_finite (fmul x y) = true /\ toZ (fmul x y) = n.
Proof.
  intros Fx Fy R E. unfold fmul.
  pose proof (Bmult_correct _ _ (prec_gt_0 t) (prec_lt_emax t) mode_NE x y) as C.
  rewrite E in C.
  rewrite round_generic in C; [|apply valid_rnd_round_mode|now apply repr_format].
  rewrite Rlt_bool_true in C by now apply repr_small.
  destruct C as (C1 & C2 & _). rewrite Fx, Fy in C2. split; auto.
  rewrite toZ_B2R in C1. now apply IZR_bpow_inj in C1.
Qed.

(** A power of two constant. *)
Lemma mkf_pow2 t e : emin t <= e < emax t ->
  is_finite (mkf 1 e : F t) = true /\ B2R (mkf 1 e : F t) = bpow radix2 e.
Proof.
  intros He. pose proof (prec_pos t). pose proof (prec_emax t).
  assert (R : repr t (1 * 2 ^ (e - emin t))).
  { exists 1, (e - emin t). repeat split; try lia.
    - apply (Z.pow_gt_1 2); lia.
    - rewrite Z.mul_1_l, Z.abs_eq by (apply Z.lt_le_incl, pow2_pos; lia). apply Z.pow_lt_mono_r; lia. }
  destruct (mkf_exact t 1 e ltac:(lia) R) as (A & B & _). split; auto.
  rewrite toZ_B2R, B, Z.mul_1_l, <- bpow_IZR, <- bpow_plus by lia. f_equal. lia.
Qed.

Lemma repr_scaled t mm e : 0 <= e -> Z.abs mm < 2 ^ prec t -> Z.abs (mm * 2 ^ e) < 2 ^ span t ->
  repr t (mm * 2 ^ e).
Proof. intros. exists mm, e. auto. Qed.

Lemma repr_le t mm e : 0 <= e -> Z.abs mm < 2 ^ prec t -> e + prec t <= span t -> repr t (mm * 2 ^ e).
Proof.
  intros He Hm Hs. apply repr_scaled; auto. pose proof (prec_pos t).
  rewrite Z.abs_mul, (Z.abs_eq (2 ^ e)) by (apply Z.lt_le_incl, pow2_pos; lia).
  apply Z.lt_le_trans with (2 ^ prec t * 2 ^ e).
  - apply Z.mul_lt_mono_pos_r; auto. now apply pow2_pos.
  - rewrite <- Z.pow_add_r by lia. apply Z.pow_le_mono_r; lia.
Qed.

Lemma repr_smaller t X b E : repr t X -> b = 2 ^ E -> 0 <= E ->
  forall Y c, Y = X - c * b -> Z.abs Y <= Z.abs X -> (forall k, X = k * b -> repr t Y) -> repr t Y.
Proof.
  intros (mm & e & HX & He & Hm & Hs) Hb HE Y c HY HL HM. subst b.
  destruct (Z_le_gt_dec E e).
  - apply (HM (mm * 2 ^ (e - E))). rewrite HX, <- Z.mul_assoc, <- Z.pow_add_r by lia.
    f_equal. f_equal. lia.
  - assert (Y = (mm - c * 2 ^ (E - e)) * 2 ^ e).
    { rewrite HY, HX. rewrite Z.mul_sub_distr_r, <- Z.mul_assoc, <- Z.pow_add_r by lia.
      replace (E - e + e) with E by lia. reflexivity. }
    exists (mm - c * 2 ^ (E - e)), e. repeat split; auto; try lia.
    apply Z.le_lt_trans with (Z.abs mm); auto.
    pose proof (pow2_pos e He).
    rewrite H, HX, !Z.abs_mul, (Z.abs_eq (2 ^ e)) in HL by lia.
    apply Z.mul_le_mono_pos_r in HL; auto.
Qed.

Lemma rhaz_mult k b : 0 < b -> rhaz (k * b) b = k.
Proof.
  intros Hb. pose proof (rhaz_near (k * b) b Hb) as H.
  rewrite <- Z.mul_sub_distr_r, Z.abs_mul, (Z.abs_eq b) in H by lia.
  assert (Z.abs (k - rhaz (k * b) b) < 1) by nia. lia.
Qed.

Lemma repr_rem t X E : repr t X -> 0 <= E -> repr t (X - rhaz X (2 ^ E) * 2 ^ E).
Proof.
  intros R HE. pose proof (pow2_pos E HE).
  eapply (repr_smaller t X (2 ^ E) E R eq_refl HE); [reflexivity|now apply rhaz_rem_le|].
  intros k ->. rewrite rhaz_mult, Z.sub_diag by easy. exists 0, 0.
  pose proof (prec_pos t). pose proof (prec_emax t). pose proof (emin_neg t).
  repeat split; simpl; try lia; apply pow2_pos; lia.
Qed.

(** ** A slice step in a bin other than bin 0 *)
Lemma slice_step t (x M : F t) j n :
  is_finite x = true -> 0 < j -> priw t j n M ->
  Z.abs (toZ x) <= 2 ^ (unit_exp t j + width t - 1) ->
  let d := rhaz (toZ x) (2 ^ unit_exp t j) in
  4 * quarter t < n + d < 8 * quarter t ->
  let q := fadd (or1 x) M in
  let x' := fadd x (fsub M q) in
  priw t j (n + d) q /\ is_finite x' = true /\ toZ x' = toZ x - d * 2 ^ unit_exp t j.
Proof.
  intros Fx Hj [FM VM] HX d Hn q x'. rewrite stored_exp_pos in VM by easy.
  set (E := unit_exp t j) in *. pose proof (unit_exp_ge t j) as HE. fold E in HE.
  pose proof (pow2_pos E ltac:(lia)) as PE. pose proof (mw_pos t). pose proof (width_prec t). pose proof (width_pos t).
  assert (HX' : Z.abs (toZ x) < 2 ^ (E + mw t - 1)).
  { eapply Z.le_lt_trans; [exact HX|]. apply Z.pow_lt_mono_r; unfold mw; lia. }
  pose proof (or1_rhaz t x E Fx ltac:(lia) HX') as HR. fold d in HR.
  destruct (or1_val t x Fx) as (_ & _ & _ & FO & _).
  pose proof (stored_exp_le t j ltac:(lia)) as HL. rewrite stored_exp_pos in HL by easy. fold E in HL.
  rewrite quarter4, quarter8 in Hn. unfold mw in Hn. unfold span in HL.
  destruct (fadd_round t (or1 x) M (n + d) E) as [Fq Vq]; auto; try lia.
  fold q in Fq, Vq.
  assert (Hd : Z.abs d <= 2 ^ (width t - 1)).
  { apply rhaz_le; auto. apply Z.lt_le_incl, pow2_pos; lia.
    rewrite <- Z.pow_add_r by lia. replace (width t - 1 + E) with (E + width t - 1) by lia. exact HX. }
  destruct (fsub_exact t M q FM Fq) as (Fs & Vs & _).
  { rewrite VM, Vq. replace (n * 2 ^ E - (n + d) * 2 ^ E) with ((- d) * 2 ^ E) by ring.
    apply repr_le; unfold span; try lia. rewrite Z.abs_opp. eapply Z.le_lt_trans; [exact Hd|].
    apply Z.pow_lt_mono_r; lia. }
  destruct (fadd_exact t x (fsub M q) Fx Fs) as (Fx' & Vx' & _).
  { rewrite Vs, VM, Vq. replace (toZ x + (n * 2 ^ E - (n + d) * 2 ^ E)) with (toZ x - d * 2 ^ E) by ring.
    apply repr_rem; [apply repr_toZ|lia]. }
  fold x' in Fx', Vx'. split; [|split]; auto.
  - split; auto. rewrite stored_exp_pos by easy. exact Vq.
  - rewrite Vx', Vs, VM, Vq. ring.
Qed.

(** The last word: only the sum matters. *)
Lemma slice_last t (x M : F t) j n :
  is_finite x = true -> 0 < j -> priw t j n M ->
  Z.abs (toZ x) <= 2 ^ (unit_exp t j + width t - 1) ->
  let d := rhaz (toZ x) (2 ^ unit_exp t j) in
  4 * quarter t < n + d < 8 * quarter t ->
  priw t j (n + d) (fadd M (or1 x)).
Proof.
  intros Fx Hj [FM VM] HX d Hn. rewrite stored_exp_pos in VM by easy.
  set (E := unit_exp t j) in *. pose proof (unit_exp_ge t j) as HE. fold E in HE.
  pose proof (pow2_pos E ltac:(lia)) as PE. pose proof (mw_pos t). pose proof (width_prec t). pose proof (width_pos t).
  assert (HX' : Z.abs (toZ x) < 2 ^ (E + mw t - 1)).
  { eapply Z.le_lt_trans; [exact HX|]. apply Z.pow_lt_mono_r; unfold mw; lia. }
  pose proof (or1_rhaz t x E Fx ltac:(lia) HX') as HR. fold d in HR.
  destruct (or1_val t x Fx) as (_ & _ & _ & FO & _).
  pose proof (stored_exp_le t j ltac:(lia)) as HL. rewrite stored_exp_pos in HL by easy. fold E in HL.
  rewrite quarter4, quarter8 in Hn. unfold mw in Hn. unfold span in HL.
  destruct (fadd_round t M (or1 x) (n + d) E) as [Fq Vq]; auto; try lia.
  split; auto. rewrite stored_exp_pos by easy. exact Vq.
Qed.

(** ** Bin 0: compressed *)
Definition cexp0 (t : ty) : Z := prec t - width t + 1.

Lemma rhaz_scale a b k : 0 < k -> 0 < b -> rhaz (a * k) (b * k) = rhaz a b.
Proof.
  intros. destruct (Z_le_gt_dec 0 a).
  - rewrite !rhaz_nonneg by (try apply Z.mul_nonneg_nonneg; try apply Z.mul_pos_pos; lia).
    replace (2 * (a * k) + b * k) with ((2 * a + b) * k) by ring.
    replace (2 * (b * k)) with (2 * b * k) by ring. apply Z.div_mul_cancel_r; lia.
  - replace a with (- - a) by lia. set (a' := - a). rewrite Z.mul_opp_l, !rhaz_opp. f_equal.
    rewrite !rhaz_nonneg by (try apply Z.mul_nonneg_nonneg; try apply Z.mul_pos_pos; lia).
    replace (2 * (a' * k) + b * k) with ((2 * a' + b) * k) by ring.
    replace (2 * (b * k)) with (2 * b * k) by ring. apply Z.div_mul_cancel_r; lia.
Qed.

Lemma compress_ok t (x : F t) : is_finite x = true ->
  let y := fmul x (COMPRESSION t) in
  is_finite y = true /\ Z.abs (toZ y) <= 2 ^ (stored_exp t 0 + width t - 1) /\
  rhaz (toZ y) (2 ^ stored_exp t 0) = rhaz (toZ x) (2 ^ unit_exp t 0).
Proof.
  intros Fx y. pose proof (prec_pos t). pose proof (width_prec t). pose proof (width_pos t).
  pose proof (prec_emax t). pose proof (emin_neg t).
  set (c := cexp0 t). assert (Hc : 0 < c) by (unfold c, cexp0; lia).
  assert (HcE : c + prec t + 4 < stored_exp t 0).
  { unfold c, cexp0. rewrite stored_exp_0. destruct t; reflexivity. }
  assert (UE : unit_exp t 0 = stored_exp t 0 + c).
  { rewrite stored_exp_0, unit_exp_0. unfold c, cexp0. lia. }
  destruct (mkf_pow2 t (- c)) as [FC VC].
  { unfold c, cexp0. destruct t; split; reflexivity || discriminate. }
  replace (mkf 1 (- c)) with (COMPRESSION t) in FC, VC
    by (unfold COMPRESSION, c, cexp0; rewrite WIDTH_eq; reflexivity).
  set (E := stored_exp t 0) in *.
  destruct (repr_toZ t x) as (mm & e & HX & He & Hm & Hs). fold (span t) in Hs.
  destruct (Z_le_gt_dec c e) as [Hce|Hce].
  - (* exact *)
    pose proof (pow2_pos (e - c) ltac:(lia)). pose proof (pow2_pos c ltac:(lia)).
    assert (HX2 : toZ x = mm * 2 ^ (e - c) * 2 ^ c).
    { rewrite HX, <- Z.mul_assoc, <- Z.pow_add_r by lia. f_equal. f_equal. lia. }
    assert (AL : Z.abs (mm * 2 ^ (e - c)) * 2 ^ c < 2 ^ span t).
    { rewrite HX2, Z.abs_mul, (Z.abs_eq (2 ^ c)) in Hs by lia. exact Hs. }
    destruct (fmul_exact t x (COMPRESSION t) (mm * 2 ^ (e - c))) as [Fy Vy]; auto.
    { apply repr_scaled; auto; try lia. nia. }
    { rewrite toZ_B2R, VC, HX2, (mult_IZR _ (2 ^ c)), <- bpow_IZR, bpow_opp by lia.
      pose proof (bpow_gt_0 radix2 c). field. lra. }
    fold y in Fy, Vy. split; [|split]; auto.
    + rewrite Vy. replace (E + width t - 1) with (span t - c) by (unfold c, cexp0, E; rewrite stored_exp_0; lia).
      assert (SP : 2 ^ span t = 2 ^ (span t - c) * 2 ^ c).
      { rewrite <- Z.pow_add_r by (unfold c, cexp0, span; lia). f_equal. lia. }
      rewrite SP in AL. apply Z.mul_lt_mono_pos_r in AL; lia.
    + rewrite Vy, HX2, UE, Z.pow_add_r by lia.
      symmetry. apply rhaz_scale; auto. apply pow2_pos. lia.
  - (* tiny *)
    assert (XS : Z.abs (toZ x) < 2 ^ (prec t + c)).
    { rewrite HX, Z.abs_mul, (Z.abs_eq (2 ^ e)) by (apply Z.lt_le_incl, pow2_pos; lia).
      rewrite Z.pow_add_r by lia. apply Z.lt_le_trans with (2 ^ prec t * 2 ^ e).
      - apply Z.mul_lt_mono_pos_r; auto. apply pow2_pos; lia.
      - apply Z.mul_le_mono_nonneg_l. apply Z.lt_le_incl, pow2_pos; lia. apply Z.pow_le_mono_r; lia. }
    pose proof (Bmult_correct _ _ (prec_gt_0 t) (prec_lt_emax t) mode_NE x (COMPRESSION t)) as C.
    assert (BR : (Rabs (round radix2 (SpecFloat.fexp (prec t) (emax t)) (round_mode mode_NE)
                   (B2R x * B2R (COMPRESSION t))) <= IZR (2 ^ prec t) * bpow radix2 (emin t))%R).
    { apply abs_round_le_generic.
      - apply FLT_exp_valid. apply prec_gt_0.
      - apply valid_rnd_round_mode.
      - apply repr_format. exists 1, (prec t). repeat split; try lia.
        + rewrite Z.abs_eq by lia. apply (Z.pow_gt_1 2); lia.
        + rewrite Z.abs_eq by (apply Z.lt_le_incl, pow2_pos; lia). apply Z.pow_lt_mono_r; lia.
      - rewrite toZ_B2R, VC, bpow_opp, !Rabs_mult.
        rewrite Rabs_inv, !(Rabs_pos_eq (bpow _ _)) by apply bpow_ge_0.
        rewrite <- abs_IZR. pose proof (bpow_gt_0 radix2 c). pose proof (bpow_gt_0 radix2 (emin t)).
        apply IZR_lt in XS. rewrite Z.pow_add_r, mult_IZR, <- (bpow_IZR c) in XS by lia.
        apply Rmult_le_reg_r with (bpow radix2 c); auto.
        replace (IZR (Z.abs (toZ x)) * bpow radix2 (emin t) * / bpow radix2 c * bpow radix2 c)%R
          with (IZR (Z.abs (toZ x)) * bpow radix2 (emin t))%R by (field; lra).
        nra. }
    rewrite Rlt_bool_true in C.
    2:{ eapply Rle_lt_trans; [exact BR|]. rewrite <- bpow_IZR, <- bpow_plus by lia. apply bpow_lt. lia. }
    destruct C as (C1 & C2 & _). rewrite Fx, FC in C2. fold y in C2.
    assert (VY : Z.abs (toZ y) <= 2 ^ prec t).
    { rewrite <- C1 in BR. change (Bmult mode_NE x (COMPRESSION t)) with y in BR.
      rewrite toZ_B2R, Rabs_mult, <- abs_IZR, (Rabs_pos_eq (bpow _ _)) in BR by apply bpow_ge_0.
      apply Rmult_le_reg_r in BR; [|apply bpow_gt_0]. now apply le_IZR. }
    split; [exact C2|]. split.
    + etransitivity; [exact VY|]. apply Z.pow_le_mono_r; lia.
    + rewrite !rhaz_small; auto.
      * apply Z.lt_le_trans with (2 ^ (prec t + c + 1)); [|apply Z.pow_le_mono_r; lia].
        rewrite Z.pow_add_r by lia. change (2 ^ 1) with 2. lia.
      * apply Z.le_lt_trans with (2 ^ (prec t + 1)); [|apply Z.pow_lt_mono_r; lia].
        rewrite Z.pow_add_r by lia. change (2 ^ 1) with 2. lia.
Qed.

Lemma slice_step0 t (x M : F t) n :
  is_finite x = true -> priw t 0 n M ->
  let d := rhaz (toZ x) (2 ^ unit_exp t 0) in
  4 * quarter t < n + d < 8 * quarter t ->
  let q := fadd (or1 (fmul x (COMPRESSION t))) M in
  let M' := fmul (fsub M q) (fmul (EXPANSION t) (mkf 1 (-1))) in
  let x' := fadd (fadd x M') M' in
  priw t 0 (n + d) q /\ is_finite x' = true /\ toZ x' = toZ x - d * 2 ^ unit_exp t 0.
Proof.
  intros Fx [FM VM] d Hn q M' x'.
  destruct (compress_ok t x Fx) as (Fy & HY & DY).
  set (y := fmul x (COMPRESSION t)) in *. fold d in DY.
  pose proof (prec_pos t). pose proof (width_prec t). pose proof (width_pos t). pose proof (mw_pos t).
  pose proof (prec_emax t). pose proof (emin_neg t).
  set (c := cexp0 t). assert (Hc : 0 < c) by (unfold c, cexp0; lia).
  assert (UE : unit_exp t 0 = stored_exp t 0 + c).
  { rewrite stored_exp_0, unit_exp_0. unfold c, cexp0. lia. }
  pose proof (stored_exp_ge t 0 ltac:(lia)) as HE. pose proof (stored_exp_le t 0 ltac:(lia)) as HL.
  set (E := stored_exp t 0) in *.
  assert (HY' : Z.abs (toZ y) < 2 ^ (E + mw t - 1)).
  { eapply Z.le_lt_trans; [exact HY|]. apply Z.pow_lt_mono_r; unfold mw; lia. }
  pose proof (or1_rhaz t y E Fy ltac:(lia) HY') as HR. rewrite DY in HR.
  destruct (or1_val t y Fy) as (_ & _ & _ & FO & _).
  rewrite quarter4, quarter8 in Hn. unfold mw in Hn. unfold span in HL.
  destruct (fadd_round t (or1 y) M (n + d) E) as [Fq Vq]; auto; try lia.
  fold q in Fq, Vq.
  pose proof (pow2_pos (unit_exp t 0) ltac:(lia)) as PU.
  assert (Hd : Z.abs d <= 2 ^ (width t - 1)).
  { apply rhaz_le; auto. apply Z.lt_le_incl, pow2_pos; lia.
    rewrite <- Z.pow_add_r, unit_exp_0 by lia.
    replace (width t - 1 + (span t - width t + 1)) with (span t) by lia.
    pose proof (toZ_span t x). lia. }
  destruct (fsub_exact t M q FM Fq) as (Fs & Vs & _).
  { rewrite VM, Vq. replace (n * 2 ^ E - (n + d) * 2 ^ E) with ((- d) * 2 ^ E) by ring.
    apply repr_le; unfold span; try lia. rewrite Z.abs_opp. eapply Z.le_lt_trans; [exact Hd|].
    apply Z.pow_lt_mono_r; lia. }
  rewrite VM, Vq in Vs. replace (n * 2 ^ E - (n + d) * 2 ^ E) with ((- d) * 2 ^ E) in Vs by ring.
  (* expansion *)
  assert (EX : is_finite (fmul (EXPANSION t) (mkf 1 (-1))) = true /\
               B2R (fmul (EXPANSION t) (mkf 1 (-1))) = bpow radix2 (c - 1)).
  { destruct (mkf_pow2 t c) as [F1 V1]; [unfold c, cexp0; lia|].
    destruct (mkf_pow2 t (-1)) as [F2 V2]; [unfold emin in *; lia|].
    replace (mkf 1 c) with (EXPANSION t) in F1, V1 by (unfold EXPANSION, c, cexp0; rewrite WIDTH_eq; reflexivity).
    destruct (fmul_exact t (EXPANSION t) (mkf 1 (-1)) (1 * 2 ^ (c - 1 - emin t))) as [F3 V3]; auto.
    - apply repr_le; [lia| |unfold span, c, cexp0; destruct t; vm_compute; discriminate].
      change (Z.abs 1) with 1. apply (Z.pow_gt_1 2); lia.
    - rewrite V1, V2, Z.mul_1_l, <- bpow_IZR, <- !bpow_plus by lia. f_equal. lia.
    - split; auto. rewrite toZ_B2R, V3, Z.mul_1_l, <- bpow_IZR, <- bpow_plus by lia. f_equal. lia. }
  destruct EX as [FX VX].
  assert (UH : 2 ^ unit_exp t 0 = 2 * 2 ^ (unit_exp t 0 - 1)).
  { rewrite <- Z.pow_succ_r by lia. f_equal. lia. }
  set (h := unit_exp t 0 - 1) in *.
  destruct (fmul_exact t (fsub M q) (fmul (EXPANSION t) (mkf 1 (-1))) ((- d) * 2 ^ h)) as [FM' VM']; auto.
  { apply repr_scaled; try lia.
    - rewrite Z.abs_opp. eapply Z.le_lt_trans; [exact Hd|]. apply Z.pow_lt_mono_r; lia.
    - rewrite Z.abs_mul, Z.abs_opp, (Z.abs_eq (2 ^ h)) by (apply Z.lt_le_incl, pow2_pos; lia).
      apply Z.le_lt_trans with (2 ^ (width t - 1) * 2 ^ h).
      + apply Z.mul_le_mono_nonneg_r; auto. apply Z.lt_le_incl, pow2_pos; lia.
      + rewrite <- Z.pow_add_r by lia. apply Z.pow_lt_mono_r; [lia| |]; unfold h; rewrite ?unit_exp_0; unfold span; lia. }
  { rewrite toZ_B2R, Vs, VX, !mult_IZR, <- !bpow_IZR by lia.
    replace h with (E + (c - 1)) by (unfold h; lia). rewrite (bpow_plus _ E (c - 1)). ring. }
  fold M' in FM', VM'.
  pose proof (pow2_pos h ltac:(lia)) as Ph.
  (* half way *)
  set (X := toZ x) in *.
  assert (HZ : 2 * Z.abs (X - d * 2 ^ unit_exp t 0) <= 2 ^ unit_exp t 0) by (apply rhaz_near; auto).
  assert (HALF : repr t (X + (- d) * 2 ^ h)).
  { replace (X + (- d) * 2 ^ h) with (X - d * 2 ^ h) by ring.
    eapply (repr_smaller t X (2 ^ h) h (repr_toZ t x) eq_refl ltac:(lia)); [reflexivity| |].
    - destruct (Z.eq_dec d 0) as [->|Nd]; [replace (X - 0 * 2 ^ h) with X by ring; lia|].
      destruct (Z_lt_dec (2 * Z.abs X) (2 ^ unit_exp t 0)) as [HS|HS].
      { exfalso. apply Nd. unfold d. apply rhaz_small. exact HS. }
      assert (SD : 0 <= X /\ 0 <= d \/ X <= 0 /\ d <= 0).
      { unfold d. destruct (Z_le_gt_dec 0 X).
        - left. split; auto. rewrite rhaz_nonneg by auto. apply Z.div_pos; lia.
        - right. split; [lia|]. replace X with (- - X) by lia. rewrite rhaz_opp, rhaz_nonneg by lia.
          assert (0 <= (2 * - X + 2 ^ unit_exp t 0) / (2 * 2 ^ unit_exp t 0)) by (apply Z.div_pos; lia). lia. }
      rewrite UH in *. set (u := 2 ^ h) in *.
      replace (d * (2 * u)) with (2 * (d * u)) in HZ by ring.
      destruct SD as [[S1 S2]|[S1 S2]].
      + assert (0 <= d * u) by (apply Z.mul_nonneg_nonneg; lia). lia.
      + assert (d * u <= 0) by (apply Z.mul_nonpos_nonneg; lia). lia.
    - intros k HK.
      assert (repr t ((k - d) * 2 ^ h)).
      { apply repr_scaled; try lia.
        - assert (Z.abs k <= 2 ^ width t).
          { pose proof (toZ_span t x) as TS. fold X in TS. rewrite HK, Z.abs_mul, (Z.abs_eq (2 ^ h)) in TS by lia.
            replace (span t) with (width t + h) in TS by (unfold h; rewrite unit_exp_0; lia).
            rewrite Z.pow_add_r in TS by lia. apply Z.mul_lt_mono_pos_r in TS; lia. }
          apply Z.le_lt_trans with (2 ^ width t + 2 ^ (width t - 1)); [lia|].
          apply Z.lt_le_trans with (2 ^ (width t + 1)); [|apply Z.pow_le_mono_r; lia].
          replace (width t + 1) with (Z.succ (Z.succ (width t - 1))) by lia.
          replace (width t) with (Z.succ (width t - 1)) at 1 by lia.
          rewrite !Z.pow_succ_r by lia. pose proof (pow2_pos (width t - 1) ltac:(lia)). lia.
        - replace ((k - d) * 2 ^ h) with (X - d * 2 ^ h) by (rewrite HK; ring).
          rewrite UH in HZ. replace (d * (2 * 2 ^ h)) with (2 * (d * 2 ^ h)) in HZ by ring.
          pose proof (toZ_span t x) as TS. fold X in TS.
          assert (PS : 2 ^ span t = 2 ^ width t * 2 ^ h).
          { rewrite <- Z.pow_add_r by lia. f_equal. unfold h. rewrite unit_exp_0. lia. }
          assert (8 * 2 ^ h <= 2 ^ span t).
          { rewrite PS. apply Z.mul_le_mono_nonneg_r; [lia|]. change 8 with (2 ^ 3). apply Z.pow_le_mono_r; lia. }
          lia. }
      replace (X - d * 2 ^ h) with ((k - d) * 2 ^ h) by (rewrite HK; ring). auto. }
  destruct (fadd_exact t x M' Fx FM') as (F1 & V1 & _); [rewrite VM'; exact HALF|].
  rewrite VM' in V1. fold X in V1.
  destruct (fadd_exact t (fadd x M') M' F1 FM') as (F2 & V2 & _).
  { rewrite V1, VM'.
    replace (X + - d * 2 ^ h + - d * 2 ^ h) with (X - d * 2 ^ unit_exp t 0) by (rewrite UH; ring).
    apply repr_rem; [apply repr_toZ|lia]. }
  fold x' in F2, V2. split; [|split]; auto.
  - split; auto.
  - rewrite V2, V1, VM', UH. ring.
Qed.
