(** * Bit-pattern facts: EXP, ISNANINF, [|= 1], the renormalisation word *)
From Coq Require Import ZArith Bool Lia Reals Lra.
From Flocq Require Import Core BinarySingleNaN.
From Verif Require Import Fp Spec FpProofs Mem Binned.
Open Scope Z_scope.

Definition ew (t : ty) : Z := match t with Dbl => 11 | Flt => 8 end.
Lemma ew_pos t : 0 < ew t. Proof. destruct t; reflexivity. Qed.
Lemma expmask_ew t : expmask t = 2 ^ ew t - 1. Proof. destruct t; reflexivity. Qed.
Lemma wordbits_ew t : wordbits t - 1 = ew t + mw t. Proof. destruct t; reflexivity. Qed.
Lemma emax_ew t : 2 * emax t = 2 ^ ew t. Proof. destruct t; reflexivity. Qed.
Lemma mw_pos t : 2 < mw t. Proof. destruct t; reflexivity. Qed.

Definition pack (t : ty) (s : bool) (f fr : Z) : Z :=
  (if s then 2 ^ (wordbits t - 1) else 0) + f * 2 ^ mw t + fr.

Lemma land_mask a k : 0 <= k -> Z.land a (2 ^ k - 1) = a mod 2 ^ k.
Proof. intros. rewrite <- Z.land_ones by easy. now rewrite Z.ones_equiv. Qed.

Section Pack.
Variables (t : ty) (s : bool) (f fr : Z).
Hypothesis Hf : 0 <= f < 2 ^ ew t.
Hypothesis Hfr : 0 <= fr < 2 ^ mw t.

Lemma pack_div : pack t s f fr / 2 ^ mw t = (if s then 2 ^ ew t else 0) + f.
Proof.
  unfold pack. rewrite wordbits_ew. pose proof (ew_pos t). pose proof (mw_pos t).
  rewrite Z.pow_add_r by lia. pose proof (pow2_pos (mw t) ltac:(lia)).
  replace ((if s then 2 ^ ew t * 2 ^ mw t else 0) + f * 2 ^ mw t + fr)
    with (fr + ((if s then 2 ^ ew t else 0) + f) * 2 ^ mw t) by (destruct s; ring).
  rewrite Z.div_add, Z.div_small by lia. lia.
Qed.

Lemma pack_exp : Z.land (Z.shiftr (pack t s f fr) (mw t)) (expmask t) = f.
Proof.
  pose proof (ew_pos t). pose proof (mw_pos t).
  rewrite Z.shiftr_div_pow2, pack_div, expmask_ew, land_mask by lia.
  destruct s.
  - rewrite Z.add_comm. replace (2 ^ ew t) with (1 * 2 ^ ew t) at 1 by ring.
    rewrite Z.mod_add by (pose proof (pow2_pos (ew t)); lia). now apply Z.mod_small.
  - now apply Z.mod_small.
Qed.

Lemma pack_man : Z.land (pack t s f fr) (2 ^ mw t - 1) = fr.
Proof.
  pose proof (ew_pos t). pose proof (mw_pos t).
  rewrite land_mask by lia. unfold pack. rewrite wordbits_ew, Z.pow_add_r by lia.
  replace ((if s then 2 ^ ew t * 2 ^ mw t else 0) + f * 2 ^ mw t + fr)
    with (fr + ((if s then 2 ^ ew t else 0) + f) * 2 ^ mw t) by (destruct s; ring).
  rewrite Z.mod_add by (pose proof (pow2_pos (mw t)); lia). now apply Z.mod_small.
Qed.

Lemma pack_sign : Z.testbit (pack t s f fr) (wordbits t - 1) = s.
Proof.
  pose proof (ew_pos t). pose proof (mw_pos t).
  rewrite wordbits_ew. rewrite Z.testbit_eqb by lia.
  rewrite Z.add_comm, Z.pow_add_r, <- Z.div_div, pack_div
    by (try lia; apply Z.pow_nonzero || apply pow2_pos; lia).
  pose proof (pow2_pos (ew t) ltac:(lia)).
  destruct s.
  - rewrite Z.add_comm. replace (2 ^ ew t) with (1 * 2 ^ ew t) at 1 by ring.
    rewrite Z.div_add, Z.div_small by lia. reflexivity.
  - rewrite Z.add_0_l, Z.div_small by lia. reflexivity.
Qed.
End Pack.

(** Field decomposition of a finite float. *)
Lemma bits_finite t (x : F t) : is_finite x = true ->
  exists f fr, bits x = pack t (Bsign x) f fr /\ 0 <= fr < 2 ^ mw t /\ 0 <= f < expmask t
    /\ toZ x = cond_Zopp (Bsign x) ((if f =? 0 then fr else fr + 2 ^ mw t) * 2 ^ (if f =? 0 then 0 else f - 1)).
Proof.
  pose proof (prec_pos t). pose proof (prec_emax t). pose proof (mw_pos t). pose proof (pow2_pos (mw t) ltac:(lia)).
  destruct x as [s|s| |s m e H']; try easy; intros _; cbn [bits Bsign toZ].
  - exists 0, 0. repeat split; try lia. unfold pack; lia. unfold expmask; lia.
    destruct s; reflexivity.
  - destruct (e_bounds t s m e H' eq_refl) as (He & Hm & Hc & Hu).
    assert (PM : 2 ^ prec t = 2 * 2 ^ mw t).
    { unfold mw. rewrite <- Z.pow_succ_r by lia. f_equal. lia. }
    destruct (Z.leb_spec (2 ^ mw t) (Z.pos m)).
    + exists (e - emin t + 1), (Z.pos m - 2 ^ mw t).
      repeat split; try lia. unfold pack; lia. unfold expmask, emin in *; lia.
      destruct (Z.eqb_spec (e - emin t + 1) 0); [lia|].
      replace (e - emin t + 1 - 1) with (e - emin t) by lia.
      replace (Z.pos m - 2 ^ mw t + 2 ^ mw t) with (Z.pos m) by lia.
      generalize (Z.pos m); intros M; destruct s; cbn [cond_Zopp]; ring.
    + destruct Hc as [Hc|Hc]; [lia|]. subst e.
      exists 0, (Z.pos m). repeat split; try lia. unfold pack; lia. unfold expmask; lia.
      rewrite Z.sub_diag. simpl Z.eqb. cbv iota.
      generalize (Z.pos m); intros M; destruct s; cbn [cond_Zopp]; ring.
Qed.

Lemma EXP_finite_lt t (x : F t) : is_finite x = true -> 0 <= EXP x < expmask t.
Proof.
  intros Fx. destruct (bits_finite t x Fx) as (f & fr & E & H1 & H2 & _).
  unfold EXP. rewrite E, pack_exp; auto. rewrite expmask_ew in *. lia.
Qed.

Lemma EXP_inf t s : EXP (finf s : F t) = expmask t.
Proof. destruct t, s; reflexivity. Qed.
Lemma EXP_nan t : EXP (fnan : F t) = expmask t.
Proof. destruct t; reflexivity. Qed.

Lemma ISNANINF_EXP t (x : F t) : ISNANINF x = (EXP x =? expmask t).
Proof.
  destruct (is_finite x) eqn:Fx.
  2:{ destruct x as [s|s| |s m e H']; try easy; destruct t; try destruct s; reflexivity. }
  pose proof (EXP_finite_lt t x Fx).
  destruct (Z.eqb_spec (EXP x) (expmask t)); [lia|].
  unfold ISNANINF. apply Z.eqb_neq. intros E. apply n.
  pose proof (mw_pos t).
  unfold EXP.
  apply (f_equal (fun z => Z.shiftr z (mw t))) in E.
  rewrite Z.shiftr_land, Z.shiftr_shiftl_l, Z.sub_diag, Z.shiftl_0_r in E by lia. exact E.
Qed.

Lemma ISNANINF_fin t (x : F t) : ISNANINF x = negb (is_finite x).
Proof.
  rewrite ISNANINF_EXP. destruct (is_finite x) eqn:Fx; simpl.
  - apply Z.eqb_neq. pose proof (EXP_finite_lt t x Fx). lia.
  - destruct x as [s|s| |s m e H']; try easy.
    + change (B754_infinity s : F t) with (finf s : F t). rewrite EXP_inf. apply Z.eqb_refl.
    + change (B754_nan : F t) with (fnan : F t). rewrite EXP_nan. apply Z.eqb_refl.
Qed.

Lemma feq_zero t (x : F t) : is_finite x = true -> feq x fzero = (toZ x =? 0).
Proof.
  intros Fx. unfold feq, Beqb, SpecFloat.SFeqb, SpecFloat.SFcompare.
  destruct x as [s|s| |s m e H']; try easy; cbn.
  destruct (e_bounds t s m e H' eq_refl) as (He & _).
  pose proof (pow2_pos (e - emin t) ltac:(lia)).
  symmetry. destruct s; apply Z.eqb_neq; cbn [cond_Zopp]; nia.
Qed.

(** EXP of a finite float, from its integer value. *)
Lemma log2_mul_pow m e : 0 < m -> 0 <= e -> Z.log2 (m * 2 ^ e) = Z.log2 m + e.
Proof. intros. rewrite Z.log2_mul_pow2 by lia. lia. Qed.

Lemma EXP_val t (x : F t) : is_finite x = true ->
  EXP x = if Z.abs (toZ x) <? 2 ^ mw t then 0 else Z.log2 (Z.abs (toZ x)) - mw t + 1.
Proof.
  intros Fx. destruct (bits_finite t x Fx) as (f & fr & E & H1 & H2 & H3).
  pose proof (mw_pos t). pose proof (pow2_pos (mw t) ltac:(lia)).
  unfold EXP at 1. rewrite E, pack_exp; auto; [|rewrite expmask_ew in *; lia].
  rewrite H3. rewrite abs_cond_Zopp.
  destruct (Z.eqb_spec f 0).
  - subst f. rewrite Z.pow_0_r, Z.mul_1_r, Z.abs_eq by lia.
    destruct (Z.ltb_spec fr (2 ^ mw t)); [reflexivity|lia].
  - pose proof (pow2_pos (f - 1) ltac:(lia)).
    rewrite Z.abs_eq by (apply Z.mul_nonneg_nonneg; lia).
    destruct (Z.ltb_spec ((fr + 2 ^ mw t) * 2 ^ (f - 1)) (2 ^ mw t)).
    + exfalso. assert (1 * 2 ^ mw t <= (fr + 2 ^ mw t) * 2 ^ (f - 1)); [|lia].
      rewrite (Z.mul_comm (fr + _)). apply Z.mul_le_mono_nonneg; lia.
    + rewrite log2_mul_pow by lia.
      replace (Z.log2 (fr + 2 ^ mw t)) with (mw t); [lia|].
      symmetry. apply Z.log2_unique; [lia|]. rewrite Z.pow_succ_r by lia. lia.
Qed.

Lemma frexp_e_val t (x : F t) : is_finite x = true -> toZ x <> 0 ->
  frexp_e x = emin t + Z.log2 (Z.abs (toZ x)) + 1.
Proof.
  intros Fx. destruct x as [s|s| |s m e H']; try easy; intros _; cbn [frexp_e toZ].
  destruct (e_bounds t s m e H' eq_refl) as (He & _).
  rewrite Z.abs_mul, abs_cond_Zopp, (Z.abs_eq (2 ^ _)) by (apply Z.lt_le_incl, pow2_pos; lia).
  rewrite (Z.abs_eq (Z.pos m)), log2_mul_pow by lia.
  rewrite Digits.Zpos_digits2_pos.
  assert (Digits.Zdigits radix2 (Z.pos m) = Z.log2 (Z.pos m) + 1).
  { apply Digits.Zdigits_unique. change (radix_val radix2) with 2.
    rewrite Z.abs_eq by lia. replace (Z.log2 (Z.pos m) + 1 - 1) with (Z.log2 (Z.pos m)) by lia.
    rewrite Z.add_1_r. apply Z.log2_spec. lia. }
  lia.
Qed.

(** Decoding a field triple. *)
Lemma of_bits_pack t s f fr :
  0 <= f < expmask t -> 0 <= fr < 2 ^ mw t ->
  let x : F t := of_bits (pack t s f fr) in
  is_finite x = true /\ Bsign x = s /\
  toZ x = cond_Zopp s ((if f =? 0 then fr else fr + 2 ^ mw t) * 2 ^ (if f =? 0 then 0 else f - 1)).
Proof.
  intros Hf Hfr x. pose proof (prec_pos t). pose proof (prec_emax t). pose proof (mw_pos t).
  pose proof (emin_neg t).
  assert (Hf' : 0 <= f < 2 ^ ew t) by (rewrite expmask_ew in *; lia).
  unfold x, of_bits.
  rewrite pack_exp, pack_man, pack_sign by auto.
  assert (PM : 2 ^ prec t = 2 * 2 ^ mw t).
  { unfold mw. rewrite <- Z.pow_succ_r by lia. f_equal. lia. }
  assert (SG : forall a : Z, 0 <= a -> forall b : bool,
    match (cond_Zopp b a) ?= 0 with Eq => b | Lt => true | Gt => false end = b).
  { intros a Ha b. destruct (Z.compare_spec (cond_Zopp b a) 0); destruct b; simpl in *; auto; lia. }
  assert (CO : forall (b : bool) a c, cond_Zopp b (a * c) = (if b then - a else a) * c).
  { intros [] a c; simpl; ring. }
  destruct (Z.eqb_spec f 0).
  - rewrite Z.pow_0_r, Z.mul_1_r.
    destruct (normalize_exact t (if s then - fr else fr) (emin t) (cond_Zopp s fr) s) as (A & B & C).
    + exists (cond_Zopp s fr), 0. rewrite abs_cond_Zopp, Z.abs_eq by lia.
      repeat split; try lia.
      apply Z.lt_le_trans with (2 ^ mw t); [lia|]. apply Z.pow_le_mono_r; unfold mw; lia.
    + destruct s; reflexivity.
    + repeat split; auto. unfold sgn_of in C. rewrite C. apply SG; lia.
  - destruct (Z.eqb_spec f (expmask t)); [lia|].
    rewrite CO. pose proof (pow2_pos (f - 1) ltac:(lia)).
    destruct (normalize_exact t (if s then - (fr + 2 ^ mw t) else fr + 2 ^ mw t) (emin t + f - 1)
       ((if s then - (fr + 2 ^ mw t) else fr + 2 ^ mw t) * 2 ^ (f - 1)) s) as (A & B & C).
    + exists (if s then - (fr + 2 ^ mw t) else fr + 2 ^ mw t), (f - 1).
      assert (AB : Z.abs (if s then - (fr + 2 ^ mw t) else fr + 2 ^ mw t) = fr + 2 ^ mw t) by (destruct s; lia).
      rewrite Z.abs_mul, AB, (Z.abs_eq (2 ^ _)) by lia.
      repeat split; try lia.
      apply Z.lt_le_trans with (2 ^ prec t * 2 ^ (f - 1)).
      * apply Z.mul_lt_mono_pos_r; lia.
      * rewrite <- Z.pow_add_r by lia. apply Z.pow_le_mono_r; unfold expmask, emin in *; lia.
    + rewrite mult_IZR, <- bpow_IZR, Rmult_assoc, <- bpow_plus by lia. f_equal. f_equal. lia.
    + repeat split; auto. unfold sgn_of in C. rewrite C, <- CO. apply SG. apply Z.mul_nonneg_nonneg; lia.
Qed.

Lemma lor_1 a : Z.lor a 1 = a + 1 - a mod 2.
Proof.
  rewrite (Z.div_mod a 2) at 1 by lia.
  pose proof (Z.mod_pos_bound a 2 ltac:(lia)).
  replace (a + 1 - a mod 2) with (2 * (a / 2) + 1) by (pose proof (Z.div_mod a 2); lia).
  set (q := a / 2). assert (Hb : a mod 2 = 0 \/ a mod 2 = 1) by lia.
  apply Z.bits_inj'. intros n Hn. rewrite Z.lor_spec.
  destruct (Z.eq_dec n 0) as [->|N].
  - rewrite Z.testbit_odd_0. destruct Hb as [HB|HB]; rewrite ?HB.
    + rewrite Z.add_0_r, Z.testbit_even_0. reflexivity.
    + rewrite Z.testbit_odd_0. reflexivity.
  - replace n with (Z.succ (n - 1)) by lia.
    rewrite Z.testbit_odd_succ by lia.
    replace (Z.testbit 1 (Z.succ (n - 1))) with false.
    2:{ symmetry. apply Z.bits_above_log2; simpl; lia. }
    rewrite orb_false_r.
    destruct Hb as [HB|HB]; rewrite ?HB.
    + rewrite Z.add_0_r, Z.testbit_even_succ by lia. reflexivity.
    + rewrite Z.testbit_odd_succ by lia. reflexivity.
Qed.

(** Effect of [q.l |= 1]. *)
Lemma or1_val t (x : F t) : is_finite x = true ->
  exists mm e, toZ x = cond_Zopp (Bsign x) (mm * 2 ^ e) /\
    is_finite (or1 x) = true /\ Bsign (or1 x) = Bsign x /\
    toZ (or1 x) = cond_Zopp (Bsign x) ((mm + 1 - mm mod 2) * 2 ^ e) /\
    0 <= mm < 2 ^ prec t /\ 0 <= e /\ (e = 0 \/ 2 ^ mw t <= mm).
Proof.
  intros Fx. destruct (bits_finite t x Fx) as (f & fr & E & H1 & H2 & H3).
  pose proof (mw_pos t). pose proof (pow2_pos (mw t) ltac:(lia)). pose proof (prec_pos t).
  assert (PM : 2 ^ prec t = 2 * 2 ^ mw t).
  { unfold mw. rewrite <- Z.pow_succ_r by lia. f_equal. lia. }
  set (s := Bsign x) in *.
  assert (EV : (2 ^ mw t) mod 2 = 0).
  { unfold mw. replace (prec t - 1) with (Z.succ (prec t - 2)) by lia. rewrite Z.pow_succ_r by lia.
    rewrite Z.mul_comm. apply Z.mod_mul. lia. }
  assert (EV' : forall k, (k * 2 ^ mw t) mod 2 = 0).
  { intros k. rewrite Z.mul_mod, EV, Z.mul_0_r by lia. reflexivity. }
  assert (PE : (pack t s f fr) mod 2 = fr mod 2).
  { unfold pack. rewrite wordbits_ew, Z.pow_add_r by (pose proof (ew_pos t); lia).
    replace ((if s then 2 ^ ew t * 2 ^ mw t else 0) + f * 2 ^ mw t)
      with ((if s then 2 ^ ew t + f else f) * 2 ^ mw t) by (destruct s; ring).
    rewrite Z.add_mod, EV', Z.add_0_l, Z.mod_mod by lia. reflexivity. }
  assert (FM : 0 <= fr + 1 - fr mod 2 < 2 ^ mw t).
  { pose proof (Z.mod_pos_bound fr 2 ltac:(lia)). split; [lia|].
    pose proof (Z.div_mod fr 2). pose proof (Z.div_mod (2 ^ mw t) 2). lia. }
  assert (O : Z.lor (bits x) 1 = pack t s f (fr + 1 - fr mod 2)).
  { rewrite lor_1, E, PE. unfold pack. lia. }
  unfold or1. rewrite O.
  destruct (of_bits_pack t s f (fr + 1 - fr mod 2)) as (A & B & C); auto.
  exists (if f =? 0 then fr else fr + 2 ^ mw t), (if f =? 0 then 0 else f - 1).
  split; [exact H3|]. split; [exact A|]. split; [exact B|].
  destruct (Z.eqb_spec f 0); rewrite C; repeat split; auto; try lia.
  f_equal. f_equal.
  replace ((fr + 2 ^ mw t) mod 2) with (fr mod 2); [lia|].
  rewrite Z.add_mod, EV, Z.add_0_r, Z.mod_mod by lia. reflexivity.
Qed.
