(** * Bit masks of the generated kernels *)
From Coq Require Import ZArith Bool List Lia Reals Lra.
From Flocq Require Import Core BinarySingleNaN.
From Verif Require Import Fp Mem Binned Spec FpProofs BitProofs Gen GenProofs Emit.
Import ListNotations.
Open Scope Z_scope.

(** Every float but NaN is the decoding of its fields. *)
Lemma bits_fields t (x : F t) : f_isnan x = false -> exists f fr, bits x = pack t (Bsign x) f fr /\
  0 <= fr < 2 ^ mw t /\ 0 <= f < 2 ^ ew t /\ forall s, of_bits (pack t s f fr) = if Bool.eqb s (Bsign x) then x else fneg x.
Proof.
  intros N. pose proof (mw_pos t) as MW. pose proof (pow2_pos (mw t) ltac:(lia)) as PM.
  pose proof (ew_pos t) as EW. pose proof (pow2_pos (ew t) ltac:(lia)) as PE. pose proof (expmask_ew t) as EM.
  destruct (is_finite x) eqn:Fx.
  - destruct (bits_finite t x Fx) as (f & fr & B & Hr & Hf & V). exists f, fr.
    split; [exact B|]. split; [exact Hr|]. split; [lia|]. intros s.
    destruct (of_bits_pack t s f fr Hf Hr) as (A1 & A2 & A3).
    destruct (Bool.eqb_spec s (Bsign x)) as [E|E].
    + apply float_ext; auto; [|right; congruence]. rewrite A3, E, <- V. reflexivity.
    + apply float_ext; auto.
      * unfold fneg. rewrite is_finite_Bopp. exact Fx.
      * replace (toZ (fneg x)) with (- toZ x).
        2:{ destruct x as [?|?| |[] m e ?]; try easy; cbn [fneg Bopp toZ negb]; cbn [cond_Zopp]; ring. }
        rewrite A3, V. destruct s, (Bsign x); cbn [cond_Zopp]; try easy; ring.
      * right. unfold fneg. rewrite Bsign_Bopp by (destruct x; easy). rewrite A2. destruct s, (Bsign x); easy.
  - destruct x as [s|s| |s m e H']; try easy. exists (expmask t), 0. split; [cbn [bits Bsign]; unfold pack; lia|].
    split; [lia|]. split; [lia|]. intros s'. unfold of_bits.
    rewrite pack_exp, pack_man, pack_sign by lia. rewrite Z.eqb_refl.
    destruct (Z.eqb_spec (expmask t) 0) as [E|E]; [destruct t; discriminate|]. cbn [Z.eqb].
    destruct s, s'; reflexivity.
Qed.
Lemma pack_range t s f fr : 0 <= f < 2 ^ ew t -> 0 <= fr < 2 ^ mw t -> 0 <= pack t false f fr < 2 ^ (wordbits t - 1) /\
  pack t s f fr = (if s then 2 ^ (wordbits t - 1) else 0) + pack t false f fr.
Proof.
  intros Hf Hr. rewrite wordbits_ew. pose proof (mw_pos t). pose proof (ew_pos t). rewrite Z.pow_add_r by lia.
  unfold pack. rewrite wordbits_ew, Z.pow_add_r by lia. nia.
Qed.

Lemma land_pow u k : 0 <= k -> 0 <= u < 2 ^ k -> Z.land u (2 ^ k) = 0.
Proof.
  intros K U. apply Z.bits_inj'. intros n Hn. rewrite Z.land_spec, Z.bits_0, Z.pow2_bits_eqb by lia.
  destruct (Z.eqb_spec k n) as [<-|]; [|apply andb_false_r]. rewrite andb_true_r.
  destruct (Z.eq_dec u 0) as [->|]; [apply Z.bits_0|]. apply Z.bits_above_log2; [lia|]. apply Z.log2_lt_pow2; lia.
Qed.
Lemma pack_flip t s f fr : 0 <= f < 2 ^ ew t -> 0 <= fr < 2 ^ mw t -> Z.lxor (pack t s f fr) (2 ^ (wordbits t - 1)) = pack t (negb s) f fr.
Proof.
  intros Hf Hr. destruct (pack_range t s f fr Hf Hr) as [U E]. destruct (pack_range t (negb s) f fr Hf Hr) as [_ E'].
  rewrite E, E'. set (u := pack t false f fr) in *. set (k := wordbits t - 1) in *.
  assert (K : 0 <= k) by (unfold k; destruct t; cbn; lia).
  assert (A : Z.lxor u (2 ^ k) = u + 2 ^ k) by (symmetry; apply Z.add_nocarry_lxor, land_pow; auto).
  destruct s; cbn [negb].
  - rewrite (Z.add_comm (2 ^ k)), <- A, Z.lxor_assoc, Z.lxor_nilpotent, Z.lxor_0_r. lia.
  - rewrite Z.add_0_l, A. lia.
Qed.

(** x86 and with the abs mask, xor with the sign bit. *)
Lemma abs_mask_eq t l : abs_mask t l = 2 ^ (wordbits t - 1) - 1.
Proof. destruct t; vm_compute; reflexivity. Qed.
Lemma and_abs {t} (x : F t) l : of_bits (Z.land (bits x) (abs_mask t l)) = fabs x.
Proof.
  rewrite abs_mask_eq. destruct (f_isnan x) eqn:N.
  - destruct x; try easy. cbn [bits fabs Babs]. destruct t; vm_compute; reflexivity.
  - destruct (bits_fields t x N) as (f & fr & B & Hr & Hf & V). destruct (pack_range t (Bsign x) f fr Hf Hr) as [U E].
    rewrite B, E, land_mask by (destruct t; cbn; lia).
    replace (((if Bsign x then 2 ^ (wordbits t - 1) else 0) + pack t false f fr) mod 2 ^ (wordbits t - 1)) with (pack t false f fr).
    + rewrite V. destruct x as [[]|[]| |[] m e H']; try easy.
    + symmetry. destruct (Bsign x); [|rewrite Z.add_0_l; apply Z.mod_small; lia].
      rewrite Z.add_comm, <- (Z.mul_1_l (2 ^ (wordbits t - 1))) at 1. rewrite Z.mod_add by lia. apply Z.mod_small; lia.
Qed.
Lemma xor_sign {t} (x : F t) : of_bits (Z.lxor (bits x) (2 ^ (wordbits t - 1))) = fneg x.
Proof.
  destruct (f_isnan x) eqn:N.
  - destruct x; try easy. cbn [bits fneg Bopp]. destruct t; vm_compute; reflexivity.
  - destruct (bits_fields t x N) as (f & fr & B & Hr & Hf & V). rewrite B, pack_flip, V by auto. destruct (Bsign x); reflexivity.
Qed.
Lemma of_bits_bits {t} (x : F t) : of_bits (bits x) = x.
Proof.
  destruct (f_isnan x) eqn:N.
  - destruct x; try easy. destruct t; vm_compute; reflexivity.
  - destruct (bits_fields t x N) as (f & fr & B & Hr & Hf & V). rewrite B, V, Bool.eqb_reflx. reflexivity.
Qed.
Lemma xor_0 {t} (x : F t) : of_bits (Z.lxor (bits x) 0) = x.
Proof. rewrite Z.lxor_0_r. apply of_bits_bits. Qed.
Lemma blp_mask_eq t l : blp_mask t l = 1.
Proof. destruct t; vm_compute; reflexivity. Qed.
Lemma or_blp {t} (x : F t) l : of_bits (Z.lor (bits x) (blp_mask t l)) = or1 x.
Proof. rewrite blp_mask_eq. reflexivity. Qed.

Lemma range8 l : 0 <= l < 8 -> l = 0 \/ l = 1 \/ l = 2 \/ l = 3 \/ l = 4 \/ l = 5 \/ l = 6 \/ l = 7.
Proof. lia. Qed.
Lemma conj_mask_eq v t l : 0 <= l < bsize v t -> vector v = true ->
  conj_mask v t l = if l mod 2 =? 0 then 0 else 2 ^ (wordbits t - 1).
Proof.
  intros H V. assert (R : 0 <= l < 8) by (destruct v, t; cbn in H; lia).
  destruct v, t; try discriminate V; change (bsize _ _) with 2 in H || change (bsize _ _) with 4 in H || change (bsize _ _) with 8 in H;
    destruct (range8 l R) as [-> |[-> |[-> |[-> |[-> |[-> |[-> | ->]]]]]]]; try lia; vm_compute; reflexivity.
Qed.
Lemma nconj_mask_eq v t l : 0 <= l < bsize v t -> vector v = true ->
  nconj_mask v t l = if l mod 2 =? 1 then 0 else 2 ^ (wordbits t - 1).
Proof.
  intros H V. assert (R : 0 <= l < 8) by (destruct v, t; cbn in H; lia).
  destruct v, t; try discriminate V; change (bsize _ _) with 2 in H || change (bsize _ _) with 4 in H || change (bsize _ _) with 8 in H;
    destruct (range8 l R) as [-> |[-> |[-> |[-> |[-> |[-> |[-> | ->]]]]]]]; try lia; vm_compute; reflexivity.
Qed.
(** Multiplication by -1. *)
Lemma minus1_R t : is_finite (minus1 : F t) = true /\ B2R (minus1 : F t) = (-1)%R /\ Bsign (minus1 : F t) = true.
Proof.
  split; [destruct t; vm_compute; reflexivity|]. split; [|destruct t; vm_compute; reflexivity].
  rewrite toZ_B2R. replace (toZ (minus1 : F t)) with (- 2 ^ (- emin t)) by (destruct t; vm_compute; reflexivity).
  rewrite opp_IZR, <- bpow_IZR by (pose proof (emin_neg t); lia).
  rewrite <- Ropp_mult_distr_l, <- bpow_plus. rewrite Z.add_opp_diag_l. reflexivity.
Qed.
Lemma fmul_minus1 {t} (x : F t) : fmul x minus1 = fneg x.
Proof.
  destruct (minus1_R t) as (Fa & Ra & Sa). set (a := minus1 : F t) in *. clearbody a.
  destruct (is_finite x) eqn:Fx.
  - pose proof (Bmult_correct _ _ (prec_gt_0 t) (prec_lt_emax t) mode_NE x a) as C.
    replace (B2R x * B2R a)%R with (B2R (fneg x)) in C by (unfold fneg; rewrite B2R_Bopp, Ra; ring).
    rewrite round_generic in C; [|apply valid_rnd_round_mode|apply generic_format_B2R].
    rewrite Rlt_bool_true in C by apply abs_B2R_lt_emax. destruct C as (C1 & C2 & C3).
    rewrite Fx, Fa in C2. cbn in C2. fold (fmul x a) in C1, C2, C3.
    assert (NF : is_nan (fmul x a) = false) by (destruct (fmul x a); try discriminate; reflexivity).
    specialize (C3 NF). rewrite Sa, xorb_true_r in C3. apply B2R_Bsign_inj; auto.
    + unfold fneg. rewrite is_finite_Bopp. exact Fx.
    + rewrite C3. unfold fneg. rewrite Bsign_Bopp by (destruct x; easy). reflexivity.
  - destruct x as [s|s| |s m e He]; try discriminate; destruct a as [sa|sa| |sa ma ea Ha]; try discriminate; try reflexivity.
    + cbn in Ra. exfalso. lra.
    + cbn in Sa. subst sa. unfold fmul. cbn. now rewrite xorb_true_r.
Qed.
