(** * C97: scaling a vector by whole bins scales its Euclidean norm, bit for bit *)
From Coq Require Import ZArith Reals Bool List Lia Lra Permutation.
From Flocq Require Import Core BinarySingleNaN.
From Verif Require Import Fp Mem Binned Spec Client FpProofs BitProofs CoreArith SpecProofs WordProofs MemProofs AccProofs SumProofs ConvProofs SumError ConvFloat RoundTrip ClientProofs PropsSum PropsConv PropsAcc Gen GenProofs Blas LaneProofs ReduceProofs DriverProofs BlasSpec PropsBlas ScaleProofs RescaleProofs Ssq SsqProofs SsqSpec PropsSsq PropsScale Gemv GemvSpec BlasZ BlasZSpec BlasDZ BlasDZSpec PropsBlasDZ PropsApi AccReal PropsAccuracy NrmAcc PropsNrm PropsBound PropsShift PropsScaleMat.
Import ListNotations.
Open Scope Z_scope.

(** ** The scale of the scaled data *)
Lemma scale_shift t (X X' : F t) s : is_finite X = true -> is_finite X' = true -> 0 <= s -> toZ X' = toZ X * 2 ^ (width t * s) ->
  2 ^ (prec t - 2 + width t) <= toZ X -> 2 ^ (- emin t) <= toZ X \/ toZ X' < 2 ^ (1 - emin t) -> scale_z X' = scale_z X + s.
Proof.
  intros FX FX' Hs E L C. pose proof (width_pos t) as WP. pose proof (prec_pos t) as PP. pose proof (emin_neg t) as EN.
  pose proof (pow2_pos (prec t - 2 + width t) ltac:(lia)) as P0. pose proof (pow2_pos (width t * s) ltac:(nia)) as P1.
  assert (MW : mw t = prec t - 1) by reflexivity.
  assert (LG : Z.log2 (toZ X') = Z.log2 (toZ X) + width t * s) by (rewrite E; apply log2_scale; nia).
  assert (LX : prec t - 2 + width t <= Z.log2 (toZ X)) by (apply Z.log2_le_pow2; lia).
  assert (EV : forall Y : F t, is_finite Y = true -> 0 < toZ Y -> prec t - 2 + width t <= Z.log2 (toZ Y) ->
    scale_z Y = Z.quot (Z.log2 (toZ Y) + emin t) (width t)).
  { intros Y FY P LY. assert (HE : WIDTH t <= EXP Y).
    { rewrite EXP_val by exact FY. rewrite Z.abs_eq by lia. rewrite WIDTH_eq, MW. destruct (Z.ltb_spec (toZ Y) (2 ^ (prec t - 1))) as [H|H]; [|lia].
      apply Z.log2_lt_pow2 in H; [lia|lia]. }
    destruct (scale_log t Y FY HE) as [_ G]. unfold scale_z. rewrite (proj2 (Z.ltb_ge _ _) HE), G, Z.abs_eq by lia. now rewrite WIDTH_eq. }
  assert (PX : 0 < toZ X) by lia. assert (PX' : 0 < toZ X') by (rewrite E; nia).
  rewrite (EV X FX PX LX), (EV X' FX' PX') by (rewrite LG; nia). rewrite LG. set (d := Z.log2 (toZ X) + emin t).
  replace (Z.log2 (toZ X) + width t * s + emin t) with (d + s * width t) by (unfold d; ring).
  destruct C as [C|C].
  - apply Z.log2_le_pow2 in C; [|lia]. rewrite Z.quot_add; [reflexivity|lia|]. assert (0 <= d) by (unfold d; lia). apply Z.mul_nonneg_nonneg; nia.
  - apply Z.log2_lt_pow2 in C; [|lia]. rewrite LG in C.
    assert (D : d + s * width t <= 0) by (unfold d; lia). assert (E1 : Z.quot (d + s * width t) (width t) = - Z.quot (- (d + s * width t)) (width t)) by (rewrite Z.quot_opp_l by lia; ring).
    assert (E2 : Z.quot d (width t) = - Z.quot (- (d + s * width t) + s * width t) (width t)).
    { replace (- (d + s * width t) + s * width t) with (- d) by ring. rewrite Z.quot_opp_l by lia. ring. }
    rewrite E1, E2, Z.quot_add; [ring|lia|]. apply Z.mul_nonneg_nonneg; nia.
Qed.
(** The squares of the scaled data are those of the data. *)
Lemma sq_shift t z s (x x' : F t) : 0 <= s -> toZ x' = toZ x * 2 ^ (width t * s) -> in_scale z x -> in_scale (z + s) x' -> sq (scl t (z + s)) x' = sq (scl t z) x.
Proof.
  intros Hs E I I'. pose proof (width_pos t) as WP. destruct (sq_val z x I) as (F1 & S1 & V1 & _). destruct (sq_val (z + s) x' I') as (F2 & S2 & V2 & _).
  apply B2R_Bsign_inj; auto; [|now rewrite S1, S2]. rewrite V1, V2.
  assert (Y : ysc (z + s) x' = ysc z x).
  { unfold ysc. f_equal. rewrite !(toZ_B2R t), E, mult_IZR, <- bpow_IZR by nia.
    replace (- (width t * (z + s))) with (- (width t * z) + - (width t * s)) by ring. rewrite bpow_plus.
    replace (IZR (toZ x) * bpow radix2 (width t * s) * bpow radix2 (emin t) * (bpow radix2 (- (width t * z)) * bpow radix2 (- (width t * s))))%R
      with (IZR (toZ x) * bpow radix2 (emin t) * bpow radix2 (- (width t * z)) * (bpow radix2 (width t * s) * bpow radix2 (- (width t * s))))%R by ring.
    rewrite <- bpow_plus, Z.add_opp_diag_r. cbn [bpow]. ring. }
  now rewrite Y.
Qed.
(** ** The square root and the product *)
Lemma d2f_finite (x : F Dbl) : is_finite (d2f x) = true -> (0 <= B2R x)%R -> is_finite x = true /\ B2R (d2f x) = RN Flt (B2R x).
Proof.
  intros H P. assert (Fx : is_finite x = true) by (destruct x; try discriminate; reflexivity). split; [exact Fx|].
  apply d2f_real; [exact Fx|]. destruct (Rlt_or_le (RN Flt (B2R x)) (bpow radix2 (emax Flt))) as [G|G].
  - rewrite Rabs_pos_eq; [exact G|]. rewrite <- (round_0 radix2 (FLT_exp (emin Flt) (prec Flt)) ZnearestE). apply round_le; [apply FLT_valid|apply valid_rnd_N|exact P].
  - rewrite (d2f_over x Fx P G) in H. discriminate.
Qed.
Lemma fmul_finite_r {t} (a b : F t) : is_finite (fmul a b) = true -> is_finite b = true.
Proof. destruct a, b; try discriminate; reflexivity. Qed.
Lemma fsqrt_finite {t} (r : F t) : is_finite (fsqrt r) = true -> is_finite r = true.
Proof. unfold fsqrt. intros H. pose proof (Bsqrt_correct (prec t) (emax t) (prec_gt_0 t) (prec_lt_emax t) mode_NE r) as (_ & B & _). rewrite B in H. destruct r as [s|s| |[] m e Hb]; try discriminate; reflexivity. Qed.
Open Scope R_scope.
Lemma RN_nonneg t v : 0 <= v -> 0 <= RN t v.
Proof. intros H. rewrite <- (round_0 radix2 (FLT_exp (emin t) (prec t)) ZnearestE). apply round_le; [apply FLT_valid|apply valid_rnd_N|exact H]. Qed.
Lemma fsqrt_round t (r : F t) : is_finite (fsqrt r) = true -> B2R (fsqrt r) = RN t (sqrt (B2R r)).
Proof. intros _. pose proof (Bsqrt_correct (prec t) (emax t) (prec_gt_0 t) (prec_lt_emax t) mode_NE r) as (A & _). rewrite fexp_FLT in A. exact A. Qed.
Lemma f2d_finite (x : F Flt) : is_finite (f2d x) = true -> is_finite x = true.
Proof. destruct x; try discriminate; reflexivity. Qed.
Lemma root_value t z (r : F t) : (zmin t <= z <= zmax t)%Z -> is_finite (scaled_root (scl t z) r) = true ->
  B2R (scaled_root (scl t z) r) = RN t (RN Dbl (sqrt (B2R r)) * bpow radix2 (width t * z)).
Proof.
  intros Hz Fn. pose proof (scale_exp_range t z Hz) as [ER _]. destruct (mkf_pow2 t (width t * z) ltac:(pose proof (prec_pos t); lia)) as [FS ES].
  assert (C0 : 0 <= RN Dbl (sqrt (B2R r))) by apply RN_nonneg, sqrt_pos. pose proof (bpow_gt_0 radix2 (width t * z)) as B0.
  destruct t; cbn [scaled_root] in *.
  - pose proof (fmul_finite_r _ _ Fn) as Fg. rewrite (fmul_real_round Dbl _ _ Fn), ES, (fsqrt_round Dbl r Fg). f_equal. apply Rmult_comm.
  - assert (FF : is_finite (fmul (f2d (scl Flt z)) (fsqrt (f2d r))) = true).
    { destruct (fmul (f2d (scl Flt z)) (fsqrt (f2d r))); try discriminate; reflexivity. }
    pose proof (fmul_finite_r _ _ FF) as Fg. pose proof (f2d_finite r (fsqrt_finite _ Fg)) as Fr.
    pose proof (fmul_real_round Dbl _ _ FF) as EM. pose proof (fsqrt_round Dbl _ Fg) as EG. destruct (f2d_real r Fr) as [_ ED]. destruct (f2d_real (scl Flt z) FS) as [_ EB].
    rewrite ED in EG. rewrite EB, ES, Rmult_comm in EM.
    assert (EX : RN Dbl (B2R (fsqrt (f2d r)) * bpow radix2 (width Flt * z)) = B2R (fsqrt (f2d r)) * bpow radix2 (width Flt * z)).
    { destruct (Rle_or_lt (B2R r) 0) as [H|H].
      - rewrite EG, sqrt_neg_0 by exact H. rewrite round_0, Rmult_0_l, round_0 by apply valid_rnd_N. reflexivity.
      - apply RN_exact. rewrite EG, Rabs_pos_eq by (apply Rmult_le_pos; lra).
        apply Rle_trans with (bpow radix2 (-75) * bpow radix2 (-104)); [rewrite <- bpow_plus; apply bpow_le; cbv; discriminate|].
        apply Rmult_le_compat; try apply bpow_ge_0; [|apply bpow_le; cbn [width zmin zmax] in *; lia].
        assert (RL : bpow radix2 (-149) <= B2R r).
        { rewrite toZ_B2R in H |- *. assert (0 < toZ r)%Z. { apply lt_IZR. apply (Rmult_lt_reg_r (bpow radix2 (emin Flt))); [apply bpow_gt_0|]. lra. }
          change (-149)%Z with (emin Flt). rewrite <- (Rmult_1_l (bpow radix2 (emin Flt))) at 1. apply Rmult_le_compat_r; [apply bpow_ge_0|]. apply IZR_le. lia. }
        replace (bpow radix2 (-75)) with (RN Dbl (bpow radix2 (-75))).
        + apply round_le; [apply FLT_valid|apply valid_rnd_N|]. rewrite <- (sqrt_square (bpow radix2 (-75))) by apply bpow_ge_0. apply sqrt_le_1_alt.
          rewrite <- bpow_plus. apply Rle_trans with (2 := RL). apply bpow_le. lia.
        + apply round_generic; [apply valid_rnd_N|]. apply generic_format_FLT_bpow; [reflexivity|cbv; discriminate]. }
    change (round radix2 (FLT_exp (emin Dbl) (prec Dbl)) ZnearestE) with (fun v => RN Dbl v) in EM. cbv beta in EM. rewrite EX in EM.
    destruct (d2f_finite _ Fn) as [_ EN]; [rewrite EM, EG; apply Rmult_le_pos; lra|]. rewrite EN, EM, EG. reflexivity.
Qed.
Close Scope R_scope.

(** ** reproBLAS_rdnrm2 *)
(** The data of the second call, in any order, are those of the first times 2^(width*s).  M and M' are the largest magnitudes; M is at
    least 2^(width-2) times the least normal number, and M and M' do not lie on different sides of 1 (the library's scale keeps two bins
    there).  When the first norm is normal and the second does not overflow, it is the first times 2^(width*s), to the last bit. *)
Theorem C97_nrm2 t tu tu' fold s N X incX X' incX' tmp tmp' (ys : list (F t)) (M M' : F t) (m m' : mem t) :
  2 <= fold <= ssq_fold t -> tuned t tu -> tuned t tu' -> 0 < N <= CAPACITY t ->
  clear_of X incX N tmp (dbnum fold) -> clear_of X' incX' N tmp' (dbnum fold) -> 0 <= s ->
  let xs := read m X incX N in
  all_finite xs = true -> all_finite ys = true -> Permutation (read m' X' incX' N) ys -> scaled s ys xs ->
  largest M xs -> largest M' ys ->
  2 ^ (prec t - 2 + width t) <= toZ M -> 2 ^ (- emin t) <= toZ M \/ toZ M' < 2 ^ (1 - emin t) ->
  let n := rdnrm2 tu fold N X incX tmp m in let n' := rdnrm2 tu' fold N X' incX' tmp' m' in
  is_finite n = true -> is_finite n' = true -> 2 ^ prec t <= toZ n -> toZ n' = toZ n * 2 ^ (width t * s).
Proof.
  intros Hf HT HT' HN CX CX' Hs xs FX FY HP HS HM HM' LM CM n n' Fn Fn' Ln. rewrite CAPACITY_eq in HN. pose proof (proj2 (proj2 (ssq_fold_ok t fold Hf))) as HMF.
  destruct (ssq_fresh fold Hf tu N X incX tmp m HT ltac:(lia) CX) as [S _].
  destruct (ssq_fresh fold Hf tu' N X' incX' tmp' m' HT' ltac:(lia) CX') as [S' _].
  apply (sstate_perm fold _ _ _ _ HP) in S'. fold xs in S.
  assert (LX : length xs = Z.to_nat N) by (pose proof (read_length m X incX N ltac:(lia)); unfold xs; lia).
  assert (NE : xs <> []) by (intros E; rewrite E in LX; cbn in LX; lia).
  assert (LY : length ys = length xs) by (exact (scaled_length s ys xs HS)).
  assert (NY : ys <> []) by (intros ->; destruct xs; [congruence|discriminate]).
  unfold n, n', rdnrm2 in *. clear n n'.
  destruct (dbdssq tu fold N X incX fzero tmp (dbsetzero fold tmp m)) as [sc m1]. destruct (dbdssq tu' fold N X' incX' fzero tmp' (dbsetzero fold tmp' m')) as [sc' m1'].
  unfold sstate in S, S'. rewrite FX in S. rewrite FY in S'. destruct S as [GS S], S' as [GS' S']. cbn [fst snd] in *.
  apply (scale_of_good sc xs FX) in GS. apply (scale_of_good sc' ys FY) in GS'. unfold acc_at in S, S'.
  rewrite (squares_sq sc xs FX GS) in S. rewrite (squares_sq sc' ys FY GS') in S'.
  apply (largest_is_max M xs FX) in HM. apply (largest_is_max M' ys FY) in HM'.
  assert (ES : sc = dscale M) by (apply (good_scale_unique _ _ xs); [exact GS|]; unfold good_scale; destruct xs; [congruence|]; now exists M).
  assert (ES' : sc' = dscale M') by (apply (good_scale_unique _ _ ys); [exact GS'|]; unfold good_scale; destruct ys; [congruence|]; now exists M').
  clear GS GS'. subst sc sc'. rewrite !dscale_eq in *.
  pose proof (max_finite M xs HM FX) as FM. pose proof (max_finite M' ys HM' FY) as FM'.
  (* the largest magnitudes *)
  assert (P1 : 0 < 2 ^ (width t * s)) by (apply pow2_pos; pose proof (width_pos t); nia).
  assert (EM : toZ M' = toZ M * 2 ^ (width t * s)).
  { assert (AX : forall M (l : list (F t)), is_max M l -> l <> [] -> all_finite l = true -> exists x, In x l /\ toZ M = Z.abs (toZ x) /\ forall y, In y l -> Z.abs (toZ y) <= toZ M).
    { clear. intros M l H NE FL. pose proof (fun x => max_mags M l x H FL) as MM. pose proof H as H0. destruct H as (_ & SM & _ & E).
      assert (PM : toZ M = Z.abs (toZ M)) by (destruct M as [b|b| |b mm e B]; try reflexivity; cbn in SM; subst b; cbn [toZ cond_Zopp]; symmetry; apply Z.abs_eq; pose proof (Z.pow_nonneg 2 (e - emin t)); nia).
      destruct l as [|a l]; [congruence|]. destruct E as [->|(x & I & ->)].
      - exists a. split; [now left|]. split.
        + destruct (MM a (or_introl eq_refl)) as [_ B]. change (toZ fzero) with 0 in B |- *. lia.
        + intros y I. destruct (MM y I) as [_ B]. change (toZ fzero) with 0 in B |- *. lia.
      - exists x. split; [exact I|]. assert (EF : Z.abs (toZ (fabs x)) = Z.abs (toZ x)) by (destruct x as [b|b| |b mm e B]; try reflexivity; cbn [fabs Babs toZ]; destruct b; cbn [cond_Zopp]; rewrite ?Z.abs_mul; reflexivity).
        split; [rewrite PM; exact EF|]. intros y Iy. destruct (MM y Iy) as [_ B]. lia. }
    destruct (AX M xs HM NE FX) as (x & Ix & Ex & Ux). destruct (AX M' ys HM' NY FY) as (y & Iy & Ey & Uy).
    assert (R1 : exists y0, In y0 ys /\ toZ y0 = toZ x * 2 ^ (width t * s)).
    { clear - HS Ix. induction HS as [|a b la lb E H IH]; [destruct Ix|]. destruct Ix as [<-|Ix]; [exists a; split; [now left|exact E]|]. destruct (IH Ix) as (y0 & I & E0). exists y0. split; [now right|exact E0]. }
    assert (R2 : exists x0, In x0 xs /\ toZ y = toZ x0 * 2 ^ (width t * s)).
    { clear - HS Iy. induction HS as [|a b la lb E H IH]; [destruct Iy|]. destruct Iy as [<-|Iy]; [exists b; split; [now left|exact E]|]. destruct (IH Iy) as (y0 & I & E0). exists y0. split; [now right|exact E0]. }
    destruct R1 as (y0 & I0 & E0). destruct R2 as (x0 & J0 & G0). specialize (Uy y0 I0). specialize (Ux x0 J0).
    rewrite E0, Z.abs_mul, (Z.abs_eq (2 ^ _)) in Uy by lia. rewrite G0, Z.abs_mul, (Z.abs_eq (2 ^ _)) in Ey by lia.
    apply Z.le_antisymm; [rewrite Ey; apply Z.mul_le_mono_nonneg_r; lia|rewrite Ex; exact Uy]. }
  pose proof (scale_shift t M M' s FM FM' Hs EM LM CM) as EZ. pose proof (scale_z_range t M) as ZR. pose proof (scale_z_range t M') as ZR'.
  assert (EQ : map (sq (scl t (scale_z M'))) ys = map (sq (scl t (scale_z M))) xs).
  { assert (IX : forall x, In x xs -> in_scale (scale_z M) x) by (intros x I; exact (max_in_scale M xs x HM FX I)).
    assert (IY : forall y, In y ys -> in_scale (scale_z M') y) by (intros y I; exact (max_in_scale M' ys y HM' FY I)).
    rewrite EZ in IY |- *. clear - HS IX IY Hs. induction HS as [|y x ly lx E H IH]; [reflexivity|]. cbn [map].
    rewrite (sq_shift t _ s x y Hs E (IX x (or_introl eq_refl)) (IY y (or_introl eq_refl))), IH; [reflexivity| |]; intros; [apply IX|apply IY]; now right. }
  rewrite EQ in S'. assert (EC : ddbconv fold tmp' m1' = ddbconv fold tmp m1) by (exact (conv_acc fold HMF [] _ [] _ _ _ _ _ (perm_nil _) (Permutation_refl _) S' S)).
  rewrite EC in *. set (r := ddbconv fold tmp m1) in *. clearbody r. clear S S' EQ EC.
  pose proof (root_value t _ r ZR Fn) as V. pose proof (root_value t _ r ZR' Fn') as V'.
  set (n := scaled_root (scl t (scale_z M)) r) in *. set (n' := scaled_root (scl t (scale_z M')) r) in *. clearbody n n'.
  rewrite EZ, Z.mul_add_distr_l, bpow_plus, <- Rmult_assoc in V'. set (v := (RN Dbl (sqrt (B2R r)) * bpow radix2 (width t * scale_z M))%R) in *.
  assert (LV : (bpow radix2 (emin t + prec t - 1) <= Rabs v)%R).
  { destruct (Rle_or_lt (bpow radix2 (emin t + prec t - 1)) (Rabs v)) as [|H]; [assumption|exfalso]. pose proof (prec_pos t) as PP.
    assert (G : (Rabs (RN t v) <= bpow radix2 (emin t + prec t - 1))%R).
    { apply abs_round_le_generic; [apply FLT_valid|apply valid_rnd_N| |lra]. apply generic_format_FLT_bpow; [exact (prec_gt_0 t)|lia]. }
    rewrite <- V, toZ_B2R in G. assert (Q : (bpow radix2 (emin t + prec t) <= IZR (toZ n) * bpow radix2 (emin t))%R).
    { rewrite Z.add_comm, bpow_plus. apply Rmult_le_compat_r; [apply bpow_ge_0|]. rewrite bpow_IZR by lia. now apply IZR_le. }
    pose proof (Rle_abs (IZR (toZ n) * bpow radix2 (emin t))) as RA. assert (BL : (bpow radix2 (emin t + prec t - 1) < bpow radix2 (emin t + prec t))%R) by (apply bpow_lt; lia). lra. }
  rewrite RN_scale in V' by (auto; pose proof (width_pos t); nia). rewrite <- V in V'. apply (IZR_bpow_inj t). rewrite <- toZ_B2R, V', toZ_B2R, mult_IZR, <- bpow_IZR by (pose proof (width_pos t); nia). ring.
Qed.
Print Assumptions C97_nrm2.
(** reproBLAS_rdznrm2: the components of the second call's vector, in any order, are those of the first times 2^(width*s). *)
Theorem C97_znrm2 t tu tu' fold s N X incX X' incX' Y A T Y' A' T' (ys : list (F t)) (M M' : F t) (m m' : mem t) :
  2 <= fold <= ssq_fold t -> tuned t tu -> tuned t tu' -> 0 < 2 * N <= CAPACITY t -> nrm_layout fold N X incX Y A T -> nrm_layout fold N X' incX' Y' A' T' -> 0 <= s ->
  let xs := components m X incX N in
  all_finite xs = true -> all_finite ys = true -> Permutation (components m' X' incX' N) ys -> scaled s ys xs ->
  largest M xs -> largest M' ys ->
  2 ^ (prec t - 2 + width t) <= toZ M -> 2 ^ (- emin t) <= toZ M \/ toZ M' < 2 ^ (1 - emin t) ->
  let n := rdznrm2 tu fold N X incX Y A T m in let n' := rdznrm2 tu' fold N X' incX' Y' A' T' m' in
  is_finite n = true -> is_finite n' = true -> 2 ^ prec t <= toZ n -> toZ n' = toZ n * 2 ^ (width t * s).
Proof.
  intros Hf HT HT' HN LY LY' Hs xs FX FY HP HS HM HM' LM CM.
  set (zs := components m' X' incX' N) in *.
  assert (ST : forall l : list (F t), Z.of_nat (length l) = 2 * N -> read (fun a => nth (Z.to_nat a) l fzero) 0 1 (2 * N) = l).
  { intros l HL. unfold read. replace (2 * N) with (0 + Z.of_nat (length l)) by lia. apply stored_list. }
  pose proof (ST xs (components_length m X incX N ltac:(lia))) as E1. pose proof (ST zs (components_length m' X' incX' N ltac:(lia))) as E2. clear ST.
  set (m1 := fun a => nth (Z.to_nat a) xs fzero) in *. set (m2 := fun a => nth (Z.to_nat a) zs fzero) in *.
  assert (CX : clear_of 0 1 (2 * N) (2 * N) (dbnum fold)) by (intros i Hi; lia).
  pose proof (C97_nrm2 t tu tu' fold s (2 * N) 0 1 0 1 (2 * N) (2 * N) ys M M' m1 m2 Hf HT HT' HN CX CX Hs) as K. cbv zeta in K. rewrite E1, E2 in K.
  cbv zeta. rewrite (C49_rdznrm2 t tu tu fold N X incX 0 1 Y (2 * N) A T m m1), (C49_rdznrm2 t tu' tu' fold N X' incX' 0 1 Y' (2 * N) A' T' m' m2); auto; try lia.
  - rewrite E2. reflexivity.
  - rewrite E1. reflexivity.
Qed.
Print Assumptions C97_znrm2.

(** A case: 3, -4 and a small number, scaled by two bins; the first norm is 5, the second 5 * 2^80. *)
Definition norm_mem : mem Dbl := spread [mkf 3 0; mkf (-4) 0; mkf 1 (-900)] 2.
Definition norm_mem2 : mem Dbl := spread [mkf 1 (-820); mkf 3 80; mkf (-4) 80] 3.
Example C97_case :
  let xs := read norm_mem 0 2 3 in let ys := [mkf 3 80; mkf (-4) 80; mkf 1 (-820)] : list (F Dbl) in
  clear_of 0 2 3 100 (dbnum 3) /\ clear_of 0 3 3 100 (dbnum 3) /\ all_finite xs = true /\ all_finite ys = true /\
  Permutation (read norm_mem2 0 3 3) ys /\ scaled 2 ys xs /\ largest (mkf 4 0) xs /\ largest (mkf 4 80) ys /\
  2 ^ (prec Dbl - 2 + width Dbl) <= toZ (mkf 4 0 : F Dbl) /\ 2 ^ (- emin Dbl) <= toZ (mkf 4 0 : F Dbl) /\
  feq (rdnrm2 sample_tuning 3 3 0 2 100 norm_mem) (mkf 5 0) = true /\ feq (rdnrm2 sample_tuning 3 3 0 3 100 norm_mem2) (mkf 5 80) = true.
Proof.
  intros xs ys. split; [intros i Hi; cbv [dbnum]; lia|]. split; [intros i Hi; cbv [dbnum]; lia|]. split; [vm_compute; reflexivity|]. split; [vm_compute; reflexivity|].
  split; [change (Permutation [mkf 1 (-820); mkf 3 80; mkf (-4) 80 : F Dbl] ([mkf 3 80; mkf (-4) 80] ++ [mkf 1 (-820)])); exact (Permutation_cons_append _ _)|].
  split; [repeat constructor; vm_compute; reflexivity|].
  split; [split; [intros x [<-|[<-|[<-|[]]]]; vm_compute; reflexivity|right; exists (mkf (-4) 0); split; [right; now left|apply float_ext; [reflexivity|reflexivity|vm_compute; reflexivity|left; vm_compute; discriminate]]]|].
  split; [split; [intros x [<-|[<-|[<-|[]]]]; vm_compute; reflexivity|right; exists (mkf (-4) 80); split; [right; now left|apply float_ext; [reflexivity|reflexivity|vm_compute; reflexivity|left; vm_compute; discriminate]]]|].
  split; [vm_compute; discriminate|]. split; [vm_compute; discriminate|]. split; vm_compute; reflexivity.
Qed.
Print Assumptions C97_case.
