(** * C45: binned_dbbound and binned_sbbound bound the error *)
From Coq Require Import ZArith Bool List Lia Reals Lra.
From Flocq Require Import Core Relative BinarySingleNaN.
From Verif Require Import Fp Mem Binned Spec Client FpProofs BitProofs SpecProofs WordProofs AccProofs MemProofs SumProofs ClientProofs ScaleProofs SumError ConvTerms ConvFloat ConvProofs ConvSpec BoundProofs PropsSum PropsScale PropsConv.
Import ListNotations.
Open Scope R_scope.

Lemma d2f_over (x : F Dbl) : is_finite x = true -> 0 <= B2R x -> bpow radix2 (emax Flt) <= RN Flt (B2R x) -> d2f x = B754_infinity false.
Proof.
  intros Fx P H. destruct x as [s|s| |s m e B]; try discriminate.
  - cbn [B2R] in H. rewrite round_0 in H by apply valid_rnd_N. pose proof (bpow_gt_0 radix2 (emax Flt)). lra.
  - assert (s = false). { destruct s; auto. cbn in P. unfold F2R in P. cbn in P. pose proof (bpow_gt_0 radix2 e). assert (IZR (Z.neg m) < 0) by (apply IZR_lt; lia). nra. } subst s.
    pose proof (binary_normalize_correct _ _ (prec_gt_0 Flt) (prec_lt_emax Flt) mode_NE (Z.pos m) e false) as C.
    rewrite fexp_FLT in C. cbn [round_mode] in C. cbn [d2f cond_Zopp] in *.
    replace (F2R {| Fnum := Z.pos m; Fexp := e |}) with (B2R (B754_finite false m e B : F Dbl)) in C by reflexivity.
    rewrite Rlt_bool_false in C by (rewrite Rabs_pos_eq; [exact H|apply RN_nonneg; exact P]).
    rewrite Rlt_bool_false in C by exact P. apply B2SF_inj. exact C.
Qed.

Section bound.
  Context (t : ty) (fold : Z) (xs : list (F t)) (X : F t) (Y : Z) (m : mem t).
  Local Notation k := (fold_right Z.min (jmax t) (map (fun x => bin_of t (toZ x)) xs)).
  Local Notation N := (Z.of_nat (length xs)). Local Notation T := (exact_sum xs).
  Local Notation S := (ddbconv fold Y (sum_list fold Y xs m)).
  Hypothesis Hf : (2 <= fold <= MAXFOLD t)%Z.
  Hypothesis AF : all_finite xs = true.
  Hypothesis NE : xs <> [].
  Hypothesis HC : (Z.of_nat (length xs) <= CAPACITY t)%Z.
  Hypothesis HX : forall x, In x xs -> (Z.abs (toZ x) <= Z.abs (toZ X))%Z.
  Hypothesis HK : (k + fold - 1 <= jmax t)%Z.
  Hypothesis HB : (2 * Z.abs T + N * 2 ^ unit_exp t (k + fold - 1) <= 2 * (2 ^ (emax t - emin t) - 2 ^ (emax t - emin t - 20)))%Z.
  Local Notation h := (ux t (k + fold - 1) - 1)%Z.

  (** The largest summand against the last unit *)
  Lemma top_size : bpow radix2 h <= Rabs (B2R X) * bpow radix2 (- ((fold - 1) * width t)).
  Proof.
    assert (L : (2 <= fold)%Z) by lia.
    assert (HY : exists x, In x xs /\ bin_of t (toZ x) = k /\ toZ x <> 0%Z).
    { assert (K1 : (k < jmax t)%Z) by lia. clear - K1.
      induction xs as [|x l IH]; cbn [map fold_right] in *; [lia|].
      destruct (Z_le_dec (bin_of t (toZ x)) (fold_right Z.min (jmax t) (map (fun x => bin_of t (toZ x)) l))) as [Q|Q].
      - exists x. rewrite Z.min_l in * by lia. split; [left; auto|]. split; auto.
        intros E. rewrite E in K1. unfold bin_of in K1. rewrite Z.eqb_refl in K1. lia.
      - rewrite Z.min_r in * by lia. destruct (IH K1) as (y & Hy & E & N). exists y. split; [right; auto|auto]. }
    destruct HY as (x & Hx & KX & NX).
    pose proof (last_unit t (toZ x) k fold (eq_sym KX) NX (toZ_span t x) ltac:(lia) HK ltac:(lia)) as LU.
    pose proof (HX x Hx) as HM. pose proof (width_pos t) as WP. pose proof (unit_exp_ge t (k + fold - 1)) as UG.
    assert (Q : (2 ^ unit_exp t (k + fold - 1) * 2 ^ ((fold - 1) * width t) <= 2 * Z.abs (toZ X))%Z) by lia.
    apply IZR_le in Q. rewrite !mult_IZR, <- !bpow_IZR in Q by nia. rewrite toZ_B2R, Rabs_mult, (Rabs_pos_eq (bpow _ (emin t))), <- abs_IZR by apply bpow_ge_0.
    rewrite <- (ux_unit t) by exact HK. set (w := ((fold - 1) * width t)%Z) in *. set (e := unit_exp t (k + fold - 1)) in *.
    replace (e + emin t - 1)%Z with (e + w + emin t + - w + -1)%Z by lia. rewrite !bpow_plus. change (bpow radix2 (-1)) with (/ 2).
    set (g := bpow radix2 (emin t)) in *. set (i := bpow radix2 (- w)) in *.
    assert (G : 0 < g) by apply bpow_gt_0. assert (I : 0 < i) by apply bpow_gt_0. assert (GI : 0 < g * i) by (apply Rmult_lt_0_compat; lra).
    set (p := bpow radix2 e * bpow radix2 w) in *.
    assert (p * (g * i) <= 2 * IZR (Z.abs (toZ X)) * (g * i)) by (apply Rmult_le_compat_r; lra). lra.
  Qed.
  Lemma h_min : (emin t + 4 <= h)%Z.
  Proof.
    assert (A : (ux t (jmax t) <= ux t (k + fold - 1))%Z) by (unfold ux; pose proof (width_pos t); nia).
    assert (B : (emin t + 5 <= ux t (jmax t))%Z) by (clear; destruct t; cbv; discriminate). lia.
  Qed.
  Lemma sum_error : is_finite S = true /\
    exists v, Rabs (v - IZR T * bpow radix2 (emin t)) <= IZR N * bpow radix2 h /\
    (Rabs (B2R S - v) = 0 \/ 2 * bpow radix2 h * (998 / 1000) <= u_ t * Rabs (B2R S) /\ Rabs (B2R S - v) <= 42 / 10 * (u_ t * Rabs (B2R S))).
  Proof.
    assert (L : (2 <= fold)%Z) by lia.
    assert (K : k = lead ([] ++ xs)).
    { unfold lead. cbn [app]. f_equal. apply map_ext_in. intros x Hx. unfold findex.
      unfold all_finite in AF. rewrite forallb_forall in AF. now rewrite (AF x Hx). }
    pose proof (C05_error t fold xs Y m Hf AF NE HC) as E. cbv zeta in E.
    assert (HC' : (Z.of_nat (length xs) <= capacity t)%Z) by (rewrite <- CAPACITY_eq; exact HC).
    pose proof (sum_list_at t fold Y xs m Hf HC') as HH. unfold acc_at in HH.
    assert (EV : value t fold k (fun i => sum_list fold Y xs m (Y + i * 1)%Z) (fun i => sum_list fold Y xs m (Y + fold + i * 1)%Z) =
      value t fold k (fun i => sum_list fold Y xs m (Y + i)%Z) (fun i => sum_list fold Y xs m (Y + fold + i)%Z)).
    { unfold value. generalize 0%Z. induction (Z.to_nat fold) as [|n IH]; intros i; cbn [value_from]; [reflexivity|]. now rewrite IH, !Z.mul_1_r. }
    rewrite <- EV in E. clear EV. rewrite conv_words_ddb.
    set (P := fun i => sum_list fold Y xs m (Y + i * 1)%Z) in *. set (W := fun i => sum_list fold Y xs m (Y + fold + i * 1)%Z) in *.
    assert (CH : conv_hyps fold [] xs P W).
    { split; [exact Hf|]. split; [exact AF|]. split; [exact NE|]. split; [exact HC'|]. split; [exact HH|]. intros j Hj. rewrite <- K in Hj. lia. }
    assert (FT : fits fold [] xs P W).
    { unfold fits. rewrite <- K. set (v := value t fold k P W) in *. lia. }
    pose proof (conv_dichotomy fold [] xs P W CH FT ltac:(rewrite <- K; exact HK)) as D. cbv zeta in D. rewrite <- K in D.
    set (v := value t fold k P W) in *. destruct D as [FS D]. split; [exact FS|].
    exists (IZR v * bpow radix2 (emin t)). split.
    - rewrite <- Rmult_minus_distr_r, <- minus_IZR, Rabs_mult, <- abs_IZR, (Rabs_pos_eq (bpow _ _)) by apply bpow_ge_0.
      apply IZR_le in E. rewrite !mult_IZR, <- bpow_IZR in E by (pose proof (unit_exp_ge t (k + fold - 1)); lia).
      replace (ux t (k + fold - 1) - 1)%Z with (unit_exp t (k + fold - 1) + emin t + -1)%Z by (rewrite ux_unit by exact HK; lia).
      rewrite !bpow_plus. change (bpow radix2 (-1)) with (/ 2). pose proof (bpow_gt_0 radix2 (emin t)) as G.
      set (d := IZR (Z.abs (v - T))) in *. set (g := bpow radix2 (emin t)) in *. set (p := bpow radix2 (unit_exp t (k + fold - 1))) in *. nra.
    - set (S' := conv_words fold P W) in *. set (w := IZR v * bpow radix2 (emin t)) in *. clearbody S' w.
      destruct D as [D|[D1 D2]]; [left; rewrite D, Rminus_diag_eq, Rabs_R0; reflexivity|right].
      assert (UB : 0 < u_ t <= / 100000) by (split; [apply bpow_gt_0|clear; destruct t; cbn; lra]).
      replace (ux t (k + fold - 1) + prec t)%Z with (h + 1 + prec t)%Z in D1 by lia. rewrite !bpow_plus in D1. change (bpow radix2 1) with 2 in D1.
      assert (U1 : u_ t * bpow radix2 (prec t) = 1) by (rewrite <- bpow_plus, Z.add_opp_diag_l; reflexivity).
      assert (E10 : bpow radix2 (-10) = / 1024) by (cbn; lra). rewrite E10 in D1.
      set (u := u_ t) in *. set (H := bpow radix2 h) in *. assert (HP : 0 < H) by apply bpow_gt_0.
      set (aw := Rabs w) in *. assert (AW : 0 <= aw) by apply Rabs_pos.
      assert (D3 : 2 * H * (1023 / 1024) <= u * aw).
      { assert (u * (H * 2 * bpow radix2 (prec t) * (1 - / 1024)) <= u * aw) by (apply Rmult_le_compat_l; lra).
        replace (u * (H * 2 * bpow radix2 (prec t) * (1 - / 1024))) with (2 * H * (1023 / 1024) * (u * bpow radix2 (prec t))) in H0 by field. rewrite U1 in H0. lra. }
      assert (TR : aw <= Rabs (B2R S') + Rabs (B2R S' - w)).
      { unfold aw. replace w with (B2R S' + - (B2R S' - w)) at 1 by ring. eapply Rle_trans; [apply Rabs_triang|]. rewrite Rabs_Ropp. lra. }
      set (s := Rabs (B2R S')) in *. set (e := Rabs (B2R S' - w)) in *.
      assert (UA : u * aw <= / 100000 * aw) by (apply Rmult_le_compat_r; lra).
      assert (AS : aw <= s * (10001 / 10000)) by lra.
      assert (US : u * aw <= u * (s * (10001 / 10000))) by (apply Rmult_le_compat_l; lra). lra.
  Qed.
  (** From the rounded sum of the two terms to the error *)
  Lemma final_bound a b final : (1 <= N)%Z -> IZR N * u_ t <= 1 -> 0 <= b -> IZR N * bpow radix2 h <= a ->
    1399 / 100 * (u_ t * Rabs (B2R S)) - bpow radix2 h / 32 <= b ->
    (a + b) * (1 - 201 / 100 * u_ t) - bpow radix2 h / 16 <= final -> IZR N * bpow radix2 h <= final ->
    Rabs (B2R S - IZR T * bpow radix2 (emin t)) <= final.
  Proof.
    intros N1 Nu B0 LA LB F1 F2. destruct sum_error as (_ & v & E1 & E2).
    assert (UB : 0 < u_ t <= / 1000) by (split; [apply bpow_gt_0|clear; destruct t; cbn; lra]).
    pose proof (bound_real (u_ t) (bpow radix2 h) (IZR N) a b (Rabs (B2R S)) (Rabs (B2R S - v)) final UB (bpow_gt_0 _ _) ltac:(apply IZR_le; exact N1) Nu B0 (Rabs_pos _) LA LB E2 F1 F2) as R.
    eapply Rle_trans; [|exact R]. replace (B2R S - IZR T * bpow radix2 (emin t)) with ((B2R S - v) + (v - IZR T * bpow radix2 (emin t))) by ring.
    eapply Rle_trans; [apply Rabs_triang|]. lra.
  Qed.
  Lemma to_integers (B : F t) : Rabs (B2R S - IZR T * bpow radix2 (emin t)) <= B2R B -> (Z.abs (toZ S - T) <= toZ B)%Z.
  Proof.
    intros H. rewrite !toZ_B2R, <- Rmult_minus_distr_r, <- minus_IZR, Rabs_mult, <- abs_IZR, (Rabs_pos_eq (bpow _ _)) in H by apply bpow_ge_0.
    apply Rmult_le_reg_r in H; [|apply bpow_gt_0]. now apply le_IZR.
  Qed.
End bound.

(** Double: N counts fit the [int] argument; X is at least as large as every summand. *)
Theorem C45_double_partial fold (xs : list (F Dbl)) (X : F Dbl) Y (m : mem Dbl) :
  let N := Z.of_nat (length xs) in let T := exact_sum xs in
  let k := fold_right Z.min (jmax Dbl) (map (fun x => bin_of Dbl (toZ x)) xs) in
  (2 <= fold <= 27)%Z -> all_finite xs = true -> (1 <= N < 2 ^ 31)%Z ->
  is_finite X = true -> (forall x, In x xs -> Z.abs (toZ x) <= Z.abs (toZ X))%Z ->
  (k + fold - 1 <= jmax Dbl)%Z ->
  (2 * Z.abs T + N * 2 ^ unit_exp Dbl (k + fold - 1) <= 2 * (2 ^ (emax Dbl - emin Dbl) - 2 ^ (emax Dbl - emin Dbl - 20)))%Z ->
  let S := ddbconv fold Y (sum_list fold Y xs m) in
  let B := dbbound fold N X S in
  is_finite S = true /\ is_finite B = true /\ (Z.abs (toZ S - T) <= toZ B)%Z.
Proof.
  intros N T k Hf AF HN FX HX HK HB S B.
  assert (Hf' : (2 <= fold <= MAXFOLD Dbl)%Z) by (change (MAXFOLD Dbl) with 52%Z; lia).
  assert (NE : xs <> []) by (intros E; unfold N in HN; rewrite E in HN; cbn in HN; lia).
  assert (HC : (Z.of_nat (length xs) <= CAPACITY Dbl)%Z) by (fold N; change (CAPACITY Dbl) with (2 ^ 11 * (2 ^ 52 - 1))%Z; lia).
  destruct (sum_error Dbl fold xs Y m Hf' AF NE HC HK HB) as [FS _]. fold S in FS. split; [exact FS|].
  pose proof (h_min Dbl fold xs HK) as HM. fold k in HM. set (h := (ux Dbl (k + fold - 1) - 1)%Z) in *.
  assert (HM5 : (emin Dbl + 5 <= h)%Z).
  { unfold h. assert (ux Dbl 51 <= ux Dbl (k + fold - 1))%Z by (unfold ux; cbn [width]; change (jmax Dbl) with 51%Z in HK; lia). change (ux Dbl 51) with (-1055)%Z in H. change (emin Dbl) with (-1074)%Z. lia. }
  destruct (bound_sum_ok Dbl fold N X S h FX FS ltac:(lia) ltac:(cbn [width]; lia) ltac:(lia) HM5) as (a & b & FB & EB & LA & B0 & LB).
  { apply (top_size Dbl fold xs X Hf' HX HK). }
  { apply Rlt_le, B2R_lt. }
  { apply Rlt_le, B2R_lt. }
  change (bound_sum Dbl fold N X S) with B in FB, EB. split; [exact FB|]. apply to_integers. fold S T.
  assert (NP : 1 <= IZR N <= bpow radix2 31) by (split; [apply IZR_le; lia|rewrite bpow_IZR by lia; apply IZR_le; lia]).
  assert (A0 : 0 <= a) by (pose proof (bpow_gt_0 radix2 h); nra).
  assert (FN : fmt Dbl (IZR N * bpow radix2 h)) by (apply fmt_int; [lia|cbn [prec]; lia]).
  apply (final_bound Dbl fold xs Y m Hf' AF NE HC HK HB a b).
  - fold N. lia.
  - fold N. apply Rle_trans with (bpow radix2 31 * u_ Dbl); [apply Rmult_le_compat_r; [apply bpow_ge_0|lra]|]. rewrite <- bpow_plus. change 1 with (bpow radix2 0). apply bpow_le. cbn [prec]. lia.
  - exact B0.
  - exact LA.
  - exact LB.
  - fold k. fold h. rewrite EB. eapply Rle_trans; [|apply RN_lower; lra].
    assert (bpow radix2 (emin Dbl - 1) <= bpow radix2 h / 16).
    { unfold Rdiv. replace (/ 16) with (bpow radix2 (-4)) by (cbn; lra). rewrite <- bpow_plus. apply bpow_le. lia. }
    pose proof (bpow_gt_0 radix2 (- prec Dbl)). nra.
  - fold N k h. rewrite EB. apply RN_keep; [exact FN|lra].
Qed.
Print Assumptions C45_double_partial.

(** Float: the bound may overflow to infinity (it is computed in double and then converted). *)
Theorem C45_float_partial fold (xs : list (F Flt)) (X : F Flt) Y (m : mem Flt) :
  let N := Z.of_nat (length xs) in let T := exact_sum xs in
  let k := fold_right Z.min (jmax Flt) (map (fun x => bin_of Flt (toZ x)) xs) in
  (2 <= fold <= MAXFOLD Flt)%Z -> all_finite xs = true -> (1 <= N <= 2 ^ 24)%Z ->
  is_finite X = true -> (forall x, In x xs -> Z.abs (toZ x) <= Z.abs (toZ X))%Z ->
  (k + fold - 1 <= jmax Flt)%Z ->
  (2 * Z.abs T + N * 2 ^ unit_exp Flt (k + fold - 1) <= 2 * (2 ^ (emax Flt - emin Flt) - 2 ^ (emax Flt - emin Flt - 20)))%Z ->
  let S := ddbconv fold Y (sum_list fold Y xs m) in
  let B := sbbound fold N X S in
  is_finite S = true /\ (B = B754_infinity false \/ is_finite B = true /\ (Z.abs (toZ S - T) <= toZ B)%Z).
Proof.
  intros N T k Hf AF HN FX HX HK HB S B.
  assert (NE : xs <> []) by (intros E; unfold N in HN; rewrite E in HN; cbn in HN; lia).
  assert (HC : (Z.of_nat (length xs) <= CAPACITY Flt)%Z) by (fold N; change (CAPACITY Flt) with (2 ^ 9 * (2 ^ 23 - 1))%Z; lia).
  destruct (sum_error Flt fold xs Y m Hf AF NE HC HK HB) as [FS _]. fold S in FS. split; [exact FS|].
  pose proof (h_min Flt fold xs HK) as HM. fold k in HM. set (h := (ux Flt (k + fold - 1) - 1)%Z) in *.
  assert (MF : (fold <= 21)%Z) by (change (MAXFOLD Flt) with 21%Z in Hf; lia). assert (L : (2 <= fold)%Z) by lia.
  destruct (f2d_real X FX) as [FX2 EX2]. destruct (f2d_real S FS) as [FS2 ES2].
  destruct (bound_sum_ok Flt fold N (f2d X) (f2d S) h FX2 FS2 ltac:(lia) ltac:(cbn [width]; lia) ltac:(lia)) as (a & b & FB & EB & LA & B0 & LB).
  { change (emin Flt) with (-149)%Z in HM. change (emin Dbl) with (-1074)%Z. lia. }
  { rewrite EX2. apply (top_size Flt fold xs X Hf HX HK). }
  { rewrite EX2. apply Rlt_le, B2R_lt. }
  { rewrite ES2. apply Rlt_le, B2R_lt. }
  rewrite ES2 in LB. set (D := bound_sum Flt fold N (f2d X) (f2d S)) in *. change B with (d2f D).
  assert (NP : 1 <= IZR N <= bpow radix2 24) by (split; [apply IZR_le; lia|rewrite bpow_IZR by lia; apply IZR_le; lia]).
  pose proof (bpow_gt_0 radix2 h) as HP.
  assert (A0 : 0 <= a) by nra. assert (DP : 0 <= B2R D) by (rewrite EB; apply RN_nonneg; lra).
  destruct (Rle_lt_dec (bpow radix2 (emax Flt)) (RN Flt (B2R D))) as [O|O]; [left; now apply d2f_over|right].
  destruct (d2f_real D FB) as [FD ED]; [rewrite Rabs_pos_eq; [exact O|now apply RN_nonneg]|]. split; [exact FD|]. apply to_integers. fold S T.
  assert (FN : fmt Flt (IZR N * bpow radix2 h)) by (apply fmt_int; [lia|cbn [prec]; lia]).
  assert (FND : fmt Dbl (IZR N * bpow radix2 h)) by (apply fmt_int; [change (emin Flt) with (-149)%Z in HM; change (emin Dbl) with (-1074)%Z; lia|cbn [prec]; lia]).
  apply (final_bound Flt fold xs Y m Hf AF NE HC HK HB a b).
  - fold N. lia.
  - fold N. apply Rle_trans with (bpow radix2 24 * u_ Flt); [apply Rmult_le_compat_r; [apply bpow_ge_0|lra]|]. rewrite <- bpow_plus. change 1 with (bpow radix2 0). apply bpow_le. cbn [prec]. lia.
  - exact B0.
  - exact LA.
  - exact LB.
  - fold k. fold h. rewrite ED. eapply Rle_trans; [|apply RN_lower; exact DP]. rewrite EB.
    assert (H1 : bpow radix2 (emin Flt - 1) <= bpow radix2 h / 32).
    { unfold Rdiv. replace (/ 32) with (bpow radix2 (-5)) by (cbn; lra). rewrite <- bpow_plus. apply bpow_le. lia. }
    assert (H2 : bpow radix2 (emin Dbl - 1) <= bpow radix2 h / 32).
    { eapply Rle_trans; [|exact H1]. apply bpow_le. cbv; discriminate. }
    pose proof (RN_lower Dbl (a + b) ltac:(lra)) as R. set (r := RN Dbl (a + b)) in *.
    assert (UF : 0 < u_ Flt <= / 1000) by (split; [apply bpow_gt_0|cbn; lra]).
    assert (UD : 0 < u_ Dbl) by apply bpow_gt_0. assert (UDF : u_ Dbl <= u_ Flt * / 1000) by (cbn; lra).
    set (uf := u_ Flt) in *. set (ud := u_ Dbl) in *.
    assert (R1 : ((a + b) * (1 - ud) - bpow radix2 h / 32) * (1 - uf) <= r * (1 - uf)) by (apply Rmult_le_compat_r; lra).
    assert (R2 : (a + b) * (1 - 201 / 100 * uf) <= (a + b) * ((1 - ud) * (1 - uf))) by (apply Rmult_le_compat_l; nra).
    assert (R3 : bpow radix2 h / 32 * (1 - uf) <= bpow radix2 h / 32) by nra. lra.
  - fold N k h. rewrite ED. apply RN_keep; [exact FN|]. rewrite EB. apply RN_keep; [exact FND|lra].
Qed.
Print Assumptions C45_float_partial.

(** Where the documented bound fails: data so small that the last bins do not exist,
    and folds above 27, whose factor [ldexp(0.5, (1 - fold) * DBWIDTH + 1)] underflows to 0. *)
Theorem C45_tiny_refuted : let X : F Dbl := mkf 1 (-1070) in
  let S := ddbconv 3 0 (sum_list 3 0 [X] (fun _ => fzero)) in
  feq S (dbbound 3 1 X S) = true /\ (toZ (dbbound 3 1 X S) < Z.abs (toZ S - exact_sum [X]))%Z.
Proof. vm_compute. split; reflexivity. Qed.
Print Assumptions C45_tiny_refuted.
Definition cancel28 : list (F Dbl) := [mkf 1 1000; mkf (-1) 1000; mkf 1 (-97)].
Theorem C45_large_fold_refuted : let X : F Dbl := mkf 1 1000 in
  let S := ddbconv 28 0 (sum_list 28 0 cancel28 (fun _ => fzero)) in
  (28 <= MAXFOLD Dbl)%Z /\ (toZ (dbbound 28 3 X S) < Z.abs (toZ S - exact_sum cancel28))%Z.
Proof. split; [vm_compute; discriminate|]. vm_compute. reflexivity. Qed.
Print Assumptions C45_large_fold_refuted.

(** Data that meet the hypotheses; the error is not zero. *)
Definition cancel3 : list (F Dbl) := [mkf 1 40; mkf (-1) 40; mkf 3 (-60); mkf 1 0].
Example C45_case : let k := fold_right Z.min (jmax Dbl) (map (fun x => bin_of Dbl (toZ x)) cancel3) in
  let X : F Dbl := mkf 1 40 in let S := ddbconv 3 0 (sum_list 3 0 cancel3 (fun _ => fzero)) in
  all_finite cancel3 = true /\ forallb (fun x => (Z.abs (toZ x) <=? Z.abs (toZ X))%Z) cancel3 = true /\
  (k + 3 - 1 <= jmax Dbl)%Z /\
  (2 * Z.abs (exact_sum cancel3) + 4 * 2 ^ unit_exp Dbl (k + 3 - 1) <= 2 * (2 ^ (emax Dbl - emin Dbl) - 2 ^ (emax Dbl - emin Dbl - 20)))%Z /\
  (toZ S - exact_sum cancel3 <> 0)%Z /\ (0 < toZ (dbbound 3 4 X S))%Z.
Proof. vm_compute. repeat split; discriminate || reflexivity. Qed.
Definition fcancel : list (F Flt) := [mkf 1 20; mkf (-1) 20; mkf 3 (-30); mkf 1 0].
Example C45_float_case : let k := fold_right Z.min (jmax Flt) (map (fun x => bin_of Flt (toZ x)) fcancel) in
  let X : F Flt := mkf 1 20 in let S := ddbconv 3 0 (sum_list 3 0 fcancel (fun _ => fzero)) in
  all_finite fcancel = true /\ forallb (fun x => (Z.abs (toZ x) <=? Z.abs (toZ X))%Z) fcancel = true /\
  (k + 3 - 1 <= jmax Flt)%Z /\
  (2 * Z.abs (exact_sum fcancel) + 4 * 2 ^ unit_exp Flt (k + 3 - 1) <= 2 * (2 ^ (emax Flt - emin Flt) - 2 ^ (emax Flt - emin Flt - 20)))%Z /\
  (toZ S - exact_sum fcancel <> 0)%Z /\ (0 < toZ (sbbound 3 4 X S))%Z.
Proof. vm_compute. repeat split; discriminate || reflexivity. Qed.
