(** * The documented error bounds, in real arithmetic *)
From Coq Require Import ZArith Bool List Lia Reals Lra.
From Flocq Require Import Core Relative BinarySingleNaN.
From Verif Require Import Fp Mem Binned Spec Client FpProofs BitProofs SpecProofs WordProofs AccProofs MemProofs SumProofs ClientProofs ScaleProofs ReduceProofs SumError ConvTerms ConvFloat ConvProofs ConvSpec.
Import ListNotations.
Open Scope R_scope.

Lemma fldexp_pow2 t e : (emin t <= e < emax t)%Z -> fldexp (mkf 1 (-1) : F t) (e + 1) = pow2 t e.
Proof.
  intros He. assert (H1 : (emin t <= -1 < emax t)%Z) by (destruct t; cbv; split; (discriminate || reflexivity)).
  destruct (mkf_pow2 t (-1) H1) as [F1 E1]. apply bpow_float; auto.
  - unfold fldexp. pose proof (Bldexp_correct (prec t) (emax t) (prec_gt_0 t) (prec_lt_emax t) mode_NE (mkf 1 (-1)) (e + 1)) as H.
    rewrite fexp_FLT, E1, <- bpow_plus in H. replace (-1 + (e + 1))%Z with e in H by lia.
    rewrite round_generic in H; [|apply valid_rnd_N|apply generic_format_FLT_bpow; [exact (prec_gt_0 t)|lia]].
    rewrite Rlt_bool_true in H by (rewrite Rabs_pos_eq by apply bpow_ge_0; apply bpow_lt; lia). destruct H as (_ & H & _). rewrite H. exact F1.
  - unfold fldexp. pose proof (Bldexp_correct (prec t) (emax t) (prec_gt_0 t) (prec_lt_emax t) mode_NE (mkf 1 (-1)) (e + 1)) as H.
    rewrite fexp_FLT, E1, <- bpow_plus in H. replace (-1 + (e + 1))%Z with e in H by lia.
    rewrite round_generic in H; [|apply valid_rnd_N|apply generic_format_FLT_bpow; [exact (prec_gt_0 t)|lia]].
    rewrite Rlt_bool_true in H by (rewrite Rabs_pos_eq by apply bpow_ge_0; apply bpow_lt; lia). destruct H as (H & _). exact H.
Qed.
Lemma ofZ_real n : (0 <= n <= 2 ^ 31)%Z -> is_finite (ofZ n : F Dbl) = true /\ B2R (ofZ n : F Dbl) = IZR n.
Proof.
  intros H. destruct (mkf_exact Dbl n 0 ltac:(cbv; discriminate)) as (A & B & _).
  - apply repr_le; [cbv; discriminate|cbn [prec]; lia|cbv; discriminate].
  - split; [exact A|]. unfold ofZ. rewrite toZ_B2R, B, mult_IZR, <- bpow_IZR by (cbv; discriminate). rewrite Rmult_assoc, <- bpow_plus. cbn. lra.
Qed.
(** The error of one rounding, underflow included. *)
Lemma RN_lower t x : 0 <= x -> x * (1 - u_ t) - bpow radix2 (emin t - 1) <= RN t x.
Proof.
  intros Hx. pose proof (error_N_FLT radix2 (emin t) (prec t) (prec_gt_0 t) (fun x => negb (Z.even x)) x) as (e1 & e2 & H1 & H2 & _ & ->).
  apply Rabs_le_inv in H1. apply Rabs_le_inv in H2.
  replace (/ 2 * bpow radix2 (- prec t + 1)) with (u_ t) in H1 by (change (/ 2) with (bpow radix2 (-1)); rewrite <- bpow_plus; f_equal; lia).
  replace (/ 2 * bpow radix2 (emin t)) with (bpow radix2 (emin t - 1)) in H2 by (change (/ 2) with (bpow radix2 (-1)); rewrite <- bpow_plus; f_equal; lia).
  nra.
Qed.
Lemma RN_nonneg t x : 0 <= x -> 0 <= RN t x.
Proof. intros H. rewrite <- (round_0 radix2 (FLT_exp (emin t) (prec t)) ZnearestE). now apply RN_mono. Qed.
Lemma RN_keep t x y : fmt t y -> y <= x -> y <= RN t x.
Proof. intros F H. rewrite <- (round_generic radix2 (FLT_exp (emin t) (prec t)) ZnearestE y F). now apply RN_mono. Qed.

(** The inequality behind the bound. h: half the last unit; a, b: the two terms; s: |S|. *)
Lemma bound_real u h N a b s err final : 0 < u <= / 1000 -> 0 < h -> 1 <= N -> N * u <= 1 -> 0 <= b -> 0 <= s ->
  N * h <= a -> 1399 / 100 * (u * s) - h / 32 <= b ->
  err = 0 \/ 2 * h * (998 / 1000) <= u * s /\ err <= 42 / 10 * (u * s) ->
  (a + b) * (1 - 201 / 100 * u) - h / 16 <= final -> N * h <= final -> err + N * h <= final.
Proof.
  intros Hu Hh HN Nu Hb Hs Ha Hb' He F1 F2. destruct He as [->|[E1 E2]]; [lra|].
  assert (Nh : 0 < N * h) by (apply Rmult_lt_0_compat; lra).
  set (q := u * s) in *. destruct (Rle_lt_dec a (4 * s)) as [A|A].
  - assert (u * a <= 4 * q) by (unfold q; nra).
    assert (u * b >= 0) by nra.
    destruct (Rle_lt_dec b (16 * q)) as [B|B].
    + assert (u * b <= 16 * (u * q)) by nra. assert (0 <= q) by (unfold q; nra). assert (u * q <= / 1000 * q) by nra. nra.
    + assert (0 <= q) by (unfold q; nra). nra.
  - assert (Q : q <= u * a / 4) by (unfold q; nra).
    assert (HA : 798 / 100 * h <= u * a) by nra.
    assert (NA : N * h * (798 / 100) <= a).
    { assert (N * (798 / 100 * h) <= N * (u * a)) by (apply Rmult_le_compat_l; lra). assert (N * u * a <= 1 * a) by (apply Rmult_le_compat_r; lra). lra. }
    assert (0 < a) by lra. assert (u * a <= / 1000 * a) by (apply Rmult_le_compat_r; lra).
    assert (0 <= b * (1 - 201 / 100 * u)) by (apply Rmult_le_pos; lra). lra.
Qed.

(** ** The first term *)
Lemma fmax_real (a b : F Dbl) : is_finite a = true -> is_finite b = true -> is_finite (fmax a b) = true /\ B2R a <= B2R (fmax a b) /\ (B2R (fmax a b) = B2R a \/ B2R (fmax a b) = B2R b).
Proof.
  intros Fa Fb. unfold fmax. rewrite flt_toZ by auto. destruct (Z.ltb_spec (toZ b) (toZ a)) as [H|H]; [split; [auto|split; [lra|auto]]|].
  split; [auto|]. split; [|auto]. rewrite !toZ_B2R. apply Rmult_le_compat_r; [apply bpow_ge_0|]. now apply IZR_le.
Qed.
Lemma first_term (X fl : F Dbl) w N e : is_finite X = true -> is_finite fl = true -> Rabs (B2R fl) <= 1 -> (0 <= w <= 1074)%Z -> (1 <= N <= 2 ^ 31)%Z ->
  (emin Dbl <= e)%Z -> bpow radix2 e <= Rabs (B2R X) * bpow radix2 (- w) <= bpow radix2 984 ->
  let a := fmul (fmul (fmax (fabs X) fl) (pow2 Dbl (- w))) (ofZ N) in
  is_finite a = true /\ IZR N * bpow radix2 e <= B2R a <= bpow radix2 1015.
Proof.
  intros FX FF HF Hw HN He [H1 H2] a.
  assert (FA : is_finite (fabs X) = true /\ B2R (fabs X) = Rabs (B2R X)) by (split; [rewrite <- FX; apply is_finite_Babs|apply B2R_Babs]).
  destruct FA as [FA EA]. destruct (fmax_real (fabs X) fl FA FF) as (FM & LM & CM). set (M := fmax (fabs X) fl) in *.
  assert (BM : Rabs (B2R M * bpow radix2 (- w)) <= bpow radix2 984).
  { rewrite Rabs_mult, (Rabs_pos_eq (bpow _ _)) by apply bpow_ge_0. destruct CM as [->| ->].
    - rewrite EA, Rabs_Rabsolu. exact H2.
    - apply Rle_trans with (1 * bpow radix2 0); [|rewrite Rmult_1_l; apply bpow_le; lia]. apply Rmult_le_compat; [apply Rabs_pos|apply bpow_ge_0|exact HF|apply bpow_le; lia]. }
  destruct (fmul_pow2 Dbl M (- w) 984 FM ltac:(cbv [emin emax prec]; lia) ltac:(cbv [emin emax prec]; lia) BM) as (F1 & E1 & _).
  set (a1 := fmul M (pow2 Dbl (- w))) in *.
  assert (A1 : bpow radix2 e <= B2R a1).
  { rewrite E1. apply RN_keep; [apply generic_format_FLT_bpow; [reflexivity|exact He]|]. eapply Rle_trans; [exact H1|].
    apply Rmult_le_compat_r; [apply bpow_ge_0|]. lra. }
  assert (A2 : Rabs (B2R a1) <= bpow radix2 984) by (rewrite E1; apply RN_le; [cbv; discriminate|exact BM]).
  destruct (ofZ_real N ltac:(lia)) as [FN EN].
  assert (N1 : 1 <= IZR N <= bpow radix2 31) by (split; [apply IZR_le; lia|rewrite bpow_IZR by lia; apply IZR_le; lia]).
  assert (BP : Rabs (B2R a1 * B2R (ofZ N : F Dbl)) <= bpow radix2 1015).
  { rewrite EN, Rabs_mult, (Rabs_pos_eq (IZR N)) by lra. change 1015%Z with (984 + 31)%Z. rewrite bpow_plus. apply Rmult_le_compat; try lra; apply Rabs_pos. }
  pose proof (RN_le Dbl _ 1015 ltac:(cbv; discriminate) BP) as BR.
  destruct (fmul_round Dbl a1 (ofZ N) F1 FN) as (F2 & E2 & _).
  { eapply Rle_lt_trans; [exact BR|]. apply bpow_lt. reflexivity. }
  fold a in F2, E2. split; [exact F2|]. rewrite E2. split.
  - apply RN_keep; [apply fmt_int; [exact He|cbn [prec]; lia]|]. rewrite EN, Rmult_comm. apply Rmult_le_compat_r; lra.
  - eapply Rle_trans; [apply Rle_abs|]. exact BR.
Qed.
(** ** The second term *)
Lemma second_term (c S : F Dbl) lo e : is_finite c = true -> is_finite S = true -> 0 <= lo -> lo <= B2R c <= bpow radix2 (-10) -> Rabs (B2R S) <= bpow radix2 e -> (emin Dbl <= e - 10 < 1024)%Z ->
  let b := fmul c (fabs S) in
  is_finite b = true /\ 0 <= B2R b <= bpow radix2 (e - 10) /\ lo * Rabs (B2R S) * (1 - u_ Dbl) - bpow radix2 (emin Dbl - 1) <= B2R b.
Proof.
  intros Fc FS L0 HL HS He b.
  assert (FA : is_finite (fabs S) = true /\ B2R (fabs S) = Rabs (B2R S)) by (split; [rewrite <- FS; apply is_finite_Babs|apply B2R_Babs]).
  destruct FA as [FA EA]. pose proof (Rabs_pos (B2R S)) as SP.
  assert (P0 : 0 <= lo * Rabs (B2R S)) by (apply Rmult_le_pos; lra).
  assert (P1 : lo * Rabs (B2R S) <= B2R c * B2R (fabs S)) by (rewrite EA; apply Rmult_le_compat_r; lra).
  assert (P2 : B2R c * B2R (fabs S) <= bpow radix2 (e - 10)).
  { rewrite EA. replace (e - 10)%Z with (-10 + e)%Z by lia. rewrite bpow_plus. apply Rmult_le_compat; lra. }
  assert (BR : Rabs (RN Dbl (B2R c * B2R (fabs S))) <= bpow radix2 (e - 10)) by (apply RN_le; [lia|rewrite Rabs_pos_eq; lra]).
  destruct (fmul_round Dbl c (fabs S) Fc FA) as (F2 & E2 & _).
  { eapply Rle_lt_trans; [exact BR|]. apply bpow_lt. cbn [emax]. lia. }
  fold b in F2, E2. split; [exact F2|]. rewrite E2. split; [split; [apply RN_nonneg; lra|eapply Rle_trans; [apply Rle_abs|exact BR]]|].
  eapply Rle_trans; [apply RN_lower; exact P0|]. now apply RN_mono.
Qed.

(** ** Either the conversion is exact or the value is large *)
Lemma terms_multiple t (V C : Z -> Z) n k : (forall j, (jmax t < j)%Z -> V j = 0%Z /\ C j = 0%Z) ->
  ismul (Z.max (ux t (k + Z.of_nat n)) (ux t (jmax t))) (fsum (map fst (all_terms t V C n k))).
Proof.
  intros HZ. set (q0 := Z.max _ _).
  assert (G : forall l : list (R * Z), (forall x q, In (x, q) l -> ismul q x /\ (q0 <= q)%Z) -> ismul q0 (fsum (map fst l))).
  { induction l as [|[x q] l IH]; intros H; cbn [map fst fsum fold_right]; [apply ismul_0|]. apply ismul_plus; [|apply IH; intros; apply H; now right].
    destruct (H x q ltac:(now left)) as [A B]. eapply ismul_le; eauto. }
  apply G. intros x q I. split; [|eapply terms_last; exact I].
  assert (CM := c_mul t V C HZ). assert (PM := p_mul t V C HZ).
  assert (R : forall d j, In (x, q) (rest t V C d j) -> ismul q x).
  { induction d as [|d IH]; intros j I'; cbn [rest] in I'.
    - destruct I' as [E|[]]. specialize (PM j). rewrite E in PM. exact PM.
    - destruct I' as [E|[E|I']]; [specialize (CM (j + 1)%Z); rewrite E in CM; exact CM|specialize (PM j); rewrite E in PM; exact PM|eauto]. }
  destruct I as [E|I]; [specialize (CM k); rewrite E in CM; exact CM|eauto].
Qed.
Lemma conv_dichotomy {t} fold (us xs : list (F t)) P W : conv_hyps fold us xs P W -> fits fold us xs P W ->
  (lead (us ++ xs) + fold - 1 <= jmax t)%Z ->
  let v := IZR (value t fold (lead (us ++ xs)) P W) * bpow radix2 (emin t) in
  let S := conv_words fold P W in
  is_finite S = true /\
  (B2R S = v \/ bpow radix2 (ux t (lead (us ++ xs) + fold - 1) + prec t) * (1 - bpow radix2 (-10)) <= Rabs v /\ Rabs (B2R S - v) <= 41 / 10 * (u_ t * Rabs v)).
Proof.
  intros HH FT HK v S. destruct (conv_accuracy fold us xs P W HH FT) as [F A]. fold S in F, A. split; [exact F|].
  destruct (conv_real fold us xs P W HH FT) as [_ E]. fold S in E.
  pose proof (conv_hyps_error fold us xs P W HH) as CE. cbv zeta in CE.
  pose proof HH as (Hf & AF & NE & HL & HO & HT).
  pose proof (cterms_value fold us xs P W Hf AF NE HL HO HT) as CV. fold v in CV. rewrite CV in CE.
  assert (BO : Rabs (B2R S - v) <= 41 / 10 * (u_ t * Rabs v)).
  { set (vz := value t fold (lead (us ++ xs)) P W) in *. pose proof (bpow_gt_0 radix2 (emin t)) as G.
    assert (E1 : Rabs (B2R S - v) = IZR (Z.abs (toZ S - vz)) * bpow radix2 (emin t)).
    { unfold v. rewrite toZ_B2R, <- Rmult_minus_distr_r, <- minus_IZR, Rabs_mult, abs_IZR, (Rabs_pos_eq (bpow _ _)) by lra. reflexivity. }
    assert (E2 : Rabs v = IZR (Z.abs vz) * bpow radix2 (emin t)) by (unfold v; rewrite Rabs_mult, abs_IZR, (Rabs_pos_eq (bpow _ _)) by lra; reflexivity).
    rewrite E1, E2. apply IZR_le in A. rewrite !mult_IZR in A. rewrite <- bpow_IZR in A by (pose proof (prec_pos t); lia).
    assert (W0 : 0 <= IZR (Z.abs vz)) by (apply IZR_le; lia).
    set (d := IZR (Z.abs (toZ S - vz))) in *. set (w := IZR (Z.abs vz)) in *. clearbody d w. set (g := bpow radix2 (emin t)) in *.
    assert (U : u_ t * bpow radix2 (prec t) = 1) by (rewrite <- bpow_plus, Z.add_opp_diag_l; reflexivity).
    assert (CU : IZR (conv_ulps t) <= 4100) by (apply IZR_le; clear; destruct t; cbv; discriminate).
    pose proof (bpow_gt_0 radix2 (- prec t)) as UP. set (u := u_ t) in *. set (p := bpow radix2 (prec t)) in *.
    assert (D1 : 1000 * p * d <= 4100 * w) by (eapply Rle_trans; [exact A|]; apply Rmult_le_compat_r; lra).
    assert (D2 : u * (1000 * p * d) <= u * (4100 * w)) by (apply Rmult_le_compat_l; lra).
    replace (u * (1000 * p * d)) with (1000 * d * (u * p)) in D2 by ring. rewrite U in D2.
    replace (41 / 10 * (u * (w * g))) with (41 / 10 * (u * w) * g) by ring. apply Rmult_le_compat_r; lra. }
  assert (UM : Z.max (ux t (lead (us ++ xs) + (fold - 1))) (ux t (jmax t)) = ux t (lead (us ++ xs) + fold - 1)).
  { replace (lead (us ++ xs) + (fold - 1))%Z with (lead (us ++ xs) + fold - 1)%Z by lia. apply Z.max_l. unfold ux. pose proof (width_pos t). nia. }
  rewrite UM in CE. set (l := ux t (lead (us ++ xs) + fold - 1)) in *.
  assert (ML : ismul l v).
  { rewrite <- CV. unfold cterms. pose proof (terms_multiple t (Vs xs) (Cs xs) (Z.to_nat (fold - 1)) (lead (us ++ xs)) (VCs_zero xs)) as T.
    replace (Z.of_nat (Z.to_nat (fold - 1))) with (fold - 1)%Z in T by lia. rewrite UM in T. exact T. }
  assert (LE : (emin t <= l)%Z) by (pose proof (ux_min t); unfold l, ux in *; pose proof (width_pos t); nia).
  clear A HT HO CV. clearbody v S.
  destruct (Rle_lt_dec (bpow radix2 (l + prec t) * (1 - bpow radix2 (-10))) (Rabs v)) as [Q|Q]; [right; auto|left].
  destruct CE as [CE|[CE _]].
  - rewrite CE in E. rewrite E. destruct t; [reflexivity|]. cbn [cround]. apply round_generic; [apply valid_rnd_N|]. apply (fmt_mul Flt l); auto.
    apply Rlt_le, Rlt_le_trans with (1 := Q). pose proof (bpow_gt_0 radix2 (l + prec Flt)). assert (0 < bpow radix2 (-10)) by apply bpow_gt_0. nra.
  - assert (bpow radix2 (l + prec t) <= bpow radix2 (l + 53)) by (apply bpow_le; clear; destruct t; cbn [prec]; lia).
    assert (0 < 1 - bpow radix2 (-10)) by (cbn; lra).
    assert (bpow radix2 (l + prec t) * (1 - bpow radix2 (-10)) <= bpow radix2 (l + 53) * (1 - bpow radix2 (-10))) by (apply Rmult_le_compat_r; lra). lra.
Qed.

(** ** Both terms together *)
Definition coef (t : ty) : F Dbl :=
  let eps : F Dbl := mkf 1 (1 - prec t) in
  fdiv (fmul (ofZ 7) eps) (fsub (fsub (ofZ 1) (fmul (ofZ 6) (fsqrt eps))) (fmul (ofZ 7) eps)).
Lemma coef_ok t : is_finite (coef t) = true /\ 14 * u_ t <= B2R (coef t) <= bpow radix2 (-10).
Proof.
  assert (F : is_finite (coef t) = true) by (destruct t; vm_compute; reflexivity). split; [exact F|].
  assert (Z : (14 * 2 ^ (1074 - prec t) <= toZ (coef t) <= 2 ^ 1064)%Z) by (destruct t; vm_compute; split; discriminate).
  rewrite toZ_B2R. destruct Z as [Z1 Z2]. apply IZR_le in Z1, Z2. rewrite mult_IZR in Z1.
  rewrite <- bpow_IZR in Z1 by (destruct t; discriminate). rewrite <- bpow_IZR in Z2 by discriminate. change (emin Dbl) with (-1074)%Z.
  pose proof (bpow_gt_0 radix2 (-1074)) as G. split.
  - apply Rle_trans with (14 * bpow radix2 (1074 - prec t) * bpow radix2 (-1074)); [|apply Rmult_le_compat_r; lra].
    right. rewrite Rmult_assoc, <- bpow_plus. do 2 f_equal. lia.
  - apply Rle_trans with (bpow radix2 1064 * bpow radix2 (-1074)); [apply Rmult_le_compat_r; lra|]. right. rewrite <- bpow_plus. reflexivity.
Qed.
(** The bound before the result is rounded to float. *)
Definition bound_sum (t : ty) (fold N : Z) (X S : F Dbl) : F Dbl :=
  fadd (fmul (fmul (fmax (fabs X) (fldexp (mkf 1 (-1)) (min_exp t - 1))) (fldexp (mkf 1 (-1)) ((1 - fold) * WIDTH t + 1))) (ofZ N)) (fmul (coef t) (fabs S)).
Lemma bound_sum_ok t fold N (X S : F Dbl) h : is_finite X = true -> is_finite S = true -> (2 <= fold)%Z -> ((fold - 1) * width t <= 1074)%Z -> (1 <= N <= 2 ^ 31)%Z ->
  (emin Dbl + 5 <= h)%Z -> bpow radix2 h <= Rabs (B2R X) * bpow radix2 (- ((fold - 1) * width t)) -> Rabs (B2R X) <= bpow radix2 (emax t) -> Rabs (B2R S) <= bpow radix2 (emax t) ->
  exists a b, is_finite (bound_sum t fold N X S) = true /\ B2R (bound_sum t fold N X S) = RN Dbl (a + b) /\
    IZR N * bpow radix2 h <= a /\ 0 <= b /\ 1399 / 100 * (u_ t * Rabs (B2R S)) - bpow radix2 h / 32 <= b.
Proof.
  intros FX FS Hf Hw HN Hh H1 HX HS.
  assert (EF : fldexp (mkf 1 (-1)) (min_exp t - 1) = pow2 Dbl (min_exp t - 2)).
  { replace (min_exp t - 1)%Z with (min_exp t - 2 + 1)%Z by lia. apply fldexp_pow2. destruct t; cbv; split; (discriminate || reflexivity). }
  assert (RF : (emin Dbl <= min_exp t - 2 < 0)%Z) by (destruct t; cbv; split; (discriminate || reflexivity)).
  destruct (mkf_pow2 Dbl (min_exp t - 2) ltac:(cbn [emax]; lia)) as [FF BF].
  pose proof (width_pos t) as WP.
  assert (EW : fldexp (mkf 1 (-1)) ((1 - fold) * WIDTH t + 1) = pow2 Dbl (- ((fold - 1) * width t))).
  { change (WIDTH t) with (width t). replace ((1 - fold) * width t + 1)%Z with (- ((fold - 1) * width t) + 1)%Z by lia. apply fldexp_pow2. change (emin Dbl) with (-1074)%Z. cbn [emax]. nia. }
  unfold bound_sum. rewrite EF, EW.
  assert (EW1 : (emax t - (fold - 1) * width t <= 984)%Z) by (clear - Hf; destruct t; cbn [emax width]; lia).
  destruct (first_term X (pow2 Dbl (min_exp t - 2)) ((fold - 1) * width t) N h FX FF) as (FA & LA & UA); auto.
  { rewrite BF, Rabs_pos_eq by apply bpow_ge_0. change 1 with (bpow radix2 0). apply bpow_le. lia. }
  { nia. }
  { lia. }
  { split; [exact H1|]. apply Rle_trans with (bpow radix2 (emax t) * bpow radix2 (- ((fold - 1) * width t))); [apply Rmult_le_compat_r; [apply bpow_ge_0|exact HX]|].
    rewrite <- bpow_plus. apply bpow_le. lia. }
  destruct (coef_ok t) as [FC BC].
  destruct (second_term (coef t) S (14 * u_ t) (emax t) FC FS) as (FB & [B0 BU] & LB); auto.
  { pose proof (bpow_ge_0 radix2 (- prec t)). lra. }
  { clear. destruct t; cbv; split; (discriminate || reflexivity). }
  set (a := fmul (fmul _ _) (ofZ N)) in *. set (b := fmul (coef t) (fabs S)) in *.
  assert (EM : bpow radix2 (emax t - 10) <= bpow radix2 1015) by (apply bpow_le; clear; destruct t; cbn [emax]; lia).
  assert (A0 : 0 <= B2R a).
  { eapply Rle_trans; [|exact LA]. apply Rmult_le_pos; [apply IZR_le; lia|apply bpow_ge_0]. }
  destruct (fadd_real Dbl a b FA FB) as [FS' ES'].
  { apply Rle_lt_trans with (bpow radix2 1016); [|apply bpow_lt; reflexivity]. apply RN_le; [cbv; discriminate|].
    change 1016%Z with (1 + 1015)%Z. rewrite bpow_plus. change (bpow radix2 1) with 2. rewrite Rabs_pos_eq; lra. }
  exists (B2R a), (B2R b). split; [exact FS'|]. split; [exact ES'|]. split; [exact LA|]. split; [exact B0|].
  eapply Rle_trans; [|exact LB]. pose proof (Rabs_pos (B2R S)) as SP. pose proof (bpow_gt_0 radix2 (- prec t)) as UP.
  assert (UD : 0 < u_ Dbl <= / 100000) by (split; [apply bpow_gt_0|cbn; lra]).
  assert (US : 0 <= u_ t * Rabs (B2R S)) by (apply Rmult_le_pos; lra).
  assert (HE : bpow radix2 (emin Dbl - 1) <= bpow radix2 h / 32).
  { change (/ 32) with (bpow radix2 (-5)). unfold Rdiv. replace (/ 32) with (bpow radix2 (-5)) by (cbn; lra). rewrite <- bpow_plus. apply bpow_le. lia. }
  set (q := u_ t * Rabs (B2R S)) in *. replace (14 * u_ t * Rabs (B2R S)) with (14 * q) by (unfold q; ring). nra.
Qed.
