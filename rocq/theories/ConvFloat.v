(** * The conversion programs add up exactly the terms of [ConvTerms], one rounding per addition *)
From Coq Require Import ZArith Bool List Lia Reals Lra.
From Flocq Require Import Core Relative BinarySingleNaN.
From Verif Require Import Fp Mem Binned Spec FpProofs BitProofs SpecProofs WordProofs AccProofs MemProofs ScaleProofs SumError ConvTerms ConvProofs.
Import ListNotations.
Open Scope R_scope.

(** ** One operation in real arithmetic *)
Lemma fadd_real t (x y : F t) : is_finite x = true -> is_finite y = true ->
  Rabs (RN t (B2R x + B2R y)) < bpow radix2 (emax t) ->
  is_finite (fadd x y) = true /\ B2R (fadd x y) = RN t (B2R x + B2R y).
Proof.
  intros Fx Fy H. pose proof (Bplus_correct _ _ (prec_gt_0 t) (prec_lt_emax t) mode_NE x y Fx Fy) as C.
  rewrite fexp_FLT in C. unfold F in *. cbn [round_mode] in C. rewrite Rlt_bool_true in C by exact H.
  destruct C as (C1 & C2 & _). unfold fadd. auto.
Qed.
Lemma fmul_real t (x y : F t) v : is_finite x = true -> is_finite y = true -> B2R x * B2R y = v -> fmt t v -> Rabs v < bpow radix2 (emax t) ->
  is_finite (fmul x y) = true /\ B2R (fmul x y) = v.
Proof.
  intros Fx Fy E F H. destruct (fmul_round t x y Fx Fy) as (A & B & _).
  - rewrite E. rewrite round_generic; [exact H|apply valid_rnd_N|exact F].
  - split; auto. rewrite B, E. apply round_generic; [apply valid_rnd_N|exact F].
Qed.
Lemma fdiv_real t (x y : F t) v : is_finite x = true -> B2R y <> 0 -> B2R x = v * B2R y -> fmt t v -> Rabs v < bpow radix2 (emax t) ->
  is_finite (fdiv x y) = true /\ B2R (fdiv x y) = v.
Proof.
  intros Fx Ny E F H. assert (E' : B2R x / B2R y = v) by (rewrite E; field; exact Ny).
  destruct (fdiv_round t x y Fx Ny) as (A & B & _).
  - rewrite E'. rewrite round_generic; [exact H|apply valid_rnd_N|exact F].
  - split; auto. rewrite B, E'. apply round_generic; [apply valid_rnd_N|exact F].
Qed.
Lemma fmt_B2R t (x : F t) : fmt t (B2R x).
Proof. unfold fmt. rewrite <- fexp_FLT. apply generic_format_B2R. Qed.
Lemma B2R_lt t (x : F t) : Rabs (B2R x) < bpow radix2 (emax t).
Proof. apply abs_B2R_lt_emax. Qed.
Lemma B2R_mul t (x : F t) : ismul (emin t) (B2R x).
Proof. exists (toZ x). apply toZ_B2R. Qed.
(** Small integers times powers of two *)
Lemma fmt_int t n e : (emin t <= e)%Z -> (Z.abs n <= 2 ^ prec t)%Z -> fmt t (IZR n * bpow radix2 e).
Proof.
  intros He Hn. apply (fmt_mul t e); auto; [eexists; reflexivity|].
  rewrite Rabs_mult, (Rabs_pos_eq (bpow _ _)) by apply bpow_ge_0. rewrite Z.add_comm, bpow_plus.
  apply Rmult_le_compat_r; [apply bpow_ge_0|]. rewrite <- abs_IZR, bpow_IZR by (pose proof (prec_pos t); lia). now apply IZR_le.
Qed.
Lemma size_int n a e f : (0 <= a)%Z -> (Z.abs n <= 2 ^ a)%Z -> (a + e < f)%Z -> Rabs (IZR n * bpow radix2 e) < bpow radix2 f.
Proof.
  intros Ha Hn H. rewrite Rabs_mult, (Rabs_pos_eq (bpow _ _)) by apply bpow_ge_0.
  apply Rle_lt_trans with (bpow radix2 (a + e)); [|now apply bpow_lt]. rewrite bpow_plus.
  apply Rmult_le_compat_r; [apply bpow_ge_0|]. rewrite <- abs_IZR, bpow_IZR by auto. now apply IZR_le.
Qed.

(** Scaling up does not change how a sum of floats rounds. *)
Lemma RN_up t v sc : (0 <= sc)%Z -> ismul (emin t) v -> RN t (v * bpow radix2 sc) = RN t v * bpow radix2 sc.
Proof.
  intros Hs M. destruct (Rle_lt_dec (bpow radix2 (emin t + prec t - 1)) (Rabs v)) as [H|H]; [apply RN_scale; auto|].
  assert (F : fmt t v).
  { apply (fmt_mul t (emin t)); auto; [lia|]. apply Rlt_le, Rlt_le_trans with (1 := H). apply bpow_le. lia. }
  assert (F' : fmt t (v * bpow radix2 sc)).
  { destruct M as [n E]. rewrite E in H |- *. rewrite Rmult_assoc, <- bpow_plus. apply fmt_int; [lia|].
    rewrite Rabs_mult, (Rabs_pos_eq (bpow _ _)) in H by apply bpow_ge_0.
    replace (emin t + prec t - 1)%Z with ((prec t - 1) + emin t)%Z in H by lia. rewrite bpow_plus in H.
    apply Rmult_lt_reg_r in H; [|apply bpow_gt_0]. rewrite <- abs_IZR, bpow_IZR in H by (pose proof (prec_pos t); lia). apply lt_IZR in H.
    assert (2 ^ (prec t - 1) <= 2 ^ prec t)%Z by (apply Z.pow_le_mono_r; lia). lia. }
  rewrite !round_generic; auto with typeclass_instances.
Qed.

(** [Y] is the partial sum r, scaled down by 2^sc. *)
Definition st (sc : Z) (r : R) (Y : F Dbl) : Prop := is_finite Y = true /\ B2R Y * bpow radix2 sc = r.
Lemma st_add sc r x (Y T : F Dbl) : (0 <= sc)%Z -> st sc r Y -> st sc x T -> Rabs (RN Dbl (r + x)) < bpow radix2 (emax Dbl + sc) ->
  st sc (RN Dbl (r + x)) (fadd Y T).
Proof.
  intros Hs [FY EY] [FT ET] H.
  assert (E : RN Dbl (r + x) = RN Dbl (B2R Y + B2R T) * bpow radix2 sc).
  { rewrite <- EY, <- ET, <- Rmult_plus_distr_r. apply RN_up; auto. apply ismul_plus; apply B2R_mul. }
  assert (B : Rabs (RN Dbl (B2R Y + B2R T)) < bpow radix2 (emax Dbl)).
  { rewrite E, Rabs_mult, (Rabs_pos_eq (bpow _ _)), bpow_plus in H by apply bpow_ge_0. apply Rmult_lt_reg_r in H; [auto|apply bpow_gt_0]. }
  destruct (fadd_real Dbl Y T FY FT B) as [A1 A2]. split; auto. rewrite A2, E. reflexivity.
Qed.

(** ** The terms *)
Section words.
  Context (t : ty) (fold k : Z) (V C : Z -> Z) (P W : Z -> F t).
  Hypothesis Hk : (0 <= k <= jmax t)%Z.
  Hypothesis HF : (fold <= jmax t + 1)%Z.
  Hypothesis HV : forall j, (0 <= V j < quarter t)%Z.
  Hypothesis HC : forall j, (Z.abs (C j) <= 2 ^ prec t)%Z.
  Hypothesis HZ : forall j, (jmax t < j)%Z -> V j = 0%Z /\ C j = 0%Z.
  Hypothesis HA : acc t fold k V C P W.

  (** Exponent of the stored primary word. *)
  Definition sx (j : Z) : Z := (stored_exp t j + emin t)%Z.
  Lemma sx_eq j : (0 <= j)%Z -> sx j = (ux t (Z.min j (jmax t)) - (if j =? 0 then prec t - width t + 1 else 0))%Z.
  Proof.
    intros Hj. unfold sx, stored_exp. assert (E : unit_exp t j = (ux t (Z.min j (jmax t)) - emin t)%Z).
    { unfold unit_exp, ux. lia. }
    rewrite E. lia.
  Qed.
  Lemma sx_range j : (0 <= j)%Z -> (emin t <= sx j /\ sx j + prec t <= emax t - (if j =? 0 then 0 else width t - 1 - (prec t - width t)) )%Z.
  Proof.
    intros Hj. rewrite sx_eq by auto. unfold ux. destruct (Z.eqb_spec j 0) as [->|N].
    - rewrite Z.min_l by (pose proof (jmax_pos t); lia). destruct t; cbn [prec width emax emin]; cbv [emin prec emax]; lia.
    - pose proof (jmax_pos t). destruct t; cbv [emin prec emax jmax width] in *; lia.
  Qed.
  Lemma bin_val i : (0 <= i < fold)%Z -> is_finite (dmbins t k i) = true /\ B2R (dmbins t k i) = IZR (6 * quarter t) * bpow radix2 (sx (k + i)).
  Proof.
    intros Hi. destruct (bins_priw t k i Hk ltac:(lia)) as [A B]. split; auto. rewrite toZ_B2R, B, mult_IZR. unfold sx.
    rewrite <- bpow_IZR by (apply Z.le_trans with 0%Z; [lia|]; pose proof (stored_exp_ge t (k + i) ltac:(lia)); lia). rewrite bpow_plus. ring.
  Qed.
  Lemma pri_val i : (0 <= i < fold)%Z -> is_finite (P i) = true /\ B2R (P i) = IZR (6 * quarter t + V (k + i)) * bpow radix2 (sx (k + i)).
  Proof.
    intros Hi. destruct HA as [_ A]. destruct (A i Hi) as [[F E] _]. split; auto. rewrite toZ_B2R, E, mult_IZR. unfold sx.
    rewrite <- bpow_IZR by (pose proof (stored_exp_ge t (k + i) ltac:(lia)); lia). rewrite bpow_plus. ring.
  Qed.
  Lemma car_val i : (0 <= i < fold)%Z -> is_finite (W i) = true /\ B2R (W i) = IZR (C (k + i)).
  Proof.
    intros Hi. destruct HA as [_ A]. destruct (A i Hi) as [_ [F E]]. split; auto. rewrite toZ_B2R, E, mult_IZR.
    rewrite <- bpow_IZR by (pose proof (emin_neg t); lia). rewrite Rmult_assoc, <- bpow_plus. rewrite Z.add_opp_diag_l. cbn. ring.
  Qed.
  Lemma diff_val i : (0 <= i < fold)%Z -> is_finite (fsub (P i) (dmbins t k i)) = true /\ B2R (fsub (P i) (dmbins t k i)) = IZR (V (k + i)) * bpow radix2 (sx (k + i)).
  Proof.
    intros Hi. destruct HA as [_ A]. destruct (A i Hi) as [[F E] _]. destruct (bins_priw t k i Hk ltac:(lia)) as [FB EB].
    assert (SG : (0 <= stored_exp t (k + i))%Z) by (pose proof (stored_exp_ge t (k + i) ltac:(lia)); lia).
    destruct (fsub_exact t (P i) (dmbins t k i) F FB) as (R1 & R2 & _).
    - rewrite E, EB, <- Z.mul_sub_distr_r. replace (6 * quarter t + V (k + i) - 6 * quarter t)%Z with (V (k + i)) by ring.
      apply repr_le; auto; [|unfold span; pose proof (sx_range (k + i) ltac:(lia)) as SR; unfold sx in SR; pose proof (width_pos t); destruct (k + i =? 0); destruct t; cbv [emin prec emax width] in *; lia].
      specialize (HV (k + i)%Z). rewrite Z.abs_eq by lia. unfold quarter in HV. pose proof (prec_pos t).
      assert (2 ^ (prec t - 3) < 2 ^ prec t)%Z by (apply Z.pow_lt_mono_r; lia). lia.
    - split; auto. rewrite toZ_B2R, R2, E, EB, <- Z.mul_sub_distr_r, mult_IZR. replace (6 * quarter t + V (k + i) - 6 * quarter t)%Z with (V (k + i)) by ring.
      unfold sx. rewrite <- bpow_IZR by auto. rewrite bpow_plus. ring.
  Qed.
End words.

(** ** Prefixes of the list of terms, in the order of the program *)
Section prefix.
  Context (t : ty) (V C : Z -> Z) (k : Z).
  Local Notation cterm := (cterm t C). Local Notation pterm := (pterm t V). Local Notation rest := (rest t V C).
  Fixpoint pre (m : nat) : list (R * Z) :=
    match m with O => [cterm k] | S m' => pre m' ++ [cterm (k + Z.of_nat m' + 1); pterm (k + Z.of_nat m')] end.
  Lemma pre_rest n : forall m, (m <= n)%nat -> all_terms t V C n k = pre m ++ rest (n - m) (k + Z.of_nat m).
  Proof.
    induction m as [|m IH]; intros H.
    - rewrite Nat.sub_0_r, Z.add_0_r. reflexivity.
    - rewrite IH by lia. replace (n - m)%nat with (S (n - S m)) by lia. cbn [pre ConvTerms.rest]. rewrite <- app_assoc. cbn [app].
      replace (k + Z.of_nat m + 1)%Z with (k + Z.of_nat (S m))%Z by lia. reflexivity.
  Qed.
  Lemma pre_last n : all_terms t V C n k = pre n ++ [pterm (k + Z.of_nat n)].
  Proof. rewrite (pre_rest n n) by lia. rewrite Nat.sub_diag. reflexivity. Qed.
End prefix.

Lemma st_step sc (l : list (R * Z)) (x : R) (q : Z) (Y T : F Dbl) : (0 <= sc)%Z -> st sc (rsum Dbl 0 (map fst l)) Y -> st sc x T ->
  Rabs (rsum Dbl 0 (map fst (l ++ [(x, q)]))) < bpow radix2 (emax Dbl + sc) ->
  st sc (rsum Dbl 0 (map fst (l ++ [(x, q)]))) (fadd Y T).
Proof. rewrite map_app, rsum_app. cbn [map fst rsum fold_left]. intros. apply st_add; auto. Qed.

(** What is left to add when the sum is no longer scaled down. *)
Definition late (t : ty) (V C : Z -> Z) (n : nat) (k : Z) (l2 : list (R * Z)) : Prop :=
  l2 = [] \/ exists m l0, (m <= n)%nat /\ (2 <= k + Z.of_nat m)%Z /\ rest t V C (n - m) (k + Z.of_nat m) = l0 ++ l2.

Section bounds.
  Context (t : ty) (V C : Z -> Z) (n : nat) (k : Z).
  Hypothesis Hk : (0 <= k)%Z.
  Hypothesis HV : forall j, (0 <= V j < quarter t)%Z.
  Hypothesis HC : forall j, (Z.abs (C j) <= 2 ^ prec t)%Z.
  Hypothesis HZ : forall j, (jmax t < j)%Z -> V j = 0%Z /\ C j = 0%Z.
  Local Notation all := (all_terms t V C n k).
  Lemma rsum_near (l1 l2 : list (R * Z)) : all = l1 ++ l2 ->
    fmt Dbl (rsum Dbl 0 (map fst l1)) /\ Rabs (rsum Dbl 0 (map fst l1)) <= (1 + 7 * u_ Dbl) * Rabs (fsum (map fst l1)).
  Proof.
    intros E. destruct (conv_error t V C HV HC HZ n k l1 l2 Hk E) as [[E1 F]|(_ & F & B)].
    - rewrite E1. split; auto. pose proof (Rabs_pos (fsum (map fst l1))). pose proof (bpow_ge_0 radix2 (- prec Dbl)). nra.
    - split; auto. set (s := fsum _) in *. set (r := rsum _ _ _) in *. destruct (cfac_ok t) as [[C0 C7] _].
      assert (Rabs r <= Rabs s + Rabs (r - s)) by (replace r with (s + (r - s)) at 1 by ring; apply Rabs_triang).
      assert (cfac t * u_ Dbl * Rabs s <= 7 * u_ Dbl * Rabs s).
      { apply Rmult_le_compat_r; [apply Rabs_pos|]. apply Rmult_le_compat_r; [apply bpow_ge_0|lra]. }
      lra.
  Qed.
  Lemma all_size : asum (map fst all) <= bpow radix2 (ux t k + 2 * prec t - 2).
  Proof.
    unfold all_terms. cbn [map asum fold_right]. pose proof (c_size t C HC k) as A. pose proof (rest_size t V C HV HC HZ n k) as B. unfold asum in B.
    replace (ux t k + 2 * prec t - 2)%Z with (1 + (ux t k + 2 * prec t - 3))%Z by lia. rewrite bpow_plus. change (bpow radix2 1) with 2.
    assert (bpow radix2 (ux t k + 2 * prec t - 2 - width t) <= bpow radix2 (ux t k + 2 * prec t - 3)) by (apply bpow_le; pose proof (width_pos t); lia). lra.
  Qed.
  Lemma prefix_lt (l1 l2 : list (R * Z)) e : all = l1 ++ l2 -> (ux t k + 2 * prec t - 2 < e)%Z -> Rabs (rsum Dbl 0 (map fst l1)) < bpow radix2 e.
  Proof.
    intros E H. destruct (rsum_near l1 l2 E) as [_ B]. pose proof (fsum_asum (map fst l1)) as A. pose proof all_size as S.
    rewrite E, map_app, asum_app in S. pose proof (asum_pos (map fst l2)).
    assert (BE : 2 * bpow radix2 (ux t k + 2 * prec t - 2) <= bpow radix2 e).
    { change 2 with (bpow radix2 1) at 1. rewrite <- bpow_plus. apply bpow_le. lia. }
    assert (U : 0 < u_ Dbl <= / 100) by (cbn; lra). pose proof (Rabs_pos (fsum (map fst l1))).
    pose proof (bpow_gt_0 radix2 (ux t k + 2 * prec t - 2)). nra.
  Qed.
  Lemma late_size l2 : (forall j, 2 <= j -> ux t j + 2 * prec t - 2 - width t <= 975)%Z -> late t V C n k l2 -> asum (map fst l2) <= bpow radix2 975.
  Proof.
    intros HU [->|(m & l0 & Hm & H2 & E)]; [apply bpow_ge_0|].
    eapply Rle_trans; [|apply (bpow_le radix2 _ _ (HU _ H2))]. eapply Rle_trans; [|apply (rest_size t V C HV HC HZ (n - m))].
    rewrite E, map_app, asum_app. pose proof (asum_pos (map fst l0)). lra.
  Qed.
  Lemma prefix_fits (l1 l2 : list (R * Z)) : all = l1 ++ l2 -> asum (map fst l2) <= bpow radix2 975 ->
    Rabs (fsum (map fst all)) <= bpow radix2 1024 - bpow radix2 1000 -> Rabs (rsum Dbl 0 (map fst l1)) < bpow radix2 1024.
  Proof.
    intros E A S. destruct (rsum_near l1 l2 E) as [_ B]. rewrite E, map_app, fsum_app in S. pose proof (fsum_asum (map fst l2)) as A2.
    assert (F1 : Rabs (fsum (map fst l1)) <= Rabs (fsum (map fst l1) + fsum (map fst l2)) + Rabs (fsum (map fst l2))).
    { replace (fsum (map fst l1)) with ((fsum (map fst l1) + fsum (map fst l2)) + - fsum (map fst l2)) at 1 by ring.
      eapply Rle_trans; [apply Rabs_triang|]. rewrite Rabs_Ropp. lra. }
    set (z := Rabs (fsum (map fst l1))) in *.
    set (g := bpow radix2 975) in *.
    assert (G : 0 < g) by apply bpow_gt_0.
    assert (E1 : bpow radix2 1000 = bpow radix2 25 * g) by (unfold g; rewrite <- bpow_plus; reflexivity).
    assert (E2 : bpow radix2 1024 = bpow radix2 49 * g) by (unfold g; rewrite <- bpow_plus; reflexivity).
    assert (E3 : u_ Dbl * bpow radix2 49 = bpow radix2 (-4)) by (rewrite <- bpow_plus; reflexivity).
    assert (ZB : z <= bpow radix2 49 * g) by (rewrite E2, E1 in S; assert (1 <= bpow radix2 25) by (cbn; lra); nra).
    assert (UB : u_ Dbl * z <= bpow radix2 (-4) * g) by (rewrite <- E3, Rmult_assoc; apply Rmult_le_compat_l; [apply bpow_ge_0|exact ZB]).
    eapply Rle_lt_trans; [exact B|]. rewrite E1, E2 in *.
    assert (7 * bpow radix2 (-4) + 1 < bpow radix2 25) by (cbn; lra). nra.
  Qed.
End bounds.

(** A loop that adds a carry and a primary term per round. *)
Lemma pairs_loop t (V C : Z -> Z) k n sc lo hi (fc fp : Z -> F Dbl) (Y : F Dbl) : (0 <= sc)%Z -> (1 <= lo <= hi)%Z -> (hi - 1 <= Z.of_nat n)%Z ->
  (forall i, lo <= i < hi -> st sc (fst (cterm t C (k + i))) (fc i) /\ st sc (fst (pterm t V (k + (i - 1)))) (fp (i - 1)))%Z ->
  (forall l1 l2, all_terms t V C n k = l1 ++ l2 ->
     (exists l0, rest t V C (n - Z.to_nat (lo - 1)) (k + (lo - 1)) = l0 ++ l2) ->
     Rabs (rsum Dbl 0 (map fst l1)) < bpow radix2 (emax Dbl + sc)) ->
  st sc (rsum Dbl 0 (map fst (pre t V C k (Z.to_nat (lo - 1))))) Y ->
  st sc (rsum Dbl 0 (map fst (pre t V C k (Z.to_nat (hi - 1))))) (for_up lo hi (fun i Y => fadd (fadd Y (fc i)) (fp (i - 1)%Z)) Y).
Proof.
  intros Hs Hl Hn HT HB H0.
  refine (for_up_inv (fun i Y => st sc (rsum Dbl 0 (map fst (pre t V C k (Z.to_nat (i - 1))))) Y) _ lo hi Y _ H0 _); [lia|].
  intros i s Hi Hs'. destruct (HT i Hi) as [TC TP].
  replace (Z.to_nat (i + 1 - 1)) with (S (Z.to_nat (i - 1))) by lia. set (m := Z.to_nat (i - 1)) in *. cbn [pre].
  replace (k + Z.of_nat m + 1)%Z with (k + i)%Z by lia. replace (k + Z.of_nat m)%Z with (k + (i - 1))%Z by lia.
  assert (E : all_terms t V C n k = (pre t V C k m ++ [cterm t C (k + i)]) ++ pterm t V (k + (i - 1)) :: rest t V C (n - S m) (k + i)).
  { rewrite (pre_rest t V C k n m) by lia. replace (n - m)%nat with (S (n - S m)) by lia. cbn [rest]. rewrite <- app_assoc. cbn [app].
    replace (k + Z.of_nat m)%Z with (k + (i - 1))%Z by lia. replace (k + (i - 1) + 1)%Z with (k + i)%Z by lia. reflexivity. }
  (* what is left is part of what was left at the start of the loop *)
  assert (SUF : exists l0, rest t V C (n - Z.to_nat (lo - 1)) (k + (lo - 1)) = l0 ++ cterm t C (k + i) :: pterm t V (k + (i - 1)) :: rest t V C (n - S m) (k + i)).
  { clear - Hi Hl Hn. assert (G : forall a m0 j, (a <= m0)%nat -> exists l, rest t V C m0 j = l ++ rest t V C (m0 - a) (j + Z.of_nat a)).
    { induction a as [|a IH]; intros m0 j Ha; [exists []; rewrite Nat.sub_0_r, Z.add_0_r; reflexivity|].
      destruct m0 as [|m0]; [lia|]. cbn [rest]. destruct (IH m0 (j + 1)%Z ltac:(lia)) as [l E]. exists (cterm t C (j + 1) :: pterm t V j :: l). cbn [app].
      rewrite E. do 3 f_equal. cbn [Nat.sub]. f_equal. lia. }
    destruct (G (Z.to_nat (i - lo)) (n - Z.to_nat (lo - 1))%nat (k + (lo - 1))%Z ltac:(lia)) as [l E]. exists l.
    rewrite E. f_equal.
    replace (n - Z.to_nat (lo - 1) - Z.to_nat (i - lo))%nat with (S (n - S m)) by lia.
    replace (k + (lo - 1) + Z.of_nat (Z.to_nat (i - lo)))%Z with (k + (i - 1))%Z by lia. cbn [rest].
    replace (k + (i - 1) + 1)%Z with (k + i)%Z by lia. reflexivity. }
  destruct SUF as [ls SUF].
  assert (S1 : st sc (rsum Dbl 0 (map fst (pre t V C k m ++ [cterm t C (k + i)]))) (fadd s (fc i))).
  { change (cterm t C (k + i)) with (fst (cterm t C (k + i)), snd (cterm t C (k + i))) at 1. apply st_step; auto. 
    apply (HB _ _ E). exists (ls ++ [cterm t C (k + i)]). rewrite SUF, <- app_assoc. reflexivity. }
  assert (E2 : all_terms t V C n k = (pre t V C k m ++ [cterm t C (k + i); pterm t V (k + (i - 1))]) ++ rest t V C (n - S m) (k + i)).
  { rewrite E, <- !app_assoc. reflexivity. }
  replace (pre t V C k m ++ [cterm t C (k + i); pterm t V (k + (i - 1))]) with ((pre t V C k m ++ [cterm t C (k + i)]) ++ [(fst (pterm t V (k + (i - 1))), snd (pterm t V (k + (i - 1))))])
    by (rewrite <- app_assoc; reflexivity).
  apply st_step; auto. replace ((pre t V C k m ++ [cterm t C (k + i)]) ++ [(fst (pterm t V (k + (i - 1))), snd (pterm t V (k + (i - 1))))]) with (pre t V C k m ++ [cterm t C (k + i); pterm t V (k + (i - 1))])
    by (rewrite <- app_assoc; reflexivity).
  apply (HB _ _ E2). exists (ls ++ [cterm t C (k + i); pterm t V (k + (i - 1))]). rewrite SUF, <- app_assoc. reflexivity.
Qed.

(** ** binned_ddmconv *)
Section ddm.
  Local Notation t := Dbl.
  Context (fold k : Z) (V C : Z -> Z) (P W : Z -> F t).
  Hypothesis Hf : (2 <= fold <= jmax t + 1)%Z.
  Hypothesis Hk : (0 <= k <= jmax t)%Z.
  Hypothesis HV : forall j, (0 <= V j < quarter t)%Z.
  Hypothesis HC : forall j, (Z.abs (C j) <= 2 ^ prec t)%Z.
  Hypothesis HZ : forall j, (jmax t < j)%Z -> V j = 0%Z /\ C j = 0%Z.
  Hypothesis HA : acc t fold k V C P W.
  Local Notation cterm := (cterm t C). Local Notation pterm := (pterm t V).
  Local Notation b := (dmbins Dbl k). Local Notation six := (mkf 6 0 : F Dbl).

  Lemma six_val : is_finite six = true /\ B2R six = 6.
  Proof. split; [reflexivity|]. cbn. unfold F2R. cbn. lra. Qed.
  Lemma sd_val : let sd : F Dbl := fldexp (mkf 1 (-1)) (1 - (2 * prec Dbl - WIDTH Dbl)) in is_finite sd = true /\ B2R sd = bpow radix2 (-66).
  Proof.
    cbv zeta. replace (fldexp (mkf 1 (-1)) (1 - (2 * prec Dbl - WIDTH Dbl)) : F Dbl) with (mkf 1 (-66) : F Dbl).
    - apply mkf_pow2. cbv; split; [discriminate|reflexivity].
    - apply float_ext; vm_compute; auto.
  Qed.
  Lemma su_val : let su : F Dbl := fldexp (mkf 1 (-1)) (1 + (2 * prec Dbl - WIDTH Dbl)) in is_finite su = true /\ B2R su = bpow radix2 66.
  Proof.
    cbv zeta. replace (fldexp (mkf 1 (-1)) (1 + (2 * prec Dbl - WIDTH Dbl)) : F Dbl) with (mkf 1 66 : F Dbl).
    - apply mkf_pow2. cbv; split; [discriminate|reflexivity].
    - apply float_ext; vm_compute; auto.
  Qed.
  Lemma ex_val : is_finite (EXPANSION Dbl) = true /\ B2R (EXPANSION Dbl) = bpow radix2 14.
  Proof. apply (mkf_pow2 Dbl 14). cbv; split; [discriminate|reflexivity]. Qed.
  Lemma sxd j : (0 <= j)%Z -> (sx Dbl j = if j =? 0 then 971 else 985 - 40 * Z.min j 51)%Z.
  Proof. intros Hj. rewrite sx_eq by auto. unfold ux. destruct (Z.eqb_spec j 0) as [->|N]; [reflexivity|]. cbv [emax width jmax]. lia. Qed.
  Lemma uxd j : (ux Dbl j = 985 - 40 * j)%Z. Proof. unfold ux. cbv [emax width]. lia. Qed.
  Lemma fmt_bpow e : (emin Dbl <= e)%Z -> fmt Dbl (bpow radix2 e).
  Proof. intros H. apply generic_format_FLT_bpow; [reflexivity|exact H]. Qed.
  Lemma abs_bpow e f : (e < f)%Z -> Rabs (bpow radix2 e) < bpow radix2 f.
  Proof. intros H. rewrite Rabs_pos_eq by apply bpow_ge_0. now apply bpow_lt. Qed.
  Lemma sixth i : (0 <= i < fold)%Z -> is_finite (fdiv (b i) six) = true /\ B2R (fdiv (b i) six) = bpow radix2 (50 + sx Dbl (k + i)).
  Proof.
    intros Hi. destruct (bin_val Dbl fold k Hk ltac:(lia) i Hi) as [FB EB]. destruct six_val as [F6 E6].
    assert (SR : (-1055 <= sx Dbl (k + i) <= 971)%Z) by (rewrite sxd by lia; destruct (k + i =? 0)%Z eqn:E; [lia|apply Z.eqb_neq in E; lia]).
    apply fdiv_real; auto.
    - rewrite E6. lra.
    - rewrite EB, E6. unfold quarter. cbn [prec]. rewrite mult_IZR, <- bpow_IZR by lia. rewrite bpow_plus. change (53 - 3)%Z with 50%Z. ring.
    - apply fmt_bpow. cbv [emin prec emax]. lia.
    - apply abs_bpow. cbn [emax]. lia.
  Qed.
  (** A carry times a power of two. *)
  Lemma car_mul i (x : F Dbl) e : (0 <= i < fold)%Z -> is_finite x = true -> B2R x = bpow radix2 e -> (emin Dbl <= e < 971)%Z ->
    is_finite (fmul (W i) x) = true /\ B2R (fmul (W i) x) = IZR (C (k + i)) * bpow radix2 e.
  Proof.
    intros Hi Fx Ex He. destruct (car_val Dbl fold k V C P W HA i Hi) as [FW EW]. apply fmul_real; auto.
    - rewrite EW, Ex. reflexivity.
    - apply fmt_int; [lia|apply HC].
    - apply (size_int _ 53); [lia|apply HC|cbn [emax]; lia].
  Qed.
  Lemma zero_bin i e e' : (0 <= i < fold)%Z -> ((k + i <= 51)%Z -> e = e') ->
    IZR (C (k + i)) * bpow radix2 e = IZR (C (k + i)) * bpow radix2 e' /\ IZR (V (k + i)) * bpow radix2 e = IZR (V (k + i)) * bpow radix2 e'.
  Proof.
    intros Hi H. destruct (Z_le_dec (k + i) 51) as [L|L]; [rewrite H by auto; auto|].
    destruct (HZ (k + i)%Z) as [-> ->]; [cbn; lia|]. split; ring.
  Qed.
  (** Unscaled terms. *)
  Lemma c_plain i : (0 <= i < fold)%Z -> (1 <= k + i)%Z -> (3 <= k + i)%Z -> st 0 (fst (cterm (k + i))) (fmul (W i) (fdiv (b i) six)).
  Proof.
    intros Hi H1 H4. destruct (sixth i Hi) as [F6 E6]. rewrite sxd in E6 by lia. rewrite (proj2 (Z.eqb_neq (k + i) 0)) in E6 by lia.
    destruct (car_mul i _ _ Hi F6 E6) as [A B]; [cbv [emin prec emax]; lia|]. split; auto. rewrite B. cbn [bpow]. rewrite Rmult_1_r.
    unfold ConvTerms.cterm. cbn [fst]. rewrite uxd. cbn [prec]. apply zero_bin; auto. lia.
  Qed.
  Lemma p_plain i : (0 <= i < fold)%Z -> (1 <= k + i)%Z -> st 0 (fst (pterm (k + i))) (fsub (P i) (b i)).
  Proof.
    intros Hi H1. destruct (diff_val Dbl fold k V C P W Hk ltac:(lia) HV HC HZ HA i Hi) as [A B]. split; auto.
    rewrite B. cbn [bpow]. rewrite Rmult_1_r. rewrite sxd by lia. rewrite (proj2 (Z.eqb_neq (k + i) 0)) by lia.
    unfold ConvTerms.pterm. cbn [fst]. rewrite uxd. apply zero_bin; auto. lia.
  Qed.
  (** Terms scaled down. *)
  Local Notation sd := (fldexp (mkf 1 (-1)) (1 - (2 * prec Dbl - WIDTH Dbl)) : F Dbl).
  Local Notation su := (fldexp (mkf 1 (-1)) (1 + (2 * prec Dbl - WIDTH Dbl)) : F Dbl).
  Lemma c_scaled i : (0 <= i < fold)%Z -> (1 <= k + i <= 4)%Z -> st 66 (fst (cterm (k + i))) (fmul (W i) (fmul (fdiv (b i) six) sd)).
  Proof.
    intros Hi H1. destruct (sixth i Hi) as [F6 E6]. rewrite sxd in E6 by lia. rewrite (proj2 (Z.eqb_neq (k + i) 0)) in E6 by lia.
    destruct sd_val as [FS ES].
    destruct (fmul_real Dbl (fdiv (b i) six) sd (bpow radix2 (50 + (985 - 40 * Z.min (k + i) 51) - 66)) F6 FS) as [FM EM].
    - rewrite E6, ES, <- bpow_plus. f_equal.
    - apply fmt_bpow. cbv [emin prec emax]. lia.
    - apply abs_bpow. cbn [emax]. lia.
    - destruct (car_mul i _ _ Hi FM EM) as [A B]; [cbv [emin prec emax]; lia|]. split; auto. rewrite B, Rmult_assoc, <- bpow_plus.
      unfold ConvTerms.cterm. cbn [fst]. rewrite uxd. cbn [prec]. do 2 f_equal. lia.
  Qed.
  Lemma p_scaled i : (0 <= i < fold)%Z -> (1 <= k + i <= 4)%Z -> st 66 (fst (pterm (k + i))) (fmul (fsub (P i) (b i)) sd).
  Proof.
    intros Hi H1. destruct (diff_val Dbl fold k V C P W Hk ltac:(lia) HV HC HZ HA i Hi) as [A B].
    rewrite sxd in B by lia. rewrite (proj2 (Z.eqb_neq (k + i) 0)) in B by lia. destruct sd_val as [FS ES]. specialize (HV (k + i)%Z). unfold quarter in HV. cbn [prec] in HV.
    destruct (fmul_real Dbl (fsub (P i) (b i)) sd (IZR (V (k + i)) * bpow radix2 (985 - 40 * Z.min (k + i) 51 - 66)) A FS) as [FM EM].
    - rewrite B, ES, Rmult_assoc, <- bpow_plus. do 2 f_equal.
    - apply fmt_int; [cbv [emin prec emax]; lia|]. cbn [prec]. lia.
    - apply (size_int _ 50); [lia|lia|cbn [emax]; lia].
    - split; auto. rewrite EM, Rmult_assoc, <- bpow_plus. unfold ConvTerms.pterm. cbn [fst]. rewrite uxd. do 2 f_equal. lia.
  Qed.
  Lemma c_first : k = 0%Z -> st 66 (fst (cterm 0)) (fmul (W 0) (fmul (fmul (fdiv (b 0) six) sd) (EXPANSION Dbl))).
  Proof.
    intros K0. destruct (sixth 0 ltac:(lia)) as [F6 E6]. replace (sx Dbl (k + 0)) with 971%Z in E6 by (rewrite K0; reflexivity).
    destruct sd_val as [FS ES]. destruct ex_val as [FE EE].
    destruct (fmul_real Dbl (fdiv (b 0) six) sd (bpow radix2 (50 + 971 - 66)) F6 FS) as [FM EM].
    - rewrite E6, ES, <- bpow_plus. f_equal.
    - apply fmt_bpow. cbv [emin prec emax]. lia.
    - apply abs_bpow. cbn [emax]. lia.
    - destruct (fmul_real Dbl _ (EXPANSION Dbl) (bpow radix2 969) FM FE) as [FN EN].
      + rewrite EM, EE, <- bpow_plus. f_equal.
      + apply fmt_bpow. cbv [emin prec emax]. lia.
      + apply abs_bpow. cbn [emax]. lia.
      + destruct (car_mul 0 _ _ ltac:(lia) FN EN) as [A B]; [cbv [emin prec emax]; lia|]. split; auto. rewrite B, Rmult_assoc, <- bpow_plus.
        unfold ConvTerms.cterm. cbn [fst]. rewrite uxd, K0. cbn [prec Z.add]. do 2 f_equal.
  Qed.
  Lemma p_first : k = 0%Z -> st 66 (fst (pterm 0)) (fmul (fmul (fsub (P 0) (b 0)) sd) (EXPANSION Dbl)).
  Proof.
    intros K0. destruct (diff_val Dbl fold k V C P W Hk ltac:(lia) HV HC HZ HA 0 ltac:(lia)) as [A B].
    replace (sx Dbl (k + 0)) with 971%Z in B by (rewrite K0; reflexivity). destruct sd_val as [FS ES]. destruct ex_val as [FE EE].
    replace (V (k + 0)) with (V 0) in B by (rewrite K0; reflexivity). specialize (HV 0%Z). unfold quarter in HV. cbn [prec] in HV.
    destruct (fmul_real Dbl (fsub (P 0) (b 0)) sd (IZR (V 0) * bpow radix2 (971 - 66)) A FS) as [FM EM].
    - rewrite B, ES, Rmult_assoc, <- bpow_plus. do 2 f_equal.
    - apply fmt_int; [cbv [emin prec emax]; lia|]. cbn [prec]. lia.
    - apply (size_int _ 50); [lia|lia|cbn [emax]; lia].
    - destruct (fmul_real Dbl _ (EXPANSION Dbl) (IZR (V 0) * bpow radix2 (971 - 66 + 14)) FM FE) as [FN EN].
      + rewrite EM, EE, Rmult_assoc, <- bpow_plus. reflexivity.
      + apply fmt_int; [cbv [emin prec emax]; lia|]. cbn [prec]. lia.
      + apply (size_int _ 50); [lia|lia|cbn [emax]; lia].
      + split; auto. rewrite EN, Rmult_assoc, <- bpow_plus. unfold ConvTerms.pterm. cbn [fst]. rewrite uxd. do 2 f_equal.
  Qed.
  Lemma unscale r (Y : F Dbl) : st 66 r Y -> fmt Dbl r -> Rabs r < bpow radix2 1024 -> st 0 r (fmul Y su) /\ f_isinf (fmul Y su) = false.
  Proof.
    intros [FY EY] Fr Br. destruct su_val as [FS ES]. destruct (fmul_real Dbl Y su r FY FS) as [A B]; auto.
    - rewrite ES. exact EY.
    - split; [split; auto; rewrite B; cbn [bpow]; ring|]. destruct (fmul Y su); auto; discriminate.
  Qed.

  Lemma st_zero sc : st sc 0 (fzero : F Dbl). Proof. split; [reflexivity|]. cbn. ring. Qed.
  Lemma st_first sc (x : R) (q : Z) (T : F Dbl) : (0 <= sc)%Z -> st sc x T -> Rabs (rsum Dbl 0 (map fst [(x, q)])) < bpow radix2 (emax Dbl + sc) ->
    st sc (rsum Dbl 0 (map fst [(x, q)])) (fadd fzero T).
  Proof. intros Hs H B. apply (st_step sc [] x q fzero T); auto. apply st_zero. Qed.

  Theorem ddmconv_rsum : let l := map fst (all_terms Dbl V C (Z.to_nat (fold - 1)) k) in
    (forall l1 l2, all_terms Dbl V C (Z.to_nat (fold - 1)) k = l1 ++ l2 -> late Dbl V C (Z.to_nat (fold - 1)) k l2 -> Rabs (rsum Dbl 0 (map fst l1)) < bpow radix2 1024) ->
    st 0 (rsum Dbl 0 l) (ddmconv_v fold P W).
  Proof.
    intros l HS. set (n := Z.to_nat (fold - 1)) in *.
    assert (QP := quarter_pos Dbl).
    destruct (priw_0 Dbl fold k V C P W HA ltac:(lia)) as (N1 & N2 & N3 & _); [specialize (HV k); unfold inbin; lia|].
    (* bounds on the partial sums *)
    assert (HB0 : forall l1 l2 : list (R * Z), all_terms Dbl V C n k = l1 ++ l2 -> late Dbl V C n k l2 -> Rabs (rsum Dbl 0 (map fst l1)) < bpow radix2 (emax Dbl + 0)) by exact HS.
    assert (HB66 : forall l1 l2 : list (R * Z), all_terms Dbl V C n k = l1 ++ l2 -> Rabs (rsum Dbl 0 (map fst l1)) < bpow radix2 (emax Dbl + 66)).
    { intros l1 l2 E. apply (prefix_lt Dbl V C n k ltac:(lia) HV HC HZ l1 l2 _ E). rewrite uxd. cbn [prec emax]. lia. }
    assert (FM : forall l1 l2 : list (R * Z), all_terms Dbl V C n k = l1 ++ l2 -> fmt Dbl (rsum Dbl 0 (map fst l1))).
    { intros l1 l2 E. apply (rsum_near Dbl V C n k ltac:(lia) HV HC HZ l1 l2 E). }
    unfold ddmconv_v. cbv zeta. rewrite N1, N2, N3.
    change (cdiv (3 * prec Dbl) (WIDTH Dbl)) with 3%Z.
    assert (PL : forall m, map fst (pre Dbl V C k m ++ [pterm (k + Z.of_nat m)]) = map fst (pre Dbl V C k m ++ [(fst (pterm (k + Z.of_nat m)), snd (pterm (k + Z.of_nat m)))])) by reflexivity.
    (* the end of the unscaled sum *)
    assert (FIN : forall i Y, (1 <= i <= fold)%Z -> (2 <= k + (i - 1))%Z -> (2 <= i \/ 1 <= k)%Z ->
      st 0 (rsum Dbl 0 (map fst (pre Dbl V C k (Z.to_nat (i - 1))))) Y ->
      st 0 (rsum Dbl 0 l) (fadd (for_up i fold (fun i Y => fadd (fadd Y (fmul (W i) (fdiv (b i) six))) (fsub (P (i - 1)%Z) (b (i - 1)%Z))) Y) (fsub (P (fold - 1)%Z) (b (fold - 1)%Z)))).
    { intros i Y Hi H3 H2 HY.
      assert (L : st 0 (rsum Dbl 0 (map fst (pre Dbl V C k (Z.to_nat (fold - 1))))) (for_up i fold (fun i Y => fadd (fadd Y (fmul (W i) (fdiv (b i) six))) (fsub (P (i - 1)%Z) (b (i - 1)%Z))) Y)).
      { apply (pairs_loop Dbl V C k n 0 i fold (fun i => fmul (W i) (fdiv (b i) six)) (fun i => fsub (P i) (b i))); auto; try lia.
        - intros i' Hi'. split; [apply c_plain; lia|apply p_plain; lia].
        - intros l1 l2 E A. apply (HB0 l1 l2 E). destruct A as [l0 A]. right. exists (Z.to_nat (i - 1)), l0. split; [lia|]. replace (Z.of_nat (Z.to_nat (i - 1))) with (i - 1)%Z by lia. split; [lia|exact A]. }
      unfold l. rewrite (pre_last Dbl V C k n), PL. fold n in L. apply st_step; auto; [lia| |].
      - replace (k + Z.of_nat n)%Z with (k + (fold - 1))%Z by lia. apply p_plain; lia.
      - rewrite <- PL, <- pre_last. apply (HB0 _ []); [symmetry; apply app_nil_r|now left]. }
    (* the scaled part *)
    assert (SC : forall i Y, (1 <= i)%Z -> (2 <= i \/ 1 <= k)%Z -> (i <= fold)%Z -> (k <= 3)%Z -> (k = 0 -> i = 2)%Z -> (k <> 0 -> i = 1)%Z ->
      st 66 (rsum Dbl 0 (map fst (pre Dbl V C k (Z.to_nat (i - 1))))) Y ->
      let scaled := Z.max (Z.min fold (3 - k)) 0 in
      let Y1 := for_up i scaled (fun i Y => fadd (fadd Y (fmul (W i) (fmul (fdiv (b i) six) sd))) (fmul (fsub (P (i - 1)%Z) (b (i - 1)%Z)) sd)) Y in
      st 66 (rsum Dbl 0 (map fst (pre Dbl V C k (Z.to_nat (Z.max i scaled - 1))))) Y1).
    { intros i Y H1 H2 H3 H4 I0 I1 HY scaled Y1. unfold Y1. destruct (Z_le_dec i scaled) as [LE|GT].
      - rewrite Z.max_r by auto.
        apply (pairs_loop Dbl V C k n 66 i scaled (fun i => fmul (W i) (fmul (fdiv (b i) six) sd)) (fun i => fmul (fsub (P i) (b i)) sd)); auto; try lia.
        + intros i' Hi'. split; [apply c_scaled; lia|apply p_scaled; lia].
        + intros l1 l2 E _. apply (HB66 l1 l2 E).
      - rewrite Z.max_l by lia. rewrite for_up_empty by lia. exact HY. }
    destruct (Z.leb_spec k 3) as [K4|K4].
    - set (scaled := Z.max (Z.min fold (3 - k)) 0).
      assert (START : exists Y i, (if k =? 0
        then (fadd (fadd (fadd fzero (fmul (W 0) (fmul (fmul (fdiv (b 0) six) sd) (EXPANSION Dbl)))) (fmul (W 1) (fmul (fdiv (b 1) six) sd))) (fmul (fmul (fsub (P 0) (b 0)) sd) (EXPANSION Dbl)), 2%Z)
        else (fadd fzero (fmul (W 0) (fmul (fdiv (b 0) six) sd)), 1%Z)) = (Y, i) /\ (i = if k =? 0 then 2 else 1)%Z /\
        st 66 (rsum Dbl 0 (map fst (pre Dbl V C k (Z.to_nat (i - 1))))) Y).
      { destruct (Z.eqb_spec k 0) as [K0|K0]; eexists; eexists; (split; [reflexivity|]); (split; [reflexivity|]).
        - replace (Z.to_nat (2 - 1)) with 1%nat by reflexivity.
          assert (EP1 : pre Dbl V C k 1 = [cterm 0; cterm 1; pterm 0]) by (cbn [pre Z.of_nat app]; rewrite !Z.add_0_r, K0, Z.add_0_l; reflexivity). rewrite EP1.
          assert (E : all_terms Dbl V C n k = [cterm 0; cterm 1; pterm 0] ++ rest Dbl V C (n - 1) 1).
          { rewrite (pre_rest Dbl V C k n 1) by (unfold n; lia). rewrite EP1, K0. reflexivity. }
          assert (S0 : st 66 (rsum Dbl 0 (map fst [cterm 0])) (fadd fzero (fmul (W 0) (fmul (fmul (fdiv (b 0) six) sd) (EXPANSION Dbl))))).
          { apply (st_first 66 _ (snd (cterm 0))); [lia|now apply c_first|]. apply (HB66 [cterm 0] (cterm 1 :: pterm 0 :: rest Dbl V C (n - 1) 1) E). }
          assert (S1 : st 66 (rsum Dbl 0 (map fst ([cterm 0] ++ [cterm 1]))) (fadd (fadd fzero (fmul (W 0) (fmul (fmul (fdiv (b 0) six) sd) (EXPANSION Dbl)))) (fmul (W 1) (fmul (fdiv (b 1) six) sd)))).
          { apply (st_step 66 [cterm 0] (fst (cterm 1)) (snd (cterm 1))); [lia|exact S0| |].
            - replace 1%Z with (k + 1)%Z at 1 by lia. apply c_scaled; lia.
            - apply (HB66 [cterm 0; cterm 1] (pterm 0 :: rest Dbl V C (n - 1) 1) E). }
          apply (st_step 66 [cterm 0; cterm 1] (fst (pterm 0)) (snd (pterm 0))); [lia|exact S1|now apply p_first|].
          apply (HB66 [cterm 0; cterm 1; pterm 0] (rest Dbl V C (n - 1) 1) E).
        - replace (Z.to_nat (1 - 1)) with 0%nat by reflexivity. cbn [pre].
          apply (st_first 66 _ (snd (cterm k))); [lia| |].
          + pose proof (c_scaled 0 ltac:(lia) ltac:(lia)) as T. rewrite Z.add_0_r in T. exact T.
          + apply (HB66 [cterm k] (rest Dbl V C n k)). reflexivity. }
      destruct START as (Y & i & EQ & Ei & HY). rewrite EQ. clear EQ.
      assert (SY := SC i Y ltac:(destruct (k =? 0); lia) ltac:(destruct (Z.eqb_spec k 0); lia) ltac:(destruct (k =? 0); lia) K4
        ltac:(intros ->; exact Ei) ltac:(intros N; apply Z.eqb_neq in N; rewrite N in Ei; exact Ei) HY). cbv zeta in SY. fold scaled in SY.
      set (Y1 := for_up i scaled _ Y) in *.
      destruct (Z.eqb_spec (Z.max i scaled) fold) as [EF|NF].
      + (* everything is scaled *)
        assert (K0 : (k + (fold - 1) <= 2)%Z) by (unfold scaled in *; destruct (Z.eqb_spec k 0); lia).
        assert (S2 : st 66 (rsum Dbl 0 l) (fadd Y1 (fmul (fsub (P (fold - 1)%Z) (b (fold - 1)%Z)) sd))).
        { rewrite EF in SY. fold n in SY. unfold l. rewrite (pre_last Dbl V C k n), PL. apply st_step; auto; [lia| |].
          - replace (k + Z.of_nat n)%Z with (k + (fold - 1))%Z by (unfold n; lia). apply p_scaled; lia.
          - rewrite <- PL, <- pre_last. apply (HB66 _ []). symmetry; apply app_nil_r. }
        apply unscale in S2; [apply S2| |].
        * apply (FM _ []). symmetry. apply app_nil_r.
        * apply (HB0 _ []); [symmetry; apply app_nil_r|now left].
      + assert (I3 : (2 <= k + (Z.max i scaled - 1) /\ 1 <= Z.max i scaled <= fold)%Z) by (unfold scaled in *; destruct (Z.eqb_spec k 0); lia).
        assert (EP := pre_rest Dbl V C k n (Z.to_nat (Z.max i scaled - 1)) ltac:(unfold n; lia)).
        destruct (unscale _ _ SY) as [SU NI].
        * apply (FM _ _ EP).
        * apply (HB0 _ _ EP). right. exists (Z.to_nat (Z.max i scaled - 1)), []. split; [lia|]. split; [lia|reflexivity].
        * rewrite NI. apply (FIN (Z.max i scaled)); auto; try lia.
    - apply (FIN 1%Z); try lia. replace (Z.to_nat (1 - 1)) with 0%nat by reflexivity. cbn [pre].
      apply (st_first 0 _ (snd (cterm k))); [lia| |].
      + pose proof (c_plain 0 ltac:(lia) ltac:(lia) ltac:(lia)) as T. rewrite Z.add_0_r in T. exact T.
      + apply (HB0 [cterm k] (rest Dbl V C n k)); [reflexivity|]. right. exists 0%nat, []. split; [lia|]. split; [lia|]. rewrite Nat.sub_0_r, Z.add_0_r. reflexivity.
  Qed.
End ddm.

(** ** binned_ssmconv: the sum is done in double and rounded once to float *)
Lemma f2d_real (x : F Flt) : is_finite x = true -> is_finite (f2d x) = true /\ B2R (f2d x) = B2R x.
Proof.
  destruct x as [s|s| |s m e H]; try discriminate; intros _; [split; reflexivity|].
  destruct (e_bounds Flt s m e H eq_refl) as [He HM].
  assert (MB : (Z.pos m < 2 ^ 24)%Z).
  { pose proof (proj1 (proj1 (andb_true_iff _ _) H)) as C. unfold SpecFloat.canonical_mantissa in C. apply Zeq_bool_eq in C.
    rewrite fexp_FLT in C. unfold FLT_exp in C. rewrite Digits.Zpos_digits2_pos in C.
    assert (D : (Digits.Zdigits radix2 (Z.pos m) <= 24)%Z) by (cbn [prec] in C; lia).
    pose proof (Digits.Zdigits_correct radix2 (Z.pos m)) as [_ U]. rewrite Z.abs_eq in U by lia. eapply Z.lt_le_trans; [exact U|].
    change (Zpower radix2 (Digits.Zdigits radix2 (Z.pos m)) <= 2 ^ 24)%Z. apply Z.pow_le_mono_r; [reflexivity|exact D]. }
  assert (EB : (-149 <= e <= 104)%Z).
  { split; [exact (proj1 (e_bounds Flt s m e H eq_refl))|]. pose proof (proj2 (proj1 (andb_true_iff _ _) H)) as C. apply Zle_bool_imp_le in C. cbn [emax prec] in C. lia. }
  pose proof (binary_normalize_correct _ _ (prec_gt_0 Dbl) (prec_lt_emax Dbl) mode_NE (cond_Zopp s (Zpos m)) e false) as C.
  cbv zeta in C. rewrite fexp_FLT in C. unfold F2R in C at 1 2 3. cbn [Fnum Fexp round_mode] in C.
  assert (A : (Z.abs (cond_Zopp s (Z.pos m)) <= 2 ^ 24)%Z) by (destruct s; cbn [cond_Zopp]; rewrite ?Z.abs_opp; rewrite Z.abs_eq; lia).
  rewrite round_generic in C; [|apply valid_rnd_N|].
  2:{ apply (fmt_int Dbl); [cbv [emin prec emax]; lia|]. cbn [prec]. lia. }
  rewrite Rlt_bool_true in C.
  2:{ apply (size_int _ 24); [lia|exact A|cbn [emax]; lia]. }
  destruct C as (C1 & C2 & _). unfold f2d, mkf. split; [exact C2|]. rewrite C1. unfold B2R, F2R. cbn [Fnum Fexp]. reflexivity.
Qed.
Lemma d2f_real (x : F Dbl) : is_finite x = true -> Rabs (RN Flt (B2R x)) < bpow radix2 (emax Flt) ->
  is_finite (d2f x) = true /\ B2R (d2f x) = RN Flt (B2R x).
Proof.
  destruct x as [s|s| |s m e H]; try discriminate; intros _ HB.
  - split; [reflexivity|]. cbn [d2f B2R]. rewrite round_0; [reflexivity|apply valid_rnd_N].
  - pose proof (binary_normalize_correct _ _ (prec_gt_0 Flt) (prec_lt_emax Flt) mode_NE (cond_Zopp s (Zpos m)) e s) as C.
    cbv zeta in C. rewrite fexp_FLT in C. cbn [round_mode] in C. rewrite Rlt_bool_true in C by exact HB.
    destruct C as (C1 & C2 & _). unfold d2f. split; [exact C2|exact C1].
Qed.

Section ssm.
  Local Notation t := Flt.
  Context (fold k : Z) (V C : Z -> Z) (P W : Z -> F t).
  Hypothesis Hf : (2 <= fold <= jmax t + 1)%Z.
  Hypothesis Hk : (0 <= k <= jmax t)%Z.
  Hypothesis HV : forall j, (0 <= V j < quarter t)%Z.
  Hypothesis HC : forall j, (Z.abs (C j) <= 2 ^ prec t)%Z.
  Hypothesis HZ : forall j, (jmax t < j)%Z -> V j = 0%Z /\ C j = 0%Z.
  Hypothesis HA : acc t fold k V C P W.
  Local Notation cterm := (cterm t C). Local Notation pterm := (pterm t V).
  Local Notation b := (dmbins Flt k). Local Notation six := (mkf 6 0 : F Dbl).
  Local Notation bd i := (fdiv (f2d (b i)) six).

  Lemma sxf j : (0 <= j)%Z -> (sx Flt j = if j =? 0 then 104 else 116 - 13 * Z.min j 20)%Z.
  Proof. intros Hj. rewrite sx_eq by auto. unfold ux. destruct (Z.eqb_spec j 0) as [->|N]; [reflexivity|]. cbv [emax width jmax]. lia. Qed.
  Lemma uxf j : (ux Flt j = 116 - 13 * j)%Z. Proof. unfold ux. cbv [emax width]. lia. Qed.
  Lemma exf_val : is_finite (f2d (EXPANSION Flt)) = true /\ B2R (f2d (EXPANSION Flt)) = bpow radix2 12.
  Proof.
    destruct (mkf_pow2 Flt 12) as [A B]; [cbv; split; [discriminate|reflexivity]|].
    change (EXPANSION Flt) with (mkf 1 12 : F Flt). destruct (f2d_real _ A) as [F E]. split; auto. rewrite E. exact B.
  Qed.
  Lemma sixth_f i : (0 <= i < fold)%Z -> is_finite (bd i) = true /\ B2R (bd i) = bpow radix2 (21 + sx Flt (k + i)).
  Proof.
    intros Hi. destruct (bin_val Flt fold k Hk ltac:(lia) i Hi) as [FB EB]. destruct (f2d_real _ FB) as [FD ED]. destruct six_val as [F6 E6].
    assert (SR : (-144 <= sx Flt (k + i) <= 104)%Z) by (rewrite sxf by lia; destruct (k + i =? 0)%Z eqn:E; [lia|apply Z.eqb_neq in E; lia]).
    apply fdiv_real; auto.
    - rewrite E6. lra.
    - rewrite ED, EB, E6. unfold quarter. cbn [prec]. rewrite mult_IZR, <- bpow_IZR by lia. rewrite bpow_plus. change (24 - 3)%Z with 21%Z. ring.
    - apply fmt_bpow. cbv [emin prec emax]. lia.
    - apply abs_bpow. cbn [emax]. lia.
  Qed.
  Lemma zero_bin_f i e e' : (0 <= i < fold)%Z -> ((k + i <= 20)%Z -> e = e') ->
    IZR (C (k + i)) * bpow radix2 e = IZR (C (k + i)) * bpow radix2 e' /\ IZR (V (k + i)) * bpow radix2 e = IZR (V (k + i)) * bpow radix2 e'.
  Proof.
    intros Hi H. destruct (Z_le_dec (k + i) 20) as [L|L]; [rewrite H by auto; auto|].
    destruct (HZ (k + i)%Z) as [-> ->]; [cbn; lia|]. split; ring.
  Qed.
  Lemma car_mul_f i : (0 <= i < fold)%Z ->
    is_finite (fmul (f2d (W i)) (bd i)) = true /\ B2R (fmul (f2d (W i)) (bd i)) = IZR (C (k + i)) * bpow radix2 (21 + sx Flt (k + i)).
  Proof.
    intros Hi. destruct (car_val Flt fold k V C P W HA i Hi) as [FW EW]. destruct (f2d_real _ FW) as [FD ED]. destruct (sixth_f i Hi) as [F6 E6].
    assert (SR : (-144 <= sx Flt (k + i) <= 104)%Z) by (rewrite sxf by lia; destruct (k + i =? 0)%Z eqn:E; [lia|apply Z.eqb_neq in E; lia]).
    specialize (HC (k + i)%Z). cbn [prec] in HC. apply fmul_real; auto.
    - rewrite ED, EW, E6. reflexivity.
    - apply fmt_int; [cbv [emin prec emax]; lia|]. cbn [prec]. lia.
    - apply (size_int _ 24); [lia|exact HC|cbn [emax]; lia].
  Qed.
  Lemma c_plain_f i : (0 <= i < fold)%Z -> (1 <= k + i)%Z -> st 0 (fst (cterm (k + i))) (fmul (f2d (W i)) (bd i)).
  Proof.
    intros Hi H1. destruct (car_mul_f i Hi) as [A B]. split; auto. rewrite B. cbn [bpow]. rewrite Rmult_1_r.
    rewrite sxf by lia. rewrite (proj2 (Z.eqb_neq (k + i) 0)) by lia. unfold ConvTerms.cterm. cbn [fst]. rewrite uxf. cbn [prec]. apply zero_bin_f; auto. lia.
  Qed.
  Lemma p_plain_f i : (0 <= i < fold)%Z -> (1 <= k + i)%Z -> st 0 (fst (pterm (k + i))) (f2d (fsub (P i) (b i))).
  Proof.
    intros Hi H1. destruct (diff_val Flt fold k V C P W Hk ltac:(lia) HV HC HZ HA i Hi) as [A B]. destruct (f2d_real _ A) as [FD ED]. split; auto.
    rewrite ED, B. cbn [bpow]. rewrite Rmult_1_r. rewrite sxf by lia. rewrite (proj2 (Z.eqb_neq (k + i) 0)) by lia.
    unfold ConvTerms.pterm. cbn [fst]. rewrite uxf. apply zero_bin_f; auto. lia.
  Qed.
  Lemma c_first_f : k = 0%Z -> st 0 (fst (cterm 0)) (fmul (fmul (f2d (W 0)) (bd 0)) (f2d (EXPANSION Flt))).
  Proof.
    intros K0. destruct (car_mul_f 0 ltac:(lia)) as [A B]. destruct exf_val as [FE EE].
    replace (sx Flt (k + 0)) with 104%Z in B by (rewrite K0; reflexivity). replace (C (k + 0)) with (C 0) in B by (rewrite K0; reflexivity).
    specialize (HC 0%Z). cbn [prec] in HC.
    destruct (fmul_real Dbl _ _ (IZR (C 0) * bpow radix2 (21 + 104 + 12)) A FE) as [FM EM].
    - rewrite B, EE, Rmult_assoc, <- bpow_plus. reflexivity.
    - apply fmt_int; [cbv [emin prec emax]; lia|]. cbn [prec]. lia.
    - apply (size_int _ 24); [lia|exact HC|cbn [emax]; lia].
    - split; auto. rewrite EM. cbn [bpow]. rewrite Rmult_1_r. unfold ConvTerms.cterm. cbn [fst]. rewrite uxf. do 2 f_equal.
  Qed.
  Lemma p_first_f : k = 0%Z -> st 0 (fst (pterm 0)) (fmul (f2d (fsub (P 0) (b 0))) (f2d (EXPANSION Flt))).
  Proof.
    intros K0. destruct (diff_val Flt fold k V C P W Hk ltac:(lia) HV HC HZ HA 0 ltac:(lia)) as [A B]. destruct (f2d_real _ A) as [FD ED].
    destruct exf_val as [FE EE].
    replace (sx Flt (k + 0)) with 104%Z in B by (rewrite K0; reflexivity). replace (V (k + 0)) with (V 0) in B by (rewrite K0; reflexivity).
    specialize (HV 0%Z). unfold quarter in HV. cbn [prec] in HV.
    destruct (fmul_real Dbl _ _ (IZR (V 0) * bpow radix2 (104 + 12)) FD FE) as [FM EM].
    - rewrite ED, B, EE, Rmult_assoc, <- bpow_plus. reflexivity.
    - apply fmt_int; [cbv [emin prec emax]; lia|]. cbn [prec]. lia.
    - apply (size_int _ 21); [lia|lia|cbn [emax]; lia].
    - split; auto. rewrite EM. cbn [bpow]. rewrite Rmult_1_r. unfold ConvTerms.pterm. cbn [fst]. rewrite uxf. do 2 f_equal.
  Qed.

  Theorem ssmconv_rsum : let l := map fst (all_terms Flt V C (Z.to_nat (fold - 1)) k) in
    exists Y, ssmconv_v fold P W = d2f Y /\ st 0 (rsum Dbl 0 l) Y.
  Proof.
    intros l. set (n := Z.to_nat (fold - 1)) in *.
    assert (QP := quarter_pos Flt).
    destruct (priw_0 Flt fold k V C P W HA ltac:(lia)) as (N1 & N2 & N3 & _); [specialize (HV k); unfold inbin; lia|].
    assert (HB : forall l1 l2 : list (R * Z), all_terms Flt V C n k = l1 ++ l2 -> Rabs (rsum Dbl 0 (map fst l1)) < bpow radix2 (emax Dbl + 0)).
    { intros l1 l2 E. apply (prefix_lt Flt V C n k ltac:(lia) HV HC HZ l1 l2 _ E). rewrite uxf. cbn [prec emax]. lia. }
    unfold ssmconv_v. cbv zeta. rewrite N1, N2, N3.
    assert (PL : forall m, map fst (pre Flt V C k m ++ [pterm (k + Z.of_nat m)]) = map fst (pre Flt V C k m ++ [(fst (pterm (k + Z.of_nat m)), snd (pterm (k + Z.of_nat m)))])) by reflexivity.
    assert (FIN : forall i Y, (1 <= i <= fold)%Z -> (2 <= i \/ 1 <= k)%Z ->
      st 0 (rsum Dbl 0 (map fst (pre Flt V C k (Z.to_nat (i - 1))))) Y ->
      st 0 (rsum Dbl 0 l) (fadd (for_up i fold (fun i Y => fadd (fadd Y (fmul (f2d (W i)) (bd i))) (f2d (fsub (P (i - 1)%Z) (b (i - 1)%Z)))) Y) (f2d (fsub (P (fold - 1)%Z) (b (fold - 1)%Z))))).
    { intros i Y Hi H2 HY.
      assert (L : st 0 (rsum Dbl 0 (map fst (pre Flt V C k (Z.to_nat (fold - 1))))) (for_up i fold (fun i Y => fadd (fadd Y (fmul (f2d (W i)) (bd i))) (f2d (fsub (P (i - 1)%Z) (b (i - 1)%Z)))) Y)).
      { apply (pairs_loop Flt V C k n 0 i fold (fun i => fmul (f2d (W i)) (bd i)) (fun i => f2d (fsub (P i) (b i)))); auto; try lia.
        - intros i' Hi'. split; [apply c_plain_f; lia|apply p_plain_f; lia].
        - intros l1 l2 E A. apply (HB l1 l2 E). }
      unfold l. rewrite (pre_last Flt V C k n), PL. fold n in L. apply st_step; auto; [lia| |].
      - replace (k + Z.of_nat n)%Z with (k + (fold - 1))%Z by lia. apply p_plain_f; lia.
      - rewrite <- PL, <- pre_last. apply (HB _ []). symmetry; apply app_nil_r. }
    assert (START : exists Y i, (if k =? 0
      then (fadd (fadd (fadd fzero (fmul (fmul (f2d (W 0)) (bd 0)) (f2d (EXPANSION Flt)))) (fmul (f2d (W 1)) (bd 1))) (fmul (f2d (fsub (P 0) (b 0))) (f2d (EXPANSION Flt))), 2%Z)
      else (fadd fzero (fmul (f2d (W 0)) (bd 0)), 1%Z)) = (Y, i) /\ (i = if k =? 0 then 2 else 1)%Z /\
      st 0 (rsum Dbl 0 (map fst (pre Flt V C k (Z.to_nat (i - 1))))) Y).
    { destruct (Z.eqb_spec k 0) as [K0|K0]; eexists; eexists; (split; [reflexivity|]); (split; [reflexivity|]).
      - replace (Z.to_nat (2 - 1)) with 1%nat by reflexivity.
        assert (EP1 : pre Flt V C k 1 = [cterm 0; cterm 1; pterm 0]) by (cbn [pre Z.of_nat app]; rewrite !Z.add_0_r, K0, Z.add_0_l; reflexivity). rewrite EP1.
        assert (E : all_terms Flt V C n k = [cterm 0; cterm 1; pterm 0] ++ rest Flt V C (n - 1) 1).
        { rewrite (pre_rest Flt V C k n 1) by (unfold n; lia). rewrite EP1, K0. reflexivity. }
        assert (S0 : st 0 (rsum Dbl 0 (map fst [cterm 0])) (fadd fzero (fmul (fmul (f2d (W 0)) (bd 0)) (f2d (EXPANSION Flt))))).
        { apply (st_first 0 _ (snd (cterm 0))); [lia|now apply c_first_f|]. apply (HB [cterm 0] (cterm 1 :: pterm 0 :: rest Flt V C (n - 1) 1) E). }
        assert (S1 : st 0 (rsum Dbl 0 (map fst ([cterm 0] ++ [cterm 1]))) (fadd (fadd fzero (fmul (fmul (f2d (W 0)) (bd 0)) (f2d (EXPANSION Flt)))) (fmul (f2d (W 1)) (bd 1)))).
        { apply (st_step 0 [cterm 0] (fst (cterm 1)) (snd (cterm 1))); [lia|exact S0| |].
          - pose proof (c_plain_f 1 ltac:(lia) ltac:(lia)) as T. replace (k + 1)%Z with 1%Z in T by lia. exact T.
          - apply (HB [cterm 0; cterm 1] (pterm 0 :: rest Flt V C (n - 1) 1) E). }
        apply (st_step 0 [cterm 0; cterm 1] (fst (pterm 0)) (snd (pterm 0))); [lia|exact S1|now apply p_first_f|].
        apply (HB [cterm 0; cterm 1; pterm 0] (rest Flt V C (n - 1) 1) E).
      - replace (Z.to_nat (1 - 1)) with 0%nat by reflexivity. cbn [pre].
        apply (st_first 0 _ (snd (cterm k))); [lia| |].
        + pose proof (c_plain_f 0 ltac:(lia) ltac:(lia)) as T. rewrite Z.add_0_r in T. exact T.
        + apply (HB [cterm k] (rest Flt V C n k)). reflexivity. }
    destruct START as (Y & i & EQ & Ei & HY). rewrite EQ. clear EQ.
    eexists. split; [reflexivity|]. apply (FIN i); auto.
    - destruct (k =? 0); lia.
    - destruct (Z.eqb_spec k 0); lia.
  Qed.
End ssm.
