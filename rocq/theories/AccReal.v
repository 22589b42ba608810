(** * Error of a reproducible sum in terms of real numbers *)
From Coq Require Import ZArith Reals Bool List Lia Lra.
From Flocq Require Import Core BinarySingleNaN.
From Verif Require Import Fp Mem Binned Spec Client FpProofs BitProofs SpecProofs MemProofs AccProofs SumProofs ClientProofs ConvProofs ConvFloat PropsSum PropsConv PropsAcc.
Import ListNotations.
Open Scope R_scope.

(** Exact sum of real numbers. *)
Definition total (l : list R) : R := fold_right Rplus 0 l.
(** Real values of floats. *)
Definition reals {t} (xs : list (F t)) : list R := map B2R xs.
(** M is the largest magnitude in l. *)
Definition max_abs (M : R) (l : list R) : Prop :=
  (forall x, In x l -> Rabs x <= M) /\ (exists x, In x l /\ Rabs x = M).
(** Relative error of the final rounding: 4.1 * 2^-53 in double, 1.001 * 2^-24 in float. *)
Definition conv_eps (t : ty) : R := match t with Dbl => 41 / 10 | Flt => 1001 / 1000 end * bpow radix2 (- prec t).
(** What the bins of the accumulator do not see: N * 2^(-W (fold-1)) * M. *)
Definition sum_eps (t : ty) (fold N : Z) (M : R) : R := IZR N * bpow radix2 (- width t * (fold - 1)) * M.

Lemma total_exact {t} (xs : list (F t)) : total (reals xs) = IZR (exact_sum xs) * bpow radix2 (emin t).
Proof.
  unfold total, reals, exact_sum. induction xs as [|x xs IH]; cbn [map fold_right]; [ring|].
  rewrite IH, plus_IZR, toZ_B2R. ring.
Qed.
Lemma abs_toZ {t} (x : F t) : Rabs (B2R x) = IZR (Z.abs (toZ x)) * bpow radix2 (emin t).
Proof. rewrite toZ_B2R, Rabs_mult, (Rabs_pos_eq (bpow _ _)), abs_IZR by apply bpow_ge_0. reflexivity. Qed.
Lemma min_bin_in {t} (xs : list (F t)) : let k := fold_right Z.min (jmax t) (map (fun x => bin_of t (toZ x)) xs) in
  k = jmax t \/ exists x, In x xs /\ bin_of t (toZ x) = k.
Proof.
  cbv zeta. induction xs as [|x xs IH]; cbn [map fold_right]; [now left|].
  destruct (Z.min_dec (bin_of t (toZ x)) (fold_right Z.min (jmax t) (map (fun x => bin_of t (toZ x)) xs))) as [E|E]; rewrite E.
  - right. exists x. split; [now left|reflexivity].
  - destruct IH as [->|(y & Hy & Hk)]; [now left|]. right. exists y. split; [now right|exact Hk].
Qed.
Lemma min_bin_le {t} (xs : list (F t)) x : In x xs -> (fold_right Z.min (jmax t) (map (fun x => bin_of t (toZ x)) xs) <= bin_of t (toZ x))%Z.
Proof. induction xs as [|y xs IH]; cbn [map fold_right]; intros H; [destruct H|]. destruct H as [->|H]; [|specialize (IH H)]; lia. Qed.
(** A number in bin k is at least half a unit of that bin. *)
Lemma bin_of_lower t X k : bin_of t X = k -> (k < jmax t)%Z -> (2 ^ (unit_exp t k - 1) <= Z.abs X)%Z.
Proof.
  unfold bin_of. destruct (Z.eqb_spec X 0) as [->|NZ]; [lia|]. intros E HK.
  set (d := (emax t - emin t - (Z.log2 (Z.abs X) + 1))%Z) in *.
  assert (E' : (d / width t)%Z = k) by lia. pose proof (width_pos t) as WP.
  pose proof (Z.mul_succ_div_gt d (width t) ltac:(lia)) as G. rewrite E' in G.
  assert (L : (unit_exp t k - 1 <= Z.log2 (Z.abs X))%Z) by (unfold unit_exp; rewrite Z.min_l by lia; unfold d in G; nia).
  destruct (Z.log2_spec (Z.abs X) ltac:(lia)) as [L1 _]. destruct (Z_le_dec 0 (unit_exp t k - 1)) as [P|P].
  - eapply Z.le_trans; [|exact L1]. apply Z.pow_le_mono_r; lia.
  - rewrite Z.pow_neg_r by lia. lia.
Qed.
Lemma bin_of_upper t X e : (0 <= e)%Z -> (2 ^ e <= Z.abs X)%Z -> (width t * bin_of t X <= emax t - emin t - e - 1)%Z \/ (emax t - emin t - e - 1 < 0)%Z.
Proof.
  intros He H. pose proof (pow2_pos e He). unfold bin_of. destruct (Z.eqb_spec X 0) as [->|NZ]; [lia|].
  assert (L : (e <= Z.log2 (Z.abs X))%Z) by (apply Z.log2_le_pow2; lia). pose proof (width_pos t) as WP.
  set (d := (emax t - emin t - (Z.log2 (Z.abs X) + 1))%Z) in *.
  left. pose proof (Z.mul_div_le d (width t) ltac:(lia)). assert (d <= emax t - emin t - e - 1)%Z by (unfold d; lia). nia.
Qed.

Section sum.
  Context {t : ty} (fold : Z) (xs : list (F t)) (M : R).
  Hypothesis Hf : (2 <= fold <= MAXFOLD t)%Z.
  Hypothesis FX : all_finite xs = true.
  Hypothesis HMr : max_abs M (reals xs).
  Lemma HM : (forall x, In x xs -> Rabs (B2R x) <= M) /\ (exists x, In x xs /\ Rabs (B2R x) = M).
  Proof.
    destruct HMr as [A (x & I & E)]. split; [intros y Hy; apply A, in_map, Hy|].
    unfold reals in I. apply in_map_iff in I. destruct I as (y & <- & I). eauto.
  Qed.
  Hypothesis HB : bpow radix2 (emax t - (jmax t - fold + 2) * width t) <= M.
  Local Notation k := (fold_right Z.min (jmax t) (map (fun x => bin_of t (toZ x)) xs)).
  Local Notation h := (2 ^ unit_exp t (k + fold - 1))%Z.
  Local Notation N := (Z.of_nat (length xs)).

  Lemma thr_pos : (0 <= emax t - (jmax t - fold + 2) * width t - emin t)%Z.
  Proof. rewrite MAXFOLD_eq in Hf. destruct t; cbn [emax jmax width prec] in *; unfold emin; cbn [emax prec jmax] in *; lia. Qed.
  Lemma lead_fits : (k + fold - 1 <= jmax t)%Z.
  Proof.
    destruct HM as [_ (x & Ix & Ex)]. pose proof (min_bin_le xs x Ix) as LE. pose proof thr_pos as TP.
    assert (P : (2 ^ (emax t - (jmax t - fold + 2) * width t - emin t) <= Z.abs (toZ x))%Z).
    { apply le_IZR. rewrite <- bpow_IZR by exact TP. apply (Rmult_le_reg_r (bpow radix2 (emin t))); [apply bpow_gt_0|].
      rewrite <- bpow_plus, <- abs_toZ, Ex. eapply Rle_trans; [|exact HB]. right. f_equal. lia. }
    destruct (bin_of_upper t (toZ x) _ TP P) as [U|U].
    - pose proof (width_pos t). assert (bin_of t (toZ x) < jmax t - fold + 2)%Z by nia. lia.
    - pose proof (width_pos t). rewrite MAXFOLD_eq in Hf. nia.
  Qed.
  Lemma unit_small : IZR h * bpow radix2 (emin t) <= 2 * (bpow radix2 (- width t * (fold - 1)) * M).
  Proof.
    pose proof lead_fits as LF. destruct (min_bin_in xs) as [E|(x & Ix & Ex)]; [lia|].
    pose proof (width_pos t) as WP. pose proof (unit_exp_ge t (k + fold - 1)) as UG. set (kk := k) in *. clearbody kk.
    assert (UE : (unit_exp t (kk + fold - 1) = unit_exp t kk - width t * (fold - 1))%Z) by (unfold unit_exp; rewrite !Z.min_l by lia; ring).
    pose proof (bin_of_lower t (toZ x) kk Ex ltac:(lia)) as L.
    assert (MX : Rabs (B2R x) <= M) by (apply HM; exact Ix). rewrite abs_toZ in MX. apply IZR_le in L. rewrite <- bpow_IZR in L by (pose proof (unit_exp_ge t kk); nia).
    rewrite <- bpow_IZR, UE by lia. pose proof (bpow_gt_0 radix2 (emin t)) as GE.
    replace (unit_exp t kk - width t * (fold - 1))%Z with (1 + (- width t * (fold - 1)) + (unit_exp t kk - 1))%Z by ring.
    rewrite !bpow_plus. change (bpow radix2 1) with 2. pose proof (bpow_gt_0 radix2 (- width t * (fold - 1))) as GW.
    assert (bpow radix2 (unit_exp t kk - 1) * bpow radix2 (emin t) <= M) by nra.
    rewrite !Rmult_assoc. apply Rmult_le_compat_l; [lra|]. apply Rmult_le_compat_l; [lra|]. exact H.
  Qed.
  Theorem sum_error Y (m : mem t) : xs <> [] -> (N <= CAPACITY t)%Z ->
    let S := total (reals xs) in let E := sum_eps t fold N M in
    Rabs S + E <= bpow radix2 (emax t) - bpow radix2 (emax t - 20) ->
    let r := ddbconv fold Y (sum_list fold Y xs m) in
    is_finite r = true /\ Rabs (B2R r - S) <= conv_eps t * Rabs S + 1001 / 1000 * E.
  Proof.
    intros NE HC S E HS r. pose proof lead_fits as LF. pose proof unit_small as US.
    pose proof (C44_sum t fold xs Y m Hf FX NE HC) as A. cbv zeta in A. specialize (A LF). fold r in A.
    pose proof (bpow_gt_0 radix2 (emin t)) as GE. set (g := bpow radix2 (emin t)) in *.
    assert (ES : S = IZR (exact_sum xs) * g) by apply total_exact.
    assert (AS : Rabs S = IZR (Z.abs (exact_sum xs)) * g) by (rewrite ES, Rabs_mult, (Rabs_pos_eq g), abs_IZR by lra; reflexivity).
    set (T := exact_sum xs) in *. set (hh := h) in *. set (n := N) in *.
    assert (N0 : 0 <= IZR n) by (apply IZR_le; unfold n; lia).
    assert (EH : IZR n * (IZR hh * g) <= 2 * E).
    { unfold E, sum_eps. eapply Rle_trans; [apply Rmult_le_compat_l; [exact N0|exact US]|]. right. fold n. ring. }
    assert (PR : (2 * Z.abs T + n * hh <= 2 * (2 ^ (emax t - emin t) - 2 ^ (emax t - emin t - 20)))%Z).
    { apply le_IZR. rewrite plus_IZR, !mult_IZR, minus_IZR, <- !bpow_IZR by (destruct t; cbv; discriminate).
      apply (Rmult_le_reg_r g); [exact GE|]. rewrite AS in HS.
      replace (bpow radix2 (emax t)) with (bpow radix2 (emax t - emin t) * g) in HS by (unfold g; rewrite <- bpow_plus; f_equal; lia).
      replace (bpow radix2 (emax t - 20)) with (bpow radix2 (emax t - emin t - 20) * g) in HS by (unfold g; rewrite <- bpow_plus; f_equal; lia).
      nra. }
    destruct (A PR) as [A1 A2]. split; [exact A1|]. clear A PR.
    apply IZR_le in A2. rewrite plus_IZR, !mult_IZR in A2. rewrite plus_IZR, !mult_IZR in A2. rewrite <- (bpow_IZR (prec t)) in A2 by (pose proof (prec_pos t); lia).
    assert (EP : bpow radix2 (- prec t) * bpow radix2 (prec t) = 1) by (rewrite <- bpow_plus, Z.add_opp_diag_l; reflexivity).
    pose proof (bpow_gt_0 radix2 (prec t)) as GP. pose proof (bpow_gt_0 radix2 (- prec t)) as GN.
    assert (UB : bpow radix2 (- prec t) <= / 16777216) by (destruct t; cbn; lra).
    unfold conv_eps. set (u := bpow radix2 (- prec t)) in *. set (q := bpow radix2 (prec t)) in *.
    assert (RE : Rabs (B2R r - S) = IZR (Z.abs (toZ r - T)) * g).
    { rewrite ES, toZ_B2R. fold g. rewrite <- Rmult_minus_distr_r, <- minus_IZR, Rabs_mult, (Rabs_pos_eq g), abs_IZR by lra. reflexivity. }
    rewrite RE, AS. set (e := IZR (Z.abs (toZ r - T))) in *. set (a := IZR (Z.abs T)) in *.
    assert (A0 : 0 <= a) by (apply IZR_le; lia). set (nh := IZR n * IZR hh) in *.
    assert (NH : nh * g <= 2 * E) by (unfold nh; rewrite Rmult_assoc; exact EH).
    set (c := IZR (round_units t)) in *.
    assert (C : c = 1000 * (match t with Dbl => 41 / 10 | Flt => 1001 / 1000 end)) by (unfold c; destruct t; cbn [round_units]; lra).
    set (d := match t with Dbl => 41 / 10 | Flt => 1001 / 1000 end) in *. assert (D : 1 <= d <= 5) by (unfold d; destruct t; lra).
    (* divide by 2000 q *)
    assert (B : e <= d * u * a + (1 + d * u) * nh / 2).
    { apply (Rmult_le_reg_l (2 * (1000 * q))); [lra|]. rewrite C in A2.
      replace (2 * (1000 * q) * (d * u * a + (1 + d * u) * nh / 2)) with (2 * (1000 * d) * a * (u * q) + (1000 * q + 1000 * d * (u * q)) * nh) by field.
      rewrite EP. lra. }
    assert (NHP : 0 <= nh) by (unfold nh; apply Rmult_le_pos; [exact N0|apply IZR_le; apply Z.pow_nonneg; lia]).
    assert (E0 : 0 <= E) by nra. assert (DU : 0 < d * u <= / 1000) by (split; nra).
    assert (B2 : e * g <= (d * u * a + (1 + d * u) * nh / 2) * g) by (apply Rmult_le_compat_r; lra).
    assert (B3 : (1 + d * u) * (nh * g) <= (1001 / 1000) * (2 * E)) by (apply Rmult_le_compat; nra).
    clearbody e a nh g u q c d. lra.
  Qed.
End sum.
