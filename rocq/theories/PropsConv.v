(** * C44: accuracy of the float computed from an accumulator *)
From Coq Require Import ZArith Bool List Lia.
From Flocq Require Import Core BinarySingleNaN.
From Verif Require Import Fp Mem Binned Spec Client FpProofs BitProofs SpecProofs MemProofs AccProofs SumProofs ClientProofs ConvProofs SumError ConvTerms ConvFloat ConvSpec RoundTrip PropsSum Blas LaneProofs BlasSpec PropsBlas PropsScale PropsAcc.
Import ListNotations.
Open Scope Z_scope.

(** The float returned differs from the value the accumulator represents by at most 4.1
    (double) or 1.001 (float) times 2^-prec of that value, and is finite whenever the value is
    (a shade) below the overflow threshold, whatever the intermediate sums. *)
Theorem C44_conversion t fold priX incX carX incC us xs (m : mem t) :
  2 <= fold <= MAXFOLD t -> all_finite xs = true -> us ++ xs <> [] -> Z.of_nat (length xs) <= CAPACITY t ->
  let P := fun i => m (priX + i * incX) in let W := fun i => m (carX + i * incC) in
  holds t fold us xs P W ->
  let k := lead (us ++ xs) in
  k + fold - 1 <= jmax t ->
  let v := value t fold k P W in
  Z.abs v <= 2 ^ (emax t - emin t) - 2 ^ (emax t - emin t - 20) ->
  let r := ddmconv fold priX incX carX incC m in
  is_finite r = true /\
  1000 * 2 ^ prec t * Z.abs (toZ r - v) <= match t with Dbl => 4100 | Flt => 1001 end * Z.abs v.
Proof.
  intros Hf AF NE HC P W HH k HK v HV r. rewrite CAPACITY_eq in HC.
  assert (H : conv_hyps fold us xs P W).
  { split; [exact Hf|]. split; [exact AF|]. split; [exact NE|]. split; [exact HC|]. split; [exact HH|]. intros j Hj. fold k in Hj. lia. }
  pose proof (conv_accuracy fold us xs P W H HV) as A. cbv zeta in A.
  assert (E : r = conv_words fold P W) by (unfold r, ddmconv, conv_words; destruct t; reflexivity).
  rewrite E. exact A.
Qed.
Print Assumptions C44_conversion.

(** End to end: error of a sum against the exact sum of the summands. *)
Definition round_units (t : ty) : Z := match t with Dbl => 4100 | Flt => 1001 end.
Theorem C44_sum t fold (xs : list (F t)) Y (m : mem t) :
  2 <= fold <= MAXFOLD t -> all_finite xs = true -> xs <> [] -> Z.of_nat (length xs) <= CAPACITY t ->
  let k := fold_right Z.min (jmax t) (map (fun x => bin_of t (toZ x)) xs) in
  k + fold - 1 <= jmax t ->
  let N := Z.of_nat (length xs) in let T := exact_sum xs in let h := 2 ^ unit_exp t (k + fold - 1) in
  2 * Z.abs T + N * h <= 2 * (2 ^ (emax t - emin t) - 2 ^ (emax t - emin t - 20)) ->
  let r := ddbconv fold Y (sum_list fold Y xs m) in
  is_finite r = true /\
  2 * (1000 * 2 ^ prec t) * Z.abs (toZ r - T) <= 2 * round_units t * Z.abs T + (1000 * 2 ^ prec t + round_units t) * (N * h).
Proof.
  intros Hf AF NE HC k HK N T h HT r.
  assert (K : k = lead ([] ++ xs)).
  { unfold k, lead. cbn [app]. f_equal. apply map_ext_in. intros x Hx. unfold findex.
    unfold all_finite in AF. rewrite forallb_forall in AF. now rewrite (AF x Hx). }
  pose proof (C05_error t fold xs Y m Hf AF NE HC) as E. cbv zeta in E. fold k in E.
  pose proof (sum_list_at t fold Y xs m Hf ltac:(rewrite <- CAPACITY_eq; exact HC)) as HH. unfold acc_at in HH.
  pose proof (C44_conversion t fold Y 1 (Y + fold) 1 [] xs (sum_list fold Y xs m) Hf AF ltac:(exact NE) HC HH) as A. cbv zeta in A.
  rewrite <- K in A. specialize (A HK).
  assert (EV : value t fold k (fun i => sum_list fold Y xs m (Y + i * 1)) (fun i => sum_list fold Y xs m (Y + fold + i * 1)) =
    value t fold k (fun i => sum_list fold Y xs m (Y + i)) (fun i => sum_list fold Y xs m (Y + fold + i))).
  { unfold value. generalize 0. induction (Z.to_nat fold) as [|n IH]; intros i; cbn [value_from]; [reflexivity|]. now rewrite IH, !Z.mul_1_r. }
  rewrite EV in A. clear EV HH. fold (ddbconv fold Y (sum_list fold Y xs m)) in A. fold r in A.
  set (v := value t fold k _ _) in *. fold N h T in E.
  destruct A as [A1 A2]; [lia|]. split; [exact A1|]. fold (round_units t) in A2.
  assert (0 < 2 ^ prec t) by (apply pow2_pos; pose proof (prec_pos t); lia).
  assert (0 < round_units t) by (destruct t; reflexivity).
  assert (0 <= h) by (apply Z.pow_nonneg; lia). assert (0 <= N) by (unfold N; lia).
  assert (B : Z.abs (toZ r - T) <= Z.abs (toZ r - v) + Z.abs (v - T)) by lia.
  assert (C : Z.abs v <= Z.abs T + Z.abs (v - T)) by lia.
  set (e := Z.abs (v - T)) in *. set (f := Z.abs (toZ r - v)) in *. set (g := Z.abs (toZ r - T)) in *. set (q := 1000 * 2 ^ prec t) in *.
  assert (0 < q) by (unfold q; lia). clearbody v e f g q r N h T. set (nh := N * h) in *. set (c := round_units t) in *. clearbody nh c.
  assert (D1 : q * g <= q * (f + e)) by (apply Z.mul_le_mono_nonneg_l; lia). assert (D2 : c * Z.abs v <= c * (Z.abs T + e)) by (apply Z.mul_le_mono_nonneg_l; lia).
  assert (D3 : q * (2 * e) <= q * nh) by (apply Z.mul_le_mono_nonneg_l; lia). assert (D4 : c * (2 * e) <= c * nh) by (apply Z.mul_le_mono_nonneg_l; lia).
  rewrite !Z.mul_add_distr_l in *. rewrite Z.mul_add_distr_r. lia.
Qed.
Print Assumptions C44_sum.
(** The same for reproBLAS_rdsum / rssum. *)
Theorem C44_rdsum t tu fold N X incX tmp (m : mem t) :
  2 <= fold <= MAXFOLD t -> tuned t tu -> 0 < N <= CAPACITY t -> clear_of X incX N tmp (dbnum fold) ->
  let xs := read m X incX N in
  all_finite xs = true ->
  let k := fold_right Z.min (jmax t) (map (fun x => bin_of t (toZ x)) xs) in
  k + fold - 1 <= jmax t ->
  let T := exact_sum xs in let h := 2 ^ unit_exp t (k + fold - 1) in
  2 * Z.abs T + N * h <= 2 * (2 ^ (emax t - emin t) - 2 ^ (emax t - emin t - 20)) ->
  let r := rdsum tu fold N X incX tmp m in
  is_finite r = true /\
  2 * (1000 * 2 ^ prec t) * Z.abs (toZ r - T) <= 2 * round_units t * Z.abs T + (1000 * 2 ^ prec t + round_units t) * (N * h).
Proof.
  intros Hf HT HN CX xs FX k HK T h HB r.
  assert (E : r = ddbconv fold 0 (sum_list fold 0 xs (fun _ => fzero))) by (apply C20_is_scalar_sum; auto; lia).
  assert (LN : Z.of_nat (length xs) = N) by (apply read_length; lia).
  pose proof (C44_sum t fold xs 0 (fun _ => fzero) Hf FX) as A. cbv zeta in A. rewrite LN in A.
  rewrite E. apply A; auto; [|lia]. intros E0. rewrite E0 in LN. cbn in LN. lia.
Qed.
Print Assumptions C44_rdsum.
(** Cancelling summands whose partial sums overflow, and a rounded sum. *)
Definition huge : list (F Dbl) := [mkf 1 1023; mkf 1 1023; mkf (-1) 1023; mkf 3 900].
Example C44_case : let k := fold_right Z.min (jmax Dbl) (map (fun x => bin_of Dbl (toZ x)) huge) in
  all_finite huge = true /\ k = 0 /\ k + 3 - 1 <= jmax Dbl /\
  2 * Z.abs (exact_sum huge) + Z.of_nat (length huge) * 2 ^ unit_exp Dbl (k + 3 - 1) <= 2 * (2 ^ (emax Dbl - emin Dbl) - 2 ^ (emax Dbl - emin Dbl - 20)) /\
  feq (ddbconv 3 0 (sum_list 3 0 huge (fun _ => fzero))) (mkf 1 1023) = true.
Proof. vm_compute. repeat split; discriminate || reflexivity. Qed.

(** ** C36 *)
Lemma conv_words_ddb t fold Y (m : mem t) : ddbconv fold Y m = conv_words fold (fun i => m (Y + i * 1)) (fun i => m (Y + fold + i * 1)).
Proof. unfold ddbconv, ddmconv, conv_words. destruct t; reflexivity. Qed.
(** binned_dbdconv makes the accumulator of one float, whatever was in memory, and touches nothing else. *)
Theorem C36_accumulator t fold (X : F t) Y (m : mem t) : 2 <= fold <= MAXFOLD t ->
  acc_at fold [] [X] (dbdconv fold X Y m) Y /\ unchanged_outside Y (dbnum fold) m (dbdconv fold X Y m).
Proof. intros Hf. destruct (sum_list_holds fold Hf Y [X] m) as [A B]; [destruct t; discriminate|]. split; [exact A|exact B]. Qed.
Print Assumptions C36_accumulator.
(** Converting back gives X, bit for bit, if the last of the fold bins reaches down to its last bit. *)
Theorem C36_round_trip t fold (X : F t) Y (m : mem t) : 2 <= fold <= MAXFOLD t -> is_finite X = true -> toZ X <> 0 ->
  (2 ^ unit_exp t (bin_of t (toZ X) + fold - 1) | toZ X) -> ddbconv fold Y (dbdconv fold X Y m) = X.
Proof.
  intros Hf FX NZ HD. destruct (C36_accumulator t fold X Y m Hf) as [A _]. rewrite conv_words_ddb.
  destruct (round_trip fold X _ _ FX Hf HD A) as [F E]. rewrite !toZ_B2R in E. apply IZR_bpow_inj in E. apply float_ext; auto. left. now rewrite E.
Qed.
Print Assumptions C36_round_trip.
(** Zeros of either sign convert to a zero. *)
Theorem C36_zero t fold (X : F t) Y (m : mem t) : 2 <= fold <= MAXFOLD t -> is_finite X = true -> toZ X = 0 ->
  feq (ddbconv fold Y (dbdconv fold X Y m)) fzero = true.
Proof.
  intros Hf FX NZ. destruct (C36_accumulator t fold X Y m Hf) as [A _]. rewrite conv_words_ddb.
  destruct (round_trip fold X _ _ FX Hf ltac:(rewrite NZ; apply Z.divide_0_r) A) as [F E].
  rewrite !toZ_B2R, NZ in E. apply IZR_bpow_inj in E. rewrite feq_zero by exact F. now rewrite E.
Qed.
Print Assumptions C36_zero.
(** Infinities and NaN come back. *)
Theorem C36_special t fold (X : F t) Y (m : mem t) : 2 <= fold <= MAXFOLD t -> is_finite X = false -> ddbconv fold Y (dbdconv fold X Y m) = X.
Proof.
  intros Hf FX. destruct (C36_accumulator t fold X Y m Hf) as [A _]. unfold acc_at, holds in A. cbn [all_finite forallb] in A. rewrite FX in A. cbn [andb] in A.
  rewrite Z.mul_0_l, Z.add_0_r in A. assert (E : special [X] = X /\ ISNANINF X = true) by (destruct X as [s|s| |s mm e H]; try discriminate; [destruct s|]; split; destruct t; reflexivity).
  destruct E as [E1 E2]. rewrite E1 in A. unfold ddbconv. rewrite ddmconv_special; rewrite A; auto.
Qed.
Print Assumptions C36_special.
(** From fold 3 on this covers every number that is a multiple of the unit of the last bin
    (2^-1055 for double, 2^-144 for float): all normal numbers and some more. *)
Theorem C36_three_bins t fold (X : F t) Y (m : mem t) : 3 <= fold <= MAXFOLD t -> is_finite X = true -> toZ X <> 0 ->
  (2 ^ unit_exp t (jmax t) | toZ X) -> ddbconv fold Y (dbdconv fold X Y m) = X.
Proof.
  intros Hf FX NZ HD. apply C36_round_trip; auto; [lia|]. set (k := bin_of t (toZ X)).
  assert (L : 3 <= fold) by lia. pose proof (width_pos t) as WP. pose proof (prec_pos t) as PP.
  destruct (Z_le_dec (jmax t) (k + fold - 1)) as [H|H].
  - replace (unit_exp t (k + fold - 1)) with (unit_exp t (jmax t)); [exact HD|]. unfold unit_exp. now rewrite Z.min_id, Z.min_r by lia.
  - pose proof (last_unit t (toZ X) k fold eq_refl NZ (toZ_span t X) ltac:(lia) ltac:(lia) ltac:(lia)) as LU.
    destruct (repr_toZ t X) as (M & e & E & He & HM & _). pose proof (unit_exp_ge t (k + fold - 1)) as UG.
    assert (UE : unit_exp t (k + fold - 1) <= e).
    { assert (W2 : prec t <= 2 * width t) by (destruct t; discriminate).
      assert (P1 : 2 ^ (unit_exp t (k + fold - 1) + (fold - 1) * width t) < 2 ^ (prec t + e + 1)).
      { rewrite Z.pow_add_r by nia. eapply Z.le_lt_trans; [exact LU|]. rewrite E, Z.abs_mul, (Z.abs_eq (2 ^ e)) by (apply Z.pow_nonneg; lia).
        rewrite !Z.pow_add_r by lia. pose proof (pow2_pos e He). nia. }
      apply Z.pow_lt_mono_r_iff in P1; [nia|lia|lia]. }
    rewrite E. exists (M * 2 ^ (e - unit_exp t (k + fold - 1))). rewrite <- Z.mul_assoc, <- Z.pow_add_r by lia. do 2 f_equal. lia.
Qed.
Print Assumptions C36_three_bins.
(** Below that bits are lost, and with fold 2 a double may not come back. *)
Theorem C36_tiny_refuted : feq (ddbconv 3 0 (dbdconv 3 (mkf 1 (-1074) : F Dbl) 0 (fun _ => fzero))) fzero = true /\
  feq (ddbconv 2 0 (dbdconv 2 (mkf (2 ^ 53 - 1) (-28) : F Dbl) 0 (fun _ => fzero))) (mkf (2 ^ 53 - 1) (-28)) = false.
Proof. split; vm_compute; reflexivity. Qed.
Print Assumptions C36_tiny_refuted.
Example C36_case : let X : F Dbl := mkf (2 ^ 53 - 1) 971 in
  is_finite X = true /\ (2 ^ unit_exp Dbl (bin_of Dbl (toZ X) + 2 - 1) | toZ X) /\ toZ X <> 0 /\ bin_of Dbl (toZ X) = 0.
Proof. cbv zeta. split; [reflexivity|]. split; [exists ((2 ^ 53 - 1) * 2 ^ 26); vm_compute; reflexivity|]. split; [vm_compute; discriminate|vm_compute; reflexivity]. Qed.
