(** * C69: cancellation; C70: the sum of negated data *)
From Coq Require Import ZArith Bool List Lia Reals Lra Permutation.
From Flocq Require Import Core BinarySingleNaN.
From Verif Require Import Fp Mem Binned Spec Client FpProofs BitProofs CoreArith SpecProofs MemProofs AccProofs SumProofs ClientProofs ConvProofs SumError ConvTerms ConvFloat ConvSpec RoundTrip PropsSum Blas LaneProofs BlasSpec PropsBlas PropsScale PropsAcc PropsConv.
Import ListNotations.
Open Scope Z_scope.

Lemma toZ_neg {t} (x : F t) : toZ (fneg x) = - toZ x.
Proof. destruct x as [?|?| |[] m e ?]; cbn [fneg Bopp toZ negb cond_Zopp]; ring. Qed.
Lemma finite_neg {t} (x : F t) : is_finite (fneg x) = is_finite x. Proof. unfold fneg. apply is_finite_Bopp. Qed.
Lemma remainder_opp t X n : remainder t (- X) n = - remainder t X n.
Proof. induction n as [|n IH]; cbn [remainder]; [reflexivity|]. rewrite IH, rhaz_opp. ring. Qed.
Lemma slice_opp t X j : slice t (- X) j = - slice t X j.
Proof. unfold slice. now rewrite remainder_opp, rhaz_opp. Qed.
Lemma bin_of_opp t X : bin_of t (- X) = bin_of t X.
Proof. unfold bin_of. rewrite Z.abs_opp. destruct (Z.eqb_spec X 0) as [->|N]; [reflexivity|]. destruct (Z.eqb_spec (- X) 0); [lia|reflexivity]. Qed.
Lemma sums_neg {t} (xs : list (F t)) j : sums (map fneg xs) j = - sums xs j.
Proof. induction xs as [|x xs IH]; [reflexivity|]. cbn [map]. rewrite !sums_cons, IH, toZ_neg, slice_opp. ring. Qed.
Lemma lead_neg {t} (xs : list (F t)) : lead (map fneg xs) = lead xs.
Proof. induction xs as [|x xs IH]; [reflexivity|]. cbn [map]. rewrite !lead_cons, IH. f_equal. unfold findex. now rewrite finite_neg, toZ_neg, bin_of_opp. Qed.
Lemma all_finite_neg {t} (xs : list (F t)) : all_finite (map fneg xs) = all_finite xs.
Proof. induction xs as [|x xs IH]; [reflexivity|]. cbn [map]. rewrite !all_finite_cons, IH. now rewrite finite_neg. Qed.

(** Value of an accumulator from the slice sums. *)
Lemma value_sums {t} fold (us xs : list (F t)) P W n : conv_hyps fold us xs P W -> forall i, 0 <= i -> i + Z.of_nat n <= fold ->
  value_from t n (lead (us ++ xs)) i P W =
  fold_right Z.add 0 (map (fun a => sums xs (lead (us ++ xs) + i + Z.of_nat a) * 2 ^ unit_exp t (lead (us ++ xs) + i + Z.of_nat a)) (seq 0 n)).
Proof.
  intros H. pose proof H as (Hf & AF & NE & HL & HH & HT). induction n as [|n IH]; intros i Hi Hn; [reflexivity|].
  cbn [value_from seq map fold_right]. rewrite <- seq_shift, map_map. rewrite IH by lia.
  pose proof (acc_vc fold us xs P W AF NE HL HH HT) as A. rewrite (content_acc _ _ _ _ _ _ _ _ A) by lia.
  pose proof (lead_range (us ++ xs)) as K. pose proof (quarter_pos t) as Q. f_equal.
  - rewrite Z.add_0_r. f_equal. unfold Vs, Cs. destruct (Z.leb_spec (lead (us ++ xs) + i) (jmax t)) as [L|L].
    + rewrite Z.max_r by lia. rewrite (Z.div_mod (sums xs (lead (us ++ xs) + i)) (quarter t)) at 3 by lia. ring.
    + rewrite HT by lia. reflexivity.
  - f_equal. apply map_ext. intros a. replace (lead (us ++ xs) + (i + 1) + Z.of_nat a) with (lead (us ++ xs) + i + Z.of_nat (S a)) by lia. reflexivity.
Qed.
Lemma value_null {t} fold (us xs : list (F t)) P W : conv_hyps fold us xs P W -> (forall j, 0 <= j -> sums xs j = 0) -> value t fold (lead (us ++ xs)) P W = 0.
Proof.
  intros H HS. pose proof H as (Hf & _). unfold value. rewrite (value_sums fold us xs P W _ H 0) by lia. pose proof (lead_range (us ++ xs)) as K.
  generalize 0%nat. induction (Z.to_nat fold) as [|n IH]; intros a; cbn [seq map fold_right]; [reflexivity|].
  rewrite IH, HS by lia. reflexivity.
Qed.
Lemma value_neg {t} fold (xs xs' : list (F t)) P W P' W' : conv_hyps fold [] xs P W -> conv_hyps fold [] xs' P' W' -> Permutation xs' (map fneg xs) ->
  lead xs' = lead xs /\ value t fold (lead xs') P' W' = - value t fold (lead xs) P W.
Proof.
  intros H H' HP. pose proof H as (Hf & _). assert (L : lead xs' = lead xs) by (rewrite (lead_perm _ _ HP); apply lead_neg). split; [exact L|].
  unfold value. pose proof (value_sums fold [] xs P W (Z.to_nat fold) H 0 ltac:(lia) ltac:(lia)) as E. cbn [app] in E. rewrite E.
  pose proof (value_sums fold [] xs' P' W' (Z.to_nat fold) H' 0 ltac:(lia) ltac:(lia)) as E'. cbn [app] in E'. rewrite E'. rewrite L.
  generalize 0%nat. clear E E'. induction (Z.to_nat fold) as [|n IH]; intros a; cbn [seq map fold_right]; [reflexivity|].
  rewrite IH, (sums_perm _ _ _ HP), sums_neg. ring.
Qed.

(** ** Cancellation: data that consist of pairs x, -x sum to zero, exactly, in whatever order,
    and every bin of the accumulator is empty. *)
Lemma cancel_sums {t} (xs ys : list (F t)) j : Permutation xs (ys ++ map fneg ys) -> sums xs j = 0.
Proof. intros HP. rewrite (sums_perm _ _ _ HP), sums_app, sums_neg. ring. Qed.
Theorem C69_cancel_accumulator t fold (xs ys : list (F t)) Y (m : mem t) i :
  2 <= fold <= MAXFOLD t -> all_finite xs = true -> xs <> [] -> Z.of_nat (length xs) <= CAPACITY t -> 0 <= i < fold ->
  Permutation xs (ys ++ map fneg ys) ->
  let k := fold_right Z.min (jmax t) (map (fun x => bin_of t (toZ x)) xs) in
  content_at fold k (sum_list fold Y xs m) Y i = 0.
Proof.
  intros Hf AF NE HC Hi HP k. rewrite CAPACITY_eq in HC.
  assert (K : k = lead xs).
  { unfold k, lead. f_equal. apply map_ext_in. intros x Hx. unfold findex. unfold all_finite in AF. rewrite forallb_forall in AF. now rewrite (AF x Hx). }
  pose proof (sum_list_at t fold Y xs m Hf HC) as H. apply holds_rep in H; [|auto].
  unfold content_at. pose proof (content_rep t fold [] xs 0 _ _ i AF NE H Hi) as C. cbn [app] in C. unfold P_of in C.
  rewrite !Z.mul_1_r in C. rewrite K, C. eapply cancel_sums, HP.
Qed.
Print Assumptions C69_cancel_accumulator.
Lemma conv_null {t} fold (xs : list (F t)) Y (m : mem t) : 2 <= fold <= MAXFOLD t -> all_finite xs = true -> Z.of_nat (length xs) <= capacity t ->
  (forall j, 0 <= j -> sums xs j = 0) -> acc_at fold [] xs m Y -> is_finite (ddbconv fold Y m) = true /\ toZ (ddbconv fold Y m) = 0.
Proof.
  intros Hf AF HL HS HA. destruct xs as [|x xs].
  - assert (E : ddbconv fold Y m = fzero); [|rewrite E; split; reflexivity]. unfold ddbconv. apply ddmconv_zero.
    unfold acc_at, holds in HA. cbn [all_finite forallb app] in HA. destruct (HA 0 ltac:(lia)) as [E _]. rewrite Z.mul_0_l, Z.add_0_r in E. exact E.
  - rewrite conv_words_ddb. set (l := x :: xs) in *.
    assert (H : conv_hyps fold [] l (fun i => m (Y + i * 1)) (fun i => m (Y + fold + i * 1))).
    { split; [exact Hf|]. split; [exact AF|]. split; [unfold l; discriminate|]. split; [exact HL|]. split; [exact HA|].
      intros j Hj. apply HS. pose proof (jmax_pos t). lia. }
    pose proof (value_null _ _ _ _ _ H HS) as V.
    destruct (conv_accuracy fold [] l _ _ H) as [A1 A2].
    { unfold fits. rewrite V. destruct t; vm_compute; discriminate. }
    split; [exact A1|]. cbv zeta in A2. rewrite V, Z.sub_0_r, Z.abs_0, Z.mul_0_r in A2.
    assert (0 < 2 ^ prec t) by (apply pow2_pos; pose proof (prec_pos t); lia). nia.
Qed.
Theorem C69_cancel t tu fold N X incX tmp (ys : list (F t)) (m : mem t) :
  2 <= fold <= MAXFOLD t -> tuned t tu -> 0 <= N <= CAPACITY t -> clear_of X incX N tmp (dbnum fold) ->
  all_finite (read m X incX N) = true ->
  Permutation (read m X incX N) (ys ++ map fneg ys) ->
  let r := rdsum tu fold N X incX tmp m in is_finite r = true /\ toZ r = 0.
Proof.
  intros Hf HT HN CX FX HP r.
  assert (E : r = ddbconv fold 0 (sum_list fold 0 (read m X incX N) (fun _ => fzero))) by (apply C20_is_scalar_sum; auto; lia).
  rewrite E. pose proof (read_length m X incX N ltac:(lia)) as LN. rewrite CAPACITY_eq in HN.
  apply (conv_null fold (read m X incX N)); auto; [lia| |apply sum_list_at; auto; lia]. intros j _. eapply cancel_sums, HP.
Qed.
Print Assumptions C69_cancel.

(** ** Negated data: the contents of every bin are exactly the opposite. *)
Theorem C70_accumulator t fold (xs xs' : list (F t)) Y Y' (m m' : mem t) i :
  2 <= fold <= MAXFOLD t -> all_finite xs = true -> xs <> [] -> Z.of_nat (length xs) <= CAPACITY t -> 0 <= i < fold ->
  Permutation xs' (map fneg xs) ->
  let k := fold_right Z.min (jmax t) (map (fun x => bin_of t (toZ x)) xs) in
  content_at fold k (sum_list fold Y' xs' m') Y' i = - content_at fold k (sum_list fold Y xs m) Y i.
Proof.
  intros Hf AF NE HC Hi HP k. rewrite CAPACITY_eq in HC.
  assert (K : k = lead xs).
  { unfold k, lead. f_equal. apply map_ext_in. intros x Hx. unfold findex. unfold all_finite in AF. rewrite forallb_forall in AF. now rewrite (AF x Hx). }
  assert (K' : lead xs' = lead xs) by (rewrite (lead_perm _ _ HP); apply lead_neg).
  assert (AF' : all_finite xs' = true) by (rewrite (all_finite_perm _ _ HP), all_finite_neg; exact AF).
  pose proof (Permutation_length HP) as LP. rewrite map_length in LP.
  assert (NE' : xs' <> []) by (intros ->; destruct xs; [congruence|discriminate]).
  pose proof (sum_list_at t fold Y xs m Hf HC) as H. apply holds_rep in H; [|auto].
  pose proof (sum_list_at t fold Y' xs' m' Hf ltac:(lia)) as H'. apply holds_rep in H'; [|lia].
  unfold content_at. pose proof (content_rep t fold [] xs 0 _ _ i AF NE H Hi) as C. pose proof (content_rep t fold [] xs' 0 _ _ i AF' NE' H' Hi) as C'.
  cbn [app] in C, C'. unfold P_of in C, C'. rewrite !Z.mul_1_r in C, C'. rewrite K' in C'. rewrite K, C, C'. rewrite (sums_perm _ _ _ HP). apply sums_neg.
Qed.
Print Assumptions C70_accumulator.

(** Reading the accumulators back. *)
Lemma cround_opp t x : (cround t (- x) = - cround t x)%R.
Proof. destruct t; cbn [cround]; [reflexivity|]. apply round_NE_opp. Qed.
Section conv.
  Context {t : ty} (fold : Z) (xs xs' : list (F t)) (Y Y' : Z) (m m' : mem t).
  Hypothesis Hf : 2 <= fold <= MAXFOLD t.
  Hypothesis AF : all_finite xs = true.
  Hypothesis NE : xs <> [].
  Hypothesis HC : Z.of_nat (length xs) <= CAPACITY t.
  Hypothesis HP : Permutation xs' (map fneg xs).
  Local Notation k := (fold_right Z.min (jmax t) (map (fun x => bin_of t (toZ x)) xs)).
  Hypothesis HK : k + fold - 1 <= jmax t.
  Local Notation N := (Z.of_nat (length xs)).
  Local Notation T := (exact_sum xs).
  Local Notation h := (2 ^ unit_exp t (k + fold - 1)).
  Hypothesis HT : 2 * Z.abs T + N * h <= 2 * (2 ^ (emax t - emin t) - 2 ^ (emax t - emin t - 20)).
  Local Notation M := (sum_list fold Y xs m).
  Local Notation M' := (sum_list fold Y' xs' m').
  Local Notation P := (fun i => M (Y + i * 1)).
  Local Notation W := (fun i => M (Y + fold + i * 1)).
  Local Notation P' := (fun i => M' (Y' + i * 1)).
  Local Notation W' := (fun i => M' (Y' + fold + i * 1)).
  Lemma k_lead : k = lead xs.
  Proof. unfold lead. f_equal. apply map_ext_in. intros x Hx. unfold findex. unfold all_finite in AF. rewrite forallb_forall in AF. now rewrite (AF x Hx). Qed.
  Lemma hyps : conv_hyps fold [] xs P W.
  Proof.
    split; [exact Hf|]. split; [exact AF|]. split; [exact NE|]. split; [rewrite <- CAPACITY_eq; exact HC|]. split.
    - apply sum_list_at; [exact Hf|rewrite <- CAPACITY_eq; exact HC].
    - intros j Hj. cbn [app] in Hj. rewrite <- k_lead in Hj. lia.
  Qed.
  Lemma hyps' : conv_hyps fold [] xs' P' W'.
  Proof.
    assert (K' : lead xs' = lead xs) by (rewrite (lead_perm _ _ HP); apply lead_neg).
    pose proof (Permutation_length HP) as LP. rewrite map_length in LP.
    split; [exact Hf|]. split; [rewrite (all_finite_perm _ _ HP), all_finite_neg; exact AF|].
    split; [intros E; destruct xs' as [|x' xx]; [|discriminate]; destruct xs; [congruence|discriminate]|].
    split; [rewrite <- CAPACITY_eq; lia|]. split.
    - apply sum_list_at; [exact Hf|rewrite <- CAPACITY_eq; lia].
    - intros j Hj. cbn [app] in Hj. rewrite K', <- k_lead in Hj. lia.
  Qed.
  Local Notation v := (value t fold (lead xs) P W).
  Lemma v_near : 2 * Z.abs (v - T) <= N * h.
  Proof.
    pose proof (C05_error t fold xs Y m Hf AF NE HC) as E. cbv zeta in E. rewrite <- k_lead.
    assert (EV : value t fold k P W = value t fold k (fun i => M (Y + i)) (fun i => M (Y + fold + i))).
    { unfold value. generalize 0. induction (Z.to_nat fold) as [|n IH]; intros i; cbn [value_from]; [reflexivity|]. now rewrite IH, !Z.mul_1_r. }
    rewrite EV. lia.
  Qed.
  Lemma fits_v : fits fold [] xs P W.
  Proof. unfold fits. cbn [app]. pose proof v_near. lia. Qed.
  Lemma fits_v' : fits fold [] xs' P' W'.
  Proof. unfold fits. cbn [app]. destruct (value_neg fold xs xs' _ _ _ _ hyps hyps' HP) as [_ E]. rewrite E. pose proof v_near. lia. Qed.
  Local Notation r := (ddbconv fold Y M).
  Local Notation r' := (ddbconv fold Y' M').
  Lemma sign_near : 2 * (1000 * 2 ^ prec t) * Z.abs (toZ r' + toZ r) <= 4 * round_units t * Z.abs T + 2 * round_units t * (N * h).
  Proof.
    pose proof (conv_accuracy fold [] xs _ _ hyps fits_v) as [_ A]. pose proof (conv_accuracy fold [] xs' _ _ hyps' fits_v') as [_ A'].
    cbv zeta in A, A'. cbn [app] in A, A'. destruct (value_neg fold xs xs' _ _ _ _ hyps hyps' HP) as [_ E]. rewrite E in A'.
    rewrite <- conv_words_ddb in A, A'. pose proof v_near as VN. rewrite Z.abs_opp in A'. change (conv_ulps t) with (round_units t) in *.
    set (a := v) in *. set (q := 1000 * 2 ^ prec t) in *. assert (0 < q) by (unfold q; pose proof (pow2_pos (prec t) ltac:(pose proof (prec_pos t); lia)); lia).
    assert (0 < round_units t) by (destruct t; reflexivity). set (c := round_units t) in *.
    assert (B1 : q * Z.abs (toZ r' + toZ r) <= q * (Z.abs (toZ r - a) + Z.abs (toZ r' - - a))) by (apply Z.mul_le_mono_nonneg_l; lia).
    assert (B2 : c * (2 * Z.abs a) <= c * (2 * Z.abs T + N * h)) by (apply Z.mul_le_mono_nonneg_l; lia). lia.
  Qed.
  Lemma sign_exact : 1024 * (2 * Z.abs T + N * h) < 2 * 1023 * 2 ^ 53 * h -> toZ r' = - toZ r.
  Proof.
    intros HS. pose proof (conv_real fold [] xs _ _ hyps fits_v) as [_ A]. pose proof (conv_real fold [] xs' _ _ hyps' fits_v') as [_ A'].
    rewrite <- conv_words_ddb in A, A'. destruct (value_neg fold xs xs' _ _ _ _ hyps hyps' HP) as [EL EV].
    pose proof hyps as (_ & _ & _ & HL & HH & HT0). pose proof hyps' as (_ & AF' & NE' & HL' & HH' & HT').
    pose proof (cterms_value fold [] xs _ _ Hf AF NE HL HH HT0) as CV. pose proof (cterms_value fold [] xs' _ _ Hf AF' NE' HL' HH' HT') as CV'.
    pose proof (conv_hyps_error fold [] xs _ _ hyps) as CE. pose proof (conv_hyps_error fold [] xs' _ _ hyps') as CE'. cbv zeta in CE, CE'.
    cbn [app] in CE, CE', CV, CV'. rewrite EV in CV'. rewrite EL in CE'. pose proof v_near as VN. set (a := v) in *. rewrite <- k_lead in CE, CE'.
    assert (UG : 0 <= unit_exp t (k + fold - 1)) by (pose proof (unit_exp_ge t (k + fold - 1)); lia).
    assert (NB : (Rabs (IZR a * bpow radix2 (emin t)) < bpow radix2 (Z.max (ux t (k + (fold - 1))) (ux t (jmax t)) + 53) * (1 - bpow radix2 (-10)))%R).
    { replace (k + (fold - 1)) with (k + fold - 1) by ring. rewrite Z.max_l by (unfold ux; pose proof (width_pos t); nia).
      rewrite <- ux_unit by exact HK. rewrite !bpow_plus, Rabs_mult, (Rabs_pos_eq (bpow _ (emin t))), <- abs_IZR by apply bpow_ge_0.
      rewrite (bpow_IZR (unit_exp t (k + fold - 1))) by exact UG. pose proof (bpow_gt_0 radix2 (emin t)) as G.
      assert (IL : 1024 * Z.abs a < 1023 * 2 ^ 53 * h) by lia. apply IZR_lt in IL. rewrite !mult_IZR in IL.
      replace (bpow radix2 53) with (IZR (2 ^ 53)) by (rewrite <- bpow_IZR by lia; reflexivity).
      replace (bpow radix2 (-10)) with (/ 1024)%R by (cbn; lra). set (hh := IZR h) in *. set (p := IZR (2 ^ 53)) in *. set (e := bpow radix2 (emin t)) in *. nra. }
    destruct CE as [E|[E _]]; [|rewrite CV in E; lra]. destruct CE' as [E'|[E' _]]; [|rewrite CV' in E'; rewrite opp_IZR, Ropp_mult_distr_l_reverse, Rabs_Ropp in E'; lra].
    rewrite E, CV in A. rewrite E', CV', opp_IZR, Ropp_mult_distr_l_reverse, cround_opp, <- A in A'.
    rewrite !toZ_B2R, <- Ropp_mult_distr_l_reverse in A'. apply Rmult_eq_reg_r in A'; [|apply Rgt_not_eq, bpow_gt_0].
    rewrite <- opp_IZR in A'. apply eq_IZR in A'. exact A'.
  Qed.
End conv.

(** The sum of the negated data is within two conversion errors of the negated sum ... *)
Theorem C70_near t tu tu' fold N X incX X' incX' tmp tmp' (m m' : mem t) :
  2 <= fold <= MAXFOLD t -> tuned t tu -> tuned t tu' -> 0 < N <= CAPACITY t ->
  clear_of X incX N tmp (dbnum fold) -> clear_of X' incX' N tmp' (dbnum fold) ->
  let xs := read m X incX N in
  all_finite xs = true -> Permutation (read m' X' incX' N) (map fneg xs) ->
  let k := fold_right Z.min (jmax t) (map (fun x => bin_of t (toZ x)) xs) in
  k + fold - 1 <= jmax t ->
  let T := exact_sum xs in let h := 2 ^ unit_exp t (k + fold - 1) in
  2 * Z.abs T + N * h <= 2 * (2 ^ (emax t - emin t) - 2 ^ (emax t - emin t - 20)) ->
  let r := rdsum tu fold N X incX tmp m in let r' := rdsum tu' fold N X' incX' tmp' m' in
  2 * (1000 * 2 ^ prec t) * Z.abs (toZ r' + toZ r) <= 4 * round_units t * Z.abs T + 2 * round_units t * (N * h).
Proof.
  intros Hf HT HT' HN CX CX' xs AF HP k HK T h HB r r'.
  assert (AF' : all_finite (read m' X' incX' N) = true) by (rewrite (all_finite_perm _ _ HP), all_finite_neg; exact AF).
  assert (LN : Z.of_nat (length xs) = N) by (apply read_length; lia).
  assert (NE : xs <> []) by (intros E0; rewrite E0 in LN; cbn in LN; lia).
  assert (E : r = ddbconv fold 0 (sum_list fold 0 xs (fun _ => fzero))) by (apply C20_is_scalar_sum; auto; lia).
  assert (E' : r' = ddbconv fold 0 (sum_list fold 0 (read m' X' incX' N) (fun _ => fzero))) by (apply C20_is_scalar_sum; auto; lia).
  rewrite E, E', <- LN. apply sign_near; auto; rewrite LN; auto; lia.
Qed.
Print Assumptions C70_near.
(** ... and is exactly the negated sum if that is less than 2^53 (1 - 2^-10) units of the last bin. *)
Theorem C70_partial t tu tu' fold N X incX X' incX' tmp tmp' (m m' : mem t) :
  2 <= fold <= MAXFOLD t -> tuned t tu -> tuned t tu' -> 0 < N <= CAPACITY t ->
  clear_of X incX N tmp (dbnum fold) -> clear_of X' incX' N tmp' (dbnum fold) ->
  let xs := read m X incX N in
  all_finite xs = true -> Permutation (read m' X' incX' N) (map fneg xs) ->
  let k := fold_right Z.min (jmax t) (map (fun x => bin_of t (toZ x)) xs) in
  k + fold - 1 <= jmax t ->
  let T := exact_sum xs in let h := 2 ^ unit_exp t (k + fold - 1) in
  2 * Z.abs T + N * h <= 2 * (2 ^ (emax t - emin t) - 2 ^ (emax t - emin t - 20)) ->
  1024 * (2 * Z.abs T + N * h) < 2 * 1023 * 2 ^ 53 * h ->
  toZ (rdsum tu' fold N X' incX' tmp' m') = - toZ (rdsum tu fold N X incX tmp m).
Proof.
  intros Hf HT HT' HN CX CX' xs AF HP k HK T h HB HS.
  assert (AF' : all_finite (read m' X' incX' N) = true) by (rewrite (all_finite_perm _ _ HP), all_finite_neg; exact AF).
  assert (LN : Z.of_nat (length xs) = N) by (apply read_length; lia).
  assert (NE : xs <> []) by (intros E0; rewrite E0 in LN; cbn in LN; lia).
  rewrite (C20_is_scalar_sum t tu fold N X incX tmp 0 m (fun _ => fzero)) by (auto; lia).
  rewrite (C20_is_scalar_sum t tu' fold N X' incX' tmp' 0 m' (fun _ => fzero)) by (auto; lia).
  apply sign_exact; auto; fold xs; rewrite ?LN; auto; lia.
Qed.
Print Assumptions C70_partial.
(** The unrestricted statement, the sum of the negated data being the negated sum bit for bit (it
    is what the sign symmetry of round to nearest gives for an ordinary loop), is false: carries
    are rounded down, not towards zero, and the terms of the conversion round differently. *)
Definition skew : mem Dbl := fun a => nth (Z.to_nat a) [mkf (2 ^ 22 + 1) 185; mkf (2 ^ 9) 145; mkf 1 105] fzero.
Definition negated {t} (m : mem t) : mem t := fun a => fneg (m a).
Lemma read_negated {t} (m : mem t) X inc N : read (negated m) X inc N = map fneg (read m X inc N).
Proof. unfold read. now rewrite map_map. Qed.
Theorem C70_refuted :
  exists (t : ty) (tu : tuning) (fold N X tmp : Z) (m m' : mem t),
    2 <= fold <= MAXFOLD t /\ tuned t tu /\ 0 < N <= CAPACITY t /\ clear_of X 1 N tmp (dbnum fold) /\
    all_finite (read m X 1 N) = true /\ read m' X 1 N = map fneg (read m X 1 N) /\
    toZ (rdsum tu fold N X 1 tmp m') <> - toZ (rdsum tu fold N X 1 tmp m).
Proof.
  exists Dbl, sample_tuning, 3, 3, 0, 100, skew, (negated skew).
  split; [vm_compute; intuition discriminate|]. split; [exact (proj1 C18_case)|]. split; [vm_compute; intuition discriminate|].
  split; [intros i Hi; unfold dbnum; lia|]. split; [vm_compute; reflexivity|]. split; [apply read_negated|].
  vm_compute. discriminate.
Qed.
Print Assumptions C70_refuted.

(** Cases: cancelling data in a mixed order; data whose sum is exact. *)
Definition pairs : list (F Dbl) := [mkf 5 100; mkf (-1) (-1074); mkf 7 (-20)].
Definition pairs_mem : mem Dbl := fun a => nth (Z.to_nat a) [mkf 5 100; mkf (-1) (-1074); fneg (mkf 7 (-20)); fneg (mkf 5 100); mkf 7 (-20); fneg (mkf (-1) (-1074))] fzero.
Example C69_cancel_case : clear_of 0 1 6 100 (dbnum 3) /\ all_finite (read pairs_mem 0 1 6) = true /\
  Permutation (read pairs_mem 0 1 6) (pairs ++ map fneg pairs) /\ toZ (rdsum sample_tuning 3 6 0 1 100 pairs_mem) = 0.
Proof.
  split; [intros i Hi; unfold dbnum; lia|]. split; [vm_compute; reflexivity|]. split; [|vm_compute; reflexivity].
  unfold pairs, pairs_mem. generalize (mkf 5 100 : F Dbl), (mkf (-1) (-1074) : F Dbl), (mkf 7 (-20) : F Dbl). intros a b c.
  change (Permutation [a; b; fneg c; fneg a; c; fneg b] [a; b; c; fneg a; fneg b; fneg c]).
  apply perm_skip, perm_skip. change [c; fneg a; fneg b; fneg c] with ([c] ++ [fneg a; fneg b; fneg c]).
  eapply perm_trans; [|apply Permutation_app_comm]. cbn [app].
  eapply perm_trans; [apply perm_swap|]. apply perm_skip.
  eapply perm_trans; [apply perm_swap|]. eapply perm_trans; [apply perm_skip, perm_swap|].
  eapply perm_trans; [apply perm_swap|]. apply perm_skip.
  eapply perm_trans; [apply perm_swap|]. apply Permutation_refl.
Qed.
Definition mild : mem Dbl := fun a => nth (Z.to_nat a) [mkf 3 30; mkf (-5) 26; mkf 1 25] fzero.
Example C70_case : forall xs, xs = read mild 0 1 3 ->
  clear_of 0 1 3 100 (dbnum 2) /\ all_finite xs = true /\ read (negated mild) 0 1 3 = map fneg xs /\
  let k := fold_right Z.min (jmax Dbl) (map (fun x => bin_of Dbl (toZ x)) xs) in
  k + 2 - 1 <= jmax Dbl /\
  let T := exact_sum xs in let h := 2 ^ unit_exp Dbl (k + 2 - 1) in
  2 * Z.abs T + 3 * h <= 2 * (2 ^ (emax Dbl - emin Dbl) - 2 ^ (emax Dbl - emin Dbl - 20)) /\
  1024 * (2 * Z.abs T + 3 * h) < 2 * 1023 * 2 ^ 53 * h /\ T <> 0.
Proof.
  intros xs ->. split; [intros i Hi; unfold dbnum; lia|]. split; [vm_compute; reflexivity|]. split; [apply read_negated|].
  vm_compute. repeat split; discriminate || reflexivity.
Qed.

(** Floats with fold 2 or 3 always qualify up to 2^14 summands: reproBLAS_rssum and
    reproBLAS_ssum are odd functions there. *)
Lemma bin_size t X k : k <= bin_of t X -> 0 <= k <= jmax t -> Z.abs X < 2 ^ span t -> Z.abs X <= 2 ^ (unit_exp t k + width t - 1).
Proof.
  intros H HK HX. destruct (Z.eq_dec k 0) as [->|N].
  - assert (E : unit_exp t 0 + width t - 1 = emax t - emin t) by (unfold unit_exp; pose proof (jmax_pos t); rewrite Z.min_l by lia; ring).
    rewrite E. unfold span in HX. lia.
  - pose proof (below_bin t X (k - 1) ltac:(lia)) as B. assert (E : unit_exp t (k - 1) = unit_exp t k + width t) by (unfold unit_exp; rewrite !Z.min_l by lia; ring).
    rewrite E in B. pose proof (unit_exp_ge t k). pose proof (width_pos t). replace (unit_exp t k + width t) with (Z.succ (unit_exp t k + width t - 1)) in B by ring.
    rewrite Z.pow_succ_r in B by lia. lia.
Qed.
Lemma sum_size {t} (xs : list (F t)) B : (forall x, In x xs -> Z.abs (toZ x) <= B) -> Z.abs (exact_sum xs) <= Z.of_nat (length xs) * B.
Proof.
  unfold exact_sum. induction xs as [|x xs IH]; intros H; cbn [map fold_right length]; [lia|].
  pose proof (H x (or_introl eq_refl)). specialize (IH (fun y Hy => H y (or_intror Hy))). lia.
Qed.
Theorem C70_float_partial tu tu' fold N X incX X' incX' tmp tmp' (m m' : mem Flt) :
  2 <= fold <= 3 -> tuned Flt tu -> tuned Flt tu' -> 0 < N <= 2 ^ 14 ->
  clear_of X incX N tmp (dbnum fold) -> clear_of X' incX' N tmp' (dbnum fold) ->
  let xs := read m X incX N in
  all_finite xs = true -> Permutation (read m' X' incX' N) (map fneg xs) ->
  let k := fold_right Z.min 20 (map (fun x => bin_of Flt (toZ x)) xs) in
  k + fold - 1 <= 20 ->
  let T := exact_sum xs in let h := 2 ^ unit_exp Flt (k + fold - 1) in
  2 * Z.abs T + N * h <= 2 * (2 ^ 277 - 2 ^ 257) ->
  toZ (rdsum tu' fold N X' incX' tmp' m') = - toZ (rdsum tu fold N X incX tmp m).
Proof.
  intros Hf HT HT' HN CX CX' xs AF HP k HK T h HB.
  apply (C70_partial Flt); auto.
  - rewrite MAXFOLD_eq. cbn. lia.
  - split; [lia|]. apply Z.le_trans with (2 ^ 14); [lia|vm_compute; discriminate].
  - fold xs. change (jmax Flt) with 20. fold k. fold T h.
    assert (LN : Z.of_nat (length xs) = N) by (apply read_length; lia).
    assert (K : 0 <= k <= jmax Flt).
    { assert (E : k = lead xs) by (unfold k, lead; f_equal; apply map_ext_in; intros x Hx; unfold findex; unfold all_finite in AF; rewrite forallb_forall in AF; now rewrite (AF x Hx)).
      rewrite E. apply lead_range. }
    pose proof (sum_size xs (2 ^ (unit_exp Flt k + width Flt - 1))) as SS. rewrite LN in SS.
    assert (B : Z.abs T <= N * 2 ^ (unit_exp Flt k + width Flt - 1)).
    { apply SS. intros x Hx. apply bin_size; [|exact K|apply toZ_span]. unfold k. clear - Hx. induction xs as [|y ys IH]; [destruct Hx|].
      cbn [map fold_right]. destruct Hx as [->|Hx]; [|specialize (IH Hx)]; lia. }
    pose proof (unit_exp_ge Flt (k + fold - 1)) as UG.
    assert (E : unit_exp Flt k + width Flt - 1 = unit_exp Flt (k + fold - 1) + (13 * fold - 1)).
    { unfold unit_exp. change (jmax Flt) with 20 in *. rewrite !Z.min_l by lia. change (width Flt) with 13. lia. }
    rewrite E, Z.pow_add_r in B by lia. fold h in B. assert (HH : 0 < h) by (apply pow2_pos; lia).
    assert (P : 2 ^ (13 * fold - 1) <= 2 ^ 38) by (apply Z.pow_le_mono_r; lia).
    assert (B2 : Z.abs T <= 2 ^ 14 * (h * 2 ^ 38)).
    { eapply Z.le_trans; [exact B|]. assert (G : h * 2 ^ (13 * fold - 1) <= h * 2 ^ 38) by (apply Z.mul_le_mono_nonneg_l; lia).
      assert (0 <= h * 2 ^ (13 * fold - 1)) by (apply Z.mul_nonneg_nonneg; [lia|apply Z.pow_nonneg; lia]). apply Z.mul_le_mono_nonneg; lia. }
    assert (B3 : N * h <= 2 ^ 14 * h) by (apply Z.mul_le_mono_nonneg_r; lia). lia.
Qed.
Print Assumptions C70_float_partial.
