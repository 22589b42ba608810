(** * C71: scaling the data by whole bins scales the sum, bit for bit *)
From Coq Require Import ZArith Bool List Lia Reals Lra Permutation.
From Flocq Require Import Core BinarySingleNaN.
From Verif Require Import Fp Mem Binned Spec Client FpProofs BitProofs CoreArith SpecProofs WordProofs MemProofs AccProofs SumProofs ClientProofs ConvProofs RescaleProofs ScaleProofs SumError ConvTerms ConvFloat ConvSpec RoundTrip PropsSum Blas LaneProofs BlasSpec PropsBlas PropsScale PropsAcc PropsConv PropsSign AccReal PropsAccuracy.
Import ListNotations.
Open Scope Z_scope.

(** The values of [xs] are those of [ys] times 2^(width*s). *)
Definition scaled {t} (s : Z) (xs ys : list (F t)) : Prop := Forall2 (fun x y => toZ x = toZ y * 2 ^ (width t * s)) xs ys.

Lemma scaled_length {t} s (xs ys : list (F t)) : scaled s xs ys -> length xs = length ys.
Proof. induction 1; cbn; congruence. Qed.
Lemma log2_scale a n : 0 < a -> 0 <= n -> Z.log2 (a * 2 ^ n) = Z.log2 a + n.
Proof. intros Ha Hn. rewrite <- Z.shiftl_mul_pow2 by lia. apply Z.log2_shiftl; lia. Qed.
Lemma bin_shift t X Y s : 0 <= s -> X = Y * 2 ^ (width t * s) -> Y <> 0 ->
  let d := (emax t - emin t - (Z.log2 (Z.abs Y) + 1)) / width t in
  bin_of t Y = Z.min d (jmax t) /\ bin_of t X = Z.min (d - s) (jmax t).
Proof.
  intros Hs E NY d. pose proof (width_pos t) as WP. pose proof (pow2_pos (width t * s) ltac:(nia)) as PW.
  unfold bin_of. destruct (Z.eqb_spec Y 0); [lia|]. destruct (Z.eqb_spec X 0); [nia|]. split; [reflexivity|]. f_equal.
  rewrite E, Z.abs_mul, (Z.abs_eq (2 ^ _)) by lia. rewrite log2_scale by nia. unfold d.
  replace (emax t - emin t - (Z.log2 (Z.abs Y) + width t * s + 1)) with (emax t - emin t - (Z.log2 (Z.abs Y) + 1) + (- s) * width t) by ring.
  rewrite Z.div_add by lia. ring.
Qed.
Lemma lead_shift {t} s (xs ys : list (F t)) : 0 <= s -> scaled s xs ys -> all_finite xs = true -> all_finite ys = true -> lead ys < jmax t -> lead xs = lead ys - s.
Proof.
  intros Hs H FX FY HL.
  assert (G : lead ys - s <= lead xs /\ (lead ys < jmax t -> lead xs = lead ys - s)); [|apply G; exact HL]. clear HL.
  induction H as [|x y xs ys E H IH]; [rewrite !lead_nil; lia|].
  rewrite all_finite_cons in FX, FY. apply andb_true_iff in FX as [Fx FX]. apply andb_true_iff in FY as [Fy FY]. specialize (IH FX FY).
  rewrite !lead_cons. unfold findex at 1 2 3 4 5. rewrite Fx, Fy. fold (lead xs) (lead ys). pose proof (lead_range xs). pose proof (lead_range ys).
  destruct (Z.eq_dec (toZ y) 0) as [Z0|NZ].
  - rewrite E, Z0, Z.mul_0_l. change (bin_of t 0) with (jmax t). lia.
  - destruct (bin_shift t _ _ s Hs E NZ) as [-> ->]. lia.
Qed.
Lemma sums_shift {t} s (xs ys : list (F t)) j : 0 <= s <= j -> scaled s xs ys -> j <= jmax t -> sums ys j = sums xs (j - s).
Proof.
  intros Hs H Hj. induction H as [|x y xs ys E H IH]; [reflexivity|]. rewrite !sums_cons, IH. f_equal.
  rewrite (slice_shift t (toZ x) (toZ y) s j) by (try apply toZ_span; auto; lia). destruct (Z.ltb_spec j s); [lia|reflexivity].
Qed.

Lemma rsum_up t s l : forall a, 0 <= s -> ismul (emin t) a -> (forall x, In x l -> ismul (emin t) x) ->
  rsum t (a * bpow radix2 s)%R (map (fun x => x * bpow radix2 s)%R l) = (rsum t a l * bpow radix2 s)%R.
Proof.
  induction l as [|x l IH]; intros a Hs Ha Hl; [reflexivity|]. unfold rsum in *. cbn [map fold_left].
  rewrite <- Rmult_plus_distr_r, RN_up; [|exact Hs|apply ismul_plus; [exact Ha|apply Hl; now left]].
  apply IH; [exact Hs| |intros y Hy; apply Hl; now right].
  apply (rsum_mul t (emin t) [x]); [lia|exact Ha|]. intros y [<-|[]]. apply Hl. now left.
Qed.
Lemma terms_shift t V C V' C' s n : forall k, (forall j, k <= j <= k + Z.of_nat n -> V j = V' (j - s) /\ C j = C' (j - s)) ->
  map fst (all_terms t V' C' n (k - s)) = map (fun x => x * bpow radix2 (width t * s))%R (map fst (all_terms t V C n k)).
Proof.
  assert (U : forall j, ux t (j - s) = ux t j + width t * s) by (intros j; unfold ux; ring).
  assert (B : forall a j d, (IZR a * bpow radix2 (ux t (j - s) + d) = IZR a * bpow radix2 (ux t j + d) * bpow radix2 (width t * s))%R).
  { intros a j d. rewrite U, Rmult_assoc, <- bpow_plus. do 2 f_equal. ring. }
  assert (PT : forall j, V j = V' (j - s) -> fst (pterm t V' (j - s)) = (fst (pterm t V j) * bpow radix2 (width t * s))%R).
  { intros j E. unfold pterm. cbn [fst]. rewrite <- E. pose proof (B (V j) j 0) as H. rewrite !Z.add_0_r in H. exact H. }
  assert (CT : forall j, C j = C' (j - s) -> fst (cterm t C' (j - s)) = (fst (cterm t C j) * bpow radix2 (width t * s))%R).
  { intros j E. unfold cterm. cbn [fst]. rewrite <- E. pose proof (B (C j) j (prec t - 3)) as H. rewrite !Z.add_sub_assoc in H. exact H. }
  assert (R : forall n k, (forall j, k <= j <= k + Z.of_nat n -> V j = V' (j - s) /\ C j = C' (j - s)) ->
    map fst (rest t V' C' n (k - s)) = map (fun x => x * bpow radix2 (width t * s))%R (map fst (rest t V C n k))).
  { clear n. induction n as [|n IH]; intros k H; cbn [rest map].
    - rewrite PT by (apply H; lia). reflexivity.
    - replace (k - s + 1) with (k + 1 - s) by ring. rewrite CT, PT, IH by (intros; apply H; lia) || (apply H; lia). reflexivity. }
  intros k H. unfold all_terms. cbn [map]. rewrite CT, R by (exact H || (apply H; lia)). reflexivity.
Qed.

Section shift.
  Context {t : ty} (fold s : Z) (xs ys : list (F t)) (P W P' W' : Z -> F t).
  Hypothesis HX : conv_hyps fold [] xs P W.
  Hypothesis HY : conv_hyps fold [] ys P' W'.
  Hypothesis Hs : 0 <= s.
  Hypothesis HS : scaled s xs ys.
  Hypothesis HK : lead ys + fold - 1 <= jmax t.
  Lemma leads : lead xs = lead ys - s.
  Proof. pose proof HX as (Hf & FX & _). pose proof HY as (_ & FY & _). apply lead_shift; auto. lia. Qed.
  Lemma words_shift j : lead ys <= j <= lead ys + (fold - 1) -> Vs ys j = Vs xs (j - s) /\ Cs ys j = Cs xs (j - s).
  Proof.
    intros Hj. pose proof leads as L. pose proof (lead_range xs). pose proof (lead_range ys). unfold Vs, Cs.
    destruct (Z.leb_spec j (jmax t)); [|lia]. destruct (Z.leb_spec (j - s) (jmax t)); [|lia].
    rewrite !Z.max_r by lia. rewrite (sums_shift s xs ys j) by (auto; lia). auto.
  Qed.
  Lemma value_shift : value t fold (lead xs) P W = value t fold (lead ys) P' W' * 2 ^ (width t * s).
  Proof.
    pose proof HX as (Hf & _). pose proof leads as L. pose proof (lead_range xs) as RX. pose proof (lead_range ys) as RY. pose proof (width_pos t) as WP. unfold value.
    pose proof (value_sums fold [] xs P W (Z.to_nat fold) HX 0 ltac:(lia) ltac:(lia)) as E. cbn [app] in E. rewrite E.
    pose proof (value_sums fold [] ys P' W' (Z.to_nat fold) HY 0 ltac:(lia) ltac:(lia)) as E'. cbn [app] in E'. rewrite E'. clear E E'.
    assert (G : forall n a, Z.of_nat (a + n) <= fold ->
      fold_right Z.add 0 (map (fun a => sums xs (lead xs + 0 + Z.of_nat a) * 2 ^ unit_exp t (lead xs + 0 + Z.of_nat a)) (seq a n)) =
      fold_right Z.add 0 (map (fun a => sums ys (lead ys + 0 + Z.of_nat a) * 2 ^ unit_exp t (lead ys + 0 + Z.of_nat a)) (seq a n)) * 2 ^ (width t * s)).
    { induction n as [|n IH]; intros a Ha; cbn [seq map fold_right]; [ring|]. rewrite IH by lia. rewrite Z.mul_add_distr_r. f_equal.
      rewrite (sums_shift s xs ys (lead ys + 0 + Z.of_nat a)) by (auto; lia). rewrite L.
      replace (lead ys + 0 + Z.of_nat a - s) with (lead ys - s + 0 + Z.of_nat a) by ring. rewrite <- Z.mul_assoc. f_equal.
      rewrite <- Z.pow_add_r by (try nia; pose proof (unit_exp_ge t (lead ys + 0 + Z.of_nat a)); lia). f_equal. unfold unit_exp. rewrite !Z.min_l by lia. ring. }
    apply G. lia.
  Qed.
  Lemma conv_shift : fits fold [] xs P W ->
    toZ (conv_words fold P W) = toZ (conv_words fold P' W') * 2 ^ (width t * s) /\
    is_finite (conv_words fold P W) = true /\ is_finite (conv_words fold P' W') = true.
  Proof.
    intros FT. pose proof (width_pos t) as WP. pose proof (pow2_pos (width t * s) ltac:(nia)) as PW.
    assert (FT' : fits fold [] ys P' W').
    { unfold fits in *. cbn [app] in *. rewrite value_shift, Z.abs_mul, (Z.abs_eq (2 ^ _)) in FT by lia. nia. }
    destruct (conv_real fold [] xs P W HX FT) as [F1 E1]. destruct (conv_real fold [] ys P' W' HY FT') as [F2 E2].
    split; [|split; assumption].
    assert (TE : map fst (cterms fold [] xs) = map (fun x => x * bpow radix2 (width t * s))%R (map fst (cterms fold [] ys))).
    { unfold cterms. cbn [app]. rewrite leads. apply terms_shift. intros j Hj. pose proof HX as (Hf & _). apply words_shift. lia. }
    pose proof HY as (Hf & FY & NE & HL & HH & HT).
    assert (ML : forall x, In x (map fst (cterms fold [] ys)) -> ismul (ux t (jmax t)) x).
    { intros x I. eapply (terms_mul t (Vs ys) (Cs ys)); try apply VCs_zero; eauto using Vs_range, Cs_range. }
    assert (UD : emin Dbl <= ux t (jmax t)) by (destruct t; vm_compute; discriminate).
    assert (RE : rsum Dbl 0 (map fst (cterms fold [] xs)) = (rsum Dbl 0 (map fst (cterms fold [] ys)) * bpow radix2 (width t * s))%R).
    { rewrite TE. rewrite <- (Rmult_0_l (bpow radix2 (width t * s))) at 1. apply rsum_up; [nia|apply ismul_0|].
      intros x I. eapply ismul_le; [exact UD|]. apply ML, I. }
    assert (RM : ismul (ux t (jmax t)) (rsum Dbl 0 (map fst (cterms fold [] ys)))) by (apply rsum_mul; [exact UD|apply ismul_0|exact ML]).
    assert (CE : (cround t (rsum Dbl 0 (map fst (cterms fold [] ys)) * bpow radix2 (width t * s)) = cround t (rsum Dbl 0 (map fst (cterms fold [] ys))) * bpow radix2 (width t * s))%R).
    { destruct t; cbn [cround]; [reflexivity|]. apply RN_up; [nia|]. eapply ismul_le; [|exact RM]. vm_compute; discriminate. }
    rewrite RE, CE, <- E2, !toZ_B2R in E1.
    rewrite (bpow_IZR (width t * s)) in E1 by nia. apply eq_IZR. rewrite mult_IZR.
    apply (Rmult_eq_reg_r (bpow radix2 (emin t))); [|apply Rgt_not_eq, bpow_gt_0]. rewrite E1. ring.
  Qed.
End shift.

(** Multiplying by the power of two scales the values, when the products are finite. *)
Lemma scaled_fmul {t} s (ys : list (F t)) : 0 <= s -> width t * s < emax t -> let c := mkf 1 (width t * s) in
  all_finite (map (fun y => fmul y c) ys) = true -> scaled s (map (fun y => fmul y c) ys) ys.
Proof.
  intros Hs Hw c. pose proof (width_pos t) as WP. pose proof (emin_neg t) as EN. destruct (mkf_pow2 t (width t * s)) as [_ B]; [nia|].
  induction ys as [|y ys IH]; cbn [map]; intros H; [constructor|]. rewrite all_finite_cons in H. apply andb_true_iff in H as [Fy H].
  constructor; [|apply IH, H]. pose proof (fmul_real_round t y c Fy) as R. unfold c in R at 2. rewrite B in R.
  rewrite RN_up in R; [|nia|apply B2R_mul]. rewrite round_generic in R; [|apply valid_rnd_N|rewrite <- fexp_FLT; apply generic_format_B2R].
  rewrite !toZ_B2R, (bpow_IZR (width t * s)) in R by nia. apply eq_IZR. rewrite mult_IZR.
  apply (Rmult_eq_reg_r (bpow radix2 (emin t))); [|apply Rgt_not_eq, bpow_gt_0]. rewrite R. ring.
Qed.

(** The accumulators: bin [k + i - s] of the scaled data holds what bin [k + i] of the data holds. *)
Theorem C71_accumulator t fold s (xs ys : list (F t)) X Y (m m' : mem t) i :
  2 <= fold <= MAXFOLD t -> all_finite xs = true -> all_finite ys = true -> ys <> [] -> Z.of_nat (length ys) <= CAPACITY t -> 0 <= i < fold ->
  0 <= s -> scaled s xs ys ->
  let k := fold_right Z.min (jmax t) (map (fun x => bin_of t (toZ x)) ys) in
  k + fold - 1 <= jmax t ->
  fold_right Z.min (jmax t) (map (fun x => bin_of t (toZ x)) xs) = k - s /\
  content_at fold (k - s) (sum_list fold X xs m) X i = content_at fold k (sum_list fold Y ys m') Y i.
Proof.
  intros Hf FX FY NE HC Hi Hs HS k HK. rewrite CAPACITY_eq in HC. unfold k in *. rewrite (k_lead ys FY) in *. rewrite (k_lead xs FX).
  pose proof (lead_shift s xs ys Hs HS FX FY ltac:(lia)) as L. split; [exact L|].
  assert (LE : length xs = length ys) by (exact (scaled_length s xs ys HS)).
  assert (NX : xs <> []) by (intros ->; destruct ys; [congruence|discriminate]).
  pose proof (sum_list_at t fold X xs m Hf ltac:(lia)) as H. apply holds_rep in H; [|lia].
  pose proof (sum_list_at t fold Y ys m' Hf ltac:(lia)) as H'. apply holds_rep in H'; [|lia].
  unfold content_at. pose proof (content_rep t fold [] xs 0 _ _ i FX NX H Hi) as C. pose proof (content_rep t fold [] ys 0 _ _ i FY NE H' Hi) as C'.
  cbn [app] in C, C'. unfold P_of in C, C'. rewrite !Z.mul_1_r in C, C'. rewrite <- L, C, C'. pose proof (lead_range xs).
  rewrite (sums_shift s xs ys (lead ys + i)) by (auto; lia). f_equal. lia.
Qed.
Print Assumptions C71_accumulator.

(** reproBLAS_rdsum / rssum: whatever strides, tunings and order. *)
Theorem C71_sum t tu tu' fold s N X incX X' incX' tmp tmp' (xs : list (F t)) (m m' : mem t) :
  2 <= fold <= MAXFOLD t -> tuned t tu -> tuned t tu' -> 0 < N <= CAPACITY t ->
  clear_of X incX N tmp (dbnum fold) -> clear_of X' incX' N tmp' (dbnum fold) ->
  let ys := read m X incX N in
  all_finite ys = true -> all_finite xs = true -> 0 <= s -> scaled s xs ys -> Permutation (read m' X' incX' N) xs ->
  let k := fold_right Z.min (jmax t) (map (fun x => bin_of t (toZ x)) ys) in
  k + fold - 1 <= jmax t ->
  let T := exact_sum xs in let h := 2 ^ unit_exp t (k - s + fold - 1) in
  2 * Z.abs T + N * h <= 2 * (2 ^ (emax t - emin t) - 2 ^ (emax t - emin t - 20)) ->
  let r := rdsum tu fold N X incX tmp m in let r' := rdsum tu' fold N X' incX' tmp' m' in
  is_finite r = true /\ is_finite r' = true /\ toZ r' = toZ r * 2 ^ (width t * s).
Proof.
  intros Hf HT HT' HN CX CX' ys FY FX Hs HS HP k HK T h HB r r'.
  assert (LN : Z.of_nat (length ys) = N) by (apply read_length; lia).
  assert (NE : ys <> []) by (intros E0; rewrite E0 in LN; cbn in LN; lia).
  assert (LE : length xs = length ys) by (exact (scaled_length s xs ys HS)).
  assert (NX : xs <> []) by (intros ->; destruct ys; [congruence|discriminate]).
  assert (FR : all_finite (read m' X' incX' N) = true) by (rewrite (all_finite_perm _ _ HP); exact FX).
  assert (E : r = ddbconv fold 0 (sum_list fold 0 ys (fun _ => fzero))) by (apply C20_is_scalar_sum; auto; lia).
  assert (E' : r' = ddbconv fold 0 (sum_list fold 0 xs (fun _ => fzero))).
  { unfold r'. rewrite (C20_is_scalar_sum t tu' fold N X' incX' tmp' 0 m' (fun _ => fzero)) by (auto; lia).
    pose proof (read_length m' X' incX' N ltac:(lia)) as LR. rewrite CAPACITY_eq in HN.
    pose proof (sum_list_at t fold 0 (read m' X' incX' N) (fun _ => fzero) Hf ltac:(lia)) as A1. pose proof (sum_list_at t fold 0 xs (fun _ => fzero) Hf ltac:(lia)) as A2.
    exact (conv_acc fold Hf [] _ [] _ _ _ _ _ (perm_nil _) HP A1 A2). }
  assert (KY : k = lead ys) by (apply k_lead, FY). assert (KX : fold_right Z.min (jmax t) (map (fun x => bin_of t (toZ x)) xs) = lead xs) by (apply k_lead, FX).
  assert (L : lead xs = lead ys - s) by (apply lead_shift; auto; lia).
  pose proof (hyps fold xs 0 (fun _ => fzero) Hf FX NX ltac:(lia) ltac:(lia)) as H1.
  pose proof (hyps fold ys 0 (fun _ => fzero) Hf FY NE ltac:(lia) ltac:(fold k; lia)) as H2.
  pose proof (fits_v fold xs 0 (fun _ => fzero) Hf FX NX ltac:(lia)) as FT.
  rewrite KX, L, <- KY, LE, LN in FT. fold T h in FT. specialize (FT ltac:(lia)).
  destruct (conv_shift fold s xs ys _ _ _ _ H1 H2 Hs HS ltac:(lia) FT) as (A & B & C).
  rewrite E, E', !(conv_words_ddb t). auto.
Qed.
Print Assumptions C71_sum.

(** Scaling by other powers of two does not commute with summation: a factor 2 can move the
    largest element to the next bin, and the last bin, with what it held, is dropped. *)
Definition edge : mem Dbl := fun a => nth (Z.to_nat a) [mkf 1 63; mkf (-1) 63; mkf 1 (-10)] fzero.
Definition edge2 : mem Dbl := fun a => nth (Z.to_nat a) [mkf 1 64; mkf (-1) 64; mkf 1 (-9)] fzero.
Theorem C71_other_factors_refuted :
  exists (t : ty) (tu : tuning) (fold N X tmp : Z) (m m' : mem t),
    2 <= fold <= MAXFOLD t /\ tuned t tu /\ 0 < N <= CAPACITY t /\ clear_of X 1 N tmp (dbnum fold) /\
    all_finite (read m X 1 N) = true /\ Forall2 (fun x y => toZ x = toZ y * 2) (read m' X 1 N) (read m X 1 N) /\
    toZ (rdsum tu fold N X 1 tmp m') <> toZ (rdsum tu fold N X 1 tmp m) * 2.
Proof.
  exists Dbl, sample_tuning, 2, 3, 0, 100, edge, edge2.
  split; [vm_compute; intuition discriminate|]. split; [exact (proj1 C18_case)|]. split; [vm_compute; intuition discriminate|].
  split; [intros i Hi; unfold dbnum; lia|]. split; [vm_compute; reflexivity|]. split.
  - unfold read, Gen.zseq, edge, edge2. cbn [seq map Z.to_nat Z.sub Z.add Pos.to_nat]. repeat constructor; vm_compute; reflexivity.
  - vm_compute. discriminate.
Qed.
Print Assumptions C71_other_factors_refuted.

(** A case: four elements scaled by 2^80 (two bins). *)
Definition small : mem Dbl := fun a => nth (Z.to_nat a) [mkf 3 70; mkf (-5) 20; mkf 1 (-10); mkf 0 0] fzero.
Definition large : mem Dbl := fun a => fmul (small a) (mkf 1 (width Dbl * 2)).
Example C71_case : forall ys xs, ys = read small 0 1 4 -> xs = read large 0 1 4 ->
  clear_of 0 1 4 100 (dbnum 3) /\ all_finite ys = true /\ all_finite xs = true /\ scaled 2 xs ys /\
  let k := fold_right Z.min (jmax Dbl) (map (fun x => bin_of Dbl (toZ x)) ys) in
  k + 3 - 1 <= jmax Dbl /\
  let T := exact_sum xs in let h := 2 ^ unit_exp Dbl (k - 2 + 3 - 1) in
  2 * Z.abs T + 4 * h <= 2 * (2 ^ (emax Dbl - emin Dbl) - 2 ^ (emax Dbl - emin Dbl - 20)) /\ T <> 0.
Proof.
  intros ys xs -> ->. split; [intros i Hi; unfold dbnum; lia|]. split; [vm_compute; reflexivity|]. split; [vm_compute; reflexivity|]. split.
  - assert (E : read large 0 1 4 = map (fun y => fmul y (mkf 1 (width Dbl * 2))) (read small 0 1 4)) by (unfold read; now rewrite map_map).
    rewrite E. apply scaled_fmul; [lia|reflexivity|vm_compute; reflexivity].
  - vm_compute. repeat split; discriminate || reflexivity.
Qed.
