(** * C90: accuracy of complex sums, absolute sums and inner products *)
From Coq Require Import ZArith Reals Bool List Lia Lra Permutation.
From Flocq Require Import Core Relative BinarySingleNaN.
From Verif Require Import Fp Mem Binned Spec Client FpProofs BitProofs SpecProofs MemProofs AccProofs SumProofs ScaleProofs ClientProofs ConvProofs SumError ConvFloat PropsSum PropsConv PropsAcc ComplexProofs PropsComplex Gen GenProofs Blas LaneProofs DriverProofs BlasSpec PropsBlas SsqProofs Defaults PropsApi BlasZ BlasZSpec PropsBlasZ BlasDZ BlasDZSpec PropsBlasDZ GemvZProofs PropsSym PropsZReal AccReal PropsAccuracy.
Import ListNotations.
Open Scope R_scope.

(** The real and the imaginary part of element i of a strided complex vector. *)
Definition cre {t} (m : mem t) (X incX i : Z) : R := B2R (m (X + 2 * (i * incX))%Z).
Definition cim {t} (m : mem t) (X incX i : Z) : R := B2R (m (X + 2 * (i * incX) + 1)%Z).
(** The largest term M is not tiny and the sum does not come near the largest number. *)
Definition not_tiny t fold (M : R) := bpow radix2 (emax t - (jmax t - fold + 2) * width t) <= M.
Definition in_range t (S : R) := S <= bpow radix2 (emax t) - bpow radix2 (emax t - 20).
(** [r] is close to the sum of the exact numbers [ts], which were added without a previous rounding ... *)
Definition close_sum t fold (ts : list R) (r : F t) : Prop :=
  forall M, max_abs M ts -> not_tiny t fold M ->
  let S := total ts in let E := sum_eps t fold (Z.of_nat (length ts)) M in
  in_range t (Rabs S + E) -> is_finite r = true /\ Rabs (B2R r - S) <= conv_eps t * Rabs S + 1001 / 1000 * E.
(** ... or after one rounding of each. *)
Definition close_dot t fold (ts : list R) (r : F t) : Prop :=
  forall M, max_abs M ts -> not_tiny t fold M ->
  let S := total ts in let D := prod_eps t (Z.of_nat (length ts)) (total (map Rabs ts)) in let E := sum_eps t fold (Z.of_nat (length ts)) M in
  in_range t (Rabs S + D + 1001 / 1000 * E) ->
  is_finite r = true /\ Rabs (B2R r - S) <= conv_eps t * Rabs S + 1001 / 1000 * D + 1003 / 1000 * E.

Lemma close_sum_list t fold B (xs : list (F t)) (m : mem t) :
  (2 <= fold <= MAXFOLD t)%Z -> (Z.of_nat (length xs) <= CAPACITY t)%Z -> all_finite xs = true ->
  close_sum t fold (reals xs) (ddbconv fold B (sum_list fold B xs m)).
Proof.
  intros Hf HN FX M HM HB S E HS. assert (LN : length (reals xs) = length xs) by (unfold reals; apply map_length). unfold E in *. rewrite LN in *.
  apply (sum_error fold xs M Hf FX HM HB); auto. destruct xs; [|discriminate]. destruct HM as [_ (x & [] & _)].
Qed.
Lemma close_dot_list t fold B (pp : list (F t * F t)) (m : mem t) :
  (2 <= fold <= MAXFOLD t)%Z -> (Z.of_nat (length pp) <= CAPACITY t)%Z -> all_finite (map (fun '(x, y) => fmul x y) pp) = true ->
  close_dot t fold (map (fun '(x, y) => B2R x * B2R y) pp) (ddbconv fold B (sum_list fold B (map (fun '(x, y) => fmul x y) pp) m)).
Proof.
  intros Hf HC FX M HM HB S D E HS. unfold not_tiny, in_range in HB, HS.
  assert (LL : length (map (fun '(x, y) => B2R x * B2R y) pp) = length pp) by apply map_length. unfold D, E in *. rewrite LL in *. clear LL D E.
  set (xs := map (fun '(x, y) => fmul x y) pp) in *. set (N := Z.of_nat (length pp)) in *. assert (LP : Z.of_nat (length pp) = N) by reflexivity. clearbody N.
  assert (LN : Z.of_nat (length xs) = N) by (unfold xs; rewrite map_length; exact LP).
  assert (HN : (0 < N)%Z). { destruct pp; [|cbn [length] in LP; lia]. destruct HM as [_ (x & [] & _)]. }
  set (D := prod_eps t N (total (map Rabs (map (fun '(x, y) => B2R x * B2R y) pp)))) in *. set (E := sum_eps t fold N M) in *.
  pose proof (rounded_total t pp FX) as RT. rewrite LP in RT. fold xs S D in RT.
  set (thr := (emax t - (jmax t - fold + 2) * width t)%Z) in *.
  assert (UB : u_ t <= / 16777216) by (destruct t; cbn; lra). pose proof (bpow_gt_0 radix2 (- prec t)) as UP.
  assert (TP : (emin t + 17 <= thr)%Z) by (unfold thr; rewrite MAXFOLD_eq in Hf; destruct t; unfold emin; cbn [emax prec jmax width] in *; lia).
  assert (EM : bpow radix2 (emin t - 1) <= / 262144 * M).
  { apply Rle_trans with (bpow radix2 (-18) * bpow radix2 thr); [rewrite <- bpow_plus; apply bpow_le; lia|].
    replace (/ 262144) with (bpow radix2 (-18)) by (cbn; lra). apply Rmult_le_compat_l; [apply bpow_ge_0|exact HB]. }
  assert (M0 : 0 < M) by (eapply Rlt_le_trans; [apply bpow_gt_0|exact HB]).
  (* the largest rounded product *)
  assert (FIN : forall x y, In (x, y) pp -> is_finite (fmul x y) = true).
  { intros x y I. unfold all_finite in FX. rewrite forallb_forall in FX. apply FX. unfold xs. apply in_map_iff. exists (x, y). auto. }
  assert (BIG : forall z, In z (reals xs) -> Rabs z <= 1001 / 1000 * M).
  { intros z Hz. unfold reals, xs in Hz. rewrite map_map in Hz. apply in_map_iff in Hz. destruct Hz as ([x y] & <- & I).
    rewrite fmul_real_round by (apply FIN; exact I). pose proof (RN_any t (B2R x * B2R y)) as R.
    assert (A : Rabs (B2R x * B2R y) <= M) by (apply HM; apply in_map_iff; exists (x, y); auto).
    pose proof (Rabs_pos (B2R x * B2R y)) as A0.
    assert (Rabs (RN t (B2R x * B2R y)) <= Rabs (B2R x * B2R y) + Rabs (RN t (B2R x * B2R y) - B2R x * B2R y)).
    { replace (RN t (B2R x * B2R y)) with (B2R x * B2R y + (RN t (B2R x * B2R y) - B2R x * B2R y)) at 1 by ring. apply Rabs_triang. }
    assert (u_ t * Rabs (B2R x * B2R y) <= / 16777216 * M) by (apply Rmult_le_compat; lra). lra. }
  assert (THR : exists z, In z (reals xs) /\ bpow radix2 thr <= Rabs z).
  { destruct HM as [_ (z & I & Ez)]. apply in_map_iff in I. destruct I as ([x y] & <- & I). exists (B2R (fmul x y)). split.
    - unfold reals, xs. rewrite map_map. apply in_map_iff. exists (x, y). auto.
    - rewrite fmul_real_round by (apply FIN; exact I). rewrite <- Ez in HB.
      assert (FT : fmt t (bpow radix2 thr)) by (apply generic_format_FLT_bpow; [apply (prec_gt_0 t)|lia]).
      apply abs_round_ge_generic; [apply FLT_exp_valid; apply (prec_gt_0 t)|apply valid_rnd_N|exact FT|exact HB]. }
  assert (MX : exists M', max_abs M' (reals xs)).
  { assert (NEr : reals xs <> []) by (intros E0; apply map_eq_nil in E0; rewrite E0 in LN; cbn in LN; lia).
    clear - NEr. induction (reals xs) as [|a l IH]; [congruence|]. destruct l as [|b l].
    - exists (Rabs a). split; [|exists a; cbn; auto]. intros x [<-|[]]; lra.
    - destruct (IH ltac:(discriminate)) as (M1 & A1 & (x & I & Ex)). destruct (Rle_lt_dec M1 (Rabs a)).
      + exists (Rabs a). split; [|exists a; cbn; auto]. intros y [<-|Hy]; [lra|]. specialize (A1 y Hy). lra.
      + exists M1. split; [|exists x; split; [now right|exact Ex]]. intros y [<-|Hy]; [lra|]. exact (A1 y Hy). }
  destruct MX as (M' & MX). assert (ML : bpow radix2 thr <= M').
  { destruct THR as (z & I & Hz). destruct MX as [A _]. specialize (A z I). lra. }
  assert (MU : M' <= 1001 / 1000 * M) by (destruct MX as [_ (z & I & <-)]; auto).
  assert (EE : sum_eps t fold N M' <= 1001 / 1000 * E).
  { unfold E, sum_eps. assert (0 <= IZR N * bpow radix2 (- width t * (fold - 1))) by (apply Rmult_le_pos; [apply IZR_le; lia|apply bpow_ge_0]).
    set (w := IZR N * bpow radix2 (- width t * (fold - 1))) in *. assert (w * M' <= w * (1001 / 1000 * M)) by (apply Rmult_le_compat_l; auto). lra. }
  set (S' := total (reals xs)) in *.
  assert (AS : Rabs S' <= Rabs S + D). { replace S' with (S + (S' - S)) by ring. eapply Rle_trans; [apply Rabs_triang|]. lra. }
  destruct (sum_error fold xs M' Hf FX MX ML B m) as [R1 R2].
  { intros E0. rewrite E0 in LN. cbn in LN. lia. }
  { lia. }
  { rewrite LN. fold S'. lra. }
  rewrite LN in R2. fold S' in R2. split; [exact R1|].
  set (rr := ddbconv fold B (sum_list fold B xs m)) in *.
  replace (B2R rr - S) with ((B2R rr - S') + (S' - S)) by ring. eapply Rle_trans; [apply Rabs_triang|].
  assert (CE : 0 < conv_eps t <= / 1000).
  { unfold conv_eps. destruct t; cbn; lra. }
  assert (D0 : 0 <= D) by (eapply Rle_trans; [apply Rabs_pos|exact RT]).
  assert (conv_eps t * Rabs S' <= conv_eps t * (Rabs S + D)) by (apply Rmult_le_compat_l; lra).
  assert (conv_eps t * D <= / 1000 * D) by (apply Rmult_le_compat_r; lra).
  assert (E0 : 0 <= E).
  { unfold E, sum_eps. apply Rmult_le_pos; [|lra]. apply Rmult_le_pos; [apply IZR_le; lia|apply bpow_ge_0]. }
  lra.
Qed.

(** Pairs of numbers whose products make up a list of rounded products. *)
Lemma close_terms t fold B (xs : list (F t)) (ts : list R) (pp : list (F t * F t)) (m : mem t) :
  (2 <= fold <= MAXFOLD t)%Z -> (Z.of_nat (length xs) <= CAPACITY t)%Z -> all_finite xs = true ->
  xs = map (fun '(x, y) => fmul x y) pp -> ts = map (fun '(x, y) => B2R x * B2R y) pp ->
  close_dot t fold ts (ddbconv fold B (sum_list fold B xs m)).
Proof. intros Hf HC FX -> ->. rewrite map_length in HC. now apply close_dot_list. Qed.
(** ** C90: complex sums, inner products, absolute sums *)
Theorem C90_zsum t tu fold N X incX tmp (m : mem t) :
  (2 <= fold <= MAXFOLD t)%Z -> tuned t tu -> (0 <= N <= CAPACITY t)%Z -> zclear_of X incX N tmp (zbnum fold) ->
  zfinite (zread m X incX N) = true ->
  let r := rzsum tu fold N X incX tmp m in
  close_sum t fold (map (cre m X incX) (zseq 0 N)) (fst r) /\ close_sum t fold (map (cim m X incX) (zseq 0 N)) (snd r).
Proof.
  intros Hf HT HN CX FX r. apply andb_true_iff in FX. destruct FX as [FR FI].
  destruct (C46_rzsum t tu fold N X incX tmp 0 _ m m Hf HT HN CX (Permutation_refl _)) as [A0 A1]. fold r in A0, A1.
  rewrite FR in A0. rewrite FI in A1. rewrite A0, A1.
  assert (L1 : (Z.of_nat (length (map fst (zread m X incX N))) <= CAPACITY t)%Z) by (rewrite map_length; unfold zread; rewrite map_length, zseq_length; lia).
  assert (L2 : (Z.of_nat (length (map snd (zread m X incX N))) <= CAPACITY t)%Z) by (rewrite map_length; unfold zread; rewrite map_length, zseq_length; lia).
  split.
  - replace (map (cre m X incX) (zseq 0 N)) with (reals (map fst (zread m X incX N))) by (unfold reals, zread; rewrite !map_map; reflexivity).
    now apply close_sum_list.
  - replace (map (cim m X incX) (zseq 0 N)) with (reals (map snd (zread m X incX N))) by (unfold reals, zread; rewrite !map_map; reflexivity).
    now apply close_sum_list.
Qed.
Print Assumptions C90_zsum.

Theorem C90_zdotc t tu fold N X incX Y incY tmp (m : mem t) :
  (2 <= fold <= MAXFOLD t)%Z -> tuned t tu -> (Z.min N (block_max tu) <= ENDURANCE t / 2)%Z -> (0 <= N)%Z -> (2 * N <= CAPACITY t)%Z ->
  zclear_of X incX N tmp (zbnum fold) -> zclear_of Y incY N tmp (zbnum fold) ->
  zfinite (conj_products m X incX Y incY N) = true ->
  let xr := cre m X incX in let xi := cim m X incX in let yr := cre m Y incY in let yi := cim m Y incY in
  let r := rzdotc tu fold N X incX Y incY tmp m in
  close_dot t fold (flat_map (fun i => [xr i * yr i; xi i * yi i]) (zseq 0 N)) (fst r) /\
  close_dot t fold (flat_map (fun i => [- xi i * yr i; xr i * yi i]) (zseq 0 N)) (snd r).
Proof.
  intros Hf HT HB HN HC CX CY FX xr xi yr yi r. apply andb_true_iff in FX. destruct FX as [FR FI].
  destruct (C29_rzdotc_partial t tu fold N X incX Y incY tmp 0 _ m m Hf HT HB ltac:(lia) CX CY (Permutation_refl _)) as [A0 A1]. fold r in A0, A1.
  rewrite FR in A0. rewrite FI in A1. rewrite A0, A1. split.
  - apply (close_terms t fold 0 _ _ (pairs (fun i => (m (X + 2 * (i * incX)), m (Y + 2 * (i * incY)))%Z) (fun i => (m (X + 2 * (i * incX) + 1), m (Y + 2 * (i * incY) + 1))%Z) (zseq 0 N))); auto.
    + rewrite conj_fst, pairs_length, zseq_length. lia.
    + rewrite conj_fst, pairs_map. reflexivity.
    + rewrite pairs_map. reflexivity.
  - apply (close_terms t fold 0 _ _ (pairs (fun i => (fneg (m (X + 2 * (i * incX) + 1)), m (Y + 2 * (i * incY)))%Z) (fun i => (m (X + 2 * (i * incX)), m (Y + 2 * (i * incY) + 1))%Z) (zseq 0 N))); auto.
    + rewrite conj_snd, pairs_length, zseq_length. lia.
    + rewrite conj_snd, pairs_map. unfold pairs. apply flat_map_ext. intros i. now rewrite fmul_neg_l.
    + rewrite pairs_map. unfold pairs. apply flat_map_ext. intros i. unfold fneg. now rewrite B2R_Bopp.
Qed.
Print Assumptions C90_zdotc.

Theorem C90_zdotu t tu fold N X incX Y incY tmp (m : mem t) :
  (2 <= fold <= MAXFOLD t)%Z -> tuned t tu -> (Z.min N (block_max tu) <= ENDURANCE t / 2)%Z -> (0 <= N)%Z -> (2 * N <= CAPACITY t)%Z ->
  zclear_of X incX N tmp (zbnum fold) -> zclear_of Y incY N tmp (zbnum fold) ->
  zfinite (plain_products m X incX Y incY N) = true ->
  let xr := cre m X incX in let xi := cim m X incX in let yr := cre m Y incY in let yi := cim m Y incY in
  let r := rzdotu tu fold N X incX Y incY tmp m in
  close_dot t fold (flat_map (fun i => [xr i * yr i; - xi i * yi i]) (zseq 0 N)) (fst r) /\
  close_dot t fold (flat_map (fun i => [xi i * yr i; xr i * yi i]) (zseq 0 N)) (snd r).
Proof.
  intros Hf HT HB HN HC CX CY FX xr xi yr yi r. apply andb_true_iff in FX. destruct FX as [FR FI].
  destruct (C29_rzdotu_partial t tu fold N X incX Y incY tmp 0 _ m m Hf HT HB ltac:(lia) CX CY (Permutation_refl _)) as [A0 A1]. fold r in A0, A1.
  rewrite FR in A0. rewrite FI in A1. rewrite A0, A1. split.
  - apply (close_terms t fold 0 _ _ (pairs (fun i => (m (X + 2 * (i * incX)), m (Y + 2 * (i * incY)))%Z) (fun i => (fneg (m (X + 2 * (i * incX) + 1)), m (Y + 2 * (i * incY) + 1))%Z) (zseq 0 N))); auto.
    + rewrite plain_fst, pairs_length, zseq_length. lia.
    + rewrite plain_fst, pairs_map. unfold pairs. apply flat_map_ext. intros i. now rewrite fmul_neg_l.
    + rewrite pairs_map. unfold pairs. apply flat_map_ext. intros i. unfold fneg. now rewrite B2R_Bopp.
  - apply (close_terms t fold 0 _ _ (pairs (fun i => (m (X + 2 * (i * incX) + 1), m (Y + 2 * (i * incY)))%Z) (fun i => (m (X + 2 * (i * incX)), m (Y + 2 * (i * incY) + 1))%Z) (zseq 0 N))); auto.
    + rewrite plain_snd, pairs_length, zseq_length. lia.
    + rewrite plain_snd, pairs_map. reflexivity.
    + rewrite pairs_map. reflexivity.
Qed.
Print Assumptions C90_zdotu.

(** The absolute sum: relative accuracy, the parts' magnitudes being added. *)
Theorem C90_dzasum t tu fold N X incX Y A (m : mem t) M :
  (2 <= fold <= MAXFOLD t)%Z -> tuned t tu -> (0 <= N)%Z -> (2 * N <= CAPACITY t)%Z ->
  zclear_of X incX N Y (dbnum fold) -> zclear_of X incX N A (zbnum fold) -> blocks_apart A (zbnum fold) Y (dbnum fold) ->
  zfinite (zread m X incX N) = true ->
  let ts := flat_map (fun i => [Rabs (cre m X incX i); Rabs (cim m X incX i)]) (zseq 0 N) in
  max_abs M ts -> not_tiny t fold M ->
  let S := total ts in in_range t (S + sum_eps t fold (2 * N) M) ->
  let r := rdzasum tu fold N X incX Y A m in
  is_finite r = true /\ Rabs (B2R r - S) <= (conv_eps t + 1001 / 1000 * (IZR (2 * N) * bpow radix2 (- width t * (fold - 1)))) * S.
Proof.
  intros Hf HT HN HC CY CA BA FX ts HM HB S HS r.
  assert (EC : components m X incX N = pairs (fun i => m (X + 2 * (i * incX))%Z) (fun i => m (X + 2 * (i * incX) + 1)%Z) (zseq 0 N)).
  { unfold components, zread, pairs. rewrite flat_map_map. reflexivity. }
  assert (ET : ts = reals (map fabs (components m X incX N))).
  { rewrite EC, pairs_map. unfold reals. rewrite pairs_map. unfold ts, pairs. apply flat_map_ext. intros i. unfold fabs. rewrite !B2R_Babs. reflexivity. }
  assert (LN : Z.of_nat (length (map fabs (components m X incX N))) = (2 * N)%Z) by (rewrite map_length, EC, pairs_length, zseq_length; lia).
  assert (LT : Z.of_nat (length ts) = (2 * N)%Z) by (rewrite ET; unfold reals; rewrite map_length; exact LN).
  assert (FF : all_finite (map fabs (components m X incX N)) = true).
  { rewrite all_finite_fabs. unfold components, zread in *. rewrite flat_map_map. apply andb_true_iff in FX. destruct FX as [FR FI]. rewrite map_map in FR, FI.
    unfold all_finite in *. rewrite forallb_forall in *. intros x Hx. apply in_flat_map in Hx. destruct Hx as (i & Hi & [<-|[<-|[]]]).
    - apply FR. apply in_map_iff. exists i. auto.
    - apply FI. apply in_map_iff. exists i. auto. }
  assert (ER : r = ddbconv fold 0 (sum_list fold 0 (map fabs (components m X incX N)) m)) by (apply C48_rdzasum; auto; lia).
  destruct (total_max ts M) as [SM S0].
  { intros y Hy. unfold ts in Hy. apply in_flat_map in Hy. destruct Hy as (i & _ & [<-|[<-|[]]]); apply Rabs_pos. }
  { destruct HM as [_ H]. exact H. }
  fold S in SM, S0.
  destruct (close_sum_list t fold 0 (map fabs (components m X incX N)) m Hf ltac:(lia) FF M) as [R1 R2].
  { rewrite <- ET. exact HM. }
  { exact HB. }
  { rewrite <- ET, LT. fold S. rewrite Rabs_pos_eq by exact S0. exact HS. }
  rewrite <- ER in R1, R2. rewrite <- ET, LT in R2. fold S in R2. rewrite (Rabs_pos_eq S) in R2 by exact S0. split; [exact R1|]. eapply Rle_trans; [exact R2|].
  unfold sum_eps. assert (0 <= IZR (2 * N) * bpow radix2 (- width t * (fold - 1))) by (apply Rmult_le_pos; [apply IZR_le; lia|apply bpow_ge_0]).
  set (w := IZR (2 * N) * bpow radix2 (- width t * (fold - 1))) in *. assert (w * M <= w * S) by (apply Rmult_le_compat_l; auto). lra.
Qed.
Print Assumptions C90_dzasum.

(** Three elements 1 + I: the hypotheses hold, and the bounds are met by the numbers computed. *)
Definition ones_mem : mem Dbl := fun _ => mkf 1 0.
Example C90_case :
  let xr := cre ones_mem 0 1 in let xi := cim ones_mem 0 1 in
  let re := flat_map (fun i => [xr i * xr i; xi i * xi i]) (zseq 0 3) in let im := flat_map (fun i => [- xi i * xr i; xr i * xi i]) (zseq 0 3) in
  zclear_of 0 1 3 100 (zbnum 3) /\ zclear_of 0 1 3 100 (dbnum 3) /\ zclear_of 0 1 3 200 (zbnum 3) /\ blocks_apart 200 (zbnum 3) 100 (dbnum 3) /\
  zfinite (zread ones_mem 0 1 3) = true /\ zfinite (conj_products ones_mem 0 1 0 1 3) = true /\ zfinite (plain_products ones_mem 0 1 0 1 3) = true /\
  map xr (zseq 0 3) = [1; 1; 1] /\ map xi (zseq 0 3) = [1; 1; 1] /\ re = [1; 1; 1; 1; 1; 1] /\ im = [- (1); 1; - (1); 1; - (1); 1] /\
  flat_map (fun i => [Rabs (xr i); Rabs (xi i)]) (zseq 0 3) = [1; 1; 1; 1; 1; 1] /\
  max_abs 1 re /\ max_abs 1 im /\ not_tiny Dbl 3 1 /\ total re = 6 /\ total im = 0 /\
  in_range Dbl (Rabs 6 + prod_eps Dbl 6 6 + 1001 / 1000 * sum_eps Dbl 3 6 1) /\
  toZ (fst (rzdotc sample_tuning 3 3 0 1 0 1 100 ones_mem)) = (6 * 2 ^ 1074)%Z /\ toZ (snd (rzdotc sample_tuning 3 3 0 1 0 1 100 ones_mem)) = 0%Z /\
  feq (rdzasum sample_tuning 3 3 0 1 100 200 ones_mem) (mkf 6 0) = true.
Proof.
  assert (E0 : B2R (mkf 1 0 : F Dbl) = 1) by (apply (WordProofs.mkf_pow2 Dbl 0); vm_compute; split; congruence).
  assert (B : bpow radix2 (1024 - 20) <= / 2 * bpow radix2 1024 /\ 1000 <= bpow radix2 1024).
  { split; [|change 1000 with (IZR 1000); eapply Rle_trans with (bpow radix2 10); [cbn; lra|apply bpow_le; lia]].
    replace (/ 2) with (bpow radix2 (-1)) by (cbn; lra). rewrite <- bpow_plus. apply bpow_le. lia. }
  assert (XR : forall i, cre ones_mem 0 1 i = 1) by (intros i; exact E0).
  assert (XI : forall i, cim ones_mem 0 1 i = 1) by (intros i; exact E0).
  cbv zeta. assert (Z3 : zseq 0 3 = [0; 1; 2]%Z) by reflexivity.
  assert (RE : flat_map (fun i => [cre ones_mem 0 1 i * cre ones_mem 0 1 i; cim ones_mem 0 1 i * cim ones_mem 0 1 i]) (zseq 0 3) = [1; 1; 1; 1; 1; 1]).
  { rewrite Z3. cbn [flat_map app]. rewrite !XR, !XI, Rmult_1_l. reflexivity. }
  assert (IM : flat_map (fun i => [- cim ones_mem 0 1 i * cre ones_mem 0 1 i; cre ones_mem 0 1 i * cim ones_mem 0 1 i]) (zseq 0 3) = [- (1); 1; - (1); 1; - (1); 1]).
  { rewrite Z3. cbn [flat_map app]. rewrite !XR, !XI, !Rmult_1_r. reflexivity. }
  rewrite RE, IM.
  split; [intros i o Hi Ho; lia|]. split; [intros i o Hi Ho; lia|]. split; [intros i o Hi Ho; lia|]. split; [right; vm_compute; discriminate|].
  split; [vm_compute; reflexivity|]. split; [vm_compute; reflexivity|]. split; [vm_compute; reflexivity|].
  split; [rewrite Z3; cbn [map]; rewrite !XR; reflexivity|]. split; [rewrite Z3; cbn [map]; rewrite !XI; reflexivity|].
  split; [reflexivity|]. split; [reflexivity|].
  split; [rewrite Z3; cbn [flat_map app]; rewrite !XR, !XI, Rabs_R1; reflexivity|].
  split; [|split; [|split; [|split; [|split; [|split]]]]].
  - split; [|exists 1; split; [now left|apply Rabs_R1]]. intros x Hx. cbn [In] in Hx. rewrite Rabs_pos_eq; intuition lra.
  - split; [|exists 1; split; [right; now left|apply Rabs_R1]]. intros x Hx. cbn [In] in Hx. apply Rabs_le. intuition lra.
  - unfold not_tiny. change 1 with (bpow radix2 0). apply bpow_le. vm_compute. discriminate.
  - unfold total. cbn [fold_right]. lra.
  - unfold total. cbn [fold_right]. lra.
  - unfold in_range, prod_eps, sum_eps. change (emax Dbl) with 1024%Z. rewrite Rabs_pos_eq by lra.
    assert (bpow radix2 (- prec Dbl) <= 1) by (change 1 with (bpow radix2 0); apply bpow_le; vm_compute; discriminate).
    assert (bpow radix2 (emin Dbl - 1) <= 1) by (change 1 with (bpow radix2 0); apply bpow_le; vm_compute; discriminate).
    assert (bpow radix2 (- width Dbl * (3 - 1)) <= 1) by (change 1 with (bpow radix2 0); apply bpow_le; vm_compute; discriminate).
    lra.
  - split; [vm_compute; reflexivity|]. split; vm_compute; reflexivity.
Qed.
Print Assumptions C90_case.
