(** * C98: scaling by whole bins scales absolute sums and complex sums, bit for bit *)
From Coq Require Import ZArith Bool List Lia Reals Lra Permutation Ascii.
From Flocq Require Import Core BinarySingleNaN.
From Verif Require Import Fp Mem Binned Spec Client FpProofs BitProofs CoreArith SpecProofs WordProofs MemProofs AccProofs SumProofs ClientProofs ConvProofs RescaleProofs ScaleProofs SumError ConvTerms ConvFloat ConvSpec RoundTrip PropsSum ComplexProofs PropsComplex Gen GenProofs Blas LaneProofs BlasSpec PropsBlas PropsScale PropsAcc PropsConv PropsApi PropsSign AccReal PropsAccuracy PropsShift BlasZ BlasZSpec PropsBlasZ BlasDZ BlasDZSpec PropsBlasDZ Ssq SsqProofs PropsScaleMat PropsScaleMatZ.
Import ListNotations.
Open Scope Z_scope.

Lemma toZ_fabs {t} (x : F t) : toZ (fabs x) = Z.abs (toZ x).
Proof.
  destruct x as [b|b| |b m e B]; try reflexivity. cbn [fabs Babs toZ]. rewrite Z.abs_mul, (Z.abs_eq (2 ^ _)) by apply Z.pow_nonneg, Z.le_0_2. now destruct b.
Qed.
Lemma scaled_fabs {t} s (xs ys : list (F t)) : scaled s xs ys -> scaled s (map fabs xs) (map fabs ys).
Proof.
  unfold scaled. induction 1 as [|x y xs ys E H IH]; cbn [map]; constructor; auto. rewrite !toZ_fabs, E, Z.abs_mul, (Z.abs_eq (2 ^ _)); [reflexivity|apply Z.pow_nonneg; lia].
Qed.
(** reproBLAS_rdasum: X' is X times 2^(width*s). *)
Theorem C98_asum t tu tu' fold s N X incX X' incX' tmp tmp' (m m' : mem t) :
  2 <= fold <= MAXFOLD t -> tuned t tu -> tuned t tu' -> 0 < N <= CAPACITY t ->
  clear_of X incX N tmp (dbnum fold) -> clear_of X' incX' N tmp' (dbnum fold) -> 0 <= s ->
  let xs := read m X incX N in let xs' := read m' X' incX' N in
  all_finite xs = true -> all_finite xs' = true -> scaled s xs' xs -> converts fold s (map fabs xs') (map fabs xs) ->
  times_bins s (rdasum tu fold N X incX tmp m) (rdasum tu' fold N X' incX' tmp' m').
Proof.
  intros Hf HT HT' HN C1 C2 Hs xs xs' F1 F2 HS HV. pose proof (read_length m X incX N ltac:(lia)) as L. fold xs in L.
  rewrite (rdasum_value t tu fold N X incX tmp 0 m m) by (try assumption; try lia; unfold magnitudes; now rewrite all_finite_fabs).
  rewrite (rdasum_value t tu' fold N X' incX' tmp' 0 m' m') by (try assumption; try lia; unfold magnitudes; now rewrite all_finite_fabs).
  unfold magnitudes. fold xs xs'. apply conv_scaled; auto; [rewrite map_length; lia|now rewrite all_finite_fabs|now rewrite all_finite_fabs|now apply scaled_fabs].
Qed.
Print Assumptions C98_asum.
(** reproBLAS_rdzasum. *)
Theorem C98_zasum t tu tu' fold s N X incX X' incX' Y A Y' A' (m m' : mem t) :
  2 <= fold <= MAXFOLD t -> tuned t tu -> tuned t tu' -> 0 < N -> 2 * N <= CAPACITY t ->
  zclear_of X incX N Y (dbnum fold) -> zclear_of X incX N A (zbnum fold) -> blocks_apart A (zbnum fold) Y (dbnum fold) ->
  zclear_of X' incX' N Y' (dbnum fold) -> zclear_of X' incX' N A' (zbnum fold) -> blocks_apart A' (zbnum fold) Y' (dbnum fold) -> 0 <= s ->
  let xs := components m X incX N in let xs' := components m' X' incX' N in
  all_finite xs = true -> all_finite xs' = true -> scaled s xs' xs -> converts fold s (map fabs xs') (map fabs xs) ->
  times_bins s (rdzasum tu fold N X incX Y A m) (rdzasum tu' fold N X' incX' Y' A' m').
Proof.
  intros Hf HT HT' HN HC C1 C2 C3 C4 C5 C6 Hs xs xs' F1 F2 HS HV. pose proof (components_length m X incX N ltac:(lia)) as L. fold xs in L.
  rewrite (C48_rdzasum t tu fold N X incX Y A 0 xs m m) by (auto; lia). rewrite (C48_rdzasum t tu' fold N X' incX' Y' A' 0 xs' m' m') by (auto; lia).
  apply conv_scaled; auto; [rewrite map_length; lia|now rewrite all_finite_fabs|now rewrite all_finite_fabs|now apply scaled_fabs].
Qed.
Print Assumptions C98_zasum.
(** reproBLAS_rzsum, rcsum: each part by its own number of bins. *)
Theorem C98_zsum t tu tu' fold s s' N X incX X' incX' tmp tmp' (m m' : mem t) :
  2 <= fold <= MAXFOLD t -> tuned t tu -> tuned t tu' -> 0 < N <= CAPACITY t ->
  zclear_of X incX N tmp (zbnum fold) -> zclear_of X' incX' N tmp' (zbnum fold) -> 0 <= s -> 0 <= s' ->
  let zs := zread m X incX N in let zs' := zread m' X' incX' N in
  zfinite zs = true -> zfinite zs' = true -> scaled s (map fst zs') (map fst zs) -> scaled s' (map snd zs') (map snd zs) ->
  converts fold s (map fst zs') (map fst zs) -> converts fold s' (map snd zs') (map snd zs) ->
  let r := rzsum tu fold N X incX tmp m in let r' := rzsum tu' fold N X' incX' tmp' m' in
  times_bins s (fst r) (fst r') /\ times_bins s' (snd r) (snd r').
Proof.
  intros Hf HT HT' HN C1 C2 Hs Hs' zs zs' F1 F2 S1 S2 V1 V2 r r'.
  assert (L : Z.of_nat (length zs) = N) by (unfold zs, zread; rewrite map_length, zseq_length; lia).
  apply andb_true_iff in F1 as [F1 G1]. apply andb_true_iff in F2 as [F2 G2].
  destruct (C46_rzsum t tu fold N X incX tmp 0 zs m m Hf HT ltac:(lia) C1 (Permutation_refl _)) as [A0 A1]. fold r in A0, A1.
  destruct (C46_rzsum t tu' fold N X' incX' tmp' 0 zs' m' m' Hf HT' ltac:(lia) C2 (Permutation_refl _)) as [B0 B1]. fold r' in B0, B1.
  rewrite F1 in A0. rewrite G1 in A1. rewrite F2 in B0. rewrite G2 in B1. rewrite A0, A1, B0, B1.
  split; apply conv_scaled; auto; rewrite map_length; lia.
Qed.
Print Assumptions C98_zsum.
(** A case: (3, -4), (5, 7), real parts scaled by one bin and imaginary parts by two; absolute sums of 3, -4, 5, 7 by two bins. *)
Definition sum_mem : mem Dbl := fun a => if a =? 0 then mkf 3 0 else if a =? 1 then mkf (-4) 0 else if a =? 2 then mkf 5 0 else if a =? 3 then mkf 7 0 else fzero.
Definition sum_mem2 : mem Dbl := fun a => if a =? 0 then mkf 3 40 else if a =? 1 then mkf (-4) 80 else if a =? 2 then mkf 5 40 else if a =? 3 then mkf 7 80 else fzero.
Definition sum_mem3 : mem Dbl := fun a => if a =? 0 then mkf 3 80 else if a =? 1 then mkf (-4) 80 else if a =? 2 then mkf 5 80 else if a =? 3 then mkf 7 80 else fzero.
Lemma converts_ok fold s (xs ys : list (F Dbl)) : converts_b fold s xs ys = true -> converts fold s xs ys.
Proof. unfold converts_b, converts. intros H. apply andb_true_iff in H as [A B]. apply Z.leb_le in A. apply Z.leb_le in B. auto. Qed.
Example C98_case :
  clear_of 0 1 4 100 (dbnum 3) /\ zclear_of 0 1 2 100 (zbnum 3) /\
  (let zs := zread sum_mem 0 1 2 in let zs' := zread sum_mem2 0 1 2 in zfinite zs = true /\ zfinite zs' = true /\
   scaled 1 (map fst zs') (map fst zs) /\ scaled 2 (map snd zs') (map snd zs) /\ converts 3 1 (map fst zs') (map fst zs) /\ converts 3 2 (map snd zs') (map snd zs)) /\
  (let xs := read sum_mem 0 1 4 in let xs' := read sum_mem3 0 1 4 in all_finite xs = true /\ all_finite xs' = true /\ scaled 2 xs' xs /\ converts 3 2 (map fabs xs') (map fabs xs)) /\
  feq (rdasum sample_tuning 3 4 0 1 100 sum_mem) (mkf 19 0) = true /\ feq (rdasum sample_tuning 3 4 0 1 100 sum_mem3) (mkf 19 80) = true.
Proof.
  split; [intros i Hi; cbv [dbnum]; lia|]. split; [intros i o Hi Ho; cbv [zbnum]; lia|]. split.
  - cbv zeta. split; [vm_compute; reflexivity|]. split; [vm_compute; reflexivity|]. split; [repeat constructor; vm_compute; reflexivity|]. split; [repeat constructor; vm_compute; reflexivity|].
    split; apply converts_ok; vm_compute; reflexivity.
  - split; [|split; vm_compute; reflexivity]. cbv zeta. split; [vm_compute; reflexivity|]. split; [vm_compute; reflexivity|]. split; [repeat constructor; vm_compute; reflexivity|apply converts_ok; vm_compute; reflexivity].
Qed.
