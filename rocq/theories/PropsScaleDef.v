(** * C99: the routines without a fold argument scale by whole bins *)
From Coq Require Import ZArith Bool List Lia Reals Lra Permutation Ascii.
From Flocq Require Import Core BinarySingleNaN.
From Verif Require Import Fp Mem Binned Spec Client FpProofs BitProofs CoreArith SpecProofs WordProofs MemProofs AccProofs SumProofs ClientProofs ConvProofs RescaleProofs ScaleProofs SumError ConvTerms ConvFloat ConvSpec RoundTrip PropsSum ComplexProofs PropsComplex Gen GenProofs Blas LaneProofs BlasSpec PropsBlas PropsScale PropsAcc PropsConv PropsApi PropsSign AccReal PropsAccuracy PropsShift BlasZ BlasZSpec PropsBlasZ BlasDZ BlasDZSpec PropsBlasDZ Ssq SsqProofs SsqSpec PropsSsq Defaults PropsDefault PropsScaleMat PropsScaleMatZ PropsScaleNrm PropsScaleSum.
Import ListNotations.
Open Scope Z_scope.

(** reproBLAS_dsum, ssum, dasum, sasum: the data of the second call are those of the first times 2^(width*s).
    Their accumulators have 2 * 3 words. *)
Theorem C99_sum t tu tu' s N X incX X' incX' tmp tmp' (m m' : mem t) :
  tuned t tu -> tuned t tu' -> 0 < N <= CAPACITY t -> clear_of X incX N tmp 6 -> clear_of X' incX' N tmp' 6 -> 0 <= s ->
  let xs := read m X incX N in let xs' := read m' X' incX' N in
  all_finite xs = true -> all_finite xs' = true -> scaled s xs' xs ->
  (converts 3 s xs' xs -> times_bins s (dsum tu N X incX tmp m) (dsum tu' N X' incX' tmp' m')) /\
  (converts 3 s (map fabs xs') (map fabs xs) -> times_bins s (dasum tu N X incX tmp m) (dasum tu' N X' incX' tmp' m')).
Proof.
  intros HT HT' HN C C' Hs xs xs' F1 F2 HS. pose proof (default_ok t) as D.
  assert (E : default_fold t = 3) by now destruct t.
  split; intros V.
  - unfold dsum. rewrite E in *. unfold converts in V. destruct V as [V1 V2]. pose proof (read_length m X incX N ltac:(lia)) as L. fold xs in L.
    apply (C71_sum t tu tu' 3 s N X incX X' incX' tmp tmp' xs' m m'); auto. unfold first_bin in V2. fold xs. rewrite L in V2. exact V2.
  - unfold dasum. rewrite E in *. now apply C98_asum.
Qed.
Print Assumptions C99_sum.
(** reproBLAS_ddot, sdot: the two vectors may be scaled by different numbers of bins. *)
Theorem C99_dot t tu tu' s s' N X incX Y incY X' incX' Y' incY' tmp tmp' (m m' : mem t) :
  tuned t tu -> tuned t tu' -> 0 < N <= CAPACITY t ->
  clear_of X incX N tmp 6 -> clear_of Y incY N tmp 6 -> clear_of X' incX' N tmp' 6 -> clear_of Y' incY' N tmp' 6 -> 0 <= s -> 0 <= s' ->
  (forall i, 0 <= i < N -> let x := m (X + i * incX) in let y := m (Y + i * incY) in no_underflow x y /\
     toZ (m' (X' + i * incX')) = toZ x * 2 ^ (width t * s) /\ toZ (m' (Y' + i * incY')) = toZ y * 2 ^ (width t * s')) ->
  let ps := products m X incX Y incY N in let ps' := products m' X' incX' Y' incY' N in
  all_finite ps = true -> all_finite ps' = true -> converts 3 (s + s') ps' ps ->
  times_bins (s + s') (ddot tu N X incX Y incY tmp m) (ddot tu' N X' incX' Y' incY' tmp' m').
Proof.
  intros HT HT' HN C1 C2 C3 C4 Hs Hs' HS ps ps' F1 F2 V. pose proof (default_ok t) as D. unfold ddot.
  assert (E : default_fold t = 3) by now destruct t. rewrite E in *. now apply C95_dot.
Qed.
Print Assumptions C99_dot.
(** reproBLAS_dnrm2, snrm2. *)
Theorem C99_nrm2 t tu tu' s N X incX X' incX' tmp tmp' (M M' : F t) (m m' : mem t) :
  tuned t tu -> tuned t tu' -> 0 < N <= CAPACITY t -> clear_of X incX N tmp 6 -> clear_of X' incX' N tmp' 6 -> 0 <= s ->
  let xs := read m X incX N in let xs' := read m' X' incX' N in
  all_finite xs = true -> all_finite xs' = true -> scaled s xs' xs -> largest M xs -> largest M' xs' ->
  2 ^ (prec t - 2 + width t) <= toZ M -> 2 ^ (- emin t) <= toZ M \/ toZ M' < 2 ^ (1 - emin t) ->
  let n := dnrm2 tu N X incX tmp m in let n' := dnrm2 tu' N X' incX' tmp' m' in
  is_finite n = true -> is_finite n' = true -> 2 ^ prec t <= toZ n -> toZ n' = toZ n * 2 ^ (width t * s).
Proof.
  intros HT HT' HN C C' Hs xs xs' F1 F2 HS L1 L2 B1 B2 n n' Fn Fn' Ln. pose proof (default_ssq t) as D. unfold n, n', dnrm2 in *.
  assert (E : default_fold t = 3) by now destruct t. rewrite E in *.
  exact (C97_nrm2 t tu tu' 3 s N X incX X' incX' tmp tmp' xs' M M' m m' D HT HT' HN C C' Hs F1 F2 (Permutation_refl _) HS L1 L2 B1 B2 Fn Fn' Ln).
Qed.
Print Assumptions C99_nrm2.
(** reproBLAS_zsum, csum, dzasum, scasum: accumulators of 4 * 3 and 2 * 3 words. *)
Theorem C99_complex t tu tu' s s' N X incX X' incX' tmp tmp' Y Y' (m m' : mem t) :
  tuned t tu -> tuned t tu' -> 0 < N -> 2 * N <= CAPACITY t ->
  zclear_of X incX N tmp 12 -> zclear_of X' incX' N tmp' 12 -> 0 <= s -> 0 <= s' ->
  let zs := zread m X incX N in let zs' := zread m' X' incX' N in
  zfinite zs = true -> zfinite zs' = true -> scaled s (map fst zs') (map fst zs) -> scaled s' (map snd zs') (map snd zs) ->
  (converts 3 s (map fst zs') (map fst zs) -> converts 3 s' (map snd zs') (map snd zs) ->
   let r := zsum tu N X incX tmp m in let r' := zsum tu' N X' incX' tmp' m' in
   times_bins s (fst r) (fst r') /\ times_bins s' (snd r) (snd r')) /\
  (zclear_of X incX N Y 6 -> zclear_of X' incX' N Y' 6 -> blocks_apart tmp 12 Y 6 -> blocks_apart tmp' 12 Y' 6 ->
   let xs := components m X incX N in let xs' := components m' X' incX' N in
   all_finite xs = true -> all_finite xs' = true -> scaled s xs' xs -> converts 3 s (map fabs xs') (map fabs xs) ->
   times_bins s (dzasum tu N X incX Y tmp m) (dzasum tu' N X' incX' Y' tmp' m')).
Proof.
  intros HT HT' HN HC C1 C2 Hs Hs' zs zs' F1 F2 S1 S2. pose proof (default_ok t) as D. assert (E : default_fold t = 3) by now destruct t.
  split.
  - intros V1 V2. unfold zsum. rewrite E in *. apply C98_zsum; auto. lia.
  - intros C3 C4 A1 A2 xs xs' G1 G2 SS V. unfold dzasum. rewrite E in *. now apply C98_zasum.
Qed.
Print Assumptions C99_complex.
(** A case: 3, -4, 5, 7 and the same times 2^80 (two bins); the double sum is 11, then 11 * 2^80. *)
Example C99_case :
  clear_of 0 1 4 100 6 /\ zclear_of 0 1 2 100 12 /\ zclear_of 0 1 2 200 6 /\ blocks_apart 100 12 200 6 /\
  (let xs := read sum_mem 0 1 4 in let xs' := read sum_mem3 0 1 4 in
   all_finite xs = true /\ all_finite xs' = true /\ scaled 2 xs' xs /\ converts 3 2 xs' xs /\ converts 3 2 (map fabs xs') (map fabs xs)) /\
  feq (dsum sample_tuning 4 0 1 100 sum_mem) (mkf 11 0) = true /\ feq (dsum sample_tuning 4 0 1 100 sum_mem3) (mkf 11 80) = true /\
  feq (dzasum sample_tuning 2 0 1 200 100 sum_mem) (mkf 19 0) = true /\ feq (dzasum sample_tuning 2 0 1 200 100 sum_mem3) (mkf 19 80) = true.
Proof.
  split; [intros i Hi; lia|]. split; [intros i o Hi Ho; lia|]. split; [intros i o Hi Ho; lia|]. split; [unfold blocks_apart; lia|]. split.
  - cbv zeta. split; [vm_compute; reflexivity|]. split; [vm_compute; reflexivity|]. split; [repeat constructor; vm_compute; reflexivity|].
    split; apply converts_ok; vm_compute; reflexivity.
  - split; [|split; [|split]]; vm_compute; reflexivity.
Qed.
