(** * C95: scaling vectors, rows and columns by whole bins scales inner products and matrix products, bit for bit *)
From Coq Require Import ZArith Bool List Lia Reals Lra Permutation Ascii.
From Flocq Require Import Core BinarySingleNaN.
From Verif Require Import Fp Mem Binned Spec Client FpProofs BitProofs CoreArith SpecProofs WordProofs MemProofs AccProofs SumProofs ClientProofs ConvProofs RescaleProofs ScaleProofs SumError ConvTerms ConvFloat ConvSpec RoundTrip PropsSum Gen GenProofs Blas LaneProofs BlasSpec PropsBlas Gemv GemvSpec GemvProofs PropsGemv PropsScale PropsAcc PropsConv PropsApi PropsSign AccReal PropsAccuracy PropsShift.
Import ListNotations.
Open Scope Z_scope.

(** The first bin that [xs] reaches, and the condition that the sum of [xs] scaled up from [ys] converts without overflow. *)
Definition first_bin {t} (xs : list (F t)) : Z := fold_right Z.min (jmax t) (map (fun x => bin_of t (toZ x)) xs).
Definition converts {t} (fold s : Z) (xs ys : list (F t)) : Prop :=
  first_bin ys + fold - 1 <= jmax t /\
  2 * Z.abs (exact_sum xs) + Z.of_nat (length ys) * 2 ^ unit_exp t (first_bin ys - s + fold - 1) <= 2 * (2 ^ (emax t - emin t) - 2 ^ (emax t - emin t - 20)).
(** [r'] is r times 2^(width*s). *)
Definition times_bins {t} (s : Z) (r r' : F t) : Prop := is_finite r = true /\ is_finite r' = true /\ toZ r' = toZ r * 2 ^ (width t * s).

Lemma conv_scaled t fold s T T' (xs ys : list (F t)) (m m' : mem t) : 2 <= fold <= MAXFOLD t -> 0 < Z.of_nat (length ys) <= CAPACITY t ->
  all_finite ys = true -> all_finite xs = true -> 0 <= s -> scaled s xs ys -> converts fold s xs ys ->
  times_bins s (ddbconv fold T (sum_list fold T ys m)) (ddbconv fold T' (sum_list fold T' xs m')).
Proof.
  intros Hf HN FY FX Hs HS [HK HB]. unfold first_bin in *. set (k := fold_right Z.min (jmax t) (map (fun x => bin_of t (toZ x)) ys)) in *.
  assert (NE : ys <> []) by (intros E0; rewrite E0 in HN; cbn in HN; lia).
  assert (LE : length xs = length ys) by (exact (scaled_length s xs ys HS)).
  assert (NX : xs <> []) by (intros ->; destruct ys; [congruence|discriminate]).
  assert (KY : k = lead ys) by (apply k_lead, FY). assert (KX : fold_right Z.min (jmax t) (map (fun x => bin_of t (toZ x)) xs) = lead xs) by (apply k_lead, FX).
  assert (L : lead xs = lead ys - s) by (apply lead_shift; auto; lia).
  pose proof (hyps fold xs T' m' Hf FX NX ltac:(lia) ltac:(lia)) as H1.
  pose proof (hyps fold ys T m Hf FY NE ltac:(lia) ltac:(fold k; lia)) as H2.
  pose proof (fits_v fold xs T' m' Hf FX NX ltac:(lia)) as FT.
  rewrite KX, L, <- KY, LE in FT. specialize (FT ltac:(lia)).
  destruct (conv_shift fold s xs ys _ _ _ _ H1 H2 Hs HS ltac:(lia) FT) as (A & B & C).
  unfold times_bins. rewrite !(conv_words_ddb t). auto.
Qed.
(** The product of two numbers does not fall below the normal range, unless it is a multiple of the smallest number. *)
Definition no_underflow {t} (x y : F t) : Prop :=
  let v := (B2R x * B2R y)%R in (exists z, v = (IZR z * bpow radix2 (emin t))%R) \/ (bpow radix2 (emin t + prec t - 1) <= Rabs v)%R.
Lemma fmul_scaled t s s' (x y x' y' : F t) : 0 <= s -> 0 <= s' -> is_finite (fmul x y) = true -> is_finite (fmul x' y') = true -> no_underflow x y ->
  toZ x' = toZ x * 2 ^ (width t * s) -> toZ y' = toZ y * 2 ^ (width t * s') -> toZ (fmul x' y') = toZ (fmul x y) * 2 ^ (width t * (s + s')).
Proof.
  intros Hs Hs' F1 F2 U EX EY. pose proof (width_pos t) as WP. pose proof (fmul_real_round t x y F1) as R1. pose proof (fmul_real_round t x' y' F2) as R2.
  set (sc := width t * (s + s')) in *. assert (SC : 0 <= sc) by (unfold sc; nia).
  assert (E : (B2R x' * B2R y' = B2R x * B2R y * bpow radix2 sc)%R).
  { rewrite !(toZ_B2R t), EX, EY, !mult_IZR, <- !bpow_IZR by nia. unfold sc. rewrite Z.mul_add_distr_l, bpow_plus. ring. }
  assert (R : RN t (B2R x * B2R y * bpow radix2 sc) = (RN t (B2R x * B2R y) * bpow radix2 sc)%R).
  { destruct U as [[z Ez]|U]; [apply RN_up; [exact SC|exists z; exact Ez]|apply RN_scale; auto]. }
  rewrite E, R, <- R1, !(toZ_B2R t), (bpow_IZR sc) in R2 by exact SC. apply eq_IZR. rewrite mult_IZR.
  apply (Rmult_eq_reg_r (bpow radix2 (emin t))); [|apply Rgt_not_eq, bpow_gt_0]. rewrite R2. ring.
Qed.
(** Pairs of factors, the second list's scaled up by s and s' bins. *)
Lemma scaled_map {t} s s' (x y x' y' : Z -> F t) (l : list Z) : 0 <= s -> 0 <= s' ->
  all_finite (map (fun k => fmul (x k) (y k)) l) = true -> all_finite (map (fun k => fmul (x' k) (y' k)) l) = true ->
  (forall k, In k l -> no_underflow (x k) (y k) /\ toZ (x' k) = toZ (x k) * 2 ^ (width t * s) /\ toZ (y' k) = toZ (y k) * 2 ^ (width t * s')) ->
  scaled (s + s') (map (fun k => fmul (x' k) (y' k)) l) (map (fun k => fmul (x k) (y k)) l).
Proof.
  intros Hs Hs'. induction l as [|k l IH]; cbn [map]; intros F1 F2 H; [constructor|].
  rewrite all_finite_cons in F1, F2. apply andb_true_iff in F1 as [G1 F1]. apply andb_true_iff in F2 as [G2 F2].
  destruct (H k (or_introl eq_refl)) as (U & EX & EY). constructor; [now apply fmul_scaled|].
  apply IH; auto. intros j Hj. apply H. now right.
Qed.

(** ** reproBLAS_rddot *)
Theorem C95_dot t tu tu' fold s s' N X incX Y incY X' incX' Y' incY' tmp tmp' (m m' : mem t) :
  2 <= fold <= MAXFOLD t -> tuned t tu -> tuned t tu' -> 0 < N <= CAPACITY t ->
  clear_of X incX N tmp (dbnum fold) -> clear_of Y incY N tmp (dbnum fold) ->
  clear_of X' incX' N tmp' (dbnum fold) -> clear_of Y' incY' N tmp' (dbnum fold) -> 0 <= s -> 0 <= s' ->
  (forall i, 0 <= i < N -> let x := m (X + i * incX) in let y := m (Y + i * incY) in no_underflow x y /\
     toZ (m' (X' + i * incX')) = toZ x * 2 ^ (width t * s) /\ toZ (m' (Y' + i * incY')) = toZ y * 2 ^ (width t * s')) ->
  let ps := products m X incX Y incY N in let ps' := products m' X' incX' Y' incY' N in
  all_finite ps = true -> all_finite ps' = true -> converts fold (s + s') ps' ps ->
  times_bins (s + s') (rddot tu fold N X incX Y incY tmp m) (rddot tu' fold N X' incX' Y' incY' tmp' m').
Proof.
  intros Hf HT HT' HN C1 C2 C3 C4 Hs Hs' HS ps ps' F1 F2 HC.
  rewrite (rddot_value t tu fold N X incX Y incY tmp 0 m m Hf HT ltac:(lia) C1 C2 F1).
  rewrite (rddot_value t tu' fold N X' incX' Y' incY' tmp' 0 m' m' Hf HT' ltac:(lia) C3 C4 F2).
  fold ps ps'. apply conv_scaled; auto; [| lia |].
  - unfold ps. rewrite products_map, map_length, zseq_length. lia.
  - unfold ps, ps' in *. rewrite !products_map in *. apply scaled_map; auto. intros k Hk. apply zseq_In in Hk. apply HS. lia.
Qed.
Print Assumptions C95_dot.

(** ** reproBLAS_rdgemm with alpha = 1 and beta = 0 *)
(** A legal call: tuning, blocks and layout as in C25, finite products. *)
Definition product_call {t} (fold : Z) (tu : tuning) (b : gemm_blocks) (Order TransA TransB : ascii) (M N K : Z) (alpha beta : F t)
    (A lda B ldb C ldc CI bufA bufB : Z) (m : mem t) : Prop :=
  tuned t tu /\ legal_gemm b /\ feq alpha (mkf 1 0) = true /\ feq beta fzero = true /\
  let ldi := if is_row Order then N else M in let lenA := bufA_len b M K in let lenB := mxt_block b * myt_block b in
  gemm_layout fold Order TransA TransB M N K A lda B ldb CI ldi bufA lenA bufB lenB /\ ldi <= ldc /\
  (forall i j, 0 <= i < M -> 0 <= j < N -> ~ gemm_touched fold Order M N CI ldi bufA lenA bufB lenB (elem_addr Order C ldc i j)) /\
  (forall i j, 0 <= i < M -> 0 <= j < N -> all_finite (gemm_products m Order TransA TransB A lda alpha B ldb K i j) = true).
Lemma product_entry t fold tu b Order TransA TransB M N K (alpha beta : F t) A lda B ldb C ldc CI bufA bufB (m : mem t) i j :
  2 <= fold <= MAXFOLD t -> 0 < M -> 0 < N -> 0 <= K -> K + 1 <= CAPACITY t ->
  product_call fold tu b Order TransA TransB M N K alpha beta A lda B ldb C ldc CI bufA bufB m -> 0 <= i < M -> 0 <= j < N ->
  let ps := map (fun k => fmul (m (op_addr Order TransA A lda i k)) (m (op_addr Order TransB B ldb k j))) (zseq 0 K) in
  all_finite ps = true /\ rdgemm tu b fold Order TransA TransB M N K alpha A lda B ldb beta C ldc CI bufA bufB m (elem_addr Order C ldc i j) =
    ddbconv fold 0 (sum_list fold 0 ps m).
Proof.
  intros Hf HM HN HK HC (HT & LB & H1 & H0 & LY & LD & HY & HF) Hi Hj ps.
  destruct (C25_gemm t tu b fold Order TransA TransB M N K alpha beta A lda B ldb C ldc CI bufA bufB 0 m Hf HT LB HM HN HK LY LD HY HC HF) as [R _].
  assert (EP : gemm_products m Order TransA TransB A lda alpha B ldb K i j = ps).
  { unfold gemm_products, ps. apply map_ext. intros k. now rewrite (fmul_one _ alpha) by exact H1. }
  rewrite (R i j Hi Hj). cbv zeta. rewrite EP, start_zero by exact H0. rewrite (feq_one_not_zero _ H1). split; [rewrite <- EP; now apply HF|reflexivity].
Qed.
(** Row i of op(A) scaled by s i bins and column j of op(B) by s' j bins, the call with its own order, layout, blocks and tuning. *)
Theorem C95_gemm t fold tu tu' b b' Order Order' TransA TransA' TransB TransB' M N K (alpha beta alpha' beta' : F t)
    A lda B ldb C ldc CI bufA bufB A' lda' B' ldb' C' ldc' CI' bufA' bufB' (s s' : Z -> Z) (m m' : mem t) :
  2 <= fold <= MAXFOLD t -> 0 < M -> 0 < N -> 0 < K -> K + 1 <= CAPACITY t ->
  product_call fold tu b Order TransA TransB M N K alpha beta A lda B ldb C ldc CI bufA bufB m ->
  product_call fold tu' b' Order' TransA' TransB' M N K alpha' beta' A' lda' B' ldb' C' ldc' CI' bufA' bufB' m' ->
  (forall i k, 0 <= i < M -> 0 <= k < K -> 0 <= s i /\
     toZ (m' (op_addr Order' TransA' A' lda' i k)) = toZ (m (op_addr Order TransA A lda i k)) * 2 ^ (width t * s i)) ->
  (forall k j, 0 <= k < K -> 0 <= j < N -> 0 <= s' j /\
     toZ (m' (op_addr Order' TransB' B' ldb' k j)) = toZ (m (op_addr Order TransB B ldb k j)) * 2 ^ (width t * s' j)) ->
  forall i j, 0 <= i < M -> 0 <= j < N ->
  (forall k, 0 <= k < K -> no_underflow (m (op_addr Order TransA A lda i k)) (m (op_addr Order TransB B ldb k j))) ->
  converts fold (s i + s' j)
    (map (fun k => fmul (m' (op_addr Order' TransA' A' lda' i k)) (m' (op_addr Order' TransB' B' ldb' k j))) (zseq 0 K))
    (map (fun k => fmul (m (op_addr Order TransA A lda i k)) (m (op_addr Order TransB B ldb k j))) (zseq 0 K)) ->
  times_bins (s i + s' j)
    (rdgemm tu b fold Order TransA TransB M N K alpha A lda B ldb beta C ldc CI bufA bufB m (elem_addr Order C ldc i j))
    (rdgemm tu' b' fold Order' TransA' TransB' M N K alpha' A' lda' B' ldb' beta' C' ldc' CI' bufA' bufB' m' (elem_addr Order' C' ldc' i j)).
Proof.
  intros Hf HM HN HK HC P1 P2 SA SB i j Hi Hj HU HV.
  destruct (product_entry t fold tu b Order TransA TransB M N K alpha beta A lda B ldb C ldc CI bufA bufB m i j Hf HM HN ltac:(lia) HC P1 Hi Hj) as [F1 ->].
  destruct (product_entry t fold tu' b' Order' TransA' TransB' M N K alpha' beta' A' lda' B' ldb' C' ldc' CI' bufA' bufB' m' i j Hf HM HN ltac:(lia) HC P2 Hi Hj) as [F2 ->].
  assert (0 <= s i) by (apply (SA i 0); lia). assert (0 <= s' j) by (apply (SB 0 j); lia).
  apply conv_scaled; auto; [| lia |].
  - rewrite map_length, zseq_length. lia.
  - apply scaled_map; auto. intros k Hk. apply zseq_In in Hk. split; [apply HU; lia|]. split; [apply SA; lia|apply SB; lia].
Qed.
Print Assumptions C95_gemm.
(** ** reproBLAS_rdgemv with alpha = 1 and beta = 0 *)
Definition vector_call {t} (fold : Z) (tu : tuning) (b : gemv_blocks) (Order Trans : ascii) (M N : Z) (alpha beta : F t)
    (A lda X incX Y incY YI bufX bufA : Z) (m : mem t) : Prop :=
  tuned t tu /\ legal_gemv b /\ feq alpha (mkf 1 0) = true /\ feq beta fzero = true /\
  let rows := op_rows Trans M N in let cols := op_cols Trans M N in let lenA := xt_block b * yt_block b in
  gemv_layout fold Order Trans rows cols A lda X incX YI 1 bufX bufA lenA /\ incY <> 0 /\
  (forall i, 0 <= i < rows -> ~ gemv_touched fold rows YI 1 bufX cols bufA lenA (Y + i * incY)) /\
  (forall i, 0 <= i < rows -> all_finite (gemv_products m Order Trans A lda alpha X incX cols i) = true).
Lemma vector_entry t fold tu b Order Trans M N (alpha beta : F t) A lda X incX Y incY YI bufX bufA (m : mem t) i :
  2 <= fold <= MAXFOLD t -> 0 < M -> 0 < N -> op_cols Trans M N + 1 <= CAPACITY t ->
  vector_call fold tu b Order Trans M N alpha beta A lda X incX Y incY YI bufX bufA m -> 0 <= i < op_rows Trans M N ->
  let ps := map (fun k => fmul (m (op_addr Order Trans A lda i k)) (m (X + k * incX))) (zseq 0 (op_cols Trans M N)) in
  all_finite ps = true /\ rdgemv tu b fold Order Trans M N alpha A lda X incX beta Y incY YI bufX bufA m (Y + i * incY) =
    ddbconv fold 0 (sum_list fold 0 ps m).
Proof.
  intros Hf HM HN HC (HT & LB & H1 & H0 & LY & IY & HY & HF) Hi ps.
  destruct (C25_gemv t tu b fold Order Trans M N alpha beta A lda X incX Y incY YI bufX bufA 0 m Hf HT LB HM HN LY IY HY HC HF) as [R _].
  assert (EP : gemv_products m Order Trans A lda alpha X incX (op_cols Trans M N) i = ps).
  { unfold gemv_products, ps. apply map_ext. intros k. now rewrite (fmul_one _ alpha) by exact H1. }
  rewrite (R i Hi). cbv zeta. rewrite EP, start_zero by exact H0. rewrite (feq_one_not_zero _ H1). split; [rewrite <- EP; now apply HF|reflexivity].
Qed.
(** Row i of op(A) scaled by s i bins and the vector by s' bins. *)
Theorem C95_gemv t fold tu tu' b b' Order Order' Trans Trans' M N M' N' (alpha beta alpha' beta' : F t)
    A lda X incX Y incY YI bufX bufA A' lda' X' incX' Y' incY' YI' bufX' bufA' (s : Z -> Z) s' (m m' : mem t) :
  2 <= fold <= MAXFOLD t -> 0 < M -> 0 < N -> 0 < M' -> 0 < N' ->
  let rows := op_rows Trans M N in let cols := op_cols Trans M N in
  rows = op_rows Trans' M' N' -> cols = op_cols Trans' M' N' -> cols + 1 <= CAPACITY t -> 0 <= s' ->
  vector_call fold tu b Order Trans M N alpha beta A lda X incX Y incY YI bufX bufA m ->
  vector_call fold tu' b' Order' Trans' M' N' alpha' beta' A' lda' X' incX' Y' incY' YI' bufX' bufA' m' ->
  (forall i k, 0 <= i < rows -> 0 <= k < cols -> 0 <= s i /\
     toZ (m' (op_addr Order' Trans' A' lda' i k)) = toZ (m (op_addr Order Trans A lda i k)) * 2 ^ (width t * s i)) ->
  (forall k, 0 <= k < cols -> toZ (m' (X' + k * incX')) = toZ (m (X + k * incX)) * 2 ^ (width t * s')) ->
  forall i, 0 <= i < rows ->
  (forall k, 0 <= k < cols -> no_underflow (m (op_addr Order Trans A lda i k)) (m (X + k * incX))) ->
  converts fold (s i + s')
    (map (fun k => fmul (m' (op_addr Order' Trans' A' lda' i k)) (m' (X' + k * incX'))) (zseq 0 cols))
    (map (fun k => fmul (m (op_addr Order Trans A lda i k)) (m (X + k * incX))) (zseq 0 cols)) ->
  times_bins (s i + s')
    (rdgemv tu b fold Order Trans M N alpha A lda X incX beta Y incY YI bufX bufA m (Y + i * incY))
    (rdgemv tu' b' fold Order' Trans' M' N' alpha' A' lda' X' incX' beta' Y' incY' YI' bufX' bufA' m' (Y' + i * incY')).
Proof.
  intros Hf HM HN HM' HN' rows cols ER EC HC Hs' P1 P2 SA SX i Hi HU HV.
  assert (CP : 0 < cols) by (unfold cols, op_cols; destruct (is_notrans Trans); lia).
  destruct (vector_entry t fold tu b Order Trans M N alpha beta A lda X incX Y incY YI bufX bufA m i Hf HM HN HC P1 Hi) as [F1 ->].
  destruct (vector_entry t fold tu' b' Order' Trans' M' N' alpha' beta' A' lda' X' incX' Y' incY' YI' bufX' bufA' m' i Hf HM' HN' ltac:(rewrite <- EC; exact HC) P2 ltac:(rewrite <- ER; exact Hi)) as [F2 ->].
  rewrite <- EC in F2 |- *. fold cols in F1 |- *. assert (0 <= s i) by (apply (SA i 0); lia).
  apply conv_scaled; auto; [| lia |].
  - rewrite map_length, zseq_length. lia.
  - apply scaled_map; auto. intros k Hk. apply zseq_In in Hk. split; [apply HU; lia|]. split; [apply SA; lia|apply SX; lia].
Qed.
Print Assumptions C95_gemv.
Lemma no_underflow_int t (x y : F t) : (toZ x * toZ y) mod 2 ^ (- emin t) = 0 -> no_underflow x y.
Proof.
  intros H. left. pose proof (emin_neg t) as EN. pose proof (pow2_pos (- emin t) ltac:(lia)) as PW. exists ((toZ x * toZ y) / 2 ^ (- emin t)).
  pose proof (Z.div_mod (toZ x * toZ y) (2 ^ (- emin t)) ltac:(lia)) as D. rewrite H, Z.add_0_r in D. rewrite !(toZ_B2R t).
  set (q := toZ x * toZ y / 2 ^ (- emin t)) in *. assert (E : (IZR (toZ x) * IZR (toZ y) = bpow radix2 (- emin t) * IZR q)%R).
  { rewrite bpow_IZR by lia. rewrite <- !mult_IZR. now f_equal. }
  replace (IZR (toZ x) * bpow radix2 (emin t) * (IZR (toZ y) * bpow radix2 (emin t)))%R with ((IZR (toZ x) * IZR (toZ y)) * (bpow radix2 (emin t) * bpow radix2 (emin t)))%R by ring.
  rewrite E. replace (bpow radix2 (- emin t) * IZR q * (bpow radix2 (emin t) * bpow radix2 (emin t)))%R with ((bpow radix2 (- emin t) * bpow radix2 (emin t)) * (IZR q * bpow radix2 (emin t)))%R by ring.
  rewrite <- bpow_plus, Z.add_opp_diag_l. cbn [bpow]. ring.
Qed.
(** A case meeting the hypotheses: row 0 scaled by one bin, row 1 by two, columns by 0, 1, 2. *)
Definition rows_mem : mem Dbl := fun a => mkf (a mod 7 - 3) (10 * (a mod 3)).
Definition scaled_mem : mem Dbl := fun a =>
  if a <? 100 then mkf (a mod 7 - 3) (10 * (a mod 3) + 40 * (1 + a / 6)) else mkf (a mod 7 - 3) (10 * (a mod 3) + 40 * ((a - 100) mod 6)).
Example C95_case :
  let A := fun i k => op_addr "r" "N" 0 6 i k in let B := fun k j => op_addr "r" "N" 100 6 k j in
  let ps := fun (m : mem Dbl) i j => map (fun k => fmul (m (A i k)) (m (B k j))) (zseq 0 4) in
  product_call 3 sample_tuning sample_mblocks "r" "N" "N" 2 3 4 (mkf 1 0) (mkf 0 0) 0 6 100 6 200 4 1000 2000 3000 rows_mem /\
  product_call 3 sample_tuning sample_mblocks "r" "N" "N" 2 3 4 (mkf 1 0) (mkf 0 0) 0 6 100 6 200 4 1000 2000 3000 scaled_mem /\
  forallb (fun i => forallb (fun k => toZ (scaled_mem (A i k)) =? toZ (rows_mem (A i k)) * 2 ^ (width Dbl * (1 + i))) [0; 1; 2; 3]) [0; 1] = true /\
  forallb (fun j => forallb (fun k => toZ (scaled_mem (B k j)) =? toZ (rows_mem (B k j)) * 2 ^ (width Dbl * j)) [0; 1; 2; 3]) [0; 1; 2] = true /\
  forallb (fun i => forallb (fun j =>
    (first_bin (ps rows_mem i j) + 3 - 1 <=? jmax Dbl) &&
    (2 * Z.abs (exact_sum (ps scaled_mem i j)) + 4 * 2 ^ unit_exp Dbl (first_bin (ps rows_mem i j) - (1 + i + j) + 3 - 1) <=? 2 * (2 ^ (1024 + 1074) - 2 ^ (1024 + 1074 - 20))))
    [0; 1; 2]) [0; 1] = true /\
  (forall i j, 0 <= i < 2 -> 0 <= j < 3 -> forall k, 0 <= k < 4 -> no_underflow (rows_mem (A i k)) (rows_mem (B k j))).
Proof.
  intros A B ps. pose proof C24_case as (L & Y & _ & U & _).
  assert (PC : forall m : mem Dbl, (forall i j, 0 <= i < 2 -> 0 <= j < 3 -> all_finite (gemm_products m "r" "N" "N" 0 6 (mkf 1 0) 100 6 4 i j) = true) ->
    product_call 3 sample_tuning sample_mblocks "r" "N" "N" 2 3 4 (mkf 1 0) (mkf 0 0) 0 6 100 6 200 4 1000 2000 3000 m).
  { intros m FM. split; [exact (proj1 C18_case)|]. split; [exact L|]. split; [vm_compute; reflexivity|]. split; [vm_compute; reflexivity|].
    split; [exact (Y "r" "N" "N")%char|]. split; [cbn; lia|]. split; [exact (U "r"%char)|exact FM]. }
  split; [apply PC; intros i j Hi Hj; revert i Hi; apply below2; revert j Hj; apply below3; vm_compute; reflexivity|].
  split; [apply PC; intros i j Hi Hj; revert i Hi; apply below2; revert j Hj; apply below3; vm_compute; reflexivity|].
  split; [vm_compute; reflexivity|]. split; [vm_compute; reflexivity|]. split; [vm_compute; reflexivity|].
  intros i j Hi Hj k Hk. apply no_underflow_int. assert (Ek : k = 0 \/ k = 1 \/ k = 2 \/ k = 3) by lia.
  revert i Hi; apply below2; revert j Hj; apply below3; destruct Ek as [->|[->|[->| ->]]]; vm_compute; reflexivity.
Qed.
(** The same for a matrix and a vector: row i by 1 + i bins, the vector by two. *)
Definition scaled_vec_mem : mem Dbl := fun a => if a <? 100 then scaled_mem a else mkf (a mod 7 - 3) (10 * (a mod 3) + 80).
Example C95_gemv_case :
  let A := fun i k => op_addr "r" "N" 0 6 i k in
  let ps := fun (m : mem Dbl) i => map (fun k => fmul (m (A i k)) (m (100 + k * 2))) (zseq 0 5) in
  vector_call 3 sample_tuning sample_blocks "r" "N" 3 5 (mkf 1 0) (mkf 0 0) 0 6 100 2 900 10 1000 2000 3000 rows_mem /\
  vector_call 3 sample_tuning sample_blocks "r" "N" 3 5 (mkf 1 0) (mkf 0 0) 0 6 100 2 900 10 1000 2000 3000 scaled_vec_mem /\
  forallb (fun i => forallb (fun k => toZ (scaled_vec_mem (A i k)) =? toZ (rows_mem (A i k)) * 2 ^ (width Dbl * (1 + i))) [0; 1; 2; 3; 4]) [0; 1; 2] = true /\
  forallb (fun k => toZ (scaled_vec_mem (100 + k * 2)) =? toZ (rows_mem (100 + k * 2)) * 2 ^ (width Dbl * 2)) [0; 1; 2; 3; 4] = true /\
  forallb (fun i =>
    (first_bin (ps rows_mem i) + 3 - 1 <=? jmax Dbl) &&
    (2 * Z.abs (exact_sum (ps scaled_vec_mem i)) + 5 * 2 ^ unit_exp Dbl (first_bin (ps rows_mem i) - (1 + i + 2) + 3 - 1) <=? 2 * (2 ^ (1024 + 1074) - 2 ^ (1024 + 1074 - 20))))
    [0; 1; 2] = true /\
  (forall i, 0 <= i < 3 -> forall k, 0 <= k < 5 -> no_underflow (rows_mem (A i k)) (rows_mem (100 + k * 2))).
Proof.
  intros A ps. pose proof C23_case as (L & Y & _). pose proof C25_case as (_ & U & _).
  assert (PC : forall m : mem Dbl, (forall i, 0 <= i < 3 -> all_finite (gemv_products m "r" "N" 0 6 (mkf 1 0) 100 2 5 i) = true) ->
    vector_call 3 sample_tuning sample_blocks "r" "N" 3 5 (mkf 1 0) (mkf 0 0) 0 6 100 2 900 10 1000 2000 3000 m).
  { intros m FM. split; [exact (proj1 C18_case)|]. split; [exact L|]. split; [vm_compute; reflexivity|]. split; [vm_compute; reflexivity|].
    split; [exact (Y "r" "N")%char|]. split; [lia|]. split; [exact U|exact FM]. }
  split; [apply PC; intros i Hi; revert i Hi; apply below3; vm_compute; reflexivity|].
  split; [apply PC; intros i Hi; revert i Hi; apply below3; vm_compute; reflexivity|].
  split; [vm_compute; reflexivity|]. split; [vm_compute; reflexivity|]. split; [vm_compute; reflexivity|].
  intros i Hi k Hk. apply no_underflow_int. assert (Ek : k = 0 \/ k = 1 \/ k = 2 \/ k = 3 \/ k = 4) by lia.
  revert i Hi; apply below3; destruct Ek as [->|[->|[->|[->| ->]]]]; vm_compute; reflexivity.
Qed.
