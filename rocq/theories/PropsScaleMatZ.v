(** * C96: scaling by whole bins scales complex inner products and complex matrix products, bit for bit *)
From Coq Require Import ZArith Bool List Lia Reals Lra Permutation Ascii.
From Flocq Require Import Core BinarySingleNaN.
From Verif Require Import Fp Mem Binned Spec Client FpProofs BitProofs CoreArith SpecProofs WordProofs MemProofs AccProofs SumProofs ClientProofs ConvProofs RescaleProofs ScaleProofs SumError ConvTerms ConvFloat ConvSpec RoundTrip PropsSum ComplexProofs PropsComplex Gen GenProofs Blas LaneProofs BlasSpec PropsBlas Gemv GemvSpec GemvProofs PropsGemv PropsScale PropsAcc PropsConv PropsApi PropsSign AccReal PropsAccuracy PropsShift BlasZ BlasZSpec PropsBlasZ GemvZ GemvZSpec GemvZProofs PropsGemvZ PropsGemmZ PropsZReal PropsShuffleZ PropsAccuracyZ PropsZMat PropsScaleMat.
Import ListNotations.
Open Scope Z_scope.

(** z' is z times 2^(width*s), in both parts; the same for results, which are finite. *)
Definition zscaled {t} (s : Z) (z' z : F t * F t) : Prop :=
  toZ (fst z') = toZ (fst z) * 2 ^ (width t * s) /\ toZ (snd z') = toZ (snd z) * 2 ^ (width t * s).
Definition times_zbins {t} (s : Z) (r r' : F t * F t) : Prop := times_bins s (fst r) (fst r') /\ times_bins s (snd r) (snd r').
(** None of the four products of the parts underflows. *)
Definition zno_underflow {t} (p q : F t * F t) : Prop :=
  no_underflow (fst p) (fst q) /\ no_underflow (snd p) (snd q) /\ no_underflow (snd p) (fst q) /\ no_underflow (fst p) (snd q).
(** Both parts of the sum of [zs], scaled up from [ws], convert without overflow. *)
Definition zconverts {t} (fold s : Z) (zs ws : list (F t * F t)) : Prop :=
  converts fold s (map fst zs) (map fst ws) /\ converts fold s (map snd zs) (map snd ws).

Lemma pairs_finite {A t} (f g : A -> F t) (l : list A) : all_finite (pairs f g l) = true -> forall k, In k l -> is_finite (f k) = true /\ is_finite (g k) = true.
Proof.
  unfold pairs. induction l as [|a l IH]; cbn [flat_map app]; intros F k Hk; [destruct Hk|]. rewrite !all_finite_cons in F.
  apply andb_true_iff in F as [F1 F]. apply andb_true_iff in F as [F2 F]. destruct Hk as [<-|Hk]; auto.
Qed.
Lemma pairs_scaled {A t} s (f g f' g' : A -> F t) (l : list A) :
  (forall k, In k l -> toZ (f' k) = toZ (f k) * 2 ^ (width t * s) /\ toZ (g' k) = toZ (g k) * 2 ^ (width t * s)) -> scaled s (pairs f' g' l) (pairs f g l).
Proof.
  unfold pairs. induction l as [|a l IH]; cbn [flat_map app]; intros H; [constructor|].
  destruct (H a (or_introl eq_refl)) as [E1 E2]. constructor; [exact E1|]. constructor; [exact E2|]. apply IH. intros k Hk. apply H. now right.
Qed.
Lemma zterms_scaled {t} s s' (p q p' q' : Z -> F t * F t) n : 0 <= s -> 0 <= s' -> zfinite (zterms p q n) = true -> zfinite (zterms p' q' n) = true ->
  (forall k, 0 <= k < n -> zno_underflow (p k) (q k) /\ zscaled s (p' k) (p k) /\ zscaled s' (q' k) (q k)) ->
  scaled (s + s') (map fst (zterms p' q' n)) (map fst (zterms p q n)) /\ scaled (s + s') (map snd (zterms p' q' n)) (map snd (zterms p q n)).
Proof.
  intros Hs Hs' F1 F2 H. apply andb_true_iff in F1 as [F1 G1]. apply andb_true_iff in F2 as [F2 G2].
  rewrite zterms_fst in F1, F2. rewrite zterms_snd in G1, G2. rewrite !zterms_fst, !zterms_snd.
  pose proof (pairs_finite _ _ _ F1) as A1. pose proof (pairs_finite _ _ _ F2) as A2. pose proof (pairs_finite _ _ _ G1) as B1. pose proof (pairs_finite _ _ _ G2) as B2.
  assert (FN : forall x : F t, is_finite (fneg x) = true -> is_finite x = true) by (intros x; unfold fneg; now rewrite is_finite_Bopp).
  split; apply pairs_scaled; intros k Hk; destruct (A1 k Hk) as [A1a A1b], (A2 k Hk) as [A2a A2b], (B1 k Hk) as [B1a B1b], (B2 k Hk) as [B2a B2b];
    apply zseq_In in Hk; destruct (H k ltac:(lia)) as ((U1 & U2 & U3 & U4) & [P1 P2] & [Q1 Q2]); split.
  - now apply fmul_scaled.
  - rewrite !toZ_neg. rewrite (fmul_scaled t s s' (snd (p k)) (snd (q k)) (snd (p' k)) (snd (q' k))); auto. ring.
  - now apply fmul_scaled.
  - now apply fmul_scaled.
Qed.
(** Two results with these terms. *)
Lemma zpair_scaled t fold s s' (p q p' q' : Z -> F t * F t) n (m m' : mem t) v v' : 2 <= fold <= MAXFOLD t -> 0 < n -> 2 * n <= CAPACITY t -> 0 <= s -> 0 <= s' ->
  zfinite (zterms p q n) = true -> zfinite (zterms p' q' n) = true ->
  (forall k, 0 <= k < n -> zno_underflow (p k) (q k) /\ zscaled s (p' k) (p k) /\ zscaled s' (q' k) (q k)) ->
  zconverts fold (s + s') (zterms p' q' n) (zterms p q n) ->
  sum_value fold 0 (map fst (zterms p q n)) m (fst v) -> sum_value fold 0 (map snd (zterms p q n)) m (snd v) ->
  sum_value fold 0 (map fst (zterms p' q' n)) m' (fst v') -> sum_value fold 0 (map snd (zterms p' q' n)) m' (snd v') ->
  times_zbins (s + s') v v'.
Proof.
  intros Hf Hn HC Hs Hs' F1 F2 H [V1 V2] R1 I1 R2 I2. destruct (zterms_scaled s s' p q p' q' n Hs Hs' F1 F2 H) as [S1 S2].
  pose proof (zterms_length p q n ltac:(lia)) as L.
  apply andb_true_iff in F1 as [F1 G1]. apply andb_true_iff in F2 as [F2 G2]. unfold sum_value in *. rewrite F1 in R1. rewrite G1 in I1. rewrite F2 in R2. rewrite G2 in I2.
  split.
  - rewrite R1, R2. apply conv_scaled; auto; [rewrite map_length; lia|lia].
  - rewrite I1, I2. apply conv_scaled; auto; [rewrite map_length; lia|lia].
Qed.

(** ** reproBLAS_rzdotu and reproBLAS_rzdotc *)
Lemma no_underflow_neg {t} (x y : F t) : no_underflow x y -> no_underflow (fneg x) y.
Proof.
  unfold no_underflow, fneg. rewrite B2R_Bopp. replace (- B2R x * B2R y)%R with (- (B2R x * B2R y))%R by ring. intros [[z Hz]|H].
  - left. exists (- z). rewrite Hz, opp_IZR. ring.
  - right. now rewrite Rabs_Ropp.
Qed.
Lemma zno_underflow_conj {t} (p q : F t * F t) : zno_underflow p q -> zno_underflow (conjugate p) q.
Proof. intros (A & B & C & D). unfold zno_underflow, conjugate. cbn [fst snd]. auto using no_underflow_neg. Qed.
Lemma zscaled_conj {t} s (z z' : F t * F t) : zscaled s z' z -> zscaled s (conjugate z') (conjugate z).
Proof. intros [A B]. unfold zscaled, conjugate. cbn [fst snd]. rewrite !toZ_neg. split; [exact A|lia]. Qed.
(** The vectors of the second call are those of the first, X scaled by s bins and Y by s'. *)
Definition scaled_vectors {t} (s s' N X incX Y incY X' incX' Y' incY' : Z) (m m' : mem t) : Prop :=
  forall i, 0 <= i < N ->
    let x := complex_at m (X + 2 * (i * incX)) in let y := complex_at m (Y + 2 * (i * incY)) in
    zno_underflow x y /\ zscaled s (complex_at m' (X' + 2 * (i * incX'))) x /\ zscaled s' (complex_at m' (Y' + 2 * (i * incY'))) y.
Theorem C96_dotu t tu tu' fold s s' N X incX Y incY X' incX' Y' incY' tmp tmp' (m m' : mem t) :
  2 <= fold <= MAXFOLD t -> tuned t tu -> tuned t tu' -> 0 < N -> 2 * N <= CAPACITY t ->
  Z.min N (block_max tu) <= ENDURANCE t / 2 -> Z.min N (block_max tu') <= ENDURANCE t / 2 ->
  zclear_of X incX N tmp (zbnum fold) -> zclear_of Y incY N tmp (zbnum fold) ->
  zclear_of X' incX' N tmp' (zbnum fold) -> zclear_of Y' incY' N tmp' (zbnum fold) -> 0 <= s -> 0 <= s' ->
  scaled_vectors s s' N X incX Y incY X' incX' Y' incY' m m' ->
  let ps := plain_products m X incX Y incY N in let ps' := plain_products m' X' incX' Y' incY' N in
  zfinite ps = true -> zfinite ps' = true -> zconverts fold (s + s') ps' ps ->
  times_zbins (s + s') (rzdotu tu fold N X incX Y incY tmp m) (rzdotu tu' fold N X' incX' Y' incY' tmp' m').
Proof.
  intros Hf HT HT' HN HC HB HB' C1 C2 C3 C4 Hs Hs' HV ps ps' F1 F2 HO.
  destruct (C29_rzdotu_partial t tu fold N X incX Y incY tmp 0 _ m m Hf HT HB ltac:(lia) C1 C2 (Permutation_refl _)) as [A0 A1].
  destruct (C29_rzdotu_partial t tu' fold N X' incX' Y' incY' tmp' 0 _ m' m' Hf HT' HB' ltac:(lia) C3 C4 (Permutation_refl _)) as [B0 B1].
  unfold ps, ps' in *. rewrite <- zterms_plain in F1, F2, A0, A1, B0, B1. rewrite <- !zterms_plain in HO.
  exact (zpair_scaled t fold s s' _ _ _ _ N m m' _ _ Hf HN HC Hs Hs' F1 F2 HV HO A0 A1 B0 B1).
Qed.
Print Assumptions C96_dotu.
Theorem C96_dotc t tu tu' fold s s' N X incX Y incY X' incX' Y' incY' tmp tmp' (m m' : mem t) :
  2 <= fold <= MAXFOLD t -> tuned t tu -> tuned t tu' -> 0 < N -> 2 * N <= CAPACITY t ->
  Z.min N (block_max tu) <= ENDURANCE t / 2 -> Z.min N (block_max tu') <= ENDURANCE t / 2 ->
  zclear_of X incX N tmp (zbnum fold) -> zclear_of Y incY N tmp (zbnum fold) ->
  zclear_of X' incX' N tmp' (zbnum fold) -> zclear_of Y' incY' N tmp' (zbnum fold) -> 0 <= s -> 0 <= s' ->
  scaled_vectors s s' N X incX Y incY X' incX' Y' incY' m m' ->
  let ps := conj_products m X incX Y incY N in let ps' := conj_products m' X' incX' Y' incY' N in
  zfinite ps = true -> zfinite ps' = true -> zconverts fold (s + s') ps' ps ->
  times_zbins (s + s') (rzdotc tu fold N X incX Y incY tmp m) (rzdotc tu' fold N X' incX' Y' incY' tmp' m').
Proof.
  intros Hf HT HT' HN HC HB HB' C1 C2 C3 C4 Hs Hs' HV ps ps' F1 F2 HO.
  destruct (C29_rzdotc_partial t tu fold N X incX Y incY tmp 0 _ m m Hf HT HB ltac:(lia) C1 C2 (Permutation_refl _)) as [A0 A1].
  destruct (C29_rzdotc_partial t tu' fold N X' incX' Y' incY' tmp' 0 _ m' m' Hf HT' HB' ltac:(lia) C3 C4 (Permutation_refl _)) as [B0 B1].
  unfold ps, ps' in *. rewrite <- zterms_conj_l in F1, F2, A0, A1, B0, B1. rewrite <- !zterms_conj_l in HO.
  refine (zpair_scaled t fold s s' _ _ _ _ N m m' _ _ Hf HN HC Hs Hs' F1 F2 _ HO A0 A1 B0 B1).
  intros k Hk. destruct (HV k Hk) as (U & SX & SY). split; [now apply zno_underflow_conj|]. split; [now apply zscaled_conj|exact SY].
Qed.
Print Assumptions C96_dotc.

(** ** reproBLAS_rzgemm with alpha = 1 and beta = 0 *)
(** A legal call: tuning, blocks and layout as in C47, dot products of at most half the endurance (C29), finite products. *)
Definition zproduct_call {t} (fold : Z) (tu : tuning) (b : gemm_blocks) (Order TransA TransB : ascii) (M N K : Z) (alpha beta : F t * F t)
    (A lda B ldb C ldc CI bufA bufB : Z) (m : mem t) : Prop :=
  tuned t tu /\ legal_gemm b /\ is_complex alpha (mkf 1 0) = true /\ is_complex beta fzero = true /\
  Z.min (Z.min K (Z.max (mx_block b) (mxt_block b))) (block_max tu) <= ENDURANCE t / 2 /\
  let ldi := if is_row Order then N else M in let lenA := bufA_len b M K in let lenB := mxt_block b * myt_block b in
  zgemm_layout fold Order TransA TransB M N K A lda B ldb CI ldi bufA lenA bufB lenB /\ ldi <= ldc /\
  (forall i j o, 0 <= i < M -> 0 <= j < N -> o = 0 \/ o = 1 ->
     ~ zgemm_touched fold Order M N CI ldi bufA lenA bufB lenB (zelem_addr Order C ldc i j + o)) /\
  (forall i j, 0 <= i < M -> 0 <= j < N ->
     zfinite (zterms (fun k => zop m Order TransA A lda i k) (fun k => zop m Order TransB B ldb k j) K) = true).
Theorem C96_gemm t fold tu tu' b b' Order Order' TransA TransA' TransB TransB' M N K (alpha beta alpha' beta' : F t * F t)
    A lda B ldb C ldc CI bufA bufB A' lda' B' ldb' C' ldc' CI' bufA' bufB' (s s' : Z -> Z) (m m' : mem t) :
  2 <= fold <= MAXFOLD t -> 0 < M -> 0 < N -> 0 < K -> 2 * K + 1 <= CAPACITY t ->
  zproduct_call fold tu b Order TransA TransB M N K alpha beta A lda B ldb C ldc CI bufA bufB m ->
  zproduct_call fold tu' b' Order' TransA' TransB' M N K alpha' beta' A' lda' B' ldb' C' ldc' CI' bufA' bufB' m' ->
  let rowA := fun i k => zop m Order TransA A lda i k in let colB := fun j k => zop m Order TransB B ldb k j in
  let rowA' := fun i k => zop m' Order' TransA' A' lda' i k in let colB' := fun j k => zop m' Order' TransB' B' ldb' k j in
  (forall i k, 0 <= i < M -> 0 <= k < K -> 0 <= s i /\ zscaled (s i) (rowA' i k) (rowA i k)) ->
  (forall k j, 0 <= k < K -> 0 <= j < N -> 0 <= s' j /\ zscaled (s' j) (colB' j k) (colB j k)) ->
  forall i j, 0 <= i < M -> 0 <= j < N ->
  (forall k, 0 <= k < K -> zno_underflow (rowA i k) (colB j k)) ->
  zconverts fold (s i + s' j) (zterms (rowA' i) (colB' j) K) (zterms (rowA i) (colB j) K) ->
  times_zbins (s i + s' j)
    (complex_at (rzgemm tu b fold Order TransA TransB M N K alpha A lda B ldb beta C ldc CI bufA bufB m) (zelem_addr Order C ldc i j))
    (complex_at (rzgemm tu' b' fold Order' TransA' TransB' M N K alpha' A' lda' B' ldb' beta' C' ldc' CI' bufA' bufB' m') (zelem_addr Order' C' ldc' i j)).
Proof.
  intros Hf HM HN HK HC (HT & LB & H1 & H0 & HE & LY & LD & HY & HF) (HT' & LB' & H1' & H0' & HE' & LY' & LD' & HY' & HF') rowA colB rowA' colB' SA SB i j Hi Hj HU HV.
  assert (HK0 : 0 <= K) by lia.
  destruct (gemm_entry t tu b fold Order TransA TransB M N K alpha beta A lda B ldb C ldc CI bufA bufB m Hf HT LB HM HN HK0 HC H1 H0 HE LY LD HY i j Hi Hj) as [V1 V2].
  destruct (gemm_entry t tu' b' fold Order' TransA' TransB' M N K alpha' beta' A' lda' B' ldb' C' ldc' CI' bufA' bufB' m' Hf HT' LB' HM HN HK0 HC H1' H0' HE' LY' LD' HY' i j Hi Hj) as [W1 W2].
  refine (zpair_scaled t fold (s i) (s' j) (rowA i) (colB j) (rowA' i) (colB' j) K m m' _ _ Hf HK _ _ _ (HF i j Hi Hj) (HF' i j Hi Hj) _ HV V1 V2 W1 W2).
  - lia.
  - apply (SA i 0); lia.
  - apply (SB 0 j); lia.
  - intros k Hk. split; [now apply HU|]. split; [apply SA; lia|apply SB; lia].
Qed.
Print Assumptions C96_gemm.

(** ** reproBLAS_rzgemv with alpha = 1 and beta = 0 *)
(** A legal call within C40. *)
Definition zvector_call {t} (fold : Z) (tu : tuning) (b : gemv_blocks) (Order Trans : ascii) (M N : Z) (alpha beta : F t * F t)
    (A lda X incX Y incY YI bufX bufA : Z) (m : mem t) : Prop :=
  tuned t tu /\ legal_gemv b /\ is_complex alpha (mkf 1 0) = true /\ is_complex beta fzero = true /\
  let rows := op_rows Trans M N in let cols := op_cols Trans M N in let lenA := xt_block b * yt_block b in
  right_length b Order Trans M N /\ Z.min (Z.min cols (dot_block b Order Trans)) (block_max tu) <= ENDURANCE t / 2 /\
  zgemv_layout fold Order Trans rows cols A lda X incX YI 1 bufX bufA lenA /\ incY <> 0 /\
  (forall i o, 0 <= i < rows -> o = 0 \/ o = 1 -> ~ zgemv_touched fold rows YI 1 bufX cols bufA lenA (Y + 2 * (i * incY) + o)) /\
  (forall i, 0 <= i < rows -> zfinite (zterms (fun k => zop m Order Trans A lda i k) (fun k => complex_at m (X + 2 * (k * incX))) cols) = true).
Theorem C96_gemv t fold tu tu' b b' Order Order' Trans Trans' M N M' N' (alpha beta alpha' beta' : F t * F t)
    A lda X incX Y incY YI bufX bufA A' lda' X' incX' Y' incY' YI' bufX' bufA' (s : Z -> Z) s' (m m' : mem t) :
  2 <= fold <= MAXFOLD t -> 0 < M -> 0 < N -> 0 < M' -> 0 < N' ->
  let rows := op_rows Trans M N in let cols := op_cols Trans M N in
  rows = op_rows Trans' M' N' -> cols = op_cols Trans' M' N' -> 2 * cols + 1 <= CAPACITY t -> 0 <= s' ->
  zvector_call fold tu b Order Trans M N alpha beta A lda X incX Y incY YI bufX bufA m ->
  zvector_call fold tu' b' Order' Trans' M' N' alpha' beta' A' lda' X' incX' Y' incY' YI' bufX' bufA' m' ->
  let rowA := fun i k => zop m Order Trans A lda i k in let vecX := fun k => complex_at m (X + 2 * (k * incX)) in
  let rowA' := fun i k => zop m' Order' Trans' A' lda' i k in let vecX' := fun k => complex_at m' (X' + 2 * (k * incX')) in
  (forall i k, 0 <= i < rows -> 0 <= k < cols -> 0 <= s i /\ zscaled (s i) (rowA' i k) (rowA i k)) ->
  (forall k, 0 <= k < cols -> zscaled s' (vecX' k) (vecX k)) ->
  forall i, 0 <= i < rows ->
  (forall k, 0 <= k < cols -> zno_underflow (rowA i k) (vecX k)) ->
  zconverts fold (s i + s') (zterms (rowA' i) vecX' cols) (zterms (rowA i) vecX cols) ->
  times_zbins (s i + s')
    (complex_at (rzgemv tu b fold Order Trans M N alpha A lda X incX beta Y incY YI bufX bufA m) (Y + 2 * (i * incY)))
    (complex_at (rzgemv tu' b' fold Order' Trans' M' N' alpha' A' lda' X' incX' beta' Y' incY' YI' bufX' bufA' m') (Y' + 2 * (i * incY'))).
Proof.
  intros Hf HM HN HM' HN' rows cols ER EC HC Hs' (HT & LB & H1 & H0 & RL & HE & LY & NY & HY & HF) (HT' & LB' & H1' & H0' & RL' & HE' & LY' & NY' & HY' & HF')
    rowA vecX rowA' vecX' SA SX i Hi HU HV.
  assert (CP : 0 < cols) by (unfold cols, op_cols; destruct (is_notrans Trans); lia).
  destruct (gemv_entry t tu b fold Order Trans M N alpha beta A lda X incX Y incY YI bufX bufA m Hf HT LB HM HN RL HE LY NY HY HC H1 H0 i Hi) as [V1 V2].
  assert (HC' : 2 * op_cols Trans' M' N' + 1 <= CAPACITY t) by (rewrite <- EC; exact HC). assert (Hi' : 0 <= i < op_rows Trans' M' N') by (rewrite <- ER; exact Hi).
  destruct (gemv_entry t tu' b' fold Order' Trans' M' N' alpha' beta' A' lda' X' incX' Y' incY' YI' bufX' bufA' m' Hf HT' LB' HM' HN' RL' HE' LY' NY' HY' HC' H1' H0' i Hi') as [W1 W2].
  specialize (HF' i Hi'). specialize (HF i Hi). cbv beta zeta in HF'. rewrite <- EC in HF', W1, W2.
  refine (zpair_scaled t fold (s i) s' (rowA i) vecX (rowA' i) vecX' cols m m' _ _ Hf CP _ _ Hs' HF HF' _ HV V1 V2 W1 W2).
  - lia.
  - apply (SA i 0); lia.
  - intros k Hk. split; [now apply HU|]. split; [apply SA; lia|apply SX; lia].
Qed.
Print Assumptions C96_gemv.

(** A case meeting the hypotheses: row i scaled by 1 + i bins, column j by j. *)
Definition scaled_twos_mem : mem Dbl := fun a =>
  mkf (if Z.even a then 1 else 2) (if a <? 100 then 40 * (1 + a / 12) else 40 * ((a - 100) / 2 mod 6)).
Definition zscaled_b (s : Z) (z' z : F Dbl * F Dbl) : bool := (toZ (fst z') =? toZ (fst z) * 2 ^ (width Dbl * s)) && (toZ (snd z') =? toZ (snd z) * 2 ^ (width Dbl * s)).
Definition converts_b (fold s : Z) (xs ys : list (F Dbl)) : bool :=
  (first_bin ys + fold - 1 <=? jmax Dbl) &&
  (2 * Z.abs (exact_sum xs) + Z.of_nat (length ys) * 2 ^ unit_exp Dbl (first_bin ys - s + fold - 1) <=? 2 * (2 ^ (emax Dbl - emin Dbl) - 2 ^ (emax Dbl - emin Dbl - 20))).
Example C96_case :
  let rowA := fun i k => zop twos_mem "R" "n" 0 6 i k in let colB := fun j k => zop twos_mem "R" "n" 100 6 k j in
  let rowA' := fun i k => zop scaled_twos_mem "R" "n" 0 6 i k in let colB' := fun j k => zop scaled_twos_mem "R" "n" 100 6 k j in
  let one := (mkf 1 0, fzero) in let zero := (fzero, fzero) in
  zproduct_call 3 half_tuning sample_mblocks "R" "n" "n" 2 2 3 one zero 0 6 100 6 200 4 1000 2000 3000 twos_mem /\
  zproduct_call 3 half_tuning sample_mblocks "R" "n" "n" 2 2 3 one zero 0 6 100 6 200 4 1000 2000 3000 scaled_twos_mem /\
  forallb (fun i => forallb (fun k => zscaled_b (1 + i) (rowA' i k) (rowA i k) && zscaled_b i (colB' i k) (colB i k)) [0; 1; 2]) [0; 1] = true /\
  (forall i j k, 0 <= i < 2 -> 0 <= j < 2 -> 0 <= k < 3 -> zno_underflow (rowA i k) (colB j k)) /\
  forallb (fun i => forallb (fun j => let zs := zterms (rowA' i) (colB' j) 3 in let ws := zterms (rowA i) (colB j) 3 in
    converts_b 3 (1 + i + j) (map fst zs) (map fst ws) && converts_b 3 (1 + i + j) (map snd zs) (map snd ws)) [0; 1]) [0; 1] = true.
Proof.
  intros rowA colB rowA' colB' one zero. pose proof C92_case as (Y & HE & H1 & H0 & _). destruct (Y "R" "n" "n")%char as (LY & LD & HY & _). clear Y.
  assert (PC : forall m : mem Dbl, (forall i j, 0 <= i < 2 -> 0 <= j < 2 -> zfinite (zterms (fun k => zop m "R" "n" 0 6 i k) (fun k => zop m "R" "n" 100 6 k j) 3) = true) ->
    zproduct_call 3 half_tuning sample_mblocks "R" "n" "n" 2 2 3 one zero 0 6 100 6 200 4 1000 2000 3000 m).
  { intros m FM. split; [exact (proj1 C29_case)|]. split; [exact (proj1 C24_case)|]. split; [exact H1|]. split; [exact H0|]. split; [exact HE|].
    split; [exact LY|]. split; [exact LD|]. split; [exact HY|exact FM]. }
  split; [apply PC; intros i j Hi Hj; revert i Hi; apply below2; revert j Hj; apply below2; vm_compute; reflexivity|].
  split; [apply PC; intros i j Hi Hj; revert i Hi; apply below2; revert j Hj; apply below2; vm_compute; reflexivity|].
  split; [vm_compute; reflexivity|]. split; [|vm_compute; reflexivity].
  intros i j k Hi Hj Hk. revert i Hi; apply below2; revert j Hj; apply below2; revert k Hk; apply below3;
    repeat split; apply no_underflow_int; vm_compute; reflexivity.
Qed.
Print Assumptions C96_case.
