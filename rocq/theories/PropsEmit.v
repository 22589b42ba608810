(** * C59 - C61: the code the generator emits *)
From Coq Require Import ZArith Bool List Lia Permutation.
From Flocq Require Import Core BinarySingleNaN.
From Verif Require Import Fp Mem Binned Spec FpProofs MemProofs Client ClientProofs Gen GenProofs Params ParamsProofs PropsGen Blas LaneProofs BlasSpec PropsBlas BlasZ BlasZSpec PropsComplex PropsBlasZ Ssq SsqSpec PropsSsq BlasDZ BlasDZSpec PropsBlasDZ.
From Verif Require Import Emit EmitRun EmitKernel EmitScan EmitBlas EmitDriver EmitSpec.
Import ListNotations.
Open Scope Z_scope.

Lemma numbers_ok v t cx : numbers v t cx = Z.max (tsize v t cx) 1.
Proof. destruct v, t, cx; reflexivity. Qed.
Lemma legal_tuned t cx b fold : legal_build t cx b -> tuned t (build_tuning t cx b fold).
Proof.
  intros (B & (S1 & S2) & W). rewrite numbers_ok in *. split; [exact B|]. split.
  - split; [apply tsize_width|]. split; assumption.
  - destruct (W (slot b fold)) as (P1 & P2 & P3). split; [apply tsize_width|]. split; [exact P1|]. split; [exact P2|]. split; [exact P3|].
    cbn [simd type_size build_vec dep_vec build_tuning]. clear. destruct (b_isa b), t, cx; (let H := fresh in intros H; (discriminate H || (vm_compute; discriminate))).
Qed.
Lemma file_legal t cx v block scan max expand pipe unroll : legal_build t cx (file_build t cx v block scan max expand pipe unroll).
Proof.
  unfold file_build, legal_build. cbn [b_block b_scan b_width b_isa fst snd]. rewrite numbers_ok.
  assert (V : vector v = true -> 1 <= tsize v t cx) by (destruct v, t, cx; (let H := fresh in intros H; (discriminate H || (vm_compute; discriminate)))).
  split; [|split].
  - unfold read_block. assert (H : 32 <= ENDURANCE t) by (destruct t; discriminate). pose proof (pow_parse_range 32 (ENDURANCE t) block H). lia.
  - destruct (read_avec_legal (tsize v t cx) scan (tsize_width v t cx)) as (_ & A & B). split; assumption.
  - intros f. destruct (read_vec_legal (vector v) (tsize v t cx) (pipe f) (unroll f) (tsize_width v t cx) V) as (_ & A & B & C & _). auto.
Qed.

(** ** C59: the deposit code *)
(** Every value the argument files give, for each instruction set, is legal. *)
Theorem C59_argument_files t cx v block scan max expand pipe unroll :
  legal_build t cx (file_build t cx v block scan max expand pipe unroll).
Proof. apply file_legal. Qed.
Print Assumptions C59_argument_files.
(** Real kernels: whatever the instruction set, tuning and the contents of the registers, the emitted code deposits the
    summands as one scalar deposit each would, moves the pointers by n and writes nothing else. *)
Theorem C59_deposits t b (k : kclass t) fold n X incX Y incY A us zs e (m : mem t) :
  legal_build t false b -> fits k false = true -> 2 <= fold <= MAXFOLD t -> 0 <= n <= ENDURANCE t ->
  let x i := m (X + i * incX) in
  let y i := m (Y + i * incY) in
  let xs := map (fun i => match k with
                          | KASum => fabs (x i) | KSSq scl => sq scl (x i) | KDot => fmul (x i) (y i) | _ => x i
                          end) (zseq 0 n) in
  match k with KSSq scl => feq (sq scl fzero) fzero = true | _ => True end ->
  acc_at fold us zs m A -> us ++ zs <> [] -> all_finite (xs ++ zs) = true -> Z.of_nat (length zs) <= CAPACITY t ->
  (forall x, In x xs -> lead (us ++ zs) <= dindex x) ->
  let '(m', p) := run_deposit b false k fold n X incX Y incY A 1 e m in
  p = n /\ same_words fold m' A (deposit_list fold xs A m) A /\ unchanged_outside A fold m m'.
Proof.
  intros LB FIT Hf Hn x y xs PZ HA NE FA HC HB. destruct (legal_tuned t false b fold LB) as (_ & _ & LV). cbn [dep_vec build_tuning] in LV.
  rewrite run_deposit_ok by (auto; lia).
  assert (EX : xs = map (fun i => rkval k X incX Y incY m (Some i)) (zseq 0 n)) by (unfold xs; apply map_ext; intros i; destruct k; (reflexivity || discriminate)).
  rewrite EX in *. apply (C19_kernel t fold (build_vec t false b fold) n (rkval k X incX Y incY m) A us zs m Hf LV Hn); auto.
  destruct k; cbn [rkval val sqval term]; try (destruct t; reflexivity); try discriminate. exact PZ.
Qed.
Print Assumptions C59_deposits.
(** All kernels, for every content of memory (also infinities, NaN, full accumulators): the memory and the pointer
    movement of the emitted code are those of the kernel models C18 - C22, C29, C42, C46 - C50 are about. *)
Theorem C59_is_kernel_model t b (cx : bool) (k : kclass t) fold n X incX Y incY A inc e (m : mem t) :
  legal_build t cx b -> fits k cx = true -> 1 <= fold -> 0 <= n ->
  run_deposit b cx k fold n X incX Y incY A inc e m =
  let tu := dep_vec (build_tuning t cx b fold) in
  match k, cx with
  | KSum, false => kernel tu fold n (val Sum X incX Y incY m) A inc m
  | KASum, false => kernel tu fold n (val ASum X incX Y incY m) A inc m
  | KSSq scl, false => kernel tu fold n (sqval scl X incX m) A inc m
  | _, false => kernel tu fold n (val Dot X incX Y incY m) A inc m
  | KSum, true => zkernel 1 tu fold n (zval ZSum X incX Y incY m) A inc m
  | KASum, true => zkernel 1 tu fold n (fun c s => fabs (part X incX m c s)) A inc m
  | KSSq scl, true => zkernel 1 tu fold n (fun c s => sq scl (part X incX m c s)) A inc m
  | KDotC, true => zkernel 2 tu fold n (zval ZDotC X incX Y incY m) A inc m
  | _, true => zkernel 2 tu fold n (zval ZDotU X incX Y incY m) A inc m
  end.
Proof.
  intros LB FIT Hf Hn. destruct (legal_tuned t cx b fold LB) as (_ & _ & LV). cbn [dep_vec build_tuning] in *. cbv zeta.
  rewrite run_deposit_ok by auto. destruct k, cx; (reflexivity || discriminate).
Qed.
Print Assumptions C59_is_kernel_model.
(** The contents of the local variables at the start of a block are irrelevant. *)
Theorem C59_no_uninitialised_reads t b (cx : bool) (k : kclass t) fold n X incX Y incY A inc e e' (m : mem t) :
  legal_build t cx b -> fits k cx = true -> 1 <= fold -> 0 <= n ->
  run_deposit b cx k fold n X incX Y incY A inc e m = run_deposit b cx k fold n X incX Y incY A inc e' m.
Proof. intros LB FIT Hf Hn. rewrite !C59_is_kernel_model by auto. reflexivity. Qed.
Print Assumptions C59_no_uninitialised_reads.

(** ** C60: the scans *)
(** The emitted scan of real data returns the largest magnitude. *)
Theorem C60_amax t b n X incX Y incY e (m : mem t) : legal_build t false b -> 0 <= n ->
  (forall x, In x (read m X incX n) -> f_isnan x = false) ->
  largest (fst (run_scan b false false n X incX Y incY e m)) (read m X incX n).
Proof.
  intros LB Hn NN. destruct (legal_tuned t false b 2 LB) as (_ & LA & _). cbn [amax_vec build_tuning] in LA.
  rewrite run_scan_real by auto. exact (C39_amax t _ n X incX m LA Hn NN).
Qed.
Print Assumptions C60_amax.
Theorem C60_amaxm t b n X incX Y incY e (m : mem t) : legal_build t false b -> 0 <= n ->
  (forall x, In x (products m X incX Y incY n) -> f_isnan x = false) ->
  largest (fst (run_scan b false true n X incX Y incY e m)) (products m X incX Y incY n).
Proof.
  intros LB Hn NN. destruct (legal_tuned t false b 2 LB) as (_ & LA & _). cbn [amax_vec build_tuning] in LA.
  rewrite run_scan_real by auto. exact (C39_amaxm t _ n X incX Y incY m LA Hn NN).
Qed.
Print Assumptions C60_amaxm.
(** All scans, also on data with NaN: the value is that of the scan models. *)
Theorem C60_is_scan_model t b (cx two : bool) n X incX Y incY e (m : mem t) fold : legal_build t cx b -> 0 <= n ->
  let v := amax_vec (build_tuning t cx b fold) in
  let r := run_scan b cx two n X incX Y incY e m in
  if cx then
    r = (zscan (if two then 2 else 1) v n (zval (if two then ZDotU else ZSum) X incX Y incY m 0),
         zscan (if two then 2 else 1) v n (zval (if two then ZDotU else ZSum) X incX Y incY m 1))
  else fst r = if two then damaxm v n X incX Y incY m else damax v n X incX m.
Proof.
  intros LB Hn v r. destruct (legal_tuned t cx b fold LB) as (_ & LA & _). cbn [amax_vec build_tuning] in LA. unfold r, v. destruct cx.
  - apply run_scan_complex; auto.
  - rewrite run_scan_real by auto. destruct two; reflexivity.
Qed.
Print Assumptions C60_is_scan_model.

(** ** C61: the reductions compiled for any instruction set and tuning *)
Theorem C61_real t b b' R R' fold N X incX Y incY X' incX' Y' incY' tmp tmp' (m m' : mem t) :
  2 <= fold <= MAXFOLD t -> legal_build t false b -> legal_build t false b' -> 0 <= N <= CAPACITY t ->
  clear_of X incX N tmp (dbnum fold) -> clear_of X' incX' N tmp' (dbnum fold) ->
  clear_of Y incY N tmp (dbnum fold) -> clear_of Y' incY' N tmp' (dbnum fold) ->
  (all_finite (read m X incX N) = true -> Permutation (read m X incX N) (read m' X' incX' N) ->
   rdsum_code b R fold N X incX tmp m = rdsum_code b' R' fold N X' incX' tmp' m') /\
  (all_finite (magnitudes m X incX N) = true -> Permutation (magnitudes m X incX N) (magnitudes m' X' incX' N) ->
   rdasum_code b R fold N X incX tmp m = rdasum_code b' R' fold N X' incX' tmp' m') /\
  (all_finite (products m X incX Y incY N) = true -> Permutation (products m X incX Y incY N) (products m' X' incX' Y' incY' N) ->
   rddot_code b R fold N X incX Y incY tmp m = rddot_code b' R' fold N X' incX' Y' incY' tmp' m') /\
  (fold <= ssq_fold t -> Permutation (read m X incX N) (read m' X' incX' N) ->
   rdnrm2_code b R fold N X incX tmp m = rdnrm2_code b' R' fold N X' incX' tmp' m').
Proof.
  intros Hf LB LB' HN CX CX' CY CY'. pose proof (legal_tuned t false b fold LB) as T. pose proof (legal_tuned t false b' fold LB') as T'.
  destruct (code_real b R fold ltac:(lia) T) as (S1 & S2 & S3 & _ & S5). destruct (code_real b' R' fold ltac:(lia) T') as (U1 & U2 & U3 & _ & U5).
  split; [|split; [|split]].
  - intros F P. rewrite S1, U1. apply C20_order_independent; auto.
  - intros F P. rewrite S2, U2. apply C21_rdasum; auto.
  - intros F P. rewrite S3, U3. apply C21_rddot; auto.
  - intros Hs P. rewrite S5, U5. apply C42_rdnrm2; auto. lia.
Qed.
Print Assumptions C61_real.
(** The same bits as one scalar add per element. *)
Theorem C61_is_scalar_sum t b R fold N X incX tmp A (m m' : mem t) :
  2 <= fold <= MAXFOLD t -> legal_build t false b -> 0 <= N <= CAPACITY t -> clear_of X incX N tmp (dbnum fold) ->
  all_finite (read m X incX N) = true ->
  rdsum_code b R fold N X incX tmp m = ddbconv fold A (sum_list fold A (read m X incX N) m').
Proof.
  intros Hf LB HN CX FX. pose proof (legal_tuned t false b fold LB) as T. destruct (code_real b R fold ltac:(lia) T) as (S1 & _).
  rewrite S1. apply C20_is_scalar_sum; auto.
Qed.
Print Assumptions C61_is_scalar_sum.
Theorem C61_complex t b b' R R' fold N X incX Y incY X' incX' Y' incY' tmp tmp' (m m' : mem t) :
  2 <= fold <= MAXFOLD t -> legal_build t true b -> legal_build t true b' -> 0 <= 2 * N <= CAPACITY t ->
  zclear_of X incX N tmp (zbnum fold) -> zclear_of X' incX' N tmp' (zbnum fold) ->
  zclear_of Y incY N tmp (zbnum fold) -> zclear_of Y' incY' N tmp' (zbnum fold) ->
  (zfinite (zread m X incX N) = true -> Permutation (zread m X incX N) (zread m' X' incX' N) ->
   rzsum_code b R fold N X incX tmp m = rzsum_code b' R' fold N X' incX' tmp' m') /\
  (Z.min N (b_block b) <= ENDURANCE t / 2 -> Z.min N (b_block b') <= ENDURANCE t / 2 ->
   Permutation (combine (zread m X incX N) (zread m Y incY N)) (combine (zread m' X' incX' N) (zread m' Y' incY' N)) ->
   (zfinite (conj_products m X incX Y incY N) = true ->
    rzdotc_code b R fold N X incX Y incY tmp m = rzdotc_code b' R' fold N X' incX' Y' incY' tmp' m') /\
   (zfinite (plain_products m X incX Y incY N) = true ->
    rzdotu_code b R fold N X incX Y incY tmp m = rzdotu_code b' R' fold N X' incX' Y' incY' tmp' m')).
Proof.
  intros Hf LB LB' HN CX CX' CY CY'. pose proof (legal_tuned t true b fold LB) as T. pose proof (legal_tuned t true b' fold LB') as T'.
  destruct (code_complex b R fold ltac:(lia) T) as (S1 & S2 & S3 & _). destruct (code_complex b' R' fold ltac:(lia) T') as (U1 & U2 & U3 & _).
  split.
  - intros F P. rewrite S1, U1. apply C46_order_independent; auto. lia.
  - intros H1 H2 P. destruct (C29_order_independent_partial t (build_tuning t true b fold) (build_tuning t true b' fold) fold N X incX Y incY X' incX' Y' incY' tmp tmp' m m') as [A B]; auto.
    split; intros F; rewrite ?S2, ?U2, ?S3, ?U3; auto.
Qed.
Print Assumptions C61_complex.
Theorem C61_complex_magnitudes t b b' R R' fold N X incX X' incX' Y Y' A A' T T' (m m' : mem t) :
  2 <= fold <= MAXFOLD t -> legal_build t true b -> legal_build t true b' -> 0 <= 2 * N <= CAPACITY t ->
  nrm_layout fold N X incX Y A T -> nrm_layout fold N X' incX' Y' A' T' ->
  Permutation (components m X incX N) (components m' X' incX' N) ->
  rdzasum_code b R fold N X incX Y A m = rdzasum_code b' R' fold N X' incX' Y' A' m' /\
  (fold <= ssq_fold t -> rdznrm2_code b R fold N X incX Y A T m = rdznrm2_code b' R' fold N X' incX' Y' A' T' m').
Proof.
  intros Hf LB LB' HN L L' P. pose proof (legal_tuned t true b fold LB) as TT. pose proof (legal_tuned t true b' fold LB') as TT'.
  destruct (code_complex b R fold ltac:(lia) TT) as (_ & _ & _ & S4 & S5). destruct (code_complex b' R' fold ltac:(lia) TT') as (_ & _ & _ & U4 & U5).
  unfold nrm_layout in L, L'. split.
  - rewrite S4, U4. apply C48_order_independent; auto; try apply L; apply L'.
  - intros Hs. rewrite S5, U5. apply C49_order_independent; auto. lia.
Qed.
Print Assumptions C61_complex_magnitudes.

(** ** Concrete cases *)
(** Argument files asking for odd values; stale registers full of NaN. *)
Definition avx_build t cx : build := file_build t cx AVX 100 6 4 (fun f => f =? 3) (fun _ => 7) (fun f => f + 1).
Definition sse_build t cx : build := file_build t cx SSE 33 100 4 (fun f => f =? 2) (fun _ => 9) (fun _ => 3).
Definition c_build t cx : build := file_build t cx SISD 4000 1 4 (fun _ => false) (fun _ => 1) (fun _ => 1).
Definition junk t : stale t := fun _ => (fun _ _ => fnan, fun _ _ => fnan).
Example C59_case :
  let m := lane_start in
  let xs := [mkf 3 890; mkf (-7) 850; mkf 3 (-1074); mkf 9 870; mkf 5 860] in
  let m := fun a => if a <? 50 then nth (Z.to_nat a) xs fzero else m a in
  legal_build Dbl false (avx_build Dbl false) /\ legal_build Dbl false (c_build Dbl false) /\
  fits (@KSum Dbl) false = true /\ all_finite (read m 0 1 5) = true /\
  forallb (fun x : F Dbl => lead [mkf 1 900 : F Dbl] <=? dindex x) (read m 0 1 5) = true /\
  let words b := map (fun a => bits (fst (run_deposit b false KSum 3 5 0 1 0 1 100 1 (snd (junk Dbl 0)) m) a)) (zseq 100 6) in
  words (avx_build Dbl false) = words (c_build Dbl false) /\ words (sse_build Dbl false) = words (c_build Dbl false) /\
  forallb (fun b => negb (b =? 0)) (firstn 2 (words (avx_build Dbl false))) = true.
Proof.
  split; [apply file_legal|]. split; [apply file_legal|]. split; [reflexivity|]. split; [vm_compute; reflexivity|]. split; [vm_compute; reflexivity|].
  split; [vm_compute; reflexivity|]. split; vm_compute; reflexivity.
Qed.
Example C60_case :
  let m := spread some_data 2 in
  legal_build Flt true (avx_build Flt true) /\
  feq (fst (run_scan (avx_build Dbl false) false false 5 0 2 0 2 (fst (junk Dbl 0)) m)) (mkf 3 900) = true /\
  f_isinf (fst (run_scan (sse_build Dbl false) false true 5 0 2 8 (-2) (fst (junk Dbl 0)) m)) = true /\
  feq (fst (run_scan (sse_build Dbl false) false true 2 0 2 8 (-2) (fst (junk Dbl 0)) m)) (fmul (mkf 5 (-1000)) (mkf 7 850)) = true /\
  feq (fst (run_scan (sse_build Dbl true) true false 4 2 1 0 0 (fst (junk Dbl 0)) m)) (mkf 3 900) = true.
Proof. split; [apply file_legal|]. split; [vm_compute; reflexivity|]. split; [vm_compute; reflexivity|]. split; vm_compute; reflexivity. Qed.
Example C61_case :
  let m := spread some_data 2 in
  legal_build Dbl false (avx_build Dbl false) /\ legal_build Dbl true (sse_build Dbl true) /\
  feq (rdsum_code (avx_build Dbl false) (junk Dbl) 3 5 0 2 100 m) (mkf 7 850) = true /\
  feq (rdsum_code (sse_build Dbl false) (junk Dbl) 3 5 0 2 100 m) (mkf 7 850) = true /\
  feq (rdsum_code (c_build Dbl false) (junk Dbl) 3 5 8 (-2) 100 m) (mkf 7 850) = true /\
  feq (fst (rzsum_code (avx_build Dbl true) (junk Dbl) 3 5 0 1 100 m)) (fst (rzsum_code (sse_build Dbl true) (junk Dbl) 3 5 0 1 100 m)) = true.
Proof. split; [apply file_legal|]. split; [apply file_legal|]. repeat split; vm_compute; reflexivity. Qed.
(** The macros choose one of the three instruction sets, each of which is covered. *)
Example C61_macros : compiled_isa true false true false = AVX /\ compiled_isa true true true false = SSE /\ compiled_isa true true true true = SISD.
Proof. repeat split. Qed.
