(** * C93: accuracy of matrix products alpha * op(A) * op(B) + beta * C for every alpha and beta *)
From Coq Require Import ZArith Reals Bool List Lia Lra Permutation Ascii.
From Flocq Require Import Core BinarySingleNaN.
From Verif Require Import Fp Mem Binned Spec Client FpProofs BitProofs CoreArith SpecProofs WordProofs MemProofs AccProofs SumProofs ScaleProofs History ClientProofs ConvProofs SumError ConvFloat PropsSum PropsConv PropsAcc ComplexProofs PropsComplex Gen GenProofs Blas LaneProofs DriverProofs BlasSpec PropsBlas Gemv GemvSpec GemvProofs PropsGemv PropsApi BlasZ BlasZSpec PropsBlasZ GemvZ GemvZSpec GemvZProofs PropsGemvZ PropsGemmZ Exact PropsExact PropsSym PropsZReal PropsShuffleZ AccReal PropsAccuracy PropsAccuracyZ PropsZMat.
Import ListNotations.
Open Scope R_scope.

(** The exact terms of an entry: the products p_k q_k (none when alpha = 0), and c * beta (unless beta = 0). *)
Definition update_terms {t} (alpha beta : F t) (p q : Z -> F t) (n : Z) (c : F t) : list R :=
  (if feq alpha fzero then [] else map (fun k => B2R (p k) * B2R (q k)) (zseq 0 n)) ++
  (if feq beta fzero then [] else [B2R c * B2R beta]).
(** alpha * (sum of a_k b_k) + beta * c, exactly. *)
Definition exact_update {t} (alpha beta : F t) (a b : Z -> F t) (n : Z) (c : F t) : R :=
  B2R alpha * total (map (fun k => B2R (a k) * B2R (b k)) (zseq 0 n)) + B2R beta * B2R c.
(** The effect of rounding a_k * alpha before it meets b_k. *)
Definition alpha_eps {t} (alpha : F t) (a b : Z -> F t) (n : Z) : R :=
  u_ t * total (map (fun k => Rabs (B2R alpha * B2R (a k) * B2R (b k))) (zseq 0 n)) +
  bpow radix2 (emin t - 1) * total (map (fun k => Rabs (B2R (b k))) (zseq 0 n)).

Lemma close_started t fold T (beta c : F t) (xs : list (F t)) (ts : list R) (pp : list (F t * F t)) (m : mem t) :
  (2 <= fold <= MAXFOLD t)%Z -> (Z.of_nat (length xs) + 1 <= CAPACITY t)%Z -> all_finite xs = true ->
  (feq beta fzero = true \/ is_finite (fmul c beta) = true) ->
  xs = map (fun '(x, y) => fmul x y) pp -> ts = map (fun '(x, y) => B2R x * B2R y) pp ->
  close_dot t fold (ts ++ if feq beta fzero then [] else [B2R c * B2R beta]) (ddbconv fold T (add_list fold T xs (start fold T beta c m))).
Proof.
  intros Hf HC FX HB EX ET. pose proof HC as HC'. rewrite CAPACITY_eq in HC'.
  assert (LS : (Z.of_nat (length (started beta c)) <= 1)%Z) by (unfold started; destruct (feq beta fzero); cbn [length]; lia).
  destruct (start_holds fold Hf T beta c m) as [S _].
  destruct (add_list_holds fold Hf T xs _ _ _ S) as [R _]; [rewrite app_length; lia|].
  destruct (sum_list_holds fold Hf T (xs ++ started beta c) m) as [Q _]; [rewrite app_length; lia|].
  rewrite (conv_acc fold Hf [] (rev xs ++ started beta c) [] (xs ++ started beta c) _ _ T T (perm_nil _)
             (Permutation_app (Permutation_sym (Permutation_rev _)) (Permutation_refl _)) R Q).
  apply (close_terms t fold T _ _ (pp ++ if feq beta fzero then [] else [(c, beta)])); auto.
  - rewrite app_length. lia.
  - rewrite all_finite_app, FX. unfold started. destruct (feq beta fzero) eqn:E; [reflexivity|]. destruct HB as [HB|HB]; [congruence|].
    unfold all_finite. cbn [forallb]. now rewrite HB.
  - rewrite map_app, EX. unfold started. destruct (feq beta fzero); reflexivity.
  - rewrite map_app, ET. destruct (feq beta fzero); reflexivity.
Qed.
Lemma fmul_finite_l {t} (x y : F t) : is_finite (fmul x y) = true -> is_finite x = true.
Proof. destruct x as [s|s| |s m e E], y as [s'|s'| |s' m' e' E']; intros H; try reflexivity; discriminate H. Qed.
Lemma feq_zero_R {t} (x : F t) : feq x fzero = true -> B2R x = 0.
Proof. destruct x as [s|s| |s m e E]; intros H; try reflexivity; destruct s; discriminate H. Qed.
Lemma total_cons x l : total (x :: l) = x + total l.
Proof. reflexivity. Qed.
Lemma total_nil : total [] = 0.
Proof. reflexivity. Qed.
Lemma total_app (l l' : list R) : total (l ++ l') = total l + total l'.
Proof. induction l as [|x l IH]; cbn [app]; rewrite ?total_nil, ?total_cons; [ring|]. rewrite IH. ring. Qed.
Lemma total_scale c (f : Z -> R) (l : list Z) : total (map (fun k => c * f k) l) = c * total (map f l).
Proof. induction l as [|x l IH]; cbn [map]; rewrite ?total_nil, ?total_cons; [ring|]. rewrite IH. ring. Qed.
Lemma total_pos (f : Z -> R) (l : list Z) : (forall k, 0 <= f k) -> 0 <= total (map f l).
Proof. intros Hp. induction l as [|x l IH]; cbn [map]; rewrite ?total_nil, ?total_cons; [lra|]. specialize (Hp x). lra. Qed.
Lemma rounded_alpha t (alpha : F t) (a b : Z -> F t) (l : list Z) :
  all_finite (map (fun k => fmul (fmul (a k) alpha) (b k)) l) = true ->
  Rabs (total (map (fun k => B2R (fmul (a k) alpha) * B2R (b k)) l) - B2R alpha * total (map (fun k => B2R (a k) * B2R (b k)) l)) <=
  u_ t * total (map (fun k => Rabs (B2R alpha * B2R (a k) * B2R (b k))) l) + bpow radix2 (emin t - 1) * total (map (fun k => Rabs (B2R (b k))) l).
Proof.
  induction l as [|k l IH]; intros FX; cbn [map]; rewrite ?total_nil, ?total_cons.
  - rewrite !Rmult_0_r, Rminus_0_r, Rabs_R0. lra.
  - unfold all_finite in FX. cbn [map forallb] in FX. apply andb_true_iff in FX. destruct FX as [F1 F2]. specialize (IH F2).
    apply fmul_finite_l in F1. rewrite (fmul_real_round t (a k) alpha F1). pose proof (RN_any t (B2R (a k) * B2R alpha)) as R.
    set (x := B2R (a k) * B2R alpha) in *. set (y := B2R (b k)) in *.
    replace (B2R alpha * B2R (a k) * y) with (x * y) by (unfold x; ring).
    match goal with |- Rabs (?P + ?Q - B2R alpha * (B2R (a k) * y + ?W)) <= _ => replace (P + Q - B2R alpha * (B2R (a k) * y + W)) with ((RN t x - x) * y + (Q - B2R alpha * W)) by (unfold x; ring) end.
    eapply Rle_trans; [apply Rabs_triang|]. rewrite !Rabs_mult.
    pose proof (Rmult_le_compat_r (Rabs y) _ _ (Rabs_pos y) R) as R2. lra.
Qed.
Lemma update_exact t (alpha beta : F t) (a b : Z -> F t) n c :
  all_finite (map (fun k => fmul (fmul (a k) alpha) (b k)) (zseq 0 n)) = true ->
  Rabs (total (update_terms alpha beta (fun k => fmul (a k) alpha) b n c) - exact_update alpha beta a b n c) <= alpha_eps alpha a b n.
Proof.
  intros FX. unfold update_terms, exact_update. rewrite total_app.
  assert (EB : total (if feq beta fzero then [] else [B2R c * B2R beta]) = B2R beta * B2R c).
  { destruct (feq beta fzero) eqn:E; rewrite ?total_cons, total_nil; [rewrite (feq_zero_R beta E)|]; ring. }
  rewrite EB. clear EB. pose proof (rounded_alpha t alpha a b (zseq 0 n) FX) as R. unfold alpha_eps.
  destruct (feq alpha fzero) eqn:E.
  - rewrite (feq_zero_R alpha E). rewrite total_nil, Rmult_0_l, !Rplus_0_l, Rminus_diag_eq by reflexivity. rewrite Rabs_R0.
    apply Rplus_le_le_0_compat; (apply Rmult_le_pos; [apply bpow_ge_0|]); apply total_pos; intros k; apply Rabs_pos.
  - replace (_ + B2R beta * B2R c - _) with (total (map (fun k => B2R (fmul (a k) alpha) * B2R (b k)) (zseq 0 n)) - B2R alpha * total (map (fun k => B2R (a k) * B2R (b k)) (zseq 0 n))) by ring.
    exact R.
Qed.

(** ** reproBLAS_rdgemm, reproBLAS_rdgemv *)
(** Each entry is within the bound of C55 of the sum of its terms, which differs from alpha * (op(A) op(B))_ij + beta * c_ij
    by the rounding of a_ik * alpha only. *)
Theorem C93_gemm t tu b fold Order TransA TransB M N K (alpha beta : F t) A lda B ldb C ldc CI bufA bufB (m : mem t) :
  (2 <= fold <= MAXFOLD t)%Z -> tuned t tu -> legal_gemm b -> (0 < M)%Z -> (0 < N)%Z -> (0 <= K)%Z ->
  let ldi := if is_row Order then N else M in
  let lenA := bufA_len b M K in let lenB := (mxt_block b * myt_block b)%Z in
  gemm_layout fold Order TransA TransB M N K A lda B ldb CI ldi bufA lenA bufB lenB -> (ldi <= ldc)%Z ->
  (forall i j, (0 <= i < M)%Z -> (0 <= j < N)%Z -> ~ gemm_touched fold Order M N CI ldi bufA lenA bufB lenB (elem_addr Order C ldc i j)) ->
  (K + 1 <= CAPACITY t)%Z ->
  (forall i j, (0 <= i < M)%Z -> (0 <= j < N)%Z -> all_finite (gemm_products m Order TransA TransB A lda alpha B ldb K i j) = true) ->
  let m' := rdgemm tu b fold Order TransA TransB M N K alpha A lda B ldb beta C ldc CI bufA bufB m in
  forall i j, (0 <= i < M)%Z -> (0 <= j < N)%Z ->
  let a := fun k => m (op_addr Order TransA A lda i k) in let b := fun k => m (op_addr Order TransB B ldb k j) in
  let c := m (elem_addr Order C ldc i j) in let r := m' (elem_addr Order C ldc i j) in
  feq beta fzero = true \/ is_finite (fmul c beta) = true ->
  let ts := update_terms alpha beta (fun k => fmul (a k) alpha) b K c in
  close_dot t fold ts r /\ Rabs (total ts - exact_update alpha beta a b K c) <= alpha_eps alpha a b K.
Proof.
  intros Hf HT LB HM HN HK ldi lenA lenB HL Hld HY HC HF m' i j Hi Hj a b' c r HB ts.
  destruct (C25_gemm t tu b fold Order TransA TransB M N K alpha beta A lda B ldb C ldc CI bufA bufB 0 m Hf HT LB HM HN HK HL Hld HY HC HF) as [G _].
  specialize (G i j Hi Hj). specialize (HF i j Hi Hj). cbv zeta in G. unfold r, m'. rewrite G. clear G r m'. split; [|now apply update_exact].
  unfold ts, update_terms. fold c. destruct (feq alpha fzero).
  - apply (close_started t fold 0 beta c [] [] []); auto. cbn [length]. lia.
  - apply (close_started t fold 0 beta c _ _ (map (fun k => (fmul (a k) alpha, b' k)) (zseq 0 K))); auto.
    + unfold gemm_products. rewrite map_length, zseq_length. lia.
    + rewrite map_map. reflexivity.
    + rewrite map_map. reflexivity.
Qed.
Print Assumptions C93_gemm.
Theorem C93_gemv t tu b fold Order Trans M N (alpha beta : F t) A lda X incX Y incY YI bufX bufA (m : mem t) :
  (2 <= fold <= MAXFOLD t)%Z -> tuned t tu -> legal_gemv b -> (0 < M)%Z -> (0 < N)%Z ->
  let rows := op_rows Trans M N in let cols := op_cols Trans M N in let lenA := (xt_block b * yt_block b)%Z in
  gemv_layout fold Order Trans rows cols A lda X incX YI 1 bufX bufA lenA -> incY <> 0%Z ->
  (forall i, (0 <= i < rows)%Z -> ~ gemv_touched fold rows YI 1 bufX cols bufA lenA (Y + i * incY)%Z) ->
  (cols + 1 <= CAPACITY t)%Z ->
  (forall i, (0 <= i < rows)%Z -> all_finite (gemv_products m Order Trans A lda alpha X incX cols i) = true) ->
  let m' := rdgemv tu b fold Order Trans M N alpha A lda X incX beta Y incY YI bufX bufA m in
  forall i, (0 <= i < rows)%Z ->
  let a := fun j => m (op_addr Order Trans A lda i j) in let x := fun j => m (X + j * incX)%Z in
  let y := m (Y + i * incY)%Z in let r := m' (Y + i * incY)%Z in
  feq beta fzero = true \/ is_finite (fmul y beta) = true ->
  let ts := update_terms alpha beta (fun j => fmul (x j) alpha) a cols y in
  close_dot t fold ts r /\ Rabs (total ts - exact_update alpha beta x a cols y) <= alpha_eps alpha x a cols.
Proof.
  intros Hf HT LB HM HN rows cols lenA HL HY HU HC HF m' i Hi a x y r HB ts.
  destruct (C25_gemv t tu b fold Order Trans M N alpha beta A lda X incX Y incY YI bufX bufA 0 m Hf HT LB HM HN HL HY HU HC HF) as [G _].
  specialize (G i Hi). specialize (HF i Hi). cbv zeta in G. unfold r, m'. rewrite G. clear G r m'.
  assert (Hc : (0 <= cols)%Z) by (unfold cols, op_cols; destruct (is_notrans Trans); lia).
  assert (EP : gemv_products m Order Trans A lda alpha X incX cols i = map (fun j => fmul (fmul (x j) alpha) (a j)) (zseq 0 cols)).
  { unfold gemv_products. apply map_ext. intros j. apply fmul_comm. }
  split; [|apply update_exact; fold cols in HF; rewrite <- EP; exact HF].
  unfold ts, update_terms. fold cols. fold cols in HF. fold y. destruct (feq alpha fzero).
  - apply (close_started t fold 0 beta y [] [] []); auto. cbn [length]. lia.
  - apply (close_started t fold 0 beta y _ _ (map (fun j => (fmul (x j) alpha, a j)) (zseq 0 cols))); auto.
    + fold cols. rewrite EP, map_length, zseq_length. lia.
    + fold cols. rewrite EP, map_map. reflexivity.
    + rewrite map_map. reflexivity.
Qed.
Print Assumptions C93_gemv.

(** ** Complex products, within the restrictions of C40 and C47 *)
Lemma one_R t : is_one (mkf 1 0 : F t) = true /\ B2R (mkf 1 0 : F t) = 1.
Proof.
  assert (H : is_one (mkf 1 0 : F t) = true) by (destruct t; vm_compute; reflexivity). split; [exact H|]. destruct (is_one_R _ H) as (_ & R & _). exact R.
Qed.
Lemma zterms_started t fold (p q : Z -> F t * F t) n (vs : list (F t * F t)) (m : mem t) r : (2 <= fold <= MAXFOLD t)%Z -> (0 <= n)%Z ->
  (2 * n + Z.of_nat (length vs) <= CAPACITY t)%Z -> zfinite (zterms p q n ++ vs) = true ->
  sum_value fold 0 (map fst (zterms p q n ++ vs)) m (fst r) -> sum_value fold 0 (map snd (zterms p q n ++ vs)) m (snd r) ->
  close_dot t fold (re_terms p q n ++ map (fun v => B2R (fst v)) vs) (fst r) /\
  close_dot t fold (im_terms p q n ++ map (fun v => B2R (snd v)) vs) (snd r).
Proof.
  intros Hf Hn HC FZ V1 V2. pose proof (zterms_length p q n Hn) as HL. apply andb_true_iff in FZ. destruct FZ as [F1 F2].
  unfold sum_value in V1, V2. rewrite F1 in V1. rewrite F2 in V2. rewrite V1, V2. destruct (one_R t) as [O1 O2]. split.
  - apply (close_terms t fold 0 _ _ (pairs (fun k => (fst (p k), fst (q k))) (fun k => (fneg (snd (p k)), snd (q k))) (zseq 0 n) ++ map (fun v => (fst v, mkf 1 0)) vs)); auto.
    + rewrite map_length, app_length. lia.
    + rewrite !map_app, zterms_fst, pairs_map, map_map. f_equal.
      * unfold pairs. apply flat_map_ext. intros k. now rewrite fmul_neg_l.
      * apply map_ext. intros v. cbv beta iota. now rewrite fmul_one.
    + rewrite map_app, pairs_map, map_map. f_equal.
      * unfold re_terms, pairs. apply flat_map_ext. intros k. unfold fneg. now rewrite B2R_Bopp.
      * apply map_ext. intros v. cbv beta iota. rewrite O2, Rmult_1_r. reflexivity.
  - apply (close_terms t fold 0 _ _ (pairs (fun k => (snd (p k), fst (q k))) (fun k => (fst (p k), snd (q k))) (zseq 0 n) ++ map (fun v => (snd v, mkf 1 0)) vs)); auto.
    + rewrite map_length, app_length. lia.
    + rewrite !map_app, zterms_snd, pairs_map, map_map. f_equal.
      apply map_ext. intros v. cbv beta iota. now rewrite fmul_one.
    + rewrite map_app, pairs_map, map_map. f_equal.
      apply map_ext. intros v. cbv beta iota. rewrite O2, Rmult_1_r. reflexivity.
Qed.
Lemma zstarted_length {t} (beta y : F t * F t) : (Z.of_nat (length (zstarted beta y)) <= 1)%Z.
Proof. unfold zstarted. destruct (is_complex beta fzero); cbn [length]; lia. Qed.
(** Each part of each entry is within the bound of C90 of the sum of the exact products of the two parts of
    alpha * op(A)_ik (as computed) and op(B)_kj, and of that part of beta * c_ij (as computed). *)
Theorem C93_zgemm t tu b fold Order TransA TransB M N K (alpha beta : F t * F t) A lda B ldb C ldc CI bufA bufB (m : mem t) :
  (2 <= fold <= MAXFOLD t)%Z -> tuned t tu -> legal_gemm b -> (0 < M)%Z -> (0 < N)%Z -> (0 <= K)%Z ->
  let ldi := if is_row Order then N else M in
  let lenA := bufA_len b M K in let lenB := (mxt_block b * myt_block b)%Z in
  right_scaling Order TransA alpha ->
  (Z.min (Z.min K (Z.max (mx_block b) (mxt_block b))) (block_max tu) <= ENDURANCE t / 2)%Z ->
  zgemm_layout fold Order TransA TransB M N K A lda B ldb CI ldi bufA lenA bufB lenB -> (ldi <= ldc)%Z ->
  (forall i j o, (0 <= i < M)%Z -> (0 <= j < N)%Z -> o = 0%Z \/ o = 1%Z -> ~ zgemm_touched fold Order M N CI ldi bufA lenA bufB lenB (zelem_addr Order C ldc i j + o)%Z) ->
  (2 * K + 1 <= CAPACITY t)%Z ->
  let m' := rzgemm tu b fold Order TransA TransB M N K alpha A lda B ldb beta C ldc CI bufA bufB m in
  forall i j, (0 <= i < M)%Z -> (0 <= j < N)%Z ->
  let p := fun k => times_complex alpha (zop m Order TransA A lda i k) in let q := fun k => zop m Order TransB B ldb k j in
  let n := if is_complex alpha fzero then 0%Z else K in
  let Cij := zelem_addr Order C ldc i j in let vs := zstarted beta (complex_at m Cij) in
  zfinite (zterms p q n ++ vs) = true ->
  close_dot t fold (re_terms p q n ++ map (fun v => B2R (fst v)) vs) (m' Cij) /\
  close_dot t fold (im_terms p q n ++ map (fun v => B2R (snd v)) vs) (m' (Cij + 1)%Z).
Proof.
  intros Hf HT LB HM HN HK ldi lenA lenB RS HE HL Hld HY HC m' i j Hi Hj p q n Cij vs FZ.
  destruct (C47_rzgemm_partial t tu b fold Order TransA TransB M N K alpha beta A lda B ldb C ldc CI bufA bufB 0 m Hf HT LB HM HN HK RS HE HL Hld HY HC) as [G _].
  specialize (G i j Hi Hj). cbv zeta in G. fold Cij in G. fold vs in G. destruct G as [G1 G2].
  assert (EZ : (if is_complex alpha fzero then [] else zgemm_products m Order TransA TransB A lda alpha B ldb K i j) = zterms p q n).
  { unfold n. destruct (is_complex alpha fzero); reflexivity. }
  rewrite EZ in G1, G2. pose proof (zstarted_length beta (complex_at m Cij)) as LV. fold vs in LV.
  assert (0 <= n <= K)%Z by (unfold n; destruct (is_complex alpha fzero); lia).
  apply (zterms_started t fold p q n vs m (m' Cij, m' (Cij + 1)%Z)); auto; lia.
Qed.
Print Assumptions C93_zgemm.
Theorem C93_zgemv t tu b fold Order Trans M N (alpha beta : F t * F t) A lda X incX Y incY YI bufX bufA (m : mem t) :
  (2 <= fold <= MAXFOLD t)%Z -> tuned t tu -> legal_gemv b -> (0 < M)%Z -> (0 < N)%Z ->
  let rows := op_rows Trans M N in let cols := op_cols Trans M N in let lenA := (xt_block b * yt_block b)%Z in
  right_length b Order Trans M N ->
  (Z.min (Z.min cols (dot_block b Order Trans)) (block_max tu) <= ENDURANCE t / 2)%Z ->
  zgemv_layout fold Order Trans rows cols A lda X incX YI 1 bufX bufA lenA -> incY <> 0%Z ->
  (forall i o, (0 <= i < rows)%Z -> o = 0%Z \/ o = 1%Z -> ~ zgemv_touched fold rows YI 1 bufX cols bufA lenA (Y + 2 * (i * incY) + o)%Z) ->
  (2 * cols + 1 <= CAPACITY t)%Z ->
  let m' := rzgemv tu b fold Order Trans M N alpha A lda X incX beta Y incY YI bufX bufA m in
  forall i, (0 <= i < rows)%Z ->
  let p := fun j => zop m Order Trans A lda i j in let q := fun j => times_complex alpha (complex_at m (X + 2 * (j * incX))%Z) in
  let n := if is_complex alpha fzero then 0%Z else cols in
  let Yi := (Y + 2 * (i * incY))%Z in let vs := zstarted beta (complex_at m Yi) in
  zfinite (zterms p q n ++ vs) = true ->
  close_dot t fold (re_terms p q n ++ map (fun v => B2R (fst v)) vs) (m' Yi) /\
  close_dot t fold (im_terms p q n ++ map (fun v => B2R (snd v)) vs) (m' (Yi + 1)%Z).
Proof.
  intros Hf HT LB HM HN rows cols lenA RL HE HL HY HU HC m' i Hi p q n Yi vs FZ.
  destruct (C40_rzgemv_partial t tu b fold Order Trans M N alpha beta A lda X incX Y incY YI bufX bufA 0 m Hf HT LB HM HN RL HE HL HY HU HC) as [G _].
  specialize (G i Hi). cbv zeta in G. fold Yi in G. fold vs in G. destruct G as [G1 G2]. fold cols in G1, G2.
  assert (Hc : (0 <= cols)%Z) by (unfold cols, op_cols; destruct (is_notrans Trans); lia).
  assert (EZ : (if is_complex alpha fzero then [] else zgemv_products m Order Trans A lda alpha X incX cols i) = zterms p q n).
  { unfold n. destruct (is_complex alpha fzero); reflexivity. }
  rewrite EZ in G1, G2. pose proof (zstarted_length beta (complex_at m Yi)) as LV. fold vs in LV.
  assert (0 <= n <= cols)%Z by (unfold n; destruct (is_complex alpha fzero); lia).
  apply (zterms_started t fold p q n vs m (m' Yi, m' (Yi + 1)%Z)); auto; lia.
Qed.
Print Assumptions C93_zgemv.

(** A case meeting the hypotheses: the layouts of C24_case, C25_case, C40_case and C47_case; alpha = beta = 2 and a memory of ones. *)
Example C93_case :
  let two : F Dbl := mkf 1 1 in let p := fun k : Z => fmul (ones_mem k) two in
  let ts := update_terms two two p ones_mem 4 (ones_mem 0%Z) in
  (forall Order TransA TransB i j, all_finite (gemm_products ones_mem Order TransA TransB 0 6 two 100 6 4 i j) = true) /\
  (forall Order Trans i, all_finite (gemv_products ones_mem Order Trans 0 6 two 100 2 5 i) = true) /\
  is_finite (fmul (ones_mem 0%Z) two) = true /\
  ts = [2; 2; 2; 2; 2] /\ exact_update two two ones_mem ones_mem 4 (ones_mem 0%Z) = 10 /\ total ts = 10 /\
  max_abs 2 ts /\ not_tiny Dbl 3 2 /\ in_range Dbl (Rabs 10 + prod_eps Dbl 5 10 + 1001 / 1000 * sum_eps Dbl 3 5 2) /\
  forallb (fun OT => forallb (fun ij =>
      feq (rdgemm sample_tuning sample_mblocks 3 (fst (fst OT)) (snd (fst OT)) (snd OT) 2 3 4 two 0 6 100 6 two 200 4 1000 2000 3000 ones_mem
            (elem_addr (fst (fst OT)) 200 4 (fst ij) (snd ij))) (mkf 10 0)) [(0, 0); (1, 2)]%Z)
    [("R", "N", "T"); ("c", "T", "n")]%char = true /\
  (let q := fun _ : Z => (ones_mem 0%Z, ones_mem 0%Z) in let vs := zstarted (two, mkf 0 0) (q 0%Z) in
   zfinite (zterms q q 4 ++ vs) = true /\ length vs = 1%nat).
Proof.
  intros two p ts. assert (E1 : B2R (mkf 1 0 : F Dbl) = 1) by (apply (WordProofs.mkf_pow2 Dbl 0); vm_compute; split; congruence).
  assert (E2 : B2R two = 2) by (apply (WordProofs.mkf_pow2 Dbl 1); vm_compute; split; congruence).
  assert (EO : forall a, B2R (ones_mem a) = 1) by (intros a; exact E1).
  assert (EP : forall k, B2R (p k) = 2).
  { intros k. unfold p. rewrite fmul_comm. rewrite (fmul_one two (ones_mem k)); [exact E2|vm_compute; reflexivity]. }
  assert (Z4 : zseq 0 4 = [0; 1; 2; 3]%Z) by reflexivity. assert (FZ : feq two fzero = false) by (vm_compute; reflexivity).
  assert (ET : ts = [2; 2; 2; 2; 2]).
  { unfold ts, update_terms. rewrite FZ, Z4. cbn [map app]. rewrite !EP, !EO, !E2, Rmult_1_r, Rmult_1_l. reflexivity. }
  split; [intros; vm_compute; reflexivity|]. split; [intros; vm_compute; reflexivity|]. split; [vm_compute; reflexivity|].
  split; [exact ET|]. split.
  { unfold exact_update. rewrite Z4. cbn [map]. rewrite !EO, !E2. unfold total. cbn [fold_right]. ring. }
  rewrite ET. split; [unfold total; cbn [fold_right]; ring|]. split; [|split; [|split; [|split; [vm_compute; reflexivity|split; vm_compute; reflexivity]]]].
  - split; [|exists 2; split; [now left|apply Rabs_pos_eq; lra]]. intros x Hx. cbn [In] in Hx. rewrite Rabs_pos_eq; intuition lra.
  - unfold not_tiny. change 2 with (bpow radix2 1). apply bpow_le. vm_compute. discriminate.
  - assert (B : bpow radix2 (1024 - 20) <= / 2 * bpow radix2 1024 /\ 1000 <= bpow radix2 1024).
    { split; [|change 1000 with (IZR 1000); eapply Rle_trans with (bpow radix2 10); [cbn; lra|apply bpow_le; lia]].
      replace (/ 2) with (bpow radix2 (-1)) by (cbn; lra). rewrite <- bpow_plus. apply bpow_le. lia. }
    unfold in_range, prod_eps, sum_eps. change (emax Dbl) with 1024%Z. rewrite Rabs_pos_eq by lra.
    assert (bpow radix2 (- prec Dbl) <= 1) by (change 1 with (bpow radix2 0); apply bpow_le; vm_compute; discriminate).
    assert (bpow radix2 (emin Dbl - 1) <= 1) by (change 1 with (bpow radix2 0); apply bpow_le; vm_compute; discriminate).
    assert (bpow radix2 (- width Dbl * (3 - 1)) <= 1) by (change 1 with (bpow radix2 0); apply bpow_le; vm_compute; discriminate).
    lra.
Qed.
