(** * C94: accuracy of complex matrix products relative to the exact alpha * op(A) * op(B) + beta * C *)
From Coq Require Import ZArith Reals Bool List Lia Lra Permutation Ascii.
From Flocq Require Import Core BinarySingleNaN.
From Verif Require Import Fp Mem Binned Spec Client FpProofs BitProofs CoreArith SpecProofs WordProofs MemProofs AccProofs SumProofs ScaleProofs History ClientProofs ConvProofs SumError ConvFloat PropsSum PropsConv PropsAcc ComplexProofs PropsComplex Gen GenProofs Blas LaneProofs DriverProofs BlasSpec PropsBlas Gemv GemvSpec GemvProofs PropsGemv PropsApi BlasZ BlasZSpec PropsBlasZ GemvZ GemvZSpec GemvZProofs PropsGemvZ PropsGemmZ Exact PropsExact PropsSym PropsZReal PropsShuffleZ AccReal PropsAccuracy PropsAccuracyZ PropsZMat PropsUpdate.
Import ListNotations.
Open Scope R_scope.

Lemma fadd_round_real t (x y : F t) : is_finite (fadd x y) = true ->
  is_finite x = true /\ is_finite y = true /\ B2R (fadd x y) = RN t (B2R x + B2R y).
Proof.
  intros H. assert (FX : is_finite x = true) by (destruct x as [s|s| |s m e E], y as [s'|[]| |s' m' e' E']; try reflexivity; try discriminate H; destruct s; discriminate H).
  assert (FY : is_finite y = true) by (destruct y as [s'|s'| |s' m' e' E'], x as [s|s| |s m e E]; try reflexivity; try discriminate H; discriminate FX).
  split; [exact FX|]. split; [exact FY|].
  pose proof (Bplus_correct (prec t) (emax t) (prec_gt_0 t) (prec_lt_emax t) mode_NE x y FX FY) as C.
  rewrite fexp_FLT in C. unfold fadd in *. cbn [round_mode] in C. destruct (Rlt_bool _ _).
  - destruct C as [C _]. exact C.
  - destruct C as [C _]. assert (FF : is_finite_SF (B2SF (Bplus mode_NE x y)) = true) by (rewrite is_finite_SF_B2SF; exact H).
    rewrite C in FF. unfold binary_overflow in FF. destruct (overflow_to_inf mode_NE (Bsign x)) eqn:O; [discriminate FF|]. cbn in O. discriminate O.
Qed.

(** ** One complex product *)
Definition re_mul {t} (a b : F t * F t) : R := B2R (fst a) * B2R (fst b) - B2R (snd a) * B2R (snd b).
Definition im_mul {t} (a b : F t * F t) : R := B2R (fst a) * B2R (snd b) + B2R (snd a) * B2R (fst b).
Definition mag {t} (a : F t * F t) : R := Rabs (B2R (fst a)) + Rabs (B2R (snd a)).
(** The rounding of each part of a * b. *)
Definition mul_eps {t} (a b : F t * F t) : R := (2 + u_ t) * u_ t * (mag a * mag b) + 4 * bpow radix2 (emin t - 1).
Lemma two_products t x y : let P := RN t x in let Q := RN t y in
  Rabs (RN t (P + Q) - (x + y)) <= (2 + u_ t) * u_ t * (Rabs x + Rabs y) + 4 * bpow radix2 (emin t - 1).
Proof.
  intros P Q. pose proof (RN_any t x) as RX. pose proof (RN_any t y) as RY. pose proof (RN_any t (P + Q)) as RS. fold P in RX. fold Q in RY.
  pose proof (bpow_gt_0 radix2 (emin t - 1)) as G. assert (U : 0 < u_ t <= / 16777216) by (split; [apply bpow_gt_0|destruct t; cbn; lra]).
  set (h := bpow radix2 (emin t - 1)) in *. set (u := u_ t) in *. clearbody h u. pose proof (Rabs_pos x) as X0. pose proof (Rabs_pos y) as Y0.
  assert (SP : Rabs (P + Q) <= (1 + u) * (Rabs x + Rabs y) + 2 * h).
  { replace (P + Q) with (x + y + ((P - x) + (Q - y))) by ring. eapply Rle_trans; [apply Rabs_triang|].
    pose proof (Rabs_triang x y). pose proof (Rabs_triang (P - x) (Q - y)). lra. }
  replace (RN t (P + Q) - (x + y)) with ((RN t (P + Q) - (P + Q)) + ((P - x) + (Q - y))) by ring.
  eapply Rle_trans; [apply Rabs_triang|]. pose proof (Rabs_triang (P - x) (Q - y)) as T.
  assert (u * Rabs (P + Q) <= u * ((1 + u) * (Rabs x + Rabs y) + 2 * h)) by (apply Rmult_le_compat_l; lra).
  assert (u * h <= / 16777216 * h) by (apply Rmult_le_compat_r; lra). nra.
Qed.
Lemma mag_pos {t} (a : F t * F t) : 0 <= mag a.
Proof. unfold mag. pose proof (Rabs_pos (B2R (fst a))). pose proof (Rabs_pos (B2R (snd a))). lra. Qed.
Lemma mul_eps_pos {t} (a b : F t * F t) : 0 <= mul_eps a b.
Proof.
  unfold mul_eps. pose proof (bpow_gt_0 radix2 (emin t - 1)). pose proof (mag_pos a). pose proof (mag_pos b). pose proof (bpow_gt_0 radix2 (- prec t)).
  assert (0 <= mag a * mag b) by (apply Rmult_le_pos; auto). assert (0 <= (2 + u_ t) * u_ t) by (apply Rmult_le_pos; lra).
  assert (0 <= (2 + u_ t) * u_ t * (mag a * mag b)) by (apply Rmult_le_pos; auto). lra.
Qed.
Lemma mul_bound {t} (a b : F t * F t) e x y : (Rabs x + Rabs y <= mag a * mag b) ->
  e <= (2 + u_ t) * u_ t * (Rabs x + Rabs y) + 4 * bpow radix2 (emin t - 1) -> e <= mul_eps a b.
Proof.
  intros H HE. unfold mul_eps. pose proof (bpow_gt_0 radix2 (- prec t)). assert (0 <= (2 + u_ t) * u_ t) by (apply Rmult_le_pos; lra).
  pose proof (Rmult_le_compat_l _ _ _ H1 H). lra.
Qed.
Lemma times_re t (a z : F t * F t) : is_finite (fst (times_complex a z)) = true -> Rabs (B2R (fst (times_complex a z)) - re_mul a z) <= mul_eps a z.
Proof.
  unfold times_complex. destruct (is_complex a (mkf 1 0)) eqn:E.
  - intros _. unfold is_complex in E. apply andb_true_iff in E. destruct E as [E1 E2]. destruct (is_one_R (fst a) E1) as (_ & R1 & _).
    unfold re_mul. rewrite R1, (feq_zero_R _ E2). replace (B2R (fst z) - _) with 0 by ring. rewrite Rabs_R0. apply mul_eps_pos.
  - cbn [fst]. intros H. rewrite fsub_add in *. destruct (fadd_round_real t _ _ H) as (F1 & F2 & ->).
    assert (F2' : is_finite (fmul (snd z) (snd a)) = true) by (unfold fneg in F2; rewrite is_finite_Bopp in F2; exact F2).
    assert (EN : B2R (fneg (fmul (snd z) (snd a))) = RN t (- (B2R (snd z) * B2R (snd a)))).
    { unfold fneg. rewrite B2R_Bopp, (fmul_real_round t _ _ F2'), round_NE_opp. reflexivity. }
    rewrite EN, (fmul_real_round t _ _ F1). unfold re_mul.
    replace (B2R (fst a) * B2R (fst z) - B2R (snd a) * B2R (snd z)) with (B2R (fst z) * B2R (fst a) + - (B2R (snd z) * B2R (snd a))) by ring.
    eapply mul_bound; [|apply two_products]. rewrite Rabs_Ropp, !Rabs_mult. unfold mag.
    pose proof (Rabs_pos (B2R (fst a))). pose proof (Rabs_pos (B2R (snd a))). pose proof (Rabs_pos (B2R (fst z))). pose proof (Rabs_pos (B2R (snd z))). nra.
Qed.
Lemma times_im t (a z : F t * F t) : is_finite (snd (times_complex a z)) = true -> Rabs (B2R (snd (times_complex a z)) - im_mul a z) <= mul_eps a z.
Proof.
  unfold times_complex. destruct (is_complex a (mkf 1 0)) eqn:E.
  - intros _. unfold is_complex in E. apply andb_true_iff in E. destruct E as [E1 E2]. destruct (is_one_R (fst a) E1) as (_ & R1 & _).
    unfold im_mul. rewrite R1, (feq_zero_R _ E2). replace (B2R (snd z) - _) with 0 by ring. rewrite Rabs_R0. apply mul_eps_pos.
  - cbn [snd]. intros H. destruct (fadd_round_real t _ _ H) as (F1 & F2 & ->).
    rewrite (fmul_real_round t _ _ F1), (fmul_real_round t _ _ F2). unfold im_mul.
    replace (B2R (fst a) * B2R (snd z) + B2R (snd a) * B2R (fst z)) with (B2R (fst z) * B2R (snd a) + B2R (snd z) * B2R (fst a)) by ring.
    eapply mul_bound; [|apply two_products]. rewrite !Rabs_mult. unfold mag.
    pose proof (Rabs_pos (B2R (fst a))). pose proof (Rabs_pos (B2R (snd a))). pose proof (Rabs_pos (B2R (fst z))). pose proof (Rabs_pos (B2R (snd z))). nra.
Qed.

(** ** A whole entry *)
Definition re_mul3 {t} (alpha a b : F t * F t) : R := re_mul alpha a * B2R (fst b) - im_mul alpha a * B2R (snd b).
Definition im_mul3 {t} (alpha a b : F t * F t) : R := re_mul alpha a * B2R (snd b) + im_mul alpha a * B2R (fst b).
(** The real and the imaginary part of alpha * (sum of a_k b_k) + beta * c, exactly. *)
Definition exact_re {t} (alpha beta : F t * F t) (a b : Z -> F t * F t) (n : Z) (c : F t * F t) : R :=
  total (map (fun k => re_mul3 alpha (a k) (b k)) (zseq 0 n)) + re_mul beta c.
Definition exact_im {t} (alpha beta : F t * F t) (a b : Z -> F t * F t) (n : Z) (c : F t * F t) : R :=
  total (map (fun k => im_mul3 alpha (a k) (b k)) (zseq 0 n)) + im_mul beta c.
(** The effect of rounding alpha * a_k before it meets b_k, and beta * c. *)
Definition zalpha_eps {t} (alpha beta : F t * F t) (a b : Z -> F t * F t) (n : Z) (c : F t * F t) : R :=
  total (map (fun k => mul_eps alpha (a k) * mag (b k)) (zseq 0 n)) + mul_eps beta c.

Lemma re_sum {t} (p q : Z -> F t * F t) n : total (re_terms p q n) = total (map (fun k => re_mul (p k) (q k)) (zseq 0 n)).
Proof.
  unfold re_terms, re_mul. induction (zseq 0 n) as [|k l IH]; cbn [flat_map map app]; rewrite ?total_nil, ?total_cons; [reflexivity|]. rewrite IH. ring.
Qed.
Lemma im_sum {t} (p q : Z -> F t * F t) n : total (im_terms p q n) = total (map (fun k => im_mul (p k) (q k)) (zseq 0 n)).
Proof.
  unfold im_terms, im_mul. induction (zseq 0 n) as [|k l IH]; cbn [flat_map map app]; rewrite ?total_nil, ?total_cons; [reflexivity|]. rewrite IH. ring.
Qed.
Lemma total_near (f g e : Z -> R) (l : list Z) : (forall k, In k l -> Rabs (f k - g k) <= e k) -> Rabs (total (map f l) - total (map g l)) <= total (map e l).
Proof.
  induction l as [|k l IH]; intros H; cbn [map]; rewrite ?total_nil, ?total_cons; [rewrite Rminus_diag_eq, Rabs_R0 by reflexivity; lra|].
  assert (IH' := IH (fun k Hk => H k (or_intror Hk))). specialize (H k (or_introl eq_refl)).
  replace (f k + total (map f l) - (g k + total (map g l))) with ((f k - g k) + (total (map f l) - total (map g l))) by ring.
  eapply Rle_trans; [apply Rabs_triang|]. lra.
Qed.
Lemma mul_swap {t} (a b : F t * F t) : re_mul a b = re_mul b a /\ im_mul a b = im_mul b a.
Proof. unfold re_mul, im_mul. split; ring. Qed.
Lemma times_entry t (alpha a b : F t * F t) : is_finite (fst (times_complex alpha a)) = true -> is_finite (snd (times_complex alpha a)) = true ->
  Rabs (re_mul (times_complex alpha a) b - re_mul3 alpha a b) <= mul_eps alpha a * mag b /\
  Rabs (im_mul (times_complex alpha a) b - im_mul3 alpha a b) <= mul_eps alpha a * mag b.
Proof.
  intros F1 F2. pose proof (times_re t alpha a F1) as R1. pose proof (times_im t alpha a F2) as R2. set (p := times_complex alpha a) in *.
  assert (E1 : re_mul p b = B2R (fst p) * B2R (fst b) - B2R (snd p) * B2R (snd b)) by reflexivity.
  assert (E2 : im_mul p b = B2R (fst p) * B2R (snd b) + B2R (snd p) * B2R (fst b)) by reflexivity.
  rewrite E1, E2. clear E1 E2. unfold re_mul3, im_mul3, mag.
  set (x := B2R (fst b)) in *. set (y := B2R (snd b)) in *. set (r := re_mul alpha a) in *. set (s := im_mul alpha a) in *. set (e := mul_eps alpha a) in *.
  clearbody x y r s e. split.
  - replace (B2R (fst p) * x - B2R (snd p) * y - (r * x - s * y)) with ((B2R (fst p) - r) * x - (B2R (snd p) - s) * y) by ring.
    eapply Rle_trans; [unfold Rminus at 1; apply Rabs_triang|]. rewrite Rabs_Ropp, !Rabs_mult.
    pose proof (Rmult_le_compat_r _ _ _ (Rabs_pos x) R1). pose proof (Rmult_le_compat_r _ _ _ (Rabs_pos y) R2). lra.
  - replace (B2R (fst p) * y + B2R (snd p) * x - (r * y + s * x)) with ((B2R (fst p) - r) * y + (B2R (snd p) - s) * x) by ring.
    eapply Rle_trans; [apply Rabs_triang|]. rewrite !Rabs_mult.
    pose proof (Rmult_le_compat_r _ _ _ (Rabs_pos y) R1). pose proof (Rmult_le_compat_r _ _ _ (Rabs_pos x) R2). lra.
Qed.
Lemma total_zero (l : list Z) : total (map (fun _ => 0) l) = 0.
Proof. induction l as [|k l IH]; cbn [map]; rewrite ?total_nil, ?total_cons; [reflexivity|]. rewrite IH. ring. Qed.
Lemma mul_zero {t} (alpha a b : F t * F t) : is_complex alpha fzero = true ->
  re_mul alpha b = 0 /\ im_mul alpha b = 0 /\ re_mul3 alpha a b = 0 /\ im_mul3 alpha a b = 0.
Proof.
  unfold is_complex. intros H. apply andb_true_iff in H. destruct H as [H1 H2]. apply feq_zero_R in H1. apply feq_zero_R in H2.
  unfold re_mul3, im_mul3, re_mul, im_mul. rewrite H1, H2. repeat split; ring.
Qed.
Lemma entry_exact {t} (alpha beta : F t * F t) (a b : Z -> F t * F t) n c :
  let n' := if is_complex alpha fzero then 0%Z else n in let vs := zstarted beta c in
  (forall k, In k (zseq 0 n') -> is_finite (fst (times_complex alpha (a k))) = true /\ is_finite (snd (times_complex alpha (a k))) = true) ->
  zfinite vs = true ->
  Rabs (total (map (fun k => re_mul (times_complex alpha (a k)) (b k)) (zseq 0 n')) + total (map (fun v => B2R (fst v)) vs) - exact_re alpha beta a b n c)
    <= zalpha_eps alpha beta a b n c /\
  Rabs (total (map (fun k => im_mul (times_complex alpha (a k)) (b k)) (zseq 0 n')) + total (map (fun v => B2R (snd v)) vs) - exact_im alpha beta a b n c)
    <= zalpha_eps alpha beta a b n c.
Proof.
  intros n' vs HF HV.
  assert (P1 : Rabs (total (map (fun k => re_mul (times_complex alpha (a k)) (b k)) (zseq 0 n')) - total (map (fun k => re_mul3 alpha (a k) (b k)) (zseq 0 n))) <=
      total (map (fun k => mul_eps alpha (a k) * mag (b k)) (zseq 0 n)) /\
    Rabs (total (map (fun k => im_mul (times_complex alpha (a k)) (b k)) (zseq 0 n')) - total (map (fun k => im_mul3 alpha (a k) (b k)) (zseq 0 n))) <=
      total (map (fun k => mul_eps alpha (a k) * mag (b k)) (zseq 0 n))).
  { unfold n' in *. destruct (is_complex alpha fzero) eqn:E.
    - change (zseq 0 0) with (@nil Z). cbn [map]. rewrite total_nil, <- (total_zero (zseq 0 n)).
      split; apply total_near; intros k _; destruct (mul_zero alpha (a k) (b k) E) as (_ & _ & E1 & E2); rewrite ?E1, ?E2, Rminus_diag_eq, Rabs_R0 by reflexivity;
        (apply Rmult_le_pos; [apply mul_eps_pos|apply mag_pos]).
    - split; apply total_near; intros k Hk; destruct (HF k Hk) as [F1 F2]; apply (times_entry t alpha (a k) (b k) F1 F2). }
  assert (P2 : Rabs (total (map (fun v => B2R (fst v)) vs) - re_mul beta c) <= mul_eps beta c /\ Rabs (total (map (fun v => B2R (snd v)) vs) - im_mul beta c) <= mul_eps beta c).
  { unfold vs, zstarted in *. destruct (is_complex beta fzero) eqn:E.
    - cbn [map]. rewrite total_nil. destruct (mul_zero beta c c E) as (E1 & E2 & _). rewrite E1, E2, Rminus_diag_eq, Rabs_R0 by reflexivity. split; apply mul_eps_pos.
    - cbn [map]. rewrite !total_cons, !total_nil, !Rplus_0_r. apply andb_true_iff in HV. destruct HV as [V1 V2].
      unfold all_finite in V1, V2. cbn [map forallb] in V1, V2. rewrite andb_true_r in V1, V2. split; [now apply times_re|now apply times_im]. }
  unfold exact_re, exact_im, zalpha_eps. destruct P1 as [P1 P1'], P2 as [P2 P2']. split.
  - match goal with |- Rabs (?a + ?b - (?c + ?d)) <= _ => replace (a + b - (c + d)) with ((a - c) + (b - d)) by ring end. eapply Rle_trans; [apply Rabs_triang|]. lra.
  - match goal with |- Rabs (?a + ?b - (?c + ?d)) <= _ => replace (a + b - (c + d)) with ((a - c) + (b - d)) by ring end. eapply Rle_trans; [apply Rabs_triang|]. lra.
Qed.
Lemma zterms_fin {t} (p q : Z -> F t * F t) n vs : zfinite (zterms p q n ++ vs) = true ->
  (forall k, In k (zseq 0 n) -> is_finite (fst (p k)) = true /\ is_finite (snd (p k)) = true) /\
  (forall k, In k (zseq 0 n) -> is_finite (fst (q k)) = true /\ is_finite (snd (q k)) = true) /\ zfinite vs = true.
Proof.
  intros H. apply andb_true_iff in H. destruct H as [H1 H2]. rewrite map_app, all_finite_app in H1, H2. apply andb_true_iff in H1, H2.
  destruct H1 as [H1 V1], H2 as [H2 V2]. rewrite zterms_fst in H1. rewrite zterms_snd in H2. unfold all_finite in H1, H2. rewrite forallb_forall in H1, H2.
  assert (G1 : forall k, In k (zseq 0 n) -> is_finite (fmul (fst (p k)) (fst (q k))) = true).
  { intros k Hk. apply H1. apply in_flat_map. exists k. split; [exact Hk|now left]. }
  assert (G2 : forall k, In k (zseq 0 n) -> is_finite (fmul (snd (p k)) (fst (q k))) = true).
  { intros k Hk. apply H2. apply in_flat_map. exists k. split; [exact Hk|now left]. }
  assert (G3 : forall k, In k (zseq 0 n) -> is_finite (fmul (fst (p k)) (snd (q k))) = true).
  { intros k Hk. apply H2. apply in_flat_map. exists k. split; [exact Hk|right; now left]. }
  split; [|split].
  - intros k Hk. split; [exact (fmul_finite_l _ _ (G1 k Hk))|exact (fmul_finite_l _ _ (G2 k Hk))].
  - intros k Hk. specialize (G1 k Hk). specialize (G3 k Hk). rewrite fmul_comm in G1, G3. split; [exact (fmul_finite_l _ _ G1)|exact (fmul_finite_l _ _ G3)].
  - apply andb_true_iff. auto.
Qed.
Lemma entry_left {t} (alpha beta : F t * F t) (a b : Z -> F t * F t) n c :
  let p := fun k => times_complex alpha (a k) in let n' := if is_complex alpha fzero then 0%Z else n in let vs := zstarted beta c in
  zfinite (zterms p b n' ++ vs) = true ->
  Rabs (total (re_terms p b n' ++ map (fun v => B2R (fst v)) vs) - exact_re alpha beta a b n c) <= zalpha_eps alpha beta a b n c /\
  Rabs (total (im_terms p b n' ++ map (fun v => B2R (snd v)) vs) - exact_im alpha beta a b n c) <= zalpha_eps alpha beta a b n c.
Proof.
  intros p n' vs H. destruct (zterms_fin p b n' vs H) as (F1 & _ & FV). rewrite !total_app, re_sum, im_sum. exact (entry_exact alpha beta a b n c F1 FV).
Qed.
Lemma entry_right {t} (alpha beta : F t * F t) (a b : Z -> F t * F t) n c :
  let p := fun k => times_complex alpha (a k) in let n' := if is_complex alpha fzero then 0%Z else n in let vs := zstarted beta c in
  zfinite (zterms b p n' ++ vs) = true ->
  Rabs (total (re_terms b p n' ++ map (fun v => B2R (fst v)) vs) - exact_re alpha beta a b n c) <= zalpha_eps alpha beta a b n c /\
  Rabs (total (im_terms b p n' ++ map (fun v => B2R (snd v)) vs) - exact_im alpha beta a b n c) <= zalpha_eps alpha beta a b n c.
Proof.
  intros p n' vs H. destruct (zterms_fin b p n' vs H) as (_ & F1 & FV). rewrite !total_app, re_sum, im_sum.
  rewrite (map_ext (fun k => re_mul (b k) (p k)) (fun k => re_mul (p k) (b k))) by (intros k; apply mul_swap).
  rewrite (map_ext (fun k => im_mul (b k) (p k)) (fun k => im_mul (p k) (b k))) by (intros k; apply mul_swap).
  exact (entry_exact alpha beta a b n c F1 FV).
Qed.

(** ** reproBLAS_rzgemm, reproBLAS_rzgemv, within the restrictions of C40 and C47 *)
(** Each part of each entry is within the bound of C90 of the sum of its terms (C93), which is within [zalpha_eps] of that
    part of alpha * (op(A) op(B))_ij + beta * c_ij. *)
Theorem C94_gemm t tu b fold Order TransA TransB M N K (alpha beta : F t * F t) A lda B ldb C ldc CI bufA bufB (m : mem t) :
  (2 <= fold <= MAXFOLD t)%Z -> tuned t tu -> legal_gemm b -> (0 < M)%Z -> (0 < N)%Z -> (0 <= K)%Z ->
  let ldi := if is_row Order then N else M in
  let lenA := bufA_len b M K in let lenB := (mxt_block b * myt_block b)%Z in
  right_scaling Order TransA alpha ->
  (Z.min (Z.min K (Z.max (mx_block b) (mxt_block b))) (block_max tu) <= ENDURANCE t / 2)%Z ->
  zgemm_layout fold Order TransA TransB M N K A lda B ldb CI ldi bufA lenA bufB lenB -> (ldi <= ldc)%Z ->
  (forall i j o, (0 <= i < M)%Z -> (0 <= j < N)%Z -> o = 0%Z \/ o = 1%Z -> ~ zgemm_touched fold Order M N CI ldi bufA lenA bufB lenB (zelem_addr Order C ldc i j + o)%Z) ->
  (2 * K + 1 <= CAPACITY t)%Z ->
  let m' := rzgemm tu b fold Order TransA TransB M N K alpha A lda B ldb beta C ldc CI bufA bufB m in
  forall i j, (0 <= i < M)%Z -> (0 <= j < N)%Z ->
  let a := fun k => zop m Order TransA A lda i k in let b := fun k => zop m Order TransB B ldb k j in
  let p := fun k => times_complex alpha (a k) in
  let n := if is_complex alpha fzero then 0%Z else K in
  let Cij := zelem_addr Order C ldc i j in let c := complex_at m Cij in let vs := zstarted beta c in
  let tr := re_terms p b n ++ map (fun v => B2R (fst v)) vs in let ti := im_terms p b n ++ map (fun v => B2R (snd v)) vs in
  zfinite (zterms p b n ++ vs) = true ->
  (close_dot t fold tr (m' Cij) /\ Rabs (total tr - exact_re alpha beta a b K c) <= zalpha_eps alpha beta a b K c) /\
  (close_dot t fold ti (m' (Cij + 1)%Z) /\ Rabs (total ti - exact_im alpha beta a b K c) <= zalpha_eps alpha beta a b K c).
Proof.
  intros Hf HT LB HM HN HK ldi lenA lenB RS HE HL Hld HY HC m' i j Hi Hj a b' p n Cij c vs tr ti FZ.
  destruct (C93_zgemm t tu b fold Order TransA TransB M N K alpha beta A lda B ldb C ldc CI bufA bufB m Hf HT LB HM HN HK RS HE HL Hld HY HC i j Hi Hj FZ) as [G1 G2].
  destruct (entry_left alpha beta a b' K c FZ) as [E1 E2]. auto.
Qed.
Print Assumptions C94_gemm.
Theorem C94_gemv t tu b fold Order Trans M N (alpha beta : F t * F t) A lda X incX Y incY YI bufX bufA (m : mem t) :
  (2 <= fold <= MAXFOLD t)%Z -> tuned t tu -> legal_gemv b -> (0 < M)%Z -> (0 < N)%Z ->
  let rows := op_rows Trans M N in let cols := op_cols Trans M N in let lenA := (xt_block b * yt_block b)%Z in
  right_length b Order Trans M N ->
  (Z.min (Z.min cols (dot_block b Order Trans)) (block_max tu) <= ENDURANCE t / 2)%Z ->
  zgemv_layout fold Order Trans rows cols A lda X incX YI 1 bufX bufA lenA -> incY <> 0%Z ->
  (forall i o, (0 <= i < rows)%Z -> o = 0%Z \/ o = 1%Z -> ~ zgemv_touched fold rows YI 1 bufX cols bufA lenA (Y + 2 * (i * incY) + o)%Z) ->
  (2 * cols + 1 <= CAPACITY t)%Z ->
  let m' := rzgemv tu b fold Order Trans M N alpha A lda X incX beta Y incY YI bufX bufA m in
  forall i, (0 <= i < rows)%Z ->
  let a := fun j => zop m Order Trans A lda i j in let x := fun j => complex_at m (X + 2 * (j * incX))%Z in
  let q := fun j => times_complex alpha (x j) in
  let n := if is_complex alpha fzero then 0%Z else cols in
  let Yi := (Y + 2 * (i * incY))%Z in let y := complex_at m Yi in let vs := zstarted beta y in
  let tr := re_terms a q n ++ map (fun v => B2R (fst v)) vs in let ti := im_terms a q n ++ map (fun v => B2R (snd v)) vs in
  zfinite (zterms a q n ++ vs) = true ->
  (close_dot t fold tr (m' Yi) /\ Rabs (total tr - exact_re alpha beta x a cols y) <= zalpha_eps alpha beta x a cols y) /\
  (close_dot t fold ti (m' (Yi + 1)%Z) /\ Rabs (total ti - exact_im alpha beta x a cols y) <= zalpha_eps alpha beta x a cols y).
Proof.
  intros Hf HT LB HM HN rows cols lenA RL HE HL HY HU HC m' i Hi a x q n Yi y vs tr ti FZ.
  destruct (C93_zgemv t tu b fold Order Trans M N alpha beta A lda X incX Y incY YI bufX bufA m Hf HT LB HM HN RL HE HL HY HU HC i Hi FZ) as [G1 G2].
  destruct (entry_right alpha beta x a cols y FZ) as [E1 E2]. auto.
Qed.
Print Assumptions C94_gemv.
(** A case: alpha = 2 + 2I, a memory of ones (1 + I everywhere), K = 4, beta = 2: (2+2I)(4)(1+I)^2 + 2(1+I) = -14 + 18I, reached exactly. *)
Example C94_case :
  let two : F Dbl := mkf 1 1 in let alpha := (two, two) in let beta := (two, mkf 0 0 : F Dbl) in
  let one := fun _ : Z => (ones_mem 0%Z, ones_mem 0%Z) in
  right_scaling "r" "C" alpha /\ right_scaling "c" "N" alpha /\
  zfinite (zterms (fun k => times_complex alpha (one k)) one 4 ++ zstarted beta (one 0%Z)) = true /\
  exact_re alpha beta one one 4 (one 0%Z) = -14 /\ exact_im alpha beta one one 4 (one 0%Z) = 18 /\
  map toZ (map fst (zterms (fun k => times_complex alpha (one k)) one 4 ++ zstarted beta (one 0%Z))) = map (fun z => (z * 2 ^ 1074)%Z) [0; -4; 0; -4; 0; -4; 0; -4; 2]%Z.
Proof.
  intros two alpha beta one. assert (E1 : B2R (mkf 1 0 : F Dbl) = 1) by (apply (WordProofs.mkf_pow2 Dbl 0); vm_compute; split; congruence).
  assert (E2 : B2R two = 2) by (apply (WordProofs.mkf_pow2 Dbl 1); vm_compute; split; congruence).
  assert (E0 : B2R (mkf 0 0 : F Dbl) = 0) by (apply feq_zero_R; vm_compute; reflexivity).
  assert (Z4 : zseq 0 4 = [0; 1; 2; 3]%Z) by reflexivity.
  split; [left; reflexivity|]. split; [right; left; reflexivity|]. split; [vm_compute; reflexivity|].
  unfold exact_re, exact_im. rewrite Z4. cbn [map]. rewrite !total_cons, !total_nil. unfold re_mul3, im_mul3, re_mul, im_mul, alpha, beta, one, ones_mem. cbn [fst snd].
  rewrite !E0, !E1, !E2. split; [ring|]. split; [ring|]. vm_compute. reflexivity.
Qed.
