(** * C76: index arithmetic stays within a C int *)
From Coq Require Import ZArith Bool List Lia.
From Verif Require Import Fp Binned Spec Gen GenProofs Blas BlasSpec Gemv PropsBlas PropsInt Params ParamsProofs Ints.
Import ListNotations.
Open Scope Z_scope.

(** The limits of the strides and sizes: the largest distance a routine may step, INT_MAX less one for the imaginary part. *)
Lemma small_int z : Z.abs z <= INT_MAX -> is_int z. Proof. unfold is_int, INT_MIN, INT_MAX. lia. Qed.

Ltac ints := repeat (apply Forall_cons; [apply small_int|]); try apply Forall_nil.
Lemma steps_in fuel : forall i hi step z, 0 < step -> In z (steps fuel i hi step) -> i <= z < hi.
Proof.
  induction fuel as [|f IH]; intros i hi step z Hs H; [destruct H|]. cbn [steps] in H. destruct (Z.ltb_spec i hi); [|destruct H].
  destruct H as [<-|H]; [lia|]. specialize (IH _ _ _ _ Hs H). lia.
Qed.
Lemma fa_flat {A} (P : Z -> Prop) (f : A -> list Z) l : (forall x, In x l -> Forall P (f x)) -> Forall P (flat_map f l).
Proof. intros H. apply Forall_forall. intros z Hz. apply in_flat_map in Hz. destruct Hz as (x & Hx & Hz). specialize (H x Hx). rewrite Forall_forall in H. auto. Qed.
Lemma fa_loop P lo hi step body : 0 < step -> (forall i, lo <= i < hi -> Forall P (body i) /\ P (i + step)) -> Forall P (loop lo hi step body).
Proof.
  intros Hs H. apply fa_flat. intros i Hi. apply steps_in in Hi; [|exact Hs]. destruct (H i Hi) as [H1 H2]. apply Forall_app. split; [exact H1|]. apply Forall_cons; [exact H2|apply Forall_nil].
Qed.
Lemma fa_block (P : Z -> Prop) i hi b body : P (i + b) -> (forall ii, i <= ii < hi -> ii < i + b -> Forall P (body ii) /\ P (ii + 1)) -> Forall P (block i hi b body).
Proof.
  intros H0 H. constructor; [exact H0|]. apply fa_flat. intros ii Hi. apply zseq_In in Hi. destruct (H ii ltac:(lia) ltac:(lia)) as [H1 H2]. apply Forall_app. split; [exact H1|]. apply Forall_cons; [exact H2|apply Forall_nil].
Qed.

(** ** The generated loops *)
Section unrolled.
  Context (c : Z) (inc : list Z) (n U : Z).
  Hypothesis Hc : c = 1 \/ c = 2.
  Hypothesis Hn : 0 <= n.
  Hypothesis HU : 0 < U.
  Hypothesis HnU : n + U <= INT_MAX.
  Hypothesis Hinc : forall x, In x inc -> Z.abs x * (c * Z.min n U) + 1 <= INT_MAX.
  Local Notation OK := (Forall is_int).
  Lemma prod_ok x l w : In x inc -> 0 <= l <= w -> w <= n -> w <= U -> Z.abs (x * (c * l)) + 1 <= INT_MAX.
  Proof.
    intros Hx Hl H1 H2. specialize (Hinc x Hx). rewrite Z.abs_mul, (Z.abs_eq (c * l)) by nia.
    assert (c * l <= c * Z.min n U) by nia. pose proof (Z.abs_nonneg x). nia.
  Qed.
  Lemma subs_ok w : w <= n -> w <= U -> OK (subscripts c inc w).
  Proof.
    intros H1 H2. apply fa_flat. intros l Hl. apply zseq_In in Hl. apply fa_flat. intros x Hx. pose proof (prod_ok x l w Hx ltac:(lia) H1 H2) as P.
    destruct (Z.eqb_spec c 1) as [->|].
    - ints. replace (x * l) with (x * (1 * l)) by ring. lia.
    - replace c with 2 in P by lia. ints; lia.
  Qed.
  Lemma adv_ok w : 0 <= w <= n -> w <= U -> OK (advance c inc w).
  Proof.
    intros H1 H2. unfold advance. apply Forall_forall. intros z Hz. apply in_map_iff in Hz. destruct Hz as (x & <- & Hx). apply small_int. pose proof (prod_ok x w w Hx ltac:(lia) ltac:(lia) H2). lia.
  Qed.
  Lemma rest_ok r : 0 <= r <= n -> r <= U -> OK (advance_rest c inc r).
  Proof.
    intros H1 H2. constructor; [apply small_int; lia|]. apply fa_flat. intros x Hx. pose proof (prod_ok x r r Hx ltac:(lia) ltac:(lia) H2) as P.
    destruct (Z.eqb_spec c 1) as [->|].
    - ints. replace (x * r) with (x * (1 * r)) by ring. lia.
    - replace c with 2 in P by lia. ints; lia.
  Qed.
  Lemma for_ok fuel : forall step w i, 0 < step <= U -> w <= step -> 0 <= i <= n ->
    OK (fst (for_ints fuel c inc step w n i)) /\ 0 <= snd (for_ints fuel c inc step w n i) <= n /\
    (n - i < Z.of_nat fuel * step + step -> n - snd (for_ints fuel c inc step w n i) < step).
  Proof.
    induction fuel as [|f IH]; intros step w i Hs Hw Hi; cbn [for_ints fst snd].
    - split; [ints; lia|]. split; [lia|]. lia.
    - destruct (Z.leb_spec (i + step) n) as [L|L].
      + specialize (IH step w (i + step) Hs Hw ltac:(lia)). destruct (for_ints f c inc step w n (i + step)) as [r i'] eqn:E. cbn [fst snd] in *. destruct IH as (I1 & I2 & I3).
        split; [|split; [exact I2|intros H; apply I3; lia]]. constructor; [apply small_int; lia|]. repeat (apply Forall_app; split); [apply subs_ok; lia|apply adv_ok; lia|exact I1].
      + cbn [fst snd]. split; [ints; lia|]. split; [lia|]. lia.
  Qed.
  Definition width_ok (s : stmt) : Prop := match s with ForLoop step w => 0 < step <= U /\ w <= step | IfFull w => 0 < w <= U | IfPartial => True end.
  (** r: what is left never exceeds U once the main loop has run. *)
  Lemma stmts_ok ss : forall i, Forall width_ok ss -> 0 <= i <= n -> (n - i <= U \/ exists step w l, ss = ForLoop step w :: l) -> OK (stmts_ints ss c inc n i).
  Proof.
    induction ss as [|s ss IH]; intros i HW Hi Hr; [constructor|]. inversion HW as [|? ? W1 W2]; subst. destruct s as [step w|w|]; cbn [stmts_ints].
    - cbn in W1. pose proof (for_ok (Z.to_nat n) step w 0 ltac:(lia) ltac:(lia) ltac:(lia)) as F. destruct (for_ints (Z.to_nat n) c inc step w n 0) as [r i'] eqn:E. cbn [fst snd] in F. destruct F as (F1 & F2 & F3).
      specialize (F3 ltac:(nia)). apply Forall_app. split; [exact F1|]. apply IH; [exact W2|exact F2|left; lia].
    - cbn in W1. destruct Hr as [Hr|(? & ? & ? & E)]; [|discriminate]. constructor; [apply small_int; lia|]. destruct (Z.leb_spec (i + w) n) as [L|L].
      + repeat (apply Forall_app; split); [apply subs_ok; lia|apply adv_ok; lia|apply IH; [exact W2|lia|left; lia]].
      + apply IH; [exact W2|lia|left; lia].
    - destruct Hr as [Hr|(? & ? & ? & E)]; [|discriminate]. destruct (Z.ltb_spec i n) as [L|L].
      + repeat (apply Forall_app; split); [apply subs_ok; lia|apply rest_ok; lia|apply IH; [exact W2|lia|left; lia]].
      + apply IH; [exact W2|lia|left; lia].
  Qed.
  Lemma rest_width fuel : forall ts u, u <= U -> Forall width_ok (gen_rest fuel ts u).
  Proof.
    induction fuel as [|f IH]; intros ts u Hu; [constructor|]. cbn [gen_rest]. destruct (Z.ltb_spec u 1); [constructor|]. destruct (u <? ts); [repeat constructor|].
    constructor; [cbn; lia|]. apply IH. unfold next_unroll. destruct (Z.eqb_spec (2 ^ Z.log2 u) u).
    - pose proof (Z.div_le_upper_bound u 2 u ltac:(lia) ltac:(lia)). lia.
    - pose proof (Z.log2_spec u ltac:(lia)). lia.
  Qed.
  Lemma unrolled_ok ts : OK (stmts_ints (iterate_unrolled ts U) c inc n 0).
  Proof.
    unfold iterate_unrolled. set (u := U / Z.max ts 1 * Z.max ts 1). assert (u <= U) by (unfold u; rewrite Z.mul_comm; apply Z.mul_div_le; lia).
    destruct (Z.ltb_spec u 1); [constructor|]. apply stmts_ok; [|lia|right; eauto]. constructor; [cbn; lia|]. apply rest_width.
    unfold next_unroll. destruct (Z.eqb_spec (2 ^ Z.log2 u) u).
    - pose proof (Z.div_le_upper_bound u 2 u ltac:(lia) ltac:(lia)). lia.
    - pose proof (Z.log2_spec u ltac:(lia)). lia.
  Qed.
End unrolled.

(** ** The reductions *)
(** Unrolling of at most 2^20 elements. *)
Definition moderate (tu : tuning) : Prop := a_unroll (amax_vec tu) <= 2 ^ 20 /\ pipe_width (dep_vec tu) * unroll_width (dep_vec tu) <= 2 ^ 20.
Lemma endurance_small t : ENDURANCE t <= 2 ^ 11. Proof. destruct t; vm_compute; discriminate. Qed.
Section reduction.
  Context (t : ty) (tu : tuning) (c : Z) (inc : list Z) (skip : Z -> bool) (N : Z).
  Hypothesis Hc : c = 1 \/ c = 2.
  Hypothesis HT : tuned t tu.
  Hypothesis HM : moderate tu.
  Hypothesis HN : N <= INT_MAX.
  Hypothesis Hinc : forall x, In x inc -> Z.abs x * (c * Z.min N (block_max tu)) + 1 <= INT_MAX.
  Lemma reduce_ok fuel : forall i d, 0 <= i -> 0 <= d <= ENDURANCE t -> Forall is_int (reduce_ints fuel (ENDURANCE t) tu c inc skip N i d).
  Proof.
    pose proof (endurance_small t) as ES. destruct HT as (HB & (_ & HA & _) & (_ & (pb & Hpb & HP) & _ & HU & _)). destruct HM as [M1 M2].
    assert (PP : 0 < pipe_width (dep_vec tu)) by (rewrite HP; apply Z.pow_pos_nonneg; lia).
    induction fuel as [|f IH]; intros i d Hi Hd; [constructor|]. cbn [reduce_ints]. destruct (Z.ltb_spec i N) as [L|L]; [|constructor].
    set (n := Z.min (N - i) (block_max tu)). assert (Hn : 0 <= n <= ENDURANCE t) by lia.
    assert (HX : forall U x, In x inc -> Z.abs x * (c * Z.min n U) + 1 <= INT_MAX).
    { intros U x Hx. specialize (Hinc x Hx). assert (c * Z.min n U <= c * Z.min N (block_max tu)) by nia. pose proof (Z.abs_nonneg x). nia. }
    assert (HX0 : forall j x, 0 <= j <= n -> In x inc -> Z.abs (x * (c * j)) + 1 <= INT_MAX).
    { intros j x Hj Hx. specialize (HX n x Hx). rewrite Z.abs_mul, (Z.abs_eq (c * j)) by nia. assert (c * j <= c * Z.min n n) by nia. pose proof (Z.abs_nonneg x). nia. }
    assert (BIG : INT_MAX = 2147483647) by reflexivity.
    constructor; [apply small_int; lia|]. apply Forall_app. split; [apply unrolled_ok; auto; lia|].
    constructor; [apply small_int; lia|]. destruct (skip i).
    - apply Forall_app. split; [|apply Forall_app; split; [|apply IH; lia]].
      + apply fa_flat. intros j Hj. apply zseq_In in Hj. apply fa_flat. intros x Hx. pose proof (HX0 j x ltac:(lia) Hx) as P. unfold element. destruct (Z.eqb_spec c 1) as [E|E].
        * ints. replace (j * x) with (x * (c * j)) by (rewrite E; ring). lia.
        * replace c with 2 in P by lia. replace (j * 2 * x) with (x * (2 * j)) by ring. ints; lia.
      + apply fa_flat. intros x Hx. pose proof (HX0 n x ltac:(lia) Hx) as P. unfold jump. destruct (Z.eqb_spec c 1) as [E|E].
        * ints. replace (n * x) with (x * (c * n)) by (rewrite E; ring). lia.
        * replace c with 2 in P by lia. replace (n * 2 * x) with (x * (2 * n)) by ring. ints; lia.
    - set (d' := if ENDURANCE t <? d + n then 0 else d). assert (0 <= d' /\ d' + n <= ENDURANCE t) by (unfold d'; destruct (Z.ltb_spec (ENDURANCE t) (d + n)); lia).
      constructor; [apply small_int; lia|]. constructor; [apply small_int; lia|]. apply Forall_app. split; [apply unrolled_ok; auto; nia|apply IH; lia].
  Qed.
End reduction.

(** Sums, absolute sums, dot products and their complex versions (c reals per element): any length, as long as one block of
    the vector (at most ENDURANCE elements) spans less than 2^31 reals. *)
Theorem C76_vector t tu c inc skip N : c = 1 \/ c = 2 -> tuned t tu -> moderate tu -> is_int N ->
  (forall x, In x inc -> Z.abs x * (c * Z.min N (block_max tu)) + 1 <= INT_MAX) ->
  Forall is_int (vector_ints t tu c inc skip N).
Proof.
  intros Hc HT HM [_ HN] Hinc. apply reduce_ok; auto; [lia|]. pose proof HT as [HB _]. lia.
Qed.
Print Assumptions C76_vector.
(** In particular every contiguous vector, and every stride up to 2^19. *)
Theorem C76_strides t tu c inc skip N : c = 1 \/ c = 2 -> tuned t tu -> moderate tu -> is_int N ->
  (forall x, In x inc -> Z.abs x <= 2 ^ 19 - 1) -> Forall is_int (vector_ints t tu c inc skip N).
Proof.
  intros Hc HT HM HN Hinc. apply C76_vector; auto. intros x Hx. specialize (Hinc x Hx). destruct HT as [HB _]. pose proof (endurance_small t). pose proof (Z.abs_nonneg x).
  change INT_MAX with 2147483647. destruct (Z.le_gt_cases (Z.min N (block_max tu)) 0) as [L|L].
  - assert (Z.abs x * (c * Z.min N (block_max tu)) <= 0) by (apply Z.mul_nonneg_nonpos; [lia|destruct Hc as [-> | ->]; lia]). lia.
  - change (2 ^ 19) with 524288 in *. change (2 ^ 11) with 2048 in *. assert (B : Z.min N (block_max tu) <= 2048) by lia.
    assert (C : 0 <= c * Z.min N (block_max tu) <= 4096) by (destruct Hc; subst c; lia).
    pose proof (Z.mul_le_mono_nonneg (Z.abs x) 524287 _ 4096 ltac:(lia) ltac:(lia) (proj1 C) (proj2 C)). lia.
Qed.
Print Assumptions C76_strides.
(** Whatever the argument file holds, the unrolling is at most 512 elements. *)
Theorem C76_tuning vector ts pipe unroll scan : vector_width ts -> ts <= 8 ->
  pipe_width (Params.read_vec vector ts pipe unroll) * unroll_width (Params.read_vec vector ts pipe unroll) <= 512 /\
  a_unroll (Params.read_avec ts scan) <= 64.
Proof.
  intros HV HT. assert (0 <= ts) by (destruct HV as [->|(a & Ha & ->)]; [lia|apply Z.pow_nonneg; lia]).
  unfold Params.read_vec, Params.read_avec. cbn [pipe_width unroll_width a_unroll].
  pose proof (pow_parse_range (Z.max 1 ts) (Z.max 1 ts * 8) pipe ltac:(lia)). pose proof (ParamsProofs.int_parse_range 1 8 1 unroll ltac:(lia)).
  pose proof (int_parse_range (Z.max 1 ts) (Z.max 1 ts * 8) (Z.max 1 ts) scan ltac:(lia)). nia.
Qed.
Print Assumptions C76_tuning.
(** The scans called directly: the counter runs up to the length. *)
Theorem C76_scan v c inc N : c = 1 \/ c = 2 -> 0 < a_unroll v -> 0 <= N -> N + a_unroll v <= INT_MAX ->
  (forall x, In x inc -> Z.abs x * (c * Z.min N (a_unroll v)) + 1 <= INT_MAX) -> Forall is_int (scan_ints v c inc N).
Proof. intros. apply unrolled_ok; auto. Qed.
Print Assumptions C76_scan.

(** ** Matrix products *)
Lemma mul_in a b A B : 0 <= a <= A -> 0 <= b <= B -> 0 <= a * b <= A * B.
Proof. intros. split; [apply Z.mul_nonneg_nonneg; lia|apply Z.mul_le_mono_nonneg; lia]. Qed.
Lemma row_in i k r c ld : 0 <= i < r -> 0 <= k < c -> c <= ld -> 0 <= i * ld /\ i * ld + k < r * ld.
Proof. intros. split; [apply Z.mul_nonneg_nonneg; lia|]. assert (i * ld + ld <= r * ld) by (replace (i * ld + ld) with ((i + 1) * ld) by ring; apply Z.mul_le_mono_nonneg_r; lia). lia. Qed.
(** Blocks: positive, and their products fit. *)
Definition gemv_blocks_ok (b : gemv_blocks) : Prop :=
  0 < y_block b /\ 0 < x_block b /\ 0 < yt_block b /\ 0 < xt_block b /\ 0 < t_block b /\ (xt_block b + t_block b) * (yt_block b + t_block b) <= INT_MAX.
Definition gemm_blocks_ok (b : gemm_blocks) : Prop :=
  0 < my_block b /\ 0 < mx_block b /\ 0 < myt_block b /\ 0 < mxt_block b /\ mxt_block b * myt_block b <= INT_MAX.

Section gemv.
  Context (t : ty) (tu : tuning) (b : gemv_blocks) (fold : Z) (one : bool) (skip : Z -> Z -> Z -> bool) (incX lda : Z).
  Hypothesis HT : tuned t tu.
  Hypothesis HM : moderate tu.
  Hypothesis HB : gemv_blocks_ok b.
  Hypothesis Hf : 2 <= fold <= MAXFOLD t.
  (** R outputs, S summands each; incY is 1. *)
  Context (R S : Z).
  Hypothesis HR : 0 <= R. Hypothesis HS : 0 <= S.
  Hypothesis HRB : R + Z.max (y_block b) (Z.max (yt_block b) (t_block b)) <= INT_MAX.
  Hypothesis HSB : S + Z.max (x_block b) (Z.max (xt_block b) (t_block b)) <= INT_MAX.
  Hypothesis HX : Z.abs incX * S + 1 <= INT_MAX.
  Hypothesis HY : R * dbnum fold <= INT_MAX.
  Lemma num_pos : 4 <= dbnum fold. Proof. unfold dbnum. lia. Qed.
  Lemma scale_ok : Forall is_int (scale_ints one S incX).
  Proof.
    unfold scale_ints. destruct one; [constructor|]. destruct HB as (B1 & B2 & _). apply fa_loop; [lia|]. intros j Hj. split; [|apply small_int; lia].
    ints. rewrite Z.abs_mul, Z.mul_comm. pose proof (mul_in (Z.abs incX) (Z.abs j) (Z.abs incX) S ltac:(lia) ltac:(lia)). lia.
  Qed.
  Lemma inc_ok j : 0 <= j < S -> Z.abs (j * buf_inc one incX) <= INT_MAX.
  Proof. intros Hj. unfold buf_inc. destruct HB as (B1 & B2 & _). pose proof (mul_in (Z.abs incX) (Z.abs j) (Z.abs incX) S ltac:(lia) ltac:(lia)). destruct one; rewrite Z.abs_mul; lia. Qed.
  Lemma vec_ok (x0 n : Z) f : 0 <= n <= S -> Forall is_int (vector_ints t tu 1 [1; buf_inc one incX] f n).
  Proof.
    intros Hn. destruct HB as (B1 & B2 & _). apply C76_vector; auto; [unfold is_int, INT_MIN; lia|]. intros x Hx.
    assert (Q : Z.abs x * S + 1 <= INT_MAX). { destruct Hx as [<-|[<-|[]]]; [lia|]. unfold buf_inc. destruct one; lia. }
    destruct HT as [HBB _]. pose proof (Z.abs_nonneg x). pose proof (mul_in (Z.abs x) (1 * Z.min n (block_max tu)) (Z.abs x) S ltac:(lia) ltac:(lia)). lia.
  Qed.
  Lemma out_ok ii : 0 <= ii < R -> is_int (ii * 1) /\ is_int (ii * 1 * dbnum fold).
  Proof. intros Hi. pose proof num_pos. destruct HB as (B1 & B2 & _). pose proof (mul_in ii (dbnum fold) R (dbnum fold) ltac:(lia) ltac:(lia)). rewrite Z.mul_1_r. split; apply small_int; lia. Qed.
  Lemma direct_ok : 0 <= lda -> R * lda <= INT_MAX -> Forall is_int (gemv_notrans_ints t tu b fold one skip R S lda incX 1).
  Proof.
    intros H1 H2. destruct HB as (B1 & B2 & _). unfold gemv_notrans_ints. apply Forall_app. split; [exact scale_ok|].
    apply fa_loop; [lia|]. intros i Hi. split; [|apply small_int; lia]. apply fa_loop; [lia|]. intros j Hj. split; [|apply small_int; lia].
    apply fa_block; [apply small_int; lia|]. intros ii Hii Hii'. split; [|apply small_int; lia]. destruct (out_ok ii ltac:(lia)) as [O1 O2].
    apply Forall_app. split; [|apply (vec_ok 0); lia].
    repeat (apply Forall_cons; [first [exact O1|exact O2|apply small_int]|]); try apply Forall_nil; [lia|pose proof (mul_in ii lda R lda ltac:(lia) ltac:(lia)); lia|apply inc_ok; lia].
  Qed.
  Lemma trans_ok : R <= lda -> S * lda <= INT_MAX -> Forall is_int (gemv_trans_ints t tu b fold one skip S R lda incX 1).
  Proof.
    intros H1 H2. pose proof HB as (B1 & B2 & B3 & B4 & B5 & B6). unfold gemv_trans_ints. apply Forall_app. split; [exact scale_ok|].
    pose proof out_ok as OO. pose proof (vec_ok 0) as VV. pose proof inc_ok as II.
    set (xt := xt_block b) in *. set (yt := yt_block b) in *. set (tb := t_block b) in *.
    assert (Ry : R + yt <= INT_MAX) by lia. assert (Rt : R + tb <= INT_MAX) by lia. assert (Sx : S + xt <= INT_MAX) by lia. assert (St : S + tb <= INT_MAX) by lia.
    pose proof (Z.min_spec tb xt) as MX. pose proof (Z.min_spec tb yt) as MY. set (mx := Z.min tb xt) in *. set (my := Z.min tb yt) in *.
    assert (X1 : 0 < mx <= tb) by lia. assert (Y1 : 0 < my <= tb) by lia.
    assert (Q0 : 0 <= xt * yt <= INT_MAX) by (pose proof (mul_in xt yt (xt + tb) (yt + tb) ltac:(lia) ltac:(lia)); lia).
    assert (Q4 : (yt + tb - 1) * xt + (xt + tb) <= INT_MAX) by (replace ((xt + tb) * (yt + tb)) with ((yt + tb - 1) * xt + xt + tb * (yt + tb)) in B6 by ring; pose proof (mul_in tb 1 tb (yt + tb) ltac:(lia) ltac:(lia)); lia).
    clear HRB HSB HX HY B6 MX MY HB B1 B2. clearbody xt yt tb mx my.
    constructor; [apply small_int; lia|].
    apply fa_loop; [lia|]. intros i Hi. split; [|apply small_int; lia]. apply fa_loop; [lia|]. intros j Hj. split; [|apply small_int; lia].
    apply Forall_app. split; [ints; lia|]. apply Forall_app. split.
    - apply fa_loop; [lia|]. intros jj [Hj1 Hj2]. apply Z.min_glb_lt_iff in Hj2. split; [|apply small_int; lia].
      apply fa_loop; [lia|]. intros ii [Hi1 Hi2]. apply Z.min_glb_lt_iff in Hi2. split; [|apply small_int; lia].
      apply fa_block; [apply small_int; lia|]. intros jjj Hjjj Hjjj'. split; [|apply small_int; lia]. apply fa_block; [apply small_int; lia|]. intros iii Hiii Hiii'. split; [|apply small_int; lia].
      pose proof (mul_in (iii - i) xt (yt + tb - 1) xt ltac:(lia) ltac:(lia)) as Q1.
      pose proof (row_in jjj iii S R lda ltac:(lia) ltac:(lia) H1) as Q2. ints; lia.
    - apply fa_block; [apply small_int; lia|]. intros ii Hii Hii'. split; [|apply small_int; lia]. destruct (OO ii ltac:(lia)) as [O1 O2].
      pose proof (mul_in (ii - i) xt yt xt ltac:(lia) ltac:(lia)) as Q1.
      pose proof (Z.min_spec xt (S - j)) as MS. apply Forall_app. split; [|apply VV; lia].
      repeat (apply Forall_cons; [first [exact O1|exact O2|apply small_int]|]); try apply Forall_nil; [lia|lia|lia|apply II; lia].
  Qed.
End gemv.

(** rdgemv: M rows and N columns of A; n outputs, k summands each.  No int overflows when the matrix spans less than 2^31
    elements (the whole leading dimension counted), the vectors too, and the n accumulators 2^31 words. *)
Theorem C76_gemv t tu b fold (row notrans one zero : bool) skip M N lda incX incY :
  2 <= fold <= MAXFOLD t -> tuned t tu -> moderate tu -> gemv_blocks_ok b -> 0 <= M -> 0 <= N ->
  let n := if notrans then M else N in let k := if notrans then N else M in
  n + Z.max (y_block b) (Z.max (yt_block b) (t_block b)) <= INT_MAX ->
  k + Z.max (x_block b) (Z.max (xt_block b) (t_block b)) <= INT_MAX ->
  (if row then N else M) <= lda -> (if row then M else N) * lda <= INT_MAX ->
  Z.abs incX * k + 1 <= INT_MAX -> Z.abs incY * n <= INT_MAX -> n * dbnum fold <= INT_MAX ->
  Forall is_int (rdgemv_ints t tu b fold row notrans one zero skip M N lda incX incY).
Proof.
  intros Hf HT HM HB H0 H1 n k Hn Hk HL HA HX HY HD. unfold rdgemv_ints. fold n.
  assert (N0 : 0 <= n) by (unfold n; destruct notrans; lia). assert (K0 : 0 <= k) by (unfold k; destruct notrans; lia).
  assert (CP : Forall is_int (loop 0 n 1 (fun i => [i * incY; i * dbnum fold]))).
  { destruct HB as (B1 & _). assert (4 <= dbnum fold) by (unfold dbnum; lia). apply fa_loop; [lia|]. intros i Hi. split; [|apply small_int; lia].
    pose proof (mul_in (Z.abs i) (Z.abs incY) n (Z.abs incY) ltac:(lia) ltac:(lia)). pose proof (mul_in i (dbnum fold) n (dbnum fold) ltac:(lia) ltac:(lia)).
    ints; [rewrite Z.abs_mul; lia|lia]. }
  apply Forall_app. split; [destruct zero; [constructor|exact CP]|]. apply Forall_app. split; [|exact CP].
  subst n k. destruct row, notrans.
  - apply direct_ok; auto; lia.
  - apply trans_ok; auto.
  - apply trans_ok; auto.
  - apply direct_ok; auto; lia.
Qed.
Print Assumptions C76_gemv.

Section gemm.
  Context (t : ty) (tu : tuning) (fold : Z) (skip : Z -> Z -> Z -> Z -> bool) (M N K : Z).
  Hypothesis HT : tuned t tu.
  Hypothesis HM : moderate tu.
  Hypothesis Hf : 2 <= fold <= MAXFOLD t.
  Hypothesis HMNK : 0 <= M /\ 0 <= N /\ 0 <= K.
  Local Notation OK := (Forall is_int).
  Lemma ones_ok n f : 0 <= n <= INT_MAX -> OK (vector_ints t tu 1 [1; 1] f n).
  Proof.
    intros Hn. apply C76_vector; auto; [unfold is_int, INT_MIN, INT_MAX in *; lia|]. destruct HT as [HB _]. pose proof (endurance_small t) as E. intros x [<-|[<-|[]]]; change (2 ^ 11) with 2048 in E; change INT_MAX with 2147483647; lia.
  Qed.
  Lemma scale_m_ok one lda : K <= lda -> M * lda <= INT_MAX -> M + 1 <= INT_MAX -> K + 1 <= INT_MAX -> OK (scale_matrix_ints one M K lda).
  Proof.
    intros H1 H2 H3 H4. unfold scale_matrix_ints. destruct one; [constructor|]. pose proof (mul_in M K M lda ltac:(lia) ltac:(lia)) as Q. constructor; [apply small_int; lia|].
    apply fa_loop; [lia|]. intros i Hi. split; [|apply small_int; lia]. apply fa_loop; [lia|]. intros k Hk. split; [|apply small_int; lia].
    pose proof (row_in i k M K K Hi Hk ltac:(lia)). pose proof (row_in i k M K lda Hi Hk H1). ints; lia.
  Qed.
  Lemma fill_ok J bj xt ld j k : 0 < bj -> 0 < xt -> xt * bj <= INT_MAX -> 0 <= j < J -> 0 <= k < K -> J + bj <= INT_MAX -> K + xt <= INT_MAX -> J <= ld -> K * ld <= INT_MAX ->
    OK (fill_ints J K bj xt xt ld j k).
  Proof.
    intros H1 H2 H3 Hj Hk H4 H5 H6 H7. unfold fill_ints. apply fa_block; [apply small_int; lia|]. intros kk Hkk Hkk'. split; [|apply small_int; lia].
    apply fa_block; [apply small_int; lia|]. intros jj Hjj Hjj'. split; [|apply small_int; lia].
    pose proof (row_in (jj - j) (kk - k) bj xt xt ltac:(lia) ltac:(lia) ltac:(lia)). pose proof (row_in kk jj K J ld ltac:(lia) ltac:(lia) H6). ints; lia.
  Qed.
  Lemma nest_ok (by_rows : bool) bi bj bk prep opA opB ldc : 0 < bi -> 0 < bj -> 0 < bk -> M + bi <= INT_MAX -> N + bj <= INT_MAX -> K + bk <= INT_MAX ->
    (if by_rows then N else M) <= ldc -> (if by_rows then M else N) * ldc * dbnum fold <= INT_MAX ->
    (forall i j k, 0 <= i < M -> 0 <= j < N -> 0 <= k < K -> OK (prep i j k)) ->
    (forall i j k ii, 0 <= i <= ii -> ii < M -> ii < i + bi -> OK (opA i j k ii)) ->
    (forall i j k jj, 0 <= j <= jj -> jj < N -> jj < j + bj -> OK (opB i j k jj)) ->
    OK (gemm_nest_ints t tu by_rows fold skip M N K bi bj bk prep opA opB ldc).
  Proof.
    intros B1 B2 B3 L1 L2 L3 HL HD HP HA HB. unfold gemm_nest_ints. assert (4 <= dbnum fold) by (unfold dbnum; lia).
    apply fa_loop; [lia|]. intros i Hi. split; [|apply small_int; lia]. apply fa_loop; [lia|]. intros j Hj. split; [|apply small_int; lia]. apply fa_loop; [lia|]. intros k Hk. split; [|apply small_int; lia].
    apply Forall_app. split; [apply HP; assumption|].
    assert (DOT : forall ii jj, i <= ii -> ii < M -> ii < i + bi -> j <= jj -> jj < N -> jj < j + bj ->
      OK ((K - k) :: opA i j k ii ++ opB i j k jj ++ [(if by_rows then ii else jj) * ldc; (if by_rows then ii else jj) * ldc + (if by_rows then jj else ii); ((if by_rows then ii else jj) * ldc + (if by_rows then jj else ii)) * dbnum fold] ++
        vector_ints t tu 1 [1; 1] (skip ii jj k) (Z.min bk (K - k)))).
    { intros ii jj I1 I2 I3 J1 J2 J3. constructor; [apply small_int; lia|]. apply Forall_app. split; [apply HA; lia|]. apply Forall_app. split; [apply HB; lia|]. apply Forall_app. split; [|apply ones_ok; lia].
      set (p := if by_rows then ii else jj). set (q := if by_rows then jj else ii). set (r := if by_rows then M else N) in *. set (s := if by_rows then N else M) in *.
      assert (P0 : 0 <= p < r) by (unfold p, r; destruct by_rows; lia). assert (Q0 : 0 <= q < s) by (unfold q, s; destruct by_rows; lia).
      pose proof (row_in p q r s ldc P0 Q0 HL). pose proof (mul_in (p * ldc + q) (dbnum fold) (r * ldc) (dbnum fold) ltac:(lia) ltac:(lia)).
      pose proof (mul_in (p * ldc + q) 1 (p * ldc + q) (dbnum fold) ltac:(lia) ltac:(lia)). ints; lia. }
    destruct by_rows.
    - apply fa_block; [apply small_int; lia|]. intros ii Hii Hii'. split; [|apply small_int; lia]. apply fa_block; [apply small_int; lia|]. intros jj Hjj Hjj'. split; [|apply small_int; lia]. apply DOT; lia.
    - apply fa_block; [apply small_int; lia|]. intros jj Hjj Hjj'. split; [|apply small_int; lia]. apply fa_block; [apply small_int; lia|]. intros ii Hii Hii'. split; [|apply small_int; lia]. apply DOT; lia.
  Qed.
End gemm.

(** rdgemm: no int overflows when A and B span less than 2^31 elements (leading dimensions counted), C too, and its M N
    accumulators of 2 fold words together less than 2^31 words. *)
Theorem C76_gemm t tu b fold (row nta ntb one zero : bool) skip M N K lda ldb ldc :
  2 <= fold <= MAXFOLD t -> tuned t tu -> moderate tu -> gemm_blocks_ok b -> 0 <= M -> 0 <= N -> 0 <= K ->
  M + Z.max (my_block b) (myt_block b) <= INT_MAX -> N + Z.max (my_block b) (myt_block b) <= INT_MAX -> K + Z.max (mx_block b) (mxt_block b) <= INT_MAX ->
  (if eqb row nta then K else M) <= lda -> (if eqb row nta then M else K) * lda <= INT_MAX ->
  (if eqb row ntb then N else K) <= ldb -> (if eqb row ntb then K else N) * ldb <= INT_MAX ->
  (if row then N else M) <= ldc -> (if row then M else N) * ldc <= INT_MAX ->
  M * N * dbnum fold <= INT_MAX ->
  Forall is_int (rdgemm_ints t tu b fold row nta ntb one zero skip M N K lda ldb ldc).
Proof.
  intros Hf HT HMo HB M0 N0 K0 LM LN LK A1 A2 B1 B2 C1 C2 HD. pose proof HB as (P1 & P2 & P3 & P4 & P5). unfold rdgemm_ints.
  destruct ((M =? 0) || (N =? 0)) eqn:EZ; [constructor|]. apply orb_false_elim in EZ. destruct EZ as [E1 E2]. apply Z.eqb_neq in E1, E2.
  assert (D4 : 4 <= dbnum fold) by (unfold dbnum; lia). set (d := dbnum fold) in *.
  set (R := if row then M else N) in *. set (S := if row then N else M) in *.
  assert (R0 : 0 < R) by (unfold R; destruct row; lia). assert (S0 : 0 < S) by (unfold S; destruct row; lia).
  assert (RS : R * S * d <= INT_MAX) by (unfold R, S; destruct row; [exact HD|rewrite (Z.mul_comm N M); exact HD]).
  assert (MN : M * N = R * S) by (unfold R, S; destruct row; ring).
  pose proof (mul_in (R * S) 1 (R * S) d ltac:(pose proof (mul_in R S R S ltac:(lia) ltac:(lia)); lia) ltac:(lia)) as Q1.
  assert (RL : R + 1 <= INT_MAX) by (unfold R; destruct row; lia). assert (SL : S + 1 <= INT_MAX) by (unfold S; destruct row; lia).
  assert (LM' : M + my_block b <= INT_MAX /\ M + myt_block b <= INT_MAX) by lia. assert (LN' : N + my_block b <= INT_MAX /\ N + myt_block b <= INT_MAX) by lia.
  assert (LK' : K + mx_block b <= INT_MAX /\ K + mxt_block b <= INT_MAX) by lia. clear LM LN LK.
  assert (CP : Forall is_int (loop 0 R 1 (fun i => loop 0 S 1 (fun j => [i * ldc; i * ldc + j; i * S; i * S + j; (i * S + j) * d])))).
  { apply fa_loop; [lia|]. intros i Hi. split; [|apply small_int; lia]. apply fa_loop; [lia|]. intros j Hj. split; [|apply small_int; lia].
    pose proof (row_in i j R S ldc Hi Hj C1). pose proof (row_in i j R S S Hi Hj ltac:(lia)). pose proof (mul_in (i * S + j) d (R * S) d ltac:(lia) ltac:(lia)).
    ints; lia. }
  apply Forall_app. split; [ints; lia|]. apply Forall_app. split; [destruct zero; [ints; lia|exact CP]|]. apply Forall_app. split; [|exact CP].
  clear CP C1 C2 ldc. unfold gemm_ints. destruct ((M =? 0) || (N =? 0) || (K =? 0)) eqn:EZ; [constructor|].
  assert (KP : 0 < K) by (apply orb_false_elim in EZ; destruct EZ as [_ EK]; apply Z.eqb_neq in EK; lia).
  set (yb := my_block b) in *. set (xb := mx_block b) in *. set (yt := myt_block b) in *. set (xt := mxt_block b) in *.
  apply Forall_app. split; [ints; pose proof (mul_in xt yt xt yt ltac:(lia) ltac:(lia)); lia|].
  assert (SC : eqb row nta = true -> Forall is_int (scale_matrix_ints one M K lda)).
  { intros E. rewrite E in A1, A2. apply scale_m_ok with (N := N); auto; lia. }
  assert (FA : eqb row nta = false -> forall i k, 0 <= i < M -> 0 <= k < K -> Forall is_int (fill_ints M K yt xt xt lda i k)).
  { intros E i k Hi Hk. rewrite E in A1, A2. apply fill_ok; auto; lia. }
  assert (FB : eqb row ntb = true -> forall j k, 0 <= j < N -> 0 <= k < K -> Forall is_int (fill_ints N K yt xt xt ldb j k)).
  { intros E j k Hj Hk. rewrite E in B1, B2. apply fill_ok; auto; lia. }
  assert (IN : forall (x y : Z) w, 0 <= x <= y -> y < x + w -> w = yt -> Forall is_int [y - x; (y - x) * xt]).
  { intros x y w Hx Hy ->. pose proof (mul_in (y - x) xt yt xt ltac:(lia) ltac:(lia)). pose proof (mul_in (y - x) 1 yt xt ltac:(lia) ltac:(lia)). rewrite Z.mul_comm in P5. ints; lia. }
  assert (AA : eqb row nta = true -> forall ii, 0 <= ii < M -> Forall is_int [ii * (if one then lda else K)]).
  { intros E ii Hi. rewrite E in A1, A2. pose proof (mul_in ii (if one then lda else K) M lda ltac:(lia) ltac:(destruct one; lia)). ints; lia. }
  assert (AB : eqb row ntb = false -> forall jj, 0 <= jj < N -> Forall is_int [jj * ldb]).
  { intros E jj Hj. rewrite E in B1, B2. pose proof (mul_in jj ldb N ldb ltac:(lia) ltac:(lia)). ints; lia. }
  assert (NE : forall bi bj bk prep opA opB, (bi = yb \/ bi = yt) -> (bj = yb \/ bj = yt) -> (bk = xb \/ bk = xt) ->
    (forall i j k, 0 <= i < M -> 0 <= j < N -> 0 <= k < K -> Forall is_int (prep i j k)) ->
    (forall i j k ii, 0 <= i <= ii -> ii < M -> ii < i + bi -> Forall is_int (opA i j k ii)) ->
    (forall i j k jj, 0 <= j <= jj -> jj < N -> jj < j + bj -> Forall is_int (opB i j k jj)) ->
    Forall is_int (gemm_nest_ints t tu row fold skip M N K bi bj bk prep opA opB S)).
  { intros bi bj bk prep opA opB Ei Ej Ek. apply nest_ok; auto; try (destruct Ei, Ej, Ek; subst; lia); unfold S; destruct row; lia. }
  destruct row, nta, ntb; cbn [eqb] in SC, FA, FB, AA, AB; repeat (apply Forall_app; split); auto; apply NE; auto;
    try (intros i j k ii H1 H2 H3; first [apply AA; [reflexivity|lia] | apply AB; [reflexivity|lia] | apply (IN _ _ yt H1 H3 eq_refl)]);
    try (intros i j k Hi Hj Hk; repeat (apply Forall_app; split); auto; constructor).
Qed.
Print Assumptions C76_gemm.

(** ** The limits are needed *)
Lemma for_last fuel c inc step w n : 0 < step -> forall i, 0 <= i -> n - i < Z.of_nat fuel * step + step ->
  exists z, In z (fst (for_ints fuel c inc step w n i)) /\ n < z.
Proof.
  intros Hs. induction fuel as [|f IH]; intros i Hi HF; cbn [for_ints fst].
  - exists (i + step). split; [now left|lia].
  - destruct (Z.leb_spec (i + step) n) as [L|L]; [|exists (i + step); split; [now left|lia]].
    destruct (IH (i + step) ltac:(lia) ltac:(lia)) as (z & Hz & Lz). destruct (for_ints f c inc step w n (i + step)) as [r i'] eqn:E. cbn [fst] in *.
    exists z. split; [|exact Lz]. right. apply in_or_app. right. apply in_or_app. right. exact Hz.
Qed.
Lemma scan_last v c inc n : legal_avec v -> 0 <= n -> exists z, In z (scan_ints v c inc n) /\ n < z.
Proof.
  intros (HV & HU & HD) Hn. unfold scan_ints, iterate_unrolled. set (u := a_unroll v / Z.max (a_type_size v) 1 * Z.max (a_type_size v) 1).
  assert (P1 : 0 < Z.max (a_type_size v) 1) by lia.
  assert (EU : u = a_unroll v) by (destruct HD as [q Hq]; unfold u; rewrite Hq, Z.div_mul by lia; reflexivity).
  destruct (Z.ltb_spec u 1); [lia|]. cbn [stmts_ints].
  destruct (for_last (Z.to_nat n) c inc (a_unroll v) u n HU 0 ltac:(lia)) as (z & Hz & Lz); [rewrite Z2Nat.id by lia; nia|].
  destruct (for_ints (Z.to_nat n) c inc (a_unroll v) u n 0) as [r i']. exists z. split; [apply in_or_app; now left|exact Lz].
Qed.
(** However it is tuned, a scan of INT_MAX elements evaluates i + unroll > INT_MAX. *)
Theorem C76_scan_refuted v c inc N : legal_avec v -> N = INT_MAX -> ~ Forall is_int (scan_ints v c inc N).
Proof.
  intros HV HN H. destruct (scan_last v c inc N HV) as (z & Hz & Lz); [rewrite HN; apply Z.leb_le; vm_compute; reflexivity|].
  rewrite Forall_forall in H. specialize (H z Hz). unfold is_int in H. lia.
Qed.
Print Assumptions C76_scan_refuted.
Lemma steps_all fuel : forall lo hi i, hi - lo <= Z.of_nat fuel -> lo <= i < hi -> In i (steps fuel lo hi 1).
Proof.
  induction fuel as [|f IH]; intros lo hi i Hf Hi; [lia|]. cbn [steps]. destruct (Z.ltb_spec lo hi); [|lia].
  destruct (Z.eq_dec i lo) as [->|]; [now left|right; apply IH; lia].
Qed.
Lemma in_loop lo hi body i z : lo <= i < hi -> In z (body i) -> In z (loop lo hi 1 body).
Proof. intros Hi Hz. apply in_flat_map. exists i. split; [apply steps_all; lia|apply in_or_app; now left]. Qed.
(** A square product, whatever the blocks: the subscript of the last accumulator. *)
Lemma rdgemm_last t tu b fold (row nta ntb one zero : bool) skip n K lda ldb ldc : 0 < n ->
  In (((n - 1) * n + (n - 1)) * dbnum fold) (rdgemm_ints t tu b fold row nta ntb one zero skip n n K lda ldb ldc).
Proof.
  intros Hn. unfold rdgemm_ints. destruct (Z.eqb_spec n 0); [lia|]. cbn [orb].
  assert (EI : (if row then n else n) = n) by (destruct row; reflexivity). rewrite EI.
  apply in_or_app. right. apply in_or_app. right. apply in_or_app. right.
  apply in_loop with (n - 1); [lia|]. apply in_loop with (n - 1); [lia|]. do 4 right. now left.
Qed.
(** An outer product of two vectors of 18920 elements: A, B and C span far less than 2^31 elements, but the subscript of the
    last accumulator does not fit in an int. *)
Theorem C76_gemm_refuted t tu b (row nta ntb one zero : bool) skip n K lda ldb ldc : n = 18920 -> K = 1 -> ldc = n ->
  n * ldc <= INT_MAX /\ n * K <= INT_MAX /\ ~ Forall is_int (rdgemm_ints t tu b 3 row nta ntb one zero skip n n K lda ldb ldc).
Proof.
  intros Hn HK HL. assert (B : n * n <= INT_MAX) by (rewrite Hn; apply Z.leb_le; vm_compute; reflexivity). split; [rewrite HL; exact B|].
  split; [rewrite Hn, HK; apply Z.leb_le; vm_compute; reflexivity|]. intros H. rewrite Forall_forall in H.
  pose proof (H _ (rdgemm_last t tu b 3 row nta ntb one zero skip n K lda ldb ldc ltac:(lia))) as I. apply proj2 in I.
  assert (C : INT_MAX < ((n - 1) * n + (n - 1)) * dbnum 3) by (rewrite Hn; apply Z.ltb_lt; vm_compute; reflexivity). clear Hn H HL. lia.
Qed.
Print Assumptions C76_gemm_refuted.

(** Non-vacuity: two 10000 by 10000 matrices, with the blocks of dbdgemm.ccog:25-30, all four transpositions. *)
Ltac num H := rewrite ?H; apply Z.leb_le; vm_compute; reflexivity.
Example C76_case n b : n = 10000 -> b = GemmBlocks 32 32768 32 32768 -> tuned Dbl sample_tuning /\ moderate sample_tuning /\ gemm_blocks_ok b /\
  forall row nta ntb one zero skip, Forall is_int (rdgemm_ints Dbl sample_tuning b 3 row nta ntb one zero skip n n n n n n).
Proof.
  intros Hn Hb.
  assert (HT : tuned Dbl sample_tuning) by apply C18_case. assert (HM : moderate sample_tuning) by (split; apply Z.leb_le; vm_compute; reflexivity). split; [exact HT|]. split; [exact HM|].
  assert (HB : gemm_blocks_ok b) by (rewrite Hb; repeat split; first [apply Z.ltb_lt; vm_compute; reflexivity|apply Z.leb_le; vm_compute; reflexivity]).
  split; [exact HB|]. intros.
  assert (N0 : 0 <= n) by num Hn. assert (N1 : n * n <= INT_MAX) by num Hn. assert (N2 : n * n * dbnum 3 <= INT_MAX) by num Hn.
  assert (B1 : n + Z.max (my_block b) (myt_block b) <= INT_MAX) by (rewrite Hb; num Hn).
  assert (B2 : n + Z.max (mx_block b) (mxt_block b) <= INT_MAX) by (rewrite Hb; num Hn).
  assert (F : 2 <= 3 <= MAXFOLD Dbl) by (split; apply Z.leb_le; vm_compute; reflexivity).
  assert (EI : forall c : bool, (if c then n else n) = n) by (intros []; reflexivity). clear Hn Hb.
  apply (C76_gemm Dbl sample_tuning b 3 row nta ntb one zero skip n n n n n n F HT HM HB N0 N0 N0 B1 B1 B2); rewrite ?EI; auto; lia.
Qed.
Example C76_gemv_case n b : n = 40000 -> b = GemvBlocks 8 32768 128 32768 8 -> gemv_blocks_ok b /\
  forall row notrans one zero skip, Forall is_int (rdgemv_ints Dbl sample_tuning b 3 row notrans one zero skip n n n (-3) 7).
Proof.
  intros Hn Hb.
  assert (HB : gemv_blocks_ok b) by (rewrite Hb; repeat split; first [apply Z.ltb_lt; vm_compute; reflexivity|apply Z.leb_le; vm_compute; reflexivity]).
  split; [exact HB|]. intros. destruct (C76_case 10000 _ eq_refl eq_refl) as (HT & HM & _).
  assert (N0 : 0 <= n) by num Hn. assert (N1 : n * n <= INT_MAX) by num Hn. assert (N2 : n * dbnum 3 <= INT_MAX) by num Hn.
  assert (B1 : n + Z.max (y_block b) (Z.max (yt_block b) (t_block b)) <= INT_MAX) by (rewrite Hb; num Hn).
  assert (B2 : n + Z.max (x_block b) (Z.max (xt_block b) (t_block b)) <= INT_MAX) by (rewrite Hb; num Hn).
  assert (S1 : Z.abs (-3) * n + 1 <= INT_MAX) by num Hn. assert (S2 : Z.abs 7 * n <= INT_MAX) by num Hn.
  assert (F : 2 <= 3 <= MAXFOLD Dbl) by (split; apply Z.leb_le; vm_compute; reflexivity).
  assert (EI : forall c : bool, (if c then n else n) = n) by (intros []; reflexivity). clear Hn Hb.
  apply (C76_gemv Dbl sample_tuning b 3 row notrans one zero skip n n n (-3) 7 F HT HM HB N0 N0); cbv zeta; rewrite ?EI; auto; lia.
Qed.
