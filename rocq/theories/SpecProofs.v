(** * Facts about the integer specification *)
From Coq Require Import ZArith Bool List Lia Permutation.
From Flocq Require Import Core BinarySingleNaN.
From Verif Require Import Fp Spec FpProofs Mem Binned BitProofs CoreArith.
Open Scope Z_scope.

(** Constants of the code agree with those of the specification. *)
Lemma WIDTH_eq t : WIDTH t = width t. Proof. destruct t; reflexivity. Qed.
Lemma MAXINDEX_eq t : MAXINDEX t = jmax t. Proof. destruct t; reflexivity. Qed.
Lemma MAXFOLD_eq t : MAXFOLD t = jmax t + 1. Proof. destruct t; reflexivity. Qed.
Lemma ENDURANCE_eq t : ENDURANCE t = endurance t. Proof. destruct t; reflexivity. Qed.
Lemma CAPACITY_eq t : CAPACITY t = capacity t. Proof. destruct t; reflexivity. Qed.

(** Numeric side conditions on the two formats. *)
Lemma width_pos t : 2 < width t. Proof. destruct t; reflexivity. Qed.
Lemma width_prec t : width t + 2 < prec t. Proof. destruct t; reflexivity. Qed.
Lemma width_prec2 t : prec t + 1 < 2 * width t. Proof. destruct t; reflexivity. Qed.
Lemma jmax_pos t : 2 < jmax t. Proof. destruct t; reflexivity. Qed.
Lemma unit_jmax t : 2 < unit_exp t (jmax t). Proof. destruct t; reflexivity. Qed.
Lemma quarter_endurance t : quarter t = endurance t * 2 ^ (width t - 1).
Proof. destruct t; reflexivity. Qed.
Lemma endurance_pos t : 0 < endurance t. Proof. destruct t; reflexivity. Qed.
Lemma quarter_pos t : 0 < quarter t. Proof. destruct t; reflexivity. Qed.
Lemma quarter8 t : 8 * quarter t = 2 ^ prec t. Proof. destruct t; reflexivity. Qed.
Lemma quarter4 t : 4 * quarter t = 2 ^ mw t. Proof. destruct t; reflexivity. Qed.
Lemma width_quarter t : 4 * 2 ^ (width t - 1) <= quarter t. Proof. destruct t; discriminate. Qed.

Definition span (t : ty) : Z := emax t - emin t.
Lemma unit_exp_le t j : 0 <= j -> unit_exp t j <= span t - width t + 1.
Proof.
  intros. unfold unit_exp, span. pose proof (jmax_pos t). pose proof (width_pos t).
  assert (0 <= Z.min j (jmax t) * width t) by (apply Z.mul_nonneg_nonneg; lia). lia.
Qed.
Lemma unit_exp_ge t j : 2 < unit_exp t j.
Proof.
  pose proof (unit_jmax t). unfold unit_exp in *. rewrite Z.min_id in H.
  pose proof (width_pos t).
  assert (Z.min j (jmax t) * width t <= jmax t * width t) by (apply Z.mul_le_mono_nonneg_r; lia).
  lia.
Qed.
Lemma unit_exp_succ t j : unit_exp t j - width t <= unit_exp t (j + 1) <= unit_exp t j.
Proof. unfold unit_exp. pose proof (width_pos t). nia. Qed.
Lemma unit_exp_0 t : unit_exp t 0 = span t - width t + 1.
Proof. unfold unit_exp, span. pose proof (jmax_pos t). rewrite Z.min_l by lia. ring. Qed.
Lemma unit_exp_in t j : j <= jmax t -> unit_exp t j = span t - width t + 1 - j * width t.
Proof. intros. unfold unit_exp, span. rewrite Z.min_l by lia. ring. Qed.

Lemma stored_exp_pos t j : 0 < j -> stored_exp t j = unit_exp t j.
Proof. intros. unfold stored_exp. destruct (Z.eqb_spec j 0); lia. Qed.
Lemma stored_exp_0 t : stored_exp t 0 = span t - prec t.
Proof. unfold stored_exp. simpl. rewrite unit_exp_0. ring. Qed.
Lemma stored_exp_ge t j : 0 <= j -> 2 < stored_exp t j.
Proof.
  intros. destruct (Z.eq_dec j 0) as [->|].
  - rewrite stored_exp_0. destruct t; reflexivity.
  - rewrite stored_exp_pos by lia. apply unit_exp_ge.
Qed.
Lemma stored_exp_le t j : 0 <= j -> stored_exp t j + prec t <= span t.
Proof.
  intros. destruct (Z.eq_dec j 0) as [->|].
  - rewrite stored_exp_0. lia.
  - rewrite stored_exp_pos by lia. pose proof (width_prec2 t). pose proof (jmax_pos t). pose proof (width_pos t).
    unfold unit_exp, span.
    assert (1 * width t <= Z.min j (jmax t) * width t) by (apply Z.mul_le_mono_nonneg_r; lia). lia.
Qed.

Lemma toZ_span t (x : F t) : Z.abs (toZ x) < 2 ^ span t.
Proof. destruct (repr_toZ t x) as (_ & _ & _ & _ & _ & H). exact H. Qed.

(** Remainders shrink. *)
Lemma remainder_bound t X n : Z.abs X <= 2 ^ span t ->
  Z.abs (remainder t X n) <= 2 ^ (unit_exp t (Z.of_nat n) + width t - 1).
Proof.
  intros HX. pose proof (width_pos t). induction n as [|n IH].
  - cbn [remainder Z.of_nat]. rewrite unit_exp_0.
    replace (span t - width t + 1 + width t - 1) with (span t) by lia. exact HX.
  - cbn [remainder]. set (u := unit_exp t (Z.of_nat n)) in *.
    pose proof (unit_exp_ge t (Z.of_nat n)). fold u in H0.
    pose proof (rhaz_near (remainder t X n) (2 ^ u) (pow2_pos u ltac:(lia))).
    pose proof (unit_exp_succ t (Z.of_nat n)) as S. fold u in S.
    rewrite Nat2Z.inj_succ, <- Z.add_1_r.
    apply Z.le_trans with (2 ^ (u - 1)).
    + assert (E : 2 ^ u = 2 ^ (u - 1) * 2)
        by (replace u with (u - 1 + 1) at 1 by lia; rewrite Z.pow_add_r by lia; reflexivity).
      rewrite E in H1 |- *. lia.
    + apply Z.pow_le_mono_r; lia.
Qed.

Lemma remainder_abs_le t X n : Z.abs (remainder t X n) <= Z.abs X.
Proof.
  induction n; cbn [remainder]; [lia|].
  etransitivity; [apply rhaz_rem_le|exact IHn].
  apply pow2_pos. pose proof (unit_exp_ge t (Z.of_nat n)). lia.
Qed.

Lemma slice_bound t X j : 0 <= j -> Z.abs X <= 2 ^ span t -> Z.abs (slice t X j) <= 2 ^ (width t - 1).
Proof.
  intros Hj HX. unfold slice. pose proof (unit_exp_ge t j). pose proof (width_pos t).
  apply rhaz_le.
  - apply pow2_pos; lia.
  - apply Z.lt_le_incl, pow2_pos; lia.
  - rewrite <- Z.pow_add_r by lia.
    pose proof (remainder_bound t X (Z.to_nat j) HX) as R. rewrite Z2Nat.id in R by easy.
    replace (width t - 1 + unit_exp t j) with (unit_exp t j + width t - 1) by lia. exact R.
Qed.

(** Bins before [bin_of X] get nothing. *)
Lemma below_bin t X j : 0 <= j < bin_of t X -> 2 * Z.abs X < 2 ^ unit_exp t j.
Proof.
  intros Hj. unfold bin_of in Hj. pose proof (width_pos t). pose proof (unit_exp_ge t j).
  destruct (Z.eqb_spec X 0) as [->|N].
  - simpl. apply pow2_pos. lia.
  - pose proof (Z.log2_spec (Z.abs X) ltac:(lia)) as [_ L].
    set (l := Z.log2 (Z.abs X)) in *. fold (span t) in Hj.
    assert (A : j + 1 <= (span t - (l + 1)) / width t) by lia.
    assert (B : width t * (j + 1) <= span t - (l + 1)).
    { etransitivity; [apply Z.mul_le_mono_nonneg_l; [lia|exact A]|]. apply Z.mul_div_le. lia. }
    assert (C : unit_exp t j = span t - width t + 1 - j * width t) by (apply unit_exp_in; lia).
    assert (0 <= l) by apply Z.log2_nonneg.
    apply Z.lt_le_trans with (2 ^ (l + 2)).
    + replace (l + 2) with (Z.succ (Z.succ l)) by lia. rewrite (Z.pow_succ_r 2 (Z.succ l)) by lia. lia.
    + apply Z.pow_le_mono_r; lia.
Qed.
Lemma remainder_below t X n : Z.of_nat n <= bin_of t X -> remainder t X n = X.
Proof.
  induction n as [|n IH]; intros H; cbn [remainder]; auto.
  rewrite IH by lia. rewrite rhaz_small by (apply below_bin; lia). ring.
Qed.
Lemma slice_below t X j : 0 <= j < bin_of t X -> slice t X j = 0.
Proof.
  intros H. unfold slice. rewrite remainder_below by lia. apply rhaz_small, below_bin, H.
Qed.
Lemma remainder_succ t X j : 0 <= j ->
  remainder t X (Z.to_nat (j + 1)) = remainder t X (Z.to_nat j) - slice t X j * 2 ^ unit_exp t j.
Proof.
  intros. rewrite Z.add_1_r, Z2Nat.inj_succ by easy. cbn [remainder].
  rewrite Z2Nat.id by easy. reflexivity.
Qed.
Lemma slice_zero t j : slice t 0 j = 0.
Proof.
  unfold slice. assert (forall n, remainder t 0 n = 0) as R.
  { induction n; cbn [remainder]; auto. rewrite IHn. reflexivity. }
  rewrite R. reflexivity.
Qed.

Lemma bin_of_range t X : Z.abs X < 2 ^ span t -> 0 <= bin_of t X <= jmax t.
Proof.
  intros HX. unfold bin_of. pose proof (jmax_pos t). pose proof (width_pos t).
  destruct (Z.eqb_spec X 0); [lia|].
  assert (Z.log2 (Z.abs X) < span t) by (apply Z.log2_lt_pow2; lia).
  fold (span t).
  assert (0 <= (span t - (Z.log2 (Z.abs X) + 1)) / width t) by (apply Z.div_pos; lia). lia.
Qed.

(** ** Index of the code *)
Lemma dindex_spec t (x : F t) : is_finite x = true -> dindex x = bin_of t (toZ x).
Proof.
  intros Fx. unfold dindex, bin_of. rewrite feq_zero, MAXINDEX_eq, WIDTH_eq by easy.
  pose proof (width_pos t). pose proof (toZ_span t x) as TS.
  rewrite (EXP_val t x Fx).
  set (X := toZ x) in *.
  assert (LL : X <> 0 -> 0 <= Z.log2 (Z.abs X) < span t).
  { intros. split. apply Z.log2_nonneg. apply Z.log2_lt_pow2; lia. }
  destruct (Z.ltb_spec (Z.abs X) (2 ^ mw t)).
  - simpl (0 =? 0). cbv iota. destruct (Z.eqb_spec X 0) as [|N]; auto.
    f_equal. rewrite frexp_e_val by auto. fold X.
    unfold cdiv. rewrite Z.quot_div_nonneg; [f_equal; lia| |lia].
    specialize (LL N). unfold span in LL. lia.
  - pose proof (pow2_pos (mw t) ltac:(pose proof (mw_pos t); lia)).
    assert (N : X <> 0) by lia. specialize (LL N).
    assert (ML : mw t <= Z.log2 (Z.abs X)) by (apply Z.log2_le_pow2; lia).
    destruct (Z.eqb_spec (Z.log2 (Z.abs X) - mw t + 1) 0); [lia|].
    destruct (Z.eqb_spec X 0); [lia|].
    unfold cdiv. rewrite Z.quot_div_nonneg.
    + replace (emax t + EXP_BIAS t - (Z.log2 (Z.abs X) - mw t + 1))
        with (emax t - emin t - (Z.log2 (Z.abs X) + 1)) by (unfold EXP_BIAS, mw, emin; lia).
      symmetry. apply Z.min_l.
      apply Z.le_trans with ((span t - (mw t + 1)) / width t).
      * apply Z.div_le_mono; unfold span in *; lia.
      * destruct t; discriminate.
    + unfold EXP_BIAS, mw, span, emin in *. lia.
    + lia.
Qed.

Lemma dindex_range t (x : F t) : is_finite x = true -> 0 <= dindex x <= jmax t.
Proof. intros. rewrite dindex_spec by easy. apply bin_of_range, toZ_span. Qed.

(** ** Primary words *)
Definition priw (t : ty) (j n : Z) (p : F t) : Prop :=
  is_finite p = true /\ toZ p = n * 2 ^ stored_exp t j.
Definition inbin (t : ty) (n : Z) : Prop := 4 * quarter t <= n < 8 * quarter t.

Lemma priw_log2 t j n p : 0 <= j -> priw t j n p -> inbin t n ->
  Z.log2 (toZ p) = mw t + stored_exp t j /\ 0 < toZ p.
Proof.
  intros Hj [Fp V] Hn. pose proof (stored_exp_ge t j Hj). pose proof (quarter_pos t).
  unfold inbin in Hn. rewrite quarter4, quarter8 in Hn. pose proof (mw_pos t).
  pose proof (pow2_pos (stored_exp t j) ltac:(lia)). pose proof (pow2_pos (mw t) ltac:(lia)).
  split; [|rewrite V; apply Z.mul_pos_pos; lia].
  rewrite V, log2_mul_pow by lia. f_equal.
  apply Z.log2_unique; [lia|]. replace (Z.succ (mw t)) with (prec t) by (unfold mw; lia). lia.
Qed.
Lemma priw_EXP t j n p : 0 <= j -> priw t j n p -> inbin t n -> EXP p = stored_exp t j + 1.
Proof.
  intros Hj HP Hn. destruct (priw_log2 t j n p Hj HP Hn) as [L P]. pose proof (stored_exp_ge t j Hj).
  pose proof (mw_pos t).
  rewrite EXP_val by apply HP. rewrite Z.abs_eq by lia.
  destruct (Z.ltb_spec (toZ p) (2 ^ mw t)); [|lia].
  exfalso. apply Z.log2_lt_pow2 in H1; lia.
Qed.
Lemma priw_index t j n p : 0 <= j <= jmax t -> priw t j n p -> inbin t n -> dmindex p = j.
Proof.
  intros Hj HP Hn. unfold dmindex, cdiv. rewrite (priw_EXP t j n) by (auto; lia). rewrite WIDTH_eq.
  pose proof (width_pos t).
  destruct (Z.eq_dec j 0) as [->|N].
  - rewrite stored_exp_0. destruct t; reflexivity.
  - rewrite stored_exp_pos, unit_exp_in by lia.
    replace (emax t + prec t - width t + 1 + EXP_BIAS t - (span t - width t + 1 - j * width t + 1))
      with (j * width t) by (unfold EXP_BIAS, span, emin; lia).
    apply Z.quot_mul. lia.
Qed.
Lemma priw_index0 t j n p : 0 <= j -> priw t j n p -> inbin t n -> dmindex0 p = (j =? 0).
Proof.
  intros Hj HP Hn. unfold dmindex0. rewrite (priw_EXP t j n) by auto.
  destruct (Z.eqb_spec j 0) as [->|N].
  - rewrite stored_exp_0. apply Z.eqb_eq. unfold span, emin, EXP_BIAS. lia.
  - rewrite stored_exp_pos by lia. apply Z.eqb_neq.
    pose proof (width_prec2 t). pose proof (jmax_pos t). pose proof (width_pos t).
    unfold unit_exp, EXP_BIAS, emin.
    assert (1 * width t <= Z.min j (jmax t) * width t) by (apply Z.mul_le_mono_nonneg_r; lia). lia.
Qed.
Lemma priw_nonzero t j n p : 0 <= j -> priw t j n p -> inbin t n ->
  feq p fzero = false /\ ISNANINF p = false.
Proof.
  intros Hj HP Hn. destruct (priw_log2 t j n p Hj HP Hn). destruct HP.
  rewrite feq_zero, ISNANINF_fin, H1 by easy. split; auto. apply Z.eqb_neq. lia.
Qed.
Lemma inbin_pos t n : inbin t n -> 0 < n < 2 ^ prec t.
Proof. unfold inbin. rewrite <- quarter8. pose proof (quarter_pos t). lia. Qed.

(** The bin table. *)
Definition zrange (n : nat) : list Z := map Z.of_nat (seq 0 n).
Lemma zrange_in n j : 0 <= j < Z.of_nat n -> In j (zrange n).
Proof. intros. apply in_map_iff. exists (Z.to_nat j). rewrite in_seq. lia. Qed.
Definition bins_ok (t : ty) (j : Z) : bool :=
  is_finite (bins_entry t j) && (toZ (bins_entry t j) =? 6 * quarter t * 2 ^ stored_exp t j).
Lemma bins_all t : forallb (bins_ok t) (zrange (Z.to_nat (2 * jmax t + 1))) = true.
Proof. destruct t; vm_compute; reflexivity. Qed.
Lemma bins_spec t j : 0 <= j < 2 * jmax t + 1 -> priw t j (6 * quarter t) (bins_entry t j).
Proof.
  intros H. pose proof (bins_all t) as A. rewrite forallb_forall in A.
  specialize (A j). rewrite andb_true_iff in A || idtac.
  assert (I : In j (zrange (Z.to_nat (2 * jmax t + 1)))) by (apply zrange_in; pose proof (jmax_pos t); lia).
  apply A in I. unfold bins_ok in I. apply andb_prop in I. destruct I as [I1 I2].
  split; auto. now apply Z.eqb_eq.
Qed.
Lemma inbin_6 t : inbin t (6 * quarter t).
Proof. unfold inbin. pose proof (quarter_pos t). lia. Qed.
