(** * Accumulators in memory represent integer bin contents *)
From Coq Require Import ZArith Bool List Lia.
From Flocq Require Import Core BinarySingleNaN.
From Verif Require Import Fp Mem Binned Spec FpProofs BitProofs CoreArith SpecProofs WordProofs MemProofs.
Open Scope Z_scope.

(** A carry word holding the integer c. *)
Definition carw (t : ty) (c : Z) (w : F t) : Prop :=
  is_finite w = true /\ toZ w = c * 2 ^ (- emin t).

(** Position i holds bin k+i: primary offset V, carry count C. *)
Definition acc (t : ty) (fold k : Z) (V C : Z -> Z) (P W : Z -> F t) : Prop :=
  0 <= k <= jmax t /\
  forall i, 0 <= i < fold ->
    priw t (k + i) (6 * quarter t + V (k + i)) (P i) /\ carw t (C (k + i)) (W i).
Definition zero_below (k : Z) (V : Z -> Z) : Prop := forall j, 0 <= j < k -> V j = 0.
Definition within (t : ty) (fold k : Z) (V : Z -> Z) (lo hi : Z) : Prop :=
  forall i, 0 <= i < fold -> lo <= V (k + i) <= hi.

Lemma within_inbin t fold k V lo hi i : within t fold k V lo hi -> 0 <= i < fold ->
  - 2 * quarter t <= lo -> hi < 2 * quarter t -> inbin t (6 * quarter t + V (k + i)).
Proof. intros W Hi H1 H2. specialize (W i Hi). unfold inbin. lia. Qed.

(** ** Carry words *)
Lemma repr_int t c : Z.abs c <= 2 ^ prec t -> repr t (c * 2 ^ (- emin t)).
Proof.
  intros H. pose proof (prec_pos t). pose proof (prec_emax t). pose proof (emin_neg t).
  destruct (Z_lt_dec (Z.abs c) (2 ^ prec t)).
  - apply repr_le; try lia. unfold span. lia.
  - assert (E : c = 2 ^ prec t \/ c = - 2 ^ prec t) by lia.
    assert (R : repr t (2 ^ prec t * 2 ^ (- emin t))).
    { rewrite <- Z.pow_add_r by lia. rewrite <- (Z.mul_1_l (2 ^ _)).
      apply repr_scaled; try lia.
      - change (Z.abs 1) with 1. apply (Z.pow_gt_1 2); lia.
      - rewrite Z.mul_1_l, Z.abs_eq by (apply Z.lt_le_incl, pow2_pos; lia).
        apply Z.pow_lt_mono_r; unfold span; lia. }
    destruct E as [->| ->]; auto. rewrite Z.mul_opp_l. now apply repr_opp.
Qed.
Lemma ofZ_carw t c : Z.abs c <= 2 ^ prec t ->
  carw t c (ofZ c) /\ (c = 0 -> Bsign (ofZ c : F t) = false).
Proof.
  intros H. pose proof (emin_neg t). unfold ofZ.
  destruct (mkf_exact t c 0 ltac:(lia)) as (A & B & S).
  - rewrite Z.sub_0_l. now apply repr_int.
  - split; [split; auto; rewrite B; f_equal; f_equal; lia|].
    intros ->. exact S.
Qed.
Lemma carw_add t c1 c2 w1 w2 : carw t c1 w1 -> carw t c2 w2 -> Z.abs (c1 + c2) <= 2 ^ prec t ->
  carw t (c1 + c2) (fadd w1 w2).
Proof.
  intros [F1 V1] [F2 V2] H.
  destruct (fadd_exact t w1 w2 F1 F2) as (A & B & _).
  - rewrite V1, V2, <- Z.mul_add_distr_r. now apply repr_int.
  - split; auto. rewrite B, V1, V2. ring.
Qed.
Lemma carw_canon t c1 c2 w1 : carw t c1 w1 -> Z.abs c2 <= 2 ^ prec t -> Z.abs (c1 + c2) <= 2 ^ prec t ->
  fadd w1 (ofZ c2) = ofZ (c1 + c2).
Proof.
  intros [F1 V1] H2 H. pose proof (emin_neg t).
  destruct (ofZ_carw t c2 H2) as [[F2 V2] S2]. destruct (ofZ_carw t (c1 + c2) H) as [[F3 V3] S3].
  destruct (fadd_exact t w1 (ofZ c2) F1 F2) as (A & B & S).
  - rewrite V1, V2, <- Z.mul_add_distr_r. now apply repr_int.
  - pose proof (pow2_pos (- emin t) ltac:(lia)).
    apply float_ext; auto.
    + rewrite B, V1, V2, V3. ring.
    + destruct (Z.eq_dec (c1 + c2) 0) as [E|N].
      * right. rewrite (S3 E). unfold sgn_of in S.
        rewrite V1, V2, <- Z.mul_add_distr_r, E in S. cbn in S. rewrite S.
        destruct (Z.eq_dec c2 0) as [E2|N2]; [rewrite (S2 E2); apply andb_false_r|].
        (* opposite signs *)
        assert (SG : forall c (w : F t), carw t c w -> c <> 0 -> Bsign w = (c <? 0)).
        { clear. intros c w [Fw Vw] N. pose proof (emin_neg t). pose proof (pow2_pos (- emin t) ltac:(lia)).
          destruct w as [s|s| |s mm e Hb]; simpl in *; try discriminate.
          - symmetry in Vw. apply Z.mul_eq_0 in Vw. lia.
          - destruct (e_bounds t s mm e Hb eq_refl) as [He _]. pose proof (pow2_pos (e - emin t) ltac:(lia)).
            set (A := 2 ^ (e - emin t)) in *. set (B := 2 ^ (- emin t)) in *. pose proof (Pos2Z.is_pos mm).
            assert (0 < Z.pos mm * A) by (apply Z.mul_pos_pos; lia).
            destruct s; cbn [SpecFloat.cond_Zopp] in Vw; symmetry; [apply Z.ltb_lt|apply Z.ltb_ge].
            + change (Z.neg mm) with (- Z.pos mm) in Vw. destruct (Z_lt_dec c 0); auto.
              assert (0 <= c * B) by (apply Z.mul_nonneg_nonneg; lia). lia.
            + destruct (Z_lt_dec c 0); [|lia].
              assert (c * B < 0) by (apply Z.mul_neg_pos; lia). lia. }
        rewrite (SG c1 w1 (conj F1 V1)), (SG c2 _ (conj F2 V2)) by lia.
        destruct (Z.ltb_spec c1 0), (Z.ltb_spec c2 0); auto; lia.
      * left. rewrite B, V1, V2, <- Z.mul_add_distr_r. intros E. apply Z.mul_eq_0 in E. lia.
Qed.
Lemma carw_zero t : carw t 0 fzero. Proof. split; reflexivity. Qed.

(** ** Primary words *)
Lemma pri_word_priw t j v : 0 <= j -> priw t j (6 * quarter t + v mod quarter t) (pri_word t j v).
Proof.
  intros Hj. unfold pri_word, priw. pose proof (quarter_pos t). pose proof (quarter8 t).
  pose proof (Z.mod_pos_bound v (quarter t) ltac:(lia)). pose proof (stored_exp_ge t j Hj).
  pose proof (stored_exp_le t j Hj). pose proof (emin_neg t).
  destruct (mkf_exact t (6 * quarter t + v mod quarter t) (stored_exp t j + emin t)) as (A & B & _).
  - lia.
  - replace (stored_exp t j + emin t - emin t) with (stored_exp t j) by lia.
    apply repr_le; try lia.
  - split; auto. rewrite B. do 2 f_equal. lia.
Qed.
Lemma priw_inj t j n (p q : F t) : 0 <= j -> 0 < n -> priw t j n p -> priw t j n q -> p = q.
Proof.
  intros Hj Hn [F1 V1] [F2 V2]. apply float_ext; auto; try congruence.
  left. rewrite V1. pose proof (stored_exp_ge t j Hj). pose proof (pow2_pos (stored_exp t j) ltac:(lia)). nia.
Qed.
Lemma bins_priw t k i : 0 <= k <= jmax t -> 0 <= i <= jmax t -> priw t (k + i) (6 * quarter t) (dmbins t k i).
Proof. intros. apply bins_spec. lia. Qed.

Lemma priw_0 t fold k V C P W : acc t fold k V C P W -> 1 <= fold -> inbin t (6 * quarter t + V k) ->
  feq (P 0) fzero = false /\ ISNANINF (P 0) = false /\ dmindex (P 0) = k /\ dmindex0 (P 0) = (k =? 0).
Proof.
  intros [Hk A] Hf B. destruct (A 0 ltac:(lia)) as [A0 _]. rewrite Z.add_0_r in A0.
  destruct (priw_nonzero _ _ _ _ (proj1 Hk) A0 B). repeat split; auto.
  - eapply priw_index; eauto.
  - eapply priw_index0; eauto. lia.
Qed.

Section MEM.
  Context {t : ty} {fold p ip c ic : Z} (L : layout fold p ip c ic).
  Hypothesis Hf : 1 <= fold.
  Notation accm m k V C := (acc t fold k V C (P_of m p ip) (P_of m c ic)).
  Definition frame (m m' : mem t) : Prop := forall a, ~ in_acc fold p ip c ic a -> m' a = m a.

  Lemma P_of_0 (m : mem t) q iq : P_of m q iq 0 = m q.
  Proof. unfold P_of. f_equal. lia. Qed.

  Lemma done_frame m m' G H : done p ip c ic m m' 0 fold G H -> frame m m'.
  Proof. intros D a Ha. eapply done_out; eauto; lia. Qed.

  (** *** dmdupdate *)
  Lemma acc_update m k V C X : fold <= jmax t + 1 ->
    accm m k V C -> zero_below k V -> zero_below k C -> inbin t (6 * quarter t + V k) ->
    is_finite X = true ->
    accm (dmdupdate fold X p ip c ic m) (Z.min k (bin_of t (toZ X))) V C /\
    frame m (dmdupdate fold X p ip c ic m).
  Proof.
    intros Hm A ZV ZC B FX. destruct (priw_0 _ _ _ _ _ _ _ A Hf B) as (N1 & N2 & N3 & _).
    rewrite P_of_0 in *. destruct A as [Hk A].
    pose proof (dindex_range t X FX) as DR. rewrite (dindex_spec t X FX) in DR.
    destruct (Z_lt_dec (bin_of t (toZ X)) k) as [Hlt|Hge].
    - rewrite Z.min_r by lia.
      pose proof (upd_shift_done L Hf m X) as D. cbv zeta in D. rewrite N3, (dindex_spec t X FX) in D.
      specialize (D N2 N1 ltac:(lia)). set (b := bin_of t (toZ X)) in *.
      split; [|eapply done_frame; exact D]. destruct D as [D _]. split; [lia|].
      intros i Hi. destruct (D i Hi) as [D1 D2]. unfold P_of. rewrite D1, D2.
      destruct (Z.ltb_spec i (k - b)).
      + rewrite ZV, ZC, Z.add_0_r by lia. split; [apply bins_priw; lia|apply carw_zero].
      + destruct (A (i - (k - b)) ltac:(lia)) as [A1 A2]. unfold P_of in A1, A2.
        replace (k + (i - (k - b))) with (b + i) in * by lia. auto.
    - rewrite Z.min_l by lia. rewrite upd_noop by (right; rewrite N3, (dindex_spec t X FX); split; auto; lia).
      split; [split; auto|intros a _; reflexivity].
  Qed.
  Lemma acc_update_zero m X : fold <= jmax t + 1 -> feq (m p) fzero = true -> ISNANINF (m p) = false ->
    0 <= dindex X <= jmax t ->
    accm (dmdupdate fold X p ip c ic m) (dindex X) (fun _ => 0) (fun _ => 0) /\
    frame m (dmdupdate fold X p ip c ic m).
  Proof.
    intros Hm Z0 N0 DR.
    pose proof (upd_zero_done L Hf m X N0 Z0) as D.
    split; [|eapply done_frame; exact D]. destruct D as [D _]. split; [lia|].
    intros i Hi. destruct (D i Hi) as [D1 D2]. unfold P_of. rewrite D1, D2, Z.add_0_r.
    split; [apply bins_priw; lia|apply carw_zero].
  Qed.

  (** *** dmddeposit *)
  Fixpoint pws (j : Z) (V : Z -> Z) (Ms : list (F t)) : Prop :=
    match Ms with nil => True | M :: Ms' => priw t j (6 * quarter t + V j) M /\ pws (j + 1) V Ms' end.

  Lemma dep_list_val X V : Z.abs X <= 2 ^ span t -> forall Ms j x,
    0 < j -> pws j V Ms -> is_finite x = true -> toZ x = remainder t X (Z.to_nat j) ->
    (forall i, 0 <= i < Z.of_nat (length Ms) ->
       - 2 * quarter t < V (j + i) + slice t X (j + i) < 2 * quarter t) ->
    pws j (fun j => V j + slice t X j) (dep_list Ms x).
  Proof.
    intros HX Ms. induction Ms as [|M Ms IH]; intros j x Hj HP Fx Vx HB; [exact I|].
    destruct HP as [HM HMs].
    pose proof (HB 0 ltac:(cbn [length]; lia)) as B0. rewrite Z.add_0_r in B0.
    assert (HR : Z.abs (toZ x) <= 2 ^ (unit_exp t j + width t - 1)).
    { rewrite Vx. pose proof (remainder_bound t X (Z.to_nat j) HX) as R. rewrite Z2Nat.id in R by lia. exact R. }
    assert (SL : rhaz (toZ x) (2 ^ unit_exp t j) = slice t X j) by (unfold slice; now rewrite Vx).
    cbn [dep_list]. destruct Ms as [|M2 Ms].
    - split; [|exact I].
      pose proof (slice_last t x M j _ Fx Hj HM HR) as S. rewrite SL in S. cbv zeta in S.
      replace (6 * quarter t + (V j + slice t X j)) with (6 * quarter t + V j + slice t X j) by ring.
      apply S. lia.
    - pose proof (slice_step t x M j _ Fx Hj HM HR) as S. rewrite SL in S. cbv zeta in S |- *.
      destruct S as (S1 & S2 & S3); [lia|]. split.
      + replace (6 * quarter t + (V j + slice t X j)) with (6 * quarter t + V j + slice t X j) by ring. exact S1.
      + apply IH; auto; try lia.
        * rewrite S3, Vx, remainder_succ by lia. reflexivity.
        * intros i Hi. specialize (HB (i + 1)). replace (j + 1 + i) with (j + (i + 1)) by ring.
          apply HB. cbn [length] in *. lia.
  Qed.
  Lemma dep0_list_val X V Ms x :
    pws 0 V Ms -> is_finite x = true -> toZ x = X ->
    (forall i, 0 <= i < Z.of_nat (length Ms) ->
       - 2 * quarter t < V i + slice t X i < 2 * quarter t) ->
    pws 0 (fun j => V j + slice t X j) (dep0_list Ms x).
  Proof.
    intros HP Fx Vx HB. destruct Ms as [|M Ms]; [exact I|]. destruct HP as [HM HMs].
    pose proof (HB 0 ltac:(cbn [length]; lia)) as B0.
    assert (HX : Z.abs X <= 2 ^ span t) by (subst X; pose proof (toZ_span t x); lia).
    assert (SL : rhaz (toZ x) (2 ^ unit_exp t 0) = slice t X 0) by (unfold slice; rewrite Vx; reflexivity).
    pose proof (slice_step0 t x M _ Fx HM) as S. rewrite SL in S. cbv zeta in S.
    destruct S as (S1 & S2 & S3); [lia|]. unfold dep0_list. cbv zeta. split.
    - replace (6 * quarter t + (V 0 + slice t X 0)) with (6 * quarter t + V 0 + slice t X 0) by ring. exact S1.
    - apply (dep_list_val X V HX); auto; try lia.
      + rewrite S3, Vx. pose proof (remainder_succ t X 0 ltac:(lia)) as R. cbn [Z.to_nat] in R.
        change (remainder t X 0) with X in R. symmetry. exact R.
      + intros i Hi. specialize (HB (i + 1)). replace (0 + 1 + i) with (i + 1) by ring. apply HB.
        cbn [length]. lia.
  Qed.

  Lemma pws_words (m : mem t) k V n : forall i, pws (k + i) V (words m p ip i n) <->
    (forall j, i <= j < i + Z.of_nat n -> priw t (k + j) (6 * quarter t + V (k + j)) (m (p + j * ip))).
  Proof.
    induction n as [|n IH]; intros i; cbn [words pws].
    - split; auto. intros _ j Hj. lia.
    - replace (k + i + 1) with (k + (i + 1)) by ring. rewrite IH. split.
      + intros [H1 H2] j Hj. destruct (Z.eq_dec i j) as [->|]; auto. apply H2. lia.
      + intros H. split; [apply H; lia|]. intros j Hj. apply H. lia.
  Qed.

  Lemma acc_deposit m k V C X :
    accm m k V C -> is_finite X = true -> k <= bin_of t (toZ X) -> (k = 0 -> 2 <= fold) ->
    inbin t (6 * quarter t + V k) ->
    (forall i, 0 <= i < fold -> - 2 * quarter t < V (k + i) + slice t (toZ X) (k + i) < 2 * quarter t) ->
    accm (dmddeposit fold X p ip m) k (fun j => V j + slice t (toZ X) j) C /\
    (forall a, (forall j, 0 <= j < fold -> a <> p + j * ip) -> dmddeposit fold X p ip m a = m a).
  Proof.
    intros A FX Hb H0 B HB. destruct (priw_0 _ _ _ _ _ _ _ A Hf B) as (N1 & N2 & N3 & N4).
    rewrite P_of_0 in *. destruct A as [Hk A].
    assert (IX : ISNANINF X = false) by (rewrite ISNANINF_fin, FX; reflexivity).
    assert (PW : pws (k + 0) V (words m p ip 0 (Z.to_nat fold))).
    { apply pws_words. intros j Hj. apply A. lia. }
    assert (HX : Z.abs (toZ X) <= 2 ^ span t) by (pose proof (toZ_span t X); lia).
    assert (Fin : forall m2, pws (k + 0) (fun j => V j + slice t (toZ X) j) (words m2 p ip 0 (Z.to_nat fold)) ->
       (forall a, (forall j, 0 <= j < fold -> a <> p + j * ip) -> m2 a = m a) ->
       accm m2 k (fun j => V j + slice t (toZ X) j) C).
    { intros m2 PW2 FR. split; auto. intros i Hi. rewrite pws_words in PW2. split.
      - apply PW2. lia.
      - unfold P_of. rewrite FR; [apply A; lia|]. intros j Hj. lay_neq L. }
    destruct (Z.eqb_spec k 0) as [->|Nk].
    - destruct (dmddeposit_words0 (lay_p _ _ _ _ _ L) m X (H0 eq_refl) IX N2 N4) as [W FR].
      split; auto. apply Fin; auto. rewrite W. apply dep0_list_val; auto.
      intros i Hi. rewrite words_length in Hi. apply (HB i). lia.
    - destruct (dmddeposit_words (lay_p _ _ _ _ _ L) m X Hf IX N2 N4) as [W FR].
      split; auto. apply Fin; auto. rewrite W. apply dep_list_val; auto; try lia.
      + rewrite remainder_below; auto. lia.
      + intros i Hi. rewrite words_length in Hi. rewrite Z.add_0_r. apply (HB i). lia.
  Qed.

  (** *** dmrenorm *)
  Definition canon (k : Z) (S : Z -> Z) (P W : Z -> F t) : Prop :=
    0 <= k <= jmax t /\
    forall i, 0 <= i < fold -> P i = pri_word t (k + i) (S (k + i)) /\ W i = car_word t (S (k + i)).

  Lemma acc_renorm m k V C : accm m k V C ->
    (forall i, 0 <= i < fold -> inbin t (6 * quarter t + V (k + i))) ->
    (forall i, 0 <= i < fold -> Z.abs (C (k + i) + V (k + i) / quarter t) <= 2 ^ prec t) ->
    canon k (fun j => C j * quarter t + V j) (P_of (dmrenorm fold p ip c ic m) p ip)
       (P_of (dmrenorm fold p ip c ic m) c ic) /\
    frame m (dmrenorm fold p ip c ic m).
  Proof.
    intros A B HC. pose proof (B 0 ltac:(lia)) as B0. rewrite Z.add_0_r in B0.
    destruct (priw_0 _ _ _ _ _ _ _ A Hf B0) as (N1 & N2 & _). rewrite P_of_0 in *. destruct A as [Hk A].
    pose proof (dmrenorm_done L Hf m N1 N2) as D. split; [|eapply done_frame; exact D].
    destruct D as [D _]. split; auto. intros i Hi. destruct (D i Hi) as [D1 D2].
    unfold P_of in *. rewrite D1, D2. unfold renorm_P, renorm_C. destruct (A i Hi) as [[Fp Vp] AC].
    pose proof (stored_exp_ge t (k + i) ltac:(lia)). pose proof (quarter_pos t) as Q. specialize (B i Hi). specialize (HC i Hi).
    destruct (renorm_one t (m (p + i * ip)) (6 * quarter t + V (k + i)) (stored_exp t (k + i))) as (R1 & R2 & R3); auto; [lia|].
    set (v := V (k + i)) in *. set (cc := C (k + i)) in *.
    split.
    - apply (priw_inj t (k + i) (6 * quarter t + (cc * quarter t + v) mod quarter t)); try lia.
      + pose proof (Z.mod_pos_bound (cc * quarter t + v) (quarter t)). lia.
      + split; auto. rewrite R3. f_equal. f_equal.
        rewrite (Z.add_comm (6 * _)), Z_mod_plus_full, (Z.add_comm (cc * _)), Z_mod_plus_full. reflexivity.
      + apply pri_word_priw. lia.
    - rewrite R1. unfold car_word.
      replace ((cc * quarter t + v) / quarter t) with (cc + v / quarter t) by (rewrite Z.div_add_l; lia).
      replace ((6 * quarter t + v) / quarter t - 6) with (v / quarter t) by (rewrite Z.div_add_l; lia).
      apply carw_canon; auto. unfold inbin in B.
      assert (-2 <= v / quarter t) by (apply Z.div_le_lower_bound; lia).
      assert (v / quarter t < 2) by (apply Z.div_lt_upper_bound; lia).
      pose proof (prec_pos t). assert (2 ^ 3 <= 2 ^ prec t) by (apply Z.pow_le_mono_r; lia). lia.
  Qed.

  Lemma canon_acc k S P W : canon k S P W ->
    (forall i, 0 <= i < fold -> Z.abs (S (k + i) / quarter t) <= 2 ^ prec t) ->
    acc t fold k (fun j => S j mod quarter t) (fun j => S j / quarter t) P W.
  Proof.
    intros [Hk A] HS. split; auto. intros i Hi. destruct (A i Hi) as [-> ->]. split.
    - apply pri_word_priw. lia.
    - apply ofZ_carw. auto.
  Qed.
  Lemma canon_ext k S S' P W : canon k S P W -> (forall i, 0 <= i < fold -> S (k + i) = S' (k + i)) -> canon k S' P W.
  Proof. intros [Hk A] E. split; auto. intros i Hi. rewrite <- E by auto. auto. Qed.
  Lemma mod_inbin v : inbin t (6 * quarter t + v mod quarter t).
  Proof. unfold inbin. pose proof (quarter_pos t). pose proof (Z.mod_pos_bound v (quarter t)). lia. Qed.
End MEM.
Arguments frame {t} fold p ip c ic m m'.
Arguments canon t fold k S P W : clear implicits.

(** ** Offsets *)
Lemma repr_word t j n : 0 <= j -> Z.abs n < 2 ^ prec t -> repr t (n * 2 ^ stored_exp t j).
Proof.
  intros Hj H. apply repr_le; auto.
  - pose proof (stored_exp_ge t j Hj). lia.
  - apply stored_exp_le; auto.
Qed.
Lemma priw_sub t j n n' p q : 0 <= j -> priw t j n p -> priw t j n' q -> Z.abs (n - n') < 2 ^ prec t ->
  priw t j (n - n') (fsub p q).
Proof.
  intros Hj [F1 V1] [F2 V2] H. destruct (fsub_exact t p q F1 F2) as (A & B & _).
  - rewrite V1, V2, <- Z.mul_sub_distr_r. now apply repr_word.
  - split; auto. rewrite B, V1, V2. ring.
Qed.
Lemma priw_add t j n n' p q : 0 <= j -> priw t j n p -> priw t j n' q -> Z.abs (n + n') < 2 ^ prec t ->
  priw t j (n + n') (fadd p q).
Proof.
  intros Hj [F1 V1] [F2 V2] H. destruct (fadd_exact t p q F1 F2) as (A & B & _).
  - rewrite V1, V2, <- Z.mul_add_distr_r. now apply repr_word.
  - split; auto. rewrite B, V1, V2. ring.
Qed.
Lemma priw_merge t j v v' p q b : 0 <= j ->
  priw t j (6 * quarter t + v) p -> priw t j (6 * quarter t + v') q -> priw t j (6 * quarter t) b ->
  Z.abs v' < 2 ^ prec t -> - 2 * quarter t <= v + v' < 2 * quarter t ->
  priw t j (6 * quarter t + (v + v')) (fadd p (fsub q b)).
Proof.
  intros Hj H1 H2 H3 B1 B2. pose proof (quarter8 t). pose proof (quarter_pos t).
  replace (6 * quarter t + (v + v')) with (6 * quarter t + v + v') by ring.
  apply priw_add; auto; [|lia].
  replace v' with (6 * quarter t + v' - 6 * quarter t) at 1 by ring. apply priw_sub; auto.
  replace (6 * quarter t + v' - 6 * quarter t) with v' by ring. auto.
Qed.
Lemma fneg_carw t c w : carw t c w -> carw t (- c) (fneg w).
Proof.
  intros [F1 V1]. split.
  - unfold fneg. destruct w; auto.
  - unfold fneg. rewrite Z.mul_opp_l, <- V1. destruct w as [s|s| |s mm e H]; try reflexivity.
    cbn [Bopp toZ]. rewrite <- Z.mul_opp_l. f_equal. destruct s; reflexivity.
Qed.

Section MEM2.
  Context {t : ty} {fold p ip c ic : Z} (L : layout fold p ip c ic).
  Hypothesis Hf : 1 <= fold.
  Hypothesis Hm : fold <= jmax t + 1.
  Notation accm m k V C := (acc t fold k V C (P_of m p ip) (P_of m c ic)).
  Context {pX ipX cX icX : Z}.
  Notation accX m k V C := (acc t fold k V C (P_of m pX ipX) (P_of m cX icX)).

  Lemma acc_merge m kX VX CX kY VY CY :
    disjoint (in_acc fold pX ipX cX icX) (in_acc fold p ip c ic) ->
    accX m kX VX CX -> accm m kY VY CY ->
    zero_below kX VX -> zero_below kX CX -> zero_below kY VY -> zero_below kY CY ->
    (forall j, 0 <= j -> - 2 * quarter t <= VX j < 2 * quarter t) ->
    (forall j, 0 <= j -> - 2 * quarter t <= VY j < 2 * quarter t) ->
    (forall j, 0 <= j -> - 2 * quarter t <= VX j + VY j < 2 * quarter t) ->
    (forall j, 0 <= j -> Z.abs (CX j + CY j) <= 2 ^ prec t) ->
    let m' := merge_raw fold p ip c ic pX ipX cX icX m in
    accm m' (Z.min kX kY) (fun j => VX j + VY j) (fun j => CX j + CY j) /\ frame fold p ip c ic m m'.
  Proof.
    intros DJ AX AY ZVX ZCX ZVY ZCY BX BY BS BC m'. pose proof (quarter8 t) as Q8. pose proof (quarter_pos t) as QP.
    assert (IX : inbin t (6 * quarter t + VX kX)) by (destruct AX as [? _]; specialize (BX kX); unfold inbin; lia).
    assert (IY : inbin t (6 * quarter t + VY kY)) by (destruct AY as [? _]; specialize (BY kY); unfold inbin; lia).
    destruct (priw_0 _ _ _ _ _ _ _ AX Hf IX) as (_ & _ & EX & _).
    destruct (priw_0 _ _ _ _ _ _ _ AY Hf IY) as (_ & _ & EY & _).
    rewrite P_of_0 in *. destruct AX as [HkX AX]. destruct AY as [HkY AY].
    destruct (Z_lt_dec kX kY) as [Hlt|Hge].
    - rewrite Z.min_l by lia.
      pose proof (merge_pos L Hf m (pX:=pX) (ipX:=ipX) (cX:=cX) (icX:=icX)) as D. cbv zeta in D.
      rewrite EX, EY in D. specialize (D DJ ltac:(lia)). fold m' in D.
      split; [|eapply done_frame; exact D]. destruct D as [D _]. split; [lia|].
      intros i Hi. destruct (D i Hi) as [D1 D2]. unfold P_of. rewrite D1, D2.
      destruct (AX i Hi) as [X1 X2]. unfold P_of in X1, X2.
      destruct (Z.ltb_spec i (kY - kX)).
      + rewrite (ZVY (kX + i)), (ZCY (kX + i)), !Z.add_0_r by lia. auto.
      + destruct (AY (i - (kY - kX)) ltac:(lia)) as [Y1 Y2]. unfold P_of in Y1, Y2.
        pose proof (bins_priw t kY (i - (kY - kX)) HkY ltac:(lia)) as BB.
        replace (kY + (i - (kY - kX))) with (kX + i) in * by lia. split.
        * apply priw_merge; auto; try lia. specialize (BY (kX + i)). lia. apply BS. lia.
        * apply carw_add; auto. apply BC. lia.
    - rewrite Z.min_r by lia.
      pose proof (merge_neg L Hf m (pX:=pX) (ipX:=ipX) (cX:=cX) (icX:=icX)) as D. cbv zeta in D.
      rewrite EX, EY in D. specialize (D DJ ltac:(lia)). fold m' in D.
      split; [|eapply done_frame; exact D]. destruct D as [D _]. split; [lia|].
      intros i Hi. destruct (D i Hi) as [D1 D2]. unfold P_of. rewrite D1, D2.
      destruct (AY i Hi) as [Y1 Y2]. unfold P_of in Y1, Y2.
      destruct (Z.ltb_spec i (kX - kY)).
      + rewrite (ZVX (kY + i)), (ZCX (kY + i)), !Z.add_0_l by lia. auto.
      + destruct (AX (i - (kX - kY)) ltac:(lia)) as [X1 X2]. unfold P_of in X1, X2.
        pose proof (bins_priw t kX (i - (kX - kY)) HkX ltac:(lia)) as BB.
        replace (kX + (i - (kX - kY))) with (kY + i) in * by lia. split.
        * rewrite (Z.add_comm (VX _)).
          apply priw_merge; auto; try lia. specialize (BX (kY + i)). lia. rewrite Z.add_comm. apply BS. lia.
        * rewrite (Z.add_comm (CX _)). apply carw_add; auto. rewrite Z.add_comm. apply BC. lia.
  Qed.

  Lemma acc_negate m k V C : accm m k V C -> 
    (forall i, 0 <= i < fold -> - 2 * quarter t < V (k + i) < 2 * quarter t) ->
    accm (dmnegate fold p ip c ic m) k (fun j => - V j) (fun j => - C j) /\
    frame fold p ip c ic m (dmnegate fold p ip c ic m).
  Proof.
    intros A B. pose proof (quarter8 t) as Q8. pose proof (quarter_pos t) as QP.
    assert (IX : inbin t (6 * quarter t + V k)).
    { specialize (B 0). rewrite Z.add_0_r in B. unfold inbin; lia. }
    destruct (priw_0 _ _ _ _ _ _ _ A Hf IX) as (E1 & _ & E3 & _). rewrite P_of_0 in *.
    destruct A as [Hk A].
    pose proof (dmnegate_done L Hf m E1) as D. rewrite E3 in D.
    split; [|eapply done_frame; exact D]. destruct D as [D _]. split; auto.
    intros i Hi. destruct (D i Hi) as [D1 D2]. unfold P_of. rewrite D1, D2.
    destruct (A i Hi) as [A1 A2]. unfold P_of in A1, A2. specialize (B i Hi). cbv zeta.
    pose proof (bins_priw t k i Hk ltac:(lia)) as BB. split.
    - replace (6 * quarter t + - V (k + i)) with (6 * quarter t - V (k + i)) by ring.
      apply priw_sub; auto; try lia.
      replace (V (k + i)) with (6 * quarter t + V (k + i) - 6 * quarter t) at 1 by ring.
      apply priw_sub; auto; lia.
    - now apply fneg_carw.
  Qed.

  Lemma acc_set m : disjoint (in_acc fold pX ipX cX icX) (in_acc fold p ip c ic) ->
    let m' := dmdmset fold pX ipX cX icX p ip c ic m in
    (forall i, 0 <= i < fold -> m' (p + i * ip) = m (pX + i * ipX) /\ m' (c + i * ic) = (m : mem t) (cX + i * icX)) /\
    frame fold p ip c ic m m'.
  Proof.
    intros DJ m'. pose proof (dmdmset_done L Hf m DJ) as D. split; [|eapply done_frame; exact D].
    apply D.
  Qed.
End MEM2.
