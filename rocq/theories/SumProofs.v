(** * Accumulators represent multisets of floats *)
From Coq Require Import ZArith Bool List Lia Permutation.
From Flocq Require Import Core BinarySingleNaN.
From Verif Require Import Fp Mem Binned Spec FpProofs BitProofs CoreArith SpecProofs WordProofs MemProofs AccProofs.
Import ListNotations.
Open Scope Z_scope.

(** ** Lists *)
Lemma findex_range {t} (x : F t) : 0 <= findex x <= jmax t.
Proof.
  unfold findex. pose proof (jmax_pos t). destruct (is_finite x) eqn:E; [|lia].
  apply bin_of_range, toZ_span.
Qed.
Lemma lead_nil {t} : lead (@nil (F t)) = jmax t. Proof. reflexivity. Qed.
Lemma lead_cons {t} (x : F t) l : lead (x :: l) = Z.min (findex x) (lead l). Proof. reflexivity. Qed.
Lemma lead_range {t} (l : list (F t)) : 0 <= lead l <= jmax t.
Proof.
  induction l as [|x l IH]; [rewrite lead_nil; pose proof (jmax_pos t); lia|].
  rewrite lead_cons. pose proof (findex_range x). lia.
Qed.
Lemma lead_app {t} (l l' : list (F t)) : lead (l ++ l') = Z.min (lead l) (lead l').
Proof.
  induction l as [|x l IH]; cbn [app].
  - rewrite lead_nil. pose proof (lead_range l'). lia.
  - rewrite !lead_cons, IH. lia.
Qed.
Lemma lead_le {t} (l : list (F t)) x : In x l -> lead l <= findex x.
Proof. induction l as [|y l IH]; intros []; rewrite lead_cons; [subst; lia|]. specialize (IH H). lia. Qed.

Lemma sums_cons {t} (x : F t) xs j : sums (x :: xs) j = slice t (toZ x) j + sums xs j.
Proof. reflexivity. Qed.
Lemma sums_app {t} (xs ys : list (F t)) j : sums (xs ++ ys) j = sums xs j + sums ys j.
Proof. induction xs; cbn [app]; [reflexivity|]. rewrite !sums_cons, IHxs. ring. Qed.
Lemma sums_bound {t} (xs : list (F t)) j : 0 <= j ->
  Z.abs (sums xs j) <= Z.of_nat (length xs) * 2 ^ (width t - 1).
Proof.
  intros Hj. induction xs as [|x xs IH]; [cbn; lia|]. rewrite sums_cons. cbn [length].
  pose proof (slice_bound t (toZ x) j Hj). pose proof (toZ_span t x). lia.
Qed.
Lemma all_finite_cons {t} (x : F t) xs : all_finite (x :: xs) = is_finite x && all_finite xs. Proof. reflexivity. Qed.
Lemma all_finite_app {t} (xs ys : list (F t)) : all_finite (xs ++ ys) = all_finite xs && all_finite ys.
Proof. apply forallb_app. Qed.
Lemma sums_below {t} (xs : list (F t)) j : all_finite xs = true -> 0 <= j < lead xs -> sums xs j = 0.
Proof.
  intros HF Hj. induction xs as [|x xs IH]; [reflexivity|].
  rewrite all_finite_cons, andb_true_iff in HF. destruct HF as [Fx HF]. rewrite lead_cons in Hj.
  rewrite sums_cons, IH by (auto; lia). unfold findex in Hj. rewrite Fx in Hj.
  rewrite slice_below; lia.
Qed.
Lemma sums_cap {t} (xs : list (F t)) j : 0 <= j -> Z.of_nat (length xs) <= capacity t ->
  Z.abs (sums xs j) <= quarter t * (2 ^ (prec t - 1) - 1).
Proof.
  intros Hj H. pose proof (sums_bound xs j Hj) as B. rewrite quarter_endurance. unfold capacity in H.
  pose proof (width_pos t). pose proof (pow2_pos (width t - 1) ltac:(lia)). nia.
Qed.
Lemma div_bound t s n : Z.abs s <= quarter t * n -> 0 <= n -> Z.abs (s / quarter t) <= n.
Proof.
  intros H Hn. pose proof (quarter_pos t).
  assert (s / quarter t <= n) by (apply Z.div_le_upper_bound; lia).
  assert (- n <= s / quarter t) by (apply Z.div_le_lower_bound; lia). lia.
Qed.
Lemma carry_cap {t} (xs : list (F t)) j : 0 <= j -> Z.of_nat (length xs) <= capacity t ->
  Z.abs (sums xs j / quarter t) <= 2 ^ prec t.
Proof.
  intros Hj H. pose proof (prec_pos t). pose proof (pow2_pos (prec t - 1) ltac:(lia)).
  pose proof (div_bound t _ _ (sums_cap xs j Hj H) ltac:(lia)).
  assert (2 ^ (prec t - 1) <= 2 ^ prec t) by (apply Z.pow_le_mono_r; lia). lia.
Qed.

(** Permutation invariance of the specification. *)
Lemma lead_perm {t} (l l' : list (F t)) : Permutation l l' -> lead l = lead l'.
Proof. induction 1; rewrite ?lead_cons; try congruence; lia. Qed.
Lemma sums_perm {t} (l l' : list (F t)) j : Permutation l l' -> sums l j = sums l' j.
Proof. induction 1; rewrite ?sums_cons; try congruence; lia. Qed.
Lemma all_finite_perm {t} (l l' : list (F t)) : Permutation l l' -> all_finite l = all_finite l'.
Proof.
  induction 1; rewrite ?all_finite_cons; try congruence.
  now rewrite !andb_assoc, (andb_comm (is_finite y)).
Qed.
Lemma existsb_perm {A} (f : A -> bool) l l' : Permutation l l' -> existsb f l = existsb f l'.
Proof. induction 1; cbn [existsb]; try congruence. now rewrite !orb_assoc, (orb_comm (f y)). Qed.
Lemma special_perm {t} (l l' : list (F t)) : Permutation l l' -> special l = special l'.
Proof. intros H. unfold special. now rewrite !(existsb_perm _ _ _ H). Qed.

Lemma holds_perm t fold us us' xs xs' P W :
  Permutation us us' -> Permutation xs xs' -> holds t fold us xs P W -> holds t fold us' xs' P W.
Proof.
  intros Hu Hx. unfold holds. rewrite (all_finite_perm _ _ Hx). destruct (all_finite xs').
  - pose proof (Permutation_app Hu Hx) as Hux. rewrite (lead_perm _ _ Hux).
    destruct (us ++ xs) eqn:E1, (us' ++ xs') eqn:E2; auto.
    + now apply Permutation_nil_cons in Hux.
    + symmetry in Hux. now apply Permutation_nil_cons in Hux.
    + intros H i Hi. destruct (H i Hi) as [-> ->]. rewrite (sums_perm _ _ _ Hx). auto.
  - rewrite (special_perm _ _ Hx). auto.
Qed.
(** [holds] determines the words. *)
Lemma holds_unique t fold us xs P W P' W' : 1 <= fold ->
  holds t fold us xs P W -> holds t fold us xs P' W' ->
  P 0 = P' 0 /\ (all_finite xs = true -> forall i, 0 <= i < fold -> P i = P' i /\ W i = W' i).
Proof.
  intros Hf. unfold holds. destruct (all_finite xs).
  - assert (K : (forall i, 0 <= i < fold -> P i = P' i /\ W i = W' i) ->
      P 0 = P' 0 /\ (true = true -> forall i, 0 <= i < fold -> P i = P' i /\ W i = W' i)).
    { intros H. split; auto. apply H. lia. }
    destruct (us ++ xs); intros H1 H2; apply K; intros i Hi;
      destruct (H1 i Hi), (H2 i Hi); split; congruence.
  - intros -> ->. split; auto. discriminate.
Qed.
(** Lists with the same leading bin and bin sums. *)
Lemma holds_ext t fold us xs us' xs' P W :
  all_finite xs = true -> all_finite xs' = true -> us ++ xs <> [] -> us' ++ xs' <> [] ->
  lead (us ++ xs) = lead (us' ++ xs') -> (forall j, sums xs j = sums xs' j) ->
  holds t fold us xs P W -> holds t fold us' xs' P W.
Proof.
  unfold holds. intros -> -> N1 N2 E1 E2. rewrite E1.
  destruct (us ++ xs), (us' ++ xs'); try congruence.
  intros H i Hi. rewrite <- !E2. auto.
Qed.

(** ** Non finite values *)
Lemma special_nonfinite {t} (xs : list (F t)) : ISNANINF (special xs) = true /\ feq (special xs) fzero = false.
Proof.
  rewrite ISNANINF_fin. unfold special.
  destruct (_ || _); [split; reflexivity|]. destruct (existsb is_ninf xs); split; reflexivity.
Qed.
Lemma nonfinite_bits {t} (x : F t) : is_finite x = false -> dindex x = 0.
Proof. destruct x as [| s | |]; try discriminate; intros _; destruct t; try destruct s; vm_compute; reflexivity. Qed.
Lemma all_finite_flags {t} (xs : list (F t)) : all_finite xs = true ->
  existsb f_isnan xs = false /\ existsb is_pinf xs = false /\ existsb is_ninf xs = false.
Proof.
  induction xs as [|x xs IH]; [auto|]. rewrite all_finite_cons, andb_true_iff. intros [Fx HF].
  destruct (IH HF) as (A & B & C). cbn [existsb]. rewrite A, B, C.
  destruct x as [s|[]| |s]; try discriminate; auto.
Qed.
Lemma nonfinite_flags {t} (xs : list (F t)) : all_finite xs = false ->
  existsb f_isnan xs = true \/ existsb is_pinf xs = true \/ existsb is_ninf xs = true.
Proof.
  induction xs as [|x xs IH]; [discriminate|]. rewrite all_finite_cons, andb_false_iff. cbn [existsb].
  intros [H|H].
  - destruct x as [s|[]| |s]; try discriminate; cbn; auto.
  - destruct (IH H) as [A|[A|A]]; rewrite A, !orb_true_r; auto.
Qed.
Lemma special_app {t} (xs ys : list (F t)) :
  (all_finite xs = false -> all_finite ys = false -> fadd (special ys) (special xs) = special (xs ++ ys)) /\
  (all_finite xs = true -> special (xs ++ ys) = special ys) /\
  (all_finite ys = true -> special (xs ++ ys) = special xs).
Proof.
  repeat split.
  - intros H1 H2. apply nonfinite_flags in H1, H2. unfold special. rewrite !existsb_app.
    destruct (existsb f_isnan xs), (existsb is_pinf xs), (existsb is_ninf xs),
      (existsb f_isnan ys), (existsb is_pinf ys), (existsb is_ninf ys); try reflexivity; exfalso; intuition discriminate.
  - intros H. destruct (all_finite_flags xs H) as (A & B & C). unfold special. rewrite !existsb_app, A, B, C. reflexivity.
  - intros H. destruct (all_finite_flags ys H) as (A & B & C). unfold special.
    rewrite !existsb_app, A, B, C, !orb_false_r. reflexivity.
Qed.
Lemma fadd_fin_l {t} (x y : F t) : is_finite x = true -> is_finite y = false -> fadd x y = y.
Proof. destruct x, y; try discriminate; reflexivity. Qed.
Lemma fadd_fin_r {t} (x y : F t) : is_finite x = true -> is_finite y = false -> fadd y x = y.
Proof. destruct x, y; try discriminate; reflexivity. Qed.
Lemma special_one {t} (x : F t) : is_finite x = false -> special [x] = x.
Proof. destruct x as [s|[]| |s]; try discriminate; reflexivity. Qed.
Lemma special_fin {t} (xs : list (F t)) : is_finite (special xs) = false.
Proof. pose proof (proj1 (special_nonfinite xs)) as H. rewrite ISNANINF_fin in H. now destruct (is_finite (special xs)). Qed.

(** ** Representation, not necessarily normalised: d deposits since the last renormalisation *)
Definition rep (t : ty) (fold : Z) (us xs : list (F t)) (d : Z) (P W : Z -> F t) : Prop :=
  if all_finite xs then
    match us ++ xs with
    | nil => forall i, 0 <= i < fold -> P i = fzero /\ W i = fzero
    | _ =>
      let k := lead (us ++ xs) in
      exists V C, acc t fold k V C P W /\
        (forall j, 0 <= j -> C j * quarter t + V j = sums xs j) /\
        zero_below k V /\ zero_below k C /\
        (forall j, 0 <= j -> - quarter t - d * 2 ^ (width t - 1) < V j < quarter t + d * 2 ^ (width t - 1))
    end
  else P 0 = special xs.

Lemma holds_rep t fold us xs P W : Z.of_nat (length xs) <= capacity t ->
  holds t fold us xs P W -> rep t fold us xs 0 P W.
Proof.
  intros HC. unfold holds, rep. destruct (all_finite xs) eqn:HF; auto.
  destruct (us ++ xs) eqn:E; auto. rewrite <- E in *. clear E.
  set (k := lead (us ++ xs)). intros H.
  pose proof (lead_range (us ++ xs)) as LR. fold k in LR. pose proof (quarter_pos t) as QP.
  assert (SB : forall j, 0 <= j < k -> sums xs j = 0).
  { intros j Hj. apply sums_below; auto. unfold k in Hj. rewrite lead_app in Hj. lia. }
  exists (fun j => sums xs j mod quarter t), (fun j => sums xs j / quarter t).
  split; [|split; [|split; [|split]]].
  - apply canon_acc.
    + split; auto.
    + intros i Hi. apply carry_cap; auto. lia.
  - intros j Hj. pose proof (Z.div_mod (sums xs j) (quarter t)). lia.
  - intros j Hj. rewrite SB by auto. reflexivity.
  - intros j Hj. rewrite SB by auto. reflexivity.
  - intros j Hj. pose proof (Z.mod_pos_bound (sums xs j) (quarter t)). lia.
Qed.

Lemma rep_zero_state t fold P W : rep t fold [] [] 0 P W <-> (forall i, 0 <= i < fold -> P i = fzero /\ W i = fzero).
Proof. reflexivity. Qed.

Section REG.
  Context {t : ty} {fold p ip c ic : Z} (L : layout fold p ip c ic).
  Hypothesis Hf : 2 <= fold.
  Hypothesis Hm : fold <= jmax t + 1.
  Notation repm m us xs d := (rep t fold us xs d (P_of m p ip) (P_of m c ic)).
  Notation holdsm m us xs := (holds t fold us xs (P_of m p ip) (P_of m c ic)).
  Notation framem := (frame fold p ip c ic).

  Lemma frame_refl (m : mem t) : framem m m. Proof. intros a _. reflexivity. Qed.
  Lemma frame_trans (m1 m2 m3 : mem t) : framem m1 m2 -> framem m2 m3 -> framem m1 m3.
  Proof. intros A B a Ha. rewrite B, A by auto. reflexivity. Qed.
  Lemma frame_upd (m : mem t) v : framem m (upd m p v).
  Proof. intros a Ha. apply upd_other. intros ->. apply Ha. exists 0. split; [lia|]. left. lia. Qed.

  Lemma rep_setzero (m : mem t) : let m' := dmsetzero fold p ip c ic m in repm m' [] [] 0 /\ framem m m'.
  Proof.
    intros m'. assert (H1 : 1 <= fold) by lia. pose proof (dmsetzero_done L H1 m) as D. split.
    - apply rep_zero_state. apply D.
    - eapply done_frame; exact D.
  Qed.

  (** Facts about the head word. *)
  Lemma rep_head m us xs d : repm m us xs d -> 0 <= d <= endurance t ->
    if all_finite xs then
      if us ++ xs then m p = fzero
      else feq (m p) fzero = false /\ is_finite (m p) = true
    else m p = special xs.
  Proof.
    unfold rep. rewrite P_of_0. intros H Hd. destruct (all_finite xs); auto.
    destruct (us ++ xs) eqn:E.
    - destruct (H 0 ltac:(lia)) as [H0 _]. now rewrite P_of_0 in H0.
    - rewrite <- E in *. clear E. destruct H as (V & C & A & _ & _ & _ & B).
      pose proof (quarter_endurance t). pose proof (quarter_pos t). pose proof (width_pos t).
      pose proof (pow2_pos (width t - 1) ltac:(lia)). pose proof (lead_range (us ++ xs)).
      specialize (B (lead (us ++ xs)) ltac:(lia)).
      destruct (priw_0 _ _ _ _ _ _ _ A ltac:(lia)) as (N1 & N2 & _).
      { unfold inbin. nia. }
      rewrite P_of_0 in *. rewrite ISNANINF_fin in N2. split; auto. now destruct (is_finite (m p)).
  Qed.

  (** *** update *)
  Lemma rep_update m us xs d X : repm m us xs d -> 0 <= d <= endurance t ->
    let m' := dmdupdate fold X p ip c ic m in repm m' (X :: us) xs d /\ framem m m'.
  Proof.
    intros H Hd m'. pose proof (rep_head _ _ _ _ H Hd) as HH.
    unfold rep in H |- *. destruct (all_finite xs) eqn:HF.
    2:{ assert (E : m' = m) by (apply upd_noop; left; rewrite HH; apply special_nonfinite).
        rewrite E. split; [exact H|apply frame_refl]. }
    destruct (us ++ xs) eqn:E.
    - apply app_eq_nil in E. destruct E as [-> ->]. cbn [app].
      assert (DR : 0 <= dindex X <= jmax t).
      { destruct (is_finite X) eqn:FX; [apply dindex_range; auto|].
        rewrite nonfinite_bits by auto. pose proof (jmax_pos t). lia. }
      assert (DE : lead [X] = dindex X).
      { rewrite lead_cons, lead_nil. unfold findex. pose proof (jmax_pos t). destruct (is_finite X) eqn:FX.
        - rewrite dindex_spec in * by auto. lia.
        - rewrite nonfinite_bits by auto. lia. }
      destruct (acc_update_zero L ltac:(lia) m X Hm) as [A FR]; auto.
      { rewrite HH. reflexivity. }
      { rewrite HH, ISNANINF_fin. reflexivity. }
      split; auto. rewrite DE. exists (fun _ => 0), (fun _ => 0).
      split; [exact A|]. repeat split; intros; try reflexivity.
      + pose proof (quarter_pos t). pose proof (width_pos t). pose proof (pow2_pos (width t - 1) ltac:(lia)). nia.
      + pose proof (quarter_pos t). pose proof (width_pos t). pose proof (pow2_pos (width t - 1) ltac:(lia)). nia.
    - rewrite <- E in *. clear E. destruct HH as [HH1 HH2].
      assert (E2 : (X :: us) ++ xs = X :: (us ++ xs)) by reflexivity. rewrite E2. rewrite lead_cons.
      destruct H as (V & C & A & S & ZV & ZC & B). set (k := lead (us ++ xs)) in *.
      pose proof (lead_range (us ++ xs)) as LR. fold k in LR.
      assert (IB : inbin t (6 * quarter t + V k)).
      { specialize (B k ltac:(lia)). unfold inbin.
        pose proof (quarter_endurance t). pose proof (quarter_pos t). pose proof (width_pos t).
        pose proof (pow2_pos (width t - 1) ltac:(lia)). nia. }
      assert (ZB : zero_below (Z.min (findex X) k) V /\ zero_below (Z.min (findex X) k) C)
        by (split; intros j Hj; [apply ZV|apply ZC]; lia).
      destruct (is_finite X) eqn:FX.
      + destruct (acc_update L ltac:(lia) m k V C X) as [A' FR]; auto.
        fold m' in A', FR. split; auto. exists V, C.
        replace (Z.min (findex X) k) with (Z.min k (bin_of t (toZ X))) in * by (unfold findex; rewrite FX; lia).
        tauto.
      + (* bin 0 *)
        assert (FI : findex X = 0) by (unfold findex; now rewrite FX). rewrite FI in *.
        rewrite Z.min_l in * by lia.
        destruct (priw_0 _ _ _ _ _ _ _ A ltac:(lia) IB) as (_ & N2 & N3 & _). rewrite P_of_0 in *.
        destruct (Z.eq_dec k 0) as [K0|NK].
        * assert (E : m' = m).
          { apply upd_noop. right. split; auto. rewrite N3, nonfinite_bits by auto. lia. }
          rewrite E. split; [|apply frame_refl]. exists V, C. rewrite K0 in *. tauto.
        * pose proof (upd_shift_done L ltac:(lia) m X) as D. cbv zeta in D.
          rewrite N3, nonfinite_bits, Z.sub_0_r in D by auto.
          specialize (D N2 HH1 ltac:(lia)). split; [|eapply done_frame; exact D].
          exists V, C. split; [|tauto]. destruct D as [D _]. destruct A as [_ A]. split; [lia|].
          intros i Hi. destruct (D i Hi) as [D1 D2]. unfold P_of. fold m' in D1, D2. rewrite D1, D2, Z.add_0_l.
          destruct (Z.ltb_spec i k).
          -- rewrite ZV, ZC, Z.add_0_r by lia. split; [apply (bins_priw t 0 i); lia|apply carw_zero].
          -- destruct (A (i - k) ltac:(lia)) as [A1 A2]. unfold P_of in A1, A2.
             replace (k + (i - k)) with i in * by lia. auto.
  Qed.

  (** *** deposit *)
  Lemma rep_deposit m us xs d X : repm m us xs d -> 0 <= d < endurance t ->
    us ++ xs <> [] -> lead (us ++ xs) <= findex X ->
    let m' := dmddeposit fold X p ip m in repm m' us (X :: xs) (d + 1) /\ framem m m'.
  Proof.
    intros H Hd NE HL m'. pose proof (rep_head _ _ _ _ H ltac:(lia)) as HH.
    destruct (is_finite X && is_finite (m p)) eqn:FF.
    2:{ (* special *)
      assert (E : m' = upd m p (fadd (m p) X)).
      { unfold m', dmddeposit. rewrite !ISNANINF_fin.
        destruct (is_finite X), (is_finite (m p)); try discriminate; reflexivity. }
      rewrite E. split; [|apply frame_upd].
      unfold rep. rewrite P_of_0, upd_same.
      destruct (special_app [X] xs) as (S1 & S2 & S3). cbn [app] in S1, S2, S3.
      rewrite all_finite_cons in S1, S2 |- *. cbn [all_finite forallb] in S1, S2. rewrite andb_true_r in S1, S2.
      destruct (all_finite xs) eqn:HF.
      - destruct (us ++ xs); [congruence|]. destruct HH as [_ HH]. rewrite HH in FF.
        rewrite andb_true_r in FF. rewrite FF. cbn [andb].
        rewrite S3, special_one, fadd_fin_l by auto. reflexivity.
      - rewrite andb_false_r. rewrite HH. destruct (is_finite X) eqn:FX.
        + rewrite S2, fadd_fin_r by (auto; apply special_fin). reflexivity.
        + rewrite <- S1, special_one by auto. reflexivity. }
    apply andb_true_iff in FF. destruct FF as [FX FP].
    unfold rep in H |- *. rewrite all_finite_cons, FX. cbn [andb].
    destruct (all_finite xs) eqn:HF.
    2:{ rewrite HH, special_fin in FP. discriminate. }
    assert (LE : lead (us ++ X :: xs) = lead (us ++ xs)).
    { rewrite !lead_app, lead_cons in *. lia. }
    destruct (us ++ xs) eqn:E; [congruence|]. rewrite <- E in *. clear E.
    destruct (us ++ X :: xs) eqn:E; [apply app_eq_nil in E; destruct E; discriminate|]. rewrite <- E in *. clear E.
    rewrite LE. set (k := lead (us ++ xs)) in *. pose proof (lead_range (us ++ xs)) as LR. fold k in LR.
    destruct H as (V & C & A & S & ZV & ZC & B).
    assert (HL' : k <= bin_of t (toZ X)) by (unfold findex in HL; rewrite FX in HL; auto).
    assert (SB : forall j, 0 <= j -> Z.abs (slice t (toZ X) j) <= 2 ^ (width t - 1)).
    { intros. apply slice_bound; auto. pose proof (toZ_span t X). lia. }
    pose proof (quarter_endurance t) as QE. pose proof (quarter_pos t) as QP. pose proof (width_pos t).
    pose proof (pow2_pos (width t - 1) ltac:(lia)) as WP.
    assert (DB : (d + 1) * 2 ^ (width t - 1) <= quarter t) by nia.
    assert (B2 : forall j, 0 <= j -> - 2 * quarter t < V j + slice t (toZ X) j < 2 * quarter t).
    { intros j Hj. specialize (B j Hj). specialize (SB j Hj). lia. }
    destruct (acc_deposit L ltac:(lia) m k V C X) as [A' FR]; auto.
    { specialize (B k ltac:(lia)). unfold inbin. lia. }
    { intros. apply B2. lia. }
    fold m' in A', FR. split.
    - exists (fun j => V j + slice t (toZ X) j), C. split; [exact A'|]. split; [|split; [|split]]; auto.
      + intros j Hj. rewrite sums_cons, <- S by auto. ring.
      + intros j Hj. rewrite ZV, slice_below by lia. reflexivity.
      + intros j Hj. specialize (B j Hj). specialize (SB j Hj). lia.
    - intros a Ha. apply FR. intros j Hj ->. apply Ha. exists j; auto.
  Qed.

  (** *** renormalise *)
  Lemma rep_renorm m us xs d : repm m us xs d -> 0 <= d <= endurance t ->
    (all_finite xs = true -> Z.of_nat (length xs) <= capacity t) ->
    let m' := dmrenorm fold p ip c ic m in holdsm m' us xs /\ framem m m'.
  Proof.
    intros H Hd HC m'. pose proof (rep_head _ _ _ _ H ltac:(lia)) as HH.
    unfold rep in H. unfold holds. destruct (all_finite xs) eqn:HF.
    2:{ assert (E : m' = m).
        { unfold m', dmrenorm. rewrite HH, (proj1 (special_nonfinite xs)), orb_true_r. reflexivity. }
        rewrite E. split; [exact H|apply frame_refl]. }
    destruct (us ++ xs) eqn:E.
    - assert (E2 : m' = m) by (unfold m', dmrenorm; rewrite HH; reflexivity).
      rewrite E2. split; [exact H|apply frame_refl].
    - rewrite <- E in *. clear E. set (k := lead (us ++ xs)) in *. pose proof (lead_range (us ++ xs)) as LR. fold k in LR.
      destruct H as (V & C & A & S & ZV & ZC & B).
      pose proof (quarter_endurance t) as QE. pose proof (quarter_pos t) as QP. pose proof (width_pos t).
      pose proof (pow2_pos (width t - 1) ltac:(lia)) as WP.
      assert (DB : d * 2 ^ (width t - 1) <= quarter t) by nia.
      destruct (acc_renorm L ltac:(lia) m k V C) as [CN FR]; auto.
      + intros i Hi. specialize (B (k + i) ltac:(lia)). unfold inbin. lia.
      + intros i Hi. pose proof (carry_cap xs (k + i) ltac:(lia) (HC eq_refl)) as CC.
        rewrite <- S, Z.div_add_l in CC by lia. exact CC.
      + fold m' in CN, FR. split; auto. destruct CN as [_ CN]. intros i Hi.
        destruct (CN i Hi) as [-> ->]. rewrite S by lia. auto.
  Qed.

  (** *** add *)
  Lemma rep_add m us xs d X : repm m us xs d -> 0 <= d < endurance t ->
    (all_finite (X :: xs) = true -> Z.of_nat (length (X :: xs)) <= capacity t) ->
    let m' := dmdadd fold X p ip c ic m in holdsm m' us (X :: xs) /\ framem m m'.
  Proof.
    intros H Hd HC m'. unfold m', dmdadd. cbv zeta.
    destruct (rep_update m us xs d X H ltac:(lia)) as [H1 F1].
    set (m1 := dmdupdate fold X p ip c ic m) in *.
    destruct (rep_deposit m1 (X :: us) xs d X H1 Hd) as [H2 F2].
    { discriminate. }
    { cbn [app]. rewrite lead_cons. lia. }
    set (m2 := dmddeposit fold X p ip m1) in *.
    destruct (rep_renorm m2 (X :: us) (X :: xs) (d + 1) H2 ltac:(lia) HC) as [H3 F3].
    set (m3 := dmrenorm fold p ip c ic m2) in *.
    split; [|eapply frame_trans; [eassumption|eapply frame_trans; eassumption]].
    unfold holds in *. destruct (all_finite (X :: xs)); auto.
    cbn [app] in H3. destruct (us ++ X :: xs) eqn:E; [apply app_eq_nil in E; destruct E; discriminate|].
    assert (LE : lead (X :: us ++ X :: xs) = lead (us ++ X :: xs)).
    { rewrite lead_cons, !lead_app, lead_cons. lia. }
    rewrite <- E in *. cbv zeta in *. rewrite LE in H3. exact H3.
  Qed.
End REG.

Section REG2.
  Context {t : ty} {fold p ip c ic : Z} (L : layout fold p ip c ic).
  Hypothesis Hf : 2 <= fold.
  Hypothesis Hm : fold <= jmax t + 1.
  Context {pX ipX cX icX : Z}.
  Notation repm m us xs d := (rep t fold us xs d (P_of m p ip) (P_of m c ic)).
  Notation holdsm m us xs := (holds t fold us xs (P_of m p ip) (P_of m c ic)).
  Notation repX m us xs d := (rep t fold us xs d (P_of m pX ipX) (P_of m cX icX)).
  Notation holdsX m us xs := (holds t fold us xs (P_of m pX ipX) (P_of m cX icX)).
  Notation framem := (frame fold p ip c ic).

  Lemma rep_head_gen (P W : Z -> F t) us xs d : rep t fold us xs d P W -> 0 <= d <= endurance t ->
    if all_finite xs then
      if us ++ xs then P 0 = fzero
      else feq (P 0) fzero = false /\ is_finite (P 0) = true
    else P 0 = special xs.
  Proof.
    unfold rep. intros H Hd. destruct (all_finite xs); auto.
    destruct (us ++ xs) eqn:E.
    - apply (H 0 ltac:(lia)).
    - rewrite <- E in *. clear E. destruct H as (V & C & A & _ & _ & _ & B).
      pose proof (quarter_endurance t). pose proof (quarter_pos t). pose proof (width_pos t).
      pose proof (pow2_pos (width t - 1) ltac:(lia)). pose proof (lead_range (us ++ xs)).
      specialize (B (lead (us ++ xs)) ltac:(lia)).
      destruct (priw_0 _ _ _ _ _ _ _ A ltac:(lia)) as (N1 & N2 & _).
      { unfold inbin. nia. }
      rewrite ISNANINF_fin in N2. split; auto. now destruct (is_finite (P 0)).
  Qed.
  Lemma rep_words_ext us xs d (P W P' W' : Z -> F t) :
    (forall i, 0 <= i < fold -> P' i = P i /\ W' i = W i) -> rep t fold us xs d P W -> rep t fold us xs d P' W'.
  Proof.
    intros E. unfold rep. destruct (all_finite xs).
    - destruct (us ++ xs).
      + intros H i Hi. destruct (E i Hi) as [-> ->]. auto.
      + intros (V & C & [Hk A] & R). exists V, C. split; auto. split; auto.
        intros i Hi. destruct (E i Hi) as [-> ->]. auto.
    - destruct (E 0 ltac:(lia)) as [-> _]. auto.
  Qed.
  Lemma holds_words_ext us xs (P W P' W' : Z -> F t) :
    (forall i, 0 <= i < fold -> P' i = P i /\ W' i = W i) -> holds t fold us xs P W -> holds t fold us xs P' W'.
  Proof.
    intros E. unfold holds. destruct (all_finite xs).
    - destruct (us ++ xs); intros H i Hi; destruct (E i Hi) as [-> ->]; apply H; auto.
    - destruct (E 0 ltac:(lia)) as [-> _]. auto.
  Qed.

  Lemma rep_set m us xs d : disjoint (in_acc fold pX ipX cX icX) (in_acc fold p ip c ic) ->
    let m' := dmdmset fold pX ipX cX icX p ip c ic m in
    (repX m us xs d -> repm m' us xs d) /\ (holdsX m us xs -> holdsm m' us xs) /\ framem m m'.
  Proof.
    intros DJ m'. destruct (acc_set L ltac:(lia) m DJ) as [E FR]. split; [|split]; auto.
    - apply rep_words_ext. exact E.
    - apply holds_words_ext. exact E.
  Qed.

  Lemma rep_merge m us xs us' xs' : disjoint (in_acc fold pX ipX cX icX) (in_acc fold p ip c ic) ->
    repX m us xs 0 -> repm m us' xs' 0 ->
    (all_finite (xs ++ xs') = true -> Z.of_nat (length (xs ++ xs')) <= capacity t) ->
    let m' := dmdmadd fold pX ipX cX icX p ip c ic m in
    repm m' (us ++ us') (xs ++ xs') 0 /\ framem m m' /\
    (holdsX m us xs -> holdsm m us' xs' -> holdsm m' (us ++ us') (xs ++ xs')).
  Proof.
    intros DJ HX HY HC m'. pose proof (endurance_pos t) as EP.
    pose proof (rep_head_gen _ _ _ _ _ HX ltac:(lia)) as HHX.
    pose proof (rep_head_gen _ _ _ _ _ HY ltac:(lia)) as HHY. rewrite !P_of_0 in HHX, HHY.
    destruct (special_app xs xs') as (SP1 & SP2 & SP3).
    (* X empty *)
    destruct (all_finite xs && match us ++ xs with nil => true | _ => false end) eqn:EX.
    { apply andb_true_iff in EX. destruct EX as [FX EX]. rewrite FX in *.
      destruct (us ++ xs) eqn:E; [|discriminate]. apply app_eq_nil in E. destruct E as [-> ->].
      assert (E : m' = m) by (unfold m', dmdmadd; rewrite HHX; reflexivity).
      rewrite E. cbn [app]. split; [auto|split; [intros a _; reflexivity|auto]]. }
    assert (NZX : feq (m pX) fzero = false).
    { destruct (all_finite xs).
      - destruct (us ++ xs); [discriminate|apply HHX].
      - rewrite HHX. apply special_nonfinite. }
    (* Y empty *)
    destruct (all_finite xs' && match us' ++ xs' with nil => true | _ => false end) eqn:EY.
    { apply andb_true_iff in EY. destruct EY as [FY EY]. rewrite FY in *.
      destruct (us' ++ xs') eqn:E; [|discriminate]. apply app_eq_nil in E. destruct E as [-> ->].
      rewrite !app_nil_r.
      assert (E : m' = dmdmset fold pX ipX cX icX p ip c ic m)
        by (unfold m', dmdmadd; rewrite NZX, HHY; reflexivity).
      rewrite E. destruct (rep_set m us xs 0 DJ) as (R1 & R2 & R3). auto. }
    assert (NZY : feq (m p) fzero = false).
    { destruct (all_finite xs').
      - destruct (us' ++ xs'); [discriminate|apply HHY].
      - rewrite HHY. apply special_nonfinite. }
    rewrite all_finite_app in HC.
    destruct (all_finite xs && all_finite xs') eqn:AF.
    2:{ (* some special *)
      assert (E : m' = upd m p (fadd (m p) (m pX))).
      { unfold m', dmdmadd. rewrite NZX, NZY, !ISNANINF_fin.
        destruct (all_finite xs); [destruct (us ++ xs); [discriminate|]|].
        - destruct (all_finite xs'); [discriminate|]. rewrite HHY, special_fin, orb_true_r. reflexivity.
        - rewrite HHX, special_fin. reflexivity. }
      rewrite E.
      assert (V : fadd (m p) (m pX) = special (xs ++ xs')).
      { destruct (all_finite xs) eqn:F1, (all_finite xs') eqn:F2; try discriminate.
        - destruct (us ++ xs); [discriminate|]. destruct HHX.
          rewrite SP2, HHY, fadd_fin_r by (auto; apply special_fin). reflexivity.
        - destruct (us' ++ xs'); [discriminate|]. destruct HHY.
          rewrite SP3, HHX, fadd_fin_l by (auto; apply special_fin). reflexivity.
        - rewrite HHX, HHY. auto. }
      unfold rep, holds. rewrite all_finite_app, AF, !P_of_0, upd_same, V.
      split; [auto|split; [apply frame_upd; lia|auto]]. }
    apply andb_true_iff in AF. destruct AF as [F1 F2].
    unfold rep in HX, HY. rewrite F1 in *. rewrite F2 in *. cbn [andb] in *.
    destruct (us ++ xs) eqn:E1; [discriminate|]. destruct (us' ++ xs') eqn:E2; [discriminate|].
    rewrite <- E1, <- E2 in *. 
    destruct HX as (VX & CX & AX & SX & ZVX & ZCX & BX). destruct HY as (VY & CY & AY & SY & ZVY & ZCY & BY).
    set (kX := lead (us ++ xs)) in *. set (kY := lead (us' ++ xs')) in *.
    assert (E : m' = dmrenorm fold p ip c ic (merge_raw fold p ip c ic pX ipX cX icX m)).
    { unfold m'. apply dmdmadd_raw; auto; rewrite ISNANINF_fin.
      - now rewrite (proj2 HHX). - now rewrite (proj2 HHY). }
    pose proof (quarter_pos t) as QP.
    specialize (HC eq_refl). rewrite app_length, Nat2Z.inj_add in HC.
    assert (CB : forall j, 0 <= j -> Z.abs (CX j + CY j) <= 2 ^ prec t).
    { intros j Hj. specialize (BX j Hj). specialize (BY j Hj).
      pose proof (sums_cap (xs ++ xs') j Hj ltac:(rewrite app_length; lia)) as CC.
      rewrite sums_app, <- SX, <- SY in CC by auto.
      pose proof (prec_pos t). assert (PP : 2 ^ prec t = 2 * 2 ^ (prec t - 1)).
      { rewrite <- Z.pow_succ_r by lia. f_equal. lia. }
      assert (2 ^ 3 <= 2 ^ (prec t - 1)) by (apply Z.pow_le_mono_r; lia).
      nia. }
    destruct (acc_merge L ltac:(lia) Hm m kX VX CX kY VY CY DJ AX AY ZVX ZCX ZVY ZCY) as [AM FM]; auto.
    { intros j Hj. specialize (BX j Hj). lia. }
    { intros j Hj. specialize (BY j Hj). lia. }
    { intros j Hj. specialize (BX j Hj). specialize (BY j Hj). lia. }
    set (m1 := merge_raw fold p ip c ic pX ipX cX icX m) in *.
    assert (SS : forall j, 0 <= j -> (CX j + CY j) * quarter t + (VX j + VY j) = sums (xs ++ xs') j).
    { intros j Hj. rewrite sums_app, <- SX, <- SY by auto. ring. }
    pose proof (lead_range (us ++ xs)) as LX. fold kX in LX. pose proof (lead_range (us' ++ xs')) as LY. fold kY in LY.
    destruct (acc_renorm L ltac:(lia) m1 _ _ _ AM) as [CN FN].
    { intros i Hi. specialize (BX (Z.min kX kY + i) ltac:(lia)). specialize (BY (Z.min kX kY + i) ltac:(lia)). unfold inbin. lia. }
    { intros i Hi. set (j := Z.min kX kY + i). 
      pose proof (carry_cap (xs ++ xs') j ltac:(lia) ltac:(rewrite app_length; lia)) as CC.
      rewrite <- SS, Z.div_add_l in CC by lia. exact CC. }
    rewrite <- E in CN, FN.
    assert (HO : holdsm m' (us ++ us') (xs ++ xs')).
    { unfold holds. rewrite all_finite_app, F1, F2. cbn [andb].
      assert (LE : lead ((us ++ us') ++ xs ++ xs') = Z.min kX kY).
      { unfold kX, kY. rewrite !lead_app. lia. }
      destruct ((us ++ us') ++ xs ++ xs') eqn:E3.
      { exfalso. apply app_eq_nil in E3. destruct E3 as [E3 E4].
        apply app_eq_nil in E3, E4. destruct E3 as [-> _], E4 as [-> _]. discriminate. }
      rewrite LE. destruct CN as [_ CN]. cbv zeta. intros i Hi. destruct (CN i Hi) as [-> ->]. rewrite SS by lia. auto. }
    split; [|split; [eapply frame_trans; eassumption|auto]].
    apply holds_rep; auto. rewrite app_length. lia.
  Qed.

  (** *** negate *)
  Definition negl (xs : list (F t)) : list (F t) := map fneg xs.
  Lemma toZ_neg (x : F t) : toZ (fneg x) = - toZ x.
  Proof.
    destruct x as [s|s| |s mm e H]; try reflexivity.
    unfold fneg. cbn [Bopp toZ]. rewrite <- Z.mul_opp_l. f_equal. destruct s; reflexivity.
  Qed.
  Lemma is_finite_neg (x : F t) : is_finite (fneg x) = is_finite x.
  Proof. destruct x; reflexivity. Qed.
  Lemma remainder_opp X n : remainder t (- X) n = - remainder t X n.
  Proof. induction n; cbn [remainder]; auto. rewrite IHn, rhaz_opp. ring. Qed.
  Lemma slice_opp X j : slice t (- X) j = - slice t X j.
  Proof. unfold slice. now rewrite remainder_opp, rhaz_opp. Qed.
  Lemma bin_of_opp X : bin_of t (- X) = bin_of t X.
  Proof. unfold bin_of. rewrite Z.abs_opp. destruct (Z.eqb_spec X 0), (Z.eqb_spec (- X) 0); auto; lia. Qed.
  Lemma sums_neg xs j : sums (negl xs) j = - sums xs j.
  Proof. induction xs; [reflexivity|]. cbn [negl map]. rewrite !sums_cons, toZ_neg, slice_opp. unfold negl in IHxs. lia. Qed.
  Lemma findex_neg (x : F t) : findex (fneg x) = findex x.
  Proof. unfold findex. now rewrite is_finite_neg, toZ_neg, bin_of_opp. Qed.
  Lemma lead_neg xs : lead (negl xs) = lead xs.
  Proof. induction xs; auto. cbn [negl map]. rewrite !lead_cons, findex_neg. unfold negl in IHxs. now rewrite IHxs. Qed.
  Lemma all_finite_neg xs : all_finite (negl xs) = all_finite xs.
  Proof. induction xs; auto. cbn [negl map]. rewrite !all_finite_cons, is_finite_neg. unfold negl in IHxs. now rewrite IHxs. Qed.
  Lemma special_neg xs : all_finite xs = false -> special (negl xs) = fneg (special xs).
  Proof.
    intros H. apply nonfinite_flags in H.
    assert (E : existsb f_isnan (negl xs) = existsb f_isnan xs /\ existsb is_pinf (negl xs) = existsb is_ninf xs /\
                existsb is_ninf (negl xs) = existsb is_pinf xs).
    { clear H. induction xs as [|x xs IH]; auto. destruct IH as (A & B & C). cbn [negl map existsb]. unfold negl in *.
      rewrite A, B, C. destruct x as [s|[]| |s]; auto. }
    destruct E as (A & B & C). unfold special. rewrite A, B, C.
    destruct (existsb f_isnan xs), (existsb is_pinf xs), (existsb is_ninf xs); try reflexivity;
      exfalso; intuition discriminate.
  Qed.

  Lemma rep_negate m us xs : repm m us xs 0 ->
    let m' := dmnegate fold p ip c ic m in repm m' us (negl xs) 0 /\ framem m m'.
  Proof.
    intros H m'. pose proof (endurance_pos t) as EP.
    pose proof (rep_head_gen _ _ _ _ _ H ltac:(lia)) as HH. rewrite P_of_0 in HH.
    unfold rep in H |- *. rewrite all_finite_neg. destruct (all_finite xs) eqn:HF.
    - destruct (us ++ xs) eqn:E.
      + apply app_eq_nil in E. destruct E as [-> ->]. cbn [app negl map].
        assert (E : m' = m) by (unfold m', dmnegate; rewrite HH; reflexivity). rewrite E. split; auto. intros a _; reflexivity.
      + destruct (us ++ negl xs) eqn:E2.
        { apply app_eq_nil in E2. destruct E2 as [-> E2]. apply map_eq_nil in E2. subst. discriminate. }
        rewrite <- E, <- E2 in *.
        assert (LE : lead (us ++ negl xs) = lead (us ++ xs)) by (rewrite !lead_app, lead_neg; reflexivity).
        rewrite LE. destruct H as (V & C & A & S & ZV & ZC & B). pose proof (quarter_pos t).
        pose proof (lead_range (us ++ xs)).
        destruct (acc_negate L ltac:(lia) Hm m _ V C A) as [A' FR].
        { intros i Hi. specialize (B (lead (us ++ xs) + i) ltac:(lia)). lia. }
        split; auto. exists (fun j => - V j), (fun j => - C j). split; [exact A'|]. repeat split.
        * intros j Hj. rewrite sums_neg, <- S by auto. ring.
        * intros j Hj. rewrite ZV by auto. reflexivity.
        * intros j Hj. rewrite ZC by auto. reflexivity.
        * specialize (B j ltac:(assumption)). lia.
        * specialize (B j ltac:(assumption)). lia.
    - assert (NZ : feq (m p) fzero = false) by (rewrite HH; apply special_nonfinite).
      pose proof (dmnegate_done L ltac:(lia) m NZ) as D. split; [|eapply done_frame; exact D].
      destruct D as [D _]. destruct (D 0 ltac:(lia)) as [D1 _]. rewrite P_of_0.
      replace (p + 0 * ip) with p in D1 by lia. fold m' in D1. cbv zeta in D1. rewrite D1, HH, special_neg by auto.
      assert (I0 : dmindex (special xs) = 0).
      { unfold special. destruct (_ || _); [destruct t; vm_compute; reflexivity|].
        destruct (existsb is_ninf xs); destruct t; vm_compute; reflexivity. }
      rewrite I0. pose proof (special_fin xs) as SF.
      pose proof (bins_priw t 0 0 ltac:(pose proof (jmax_pos t); lia) ltac:(pose proof (jmax_pos t); lia)) as [FB _].
      destruct (dmbins t 0 0), (special xs); try discriminate; reflexivity.
  Qed.
End REG2.
Arguments negl {t} xs.
