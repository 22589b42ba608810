(** * Proofs about client programs *)
From Coq Require Import ZArith Bool List Lia Permutation.
From Flocq Require Import Core BinarySingleNaN.
From Verif Require Import Fp Mem Binned Spec FpProofs BitProofs CoreArith SpecProofs WordProofs MemProofs AccProofs SumProofs ConvProofs Client.
Import ListNotations.
Open Scope Z_scope.

(** Contiguous accumulators. *)
Notation dpri m Y := (P_of m Y 1).
Notation dcar m Y fold := (P_of m (Y + fold) 1).
Definition block (a n x : Z) : Prop := a <= x < a + n.

Lemma in_acc_contig fold Y a : 0 <= fold -> in_acc fold Y 1 (Y + fold) 1 a <-> block Y (dbnum fold) a.
Proof.
  intros Hf. unfold in_acc, block, dbnum. split.
  - intros (i & Hi & [-> | ->]); lia.
  - intros H. destruct (Z_lt_dec a (Y + fold)).
    + exists (a - Y). split; [lia|]. left. lia.
    + exists (a - Y - fold). split; [lia|]. right. lia.
Qed.
Lemma disjoint_contig fold X Y : 0 <= fold -> (X + dbnum fold <= Y \/ Y + dbnum fold <= X) ->
  disjoint (in_acc fold X 1 (X + fold) 1) (in_acc fold Y 1 (Y + fold) 1).
Proof. intros Hf H a HX HY. rewrite in_acc_contig in HX, HY by auto. unfold block in *. lia. Qed.
Lemma frame_contig {t} fold Y (m m' : mem t) : 0 <= fold -> frame fold Y 1 (Y + fold) 1 m m' ->
  forall a, ~ block Y (dbnum fold) a -> m' a = m a.
Proof. intros Hf H a Ha. apply H. rewrite in_acc_contig by auto. auto. Qed.

Section ONE.
  Context {t : ty} (fold : Z) (Hf : 2 <= fold <= MAXFOLD t).
  Lemma Hf2 : 2 <= fold. Proof. lia. Qed.
  Lemma Hfm : fold <= jmax t + 1. Proof. rewrite <- MAXFOLD_eq. lia. Qed.

  Lemma cap1 : 1 <= capacity t. Proof. destruct t; discriminate. Qed.

  Lemma add_list_holds Y xs : forall (m : mem t) us zs,
    holds t fold us zs (dpri m Y) (dcar m Y fold) ->
    Z.of_nat (length (xs ++ zs)) <= capacity t ->
    let m' := add_list fold Y xs m in
    holds t fold us (rev xs ++ zs) (dpri m' Y) (dcar m' Y fold) /\
    (forall a, ~ block Y (dbnum fold) a -> m' a = m a).
  Proof.
    induction xs as [|x xs IH]; intros m us zs H HC; [split; auto|].
    cbn [app length] in HC. rewrite app_length in HC.
    destruct (rep_add (layout_contig fold Y ltac:(lia)) Hf2 Hfm m us zs 0 x) as [H1 F1].
    { apply holds_rep; auto. lia. }
    { pose proof (endurance_pos t). lia. }
    { intros _. cbn [length]. lia. }
    destruct (IH (dbdadd fold x Y m) us (x :: zs)) as [H2 F2].
    { exact H1. }
    { rewrite app_length. cbn [length]. lia. }
    cbv zeta. cbn [add_list fold_left] in *. split.
    - cbn [rev]. rewrite <- app_assoc. exact H2.
    - intros a Ha. etransitivity; [apply F2; auto|]. eapply frame_contig; [|exact F1|auto]. lia.
  Qed.

  Lemma setzero_holds Y (m : mem t) : let m' := dbsetzero fold Y m in
    holds t fold [] [] (dpri m' Y) (dcar m' Y fold) /\ (forall a, ~ block Y (dbnum fold) a -> m' a = m a).
  Proof.
    intros m'. destruct (rep_setzero (layout_contig fold Y ltac:(lia)) Hf2 m) as [H F]. split; auto.
    eapply frame_contig; [lia|exact F].
  Qed.

  Lemma sum_list_holds Y xs (m : mem t) : Z.of_nat (length xs) <= capacity t ->
    let m' := sum_list fold Y xs m in
    holds t fold [] xs (dpri m' Y) (dcar m' Y fold) /\
    (forall a, ~ block Y (dbnum fold) a -> m' a = m a).
  Proof.
    intros HC m'. destruct (setzero_holds Y m) as [H0 F0].
    destruct (add_list_holds Y xs _ _ _ H0) as [H1 F1]; [rewrite app_nil_r; auto|].
    split.
    - rewrite app_nil_r in H1. eapply holds_perm; [reflexivity| |exact H1]. symmetry. apply Permutation_rev.
    - intros a Ha. etransitivity; [apply F1|apply F0]; auto.
  Qed.

  Lemma holds_cells (m m' : mem t) Y Y' us xs : all_finite xs = true ->
    holds t fold us xs (dpri m Y) (dcar m Y fold) -> holds t fold us xs (dpri m' Y') (dcar m' Y' fold) ->
    forall i, 0 <= i < dbnum fold -> m (Y + i) = m' (Y' + i).
  Proof.
    intros F H H' i Hi. destruct (holds_unique t fold us xs _ _ _ _ ltac:(lia) H H') as [_ E].
    specialize (E F). unfold P_of, dbnum in *. destruct (Z_lt_dec i fold).
    - destruct (E i ltac:(lia)) as [E1 _]. now rewrite !Z.mul_1_r in E1.
    - destruct (E (i - fold) ltac:(lia)) as [_ E1]. rewrite !Z.mul_1_r in E1.
      replace (Y + i) with (Y + fold + (i - fold)) by lia. replace (Y' + i) with (Y' + fold + (i - fold)) by lia. auto.
  Qed.

  (** *** Trees *)
  Lemma eval_holds (u : tree t) : forall next m, Z.of_nat (length (leaves u)) <= capacity t ->
    let '(a, n, m') := eval fold u next m in
    next <= a /\ a + dbnum fold <= n /\
    holds t fold [] (leaves u) (dpri m' a) (dcar m' a fold) /\
    (forall x, ~ (next <= x < n) -> m' x = m x).
  Proof.
    induction u as [|x u IH|l IHl r IHr|l IHl r IHr]; intros next m HC; cbn [eval leaves] in *.
    - destruct (setzero_holds next m) as [H F]. split; [lia|split; [lia|split; [exact H|]]].
      intros x Hx. apply F. unfold block. lia.
    - cbn [length] in HC. specialize (IH next m ltac:(lia)). destruct (eval fold u next m) as [[a n] m1].
      destruct IH as (A1 & A2 & A3 & A4). split; [lia|split; [lia|split]].
      + destruct (add_list_holds a [x] m1 [] (leaves u) A3) as [H1 _]; [cbn [app length]; lia|exact H1].
      + intros y Hy. destruct (add_list_holds a [x] m1 [] (leaves u) A3) as [_ F1]; [cbn [app length]; lia|].
        etransitivity; [apply F1; unfold block; lia|auto].
    - rewrite app_length in HC. specialize (IHl next m ltac:(lia)).
      destruct (eval fold l next m) as [[a n] m1]. destruct IHl as (A1 & A2 & A3 & A4).
      specialize (IHr n m1 ltac:(lia)). destruct (eval fold r n m1) as [[b n'] m2]. destruct IHr as (B1 & B2 & B3 & B4).
      assert (A3' : holds t fold [] (leaves l) (dpri m2 a) (dcar m2 a fold)).
      { eapply holds_words_ext; [exact Hf2| |exact A3]. intros i Hi. unfold P_of, dbnum in *. split; apply B4; lia. }
      destruct (rep_merge (layout_contig fold a ltac:(lia)) Hf2 Hfm (pX := b) (ipX := 1) (cX := b + fold) (icX := 1)
        m2 [] (leaves r) [] (leaves l)) as (_ & FR & HH).
      { apply disjoint_contig; lia. }
      { apply holds_rep; auto; lia. }
      { apply holds_rep; auto; lia. }
      { intros _. rewrite app_length. lia. }
      split; [unfold dbnum in *; lia|split; [unfold dbnum in *; lia|split]].
      + eapply holds_perm; [reflexivity|apply Permutation_app_comm|]. apply HH; auto.
      + intros x Hx. etransitivity; [eapply frame_contig; [|exact FR|]; unfold block, dbnum in *; lia|].
        unfold dbnum in *. rewrite B4 by lia. apply A4. lia.
    - rewrite app_length in HC. specialize (IHl next m ltac:(lia)).
      destruct (eval fold l next m) as [[a n] m1]. destruct IHl as (A1 & A2 & A3 & A4).
      specialize (IHr n m1 ltac:(lia)). destruct (eval fold r n m1) as [[b n'] m2]. destruct IHr as (B1 & B2 & B3 & B4).
      assert (A3' : holds t fold [] (leaves l) (dpri m2 a) (dcar m2 a fold)).
      { eapply holds_words_ext; [exact Hf2| |exact A3]. intros i Hi. unfold P_of, dbnum in *. split; apply B4; lia. }
      destruct (rep_merge (layout_contig fold b ltac:(lia)) Hf2 Hfm (pX := a) (ipX := 1) (cX := a + fold) (icX := 1)
        m2 [] (leaves l) [] (leaves r)) as (_ & FR & HH).
      { apply disjoint_contig; lia. }
      { apply holds_rep; auto; lia. }
      { apply holds_rep; auto; lia. }
      { intros _. rewrite app_length. lia. }
      split; [unfold dbnum in *; lia|split; [unfold dbnum in *; lia|split]].
      + apply HH; auto.
      + intros x Hx. etransitivity; [eapply frame_contig; [|exact FR|]; unfold block, dbnum in *; lia|].
        unfold dbnum in *. rewrite B4 by lia. apply A4. lia.
  Qed.

  (** *** Raw deposits *)
  Lemma deposit_list_rep Y us zs ys : forall (m : mem t) xs d,
    rep t fold us xs d (dpri m Y) (dcar m Y fold) -> xs = zs -> 
    us ++ xs <> [] -> 0 <= d -> d + Z.of_nat (length ys) <= endurance t ->
    (forall y, In y ys -> lead (us ++ xs) <= findex y) ->
    let m' := deposit_list fold ys Y m in
    rep t fold us (rev ys ++ xs) (d + Z.of_nat (length ys)) (dpri m' Y) (dcar m' Y fold) /\
    (forall a, ~ block Y (dbnum fold) a -> m' a = m a).
  Proof.
    revert zs. induction ys as [|y ys IH]; intros zs m xs d H Hz NE Hd HL HB.
    - cbn [deposit_list fold_left rev app length]. rewrite Z.add_0_r. split; auto.
    - cbn [length] in HL.
      destruct (rep_deposit (layout_contig fold Y ltac:(lia)) Hf2 m us xs d y H) as [H1 F1]; auto; try lia.
      { apply HB. left; auto. }
      destruct (IH (y :: xs) (dbddeposit fold y Y m) (y :: xs) (d + 1)) as [H2 F2]; auto; try lia.
      { intros E. apply app_eq_nil in E. destruct E; discriminate. }
      { intros z Hz'. specialize (HB y (or_introl eq_refl)) as HB1. specialize (HB z (or_intror Hz')).
        rewrite lead_app in *. rewrite lead_cons. lia. }
      cbn [deposit_list fold_left] in *. split.
      + cbn [rev length]. rewrite <- app_assoc. cbn [app].
        replace (d + Z.of_nat (S (length ys))) with (d + 1 + Z.of_nat (length ys)) by lia. exact H2.
      + intros a Ha. etransitivity; [apply F2; auto|]. eapply frame_contig; [|exact F1|auto]. lia.
  Qed.
  Lemma renorm_holds Y us xs d (m : mem t) :
    rep t fold us xs d (dpri m Y) (dcar m Y fold) -> 0 <= d <= endurance t -> Z.of_nat (length xs) <= capacity t ->
    let m' := dbrenorm fold Y m in holds t fold us xs (dpri m' Y) (dcar m' Y fold) /\
    (forall a, ~ block Y (dbnum fold) a -> m' a = m a).
  Proof.
    intros H Hd HC m'. destruct (rep_renorm (layout_contig fold Y ltac:(lia)) Hf2 m us xs d H Hd) as [H1 F1]; auto.
    split; auto. eapply frame_contig; [lia|exact F1].
  Qed.
  Lemma deposit_renorm_holds Y us ys : forall (m : mem t) xs,
    holds t fold us xs (dpri m Y) (dcar m Y fold) ->
    us ++ xs <> [] -> Z.of_nat (length (ys ++ xs)) <= capacity t ->
    (forall y, In y ys -> lead (us ++ xs) <= findex y) ->
    let m' := deposit_renorm_list fold ys Y m in
    holds t fold us (rev ys ++ xs) (dpri m' Y) (dcar m' Y fold) /\
    (forall a, ~ block Y (dbnum fold) a -> m' a = m a).
  Proof.
    induction ys as [|y ys IH]; intros m xs H NE HC HB; [split; auto|].
    cbn [app length] in HC. rewrite app_length in HC. pose proof (endurance_pos t).
    destruct (rep_deposit (layout_contig fold Y ltac:(lia)) Hf2 m us xs 0 y) as [H1 F1]; auto; try lia.
    { apply holds_rep; auto. lia. }
    { apply HB. left; auto. }
    destruct (renorm_holds Y us (y :: xs) 1 (dbddeposit fold y Y m)) as [H2 F2]; auto; try lia.
    { cbn [length]. lia. }
    destruct (IH _ _ H2) as [H3 F3].
    { intros E. apply app_eq_nil in E. destruct E; discriminate. }
    { rewrite app_length. cbn [length]. lia. }
    { intros z Hz. specialize (HB y (or_introl eq_refl)) as HB1. specialize (HB z (or_intror Hz)).
      rewrite lead_app in *. rewrite lead_cons. lia. }
    cbn [deposit_renorm_list fold_left] in *. split.
    - cbn [rev]. rewrite <- app_assoc. exact H3.
    - intros a Ha. etransitivity; [apply F3; auto|]. etransitivity; [apply F2; auto|].
      eapply frame_contig; [|exact F1|auto]. lia.
  Qed.
End ONE.

(** ** Contents and values *)
Lemma content_acc t fold k V C P W i : acc t fold k V C P W -> 0 <= i < fold ->
  content t (k + i) (P i) (W i) = C (k + i) * quarter t + V (k + i).
Proof.
  intros [Hk A] Hi. destruct (A i Hi) as [[_ V1] [_ V2]]. unfold content. rewrite V1, V2.
  pose proof (emin_neg t). pose proof (stored_exp_ge t (k + i) ltac:(lia)).
  rewrite !Z.div_mul by (apply Z.pow_nonzero; lia). lia.
Qed.
Lemma content_rep t fold us xs d P W i : all_finite xs = true -> us ++ xs <> [] ->
  rep t fold us xs d P W -> 0 <= i < fold ->
  content t (lead (us ++ xs) + i) (P i) (W i) = sums xs (lead (us ++ xs) + i).
Proof.
  intros AF NE H Hi. unfold rep in H. rewrite AF in H. destruct (us ++ xs) eqn:E; [congruence|]. rewrite <- E in *.
  destruct H as (V & C & A & S & _). rewrite (content_acc _ _ _ _ _ _ _ _ A Hi). apply S.
  pose proof (lead_range (us ++ xs)). lia.
Qed.

(** Sum of the slices of X from bin a on, n bins. *)
Fixpoint slices_from (t : ty) (X : Z) (n : nat) (j : Z) : Z :=
  match n with O => 0 | S n' => slice t X j * 2 ^ unit_exp t j + slices_from t X n' (j + 1) end.
Lemma slices_from_rem t X n : forall j, 0 <= j ->
  slices_from t X n j = remainder t X (Z.to_nat j) - remainder t X (Z.to_nat (j + Z.of_nat n)).
Proof.
  induction n as [|n IH]; intros j Hj; cbn [slices_from].
  - rewrite Z.add_0_r. lia.
  - rewrite IH, remainder_succ by lia. replace (j + 1 + Z.of_nat n) with (j + Z.of_nat (S n)) by lia. lia.
Qed.
Lemma remainder_half t X j : 0 <= j -> 2 * Z.abs (remainder t X (Z.to_nat (j + 1))) <= 2 ^ unit_exp t j.
Proof.
  intros Hj. rewrite remainder_succ by auto. unfold slice. apply rhaz_near.
  apply pow2_pos. pose proof (unit_exp_ge t j). lia.
Qed.
Lemma value_rep t fold us xs d P W : 1 <= fold -> all_finite xs = true -> us ++ xs <> [] ->
  rep t fold us xs d P W ->
  let k := lead (us ++ xs) in
  2 * Z.abs (value t fold k P W - exact_sum xs) <= Z.of_nat (length xs) * 2 ^ unit_exp t (k + fold - 1).
Proof.
  intros Hf AF NE H k. pose proof (lead_range (us ++ xs)) as LR. fold k in LR.
  assert (E : forall n i, 0 <= i -> i + Z.of_nat n <= fold ->
    value_from t n k i P W = fold_right Z.add 0 (map (fun x => slices_from t (toZ x) n (k + i)) xs)).
  { induction n as [|n IH]; intros i Hi Hn; cbn [value_from].
    - clear. induction xs; cbn; auto.
    - pose proof (content_rep t fold us xs d P W i AF NE H ltac:(lia)) as CR. fold k in CR.
      rewrite CR, IH by lia. clear CR.
      replace (k + (i + 1)) with (k + i + 1) by lia. clearbody k. clear.
      induction xs as [|x xs IHx]; [reflexivity|]. rewrite sums_cons. cbn [map fold_right slices_from] in *.
      rewrite Z.mul_add_distr_r. lia. }
  unfold value. rewrite E, Z.add_0_r by lia. clear E H.
  assert (LX : k <= lead xs) by (unfold k; rewrite lead_app; lia). clearbody k. clear NE.
  unfold exact_sum. induction xs as [|x xs IH]; cbn [map fold_right length]; [simpl; lia|].
  rewrite all_finite_cons, andb_true_iff in AF. destruct AF as [Fx AF]. rewrite lead_cons in LX.
  specialize (IH AF ltac:(lia)).
  rewrite slices_from_rem by lia. rewrite (remainder_below t (toZ x)).
  - pose proof (remainder_half t (toZ x) (k + fold - 1) ltac:(lia)) as RH.
    replace (k + fold - 1 + 1) with (k + Z.of_nat (Z.to_nat fold)) in RH by lia.
    set (r := remainder t (toZ x) _) in *. lia.
  - unfold findex in LX. rewrite Fx in LX. lia.
Qed.

(** Size of the last unit compared with any number whose bin is the leading one. *)
Lemma last_unit t X k fold : k = bin_of t X -> X <> 0 -> Z.abs X < 2 ^ span t -> 1 <= fold -> k + fold - 1 <= jmax t -> k < jmax t ->
  2 ^ unit_exp t (k + fold - 1) * 2 ^ ((fold - 1) * width t) <= 2 * Z.abs X.
Proof.
  intros Hk NX HX Hf HJ KJ. pose proof (width_pos t). unfold bin_of in Hk. destruct (Z.eqb_spec X 0); [lia|].
  assert (0 <= Z.log2 (Z.abs X)) by apply Z.log2_nonneg.
  assert (LS : Z.log2 (Z.abs X) < span t) by (apply Z.log2_lt_pow2; lia).
  pose proof (unit_exp_ge t (k + fold - 1)) as UG.
  rewrite unit_exp_in in * by lia. rewrite <- Z.pow_add_r by nia.
  fold (span t) in Hk.
  assert (K1 : k <= (span t - (Z.log2 (Z.abs X) + 1)) / width t) by lia.
  assert (0 <= k) by (subst k; apply Z.min_glb; [apply Z.div_pos; lia|pose proof (jmax_pos t); lia]).
  assert (K2 : k = (span t - (Z.log2 (Z.abs X) + 1)) / width t) by lia.
  pose proof (Z.mul_succ_div_gt (span t - (Z.log2 (Z.abs X) + 1)) (width t) ltac:(lia)) as G. rewrite <- K2 in G.
  apply Z.le_trans with (2 ^ (Z.log2 (Z.abs X) + 1)).
  - apply Z.pow_le_mono_r; [lia|]. nia.
  - rewrite Z.pow_add_r by lia. change (2 ^ 1) with 2. pose proof (proj1 (Z.log2_spec (Z.abs X) ltac:(lia))). lia.
Qed.
