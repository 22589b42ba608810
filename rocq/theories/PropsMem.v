(** * C13, C14, C15, C35: neutral elements, copies, negation, layout *)
From Coq Require Import ZArith Bool List Lia Permutation.
From Flocq Require Import Core BinarySingleNaN.
From Verif Require Import Fp Mem Binned Spec FpProofs BitProofs CoreArith SpecProofs WordProofs MemProofs AccProofs SumProofs ConvProofs Client History ClientProofs StrideProofs PropsSum PropsAcc.
Import ListNotations.
Open Scope Z_scope.

(** ** C13 *)
(** Merging a zeroed accumulator changes nothing, whatever Y is. *)
Theorem C13_merge_zero t fold X Y (m : mem t) :
  m X = fzero -> forall a, dbdbadd fold X Y m a = m a.
Proof. intros H a. unfold dbdbadd, dmdmadd. rewrite H. reflexivity. Qed.
Print Assumptions C13_merge_zero.
(** Merging X into a zeroed accumulator copies X, whatever X is. *)
Theorem C13_merge_into_zero t fold X Y (m : mem t) :
  1 <= fold -> apart (dbnum fold) X Y -> (forall i, 0 <= i < dbnum fold -> m (Y + i) = fzero) ->
  (feq (m X) fzero = true -> forall i, 0 <= i < dbnum fold -> m (X + i) = fzero) ->
  same_words fold (dbdbadd fold X Y m) Y m X /\ unchanged_outside Y (dbnum fold) m (dbdbadd fold X Y m).
Proof.
  intros Hf HA HY HX. unfold dbdbadd. destruct (feq (m X) fzero) eqn:ZX.
  - unfold dmdmadd. rewrite ZX. split; [|intros a _; reflexivity].
    intros i Hi. rewrite HY, HX; auto.
  - unfold dmdmadd. rewrite ZX. assert (EY : m Y = fzero) by (rewrite <- (Z.add_0_r Y); apply HY; unfold dbnum; lia).
    rewrite EY. change (feq (fzero : F t) fzero) with true. cbv iota.
    assert (DJ : disjoint (in_acc fold X 1 (X + fold) 1) (in_acc fold Y 1 (Y + fold) 1)) by (apply disjoint_contig; [lia|exact HA]).
    destruct (copy_done (layout_contig fold Y ltac:(lia)) ltac:(lia) m DJ) as [D1 D2]. split.
    + intros i Hi. destruct (Z_lt_dec i fold).
      * destruct (D1 i ltac:(lia)) as [E _]. unfold P_of in E. rewrite !Z.mul_1_r in E. exact E.
      * destruct (D1 (i - fold) ltac:(lia)) as [_ E]. unfold P_of in E. rewrite !Z.mul_1_r in E.
        replace (Y + i) with (Y + fold + (i - fold)) by lia. replace (X + i) with (X + fold + (i - fold)) by lia. exact E.
    + intros a Ha. apply D2. intros i Hi. unfold dbnum in Ha. lia.
Qed.
Print Assumptions C13_merge_into_zero.
(** Adding a zero to an accumulator that already holds something changes no cell. *)
Theorem C13_add_zero t fold Y us xs s (m : mem t) :
  2 <= fold <= MAXFOLD t -> acc_at fold us xs m Y -> us ++ xs <> [] -> all_finite xs = true ->
  Z.of_nat (length xs) < CAPACITY t ->
  forall a, dbdadd fold (B754_zero s) Y m a = m a.
Proof.
  intros Hf H NE AF HC a. rewrite CAPACITY_eq in HC.
  destruct (add_list_holds fold Hf Y [B754_zero s] m us xs H) as [H1 F1]; [cbn [app length]; lia|].
  cbn [add_list fold_left] in H1, F1. cbn [rev app] in H1.
  assert (H2 : holds t fold us xs (dpri (dbdadd fold (B754_zero s) Y m) Y) (dcar (dbdadd fold (B754_zero s) Y m) Y fold)).
  { eapply holds_ext; [| | | | | |exact H1]; auto.
    - intros E. apply app_eq_nil in E. destruct E; discriminate.
    - rewrite !lead_app, lead_cons. assert (findex (B754_zero s : F t) = jmax t) by reflexivity.
      pose proof (lead_range xs). lia.
    - intros j. rewrite sums_cons. change (toZ (B754_zero s : F t)) with 0. rewrite slice_zero. lia. }
  destruct (Z_le_dec Y a); [destruct (Z_lt_dec a (Y + dbnum fold))|].
  - pose proof (holds_cells fold Hf _ _ _ _ _ _ AF H2 H (a - Y) ltac:(lia)) as E.
    replace (Y + (a - Y)) with a in E by lia. exact E.
  - apply F1. unfold block. lia.
  - apply F1. unfold block. lia.
Qed.
Print Assumptions C13_add_zero.
(** Converting a zeroed accumulator gives 0. *)
Theorem C13_convert_zero t fold Y (m : mem t) : 2 <= fold <= MAXFOLD t ->
  ddbconv fold Y (dbsetzero fold Y m) = fzero.
Proof.
  intros Hf. destruct (setzero_holds fold Hf Y m) as [H _]. destruct (H 0 ltac:(lia)) as [E _].
  unfold P_of in E. rewrite Z.mul_1_r, Z.add_0_r in E. apply ddmconv_zero. exact E.
Qed.
Print Assumptions C13_convert_zero.

(** Only zeros summed: the accumulator is made of empty last bins. *)
Lemma conv_empty t fold (m : mem t) Y (us xs : list (F t)) : 2 <= fold <= MAXFOLD t ->
  (forall x, In x (us ++ xs) -> is_finite x = true /\ toZ x = 0) -> us ++ xs <> [] ->
  acc_at fold us xs m Y -> ddbconv fold Y m = fzero.
Proof.
  intros Hf HZ NE H.
  assert (AF : all_finite xs = true).
  { unfold all_finite. apply forallb_forall. intros x Hx. apply HZ. apply in_or_app; auto. }
  assert (LD : lead (us ++ xs) = jmax t).
  { clear - HZ. induction (us ++ xs) as [|x l IH]; [reflexivity|]. rewrite lead_cons, IH by (intros; apply HZ; right; auto).
    destruct (HZ x (or_introl eq_refl)) as [F V]. unfold findex. rewrite F, V. unfold bin_of. rewrite Z.eqb_refl. lia. }
  assert (SM : forall j, sums xs j = 0).
  { intros j. clear - HZ. assert (HX : forall x, In x xs -> toZ x = 0) by (intros x Hx; apply HZ; apply in_or_app; auto).
    clear HZ. induction xs as [|x l IH]; [reflexivity|]. rewrite sums_cons, IH by (intros; apply HX; right; auto).
    rewrite (HX x (or_introl eq_refl)), slice_zero. reflexivity. }
  pose proof (MAXFOLD_eq t) as MF. pose proof (MAXINDEX_eq t) as MI.
  assert (B : forall i, 0 <= i < fold -> dmbins t (jmax t) i = dmbins t 0 (jmax t)).
  { intros i Hi. destruct (C10_table t (jmax t) i) as (_ & E & _); [rewrite MI; pose proof (jmax_pos t); lia|lia|].
    rewrite E, MI, Z.min_r by lia. reflexivity. }
  assert (W : forall i, 0 <= i < fold -> m (Y + i * 1) = dmbins t 0 (jmax t) /\ m (Y + fold + i * 1) = fzero).
  { intros i Hi. unfold acc_at, holds in H. rewrite AF in H. destruct (us ++ xs) eqn:E; [congruence|].
    rewrite <- E in *. cbv zeta in H. rewrite LD in H. destruct (H i Hi) as [-> ->]. rewrite SM.
    split; [|destruct t; reflexivity]. rewrite <- bins_empty by (pose proof (jmax_pos t); lia). apply B; auto. }
  unfold ddbconv, ddmconv. clear - W B Hf MF.
  assert (Hf2 : 2 <= fold) by lia. clear Hf MF. revert W B. destruct t; intros W B.
  - rewrite (ddmconv_ext fold _ _ (fun _ => dmbins Dbl 0 (jmax Dbl)) (fun _ => fzero) Hf2) by exact W.
    set (b0 := dmbins Dbl 0 (jmax Dbl)) in *.
    assert (E1 : ISNANINF b0 = false) by (vm_compute; reflexivity).
    assert (E2 : feq b0 fzero = false) by (vm_compute; reflexivity).
    assert (E3 : dmindex b0 = jmax Dbl) by (vm_compute; reflexivity).
    assert (E5 : fmul fzero (fdiv b0 (mkf 6 0)) = (fzero : F Dbl)) by (vm_compute; reflexivity).
    assert (E6 : fsub b0 b0 = (fzero : F Dbl)) by (vm_compute; reflexivity).
    unfold ddmconv_v. rewrite E1, E2, E3. cbv zeta. cbn [jmax].
    change (51 <=? cdiv (3 * prec Dbl) (WIDTH Dbl)) with false. cbv iota. cbn [jmax] in *.
    rewrite !B by lia. rewrite E5, E6. change (fadd fzero fzero : F Dbl) with (fzero : F Dbl).
    rewrite (for_up_inv (fun _ y => y = fzero) _ 1 fold fzero ltac:(lia) eq_refl); [reflexivity|].
    intros k y Hk ->. rewrite !B by lia. rewrite E5, E6. reflexivity.
  - rewrite (ssmconv_ext fold _ _ (fun _ => dmbins Flt 0 (jmax Flt)) (fun _ => fzero) Hf2) by exact W.
    set (b0 := dmbins Flt 0 (jmax Flt)) in *.
    assert (E1 : ISNANINF b0 = false) by (vm_compute; reflexivity).
    assert (E2 : feq b0 fzero = false) by (vm_compute; reflexivity).
    assert (E3 : dmindex b0 = jmax Flt) by (vm_compute; reflexivity).
    assert (E5 : fmul (f2d fzero) (fdiv (f2d b0) (mkf 6 0)) = (fzero : F Dbl)) by (vm_compute; reflexivity).
    assert (E6 : fsub b0 b0 = (fzero : F Flt)) by (vm_compute; reflexivity).
    unfold ssmconv_v. rewrite E1, E2, E3. cbv zeta. cbn [jmax].
    change (20 =? 0) with false. cbv iota beta. cbn [jmax] in *.
    rewrite !B by lia. rewrite E5, E6. change (fadd fzero fzero : F Dbl) with (fzero : F Dbl).
    rewrite (for_up_inv (fun _ y => y = fzero) _ 1 fold fzero ltac:(lia) eq_refl); [reflexivity|].
    intros k y Hk ->. rewrite !B by lia. rewrite E5, E6. reflexivity.
Qed.
Theorem C13_only_zeros t fold Y (xs : list (F t)) (m : mem t) : 2 <= fold <= MAXFOLD t ->
  (forall x, In x xs -> x = B754_zero false \/ x = B754_zero true) -> Z.of_nat (length xs) <= CAPACITY t ->
  ddbconv fold Y (sum_list fold Y xs m) = fzero.
Proof.
  intros Hf HZ HC. destruct xs as [|x l]; [apply C13_convert_zero; auto|].
  rewrite CAPACITY_eq in HC. destruct (sum_list_holds fold Hf Y (x :: l) m HC) as [H _].
  apply (conv_empty t fold _ Y [] (x :: l) Hf); [|discriminate|exact H].
  intros y Hy. destruct (HZ y Hy) as [-> | ->]; auto.
Qed.
Print Assumptions C13_only_zeros.
Example C13_case : acc_at 3 [] sample (sum_list 3 0 sample (fun _ => fzero)) 0.
Proof. apply C01_words; [vm_compute; split; discriminate|apply sample_small]. Qed.

(** ** C14 *)
Theorem C14_set t fold X Y (m : mem t) : 1 <= fold -> apart (dbnum fold) X Y ->
  same_words fold (dbdbset fold X Y m) Y m X /\ unchanged_outside Y (dbnum fold) m (dbdbset fold X Y m).
Proof.
  intros Hf HA. unfold dbdbset.
  assert (DJ : disjoint (in_acc fold X 1 (X + fold) 1) (in_acc fold Y 1 (Y + fold) 1)) by (apply disjoint_contig; [lia|exact HA]).
  destruct (dmdmset_done (layout_contig fold Y ltac:(lia)) ltac:(lia) m DJ) as [D1 D2]. split.
  - intros i Hi. destruct (Z_lt_dec i fold).
    + destruct (D1 i ltac:(lia)) as [E _]. unfold P_of in E. rewrite !Z.mul_1_r in E. exact E.
    + destruct (D1 (i - fold) ltac:(lia)) as [_ E]. unfold P_of in E. rewrite !Z.mul_1_r in E.
      replace (Y + i) with (Y + fold + (i - fold)) by lia. replace (X + i) with (X + fold + (i - fold)) by lia. exact E.
  - intros a Ha. apply D2. intros i Hi. unfold dbnum in Ha. lia.
Qed.
Print Assumptions C14_set.
Theorem C14_setzero t fold Y (m : mem t) : 1 <= fold ->
  (forall i, 0 <= i < dbnum fold -> dbsetzero fold Y m (Y + i) = fzero) /\
  unchanged_outside Y (dbnum fold) m (dbsetzero fold Y m).
Proof.
  intros Hf. destruct (dmsetzero_done (layout_contig fold Y ltac:(lia)) ltac:(lia) m) as [D1 D2]. unfold dbsetzero. split.
  - intros i Hi. unfold dbnum in Hi. destruct (Z_lt_dec i fold).
    + destruct (D1 i ltac:(lia)) as [E _]. rewrite Z.mul_1_r in E. exact E.
    + destruct (D1 (i - fold) ltac:(lia)) as [_ E]. rewrite Z.mul_1_r in E.
      replace (Y + i) with (Y + fold + (i - fold)) by lia. exact E.
  - intros a Ha. apply D2. intros i Hi. unfold dbnum in Ha. lia.
Qed.
Print Assumptions C14_setzero.
(** Negation negates the content of every bin. *)
Theorem C14_negate t fold Y us xs (m : mem t) i :
  2 <= fold <= MAXFOLD t -> acc_at fold us xs m Y -> us ++ xs <> [] -> all_finite xs = true ->
  Z.of_nat (length xs) <= CAPACITY t -> 0 <= i < fold ->
  let k := lead (us ++ xs) in
  content_at fold k (dbnegate fold Y m) Y i = - content_at fold k m Y i.
Proof.
  intros Hf H NE AF HC Hi k. rewrite CAPACITY_eq in HC. apply holds_rep in H; [|auto].
  destruct (rep_negate (layout_contig fold Y ltac:(lia)) (Hf2 fold Hf) (Hfm fold Hf) m us xs H) as [HN _]. cbv zeta in HN.
  pose proof (content_rep t fold us xs 0 _ _ i AF NE H Hi) as C1.
  assert (NE' : us ++ negl xs <> []).
  { intros E. apply app_eq_nil in E. destruct E as [-> E]. destruct xs; [auto|discriminate]. }
  pose proof (content_rep t fold us (negl xs) 0 _ _ i ltac:(rewrite all_finite_neg; auto) NE' HN Hi) as C2.
  rewrite !lead_app, !lead_neg, sums_neg, <- lead_app in C2. fold k in C1, C2. unfold P_of in C1, C2. rewrite !Z.mul_1_r in C1, C2.
  unfold content_at. unfold dbnegate. rewrite C1, C2. reflexivity.
Qed.
Print Assumptions C14_negate.
(** X plus its negation is zero in every bin. *)
Theorem C14_cancel t fold X Y us xs (m : mem t) i :
  2 <= fold <= MAXFOLD t -> apart (dbnum fold) X Y -> acc_at fold us xs m X -> us ++ xs <> [] -> all_finite xs = true ->
  2 * Z.of_nat (length xs) <= CAPACITY t -> 0 <= i < fold ->
  content_at fold (lead (us ++ xs))
    (dbdbadd fold X Y (dbnegate fold Y (dbdbset fold X Y m))) Y i = 0.
Proof.
  intros Hf HA H NE AF HC Hi. rewrite CAPACITY_eq in HC.
  destruct (C14_set t fold X Y m ltac:(lia) HA) as [HS HU].
  assert (DJ : disjoint (in_acc fold X 1 (X + fold) 1) (in_acc fold Y 1 (Y + fold) 1)) by (apply disjoint_contig; [lia|exact HA]).
  assert (LY := layout_contig fold Y ltac:(lia)).
  assert (RX : rep t fold us xs 0 (dpri m X) (dcar m X fold)) by (apply holds_rep; auto; lia).
  destruct (rep_set LY (Hf2 fold Hf) (pX := X) (ipX := 1) (cX := X + fold) (icX := 1) m us xs 0 DJ) as (R1 & _ & F1).
  cbv zeta in R1, F1. specialize (R1 RX). fold (dbdbset fold X Y m) in R1, F1. set (m1 := dbdbset fold X Y m) in *.
  destruct (rep_negate LY (Hf2 fold Hf) (Hfm fold Hf) m1 us xs R1) as [R2 F2]. cbv zeta in R2, F2.
  fold (dbnegate fold Y m1) in R2, F2. set (m2 := dbnegate fold Y m1) in *.
  assert (RX2 : rep t fold us xs 0 (dpri m2 X) (dcar m2 X fold)).
  { eapply rep_words_ext; [lia| |exact RX]. intros j Hj. unfold P_of. split.
    - rewrite F2, F1; auto; intros C; rewrite in_acc_contig in C by lia; unfold apart, block, dbnum in *; lia.
    - rewrite F2, F1; auto; intros C; rewrite in_acc_contig in C by lia; unfold apart, block, dbnum in *; lia. }
  destruct (rep_merge LY (Hf2 fold Hf) (Hfm fold Hf) (pX := X) (ipX := 1) (cX := X + fold) (icX := 1) m2 us xs us (negl xs) DJ RX2 R2) as (R3 & _ & _).
  { intros _. unfold negl. rewrite app_length, map_length. lia. }
  cbv zeta in R3. fold (dbdbadd fold X Y m2) in R3.
  assert (AF' : all_finite (xs ++ negl xs) = true).
  { rewrite all_finite_app, all_finite_neg, AF. reflexivity. }
  assert (NE' : (us ++ us) ++ (xs ++ negl xs) <> []).
  { intros E. apply NE. apply app_eq_nil in E. destruct E as [E1 E2]. apply app_eq_nil in E1. apply app_eq_nil in E2.
    destruct E1 as [-> _]. destruct E2 as [-> _]. reflexivity. }
  pose proof (content_rep t fold _ _ 0 _ _ i AF' NE' R3 Hi) as C.
  replace (lead ((us ++ us) ++ xs ++ negl xs)) with (lead (us ++ xs)) in C by (rewrite !lead_app, lead_neg; lia).
  rewrite sums_app, sums_neg in C. unfold P_of in C. rewrite !Z.mul_1_r in C. unfold content_at. rewrite C. lia.
Qed.
Print Assumptions C14_cancel.

(** ** C15 *)
(** One call: if corresponding accumulators have the same words before, they have the
    same words after, whatever their addresses and strides and whatever the words are
    (no precondition on the state); only the cells of the written accumulator change. *)
Theorem C15_strided_call t fold (R R' : nat -> reg) (o : op t) (m m' : mem t) : 2 <= fold ->
  registers fold R -> registers fold R' -> two_regs o ->
  (forall r, same_acc fold m (R r) m' (R' r)) ->
  (forall r, same_acc fold (exec fold R o m) (R r) (exec fold R' o m') (R' r)) /\
  only fold (R (target o)) m (exec fold R o m).
Proof. apply exec_sim. Qed.
Print Assumptions C15_strided_call.
(** Any sequence of calls. *)
Theorem C15_strided_run t fold (R R' : nat -> reg) (ops : list (op t)) : 2 <= fold ->
  registers fold R -> registers fold R' -> Forall two_regs ops -> forall m m',
  (forall r, same_acc fold m (R r) m' (R' r)) ->
  (forall r, same_acc fold (run fold R ops m) (R r) (run fold R' ops m') (R' r)) /\
  (forall a, (forall o, In o ops -> ~ cells fold (R (target o)) a) -> run fold R ops m a = m a).
Proof. apply run_sim. Qed.
Print Assumptions C15_strided_run.
Theorem C15_strided_convert t fold (r r' : reg) (m m' : mem t) : 2 <= fold ->
  same_acc fold m r m' r' ->
  ddmconv fold (rp r) (rip r) (rc r) (ric r) m = ddmconv fold (rp r') (rip r') (rc r') (ric r') m'.
Proof. intros Hf. apply conv_same; auto. Qed.
Print Assumptions C15_strided_convert.
(** Contiguous accumulators are the special case rip = ric = 1, rc = rp + fold. *)
Definition contiguous (fold : Z) (r : nat) : reg := mkreg (Z.of_nat r * dbnum fold) 1 (Z.of_nat r * dbnum fold + fold) 1.
Example C15_case : registers 3 sample_regs /\ registers 3 (contiguous 3) /\ Forall two_regs sample_ops.
Proof.
  split; [apply C02_history_case|]. split; [split|].
  - intros r. apply layout_contig. lia.
  - intros r r' N a. unfold cells, in_acc, contiguous, dbnum; cbn [rp rip rc ric].
    intros (i & Hi & E) (j & Hj & E'). lia.
  - repeat constructor; discriminate.
Qed.

(** ** C35 *)
Theorem C35_layout t fold Y : 0 <= fold ->
  dbnum fold = 2 * fold /\ zbnum fold = 4 * fold /\ dbsize t fold = dbnum fold * sizeof t /\ zbsize t fold = zbnum fold * sizeof t /\
  (forall a, in_acc fold Y 1 (Y + fold) 1 a <-> Y <= a < Y + dbnum fold) /\
  (forall a, (in_acc fold Y 2 (Y + 2 * fold) 2 a \/ in_acc fold (Y + 1) 2 (Y + 2 * fold + 1) 2 a) <-> Y <= a < Y + zbnum fold) /\
  disjoint (in_acc fold Y 2 (Y + 2 * fold) 2) (in_acc fold (Y + 1) 2 (Y + 2 * fold + 1) 2).
Proof.
  intros Hf. split; [reflexivity|]. split; [reflexivity|]. split; [reflexivity|]. split; [reflexivity|].
  split; [intros a; apply in_acc_contig; auto|]. unfold zbnum. split.
  - intros a. split.
    + intros [(i & Hi & E)|(i & Hi & E)]; lia.
    + intros H. destruct (Z.Even_or_Odd (a - Y)) as [[q E]|[q E]].
      * left. destruct (Z_lt_dec q fold); [exists q; split; [lia|left; lia]|exists (q - fold); split; [lia|right; lia]].
      * right. destruct (Z_lt_dec q fold); [exists q; split; [lia|left; lia]|exists (q - fold); split; [lia|right; lia]].
  - intros a (i & Hi & E) (j & Hj & E'). lia.
Qed.
Print Assumptions C35_layout.
(** Elements i <> j of an array of accumulators of stride inc >= 1 do not overlap. *)
Theorem C35_array fold Y inc i j : 0 <= fold -> 1 <= Z.abs inc -> i <> j ->
  apart (dbnum fold) (Y + i * (inc * dbnum fold)) (Y + j * (inc * dbnum fold)) /\
  apart (zbnum fold) (Y + i * (inc * zbnum fold)) (Y + j * (inc * zbnum fold)).
Proof.
  intros Hf Hi N. unfold apart, dbnum, zbnum.
  assert (H : (i - j) * inc <= -1 \/ 1 <= (i - j) * inc) by nia. nia.
Qed.
Print Assumptions C35_array.
