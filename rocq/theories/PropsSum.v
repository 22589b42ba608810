(** * C01 - C08, C11 - C14: summation with one accumulator per part *)
From Coq Require Import ZArith Bool List Lia Permutation.
From Flocq Require Import Core BinarySingleNaN.
From Verif Require Import Fp Mem Binned Spec FpProofs BitProofs CoreArith SpecProofs WordProofs MemProofs AccProofs SumProofs ConvProofs Client History ClientProofs.
Import ListNotations.
Open Scope Z_scope.

(** Data used to show that hypotheses can be met: 2^1000, -1, a subnormal, -0, 2^-60. *)
Definition sample : list (F Dbl) :=
  [mkf 1 1000; mkf (-1) 0; mkf 3 (-1074); B754_zero true; mkf 5 (-60); mkf (-7) 990].
Lemma sample_finite : all_finite sample = true. Proof. vm_compute. reflexivity. Qed.
Lemma sample_small : Z.of_nat (length sample) <= CAPACITY Dbl. Proof. vm_compute. discriminate. Qed.

(** ** C01 *)
Theorem C01_order_independent t fold Y Y' (xs xs' : list (F t)) (m m' : mem t) :
  2 <= fold <= MAXFOLD t -> all_finite xs = true -> Z.of_nat (length xs) <= CAPACITY t ->
  Permutation xs xs' ->
  same_words fold (sum_list fold Y xs m) Y (sum_list fold Y' xs' m') Y'.
Proof.
  intros Hf AF HC HP. rewrite CAPACITY_eq in HC.
  destruct (sum_list_holds fold Hf Y xs m HC) as [H1 _].
  destruct (sum_list_holds fold Hf Y' xs' m') as [H2 _].
  { rewrite <- (Permutation_length HP). auto. }
  apply (holds_perm _ _ [] [] _ xs) in H2; [|reflexivity|symmetry; auto].
  exact (holds_cells fold Hf _ _ _ _ _ _ AF H1 H2).
Qed.
Print Assumptions C01_order_independent.
(** What the words are: the canonical ones of Spec.v; nothing else is written. *)
Theorem C01_words t fold Y (xs : list (F t)) (m : mem t) :
  2 <= fold <= MAXFOLD t -> Z.of_nat (length xs) <= CAPACITY t ->
  acc_at fold [] xs (sum_list fold Y xs m) Y /\ unchanged_outside Y (dbnum fold) m (sum_list fold Y xs m).
Proof. intros Hf HC. rewrite CAPACITY_eq in HC. exact (sum_list_holds fold Hf Y xs m HC). Qed.
Print Assumptions C01_words.
Example C01_case : same_words 3 (sum_list 3 0 sample (fun _ => fzero)) 0 (sum_list 3 100 (rev sample) (fun _ => fnan)) 100.
Proof.
  apply C01_order_independent; [vm_compute; split; discriminate|apply sample_finite|apply sample_small|apply Permutation_rev].
Qed.
(** the sum is not trivial, and depends on the data *)
Example C01_nontrivial : feq (ddbconv 3 0 (sum_list 3 0 sample (fun _ => fzero))) (mkf (1024 - 7) 990) = true /\
  bits (sum_list 3 0 sample (fun _ => fzero) 0) <> bits (sum_list 3 0 (sample ++ sample) (fun _ => fzero) 0).
Proof. split; vm_compute; [reflexivity|discriminate]. Qed.

(** ** C02 *)
Theorem C02_tree_independent t fold (u u' : tree t) n n' m m' :
  2 <= fold <= MAXFOLD t -> all_finite (leaves u) = true -> Z.of_nat (length (leaves u)) <= CAPACITY t ->
  Permutation (leaves u) (leaves u') ->
  let '(a, _, r) := eval fold u n m in
  let '(a', _, r') := eval fold u' n' m' in
  same_words fold r a r' a'.
Proof.
  intros Hf AF HC HP. rewrite CAPACITY_eq in HC.
  pose proof (eval_holds fold Hf u n m HC) as H1.
  pose proof (eval_holds fold Hf u' n' m' ltac:(rewrite <- (Permutation_length HP); auto)) as H2.
  destruct (eval fold u n m) as [[a e] r]. destruct (eval fold u' n' m') as [[a' e'] r'].
  destruct H1 as (_ & _ & H1 & _). destruct H2 as (_ & _ & H2 & _).
  apply (holds_perm _ _ [] [] _ (leaves u)) in H2; [|reflexivity|symmetry; auto].
  exact (holds_cells fold Hf _ _ _ _ _ _ AF H1 H2).
Qed.
Print Assumptions C02_tree_independent.
Theorem C02_tree_is_sequential t fold (u : tree t) xs n Y m m' :
  2 <= fold <= MAXFOLD t -> all_finite (leaves u) = true -> Z.of_nat (length (leaves u)) <= CAPACITY t ->
  Permutation (leaves u) xs ->
  let '(a, _, r) := eval fold u n m in same_words fold r a (sum_list fold Y xs m') Y.
Proof.
  intros Hf AF HC HP. rewrite CAPACITY_eq in HC.
  pose proof (eval_holds fold Hf u n m HC) as H1.
  destruct (sum_list_holds fold Hf Y xs m') as [H2 _].
  { rewrite <- (Permutation_length HP). auto. }
  destruct (eval fold u n m) as [[a e] r]. destruct H1 as (_ & _ & H1 & _).
  apply (holds_perm _ _ [] [] _ (leaves u)) in H2; [|reflexivity|symmetry; auto].
  exact (holds_cells fold Hf _ _ _ _ _ _ AF H1 H2).
Qed.
Print Assumptions C02_tree_is_sequential.
Definition sample_tree : tree Dbl :=
  MergeR (Push (mkf 1 1000) (MergeL Empty (Push (mkf (-1) 0) Empty)))
         (MergeL (Push (mkf 3 (-1074)) (Push (B754_zero true) Empty)) (Push (mkf 5 (-60)) (Push (mkf (-7) 990) Empty))).
Example C02_case : let '(a, _, r) := eval 3 sample_tree 0 (fun _ => fzero) in
  same_words 3 r a (sum_list 3 0 sample (fun _ => fnan)) 0.
Proof.
  apply (C02_tree_is_sequential Dbl 3 sample_tree sample); [vm_compute; split; discriminate|vm_compute; reflexivity|vm_compute; discriminate|reflexivity].
Qed.
(** Any interleaving of all the scalar routines on any set of disjoint accumulators. *)
Theorem C02_history_independent t fold (R R' : nat -> reg) (ops ops' : list (op t)) m m' s s' r r' :
  2 <= fold <= MAXFOLD t -> registers fold R -> registers fold R' ->
  ok fold R m s -> ok fold R' m' s' -> legal_all ops s -> legal_all ops' s' ->
  let g := tracked ops s r in let g' := tracked ops' s' r' in
  normal g = true -> normal g' = true -> all_finite (summed g) = true ->
  Permutation (summed g) (summed g') -> Permutation (room g) (room g') ->
  forall i, 0 <= i < fold ->
    pri (run fold R ops m) (R r) i = pri (run fold R' ops' m') (R' r') i /\
    car (run fold R ops m) (R r) i = car (run fold R' ops' m') (R' r') i.
Proof.
  intros Hf HR HR' O O' L L' g g' N N' AF PX PU i Hi.
  destruct (run_ok fold R Hf HR ops m s O L r) as (_ & _ & H).
  destruct (run_ok fold R' Hf HR' ops' m' s' O' L' r') as (_ & _ & H').
  specialize (H N). specialize (H' N').
  apply (holds_perm _ _ (room g') (room g) (summed g') (summed g)) in H'; [|symmetry; auto|symmetry; auto].
  exact (proj2 (holds_unique t fold (room g) (summed g) _ _ _ _ ltac:(lia) H H') AF i Hi).
Qed.
Print Assumptions C02_history_independent.

(** The history theorem is not vacuous: zeroed memory is a legal start, and a
    history with raw deposits, an update, a merge, a copy and a negation is legal. *)
Lemma C02_start t fold R : registers fold R -> ok fold R (fun _ => fzero : F t) (fun _ => ghost0).
Proof.
  intros _ r. split; [split; [reflexivity|destruct t; discriminate]|].
  split; [intros i Hi; auto|intros _ i Hi; auto].
Qed.
Definition sample_regs (r : nat) : reg :=   (* fold 3; odd registers are strided by 2, carry downwards *)
  mkreg (Z.of_nat r * 100) (if Nat.odd r then 2 else 1) (Z.of_nat r * 100 + 50) (if Nat.odd r then -3 else 1).
Definition sample_ops : list (op Dbl) :=
  [Add (mkf 1 1000) 0; Update (mkf 1 3) 1; Deposit (mkf (-1) 0) 1; Deposit (mkf 3 (-1074)) 1; Renorm 1;
   Negate 0; Merge 1 0; SetTo 0 2; Add (mkf 7 20) 2; Renorm 0].
Example C02_history_case : registers 3 sample_regs /\ legal_all sample_ops (fun _ => ghost0) /\
  normal (tracked sample_ops (fun _ => ghost0) 0) = true /\
  length (summed (tracked sample_ops (fun _ => ghost0) 0)) = 3%nat.
Proof.
  split; [|split; [|vm_compute; auto]].
  - split.
    + intros r. unfold sample_regs; cbn [rp rip rc ric]. destruct (Nat.odd r); split; intros; lia.
    + intros r r' N a. unfold cells, in_acc, sample_regs; cbn [rp rip rc ric].
      intros (i & Hi & E) (j & Hj & E'). destruct (Nat.odd r), (Nat.odd r'); lia.
  - cbn [legal_all sample_ops legal track put Nat.eqb room summed raw app].
    repeat split; unfold fits; intros; try discriminate; try lia; try (vm_compute; congruence); vm_compute; discriminate.
Qed.

(** ** C03 *)
Lemma merge_at t fold X Y us xs vs ys (m : mem t) :
  2 <= fold <= MAXFOLD t -> apart (dbnum fold) X Y ->
  acc_at fold us xs m X -> acc_at fold vs ys m Y -> Z.of_nat (length (xs ++ ys)) <= capacity t ->
  acc_at fold (us ++ vs) (xs ++ ys) (dbdbadd fold X Y m) Y /\
  unchanged_outside Y (dbnum fold) m (dbdbadd fold X Y m).
Proof.
  intros Hf HA HX HY HC. rewrite app_length in HC.
  destruct (rep_merge (layout_contig fold Y ltac:(lia)) (Hf2 fold Hf) (Hfm fold Hf)
     (pX := X) (ipX := 1) (cX := X + fold) (icX := 1) m us xs vs ys) as (_ & FR & HH).
  { apply disjoint_contig; [lia|]. unfold apart in HA. lia. }
  { apply holds_rep; auto; lia. }
  { apply holds_rep; auto; lia. }
  { intros _. rewrite app_length. lia. }
  split; [apply HH; auto|]. intros a Ha. apply (frame_contig fold Y m _ ltac:(lia) FR a Ha).
Qed.
Lemma acc_at_unchanged t fold us xs (m m' : mem t) X Y :
  2 <= fold -> apart (dbnum fold) X Y -> unchanged_outside Y (dbnum fold) m m' ->
  acc_at fold us xs m X -> acc_at fold us xs m' X.
Proof.
  intros Hf HA U H. unfold acc_at in *. eapply holds_words_ext; [exact Hf| |exact H].
  intros i Hi. unfold apart, unchanged_outside, dbnum in *. cbn beta. split; apply U; lia.
Qed.
Lemma acc_at_same t fold us us' xs xs' (m m' : mem t) Y Y' :
  2 <= fold <= MAXFOLD t -> all_finite xs = true -> Permutation us us' -> Permutation xs xs' ->
  acc_at fold us xs m Y -> acc_at fold us' xs' m' Y' -> same_words fold m Y m' Y'.
Proof.
  intros Hf AF PU PX H H'.
  assert (H2 : acc_at fold us xs m' Y') by (eapply holds_perm; [symmetry; exact PU|symmetry; exact PX|exact H']).
  exact (holds_cells fold Hf m m' Y Y' us xs AF H H2).
Qed.
Theorem C03_commutative t fold X Y us xs vs ys (m : mem t) :
  2 <= fold <= MAXFOLD t -> apart (dbnum fold) X Y ->
  acc_at fold us xs m X -> acc_at fold vs ys m Y ->
  all_finite (xs ++ ys) = true -> Z.of_nat (length (xs ++ ys)) <= CAPACITY t ->
  same_words fold (dbdbadd fold X Y m) Y (dbdbadd fold Y X m) X.
Proof.
  intros Hf HA HX HY AF HC. rewrite CAPACITY_eq in HC.
  assert (HA' : apart (dbnum fold) Y X) by (unfold apart in *; lia).
  eapply acc_at_same; [exact Hf|exact AF| | |apply merge_at; eauto|apply merge_at; eauto].
  - apply Permutation_app_comm.
  - apply Permutation_app_comm.
  - rewrite app_length in *. lia.
Qed.
Print Assumptions C03_commutative.
Theorem C03_associative t fold X Y Z_ us xs vs ys ws zs (m : mem t) :
  2 <= fold <= MAXFOLD t ->
  apart (dbnum fold) X Y -> apart (dbnum fold) Y Z_ -> apart (dbnum fold) X Z_ ->
  acc_at fold us xs m X -> acc_at fold vs ys m Y -> acc_at fold ws zs m Z_ ->
  all_finite (xs ++ ys ++ zs) = true -> Z.of_nat (length (xs ++ ys ++ zs)) <= CAPACITY t ->
  (* (X + Y) + Z, accumulated in Z, and X + (Y + Z), accumulated in X *)
  same_words fold (dbdbadd fold Y Z_ (dbdbadd fold X Y m)) Z_ (dbdbadd fold Z_ X (dbdbadd fold Y Z_ m)) X.
Proof.
  intros Hf A1 A2 A3 HX HY HZ AF HC. rewrite CAPACITY_eq in HC.
  assert (A1' : apart (dbnum fold) Y X) by (unfold apart in *; lia).
  assert (A2' : apart (dbnum fold) Z_ Y) by (unfold apart in *; lia).
  assert (A3' : apart (dbnum fold) Z_ X) by (unfold apart in *; lia).
  rewrite !app_length in HC.
  destruct (merge_at t fold X Y us xs vs ys m Hf A1 HX HY) as [L1 U1]; [rewrite app_length; lia|].
  pose proof (acc_at_unchanged _ _ _ _ _ _ Z_ Y (proj1 Hf) A2' U1 HZ) as L2.
  destruct (merge_at t fold Y Z_ _ _ _ _ _ Hf A2 L1 L2) as [L3 _]; [rewrite !app_length; lia|].
  destruct (merge_at t fold Y Z_ vs ys ws zs m Hf A2 HY HZ) as [R1 V1]; [rewrite app_length; lia|].
  pose proof (acc_at_unchanged _ _ _ _ _ _ X Z_ (proj1 Hf) A3 V1 HX) as R2.
  destruct (merge_at t fold Z_ X _ _ _ _ _ Hf A3' R1 R2) as [R3 _]; [rewrite !app_length; lia|].
  eapply acc_at_same; [exact Hf| | | |exact L3|exact R3].
  - rewrite <- app_assoc. exact AF.
  - rewrite <- app_assoc. rewrite Permutation_app_comm. rewrite <- app_assoc. reflexivity.
  - rewrite <- app_assoc. rewrite Permutation_app_comm. rewrite <- app_assoc. reflexivity.
Qed.
Print Assumptions C03_associative.
(** Three accumulators meeting the hypotheses. *)
Example C03_case : exists m : mem Dbl,
  acc_at 3 [] sample m 0 /\ acc_at 3 [] (rev sample) m 6 /\ acc_at 3 [] [mkf 1 (-1074)] m 12.
Proof.
  set (m0 := fun _ : Z => fnan : F Dbl).
  set (m1 := sum_list 3 0 sample m0). set (m2 := sum_list 3 6 (rev sample) m1).
  exists (sum_list 3 12 [mkf 1 (-1074)] m2).
  assert (Hf : 2 <= 3 <= MAXFOLD Dbl) by (vm_compute; split; discriminate).
  destruct (C01_words Dbl 3 0 sample m0 Hf ltac:(vm_compute; discriminate)) as [H1 U1].
  destruct (C01_words Dbl 3 6 (rev sample) m1 Hf ltac:(vm_compute; discriminate)) as [H2 U2].
  destruct (C01_words Dbl 3 12 [mkf 1 (-1074)] m2 Hf ltac:(vm_compute; discriminate)) as [H3 U3].
  split; [|split; [|exact H3]].
  - eapply acc_at_unchanged; [lia| |exact U3|]; [left; unfold dbnum; lia|].
    eapply acc_at_unchanged; [lia| |exact U2|exact H1]. left; unfold dbnum; lia.
  - eapply acc_at_unchanged; [lia| |exact U3|exact H2]. left; unfold dbnum; lia.
Qed.

(** ** C04 *)
Theorem C04_slices t fold (u : tree t) n m i :
  2 <= fold <= MAXFOLD t -> all_finite (leaves u) = true -> leaves u <> [] ->
  Z.of_nat (length (leaves u)) <= CAPACITY t -> 0 <= i < fold ->
  let '(a, _, r) := eval fold u n m in
  let k := fold_right Z.min (jmax t) (map (fun x => bin_of t (toZ x)) (leaves u)) in
  content_at fold k r a i = fold_right Z.add 0 (map (fun x => slice t (toZ x) (k + i)) (leaves u)).
Proof.
  intros Hf AF NE HC Hi. rewrite CAPACITY_eq in HC.
  pose proof (eval_holds fold Hf u n m HC) as H. destruct (eval fold u n m) as [[a e] r].
  destruct H as (_ & _ & H & _). apply holds_rep in H; [|auto].
  assert (K : fold_right Z.min (jmax t) (map (fun x => bin_of t (toZ x)) (leaves u)) = lead (leaves u)).
  { unfold lead. f_equal. apply map_ext_in. intros x Hx. unfold findex.
    unfold all_finite in AF. rewrite forallb_forall in AF. now rewrite (AF x Hx). }
  cbv zeta. rewrite K. unfold content_at.
  pose proof (content_rep t fold [] (leaves u) 0 _ _ i AF NE H Hi) as C. cbn [app] in C.
  unfold P_of in C. rewrite !Z.mul_1_r in C. rewrite C. unfold sums, bin_sum. now rewrite map_map.
Qed.
Print Assumptions C04_slices.
(** The slices of X are X: those of the bins before that of X are zero, and all
    of them up to bin j add up to X up to half a unit of bin j. *)
Theorem C04_slices_of_x t X j : 0 <= j -> 
  X = slices_from t X (Z.to_nat (j + 1)) 0 + remainder t X (Z.to_nat (j + 1)) /\
  2 * Z.abs (remainder t X (Z.to_nat (j + 1))) <= 2 ^ unit_exp t j /\
  (forall i, 0 <= i < bin_of t X -> slice t X i = 0).
Proof.
  intros Hj. rewrite slices_from_rem by lia. rewrite Z2Nat.id by lia. split; [|split].
  - change (remainder t X (Z.to_nat 0)) with X. rewrite Z.add_0_l. lia.
  - apply remainder_half. auto.
  - intros i Hi. apply slice_below. auto.
Qed.
Print Assumptions C04_slices_of_x.
Example C04_case : slice Dbl (toZ (mkf 1 1000 : F Dbl)) 0 = 2 ^ 15 /\ 
  bin_of Dbl (toZ (mkf (-7) 990 : F Dbl)) = 0 /\ slice Dbl (toZ (mkf (-1) 0 : F Dbl)) 25 = - 2 ^ 15.
Proof. vm_compute. auto. Qed.

(** ** C05 *)
Theorem C05_error t fold (xs : list (F t)) Y (m : mem t) :
  2 <= fold <= MAXFOLD t -> all_finite xs = true -> xs <> [] -> Z.of_nat (length xs) <= CAPACITY t ->
  let r := sum_list fold Y xs m in
  let k := fold_right Z.min (jmax t) (map (fun x => bin_of t (toZ x)) xs) in
  2 * Z.abs (value t fold k (fun i => r (Y + i)) (fun i => r (Y + fold + i)) - exact_sum xs)
    <= Z.of_nat (length xs) * 2 ^ unit_exp t (k + fold - 1).
Proof.
  intros Hf AF NE HC. rewrite CAPACITY_eq in HC.
  destruct (sum_list_holds fold Hf Y xs m HC) as [H _]. cbv zeta in *.
  assert (K : fold_right Z.min (jmax t) (map (fun x => bin_of t (toZ x)) xs) = lead xs).
  { unfold lead. f_equal. apply map_ext_in. intros x Hx. unfold findex.
    unfold all_finite in AF. rewrite forallb_forall in AF. now rewrite (AF x Hx). }
  rewrite K. set (r := sum_list fold Y xs m) in *.
  apply holds_rep in H; [|auto].
  assert (H' : rep t fold [] xs 0 (fun i => r (Y + i)) (fun i => r (Y + fold + i))).
  { eapply rep_words_ext; [lia| |exact H]. intros i Hi. unfold P_of. now rewrite !Z.mul_1_r. }
  exact (value_rep t fold [] xs 0 _ _ ltac:(lia) AF NE H').
Qed.
Print Assumptions C05_error.
(** Relative to the data: N * 2^(-(fold-1)*W) * max |x|, as long as the bins stay
    clear of the last one (jmax: numbers near the underflow threshold). *)
Theorem C05_relative t fold (xs : list (F t)) Y (m : mem t) :
  2 <= fold <= MAXFOLD t -> all_finite xs = true -> xs <> [] -> Z.of_nat (length xs) <= CAPACITY t ->
  let r := sum_list fold Y xs m in
  let k := fold_right Z.min (jmax t) (map (fun x => bin_of t (toZ x)) xs) in
  k + fold - 1 <= jmax t ->
  exists x, In x xs /\
  Z.abs (value t fold k (fun i => r (Y + i)) (fun i => r (Y + fold + i)) - exact_sum xs) * 2 ^ ((fold - 1) * width t)
    <= Z.of_nat (length xs) * Z.abs (toZ x).
Proof.
  intros Hf AF NE HC r k HK. pose proof (C05_error t fold xs Y m Hf AF NE HC) as HE. cbv zeta in HE.
  fold r k in HE. set (e := Z.abs _) in *.
  assert (HX : exists x, In x xs /\ bin_of t (toZ x) = k /\ toZ x <> 0).
  { assert (K1 : k < jmax t) by lia. unfold k in *. clear - K1.
    induction xs as [|x xs IH]; cbn [map fold_right] in *; [lia|].
    destruct (Z_le_dec (bin_of t (toZ x)) (fold_right Z.min (jmax t) (map (fun x => bin_of t (toZ x)) xs))).
    - exists x. rewrite Z.min_l in * by lia. split; [left; auto|]. split; auto.
      intros E. rewrite E in K1. unfold bin_of in K1. rewrite Z.eqb_refl in K1. lia.
    - rewrite Z.min_r in * by lia. destruct (IH K1) as (y & Hy & E & N). exists y. split; [right; auto|auto]. }
  destruct HX as (x & Hx & KX & NX). exists x. split; auto.
  pose proof (last_unit t (toZ x) k fold (eq_sym KX) NX (toZ_span t x) ltac:(lia) HK ltac:(lia)) as LU.
  assert (0 < 2 ^ ((fold - 1) * width t)) by (apply pow2_pos; pose proof (width_pos t); nia).
  assert (0 < 2 ^ unit_exp t (k + fold - 1)) by (apply pow2_pos; pose proof (unit_exp_ge t (k + fold - 1)); lia).
  nia.
Qed.
Print Assumptions C05_relative.
Example C05_case : fold_right Z.min (jmax Dbl) (map (fun x => bin_of Dbl (toZ x)) sample) + 3 - 1 <= jmax Dbl /\
  exact_sum sample <> 0.
Proof. split; vm_compute; discriminate. Qed.

(** ** C06 *)
Theorem C06_endurance t fold Y us xs (ys : list (F t)) (m : mem t) :
  2 <= fold <= MAXFOLD t -> acc_at fold us xs m Y -> us ++ xs <> [] ->
  Z.of_nat (length ys) <= ENDURANCE t -> Z.of_nat (length (ys ++ xs)) <= CAPACITY t ->
  all_finite (ys ++ xs) = true ->
  (* the deposited values do not exceed the bin the accumulator has room for *)
  (forall y, In y ys -> lead (us ++ xs) <= dindex y) ->
  same_words fold (dbrenorm fold Y (deposit_list fold ys Y m)) Y (deposit_renorm_list fold ys Y m) Y /\
  (* and both are the accumulator of all the values *)
  acc_at fold us (ys ++ xs) (dbrenorm fold Y (deposit_list fold ys Y m)) Y /\
  unchanged_outside Y (dbnum fold) m (dbrenorm fold Y (deposit_list fold ys Y m)).
Proof.
  intros Hf H NE HE HC AF HB. rewrite ENDURANCE_eq in HE. rewrite CAPACITY_eq in HC.
  pose proof HC as HC'. rewrite app_length in HC'.
  assert (HB' : forall y, In y ys -> lead (us ++ xs) <= findex y).
  { intros y Hy. specialize (HB y Hy). unfold all_finite in AF. rewrite forallb_app, andb_true_iff, !forallb_forall in AF.
    unfold findex. rewrite (proj1 AF y Hy). rewrite <- dindex_spec by (exact (proj1 AF y Hy)). auto. }
  destruct (deposit_list_rep fold Hf Y us xs ys m xs 0) as [H1 F1]; auto; try lia.
  { apply holds_rep; auto. lia. }
  cbv zeta in H1, F1. rewrite Z.add_0_l in H1.
  assert (HL : Z.of_nat (length (rev ys ++ xs)) <= capacity t) by (rewrite app_length, rev_length; lia).
  destruct (renorm_holds fold Hf Y us (rev ys ++ xs) _ _ H1 ltac:(lia) HL) as [H2 F2].
  destruct (deposit_renorm_holds fold Hf Y us ys m xs H NE HC HB') as [H3 F3].
  assert (PP : Permutation (rev ys ++ xs) (ys ++ xs)) by (apply Permutation_app_tail; symmetry; apply Permutation_rev).
  split; [|split].
  - eapply acc_at_same; [exact Hf| |reflexivity|reflexivity|exact H2|exact H3].
    rewrite (all_finite_perm _ _ PP). auto.
  - eapply holds_perm; [reflexivity|exact PP|exact H2].
  - intros a Ha. etransitivity; [apply F2; auto|apply F1; auto].
Qed.
Print Assumptions C06_endurance.
(** With one deposit too many the claim fails: ENDURANCE is the limit, not a loose bound. *)
Definition worst : F Flt := mkf (2 ^ 24 - 1) 26. (* just below 2^50, the upper end of bin 6 *)
Definition endurance_start : mem Flt :=
  deposit_renorm_list 3 (repeat worst 511) 0 (dbdupdate 3 worst 0 (fun _ => fzero)).
Definition endurance_run (n : nat) : mem Flt := dbrenorm 3 0 (deposit_list 3 (repeat worst n) 0 endurance_start).
Definition endurance_ref (n : nat) : mem Flt := deposit_renorm_list 3 (repeat worst n) 0 endurance_start.
Definition agree3 (m m' : mem Flt) : bool := forallb (fun i => bits (m i) =? bits (m' i)) [0;1;2;3;4;5].
Example C06_limit_is_tight :
  agree3 (endurance_run (Z.to_nat (ENDURANCE Flt))) (endurance_ref (Z.to_nat (ENDURANCE Flt))) = true /\
  agree3 (endurance_run (Z.to_nat (ENDURANCE Flt + 1))) (endurance_ref (Z.to_nat (ENDURANCE Flt + 1))) = false.
Proof. split; vm_compute; reflexivity. Qed.
Example C06_case : acc_at 3 [worst] [] (dbdupdate 3 worst 0 (fun _ => fzero)) 0 /\ lead [worst] <= dindex worst.
Proof.
  split; [|vm_compute; discriminate].
  assert (Z0 : forall i, 0 <= i < 3 -> (fzero : F Flt) = fzero /\ (fzero : F Flt) = fzero) by auto.
  refine (holds_update (layout_contig 3 0 _) (fun _ => fzero) [] [] worst _ Z0 Z0); [lia|vm_compute; split; discriminate].
Qed.
