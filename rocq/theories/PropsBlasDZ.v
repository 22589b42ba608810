(** * C48, C49: absolute sums and norms of complex vectors *)
From Coq Require Import ZArith Bool List Lia Permutation.
From Flocq Require Import Core BinarySingleNaN.
From Verif Require Import Fp Mem Binned Spec FpProofs BitProofs CoreArith SpecProofs WordProofs MemProofs AccProofs SumProofs ConvProofs Client History ClientProofs PropsSum PropsAcc ComplexProofs Gen GenProofs Params ParamsProofs Blas LaneProofs ReduceProofs DriverProofs BlasSpec PropsBlas BlasZ ZEvents ZKernel ZDriver ZLoop BlasZSpec PropsBlasZ ScaleProofs RescaleProofs Ssq SsqProofs SsqSpec PropsSsq BlasDZ DZLoop DZAsum DZSsq BlasDZSpec.
Import ListNotations.
Open Scope Z_scope.

Lemma components_perm {t} (m : mem t) X iX N : 0 <= N ->
  Permutation (components m X iX N) (parts 0 X iX m N ++ parts 1 X iX m N).
Proof.
  intros HN. destruct (zdata_terms ZSum m X iX X iX N HN) as [<- <-]. unfold components. cbn [zdata].
  induction (zread m X iX N) as [|[re im] l IH]; [reflexivity|]. cbn [flat_map map app fst snd]. constructor.
  rewrite IH. apply Permutation_cons_app. reflexivity.
Qed.
Lemma components_length {t} (m : mem t) X iX N : 0 <= N -> Z.of_nat (length (components m X iX N)) = 2 * N.
Proof. intros HN. rewrite (Permutation_length (components_perm m X iX N HN)), app_length, !parts_length. lia. Qed.
Lemma components_clear {t} (m m' : mem t) X iX N A n : zclear_of X iX N A n -> unchanged_outside A n m m' ->
  components m' X iX N = components m X iX N.
Proof. intros C U. unfold components. now rewrite (zread_clear m m' X iX N A n). Qed.

Lemma capacity_pos t : 0 <= capacity t.
Proof. destruct t; vm_compute; discriminate. Qed.
Section DZC.
  Context {t : ty} (fold : Z) (Hf : 2 <= fold <= MAXFOLD t).
  Notation Hf2' := (ClientProofs.Hf2 fold Hf). Notation Hfm' := (ClientProofs.Hfm fold Hf).
  Lemma dz_disj A Y : blocks_apart A (zbnum fold) Y (dbnum fold) ->
    disjoint (in_acc fold A (2 * 1) (A + 2 * fold) (2 * 1)) (in_acc fold Y 1 (Y + fold) 1) /\
    disjoint (in_acc fold (A + 1) (2 * 1) (A + 2 * fold + 1) (2 * 1)) (in_acc fold Y 1 (Y + fold) 1).
  Proof.
    unfold blocks_apart, zbnum, dbnum. intros H.
    split; intros a (i & Hi & E) (j & Hj & E'); lia.
  Qed.
  Lemma dz_outside A Y X iX N : zclear_of X iX N Y (dbnum fold) -> zclear_of X iX N A (zbnum fold) ->
    dzoutside fold A Y 1 (Y + fold) 1 X iX N.
  Proof.
    intros CY CA i o Hi Ho a. specialize (CY i o Hi Ho). specialize (CA i o Hi Ho).
    replace (X + 2 * (i * iX) + o) with a in CY, CA by (unfold a; ring). clearbody a. unfold zbnum, dbnum in *.
    split; [|split]; intros (j & Hj & E); lia.
  Qed.
  Lemma holds0_reps A (m0 : mem t) : zacc_at fold [] [] [] m0 A ->
    rep t fold [] [] 0 (P_of m0 A (2 * 1)) (P_of m0 (A + 2 * fold) (2 * 1)) /\
    rep t fold [] [] 0 (P_of m0 (A + 1) (2 * 1)) (P_of m0 (A + 2 * fold + 1) (2 * 1)).
  Proof.
    intros [H0 H1]. pose proof (capacity_pos t) as CP.
    split; (apply holds_rep; [cbn; lia|]); [exact H0|exact H1].
  Qed.
  Lemma zfresh_temp A Y (m : mem t) : blocks_apart A (zbnum fold) Y (dbnum fold) ->
    zacc_at fold [] [] [] (zbsetzero fold A m) A /\ unchanged_outside A (zbnum fold) m (zbsetzero fold A m) /\
    (forall us xs, acc_at fold us xs m Y -> acc_at fold us xs (zbsetzero fold A m) Y).
  Proof.
    intros B. destruct (zsetzero_holds fold Hf A m) as [[Z0 Z1] ZF]. cbv zeta in *. set (m0 := zbsetzero fold A m) in *. clearbody m0.
    split; [split; [exact Z0|exact Z1]|]. split; [exact ZF|]. intros us xs H. unfold acc_at in *.
    eapply holds_words_ext; [lia| |exact H]. intros i Hi. cbv beta. unfold blocks_apart, zbnum, dbnum in *.
    split; apply ZF; unfold block, zbnum; lia.
  Qed.
  (** One call, whatever the accumulator and the data are. *)
  Lemma asum_call tu N X iX Y A us zs (m : mem t) : tuned t tu -> 0 <= N -> zclear_of X iX N Y (dbnum fold) ->
    zclear_of X iX N A (zbnum fold) -> blocks_apart A (zbnum fold) Y (dbnum fold) ->
    acc_at fold us zs m Y -> 2 * N + Z.of_nat (length zs) <= capacity t ->
    let m' := dbzasum tu fold N X iX Y A m in
    acc_at fold us (map fabs (components m X iX N) ++ zs) m' Y /\ unchanged_but Y (dbnum fold) A (zbnum fold) m m'.
  Proof.
    intros HT HN CY CA B HA HC m'. destruct (tuned_legal t tu HT) as (LB & LA & LV).
    destruct (zfresh_temp A Y m B) as (Z0 & ZF & ZA). specialize (ZA _ _ HA).
    destruct (dz_disj A Y B) as [D0 D1].
    unfold m', dbzasum, dmzasum. clear m'. rewrite <- (components_clear m _ X iX N A _ CA ZF). set (m0 := zbsetzero fold A m) in *. clearbody m0.
    destruct (holds0_reps A m0 Z0) as [R0 R1].
    pose proof (components_perm m0 X iX N HN) as CP.
    pose proof (asum_loop_ok fold A Y 1 (Y + fold) 1 Hf2' Hfm' (layout_contig fold Y ltac:(lia)) D0 D1 (S (Z.to_nat N)) tu N X iX 0 (block_max tu) 0 m0 us zs [] []
      LA LV ltac:(lia) ltac:(lia)) as R.
    cbv zeta in R. rewrite Z.sub_0_r, !app_nil_r in R.
    destruct R as [R2 R3].
    - destruct HT as [HT _]. rewrite ENDURANCE_eq in HT. exact HT.
    - pose proof (endurance_pos t). lia.
    - unfold asum_in. unfold seen. rewrite app_nil_r. cbn [map]. destruct (all_finite zs) eqn:FZ.
      + split; [exact ZA|]. split; [exact R0|exact R1].
      + assert (HH : m0 Y = special zs).
        { unfold acc_at, holds in ZA. rewrite FZ, Z.mul_0_l, Z.add_0_r in ZA. exact ZA. }
        destruct (f_isnan (special zs)) eqn:NS.
        * left. rewrite HH. destruct (special zs); try discriminate; reflexivity.
        * split; [exact HH|]. exists [], [], [], []. split; [reflexivity|]. split; [reflexivity|]. split; [cbn; pose proof (capacity_pos t); lia|]. split; [exact R0|exact R1].
    - apply dz_outside; auto.
    - unfold seen. rewrite app_length, map_length, app_length, !parts_length. lia.
    - split.
      + eapply holds_perm; [reflexivity| |exact R2]. unfold seen. rewrite Permutation_app_comm.
        apply Permutation_app_tail, Permutation_map. symmetry. exact CP.
      + intros a NY NA. etransitivity; [apply R3|apply ZF; exact NA]; clear -NY NA; unfold dbnum, zbnum in *; intros (j & Hj & E); lia.
  Qed.
  Lemma asum_fresh tu N X iX Y A (m : mem t) : tuned t tu -> 0 <= 2 * N <= capacity t -> zclear_of X iX N Y (dbnum fold) ->
    zclear_of X iX N A (zbnum fold) -> blocks_apart A (zbnum fold) Y (dbnum fold) ->
    let m' := dbzasum tu fold N X iX Y A (dbsetzero fold Y m) in
    acc_at fold [] (map fabs (components m X iX N)) m' Y /\ unchanged_but Y (dbnum fold) A (zbnum fold) m m'.
  Proof.
    intros HT HN CY CA B m'. destruct (setzero_holds fold Hf Y m) as [H0 U0].
    destruct (asum_call tu N X iX Y A [] [] (dbsetzero fold Y m) HT ltac:(lia) CY CA B H0) as [R1 R2]; [cbn [length]; lia|].
    rewrite app_nil_r, (components_clear m _ X iX N Y _ CY U0) in R1. split; [exact R1|].
    intros a NY NA. etransitivity; [apply R2; auto|apply U0; auto].
  Qed.
End DZC.

(** ** C48 *)
(** One dbzasum (sbcasum) call adds the magnitude of every component: the words are those of one
    dbdadd per magnitude, and only the accumulator and the temporary block are written. *)
Theorem C48_asum_is_adds t tu fold N X incX Y A us zs (m : mem t) :
  2 <= fold <= MAXFOLD t -> tuned t tu -> 0 <= N ->
  zclear_of X incX N Y (dbnum fold) -> zclear_of X incX N A (zbnum fold) -> blocks_apart A (zbnum fold) Y (dbnum fold) ->
  acc_at fold us zs m Y -> 2 * N + Z.of_nat (length zs) <= CAPACITY t ->
  all_finite (components m X incX N ++ zs) = true ->
  let m' := dbzasum tu fold N X incX Y A m in
  same_words fold m' Y (add_list fold Y (map fabs (components m X incX N)) m) Y /\
  unchanged_but Y (dbnum fold) A (zbnum fold) m m'.
Proof.
  intros Hf HT HN CY CA B HA HC FA. rewrite CAPACITY_eq in HC. pose proof (components_length m X incX N HN) as LC.
  destruct (asum_call fold Hf tu N X incX Y A us zs m HT HN CY CA B HA HC) as [R1 R2]. cbv zeta. split; [|exact R2].
  destruct (add_list_holds fold Hf Y (map fabs (components m X incX N)) m us zs HA) as [S1 _].
  { rewrite app_length, map_length. lia. }
  eapply same_acc_words; [exact Hf| | | |exact R1|exact S1]; [|reflexivity|].
  - rewrite all_finite_app in *. now rewrite all_finite_fabs.
  - apply Permutation_app_tail, Permutation_rev.
Qed.
Print Assumptions C48_asum_is_adds.
(** Order of the components (across elements and between the two parts), addresses, stride, block size,
    unrolling and vector width do not matter; nor does spreading the call over a real dbdasum:
    any real vector with the same components gives the same words. *)
Theorem C48_permutation t tu tu' fold N X incX X' incX' Y Y' A A' us zs (m m' : mem t) :
  2 <= fold <= MAXFOLD t -> tuned t tu -> tuned t tu' -> 0 <= N ->
  zclear_of X incX N Y (dbnum fold) -> zclear_of X incX N A (zbnum fold) -> blocks_apart A (zbnum fold) Y (dbnum fold) ->
  zclear_of X' incX' N Y' (dbnum fold) -> zclear_of X' incX' N A' (zbnum fold) -> blocks_apart A' (zbnum fold) Y' (dbnum fold) ->
  acc_at fold us zs m Y -> acc_at fold us zs m' Y' -> 2 * N + Z.of_nat (length zs) <= CAPACITY t ->
  all_finite (components m X incX N ++ zs) = true -> Permutation (components m X incX N) (components m' X' incX' N) ->
  same_words fold (dbzasum tu fold N X incX Y A m) Y (dbzasum tu' fold N X' incX' Y' A' m') Y'.
Proof.
  intros Hf HT HT' HN CY CA B CY' CA' B' HA HA' HC FA HP. rewrite CAPACITY_eq in HC.
  destruct (asum_call fold Hf tu N X incX Y A us zs m HT HN CY CA B HA HC) as [R1 _].
  destruct (asum_call fold Hf tu' N X' incX' Y' A' us zs m' HT' HN CY' CA' B' HA' HC) as [R2 _].
  eapply same_acc_words; [exact Hf| | | |exact R1|exact R2]; [|reflexivity|].
  - rewrite all_finite_app in *. now rewrite all_finite_fabs.
  - apply Permutation_app_tail, Permutation_map, HP.
Qed.
Print Assumptions C48_permutation.
(** reproBLAS_rdzasum (rscasum): the converted sum of the magnitudes in any order. *)
Theorem C48_rdzasum t tu fold N X incX Y A B (xs : list (F t)) (m m' : mem t) :
  2 <= fold <= MAXFOLD t -> tuned t tu -> 0 <= 2 * N <= CAPACITY t ->
  zclear_of X incX N Y (dbnum fold) -> zclear_of X incX N A (zbnum fold) -> blocks_apart A (zbnum fold) Y (dbnum fold) ->
  Permutation (components m X incX N) xs ->
  rdzasum tu fold N X incX Y A m = ddbconv fold B (sum_list fold B (map fabs xs) m').
Proof.
  intros Hf HT HN CY CA BA HP. rewrite CAPACITY_eq in HN. pose proof (components_length m X incX N ltac:(lia)) as LC.
  destruct (asum_fresh fold Hf tu N X incX Y A m HT HN CY CA BA) as [R1 _].
  destruct (sum_list_holds fold Hf B (map fabs xs) m') as [R2 _].
  { rewrite map_length, <- (Permutation_length HP). lia. }
  exact (conv_acc fold Hf [] _ [] _ _ _ _ _ (perm_nil _) (Permutation_map fabs HP) R1 R2).
Qed.
Print Assumptions C48_rdzasum.
Theorem C48_order_independent t tu tu' fold N X incX X' incX' Y Y' A A' (m m' : mem t) :
  2 <= fold <= MAXFOLD t -> tuned t tu -> tuned t tu' -> 0 <= 2 * N <= CAPACITY t ->
  zclear_of X incX N Y (dbnum fold) -> zclear_of X incX N A (zbnum fold) -> blocks_apart A (zbnum fold) Y (dbnum fold) ->
  zclear_of X' incX' N Y' (dbnum fold) -> zclear_of X' incX' N A' (zbnum fold) -> blocks_apart A' (zbnum fold) Y' (dbnum fold) ->
  Permutation (components m X incX N) (components m' X' incX' N) ->
  rdzasum tu fold N X incX Y A m = rdzasum tu' fold N X' incX' Y' A' m'.
Proof.
  intros Hf HT HT' HN CY CA B CY' CA' B' HP.
  rewrite (C48_rdzasum t tu fold N X incX Y A 0 _ m m Hf HT HN CY CA B (Permutation_refl _)).
  symmetry. apply (C48_rdzasum t tu' fold N X' incX' Y' A' 0 _ m' m); auto. now symmetry.
Qed.
Print Assumptions C48_order_independent.
(** Data that is not finite: NaN if some component is NaN, else +Inf. *)
Theorem C48_nonfinite t tu fold N X incX Y A (m : mem t) :
  2 <= fold <= MAXFOLD t -> tuned t tu -> 0 <= 2 * N <= CAPACITY t ->
  zclear_of X incX N Y (dbnum fold) -> zclear_of X incX N A (zbnum fold) -> blocks_apart A (zbnum fold) Y (dbnum fold) ->
  all_finite (components m X incX N) = false ->
  rdzasum tu fold N X incX Y A m = (if existsb f_isnan (components m X incX N) then B754_nan else B754_infinity false).
Proof.
  intros Hf HT HN CY CA BA FX. rewrite CAPACITY_eq in HN.
  destruct (asum_fresh fold Hf tu N X incX Y A m HT HN CY CA BA) as [R1 _].
  unfold rdzasum. set (m1 := dbzasum _ _ _ _ _ _ _ _) in *. clearbody m1.
  assert (H : m1 Y = special (map fabs (components m X incX N))).
  { unfold acc_at, holds in R1. rewrite all_finite_fabs, FX, Z.mul_0_l, Z.add_0_r in R1. exact R1. }
  rewrite special_fabs in H by auto. rewrite <- H. apply conv_special. rewrite H. now destruct (existsb f_isnan _).
Qed.
Print Assumptions C48_nonfinite.
Definition zasum_mem : mem Dbl := fun a =>
  if a =? 0 then mkf 3 890 else if a =? 1 then mkf (-5) 850 else
  if a =? 4 then mkf (-7) 850 else if a =? 5 then mkf 1 (-1000) else fzero.
Example C48_case : tuned Dbl sample_tuning /\ zclear_of 0 2 2 100 (dbnum 3) /\ zclear_of 0 2 2 200 (zbnum 3) /\
  blocks_apart 200 (zbnum 3) 100 (dbnum 3) /\ acc_at 3 [] [] (dbsetzero 3 100 zasum_mem) 100 /\
  all_finite (components zasum_mem 0 2 2) = true /\
  feq (rdzasum sample_tuning 3 2 0 2 100 200 zasum_mem) (mkf (3 * 2 ^ 40 + 12) 850) = true.
Proof.
  split; [apply C18_case|]. split; [intros i o Hi Ho; unfold dbnum; lia|]. split; [intros i o Hi Ho; unfold zbnum; lia|].
  split; [unfold blocks_apart, dbnum, zbnum; lia|]. split; [|split; vm_compute; reflexivity].
  exact (proj1 (setzero_holds (t := Dbl) 3 ltac:(vm_compute; split; discriminate) 100 zasum_mem)).
Qed.

(** ** C49 *)
(** A list stored in consecutive cells. *)
Lemma stored_list {t} (l : list (F t)) : map (fun i => nth (Z.to_nat (0 + i * 1)) l fzero) (zseq 0 (0 + Z.of_nat (length l))) = l.
Proof.
  unfold zseq. rewrite map_map. replace (Z.to_nat (0 + Z.of_nat (length l))) with (length l) by lia.
  transitivity (map (fun k => nth k l fzero) (seq 0 (length l))).
  - apply map_ext. intros k. f_equal. lia.
  - induction l as [|x l IH]; [reflexivity|]. cbn [length seq map nth]. f_equal. rewrite <- seq_shift, map_map. exact IH.
Qed.
Section NRM.
  Context {t : ty} (fold : Z) (Hf : 2 <= fold <= ssq_fold t).
  Let H2 := proj1 (ssq_fold_ok t fold Hf).
  Let Hs := proj1 (proj2 (ssq_fold_ok t fold Hf)).
  Let HM := proj2 (proj2 (ssq_fold_ok t fold Hf)).
  (** Preconditions on addresses shared by the statements: the data are clear of the accumulator
      and of the temporary complex accumulator; the three blocks do not meet. *)
  Definition nrm_layout (N X iX Y A T : Z) : Prop :=
    zclear_of X iX N Y (dbnum fold) /\ zclear_of X iX N A (zbnum fold) /\
    blocks_apart A (zbnum fold) Y (dbnum fold) /\ blocks_apart T (2 * dbnum fold) Y (dbnum fold) /\
    blocks_apart A (zbnum fold) T (2 * dbnum fold).
  Lemma zssq_call tu N X iX Y A T zs (r : F t * mem t) : tuned t tu -> 0 <= N -> nrm_layout N X iX Y A T ->
    ssq_at fold zs (fst r) (snd r) Y -> all_finite zs = true -> 2 * N + Z.of_nat (length zs) <= capacity t ->
    let r' := dbzssq tu fold N X iX (fst r) Y A T (snd r) in
    let l := components (snd r) X iX N in
    (all_finite l = true -> ssq_at fold (l ++ zs) (fst r') (snd r') Y) /\
    (all_finite l = false -> existsb f_isnan l = true \/ zs = [] ->
       snd r' Y = special (map fabs l) /\ fst r' = dscale (mkf 1 0)) /\
    unchanged_but2 Y (dbnum fold) A (zbnum fold) T (2 * dbnum fold) (snd r) (snd r').
  Proof.
    intros HT HN (CY & CA & B1 & B2 & B3) ST FZ HC r' l. destruct r as [sc m]. cbn [fst snd] in *.
    destruct (tuned_legal t tu HT) as (LB & LA & LV).
    pose proof (proj1 (ssq_at_out fold zs sc m Y FZ) ST) as ST'. unfold ssq_out in ST'. rewrite FZ in ST'. destruct ST' as [G H].
    destruct (zfresh_temp fold HM A Y m B1) as (Z0 & ZF & ZA). pose proof (ZA _ _ H) as H0.
    destruct (dz_disj fold HM A Y B1) as [D0 D1].
    unfold r', dbzssq, dmzssq. clear r'. unfold l. clear l. rewrite <- (components_clear m _ X iX N A _ CA ZF).
    set (m0 := zbsetzero fold A m) in *. clearbody m0.
    destruct (holds0_reps fold A m0 Z0) as [R0 R1].
    pose proof (components_perm m0 X iX N HN) as CP. pose proof (components_length m0 X iX N HN) as CL.
    assert (BT : forall q, q = T \/ q = T + dbnum fold ->
      disjoint (in_acc fold q 1 (q + fold) 1) (in_acc fold Y 1 (Y + fold) 1) /\
      disjoint (in_acc fold A (2 * 1) (A + 2 * fold) (2 * 1)) (in_acc fold q 1 (q + fold) 1) /\
      disjoint (in_acc fold (A + 1) (2 * 1) (A + 2 * fold + 1) (2 * 1)) (in_acc fold q 1 (q + fold) 1)).
    { intros q Hq. unfold blocks_apart, zbnum, dbnum in *.
      split; [|split]; intros a (i & Hi & E) (j & Hj & E'); lia. }
    destruct (BT T (or_introl eq_refl)) as (E1 & E2 & E3). destruct (BT (T + dbnum fold) (or_intror eq_refl)) as (E4 & E5 & E6). clear BT.
    pose proof (zssq_loop_ok fold A Y 1 (Y + fold) 1 H2 Hs (layout_contig fold Y ltac:(lia)) D0 D1 T (T + dbnum fold) E1 E2 E3 E4 E6 eq_refl
      (S (Z.to_nat N)) tu N X iX 0 (block_max tu) 0 fzero m0 zs sc [] [] LA LV ltac:(lia) ltac:(lia)) as R.
    cbv zeta in R. rewrite Z.sub_0_r, !app_nil_r in R.
    destruct R as [R2 R3].
    - destruct HT as [HT _]. rewrite ENDURANCE_eq in HT. exact HT.
    - pose proof (endurance_pos t). lia.
    - unfold zssq_in, seen. cbn [app map]. rewrite app_nil_r, all_finite_fabs, FZ.
      split; [exact G|]. split; [exact H0|]. split; [reflexivity|]. split; [exact R0|exact R1].
    - apply (dz_outside fold HM); auto.
    - rewrite !app_length, !parts_length. lia.
    - set (r := zssq_loop _ _ _ _ _ _ _ _ _ _ _ _ _ _ _ _ _ _) in *. clearbody r. destruct r as [sc' m']. cbn [fst snd] in *.
      assert (PL : Permutation (zs ++ parts 0 X iX m0 N ++ parts 1 X iX m0 N) (components m0 X iX N ++ zs)).
      { rewrite Permutation_app_comm. apply Permutation_app_tail. now symmetry. }
      unfold zssq_out in R2. cbv zeta in R2. rewrite (all_finite_perm _ _ PL), all_finite_app, FZ, andb_true_r in R2.
      split; [|split].
      + intros FL. rewrite FL in R2. destruct R2 as [G2 Hd].
        apply ssq_at_out; [now rewrite all_finite_app, FL|]. unfold ssq_out. rewrite all_finite_app, FL, FZ. cbn [andb].
        split; [eapply good_scale_perm; eauto|]. eapply holds_perm; [reflexivity|apply Permutation_map; exact PL|exact Hd].
      + intros FL HN'. rewrite FL in R2.
        assert (FN : existsb f_isnan zs = false) by (apply all_finite_flags; auto).
        destruct R2 as [R2 R4].
        { destruct HN' as [HN'| ->].
          - left. rewrite (existsb_perm _ _ _ PL), existsb_app, HN'. reflexivity.
          - right. exact G. }
        split; [|exact R4]. rewrite R2. rewrite (special_perm _ _ (Permutation_map fabs PL)), !special_fabs.
        * now rewrite existsb_app, FN, orb_false_r.
        * exact FL.
        * now rewrite all_finite_app, FL.
      + intros a NY NA NT. unfold dbnum, zbnum in *.
        assert (Ea : m' a = m0 a) by (apply R3; clear -NY NA NT; intros (j & Hj & E); lia).
        rewrite Ea. apply ZF. unfold block, zbnum. exact NA.
  Qed.
  Lemma zssq_fresh tu N X iX Y A T (m : mem t) : tuned t tu -> 0 <= 2 * N <= capacity t -> nrm_layout N X iX Y A T ->
    let r := dbzssq tu fold N X iX fzero Y A T (dbsetzero fold Y m) in
    sstate fold (components m X iX N) r Y /\ unchanged_but2 Y (dbnum fold) A (zbnum fold) T (2 * dbnum fold) m (snd r).
  Proof.
    intros HT HN LY. destruct (setzero_holds fold HM Y m) as [H0 U0].
    destruct (zssq_call tu N X iX Y A T [] (fzero, dbsetzero fold Y m) HT ltac:(lia) LY) as (R1 & R2 & R3).
    { split; [reflexivity|exact H0]. } { reflexivity. } { cbn [length]. lia. }
    cbn [fst snd] in *. rewrite app_nil_r in R1. rewrite (components_clear m _ X iX N Y _ (proj1 LY) U0) in R1, R2. split.
    - unfold sstate. destruct (all_finite (components m X iX N)); [now apply R1|apply R2; auto].
    - intros a NY NA NT. etransitivity; [apply R3; auto|apply U0; auto].
  Qed.
End NRM.

(** dbzssq (sbcssq) from a fresh accumulator: the scale is dscale of the largest component
    magnitude, no scaled square overflows, the words are those of one dbdadd per scaled
    square, and only the accumulator and the temporary blocks are written. *)
Theorem C49_ssq_is_adds t tu fold N X incX Y A T (m : mem t) :
  2 <= fold <= ssq_fold t -> tuned t tu -> 0 < 2 * N <= CAPACITY t -> nrm_layout fold N X incX Y A T ->
  let l := components m X incX N in
  all_finite l = true ->
  let '(scale, m') := dbzssq tu fold N X incX fzero Y A T (dbsetzero fold Y m) in
  (exists M, largest M l /\ scale = dscale M) /\ all_finite (squares scale l) = true /\
  same_words fold m' Y (sum_list fold Y (squares scale l) m) Y /\
  unchanged_but2 Y (dbnum fold) A (zbnum fold) T (2 * dbnum fold) m m'.
Proof.
  intros Hf HT HN LY l FX. rewrite CAPACITY_eq in HN. pose proof (components_length m X incX N ltac:(lia)) as LC.
  destruct (zssq_fresh fold Hf tu N X incX Y A T m HT ltac:(lia) LY) as [S U]. fold l in S, LC. clearbody l.
  destruct (dbzssq tu fold N X incX fzero Y A T (dbsetzero fold Y m)) as [sc m']. cbn [snd] in U.
  unfold sstate in S. rewrite FX in S. destruct S as [G H]. cbn [fst snd] in *.
  pose proof (proj1 (scale_of_good _ _ FX) G) as G'.
  assert (FS : all_finite (squares sc l) = true) by (rewrite squares_sq by auto; now apply good_scale_fin).
  split; [|split; [exact FS|split; [|exact U]]].
  - unfold scale_of in G. destruct l; [cbn [length] in LC; lia|exact G].
  - pose proof (proj2 (proj2 (ssq_fold_ok t fold Hf))) as HM.
    destruct (sum_list_holds fold HM Y (squares sc l) m) as [R2 _].
    { unfold squares. rewrite map_length. lia. }
    eapply same_acc_words; [exact HM| | | |exact H|exact R2]; auto; reflexivity.
Qed.
Print Assumptions C49_ssq_is_adds.
(** Accumulating onto the scaled accumulator of earlier finite data: the scaled accumulator of
    all of them. *)
Theorem C49_ssq_accumulates t tu fold N X incX Y A T zs scale (m : mem t) :
  2 <= fold <= ssq_fold t -> tuned t tu -> 0 <= N -> nrm_layout fold N X incX Y A T ->
  ssq_at fold zs scale m Y -> 2 * N + Z.of_nat (length zs) <= CAPACITY t ->
  let l := components m X incX N in
  all_finite (l ++ zs) = true ->
  let '(scale', m') := dbzssq tu fold N X incX scale Y A T m in
  ssq_at fold (l ++ zs) scale' m' Y /\ unchanged_but2 Y (dbnum fold) A (zbnum fold) T (2 * dbnum fold) m m'.
Proof.
  intros Hf HT HN LY ST HC l FA. rewrite CAPACITY_eq in HC. rewrite all_finite_app in FA. apply andb_true_iff in FA. destruct FA as [FL FZ].
  destruct (zssq_call fold Hf tu N X incX Y A T zs (scale, m) HT HN LY ST FZ HC) as (R1 & _ & R3). cbn [fst snd] in *.
  destruct (dbzssq tu fold N X incX scale Y A T m) as [sc' m']. cbn [fst snd] in *. split; [now apply R1|exact R3].
Qed.
Print Assumptions C49_ssq_accumulates.
(** Order of the components, addresses, stride, block size and lanes do not matter. *)
Theorem C49_ssq_permutation t tu tu' fold N X incX X' incX' Y Y' A A' T T' (m m' : mem t) :
  2 <= fold <= ssq_fold t -> tuned t tu -> tuned t tu' -> 0 <= 2 * N <= CAPACITY t ->
  nrm_layout fold N X incX Y A T -> nrm_layout fold N X' incX' Y' A' T' ->
  all_finite (components m X incX N) = true -> Permutation (components m X incX N) (components m' X' incX' N) ->
  same_scaled fold (dbzssq tu fold N X incX fzero Y A T (dbsetzero fold Y m)) Y
                   (dbzssq tu' fold N X' incX' fzero Y' A' T' (dbsetzero fold Y' m')) Y'.
Proof.
  intros Hf HT HT' HN LY LY' FX HP. rewrite CAPACITY_eq in HN.
  destruct (zssq_fresh fold Hf tu N X incX Y A T m HT HN LY) as [S _].
  destruct (zssq_fresh fold Hf tu' N X' incX' Y' A' T' m' HT' HN LY') as [S' _].
  apply (sstate_perm fold _ _ _ _ (Permutation_sym HP)) in S'. exact (sstate_same fold Hf _ _ _ _ _ FX S S').
Qed.
Print Assumptions C49_ssq_permutation.
(** The real routine dbdssq on any real vector with the same components, in any order, gives
    the same scale and words. *)
Theorem C49_ssq_is_real t tu tu' fold N X incX X' incX' Y Y' A T (m m' : mem t) :
  2 <= fold <= ssq_fold t -> tuned t tu -> tuned t tu' -> 0 <= 2 * N <= CAPACITY t ->
  nrm_layout fold N X incX Y A T -> clear_of X' incX' (2 * N) Y' (dbnum fold) ->
  all_finite (components m X incX N) = true -> Permutation (components m X incX N) (read m' X' incX' (2 * N)) ->
  same_scaled fold (dbzssq tu fold N X incX fzero Y A T (dbsetzero fold Y m)) Y
                   (dbdssq tu' fold (2 * N) X' incX' fzero Y' (dbsetzero fold Y' m')) Y'.
Proof.
  intros Hf HT HT' HN LY CX FX HP. rewrite CAPACITY_eq in HN.
  destruct (zssq_fresh fold Hf tu N X incX Y A T m HT HN LY) as [S _].
  destruct (ssq_fresh fold Hf tu' (2 * N) X' incX' Y' m' HT' HN CX) as [S' _].
  apply (sstate_perm fold _ _ _ _ (Permutation_sym HP)) in S'. exact (sstate_same fold Hf _ _ _ _ _ FX S S').
Qed.
Print Assumptions C49_ssq_is_real.
(** Data that is not finite: NaN if there is a NaN, else +Inf; the scale is then 1. *)
Theorem C49_ssq_nonfinite t tu fold N X incX Y A T (m : mem t) :
  2 <= fold <= ssq_fold t -> tuned t tu -> 0 <= 2 * N <= CAPACITY t -> nrm_layout fold N X incX Y A T ->
  all_finite (components m X incX N) = false ->
  let '(scale, m') := dbzssq tu fold N X incX fzero Y A T (dbsetzero fold Y m) in
  scale = mkf 1 0 /\
  m' Y = (if existsb f_isnan (components m X incX N) then B754_nan else B754_infinity false).
Proof.
  intros Hf HT HN LY FX. rewrite CAPACITY_eq in HN.
  destruct (zssq_fresh fold Hf tu N X incX Y A T m HT HN LY) as [S _].
  destruct (dbzssq tu fold N X incX fzero Y A T (dbsetzero fold Y m)) as [sc m'].
  unfold sstate in S. rewrite FX in S. destruct S as [H G]. cbn [fst snd] in *. split.
  - rewrite G, dscale_eq. f_equal. destruct t; vm_compute; reflexivity.
  - rewrite H. now apply special_fabs.
Qed.
Print Assumptions C49_ssq_nonfinite.
(** reproBLAS_rdznrm2 (rscnrm2) is the real norm rdnrm2 of the components in any order, for
    any data, infinities and NaNs included. *)
Theorem C49_rdznrm2 t tu tu' fold N X incX X' incX' Y Y' A T (m m' : mem t) :
  2 <= fold <= ssq_fold t -> tuned t tu -> tuned t tu' -> 0 <= 2 * N <= CAPACITY t ->
  nrm_layout fold N X incX Y A T -> clear_of X' incX' (2 * N) Y' (dbnum fold) ->
  Permutation (components m X incX N) (read m' X' incX' (2 * N)) ->
  rdznrm2 tu fold N X incX Y A T m = rdnrm2 tu' fold (2 * N) X' incX' Y' m'.
Proof.
  intros Hf HT HT' HN LY CX HP. rewrite CAPACITY_eq in HN. pose proof (proj2 (proj2 (ssq_fold_ok t fold Hf))) as HM.
  destruct (zssq_fresh fold Hf tu N X incX Y A T m HT HN LY) as [S _].
  destruct (ssq_fresh fold Hf tu' (2 * N) X' incX' Y' m' HT' HN CX) as [S' _].
  apply (sstate_perm fold _ _ _ _ (Permutation_sym HP)) in S'. unfold rdnrm2, rdznrm2.
  set (l := components m X incX N) in *. clearbody l.
  destruct (dbzssq tu fold N X incX fzero Y A T (dbsetzero fold Y m)) as [sc m1].
  destruct (dbdssq tu' fold (2 * N) X' incX' fzero Y' (dbsetzero fold Y' m')) as [sc' m1'].
  destruct (all_finite l) eqn:FX.
  - pose proof (sstate_same fold Hf _ _ _ _ _ FX S S') as [E _]. cbn [fst] in E. subst sc'.
    unfold sstate in S, S'. rewrite FX in S, S'. destruct S as [_ S], S' as [_ S']. cbn [fst snd] in *. f_equal.
    exact (conv_acc fold HM [] _ [] _ _ _ _ _ (perm_nil _) (Permutation_refl _) S S').
  - unfold sstate in S, S'. rewrite FX in S, S'. destruct S as [S E], S' as [S' E']. cbn [fst snd] in *. subst sc sc'. f_equal.
    assert (AA : acc_at fold [] (map fabs l) m1 Y) by (unfold acc_at, holds; now rewrite all_finite_fabs, FX, Z.mul_0_l, Z.add_0_r).
    assert (AA' : acc_at fold [] (map fabs l) m1' Y') by (unfold acc_at, holds; now rewrite all_finite_fabs, FX, Z.mul_0_l, Z.add_0_r).
    exact (conv_acc fold HM [] _ [] _ _ _ _ _ (perm_nil _) (Permutation_refl _) AA AA').
Qed.
Print Assumptions C49_rdznrm2.
(** Order, addresses, stride and tuning do not matter. *)
Theorem C49_order_independent t tu tu' fold N X incX X' incX' Y Y' A A' T T' (m m' : mem t) :
  2 <= fold <= ssq_fold t -> tuned t tu -> tuned t tu' -> 0 <= 2 * N <= CAPACITY t ->
  nrm_layout fold N X incX Y A T -> nrm_layout fold N X' incX' Y' A' T' ->
  Permutation (components m X incX N) (components m' X' incX' N) ->
  rdznrm2 tu fold N X incX Y A T m = rdznrm2 tu' fold N X' incX' Y' A' T' m'.
Proof.
  intros Hf HT HT' HN LY LY' HP.
  (* a real vector with these components, stored from address 0 on *)
  set (l := components m X incX N) in *. pose proof (components_length m X incX N ltac:(lia)) as LC. fold l in LC.
  set (mm := fun a => nth (Z.to_nat a) l fzero).
  assert (ER : read mm 0 1 (2 * N) = l).
  { unfold read, mm. replace (2 * N) with (0 + Z.of_nat (length l)) by lia. apply stored_list. }
  assert (CX : clear_of 0 1 (2 * N) (2 * N) (dbnum fold)) by (intros i Hi; lia).
  rewrite (C49_rdznrm2 t tu tu fold N X incX 0 1 Y (2 * N) A T m mm); auto; [|rewrite ER; reflexivity].
  symmetry. apply (C49_rdznrm2 t tu' tu fold N X' incX' 0 1 Y' (2 * N) A' T' m' mm); auto. rewrite ER. now symmetry.
Qed.
Print Assumptions C49_order_independent.
(** NaN if some component is NaN, else +Inf if some component is infinite. *)
Theorem C49_rdznrm2_nonfinite t tu fold N X incX Y A T (m : mem t) :
  2 <= fold <= ssq_fold t -> tuned t tu -> 0 <= 2 * N <= CAPACITY t -> nrm_layout fold N X incX Y A T ->
  all_finite (components m X incX N) = false ->
  rdznrm2 tu fold N X incX Y A T m = (if existsb f_isnan (components m X incX N) then B754_nan else B754_infinity false).
Proof.
  intros Hf HT HN LY FX. pose proof (C49_ssq_nonfinite t tu fold N X incX Y A T m Hf HT HN LY FX) as H. unfold rdznrm2.
  destruct (dbzssq tu fold N X incX fzero Y A T (dbsetzero fold Y m)) as [sc m1]. destruct H as [-> H].
  rewrite conv_special by (rewrite H; now destruct (existsb f_isnan _)). rewrite H.
  destruct (existsb f_isnan _), t; cbn [scaled_root f2d d2f]; try reflexivity.
Qed.
Print Assumptions C49_rdznrm2_nonfinite.
Definition znorm_mem : mem Dbl := fun a =>
  if a =? 0 then mkf 2 600 else if a =? 1 then mkf (-2) 600 else
  if a =? 4 then mkf 4 600 else if a =? 5 then mkf 1 600 else fzero.
Example C49_case : tuned Dbl sample_tuning /\ 2 <= 3 <= ssq_fold Dbl /\ nrm_layout 3 2 0 2 100 200 300 /\
  all_finite (components znorm_mem 0 2 2) = true /\
  (* the squares of the unscaled components overflow; the norm is 5 * 2^600 *)
  f_isinf (fmul (znorm_mem 0) (znorm_mem 0)) = true /\
  feq (rdznrm2 sample_tuning 3 2 0 2 100 200 300 znorm_mem) (mkf 5 600) = true.
Proof.
  split; [apply C18_case|]. split; [cbn; lia|]. split.
  { unfold nrm_layout, blocks_apart, zclear_of, dbnum, zbnum. repeat split; intros; lia. }
  split; [vm_compute; reflexivity|]. split; vm_compute; reflexivity.
Qed.

(** ** C50 *)
(** Adding complex data that are not finite to the scaled accumulator of earlier finite data: NaN
    data always show ... *)
Theorem C50_nan_partial t tu fold N X incX Y A T zs scale (m : mem t) :
  2 <= fold <= ssq_fold t -> tuned t tu -> 0 <= N -> nrm_layout fold N X incX Y A T ->
  ssq_at fold zs scale m Y -> all_finite zs = true -> 2 * N + Z.of_nat (length zs) <= CAPACITY t ->
  existsb f_isnan (components m X incX N) = true ->
  let '(scale', m') := dbzssq tu fold N X incX scale Y A T m in m' Y = B754_nan /\ scale' = mkf 1 0.
Proof.
  intros Hf HT HN LY ST FZ HC NN. rewrite CAPACITY_eq in HC.
  assert (FL : all_finite (components m X incX N) = false).
  { destruct (all_finite (components m X incX N)) eqn:F; auto. apply all_finite_flags in F. destruct F as [F _]. congruence. }
  destruct (zssq_call fold Hf tu N X incX Y A T zs (scale, m) HT HN LY ST FZ HC) as (_ & R2 & _). cbn [fst snd] in *.
  destruct (dbzssq tu fold N X incX scale Y A T m) as [sc' m']. cbn [fst snd] in *.
  destruct (R2 FL (or_introl NN)) as [E ->]. split.
  - rewrite E, special_fabs by auto. now rewrite NN.
  - rewrite dscale_eq. f_equal. destruct t; vm_compute; reflexivity.
Qed.
Print Assumptions C50_nan_partial.
(** ... but infinities need not give +Inf: on the accumulator of the single value 1, the 33 complex
    numbers 2^600, 0, ..., 0, +Inf give NaN with blocks of 32 elements and +Inf with blocks of 64:
    the first block leaves scale 2^600 in the temporary accumulator and the final
    dmdmaddsq divides the infinite word by (2^600)^2, which overflows. *)
Definition wide_tuning (t : ty) : tuning := file_tuning t false 0 0 64 1 1 1.
Definition late_inf : mem Dbl := fun a => if a =? 0 then mkf 1 600 else if a =? 64 then finf false else if a =? 90 then mkf 1 0 else fzero.
Theorem C50_inf_refuted :
  let tu := scalar_tuning Dbl in let tu' := wide_tuning Dbl in let fold := 3 in
  tuned Dbl tu /\ tuned Dbl tu' /\ nrm_layout fold 33 0 1 100 200 300 /\
  exists scale (m : mem Dbl), ssq_at fold [mkf 1 0] scale m 100 /\
    existsb f_isnan (components m 0 1 33) = false /\
    f_isnan (snd (dbzssq tu fold 33 0 1 scale 100 200 300 m) 100) = true /\
    f_isinf (snd (dbzssq tu' fold 33 0 1 scale 100 200 300 m) 100) = true.
Proof.
  cbv zeta. split; [apply file_scalar|]. split; [apply C18_argument_files; [now left|now left|discriminate]|]. split.
  { unfold nrm_layout, blocks_apart, zclear_of, dbnum, zbnum. repeat split; intros; lia. }
  set (r := dbdssq (scalar_tuning Dbl) 3 1 90 1 fzero 100 (dbsetzero 3 100 late_inf)). exists (fst r), (snd r).
  split; [|split; [|split]]; [|vm_compute; reflexivity|vm_compute; reflexivity|vm_compute; reflexivity].
  assert (Hf : 2 <= 3 <= ssq_fold Dbl) by (cbn; lia).
  destruct (ssq_fresh 3 Hf (scalar_tuning Dbl) 1 90 1 100 late_inf (file_scalar Dbl)) as [S _].
  { vm_compute. split; discriminate. } { intros i Hi. unfold dbnum. lia. }
  assert (ER : read late_inf 90 1 1 = [mkf 1 0]) by reflexivity. rewrite ER in S.
  unfold sstate in S. exact S.
Qed.
Print Assumptions C50_inf_refuted.
