(** * C18 - C22, C28, C39: the vector reductions *)
From Coq Require Import ZArith Bool List Lia Permutation.
From Flocq Require Import Core BinarySingleNaN.
From Verif Require Import Fp Mem Binned Spec FpProofs BitProofs CoreArith SpecProofs WordProofs MemProofs AccProofs SumProofs ConvProofs Client History ClientProofs PropsSum PropsAcc Gen GenProofs Params ParamsProofs PropsGen Blas LaneProofs ReduceProofs DriverProofs BlasSpec.
Import ListNotations.
Open Scope Z_scope.

(** ** From strided representation to contiguous accumulators *)
Lemma tuned_legal t tu : tuned t tu -> legal_tuning (t := t) tu.
Proof. intros (A & B & C). rewrite ENDURANCE_eq in A. split; auto. Qed.
Lemma clear_outside fold X iX N Y : 0 <= fold -> clear_of X iX N Y (dbnum fold) ->
  outside (fold := fold) (p := Y) (ip := 1) (c := Y + fold) (ic := 1) X iX N.
Proof. intros Hf H i Hi. rewrite in_acc_contig by auto. unfold block. apply H. exact Hi. Qed.
Lemma terms_sum {t} X iX Y iY (m : mem t) N : terms Sum X iX Y iY m N = read m X iX N.
Proof. reflexivity. Qed.
Lemma terms_asum {t} X iX Y iY (m : mem t) N : terms ASum X iX Y iY m N = magnitudes m X iX N.
Proof. unfold terms, magnitudes, read. now rewrite map_map. Qed.
Lemma terms_dot {t} X iX Y iY (m : mem t) N : terms Dot X iX Y iY m N = products m X iX Y iY N.
Proof.
  unfold terms, products, read. generalize (zseq 0 N). intros l. induction l as [|i l IH]; [reflexivity|].
  cbn [map combine]. now rewrite IH.
Qed.

Section RED.
  Context {t : ty} (fold : Z) (Hf : 2 <= fold <= MAXFOLD t).
  Notation Hf2' := (ClientProofs.Hf2 fold Hf). Notation Hfm' := (ClientProofs.Hfm fold Hf).

  (** [g] as in DriverProofs: true when the special result is exact. *)
  Lemma reduce_out (g s : bool) k tu N X iX Y iY A (m : mem t) us zs :
    tuned t tu -> 0 <= N -> acc_at fold us zs m A ->
    clear_of X iX N A (dbnum fold) -> clear_of Y iY N A (dbnum fold) ->
    let ts := terms k X iX Y iY m N in
    Z.of_nat (length (ts ++ zs)) <= capacity t ->
    (g = true -> all_finite ts = true \/ all_finite zs = false \/ forall x, In x ts -> sgn_ok s x) ->
    let m' := reduce k tu fold N X iX Y iY A 1 (A + fold) 1 m in
    (if all_finite (ts ++ zs) then acc_at fold us (ts ++ zs) m' A
     else m' A = special (ts ++ zs) \/ (g = false /\ m' A = B754_nan)) /\
    unchanged_outside A (dbnum fold) m m'.
  Proof.
    intros HT HN HA CX CY ts HC HG m'.
    assert (HZ : Z.of_nat (length zs) <= capacity t) by (rewrite app_length in HC; lia).
    destruct (tuned_legal t tu HT) as (LB & LA & LV).
    pose proof (loop_ok (layout_contig fold A ltac:(lia)) Hf2' Hfm' g s (S (Z.to_nat N)) k tu N X iX Y iY 0 (block_max tu) 0 m us zs) as R.
    cbv zeta in R. rewrite Z.sub_0_r in R. fold ts in R. destruct R as [R1 R2]; auto; try lia.
    - split; auto.
    - unfold st_in. destruct (all_finite zs) eqn:FZ.
      + apply holds_rep; auto.
      + left. unfold acc_at, holds in HA. rewrite FZ, Z.mul_0_l, Z.add_0_r in HA. exact HA.
    - apply clear_outside; [lia|exact CX].
    - apply clear_outside; [lia|exact CY].
    - split; [exact R1|]. exact (frame_contig fold A _ _ ltac:(lia) R2).
  Qed.
  Lemma reduce_fin k tu N X iX Y iY A (m : mem t) us zs :
    tuned t tu -> 0 <= N -> acc_at fold us zs m A ->
    clear_of X iX N A (dbnum fold) -> clear_of Y iY N A (dbnum fold) ->
    let ts := terms k X iX Y iY m N in
    Z.of_nat (length (ts ++ zs)) <= capacity t -> all_finite ts = true ->
    let m' := reduce k tu fold N X iX Y iY A 1 (A + fold) 1 m in
    acc_at fold us (ts ++ zs) m' A /\ unchanged_outside A (dbnum fold) m m'.
  Proof.
    intros HT HN HA CX CY ts HC FT m'.
    destruct (reduce_out true false k tu N X iX Y iY A m us zs HT HN HA CX CY HC (fun _ => or_introl FT)) as [R1 R2].
    fold ts in R1. fold m' in R1, R2. split; [|exact R2]. destruct (all_finite (ts ++ zs)) eqn:FA; [exact R1|].
    unfold acc_at, holds. rewrite FA, Z.mul_0_l, Z.add_0_r. destruct R1 as [|[? _]]; [assumption|discriminate].
  Qed.
  Lemma same_acc_words us xs us' xs' (m m' : mem t) A A' : all_finite xs = true -> Permutation us us' -> Permutation xs xs' ->
    acc_at fold us xs m A -> acc_at fold us' xs' m' A' -> same_words fold m A m' A'.
  Proof.
    intros F Pu Px H H'. intros i Hi. symmetry in Pu, Px.
    exact (holds_cells fold Hf m m' A A' us xs F H (holds_perm _ _ _ _ _ _ _ _ Pu Px H') i Hi).
  Qed.
  Lemma same_acc_head us xs us' xs' (m m' : mem t) A A' : all_finite xs = false -> Permutation xs xs' ->
    acc_at fold us xs m A -> acc_at fold us' xs' m' A' -> m A = m' A'.
  Proof.
    unfold acc_at, holds. intros F P. rewrite <- (all_finite_perm _ _ P), F, <- (special_perm _ _ P), !Z.mul_0_l, !Z.add_0_r.
    congruence.
  Qed.
End RED.

(** ** C18 *)
(** The words left by one dbdsum call are those left by one dbdadd per element; the
    initial accumulator holds any finite zs, room made for any us. *)
Theorem C18_sum_is_adds t tu fold N X incX Y us zs (m : mem t) :
  2 <= fold <= MAXFOLD t -> tuned t tu -> 0 <= N -> clear_of X incX N Y (dbnum fold) ->
  acc_at fold us zs m Y -> all_finite (read m X incX N) = true -> all_finite zs = true ->
  N + Z.of_nat (length zs) <= CAPACITY t ->
  let m' := dbdsum tu fold N X incX Y m in
  same_words fold m' Y (add_list fold Y (read m X incX N) m) Y /\ unchanged_outside Y (dbnum fold) m m'.
Proof.
  intros Hf HT HN CX HA FX FZ HC m'. rewrite CAPACITY_eq in HC.
  assert (LR : Z.of_nat (length (read m X incX N ++ zs)) <= capacity t) by (rewrite app_length; pose proof (read_length m X incX N HN); lia).
  destruct (reduce_fin fold Hf Sum tu N X incX X incX Y m us zs HT HN HA CX CX LR FX) as [R1 R2].
  destruct (add_list_holds fold Hf Y (read m X incX N) m us zs HA LR) as [S1 _].
  split; [|exact R2]. eapply same_acc_words; [exact Hf| | | |exact R1|exact S1]; [|reflexivity|].
  - rewrite terms_sum, all_finite_app, FX. exact FZ.
  - apply Permutation_app_tail, Permutation_rev.
Qed.
Print Assumptions C18_sum_is_adds.
(** With an accumulator that is already not finite, the first word (the result) agrees. *)
Theorem C18_sum_on_special t tu fold N X incX Y us zs (m : mem t) :
  2 <= fold <= MAXFOLD t -> tuned t tu -> 0 <= N -> clear_of X incX N Y (dbnum fold) ->
  acc_at fold us zs m Y -> all_finite (read m X incX N) = true -> all_finite zs = false ->
  N + Z.of_nat (length zs) <= CAPACITY t ->
  dbdsum tu fold N X incX Y m Y = add_list fold Y (read m X incX N) m Y /\ dbdsum tu fold N X incX Y m Y = m Y.
Proof.
  intros Hf HT HN CX HA FX FZ HC. rewrite CAPACITY_eq in HC.
  assert (LR : Z.of_nat (length (read m X incX N ++ zs)) <= capacity t) by (rewrite app_length; pose proof (read_length m X incX N HN); lia).
  destruct (reduce_fin fold Hf Sum tu N X incX X incX Y m us zs HT HN HA CX CX LR FX) as [R1 _].
  destruct (add_list_holds fold Hf Y (read m X incX N) m us zs HA LR) as [S1 _].
  assert (FA : all_finite (read m X incX N ++ zs) = false) by (rewrite all_finite_app, FZ; apply andb_false_r). split.
  - eapply same_acc_head; [exact FA| |exact R1|exact S1]. apply Permutation_app_tail, Permutation_rev.
  - unfold acc_at, holds in R1, HA. rewrite terms_sum, FA, Z.mul_0_l, Z.add_0_r in R1. rewrite FZ, Z.mul_0_l, Z.add_0_r in HA.
    change (dbdsum tu fold N X incX Y m Y = special (read m X incX N ++ zs)) in R1. rewrite R1, HA. now apply special_app.
Qed.
Print Assumptions C18_sum_on_special.
(** Two tunings, two strides, two layouts of the same data: same words. *)
Theorem C18_tuning_independent t tu tu' fold N X incX X' incX' Y Y' us zs (m m' : mem t) :
  2 <= fold <= MAXFOLD t -> tuned t tu -> tuned t tu' -> 0 <= N ->
  clear_of X incX N Y (dbnum fold) -> clear_of X' incX' N Y' (dbnum fold) ->
  acc_at fold us zs m Y -> acc_at fold us zs m' Y' ->
  all_finite (read m X incX N) = true -> all_finite zs = true -> N + Z.of_nat (length zs) <= CAPACITY t ->
  Permutation (read m X incX N) (read m' X' incX' N) ->
  same_words fold (dbdsum tu fold N X incX Y m) Y (dbdsum tu' fold N X' incX' Y' m') Y'.
Proof.
  intros Hf HT HT' HN CX CX' HA HA' FX FZ HC HP. rewrite CAPACITY_eq in HC.
  assert (LR : Z.of_nat (length (read m X incX N ++ zs)) <= capacity t) by (rewrite app_length; pose proof (read_length m X incX N HN); lia).
  assert (LR' : Z.of_nat (length (read m' X' incX' N ++ zs)) <= capacity t) by (rewrite app_length; pose proof (read_length m' X' incX' N HN); lia).
  assert (FX' : all_finite (read m' X' incX' N) = true) by (now rewrite <- (all_finite_perm _ _ HP)).
  destruct (reduce_fin fold Hf Sum tu N X incX X incX Y m us zs HT HN HA CX CX LR FX) as [R1 _].
  destruct (reduce_fin fold Hf Sum tu' N X' incX' X' incX' Y' m' us zs HT' HN HA' CX' CX' LR' FX') as [R2 _].
  eapply same_acc_words; [exact Hf| | | |exact R1|exact R2]; [|reflexivity|].
  - rewrite terms_sum, all_finite_app, FX. exact FZ.
  - rewrite !terms_sum. now apply Permutation_app_tail.
Qed.
Print Assumptions C18_tuning_independent.
(** Every tuning the argument files can select is legal. *)
Definition file_tuning (t : ty) (vector : bool) (vs vs' block pipe unroll unroll' : Z) : tuning :=
  Tuning (read_block (ENDURANCE t) block) (read_avec vs' unroll') (read_vec vector vs pipe unroll).
Theorem C18_argument_files t vector vs vs' block pipe unroll unroll' :
  vector_width vs -> vector_width vs' -> (vector = true -> 1 <= vs) ->
  tuned t (file_tuning t vector vs vs' block pipe unroll unroll').
Proof.
  intros H1 H2 H3. unfold file_tuning, tuned. cbn [block_max amax_vec dep_vec].
  split; [|split; [now apply read_avec_legal|now apply read_vec_legal]].
  unfold read_block. assert (H : 32 <= ENDURANCE t) by (destruct t; discriminate).
  pose proof (pow_parse_range 32 (ENDURANCE t) block H). lia.
Qed.
Print Assumptions C18_argument_files.
Definition sample_tuning : tuning := file_tuning Dbl true 4 2 100 8 3 6.
Definition spread (xs : list (F Dbl)) (inc : Z) : mem Dbl := fun a => nth (Z.to_nat (a / inc)) xs fzero.
Definition some_data : list (F Dbl) := [mkf 3 900; mkf 5 (-1000); mkf (-3) 900; mkf 7 850; mkf (-1) (-1074)].
Example C18_case : tuned Dbl sample_tuning /\ clear_of 0 2 5 100 (dbnum 3) /\
  acc_at 3 [] [] (dbsetzero 3 100 (spread some_data 2)) 100 /\
  all_finite (read (dbsetzero 3 100 (spread some_data 2)) 0 2 5) = true /\
  feq (ddbconv 3 100 (dbdsum sample_tuning 3 5 0 2 100 (dbsetzero 3 100 (spread some_data 2)))) (mkf 7 850) = true.
Proof.
  split; [apply C18_argument_files; [right; exists 2; vm_compute; split; congruence|right; exists 1; vm_compute; split; congruence|lia]|].
  split; [intros i Hi; unfold dbnum; lia|]. split; [|split; vm_compute; reflexivity].
  exact (proj1 (setzero_holds (t := Dbl) 3 ltac:(vm_compute; split; discriminate) 100 (spread some_data 2))).
Qed.

(** ** C19 *)
Section LANES.
  Context {t : ty} (fold : Z) (Hf : 2 <= fold <= MAXFOLD t).
  Lemma deposit_list_acc Y k C (ys : list (F t)) : forall (m : mem t) V,
    acc t fold k V C (P_of m Y 1) (P_of m (Y + fold) 1) ->
    Forall (fun x => is_finite x = true /\ k <= bin_of t (toZ x)) ys ->
    (forall i, 0 <= i < fold -> Z.abs (V (k + i)) + mags ys (k + i) < 2 * quarter t) ->
    let m' := deposit_list fold ys Y m in
    acc t fold k (fun j => V j + sums ys j) C (P_of m' Y 1) (P_of m' (Y + fold) 1) /\
    (forall a, (forall j, 0 <= j < fold -> a <> Y + j * 1) -> m' a = m a).
  Proof.
    induction ys as [|y ys IH]; intros m V A HF HB.
    - split; auto. cbn [deposit_list fold_left]. destruct A as [Hk A]. split; auto. intros i Hi. cbv beta. cbn.
      rewrite Z.add_0_r. auto.
    - inversion HF as [|? ? [Fy By] HF']. subst.
      assert (HB' : forall i, 0 <= i < fold -> Z.abs (V (k + i)) + Z.abs (slice t (toZ y) (k + i)) + mags ys (k + i) < 2 * quarter t).
      { intros i Hi. specialize (HB i Hi). unfold mags in *. rewrite zsum_cons in HB. lia. }
      destruct (acc_deposit (layout_contig fold Y ltac:(lia)) ltac:(lia) m k V C y A Fy By ltac:(lia)) as [A1 F1].
      { specialize (HB' 0 ltac:(lia)). rewrite Z.add_0_r in HB'. pose proof (mags_nonneg ys k). unfold inbin. lia. }
      { intros i Hi. specialize (HB' i Hi). pose proof (mags_nonneg ys (k + i)). lia. }
      destruct (IH _ _ A1 HF') as [A2 F2].
      { intros i Hi. specialize (HB' i Hi). lia. }
      cbn [deposit_list fold_left] in *. split.
      + destruct A2 as [Hk A2]. split; auto. intros i Hi. cbv beta in *. change (sums (y :: ys) (k + i)) with (slice t (toZ y) (k + i) + sums ys (k + i)). specialize (A2 i Hi). rewrite <- (Z.add_assoc (V (k + i))) in A2. exact A2.
      + intros a Ha. etransitivity; [apply F2; auto|apply F1; auto].
  Qed.
End LANES.
(** Elements xs spread over lanes in any way (any lanes, any order, any zeros added as
    padding, recombined the scalar or the vector way): the kernel leaves the words that
    depositing xs one by one leaves. *)
Theorem C19_lanes t fold vector ts lanes (es : list (Z * F t)) (xs pad : list (F t)) Y us zs (m : mem t) :
  2 <= fold <= MAXFOLD t -> 1 <= lanes -> (vector = true -> 1 <= ts /\ (ts | lanes)) ->
  Forall (fun e => 0 <= fst e < lanes) es -> Permutation (map snd es) (xs ++ pad) ->
  Forall (fun x => feq x fzero = true) pad ->
  acc_at fold us zs m Y -> us ++ zs <> [] -> all_finite (xs ++ zs) = true ->
  Z.of_nat (length xs) <= ENDURANCE t -> Z.of_nat (length zs) <= CAPACITY t ->
  (* the accumulator has room for the elements *)
  (forall x, In x xs -> lead (us ++ zs) <= dindex x) ->
  same_words fold (deposit_lanes vector ts lanes fold es Y 1 m) Y (deposit_list fold xs Y m) Y /\
  unchanged_outside Y fold m (deposit_lanes vector ts lanes fold es Y 1 m).
Proof.
  intros Hf HL HV HE HP HZ HA NE FA HN HC HB. rewrite ENDURANCE_eq in HN. rewrite CAPACITY_eq in HC.
  assert (Hf1 : 2 <= fold) by lia.
  rewrite all_finite_app in FA. apply andb_true_iff in FA. destruct FA as [FX FZ].
  pose proof (holds_rep t fold us zs _ _ HC HA) as R. unfold rep in R. rewrite FZ in R.
  pose proof (lead_range (us ++ zs)) as LR. remember (lead (us ++ zs)) as k eqn:EK in *.
  destruct (us ++ zs) as [|a0 l0] eqn:EU; [congruence|]. rewrite <- EU in *. try rewrite <- EK in R.
  destruct R as (V & C & A & _ & _ & _ & B).
  pose proof (quarter_endurance t) as QE. pose proof (width_pos t). pose proof (pow2_pos (width t - 1) ltac:(lia)) as WP.
  set (w := 2 ^ (width t - 1)) in *.
  assert (Z0 : forall x : F t, feq x fzero = true -> is_finite x = true /\ toZ x = 0).
  { intros x E. destruct x as [sx|[]| |sx mm e Hx]; try discriminate; [auto|].
    exfalso. unfold feq in E. destruct sx; discriminate. }
  assert (HXF : forall x, In x xs -> is_finite x = true /\ k <= bin_of t (toZ x)).
  { intros x Ix. assert (Fx : is_finite x = true) by (unfold all_finite in FX; rewrite forallb_forall in FX; auto).
    split; auto. rewrite <- dindex_spec by auto. auto. }
  assert (SB : same_bins (map snd es) xs).
  { intros j. unfold mags. rewrite !sums_zsum.
    assert (ZP : forall f : F t -> Z, (forall x, toZ x = 0 -> f x = 0) -> zsum f (map snd es) = zsum f xs).
    { intros f Hf0. transitivity (zsum f (xs ++ pad)).
      - clear -HP. revert HP. generalize (map snd es) (xs ++ pad). intros l l' HP.
        induction HP; rewrite ?zsum_cons; lia.
      - rewrite zsum_app. replace (zsum f pad) with 0; [lia|]. clear -HZ Hf0 Z0. induction HZ as [|x l E HZ IH]; [reflexivity|].
        rewrite zsum_cons, <- IH, Hf0 by (apply Z0; auto). reflexivity. }
    split; apply ZP; intros x E; rewrite E, slice_0; reflexivity. }
  assert (HB2 : forall i, 0 <= i < fold -> Z.abs (V (k + i)) + mags xs (k + i) < 2 * quarter t).
  { intros i Hi. specialize (B (k + i) ltac:(lia)). pose proof (mags_bound xs (k + i) ltac:(lia)) as MB. fold w in MB.
    nia. }
  destruct (deposit_list_acc fold Hf Y k C xs m V A) as [A1 F1].
  { rewrite Forall_forall. exact HXF. }
  { exact HB2. }
  unfold deposit_lanes.
  assert (I0 : dmindex0 (m Y) = (k =? 0)).
  { assert (IB : inbin t (6 * quarter t + V k)).
    { specialize (B k ltac:(lia)). unfold inbin. nia. }
    destruct (priw_0 _ _ _ _ _ _ _ A ltac:(lia) IB) as (_ & _ & _ & N4).
    rewrite Z.mul_1_r, Z.add_0_r in N4. exact N4. }
  rewrite I0. set (dep := if k =? 0 then _ else _).
  assert (OK : dep_ok k dep /\ forall s x, length (dep s x) = length s).
  { unfold dep. destruct (Z.eqb_spec k 0) as [Ek|Nk].
    - rewrite Ek. split; [apply dep_ok_0|intros; apply kdep0_length].
    - split; [apply dep_ok_pos; lia|intros; apply kdep_length]. }
  destruct OK as [OK LEN]. clearbody dep.
  destruct (acc_lanes (layout_contig fold Y ltac:(lia)) ltac:(lia) vector ts lanes dep m k V C es (conj HL HV) OK LEN A HE) as [A2 F2].
  { rewrite Forall_forall. intros x Ix. apply (Permutation_in _ HP) in Ix. apply in_app_or in Ix. destruct Ix as [Ix|Ix]; auto.
    rewrite Forall_forall in HZ. destruct (Z0 x (HZ x Ix)) as [Fx Ex]. split; auto. rewrite Ex. change (bin_of t 0) with (jmax t). lia. }
  { intros i Hi. assert (E : mags (map snd es) (k + i) = mags xs (k + i)) by apply SB. rewrite E. auto. }
  set (m1 := store_lanes _ _ _ _ _ _ _ _) in *. clearbody m1. set (m2 := deposit_list fold xs Y m) in *. clearbody m2. split.
  - intros i Hi. destruct (Z_lt_dec i fold) as [Li|Li].
    + destruct A1 as [_ A1], A2 as [_ A2]. destruct (A1 i ltac:(lia)) as [P1 _], (A2 i ltac:(lia)) as [P2 _].
      unfold P_of in P1, P2. rewrite Z.mul_1_r in P1, P2. cbv beta in P1, P2.
      assert (E : sums (map snd es) (k + i) = sums xs (k + i)) by apply SB. rewrite E in P2.
      apply (priw_inj t (k + i) (6 * quarter t + (V (k + i) + sums xs (k + i)))); auto; [lia|].
      specialize (HB2 i ltac:(lia)). pose proof (sums_mags xs (k + i)). pose proof (mags_nonneg xs (k + i)). lia.
    + rewrite F2, F1 by (intros j Hj; lia). reflexivity.
  - intros a Ha. apply F2. intros j Hj. lia.
Qed.
Print Assumptions C19_lanes.
(** In particular the generated kernels, for every vector, pipe and unroll width. *)
Theorem C19_kernel t fold v n (val : option Z -> F t) Y us zs (m : mem t) :
  2 <= fold <= MAXFOLD t -> legal_vec v -> 0 <= n <= ENDURANCE t ->
  let xs := map (fun i => val (Some i)) (zseq 0 n) in
  feq (val None) fzero = true ->
  acc_at fold us zs m Y -> us ++ zs <> [] -> all_finite (xs ++ zs) = true -> Z.of_nat (length zs) <= CAPACITY t ->
  (forall x, In x xs -> lead (us ++ zs) <= dindex x) ->
  let '(m', p) := kernel v fold n val Y 1 m in
  p = n /\ same_words fold m' Y (deposit_list fold xs Y m) Y /\ unchanged_outside Y fold m m'.
Proof.
  intros Hf HV Hn xs V0 HA NE FA HC HB. pose proof (kernel_events_ok v n HV ltac:(lia)) as KE. unfold kernel.
  destruct (kernel_events v n) as [es p]. destruct KE as (K1 & K2 & K3). split; [exact K1|].
  destruct (legal_lanes v HV) as [L1 L2].
  refine (C19_lanes t fold (simd v) (type_size v) (pipe_width v) _ xs
    (map val (filter (fun o => match o with None => true | _ => false end) (map snd es))) Y us zs m Hf L1 L2 _ _ _ HA NE FA _ HC HB).
  - rewrite Forall_map. exact K3.
  - rewrite map_map. cbn [snd]. unfold xs. rewrite <- K2. clear. unfold elems.
    induction es as [|[l [i|]] es IH]; cbn [map flat_map filter snd app]; [constructor|now constructor|].
    etransitivity; [constructor; exact IH|]. apply Permutation_middle.
  - rewrite Forall_map, Forall_forall. intros o Io. apply filter_In in Io. destruct o; [destruct Io; discriminate|]. exact V0.
  - unfold xs. rewrite map_length, zseq_length. lia.
Qed.
Print Assumptions C19_kernel.
Definition lane_start : mem Dbl := dbdupdate 3 (mkf 1 900) 100 (fun _ => fzero).
Definition lane_events : list (Z * F Dbl) :=
  [(5, mkf 3 890); (0, fzero); (2, mkf (-7) 850); (5, fneg fzero); (1, mkf 3 (-1074)); (7, mkf 9 870)].
Example C19_case : acc_at 3 [mkf 1 900] [] lane_start 100 /\
  Forall (fun e => 0 <= fst e < 8) lane_events /\
  Permutation (map snd lane_events) ([mkf 3 890; mkf (-7) 850; mkf 3 (-1074); mkf 9 870] ++ [fzero; fneg fzero]) /\
  forallb (fun x : F Dbl => lead [mkf 1 900 : F Dbl] <=? dindex x) [mkf 3 890; mkf (-7) 850; mkf 3 (-1074); mkf 9 870] = true.
Proof.
  assert (Z0 : forall i, 0 <= i < 3 -> (fzero : F Dbl) = fzero /\ (fzero : F Dbl) = fzero) by auto.
  split; [|split; [|split]].
  - refine (holds_update (layout_contig 3 100 _) (fun _ => fzero) [] [] (mkf 1 900) _ Z0 Z0); [lia|vm_compute; split; discriminate].
  - repeat constructor; cbn; lia.
  - cbn [map snd lane_events app].
    generalize (mkf 3 890 : F Dbl) (mkf (-7) 850 : F Dbl) (mkf 3 (-1074) : F Dbl) (mkf 9 870 : F Dbl) (@fzero Dbl) (fneg (@fzero Dbl)).
    intros a b c d e f. constructor.
    apply (Permutation_cons_app [b; c; d] [f]). constructor. apply (Permutation_cons_app [c; d] []). reflexivity.
  - vm_compute. reflexivity.
Qed.

(** ** C20 *)
Section CONV.
  Context {t : ty} (fold : Z) (Hf : 2 <= fold <= MAXFOLD t).
  Lemma conv_acc us xs us' xs' (m m' : mem t) A A' : Permutation us us' -> Permutation xs xs' ->
    acc_at fold us xs m A -> acc_at fold us' xs' m' A' -> ddbconv fold A m = ddbconv fold A' m'.
  Proof.
    intros Pu Px H H'. symmetry in Pu, Px. apply (holds_perm _ _ _ _ _ _ _ _ Pu Px) in H'.
    exact (ddmconv_perm fold A 1 (A + fold) 1 A' 1 (A' + fold) 1 m m' us xs xs (proj1 Hf) (Permutation_refl _) H H').
  Qed.
  Lemma read_clear (m m' : mem t) X iX N A n : clear_of X iX N A n -> unchanged_outside A n m m' ->
    read m' X iX N = read m X iX N.
  Proof.
    intros C U. unfold read. apply map_ext_in. intros i Hi. apply zseq_In in Hi. apply U. apply C. lia.
  Qed.
  Lemma fresh_fin k tu N X iX Y iY A (m : mem t) : tuned t tu -> 0 <= N <= capacity t ->
    clear_of X iX N A (dbnum fold) -> clear_of Y iY N A (dbnum fold) ->
    let ts := terms k X iX Y iY m N in all_finite ts = true ->
    let m' := reduce k tu fold N X iX Y iY A 1 (A + fold) 1 (dbsetzero fold A m) in
    acc_at fold [] ts m' A /\ unchanged_outside A (dbnum fold) m m'.
  Proof.
    intros HT HN CX CY ts FT m'. destruct (setzero_holds fold Hf A m) as [H0 U0].
    assert (E : terms k X iX Y iY (dbsetzero fold A m) N = ts).
    { apply terms_ext. intros i Hi. split; apply U0; [apply CX|apply CY]; auto. }
    destruct (reduce_fin fold Hf k tu N X iX Y iY A (dbsetzero fold A m) [] [] HT ltac:(lia) H0 CX CY) as [R1 R2].
    { rewrite app_nil_r, terms_length. lia. }
    { rewrite E. exact FT. }
    rewrite E, app_nil_r in R1. fold m' in R1, R2. split; [exact R1|].
    intros a Ha. rewrite R2 by auto. apply U0. exact Ha.
  Qed.
End CONV.
(** reproBLAS_rdsum (rssum), the data permuted, moved, strided, summed with another tuning. *)
Theorem C20_order_independent t tu tu' fold N X incX X' incX' tmp tmp' (m m' : mem t) :
  2 <= fold <= MAXFOLD t -> tuned t tu -> tuned t tu' -> 0 <= N <= CAPACITY t ->
  clear_of X incX N tmp (dbnum fold) -> clear_of X' incX' N tmp' (dbnum fold) ->
  all_finite (read m X incX N) = true -> Permutation (read m X incX N) (read m' X' incX' N) ->
  rdsum tu fold N X incX tmp m = rdsum tu' fold N X' incX' tmp' m'.
Proof.
  intros Hf HT HT' HN CX CX' FX HP. rewrite CAPACITY_eq in HN.
  assert (FX' : all_finite (read m' X' incX' N) = true) by (now rewrite <- (all_finite_perm _ _ HP)).
  destruct (fresh_fin fold Hf Sum tu N X incX X incX tmp m HT HN CX CX FX) as [R1 _].
  destruct (fresh_fin fold Hf Sum tu' N X' incX' X' incX' tmp' m' HT' HN CX' CX' FX') as [R2 _].
  exact (conv_acc fold Hf [] _ [] _ _ _ _ _ (perm_nil _) HP R1 R2).
Qed.
Print Assumptions C20_order_independent.
(** It is the conversion of the accumulator the scalar adds build. *)
Theorem C20_is_scalar_sum t tu fold N X incX tmp Y (m m' : mem t) :
  2 <= fold <= MAXFOLD t -> tuned t tu -> 0 <= N <= CAPACITY t -> clear_of X incX N tmp (dbnum fold) ->
  all_finite (read m X incX N) = true ->
  rdsum tu fold N X incX tmp m = ddbconv fold Y (sum_list fold Y (read m X incX N) m').
Proof.
  intros Hf HT HN CX FX. rewrite CAPACITY_eq in HN.
  destruct (fresh_fin fold Hf Sum tu N X incX X incX tmp m HT HN CX CX FX) as [R1 _].
  destruct (sum_list_holds fold Hf Y (read m X incX N) m') as [R2 _].
  { pose proof (read_length m X incX N ltac:(lia)). lia. }
  exact (conv_acc fold Hf [] _ [] _ _ _ _ _ (perm_nil _) (Permutation_refl _) R1 R2).
Qed.
Print Assumptions C20_is_scalar_sum.
Example C20_case : forall m : mem Dbl, m = spread some_data 2 ->
  clear_of 0 2 5 100 (dbnum 3) /\ clear_of 8 (-2) 5 100 (dbnum 3) /\
  all_finite (read m 0 2 5) = true /\ Permutation (read m 0 2 5) (read m 8 (-2) 5) /\
  feq (rdsum sample_tuning 3 5 0 2 100 m) (mkf 7 850) = true.
Proof.
  intros m ->. split; [intros i Hi; unfold dbnum; lia|]. split; [intros i Hi; unfold dbnum; lia|].
  split; [vm_compute; reflexivity|]. split; [|vm_compute; reflexivity].
  apply (Permutation_rev [spread some_data 2 0; spread some_data 2 2; spread some_data 2 4; spread some_data 2 6; spread some_data 2 8]).
Qed.

(** ** C21 *)
(** dbdasum and dbddot leave the words of one dbdadd per |x_i|, per product x_i*y_i
    (rounded once, as the hardware does). *)
Theorem C21_asum_is_adds t tu fold N X incX Y us zs (m : mem t) :
  2 <= fold <= MAXFOLD t -> tuned t tu -> 0 <= N -> clear_of X incX N Y (dbnum fold) ->
  acc_at fold us zs m Y -> all_finite (read m X incX N) = true -> all_finite zs = true ->
  N + Z.of_nat (length zs) <= CAPACITY t ->
  let m' := dbdasum tu fold N X incX Y m in
  same_words fold m' Y (add_list fold Y (magnitudes m X incX N) m) Y /\ unchanged_outside Y (dbnum fold) m m'.
Proof.
  intros Hf HT HN CX HA FX FZ HC m'. rewrite CAPACITY_eq in HC.
  assert (LR : Z.of_nat (length (magnitudes m X incX N ++ zs)) <= capacity t).
  { unfold magnitudes. rewrite app_length, map_length. pose proof (read_length m X incX N HN). lia. }
  assert (FM : all_finite (magnitudes m X incX N) = true).
  { unfold magnitudes, all_finite in *. rewrite forallb_forall in *. intros y Iy. apply in_map_iff in Iy.
    destruct Iy as (x & <- & Ix). rewrite fin_fabs. auto. }
  rewrite <- (terms_asum X incX X incX) in LR, FM |- *.
  destruct (reduce_fin fold Hf ASum tu N X incX X incX Y m us zs HT HN HA CX CX LR FM) as [R1 R2].
  destruct (add_list_holds fold Hf Y (terms ASum X incX X incX m N) m us zs HA LR) as [S1 _].
  split; [|exact R2]. eapply same_acc_words; [exact Hf| | | |exact R1|exact S1]; [|reflexivity|].
  - rewrite all_finite_app, FM. exact FZ.
  - apply Permutation_app_tail, Permutation_rev.
Qed.
Print Assumptions C21_asum_is_adds.
Theorem C21_dot_is_adds t tu fold N X incX Y incY A us zs (m : mem t) :
  2 <= fold <= MAXFOLD t -> tuned t tu -> 0 <= N ->
  clear_of X incX N A (dbnum fold) -> clear_of Y incY N A (dbnum fold) ->
  acc_at fold us zs m A -> all_finite (products m X incX Y incY N) = true -> all_finite zs = true ->
  N + Z.of_nat (length zs) <= CAPACITY t ->
  let m' := dbddot tu fold N X incX Y incY A m in
  same_words fold m' A (add_list fold A (products m X incX Y incY N) m) A /\ unchanged_outside A (dbnum fold) m m'.
Proof.
  intros Hf HT HN CX CY HA FM FZ HC m'. rewrite CAPACITY_eq in HC. rewrite <- terms_dot in FM |- *.
  assert (LR : Z.of_nat (length (terms Dot X incX Y incY m N ++ zs)) <= capacity t).
  { rewrite app_length, terms_length. lia. }
  destruct (reduce_fin fold Hf Dot tu N X incX Y incY A m us zs HT HN HA CX CY LR FM) as [R1 R2].
  destruct (add_list_holds fold Hf A (terms Dot X incX Y incY m N) m us zs HA LR) as [S1 _].
  split; [|exact R2]. eapply same_acc_words; [exact Hf| | | |exact R1|exact S1]; [|reflexivity|].
  - rewrite all_finite_app, FM. exact FZ.
  - apply Permutation_app_tail, Permutation_rev.
Qed.
Print Assumptions C21_dot_is_adds.
(** The results depend on the multiset of magnitudes, of products, only. *)
Theorem C21_rdasum t tu tu' fold N X incX X' incX' tmp tmp' (m m' : mem t) :
  2 <= fold <= MAXFOLD t -> tuned t tu -> tuned t tu' -> 0 <= N <= CAPACITY t ->
  clear_of X incX N tmp (dbnum fold) -> clear_of X' incX' N tmp' (dbnum fold) ->
  all_finite (magnitudes m X incX N) = true -> Permutation (magnitudes m X incX N) (magnitudes m' X' incX' N) ->
  rdasum tu fold N X incX tmp m = rdasum tu' fold N X' incX' tmp' m'.
Proof.
  intros Hf HT HT' HN CX CX' FX HP. rewrite CAPACITY_eq in HN.
  assert (FX' : all_finite (magnitudes m' X' incX' N) = true) by (now rewrite <- (all_finite_perm _ _ HP)).
  rewrite <- (terms_asum X incX X incX) in FX, HP. rewrite <- (terms_asum X' incX' X' incX') in FX', HP.
  destruct (fresh_fin fold Hf ASum tu N X incX X incX tmp m HT HN CX CX FX) as [R1 _].
  destruct (fresh_fin fold Hf ASum tu' N X' incX' X' incX' tmp' m' HT' HN CX' CX' FX') as [R2 _].
  exact (conv_acc fold Hf [] _ [] _ _ _ _ _ (perm_nil _) HP R1 R2).
Qed.
Print Assumptions C21_rdasum.
Theorem C21_rddot t tu tu' fold N X incX Y incY X' incX' Y' incY' tmp tmp' (m m' : mem t) :
  2 <= fold <= MAXFOLD t -> tuned t tu -> tuned t tu' -> 0 <= N <= CAPACITY t ->
  clear_of X incX N tmp (dbnum fold) -> clear_of Y incY N tmp (dbnum fold) ->
  clear_of X' incX' N tmp' (dbnum fold) -> clear_of Y' incY' N tmp' (dbnum fold) ->
  all_finite (products m X incX Y incY N) = true ->
  Permutation (products m X incX Y incY N) (products m' X' incX' Y' incY' N) ->
  rddot tu fold N X incX Y incY tmp m = rddot tu' fold N X' incX' Y' incY' tmp' m'.
Proof.
  intros Hf HT HT' HN CX CY CX' CY' FX HP. rewrite CAPACITY_eq in HN.
  assert (FX' : all_finite (products m' X' incX' Y' incY' N) = true) by (now rewrite <- (all_finite_perm _ _ HP)).
  rewrite <- terms_dot in FX, FX'. rewrite <- !terms_dot in HP.
  destruct (fresh_fin fold Hf Dot tu N X incX Y incY tmp m HT HN CX CY FX) as [R1 _].
  destruct (fresh_fin fold Hf Dot tu' N X' incX' Y' incY' tmp' m' HT' HN CX' CY' FX') as [R2 _].
  exact (conv_acc fold Hf [] _ [] _ _ _ _ _ (perm_nil _) HP R1 R2).
Qed.
Print Assumptions C21_rddot.
(** One permutation applied to both vectors; and exchanging the vectors. *)
Theorem C21_dot_permutation t tu tu' fold N X incX Y incY X' incX' Y' incY' tmp tmp' (m m' : mem t) :
  2 <= fold <= MAXFOLD t -> tuned t tu -> tuned t tu' -> 0 <= N <= CAPACITY t ->
  clear_of X incX N tmp (dbnum fold) -> clear_of Y incY N tmp (dbnum fold) ->
  clear_of X' incX' N tmp' (dbnum fold) -> clear_of Y' incY' N tmp' (dbnum fold) ->
  all_finite (products m X incX Y incY N) = true ->
  Permutation (combine (read m X incX N) (read m Y incY N)) (combine (read m' X' incX' N) (read m' Y' incY' N)) ->
  rddot tu fold N X incX Y incY tmp m = rddot tu' fold N X' incX' Y' incY' tmp' m'.
Proof. intros. apply C21_rddot; auto. unfold products. now apply Permutation_map. Qed.
Print Assumptions C21_dot_permutation.
Definition dot_data : list (F Dbl) := [mkf 3 400; mkf 5 0; mkf (-3) 0; mkf 7 350; mkf 1 370].
Example C21_case : forall m : mem Dbl, m = spread dot_data 2 ->
  all_finite (products m 0 2 4 2 3) = true /\
  feq (rddot sample_tuning 3 3 0 2 4 2 100 m) (mkf (- 9 * 2 ^ 50 + 35 - 3 * 2 ^ 20) 350) = true /\
  feq (rdasum sample_tuning 3 5 0 2 100 m) (mkf (3 * 2 ^ 50 + 7 + 2 ^ 20) 350) = true.
Proof. intros m ->. repeat split; vm_compute; reflexivity. Qed.

(** ** C22 *)
Definition all_data {t} (m : mem t) (qs : list piece) : list (F t) := flat_map (piece_data m) qs.
Section PIECES.
  Context {t : ty} (fold : Z) (Hf : 2 <= fold <= MAXFOLD t).
  Lemma piece_clear (m m' : mem t) q A n : clear_of (p_X q) (p_inc q) (p_N q) A n -> unchanged_outside A n m m' ->
    piece_data m' q = piece_data m q.
  Proof. intros C U. unfold piece_data. eapply read_clear; eauto. Qed.
  Lemma all_data_same (m m' : mem t) qs : (forall q, In q qs -> piece_data m' q = piece_data m q) -> all_data m' qs = all_data m qs.
  Proof.
    intros H. unfold all_data. induction qs as [|q qs IH]; [reflexivity|]. cbn [flat_map]. rewrite IH by (intros; apply H; now right).
    now rewrite H by now left.
  Qed.
  Lemma pieces_holds Y qs : forall (m : mem t) us zs,
    (forall q, In q qs -> piece_ok t q /\ clear_of (p_X q) (p_inc q) (p_N q) Y (dbnum fold)) ->
    acc_at fold us zs m Y -> all_finite (all_data m qs) = true ->
    Z.of_nat (length (all_data m qs ++ zs)) <= capacity t ->
    let m' := sum_pieces fold Y qs m in
    (exists l, acc_at fold us l m' Y /\ Permutation l (all_data m qs ++ zs)) /\ unchanged_outside Y (dbnum fold) m m'.
  Proof.
    induction qs as [|q qs IH]; intros m us zs HQ HA FX HC.
    { split; [exists zs; auto|]. intros a _. reflexivity. }
    destruct (HQ q (or_introl eq_refl)) as [[HT HN] CX].
    cbn [all_data flat_map] in FX, HC. fold (all_data m qs) in FX, HC.
    rewrite all_finite_app in FX. apply andb_true_iff in FX. destruct FX as [FX1 FX2]. rewrite !app_length in HC.
    destruct (reduce_fin fold Hf Sum (p_tu q) (p_N q) (p_X q) (p_inc q) (p_X q) (p_inc q) Y m us zs HT HN HA CX CX) as [R1 R2].
    { rewrite terms_sum, app_length. unfold piece_data in HC. lia. }
    { exact FX1. }
    rewrite terms_sum in R1. fold (piece_data m q) in R1. cbn [sum_pieces fold_left].
    change (reduce Sum (p_tu q) fold (p_N q) (p_X q) (p_inc q) (p_X q) (p_inc q) Y 1 (Y + fold) 1 m) with
      (dbdsum (p_tu q) fold (p_N q) (p_X q) (p_inc q) Y m) in R1, R2.
    set (m1 := dbdsum (p_tu q) fold (p_N q) (p_X q) (p_inc q) Y m) in *. clearbody m1.
    assert (ED : all_data m1 qs = all_data m qs).
    { apply all_data_same. intros q' I. eapply piece_clear; [|exact R2]. apply HQ. now right. }
    destruct (IH m1 us (piece_data m q ++ zs)) as [(l & I1 & I2) I3].
    { intros; apply HQ; now right. }
    { exact R1. }
    { rewrite ED. exact FX2. }
    { rewrite ED, !app_length. lia. }
    rewrite ED in I2. split.
    - exists l. split; [exact I1|]. rewrite I2. cbn [all_data flat_map]. fold (all_data m qs).
      rewrite !app_assoc. apply Permutation_app_tail, Permutation_app_comm.
    - intros a Ha. etransitivity; [apply I3; auto|apply R2; auto].
  Qed.
  Lemma veval_holds u : forall next (m : mem t) lim,
    (forall q, In q (vpieces u) -> piece_ok t q /\ clear_of (p_X q) (p_inc q) (p_N q) next (lim - next)) ->
    all_finite (all_data m (vpieces u)) = true -> Z.of_nat (length (all_data m (vpieces u))) <= capacity t ->
    let '(a, n, m') := veval fold u next m in
    n <= lim ->
    next <= a /\ a + dbnum fold <= n /\
    (exists l, acc_at fold [] l m' a /\ Permutation l (all_data m (vpieces u))) /\
    unchanged_outside next (n - next) m m'.
  Proof.
    assert (NXT : forall u next (m : mem t), let '(a, n, _) := veval fold u next m in next <= a /\ a + dbnum fold <= n).
    { clear -Hf. induction u as [|q u IH|l IHl r IHr|l IHl r IHr]; intros next m; cbn [veval].
      - lia.
      - specialize (IH next m). destruct (veval fold u next m) as [[a n] m1]. exact IH.
      - specialize (IHl next m). destruct (veval fold l next m) as [[a n] m1]. specialize (IHr n m1).
        destruct (veval fold r n m1) as [[b n'] m2]. unfold dbnum in *. lia.
      - specialize (IHl next m). destruct (veval fold l next m) as [[a n] m1]. specialize (IHr n m1).
        destruct (veval fold r n m1) as [[b n'] m2]. unfold dbnum in *. lia. }
    assert (SUB : forall q next lim a n, clear_of (p_X q) (p_inc q) (p_N q) next (lim - next) -> next <= a -> a + n <= lim ->
      clear_of (p_X q) (p_inc q) (p_N q) a n).
    { intros q next lim a n H H1 H2 i Hi. specialize (H i Hi). lia. }
    assert (Hf2 : 2 <= fold) by lia. pose proof (Hfm fold Hf) as Hm.
    induction u as [|q u IH|l IHl r IHr|l IHl r IHr]; intros next m lim HQ FX HC; cbn [veval vpieces] in *.
    - destruct (setzero_holds fold Hf next m) as [H F]. intros _. split; [lia|]. split; [lia|]. split.
      + exists []. split; [exact H|reflexivity].
      + intros x Hx. apply F. unfold block. lia.
    - cbn [all_data flat_map] in FX, HC. fold (all_data m (vpieces u)) in FX, HC.
      rewrite all_finite_app in FX. apply andb_true_iff in FX. destruct FX as [FX1 FX2]. rewrite app_length in HC.
      specialize (IH next m lim (fun q' I => HQ q' (or_intror I)) FX2 ltac:(lia)).
      destruct (veval fold u next m) as [[a n] m1]. intros Hlim. destruct (IH Hlim) as (A1 & A2 & (l & A3 & A4) & A5).
      destruct (HQ q (or_introl eq_refl)) as [[HT HN] CX].
      assert (CA : clear_of (p_X q) (p_inc q) (p_N q) a (dbnum fold)) by (eapply SUB; eauto; lia).
      assert (ED : piece_data m1 q = piece_data m q) by (eapply piece_clear; [|exact A5]; eapply SUB; eauto; lia).
      destruct (reduce_fin fold Hf Sum (p_tu q) (p_N q) (p_X q) (p_inc q) (p_X q) (p_inc q) a m1 [] l HT HN A3 CA CA) as [R1 R2].
      { rewrite terms_sum, app_length. fold (piece_data m1 q). rewrite ED, (Permutation_length A4). lia. }
      { rewrite terms_sum. fold (piece_data m1 q). rewrite ED. exact FX1. }
      rewrite terms_sum in R1. fold (piece_data m1 q) in R1. rewrite ED in R1.
      split; [exact A1|]. split; [exact A2|]. split.
      + exists (piece_data m q ++ l). split; [exact R1|]. cbn [all_data flat_map]. fold (all_data m (vpieces u)).
        now apply Permutation_app_head.
      + intros x Hx. etransitivity; [apply R2; lia|apply A5; exact Hx].
    - unfold all_data in FX, HC |- *. rewrite flat_map_app in FX, HC |- *. fold (all_data m (vpieces l)) in FX, HC |- *. fold (all_data m (vpieces r)) in FX, HC |- *.
      rewrite all_finite_app in FX. apply andb_true_iff in FX. destruct FX as [FX1 FX2]. rewrite app_length in HC.
      pose proof (NXT l next m) as NL.
      specialize (IHl next m lim (fun q' I => HQ q' (in_or_app _ _ _ (or_introl I))) FX1 ltac:(lia)).
      destruct (veval fold l next m) as [[a n] m1].
      pose proof (NXT r n m1) as NR.
      specialize (IHr n m1 lim). destruct (veval fold r n m1) as [[b n'] m2]. intros Hlim.
      assert (LN : n <= lim) by (unfold dbnum in *; lia).
      destruct (IHl LN) as (A1 & A2 & (la & A3 & A4) & A5).
      assert (ED : all_data m1 (vpieces r) = all_data m (vpieces r)).
      { apply all_data_same. intros q I. eapply piece_clear; [|exact A5]. eapply SUB; [apply HQ; apply in_or_app; now right|lia|unfold dbnum in *; lia]. }
      rewrite ED in IHr. destruct IHr as (B1 & B2 & (lb & B3 & B4) & B5); auto; try lia.
      { intros q I. destruct (HQ q (in_or_app _ _ _ (or_intror I))) as [K1 K2]. split; auto. eapply SUB; eauto; unfold dbnum in *; lia. }
      assert (A3' : acc_at fold [] la m2 a).
      { eapply holds_words_ext; [exact Hf2| |exact A3]. intros i Hi. unfold dbnum in *. split; apply B5; lia. }
      assert (LA : Z.of_nat (length la) <= capacity t) by (rewrite (Permutation_length A4); lia).
      assert (LB : Z.of_nat (length lb) <= capacity t) by (rewrite (Permutation_length B4); lia).
      destruct (rep_merge (layout_contig fold a ltac:(lia)) Hf2 Hm (pX := b) (ipX := 1) (cX := b + fold) (icX := 1)
        m2 [] lb [] la) as (_ & FR & HH).
      { apply disjoint_contig; lia. }
      { apply holds_rep; auto. }
      { apply holds_rep; auto. }
      { intros _. rewrite app_length, (Permutation_length A4), (Permutation_length B4). lia. }
      split; [unfold dbnum in *; lia|split; [unfold dbnum in *; lia|split]].
      + exists (lb ++ la). split; [apply HH; auto|]. rewrite Permutation_app_comm. now apply Permutation_app.
      + intros x Hx. etransitivity; [eapply frame_contig; [|exact FR|]; unfold block, dbnum in *; lia|].
        unfold dbnum in *. rewrite B5 by lia. apply A5. lia.
    - unfold all_data in FX, HC |- *. rewrite flat_map_app in FX, HC |- *. fold (all_data m (vpieces l)) in FX, HC |- *. fold (all_data m (vpieces r)) in FX, HC |- *.
      rewrite all_finite_app in FX. apply andb_true_iff in FX. destruct FX as [FX1 FX2]. rewrite app_length in HC.
      pose proof (NXT l next m) as NL.
      specialize (IHl next m lim (fun q' I => HQ q' (in_or_app _ _ _ (or_introl I))) FX1 ltac:(lia)).
      destruct (veval fold l next m) as [[a n] m1].
      pose proof (NXT r n m1) as NR.
      specialize (IHr n m1 lim). destruct (veval fold r n m1) as [[b n'] m2]. intros Hlim.
      assert (LN : n <= lim) by (unfold dbnum in *; lia).
      destruct (IHl LN) as (A1 & A2 & (la & A3 & A4) & A5).
      assert (ED : all_data m1 (vpieces r) = all_data m (vpieces r)).
      { apply all_data_same. intros q I. eapply piece_clear; [|exact A5]. eapply SUB; [apply HQ; apply in_or_app; now right|lia|unfold dbnum in *; lia]. }
      rewrite ED in IHr. destruct IHr as (B1 & B2 & (lb & B3 & B4) & B5); auto; try lia.
      { intros q I. destruct (HQ q (in_or_app _ _ _ (or_intror I))) as [K1 K2]. split; auto. eapply SUB; eauto; unfold dbnum in *; lia. }
      assert (A3' : acc_at fold [] la m2 a).
      { eapply holds_words_ext; [exact Hf2| |exact A3]. intros i Hi. unfold dbnum in *. split; apply B5; lia. }
      assert (LA : Z.of_nat (length la) <= capacity t) by (rewrite (Permutation_length A4); lia).
      assert (LB : Z.of_nat (length lb) <= capacity t) by (rewrite (Permutation_length B4); lia).
      destruct (rep_merge (layout_contig fold b ltac:(lia)) Hf2 Hm (pX := a) (ipX := 1) (cX := a + fold) (icX := 1)
        m2 [] la [] lb) as (_ & FR & HH).
      { apply disjoint_contig; lia. }
      { apply holds_rep; auto. }
      { apply holds_rep; auto. }
      { intros _. rewrite app_length, (Permutation_length A4), (Permutation_length B4). lia. }
      split; [unfold dbnum in *; lia|split; [unfold dbnum in *; lia|split]].
      + exists (la ++ lb). split; [apply HH; auto|]. now apply Permutation_app.
      + intros x Hx. etransitivity; [eapply frame_contig; [|exact FR|]; unfold block, dbnum in *; lia|].
        unfold dbnum in *. rewrite B5 by lia. apply A5. lia.
  Qed.
End PIECES.
(** One call per piece, the pieces in any order, each with its own tuning and stride,
    equals one call over data that is the union of the pieces. *)
Theorem C22_pieces t tu fold N X incX Y us zs (qs : list piece) (m : mem t) :
  2 <= fold <= MAXFOLD t -> tuned t tu -> 0 <= N -> clear_of X incX N Y (dbnum fold) ->
  (forall q, In q qs -> piece_ok t q /\ clear_of (p_X q) (p_inc q) (p_N q) Y (dbnum fold)) ->
  acc_at fold us zs m Y -> all_finite (read m X incX N) = true -> all_finite zs = true ->
  N + Z.of_nat (length zs) <= CAPACITY t ->
  Permutation (read m X incX N) (all_data m qs) ->
  same_words fold (sum_pieces fold Y qs m) Y (dbdsum tu fold N X incX Y m) Y.
Proof.
  intros Hf HT HN CX HQ HA FX FZ HC HP. rewrite CAPACITY_eq in HC.
  assert (LR : Z.of_nat (length (read m X incX N ++ zs)) <= capacity t) by (rewrite app_length; pose proof (read_length m X incX N HN); lia).
  destruct (reduce_fin fold Hf Sum tu N X incX X incX Y m us zs HT HN HA CX CX LR FX) as [R1 _].
  destruct (pieces_holds fold Hf Y qs m us zs HQ HA) as [(l & S1 & S2) _].
  { now rewrite <- (all_finite_perm _ _ HP). }
  { rewrite app_length, <- (Permutation_length HP), <- app_length. exact LR. }
  assert (PL : Permutation l (read m X incX N ++ zs)) by (rewrite S2; apply Permutation_app_tail; symmetry; exact HP).
  eapply same_acc_words; [exact Hf| | |exact PL|exact S1|exact R1]; [|reflexivity].
  rewrite (all_finite_perm _ _ PL), all_finite_app, FX. exact FZ.
Qed.
Print Assumptions C22_pieces.
(** The simple case: the vector cut in two at any point. *)
Theorem C22_split t tu tu1 tu2 fold N1 N2 X incX Y us zs (m : mem t) :
  2 <= fold <= MAXFOLD t -> tuned t tu -> tuned t tu1 -> tuned t tu2 -> 0 <= N1 -> 0 <= N2 ->
  clear_of X incX (N1 + N2) Y (dbnum fold) ->
  acc_at fold us zs m Y -> all_finite (read m X incX (N1 + N2)) = true -> all_finite zs = true ->
  N1 + N2 + Z.of_nat (length zs) <= CAPACITY t ->
  same_words fold (dbdsum tu2 fold N2 (X + N1 * incX) incX Y (dbdsum tu1 fold N1 X incX Y m)) Y
                  (dbdsum tu fold (N1 + N2) X incX Y m) Y /\
  same_words fold (dbdsum tu1 fold N1 X incX Y (dbdsum tu2 fold N2 (X + N1 * incX) incX Y m)) Y
                  (dbdsum tu fold (N1 + N2) X incX Y m) Y.
Proof.
  intros Hf HT HT1 HT2 HN1 HN2 CX HA FX FZ HC.
  assert (HQ : forall q, In q [Piece tu1 X incX N1; Piece tu2 (X + N1 * incX) incX N2] ->
    piece_ok t q /\ clear_of (p_X q) (p_inc q) (p_N q) Y (dbnum fold)).
  { intros q [<-|[<-|[]]]; (split; [split; auto|]); intros i Hi; cbn [p_X p_inc p_N] in *.
    - apply CX. lia.
    - replace (X + N1 * incX + i * incX) with (X + (N1 + i) * incX) by ring. apply CX. lia. }
  assert (ED : all_data m [Piece tu1 X incX N1; Piece tu2 (X + N1 * incX) incX N2] = read m X incX (N1 + N2)).
  { unfold all_data, piece_data. cbn [flat_map p_X p_inc p_N]. rewrite app_nil_r.
    symmetry. exact (terms_split Sum X incX X incX m N1 N2 HN1 HN2). }
  split.
  - refine (C22_pieces t tu fold (N1 + N2) X incX Y us zs [Piece tu1 X incX N1; Piece tu2 (X + N1 * incX) incX N2] m Hf HT _ CX HQ HA FX FZ HC _); [lia|].
    now rewrite ED.
  - refine (C22_pieces t tu fold (N1 + N2) X incX Y us zs [Piece tu2 (X + N1 * incX) incX N2; Piece tu1 X incX N1] m Hf HT _ CX _ HA FX FZ HC _); [lia| |].
    + intros q [<-|[<-|[]]]; apply HQ; [right|]; left; reflexivity.
    + rewrite <- ED. unfold all_data. cbn [flat_map]. rewrite !app_nil_r. apply Permutation_app_comm.
Qed.
Print Assumptions C22_split.
(** Separate accumulators (one per process, say), merged by any tree of dbdbadd calls. *)
Theorem C22_tree t tu fold N X incX Y (u : vtree) next (m m' : mem t) :
  2 <= fold <= MAXFOLD t -> tuned t tu -> 0 <= N <= CAPACITY t -> clear_of X incX N Y (dbnum fold) ->
  all_finite (read m X incX N) = true ->
  Permutation (read m X incX N) (all_data m' (vpieces u)) ->
  let '(a, n, r) := veval fold u next m' in
  (forall q, In q (vpieces u) -> piece_ok t q /\ clear_of (p_X q) (p_inc q) (p_N q) next (n - next)) ->
  same_words fold r a (dbdsum tu fold N X incX Y (dbsetzero fold Y m)) Y.
Proof.
  intros Hf HT HN CX FX HP. rewrite CAPACITY_eq in HN.
  destruct (fresh_fin fold Hf Sum tu N X incX X incX Y m HT HN CX CX FX) as [R1 _]. rewrite terms_sum in R1.
  pose proof (veval_holds fold Hf u next m') as V. destruct (veval fold u next m') as [[a n] r]. intros HQ.
  destruct (V n HQ) as (_ & _ & (l & V1 & V2) & _).
  { now rewrite <- (all_finite_perm _ _ HP). }
  { rewrite <- (Permutation_length HP). pose proof (read_length m X incX N ltac:(lia)). lia. }
  { lia. }
  assert (PL : Permutation l (read m X incX N)) by (rewrite V2; symmetry; exact HP).
  eapply same_acc_words; [exact Hf| | |exact PL|exact V1|exact R1]; [|reflexivity].
  now rewrite (all_finite_perm _ _ PL).
Qed.
Print Assumptions C22_tree.
Definition piece1 : piece := Piece sample_tuning 0 2 2.
Definition piece2 : piece := Piece (file_tuning Dbl false 0 0 32 1 1 1) 8 (-2) 3.
Example C22_case : forall m : mem Dbl, m = spread some_data 2 ->
  let '(a, n, r) := veval 3 (VMergeR (VSum piece1 VEmpty) (VSum piece2 VEmpty)) 100 m in
  Permutation (read m 0 2 5) (all_data m [piece1; piece2]) /\
  (forall q, In q [piece1; piece2] -> piece_ok Dbl q /\ clear_of (p_X q) (p_inc q) (p_N q) 100 (n - 100)) /\
  feq (ddbconv 3 a r) (mkf 7 850) = true.
Proof.
  intros m ->. 
  assert (EV : exists r, veval 3 (VMergeR (VSum piece1 VEmpty) (VSum piece2 VEmpty)) 100 (spread some_data 2) = (106, 112, r) /\
    feq (ddbconv 3 106 r) (mkf 7 850) = true).
  { eexists. split; [reflexivity|]. vm_compute. reflexivity. }
  destruct EV as (r & -> & ER). split; [|split; [|exact ER]].
  - change (Permutation ([spread some_data 2 0; spread some_data 2 2] ++ [spread some_data 2 4; spread some_data 2 6; spread some_data 2 8])
      ([spread some_data 2 0; spread some_data 2 2] ++ rev [spread some_data 2 4; spread some_data 2 6; spread some_data 2 8])).
    apply Permutation_app_head, Permutation_rev.
  - intros q [<-|[<-|[]]]; (split; [split; [|vm_compute; discriminate]|intros i Hi; unfold piece1, piece2 in *; cbn [p_X p_inc p_N] in *; lia]).
    + apply C18_case.
    + apply C18_argument_files; [now left|now left|discriminate].
Qed.

(** ** C28: infinities and NaN *)
Section SPECIAL.
  Context {t : ty} (fold : Z) (Hf : 2 <= fold <= MAXFOLD t).
  Lemma fresh_special (g s : bool) k tu N X iX Y iY A (m : mem t) : tuned t tu -> 0 <= N <= capacity t ->
    clear_of X iX N A (dbnum fold) -> clear_of Y iY N A (dbnum fold) ->
    let ts := terms k X iX Y iY m N in all_finite ts = false ->
    (g = true -> forall x, In x ts -> sgn_ok s x) ->
    let m' := reduce k tu fold N X iX Y iY A 1 (A + fold) 1 (dbsetzero fold A m) in
    m' A = special ts \/ (g = false /\ m' A = B754_nan).
  Proof.
    intros HT HN CX CY ts FT HG m'. destruct (setzero_holds fold Hf A m) as [H0 U0].
    assert (E : terms k X iX Y iY (dbsetzero fold A m) N = ts).
    { apply terms_ext. intros i Hi. split; apply U0; [apply CX|apply CY]; auto. }
    destruct (reduce_out fold Hf g s k tu N X iX Y iY A (dbsetzero fold A m) [] [] HT ltac:(lia) H0 CX CY) as [R1 R2].
    { rewrite app_nil_r, terms_length. lia. }
    { rewrite E. intros Eg. right. right. auto. }
    rewrite E, app_nil_r, FT in R1. exact R1.
  Qed.
  Lemma conv_special A (m : mem t) : is_finite (m A) = false -> ddbconv fold A m = m A.
  Proof. intros H. apply ddmconv_special. rewrite ISNANINF_fin, H. reflexivity. Qed.
End SPECIAL.
Lemma nonfinite_in {t} (xs : list (F t)) x : In x xs -> is_finite x = false -> all_finite xs = false.
Proof.
  intros I Fx. destruct (all_finite xs) eqn:E; auto. unfold all_finite in E. rewrite forallb_forall in E.
  rewrite E in Fx by auto. discriminate.
Qed.
(** What holds for every tuning and order: NaN or infinities of both signs give NaN; if all
    the infinities have sign s, the sum is that infinity or NaN.  (The full property,
    that it is always that infinity, is false: C28_order_refuted.) *)
Theorem C28_nan t tu fold N X incX tmp (m : mem t) :
  2 <= fold <= MAXFOLD t -> tuned t tu -> 0 <= N <= CAPACITY t -> clear_of X incX N tmp (dbnum fold) ->
  In B754_nan (read m X incX N) \/ (In (B754_infinity true) (read m X incX N) /\ In (B754_infinity false) (read m X incX N)) ->
  rdsum tu fold N X incX tmp m = B754_nan.
Proof.
  intros Hf HT HN CX HI. rewrite CAPACITY_eq in HN.
  assert (NF : all_finite (read m X incX N) = false).
  { destruct HI as [HI|[HI _]]; eapply nonfinite_in; eauto. }
  assert (SP : special (read m X incX N) = B754_nan).
  { unfold special. destruct HI as [HI|[HI1 HI2]].
    - replace (existsb f_isnan (read m X incX N)) with true; [reflexivity|]. symmetry. apply existsb_exists. eauto.
    - replace (existsb is_pinf (read m X incX N)) with true by (symmetry; apply existsb_exists; eauto).
      replace (existsb is_ninf (read m X incX N)) with true by (symmetry; apply existsb_exists; eauto).
      now rewrite orb_true_r. }
  assert (E : dbdsum tu fold N X incX tmp (dbsetzero fold tmp m) tmp = B754_nan).
  { destruct (fresh_special fold Hf false false Sum tu N X incX X incX tmp m HT HN CX CX NF ltac:(discriminate)) as [E|[_ E]];
      [rewrite terms_sum, SP in E|]; exact E. }
  unfold rdsum. rewrite (conv_special fold _ _); rewrite E; reflexivity.
Qed.
Print Assumptions C28_nan.
Theorem C28_infinity_partial t tu fold N X incX tmp s (m : mem t) :
  2 <= fold <= MAXFOLD t -> tuned t tu -> 0 <= N <= CAPACITY t -> clear_of X incX N tmp (dbnum fold) ->
  In (B754_infinity s) (read m X incX N) ->
  (forall x, In x (read m X incX N) -> is_finite x = false -> x = B754_infinity s) ->
  rdsum tu fold N X incX tmp m = B754_infinity s \/ rdsum tu fold N X incX tmp m = B754_nan.
Proof.
  intros Hf HT HN CX HI HS. rewrite CAPACITY_eq in HN.
  assert (NF : all_finite (read m X incX N) = false) by (eapply nonfinite_in; eauto).
  assert (SP : special (read m X incX N) = B754_infinity s).
  { unfold special. replace (existsb f_isnan (read m X incX N)) with false.
    2:{ symmetry. destruct (existsb f_isnan _) eqn:E; auto. apply existsb_exists in E. destruct E as (x & Ix & Nx).
        destruct x; try discriminate. specialize (HS _ Ix eq_refl). discriminate. }
    replace (existsb is_ninf (read m X incX N)) with s.
    2:{ symmetry. destruct s; [apply existsb_exists; eauto|]. destruct (existsb is_ninf _) eqn:E; auto.
        apply existsb_exists in E. destruct E as (x & Ix & Nx). destruct x as [|[]| |]; try discriminate.
        specialize (HS _ Ix eq_refl). discriminate. }
    replace (existsb is_pinf (read m X incX N)) with (negb s); [destruct s; reflexivity|].
    symmetry. destruct s; [|apply existsb_exists; eauto]. destruct (existsb is_pinf _) eqn:E; auto.
    apply existsb_exists in E. destruct E as (x & Ix & Nx). destruct x as [|[]| |]; try discriminate.
    specialize (HS _ Ix eq_refl). discriminate. }
  destruct (fresh_special fold Hf false false Sum tu N X incX X incX tmp m HT HN CX CX NF ltac:(discriminate)) as [E|[_ E]].
  - rewrite terms_sum, SP in E. left. unfold rdsum.
    change (dbdsum tu fold N X incX tmp (dbsetzero fold tmp m) tmp = B754_infinity s) in E.
    rewrite (conv_special fold _ _); rewrite E; reflexivity.
  - right. change (dbdsum tu fold N X incX tmp (dbsetzero fold tmp m) tmp = B754_nan) in E. unfold rdsum.
    rewrite (conv_special fold _ _); rewrite E; reflexivity.
Qed.
Print Assumptions C28_infinity_partial.
(** It is exactly that infinity, for every order and tuning, when no finite element has
    the other sign. *)
Theorem C28_same_sign t tu fold N X incX tmp s (m : mem t) :
  2 <= fold <= MAXFOLD t -> tuned t tu -> 0 <= N <= CAPACITY t -> clear_of X incX N tmp (dbnum fold) ->
  In (B754_infinity s) (read m X incX N) ->
  (forall x, In x (read m X incX N) -> f_isnan x = false /\ (Bsign x = s \/ feq x fzero = true)) ->
  rdsum tu fold N X incX tmp m = B754_infinity s.
Proof.
  intros Hf HT HN CX HI HS. rewrite CAPACITY_eq in HN.
  assert (NF : all_finite (read m X incX N) = false) by (eapply nonfinite_in; eauto).
  assert (SG : forall x, In x (read m X incX N) -> sgn_ok s x).
  { intros x Ix. destruct (HS x Ix) as [N0 S0]. destruct x as [sx|sx| |sx mm e Hx]; try discriminate; cbn; auto.
    - destruct S0 as [S0|S0]; [exact S0|]. destruct sx; discriminate.
    - destruct S0 as [S0|S0]; [exact S0|]. destruct sx; discriminate. }
  destruct (fresh_special fold Hf true s Sum tu N X incX X incX tmp m HT HN CX CX NF (fun _ => SG)) as [E|[? _]]; [|discriminate].
  rewrite terms_sum, (special_sgn s) in E by auto. unfold rdsum.
  change (dbdsum tu fold N X incX tmp (dbsetzero fold tmp m) tmp = B754_infinity s) in E.
  rewrite (conv_special fold _ _); rewrite E; reflexivity.
Qed.
Print Assumptions C28_same_sign.
(** The absolute sum has no such exception: infinity, or NaN if there is a NaN. *)
Theorem C28_asum t tu fold N X incX tmp (m : mem t) :
  2 <= fold <= MAXFOLD t -> tuned t tu -> 0 <= N <= CAPACITY t -> clear_of X incX N tmp (dbnum fold) ->
  all_finite (read m X incX N) = false ->
  rdasum tu fold N X incX tmp m = if existsb f_isnan (read m X incX N) then B754_nan else B754_infinity false.
Proof.
  intros Hf HT HN CX NF. rewrite CAPACITY_eq in HN.
  assert (MA : terms ASum X incX X incX m N = map fabs (read m X incX N)) by apply terms_asum.
  assert (NF' : all_finite (terms ASum X incX X incX m N) = false).
  { rewrite MA. destruct (all_finite (map fabs _)) eqn:E; auto. rewrite <- NF. symmetry. unfold all_finite in *.
    rewrite forallb_forall in *. intros x Ix. rewrite <- fin_fabs. apply E. apply in_map_iff. eauto. }
  assert (NA : existsb f_isnan (terms ASum X incX X incX m N) = existsb f_isnan (read m X incX N)).
  { rewrite MA. generalize (read m X incX N). intros l. induction l as [|x l IH]; [reflexivity|]. cbn [map existsb].
    now rewrite IH, nan_fabs. }
  rewrite <- NA. unfold rdasum.
  assert (E : dbdasum tu fold N X incX tmp (dbsetzero fold tmp m) tmp =
    if existsb f_isnan (terms ASum X incX X incX m N) then B754_nan else B754_infinity false).
  { destruct (existsb f_isnan (terms ASum X incX X incX m N)) eqn:EN.
    - destruct (fresh_special fold Hf false false ASum tu N X incX X incX tmp m HT HN CX CX NF' ltac:(discriminate)) as [E|[_ E]]; [|exact E].
      change (dbdasum tu fold N X incX tmp (dbsetzero fold tmp m) tmp = special (terms ASum X incX X incX m N)) in E.
      rewrite E. unfold special. now rewrite EN.
    - assert (SG : forall x, In x (terms ASum X incX X incX m N) -> sgn_ok false x).
      { intros x Ix. assert (NX : f_isnan x = false).
        { destruct (f_isnan x) eqn:E; auto. rewrite <- EN. symmetry. apply existsb_exists. eauto. }
        rewrite MA in Ix. apply in_map_iff in Ix. destruct Ix as (y & <- & _). destruct y; try discriminate; reflexivity. }
      destruct (fresh_special fold Hf true false ASum tu N X incX X incX tmp m HT HN CX CX NF' (fun _ => SG)) as [E|[? _]]; [|discriminate].
      change (dbdasum tu fold N X incX tmp (dbsetzero fold tmp m) tmp = special (terms ASum X incX X incX m N)) in E.
      rewrite E. now apply special_sgn. }
  rewrite (conv_special fold _ _); rewrite E; [reflexivity|]. destruct (existsb f_isnan _); reflexivity.
Qed.
Print Assumptions C28_asum.
(** The property as stated is false of the code: in a block with an infinity the finite
    elements are added to the leading word as plain floats and may overflow first. *)
Definition maxd : F Dbl := mkf (2 ^ 53 - 1) 971.
Definition inf_last : mem Dbl := spread [fneg maxd; fneg maxd; B754_infinity false] 1.
Definition inf_first : mem Dbl := spread [B754_infinity false; fneg maxd; fneg maxd] 1.
Theorem C28_order_refuted : exists tu fold N X tmp (m m' : mem Dbl),
  2 <= fold <= MAXFOLD Dbl /\ tuned Dbl tu /\ 0 <= N <= CAPACITY Dbl /\ clear_of X 1 N tmp (dbnum fold) /\
  Permutation (read m X 1 N) (read m' X 1 N) /\
  rdsum tu fold N X 1 tmp m = B754_nan /\ rdsum tu fold N X 1 tmp m' = B754_infinity false.
Proof.
  exists sample_tuning, 3, 3, 0, 100, inf_last, inf_first.
  split; [vm_compute; split; discriminate|]. split; [apply C18_case|]. split; [vm_compute; split; discriminate|].
  split; [intros i Hi; unfold dbnum; lia|]. split.
  - change (Permutation [fneg maxd; fneg maxd; B754_infinity false] [B754_infinity false; fneg maxd; fneg maxd]).
    symmetry. apply (Permutation_cons_append [fneg maxd; fneg maxd]).
  - split.
    + assert (H : f_isnan (rdsum sample_tuning 3 3 0 1 100 inf_last) = true) by (vm_compute; reflexivity).
      destruct (rdsum sample_tuning 3 3 0 1 100 inf_last); try discriminate. reflexivity.
    + assert (H : is_pinf (rdsum sample_tuning 3 3 0 1 100 inf_first) = true) by (vm_compute; reflexivity).
      destruct (rdsum sample_tuning 3 3 0 1 100 inf_first) as [|[]| |]; try discriminate. reflexivity.
Qed.
Print Assumptions C28_order_refuted.
(** The scalar adds do not have this problem (C11); so vector and scalar sums differ. *)
Example C28_scalar_differs :
  is_pinf (ddbconv 3 100 (sum_list 3 100 [fneg maxd; fneg maxd; B754_infinity false] inf_last)) = true.
Proof. vm_compute. reflexivity. Qed.
Example C28_case : forall m : mem Dbl, m = spread [mkf (-3) 5; B754_infinity true; fzero; mkf (-1) 1000] 3 ->
  In (B754_infinity true) (read m 0 3 4) /\
  forallb (fun x : F Dbl => negb (f_isnan x) && (Bsign x || feq x fzero)) (read m 0 3 4) = true.
Proof. intros m ->. split; [right; left; reflexivity|vm_compute; reflexivity]. Qed.

(** ** C39 *)
Lemma is_max_largest {t} (M : F t) xs : is_max M xs -> (forall x, In x xs -> f_isnan x = false) -> largest M xs.
Proof.
  intros (N & S & U & E) NN. split; auto. intros x Ix. rewrite flt_mag; auto.
  - rewrite mag_fabs. specialize (U x Ix). apply Z.ltb_ge. exact U.
  - rewrite nan_fabs. auto.
  - apply sgn_fabs. auto.
Qed.
(** damax: no element is larger, and it is 0 or attained; for every unrolling and width. *)
Theorem C39_amax t v N X incX (m : mem t) : legal_avec v -> 0 <= N ->
  (forall x, In x (read m X incX N) -> f_isnan x = false) ->
  largest (damax v N X incX m) (read m X incX N).
Proof.
  intros HL HN NN. apply is_max_largest; auto. unfold damax.
  apply (scan_max v N (val Sum X incX X incX m)); auto. intros i Hi. apply NN. apply in_map_iff.
  exists i. split; auto. apply zseq_In. lia.
Qed.
Print Assumptions C39_amax.
Theorem C39_amaxm t v N X incX Y incY (m : mem t) : legal_avec v -> 0 <= N ->
  (forall x, In x (products m X incX Y incY N) -> f_isnan x = false) ->
  largest (damaxm v N X incX Y incY m) (products m X incX Y incY N).
Proof.
  intros HL HN NN. rewrite <- terms_dot in *. apply is_max_largest; auto. unfold damaxm.
  apply (scan_max v N (val Dot X incX Y incY m)); auto. intros i Hi. apply NN. apply in_map_iff.
  exists i. split; auto. apply zseq_In. lia.
Qed.
Print Assumptions C39_amaxm.
(** Independent of order, stride, unrolling and vector width. *)
Theorem C39_order_independent t v v' N X incX X' incX' (m m' : mem t) : legal_avec v -> legal_avec v' -> 0 <= N ->
  (forall x, In x (read m X incX N) -> f_isnan x = false) ->
  Permutation (read m X incX N) (read m' X' incX' N) ->
  damax v N X incX m = damax v' N X' incX' m'.
Proof.
  intros HL HL' HN NN HP.
  assert (M1 : is_max (damax v N X incX m) (read m X incX N)).
  { apply (scan_max v N (val Sum X incX X incX m)); auto. intros i Hi. apply NN. apply in_map_iff.
    exists i. split; auto. apply zseq_In. lia. }
  assert (M2 : is_max (damax v' N X' incX' m') (read m' X' incX' N)).
  { apply (scan_max v' N (val Sum X' incX' X' incX' m')); auto. intros i Hi. apply NN.
    apply (Permutation_in _ (Permutation_sym HP)). apply in_map_iff. exists i. split; auto. apply zseq_In. lia. }
  apply (is_max_unique _ _ (read m X incX N)); auto. eapply is_max_incl; [exact M2|].
  intros x. split; apply Permutation_in; [symmetry|]; exact HP.
Qed.
Print Assumptions C39_order_independent.
(** The scan alone can forget a NaN ... *)
Theorem C39_scan_forgets_nan_refuted : exists (m : mem Dbl), In B754_nan (read m 0 1 2) /\
  damax (read_avec 0 1) 2 0 1 m = mkf 1 0.
Proof.
  exists (spread [B754_nan; mkf 1 0] 1). split; [left; reflexivity|].
  assert (H : feq (damax (read_avec 0 1) 2 0 1 (spread [B754_nan; mkf 1 0] 1)) (mkf 1 0) = true) by (vm_compute; reflexivity).
  assert (S : Bsign (damax (read_avec 0 1) 2 0 1 (spread [B754_nan; mkf 1 0] 1)) = false) by (vm_compute; reflexivity).
  destruct (scan_pick (read_avec 0 1) 2 (val Sum 0 1 0 1 (spread [B754_nan; mkf 1 0] 1))) as [E|(i & Hi & E)];
    [apply read_avec_legal; now left|lia|reflexivity| |].
  - unfold damax in H. rewrite E in H. vm_compute in H. discriminate.
  - unfold damax in *. rewrite E in *. assert (I : i = 0 \/ i = 1) by lia. destruct I as [-> | ->].
    + vm_compute in H. discriminate.
    + apply float_ext; try reflexivity. right. reflexivity.
Qed.
(** ... but no reduction does: C28_nan for the sum, and for any starting accumulator: *)
Theorem C39_nan_not_forgotten t k tu fold N X incX Y incY A us zs (m : mem t) :
  2 <= fold <= MAXFOLD t -> tuned t tu -> 0 <= N -> acc_at fold us zs m A ->
  clear_of X incX N A (dbnum fold) -> clear_of Y incY N A (dbnum fold) ->
  N + Z.of_nat (length zs) <= CAPACITY t ->
  (exists i, 0 <= i < N /\ f_isnan (term k (m (X + i * incX)) (m (Y + i * incY))) = true) ->
  let m' := reduce k tu fold N X incX Y incY A 1 (A + fold) 1 m in
  m' A = B754_nan /\ ddbconv fold A m' = B754_nan.
Proof.
  intros Hf HT HN HA CX CY HC (i & Hi & Ni) m'. rewrite CAPACITY_eq in HC.
  assert (I : In (term k (m (X + i * incX)) (m (Y + i * incY))) (terms k X incX Y incY m N)).
  { apply in_map_iff. exists i. split; auto. apply zseq_In. lia. }
  assert (NF : all_finite (terms k X incX Y incY m N ++ zs) = false).
  { eapply nonfinite_in; [apply in_or_app; left; exact I|]. destruct (term k _ _); try discriminate. reflexivity. }
  destruct (reduce_out fold Hf false false k tu N X incX Y incY A m us zs HT HN HA CX CY) as [R _].
  { rewrite app_length, terms_length. lia. }
  { discriminate. }
  rewrite NF in R. fold m' in R.
  assert (E : m' A = B754_nan).
  { destruct R as [R|[_ R]]; auto. rewrite R. unfold special. rewrite existsb_app.
    replace (existsb f_isnan (terms k X incX Y incY m N)) with true; [reflexivity|]. symmetry. apply existsb_exists. eauto. }
  split; [exact E|]. rewrite (conv_special fold _ _); rewrite E; reflexivity.
Qed.
Print Assumptions C39_nan_not_forgotten.
Example C39_case : forall m : mem Dbl, m = spread some_data 2 ->
  legal_avec (read_avec 4 16) /\ forallb (fun x : F Dbl => negb (f_isnan x)) (read m 0 2 5) = true /\
  feq (damax (read_avec 4 16) 5 0 2 m) (mkf 3 900) = true.
Proof.
  intros m ->. split; [apply read_avec_legal; right; exists 2; vm_compute; split; congruence|]. split; vm_compute; reflexivity.
Qed.
