(** * C42: the scaled sum of squares and the Euclidean norm *)
From Coq Require Import ZArith Bool List Lia Permutation Reals Lra.
From Flocq Require Import Core BinarySingleNaN.
From Verif Require Import Fp Mem Binned Spec FpProofs BitProofs CoreArith SpecProofs WordProofs MemProofs AccProofs SumProofs ConvProofs Client History ClientProofs PropsSum PropsAcc Gen GenProofs Params ParamsProofs PropsGen Blas LaneProofs ReduceProofs DriverProofs BlasSpec PropsBlas ScaleProofs RescaleProofs Ssq SsqProofs SsqSpec.
Import ListNotations.
Open Scope Z_scope.

Lemma ssq_fold_ok t fold : 2 <= fold <= ssq_fold t -> 2 <= fold /\ hi_bin t + fold - 1 <= lim t /\ 2 <= fold <= MAXFOLD t.
Proof.
  intros H. assert (A : hi_bin t + ssq_fold t - 1 <= lim t) by (destruct t; vm_compute; discriminate).
  assert (B : ssq_fold t <= MAXFOLD t) by (destruct t; vm_compute; discriminate). lia.
Qed.
Lemma fin_nan {t} (xs : list (F t)) : all_finite xs = true -> forall x, In x xs -> f_isnan x = false.
Proof. unfold all_finite. rewrite forallb_forall. intros H x I. specialize (H x I). destruct x; try discriminate; reflexivity. Qed.
Lemma largest_is_max {t} (M : F t) xs : all_finite xs = true -> largest M xs -> is_max M xs.
Proof.
  intros HF (U & E). assert (NM : f_isnan M = false /\ Bsign M = false).
  { destruct E as [->|(x & I & ->)]; [now split|]. pose proof (fin_nan xs HF x I). split; [now rewrite nan_fabs|apply sgn_fabs; auto]. }
  destruct NM as [NM SM]. split; auto. split; auto. split; auto. intros x I. specialize (U x I).
  pose proof (fin_nan xs HF x I) as NX. rewrite flt_mag in U; auto.
  - rewrite mag_fabs in U. apply Z.ltb_ge in U. exact U.
  - now rewrite nan_fabs.
  - apply sgn_fabs; auto.
Qed.
Lemma scale_of_good {t} (sc : F t) xs : all_finite xs = true -> (scale_of sc xs <-> good_scale sc xs).
Proof.
  intros HF. unfold scale_of, good_scale. destruct xs as [|x xs]; [reflexivity|]. split; intros (M & A & B); exists M; split; auto.
  - now apply largest_is_max.
  - apply is_max_largest; auto. now apply fin_nan.
Qed.
Lemma squares_sq {t} (sc : F t) xs : all_finite xs = true -> good_scale sc xs -> squares sc xs = map (sq sc) xs.
Proof.
  intros HF G. destruct xs as [|x0 xs]; [reflexivity|]. destruct G as (M & HM & ->). unfold squares. apply map_ext_in. intros x I.
  pose proof (max_in_scale M _ x HM HF I) as IS. cbv zeta. rewrite dscale_eq. unfold sq. now rewrite div_mul_scl.
Qed.
Lemma ssq_at_out {t} fold (xs : list (F t)) sc m Y : all_finite xs = true ->
  (ssq_at fold xs sc m Y <-> ssq_out (fold := fold) (p := Y) (ip := 1) (c := Y + fold) (ic := 1) xs sc m).
Proof.
  intros HF. unfold ssq_at, ssq_out. rewrite HF, scale_of_good by auto. split; intros [G H]; split; auto.
  - now rewrite <- squares_sq.
  - unfold acc_at. now rewrite squares_sq.
Qed.

Section CALLS.
  Context {t : ty} (fold : Z) (Hf : 2 <= fold <= ssq_fold t).
  Let H2 := proj1 (ssq_fold_ok t fold Hf).
  Let Hs := proj1 (proj2 (ssq_fold_ok t fold Hf)).
  Let HM := proj2 (proj2 (ssq_fold_ok t fold Hf)).
  (** State of a scaled accumulator: of finite data, or first word special. *)
  Definition sstate (zs : list (F t)) (r : F t * mem t) (Y : Z) : Prop :=
    if all_finite zs then ssq_at fold zs (fst r) (snd r) Y
    else snd r Y = special (map fabs zs) /\ fst r = dscale (mkf 1 0).
  Lemma ssq_call tu N X iX Y zs (r : F t * mem t) : tuned t tu -> 0 <= N -> clear_of X iX N Y (dbnum fold) ->
    sstate zs r Y -> Z.of_nat (length (read (snd r) X iX N ++ zs)) <= capacity t ->
    let r' := dbdssq tu fold N X iX (fst r) Y (snd r) in
    sstate (read (snd r) X iX N ++ zs) r' Y /\ unchanged_outside Y (dbnum fold) (snd r) (snd r').
  Proof.
    intros HT HN CX ST HC r'. destruct r as [sc m]. cbn [fst snd] in *.
    pose proof (tuned_legal t tu HT) as LT.
    pose proof (ssq_loop_ok (layout_contig fold Y ltac:(lia)) H2 Hs (S (Z.to_nat N)) tu N X iX 0 (block_max tu) 0 sc m zs LT) as R.
    cbv zeta in R. rewrite Z.sub_0_r, terms_sum in R. destruct R as [R1 R2]; try lia.
    - destruct HT as [HT _]. rewrite ENDURANCE_eq in HT. exact HT.
    - pose proof (endurance_pos t). lia.
    - unfold ssq_in. unfold sstate in ST. cbn [fst snd] in ST. destruct (all_finite zs) eqn:FZ; [|apply ST].
      rewrite ssq_at_out in ST by auto. unfold ssq_out in ST. rewrite FZ in ST. destruct ST as [G H]. split; auto.
      apply holds_rep; auto. rewrite map_length. rewrite app_length in HC. lia.
    - apply clear_outside; [lia|exact CX].
    - change (ssq_loop (S (Z.to_nat N)) tu fold N X iX Y 1 (Y + fold) 1 0 (block_max tu) 0 sc m) with r' in R1, R2.
      split; [|exact (frame_contig fold Y _ _ ltac:(lia) R2)].
      unfold sstate. destruct (all_finite (read m X iX N ++ zs)) eqn:FA.
      + apply ssq_at_out; auto.
      + unfold ssq_out in R1. rewrite FA in R1. exact R1.
  Qed.
  Lemma ssq_start_state Y (m : mem t) : sstate [] (ssq_start fold Y m) Y /\ unchanged_outside Y (dbnum fold) m (snd (ssq_start fold Y m)).
  Proof.
    destruct (setzero_holds fold HM Y m) as [H0 U0]. split; [|exact U0]. unfold sstate. cbn. split; [reflexivity|exact H0].
  Qed.
  Lemma sstate_perm zs zs' r Y : Permutation zs zs' -> sstate zs r Y -> sstate zs' r Y.
  Proof.
    intros P. unfold sstate. rewrite <- (all_finite_perm _ _ P). destruct (all_finite zs) eqn:FZ.
    - intros H. pose proof FZ as FZ'. rewrite (all_finite_perm _ _ P) in FZ'. apply ssq_at_out; auto. apply ssq_at_out in H; auto.
      eapply ssq_out_perm; eauto.
    - now rewrite <- (special_perm _ _ (Permutation_map fabs P)).
  Qed.
  Lemma sstate_same zs r Y r' Y' : all_finite zs = true -> sstate zs r Y -> sstate zs r' Y' -> same_scaled fold r Y r' Y'.
  Proof.
    unfold sstate. intros F. rewrite F. intros [G H] [G' H'].
    assert (E : fst r = fst r') by (apply scale_of_good in G, G'; auto; eapply good_scale_unique; eauto).
    split; auto. rewrite <- E in H'. eapply same_acc_words; [exact HM| | | |exact H|exact H']; [|reflexivity|reflexivity].
    apply scale_of_good in G; auto. rewrite squares_sq by auto. now apply good_scale_fin.
  Qed.
  Lemma ssq_fresh tu N X iX Y (m : mem t) : tuned t tu -> 0 <= N <= capacity t -> clear_of X iX N Y (dbnum fold) ->
    let r := dbdssq tu fold N X iX fzero Y (dbsetzero fold Y m) in
    sstate (read m X iX N) r Y /\ unchanged_outside Y (dbnum fold) m (snd r).
  Proof.
    intros HT HN CX. destruct (ssq_start_state Y m) as [S0 U0].
    pose proof (read_clear m _ X iX N Y _ CX U0) as ER. pose proof (read_length m X iX N ltac:(lia)) as LR.
    destruct (ssq_call tu N X iX Y [] (ssq_start fold Y m) HT ltac:(lia) CX S0) as [R1 R2].
    { rewrite app_nil_r, ER. lia. }
    rewrite app_nil_r, ER in R1. split; [exact R1|]. intros a Ha. etransitivity; [apply R2; auto|apply U0; auto].
  Qed.
  Lemma ssq_pieces_state Y qs : forall (r : F t * mem t) zs,
    (forall q, In q qs -> piece_ok t q /\ clear_of (p_X q) (p_inc q) (p_N q) Y (dbnum fold)) ->
    sstate zs r Y -> Z.of_nat (length (all_data (snd r) qs ++ zs)) <= capacity t ->
    let r' := ssq_pieces fold Y qs r in
    sstate (all_data (snd r) qs ++ zs) r' Y /\ unchanged_outside Y (dbnum fold) (snd r) (snd r').
  Proof.
    induction qs as [|q qs IH]; intros r zs HQ ST HC.
    { split; [exact ST|]. intros a _. reflexivity. }
    destruct (HQ q (or_introl eq_refl)) as [[HT HN] CX].
    cbn [all_data flat_map] in HC |- *. fold (all_data (snd r) qs) in HC |- *. rewrite !app_length in HC.
    destruct (ssq_call (p_tu q) (p_N q) (p_X q) (p_inc q) Y zs r HT HN CX ST) as [R1 R2].
    { rewrite app_length. unfold piece_data in HC. lia. }
    fold (piece_data (snd r) q) in R1. cbn [ssq_pieces fold_left]. fold (ssq_pieces (t := t) fold Y qs).
    change (dbdssq (p_tu q) fold (p_N q) (p_X q) (p_inc q) (fst r) Y (snd r)) with (ssq_piece fold Y r q) in R1, R2.
    set (r1 := ssq_piece fold Y r q) in *. clearbody r1.
    assert (ED : all_data (snd r1) qs = all_data (snd r) qs).
    { apply all_data_same. intros q' I. eapply piece_clear; [|exact R2]. apply HQ. now right. }
    destruct (IH r1 (piece_data (snd r) q ++ zs)) as [I1 I2].
    { intros; apply HQ; now right. }
    { exact R1. }
    { rewrite ED, !app_length. lia. }
    rewrite ED in I1. split.
    - eapply sstate_perm; [|exact I1]. rewrite !app_assoc. apply Permutation_app_tail, Permutation_app_comm.
    - intros a Ha. etransitivity; [apply I2; auto|apply R2; auto].
  Qed.
End CALLS.

(** dbdssq (sbsssq) from a fresh accumulator: the scale is dscale of the largest
    magnitude, no scaled square overflows, and the words are those of one dbdadd per
    scaled square (divide by the scale, then square, in floating point). *)
Theorem C42_ssq_is_adds t tu fold N X incX Y (m : mem t) :
  2 <= fold <= ssq_fold t -> tuned t tu -> 0 < N <= CAPACITY t -> clear_of X incX N Y (dbnum fold) ->
  all_finite (read m X incX N) = true ->
  let '(scale, m') := dbdssq tu fold N X incX fzero Y (dbsetzero fold Y m) in
  (exists M, largest M (read m X incX N) /\ scale = dscale M) /\
  all_finite (squares scale (read m X incX N)) = true /\
  same_words fold m' Y (sum_list fold Y (squares scale (read m X incX N)) m) Y /\
  unchanged_outside Y (dbnum fold) m m'.
Proof.
  intros Hf HT HN CX FX. rewrite CAPACITY_eq in HN. pose proof (read_length m X incX N ltac:(lia)) as LR.
  destruct (ssq_fresh fold Hf tu N X incX Y m HT ltac:(lia) CX) as [S U].
  destruct (dbdssq tu fold N X incX fzero Y (dbsetzero fold Y m)) as [sc m']. cbn [snd] in U.
  unfold sstate in S. rewrite FX in S. destruct S as [G H]. cbn [fst snd] in *.
  pose proof (proj1 (scale_of_good _ _ FX) G) as G'.
  assert (FS : all_finite (squares sc (read m X incX N)) = true) by (rewrite squares_sq by auto; now apply good_scale_fin).
  split; [|split; [exact FS|split; [|exact U]]].
  - unfold scale_of in G. destruct (read m X incX N); [cbn in LR; lia|exact G].
  - pose proof (proj2 (proj2 (ssq_fold_ok t fold Hf))) as HM.
    destruct (sum_list_holds fold HM Y (squares sc (read m X incX N)) m) as [R2 _].
    { unfold squares. rewrite map_length. lia. }
    eapply same_acc_words; [exact HM| | | |exact H|exact R2]; auto; reflexivity.
Qed.
Print Assumptions C42_ssq_is_adds.
(** Order, address, stride, block size, unrolling and vector width do not matter. *)
Theorem C42_ssq_permutation t tu tu' fold N X incX X' incX' Y Y' (m m' : mem t) :
  2 <= fold <= ssq_fold t -> tuned t tu -> tuned t tu' -> 0 <= N <= CAPACITY t ->
  clear_of X incX N Y (dbnum fold) -> clear_of X' incX' N Y' (dbnum fold) ->
  all_finite (read m X incX N) = true -> Permutation (read m X incX N) (read m' X' incX' N) ->
  same_scaled fold (dbdssq tu fold N X incX fzero Y (dbsetzero fold Y m)) Y
                   (dbdssq tu' fold N X' incX' fzero Y' (dbsetzero fold Y' m')) Y'.
Proof.
  intros Hf HT HT' HN CX CX' FX HP. rewrite CAPACITY_eq in HN.
  destruct (ssq_fresh fold Hf tu N X incX Y m HT HN CX) as [S _].
  destruct (ssq_fresh fold Hf tu' N X' incX' Y' m' HT' HN CX') as [S' _].
  apply (sstate_perm fold _ _ _ _ (Permutation_sym HP)) in S'. exact (sstate_same fold Hf _ _ _ _ _ FX S S').
Qed.
Print Assumptions C42_ssq_permutation.
(** One call per piece, each rescaling what is there as it sees larger elements, the
    pieces in any order: the same scale and words as one call over all the data. *)
Theorem C42_ssq_pieces t tu fold N X incX Y (qs : list piece) (m : mem t) :
  2 <= fold <= ssq_fold t -> tuned t tu -> 0 <= N <= CAPACITY t -> clear_of X incX N Y (dbnum fold) ->
  (forall q, In q qs -> piece_ok t q /\ clear_of (p_X q) (p_inc q) (p_N q) Y (dbnum fold)) ->
  all_finite (read m X incX N) = true -> Permutation (read m X incX N) (all_data m qs) ->
  same_scaled fold (ssq_pieces fold Y qs (ssq_start fold Y m)) Y
                   (dbdssq tu fold N X incX fzero Y (dbsetzero fold Y m)) Y.
Proof.
  intros Hf HT HN CX HQ FX HP. rewrite CAPACITY_eq in HN. pose proof (read_length m X incX N ltac:(lia)) as LR.
  destruct (ssq_fresh fold Hf tu N X incX Y m HT HN CX) as [S _].
  destruct (ssq_start_state fold Hf Y m) as [S0 U0].
  assert (ED : all_data (snd (ssq_start fold Y m)) qs = all_data m qs).
  { apply all_data_same. intros q' I. eapply piece_clear; [|exact U0]. now apply HQ. }
  destruct (ssq_pieces_state fold Hf Y qs (ssq_start fold Y m) [] HQ S0) as [S' _].
  { rewrite app_nil_r, ED, <- (Permutation_length HP). lia. }
  rewrite app_nil_r, ED in S'. apply (sstate_perm fold _ _ _ _ (Permutation_sym HP)) in S'. exact (sstate_same fold Hf _ _ _ _ _ FX S' S).
Qed.
Print Assumptions C42_ssq_pieces.
(** Data that is not finite: NaN if there is a NaN, else +Inf; the scale is then 1. *)
Theorem C42_ssq_nonfinite t tu fold N X incX Y (m : mem t) :
  2 <= fold <= ssq_fold t -> tuned t tu -> 0 <= N <= CAPACITY t -> clear_of X incX N Y (dbnum fold) ->
  all_finite (read m X incX N) = false ->
  let '(scale, m') := dbdssq tu fold N X incX fzero Y (dbsetzero fold Y m) in
  scale = mkf 1 0 /\
  m' Y = (if existsb f_isnan (read m X incX N) then B754_nan else B754_infinity false).
Proof.
  intros Hf HT HN CX FX. rewrite CAPACITY_eq in HN.
  destruct (ssq_fresh fold Hf tu N X incX Y m HT HN CX) as [S _].
  destruct (dbdssq tu fold N X incX fzero Y (dbsetzero fold Y m)) as [sc m'].
  unfold sstate in S. rewrite FX in S. destruct S as [H G]. cbn [fst snd] in *. split.
  - rewrite G, dscale_eq. f_equal. destruct t; vm_compute; reflexivity.
  - rewrite H. now apply special_fabs.
Qed.
Print Assumptions C42_ssq_nonfinite.
(** reproBLAS_rdnrm2 (rsnrm2): any data, infinities and NaNs included. *)
Theorem C42_rdnrm2 t tu tu' fold N X incX X' incX' tmp tmp' (m m' : mem t) :
  2 <= fold <= ssq_fold t -> tuned t tu -> tuned t tu' -> 0 <= N <= CAPACITY t ->
  clear_of X incX N tmp (dbnum fold) -> clear_of X' incX' N tmp' (dbnum fold) ->
  Permutation (read m X incX N) (read m' X' incX' N) ->
  rdnrm2 tu fold N X incX tmp m = rdnrm2 tu' fold N X' incX' tmp' m'.
Proof.
  intros Hf HT HT' HN CX CX' HP. rewrite CAPACITY_eq in HN. pose proof (proj2 (proj2 (ssq_fold_ok t fold Hf))) as HM.
  destruct (ssq_fresh fold Hf tu N X incX tmp m HT HN CX) as [S _].
  destruct (ssq_fresh fold Hf tu' N X' incX' tmp' m' HT' HN CX') as [S' _].
  apply (sstate_perm fold _ _ _ _ (Permutation_sym HP)) in S'. unfold rdnrm2.
  destruct (dbdssq tu fold N X incX fzero tmp (dbsetzero fold tmp m)) as [sc m1].
  destruct (dbdssq tu' fold N X' incX' fzero tmp' (dbsetzero fold tmp' m')) as [sc' m1'].
  destruct (all_finite (read m X incX N)) eqn:FX.
  - pose proof (sstate_same fold Hf _ _ _ _ _ FX S S') as [E _]. cbn [fst] in E. subst sc'.
    unfold sstate in S, S'. rewrite FX in S, S'. destruct S as [_ S], S' as [_ S']. cbn [fst snd] in *. f_equal.
    exact (conv_acc fold HM [] _ [] _ _ _ _ _ (perm_nil _) (Permutation_refl _) S S').
  - unfold sstate in S, S'. rewrite FX in S, S'. destruct S as [S E], S' as [S' E']. cbn [fst snd] in *. subst sc sc'. f_equal.
    assert (A : acc_at fold [] (map fabs (read m X incX N)) m1 tmp) by (unfold acc_at, holds; now rewrite all_finite_fabs, FX, Z.mul_0_l, Z.add_0_r).
    assert (A' : acc_at fold [] (map fabs (read m X incX N)) m1' tmp') by (unfold acc_at, holds; now rewrite all_finite_fabs, FX, Z.mul_0_l, Z.add_0_r).
    exact (conv_acc fold HM [] _ [] _ _ _ _ _ (perm_nil _) (Permutation_refl _) A A').
Qed.
Print Assumptions C42_rdnrm2.
(** NaN if some element is NaN, else +Inf if some element is infinite. *)
Theorem C42_rdnrm2_nonfinite t tu fold N X incX tmp (m : mem t) :
  2 <= fold <= ssq_fold t -> tuned t tu -> 0 <= N <= CAPACITY t -> clear_of X incX N tmp (dbnum fold) ->
  all_finite (read m X incX N) = false ->
  rdnrm2 tu fold N X incX tmp m = (if existsb f_isnan (read m X incX N) then B754_nan else B754_infinity false).
Proof.
  intros Hf HT HN CX FX. pose proof (C42_ssq_nonfinite t tu fold N X incX tmp m Hf HT HN CX FX) as H. unfold rdnrm2.
  destruct (dbdssq tu fold N X incX fzero tmp (dbsetzero fold tmp m)) as [sc m1]. destruct H as [-> H].
  rewrite conv_special by (rewrite H; now destruct (existsb f_isnan _)). rewrite H.
  destruct (existsb f_isnan _), t; cbn [scaled_root f2d d2f]; try reflexivity.
Qed.
Print Assumptions C42_rdnrm2_nonfinite.
(** The norm of no data is 0. *)
Theorem C42_rdnrm2_empty t tu fold X incX tmp (m : mem t) :
  2 <= fold <= ssq_fold t -> tuned t tu -> rdnrm2 tu fold 0 X incX tmp m = fzero.
Proof.
  intros Hf HT. unfold rdnrm2.
  assert (HC : 0 <= 0 <= CAPACITY t) by (destruct t; vm_compute; split; discriminate).
  rewrite CAPACITY_eq in HC.
  destruct (ssq_fresh fold Hf tu 0 X incX tmp m HT HC) as [S _]; [intros i Hi; lia|].
  destruct (dbdssq tu fold 0 X incX fzero tmp (dbsetzero fold tmp m)) as [sc m1].
  assert (E : read m X incX 0 = []) by reflexivity. rewrite E in S. destruct S as [G H]. cbn [fst snd] in *. cbn in G. subst sc.
  replace (ddbconv fold tmp m1) with (@fzero t).
  - destruct t; reflexivity.
  - symmetry. apply ddmconv_zero. pose proof (proj1 (H 0 ltac:(lia))) as Z0. cbv beta in Z0. now rewrite Z.mul_0_l, Z.add_0_r in Z0.
Qed.
Print Assumptions C42_rdnrm2_empty.

(** Large folds: rescaling leaves words in the last bins that are not those of a direct
    accumulation; the order of two elements shows in the words. *)
Definition scalar_tuning (t : ty) : tuning := file_tuning t false 0 0 32 1 1 1.
Definition two_values (x : F Flt) : mem Flt := fun a => if a =? 0 then x else if a =? 32 then mkf 1 0 else fzero.
Lemma file_scalar t : tuned t (scalar_tuning t).
Proof. apply C18_argument_files; [now left|now left|discriminate]. Qed.
Theorem C42_ssq_large_fold_refuted : exists (m : mem Flt) (tu : tuning), let fold := 13 in
  fold <= MAXFOLD Flt /\ tuned Flt tu /\ all_finite (read m 0 1 33) = true /\
  Permutation (read m 0 1 33) (read m 32 (-1) 33) /\
  ~ same_scaled fold (dbdssq tu fold 33 0 1 fzero 100 (dbsetzero fold 100 m)) 100
                     (dbdssq tu fold 33 32 (-1) fzero 100 (dbsetzero fold 100 m)) 100.
Proof.
  exists (two_values (mkf 1 (-15))), (scalar_tuning Flt). cbv zeta. split; [vm_compute; discriminate|]. split; [apply file_scalar|].
  split; [vm_compute; reflexivity|]. split.
  - assert (E : read (two_values (mkf 1 (-15))) 32 (-1) 33 = rev (read (two_values (mkf 1 (-15))) 0 1 33)).
    { unfold read. rewrite <- map_rev. change (rev (zseq 0 33)) with (map (fun i => 32 - i) (zseq 0 33)). rewrite map_map.
      apply map_ext. intros a. f_equal. lia. }
    rewrite E. apply Permutation_rev.
  - intros [_ H]. specialize (H 12 ltac:(lia)). apply (f_equal bits) in H. vm_compute in H. discriminate.
Qed.
Print Assumptions C42_ssq_large_fold_refuted.

Definition norm_data : list (F Dbl) := [mkf 3 600; mkf 4 600; mkf 1 (-900)].
Example C42_case : forall m : mem Dbl, m = spread norm_data 2 ->
  2 <= 3 <= ssq_fold Dbl /\ clear_of 0 2 3 100 (dbnum 3) /\ all_finite (read m 0 2 3) = true /\
  (* the squares of the unscaled elements overflow; the norm is 5 * 2^600 *)
  f_isinf (fmul (m 0) (m 0)) = true /\ feq (rdnrm2 sample_tuning 3 3 0 2 100 m) (mkf 5 600) = true.
Proof.
  intros m ->. split; [cbn; lia|]. split; [intros i Hi; unfold dbnum; lia|].
  split; [vm_compute; reflexivity|]. split; vm_compute; reflexivity.
Qed.
