(** * C80: a smaller fold keeps the leading bins of a larger one *)
From Coq Require Import ZArith Bool List Lia Permutation.
From Flocq Require Import Core BinarySingleNaN.
From Verif Require Import Fp Mem Binned Spec FpProofs BitProofs CoreArith SpecProofs WordProofs MemProofs AccProofs SumProofs ConvProofs Client History ClientProofs StrideProofs PropsSum PropsAcc PropsMem ComplexProofs PropsComplex Gen GenProofs Blas LaneProofs ReduceProofs DriverProofs BlasSpec PropsBlas.
Import ListNotations.
Open Scope Z_scope.

(** The first [small] primary and carry words, of an accumulator of fold [large], are those of the
    accumulator of fold [small]. *)
Lemma holds_smaller {t} small large (us xs : list (F t)) P W : small <= large -> holds t large us xs P W -> holds t small us xs P W.
Proof.
  intros HL. unfold holds. destruct (all_finite xs); auto. destruct (us ++ xs); intros H i Hi; apply H; lia.
Qed.

Theorem C80_words t small large X Y (xs ys : list (F t)) (m m' : mem t) :
  2 <= small <= large -> large <= MAXFOLD t -> all_finite xs = true -> Z.of_nat (length xs) <= CAPACITY t -> Permutation xs ys ->
  let ml := sum_list large X xs m in let ms := sum_list small Y ys m' in
  forall i, 0 <= i < small -> ml (X + i) = ms (Y + i) /\ ml (X + large + i) = ms (Y + small + i).
Proof.
  intros Hs Hl AF HC HP ml ms i Hi.
  assert (HFl : 2 <= large <= MAXFOLD t) by lia. assert (HFs : 2 <= small <= MAXFOLD t) by lia.
  rewrite CAPACITY_eq in HC. pose proof (Permutation_length HP) as EL.
  destruct (sum_list_holds large HFl X xs m HC) as [H1 _]. fold ml in H1.
  destruct (sum_list_holds small HFs Y ys m' ltac:(lia)) as [H2 _]. fold ms in H2. clearbody ml ms.
  apply (holds_smaller small) in H1; [|lia].
  assert (H3 : acc_at small [] xs ms Y) by (unfold acc_at; eapply holds_perm; [reflexivity|symmetry; exact HP|exact H2]).
  destruct (proj2 (holds_unique t small [] xs _ _ _ _ ltac:(lia) H1 H3) AF i Hi) as [E1 E2].
  unfold P_of in E1, E2. cbv beta in E1, E2. rewrite !Z.mul_1_r in E1, E2. auto.
Qed.
Print Assumptions C80_words.
(** Converted with the manual routine and the smaller fold, it gives what the smaller fold gives;
    any data. *)
Theorem C80_convert t small large X Y (xs ys : list (F t)) (m m' : mem t) :
  2 <= small <= large -> large <= MAXFOLD t -> Z.of_nat (length xs) <= CAPACITY t -> Permutation xs ys ->
  ddmconv small X 1 (X + large) 1 (sum_list large X xs m) = ddbconv small Y (sum_list small Y ys m').
Proof.
  intros Hs Hl HC HP.
  assert (HFl : 2 <= large <= MAXFOLD t) by lia. assert (HFs : 2 <= small <= MAXFOLD t) by lia.
  rewrite CAPACITY_eq in HC. pose proof (Permutation_length HP) as EL.
  destruct (sum_list_holds large HFl X xs m HC) as [H1 _].
  destruct (sum_list_holds small HFs Y ys m' ltac:(lia)) as [H2 _].
  apply (holds_smaller small) in H1; [|lia].
  exact (ddmconv_perm small X 1 (X + large) 1 Y 1 (Y + small) 1 _ _ [] _ _ (proj1 Hs) HP H1 H2).
Qed.
Print Assumptions C80_convert.
(** Copying the leading bins. *)
Theorem C80_set t small large X Y us xs (m : mem t) :
  2 <= small <= large -> large <= MAXFOLD t -> X + dbnum large <= Y \/ Y + dbnum small <= X -> acc_at large us xs m X ->
  let m' := dmdmset small X 1 (X + large) 1 Y 1 (Y + small) 1 m in
  acc_at small us xs m' Y /\ unchanged_outside Y (dbnum small) m m'.
Proof.
  intros Hs Hl HA H m'. unfold dbnum in *.
  assert (DJ : disjoint (in_acc small X 1 (X + large) 1) (in_acc small Y 1 (Y + small) 1)).
  { intros a (i & Hi & [E|E]) (j & Hj & [E'|E']); lia. }
  destruct (dmdmset_done (layout_contig small Y ltac:(lia)) ltac:(lia) m DJ) as [D1 D2]. fold m' in D1, D2. split.
  - apply (holds_smaller small) in H; [|lia]. unfold acc_at.
    eapply holds_words_ext; [exact (proj1 Hs)| |exact H]. intros i Hi. destruct (D1 i Hi) as [E1 E2]. unfold P_of in *. auto.
  - intros a Ha. apply D2. intros i Hi. lia.
Qed.
Print Assumptions C80_set.
(** Merging an accumulator of a larger fold. *)
Theorem C80_merge t small large X Y us xs vs ys (m : mem t) :
  2 <= small <= large -> large <= MAXFOLD t -> X + dbnum large <= Y \/ Y + dbnum small <= X ->
  acc_at large us xs m X -> acc_at small vs ys m Y -> Z.of_nat (length (xs ++ ys)) <= CAPACITY t ->
  let m' := dmdmadd small X 1 (X + large) 1 Y 1 (Y + small) 1 m in
  acc_at small (us ++ vs) (xs ++ ys) m' Y /\ unchanged_outside Y (dbnum small) m m'.
Proof.
  intros Hs Hl HA HX HY HC m'. rewrite CAPACITY_eq in HC. rewrite MAXFOLD_eq in Hl. unfold dbnum in *.
  assert (DJ : disjoint (in_acc small X 1 (X + large) 1) (in_acc small Y 1 (Y + small) 1)).
  { intros a (i & Hi & [E|E]) (j & Hj & [E'|E']); lia. }
  apply (holds_smaller small) in HX; [|lia]. pose proof HC as HC'. rewrite app_length in HC'.
  assert (HFs : small <= jmax t + 1) by lia. assert (HF2 : 2 <= small) by lia.
  destruct (rep_merge (layout_contig small Y ltac:(lia)) HF2 HFs (pX := X) (ipX := 1) (cX := X + large) (icX := 1)
    m us xs vs ys DJ) as (_ & FR & HH).
  { apply holds_rep; auto. lia. }
  { apply holds_rep; auto. lia. }
  { intros _. lia. }
  split; [exact (HH HX HY)|]. intros a Ha. apply FR. intros (i & Hi & [E|E]); lia.
Qed.
Print Assumptions C80_merge.
(** So a sum of large fold need not be computed again for a smaller one. *)
Theorem C80_sum t tu tu' small large N X incX tmp (m : mem t) :
  2 <= small <= large -> large <= MAXFOLD t -> tuned t tu -> tuned t tu' -> 0 <= N <= CAPACITY t ->
  clear_of X incX N tmp (dbnum large) -> all_finite (read m X incX N) = true ->
  ddmconv small tmp 1 (tmp + large) 1 (dbdsum tu large N X incX tmp (dbsetzero large tmp m)) = rdsum tu' small N X incX tmp m.
Proof.
  intros Hs Hl HT HT' HN CX FX.
  assert (HFl : 2 <= large <= MAXFOLD t) by lia. assert (HFs : 2 <= small <= MAXFOLD t) by lia.
 
  assert (CX' : clear_of X incX N tmp (dbnum small)) by (intros i Hi; specialize (CX i Hi); unfold dbnum in *; lia).
  rewrite (C20_is_scalar_sum t tu' small N X incX tmp tmp m m) by (auto; lia).
  assert (ER : read (dbsetzero large tmp m) X incX N = read m X incX N).
  { unfold read. apply map_ext_in. intros i Hi. apply zseq_In in Hi. destruct (C14_setzero t large tmp m ltac:(lia)) as [_ U].
    apply U. apply CX. lia. }
  destruct (sum_list_holds large HFl tmp [] m) as [H0 _]; [cbn [length]; unfold capacity; destruct t; cbn; lia|].
  change (sum_list large tmp [] m) with (dbsetzero large tmp m) in H0.
  assert (LR : Z.of_nat (length (read m X incX N)) <= CAPACITY t) by (pose proof (read_length m X incX N ltac:(lia)); lia).
  destruct (C18_sum_is_adds t tu large N X incX tmp [] [] (dbsetzero large tmp m)) as [SW _]; auto; try lia.
  { now rewrite ER. }
  { cbn [length]. lia. }
  rewrite ER in SW. rewrite CAPACITY_eq in LR.
  destruct (sum_list_holds large HFl tmp (read m X incX N) m LR) as [H1 _].
  destruct (sum_list_holds small HFs tmp (read m X incX N) m LR) as [H2 _].
  change (add_list large tmp (read m X incX N) (dbsetzero large tmp m)) with (sum_list large tmp (read m X incX N) m) in SW.
  set (m1 := dbdsum _ _ _ _ _ _ _) in *. set (m2 := sum_list large tmp _ m) in *. set (m3 := sum_list small tmp _ m) in *. clearbody m1 m2 m3.
  assert (H3 : holds t small [] (read m X incX N) (P_of m1 tmp 1) (P_of m1 (tmp + large) 1)).
  { apply (holds_smaller small) in H1; [|lia]. eapply holds_words_ext; [exact (proj1 Hs)| |exact H1].
    intros i Hi. unfold P_of. pose proof (SW (i * 1) ltac:(lia)) as E1. pose proof (SW (large + i * 1) ltac:(lia)) as E2.
    rewrite !Z.add_assoc in E2. auto. }
  exact (ddmconv_perm small tmp 1 (tmp + large) 1 tmp 1 (tmp + small) 1 _ _ [] _ _ (proj1 Hs) (Permutation_refl _) H3 H2).
Qed.
Print Assumptions C80_sum.
(** Complex accumulators. *)
Theorem C80_zconvert t small large X Y (zs zs' : list (F t * F t)) (m m' : mem t) :
  2 <= small <= large -> large <= MAXFOLD t -> Z.of_nat (length zs) <= CAPACITY t -> Permutation zs zs' ->
  zzmconv_sub small X 1 (X + 2 * large) 1 (zsum_list large X zs m) = zzbconv_sub small Y (zsum_list small Y zs' m').
Proof.
  intros Hs Hl HC HP.
  assert (HFl : 2 <= large <= MAXFOLD t) by lia. assert (HFs : 2 <= small <= MAXFOLD t) by lia.
  rewrite CAPACITY_eq in HC. pose proof (Permutation_length HP) as EL.
  destruct (zsum_list_holds large HFl X zs m HC) as [[H1 H2] _].
  destruct (zsum_list_holds small HFs Y zs' m' ltac:(lia)) as [[H3 H4] _].
  apply (holds_smaller small) in H1; [|lia]. apply (holds_smaller small) in H2; [|lia].
  unfold zzbconv_sub, zzmconv_sub. f_equal.
  - exact (ddmconv_perm small X 2 (X + 2 * large) 2 Y 2 (Y + 2 * small) 2 _ _ [] _ _ (proj1 Hs) (Permutation_map fst HP) H1 H3).
  - exact (ddmconv_perm small (X + 1) 2 (X + 2 * large + 1) 2 (Y + 1) 2 (Y + 2 * small + 1) 2 _ _ [] _ _ (proj1 Hs) (Permutation_map snd HP) H2 H4).
Qed.
Print Assumptions C80_zconvert.
(** The contiguous routines may not be called with the smaller fold: the carries are elsewhere. *)
Theorem C80_contiguous_refuted :
  feq (ddbconv 2 0 (sum_list 3 0 [mkf 1 0 : F Dbl] (fun _ => fzero))) (ddbconv 2 0 (sum_list 2 0 [mkf 1 0 : F Dbl] (fun _ => fzero))) = false.
Proof. vm_compute. reflexivity. Qed.
Example C80_case : acc_at 4 [] sample (sum_list 4 0 sample (fun _ => fzero)) 0 /\
  acc_at 2 [] sample (sum_list 2 100 sample (sum_list 4 0 sample (fun _ => fzero))) 100 /\
  clear_of 0 3 5 200 (dbnum 4) /\ all_finite (read (spread sample 3) 0 3 5) = true.
Proof.
  split; [apply C01_words; [vm_compute; split; discriminate|apply sample_small]|].
  split; [apply C01_words; [vm_compute; split; discriminate|apply sample_small]|].
  split; [intros i Hi; cbn; lia|vm_compute; reflexivity].
Qed.
