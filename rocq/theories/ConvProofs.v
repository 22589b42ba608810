(** * Conversion depends only on the words of the accumulator *)
From Coq Require Import ZArith Bool List Lia.
From Flocq Require Import Core BinarySingleNaN.
From Verif Require Import Fp Mem Binned Spec FpProofs BitProofs SpecProofs MemProofs AccProofs SumProofs.
Import ListNotations.
Open Scope Z_scope.

Lemma loop_ext {S : Type} (f g : Z -> S -> S) n : forall i s,
  (forall k s, i <= k < i + Z.of_nat n -> f k s = g k s) -> loop n i f s = loop n i g s.
Proof.
  induction n as [|n IH]; intros i s H; cbn [loop]; auto.
  rewrite (H i) by lia. apply IH. intros k s' Hk. apply H. lia.
Qed.
Lemma for_up_ext {S : Type} (f g : Z -> S -> S) lo hi s :
  (forall k s, lo <= k < hi -> f k s = g k s) -> for_up lo hi f s = for_up lo hi g s.
Proof. intros H. apply loop_ext. intros k s' Hk. apply H. lia. Qed.

Lemma ddmconv_ext fold p c p' c' : 2 <= fold ->
  (forall i, 0 <= i < fold -> p i = p' i /\ c i = c' i) -> ddmconv_v fold p c = ddmconv_v fold p' c'.
Proof.
  intros Hf E. assert (EP : forall i, 0 <= i < fold -> p i = p' i) by (intros; apply E; auto).
  assert (EC : forall i, 0 <= i < fold -> c i = c' i) by (intros; apply E; auto).
  unfold ddmconv_v. cbv zeta. rewrite <- (EP 0), <- (EC 0), <- (EC 1), <- (EP (fold - 1)) by lia.
  destruct (ISNANINF (p 0)); auto. destruct (feq (p 0) fzero); auto.
  set (X := dmindex (p 0)).
  destruct (X <=? _).
  - set (scaled := Z.max (Z.min fold _) 0). assert (HS : scaled <= fold) by (unfold scaled; lia).
    destruct (X =? 0).
    + rewrite (for_up_ext _ (fun i Y => fadd (fadd Y (fmul (c' i) _)) (fmul (fsub (p' (i - 1)) _) _)) 2 scaled)
        by (intros k s Hk; rewrite (EC k), (EP (k - 1)) by lia; reflexivity).
      destruct (Z.max 2 scaled =? fold); auto. destruct (f_isinf _); auto. f_equal.
      apply for_up_ext. intros k s Hk. rewrite (EC k), (EP (k - 1)) by lia. reflexivity.
    + rewrite (for_up_ext _ (fun i Y => fadd (fadd Y (fmul (c' i) _)) (fmul (fsub (p' (i - 1)) _) _)) 1 scaled)
        by (intros k s Hk; rewrite (EC k), (EP (k - 1)) by lia; reflexivity).
      destruct (Z.max 1 scaled =? fold); auto. destruct (f_isinf _); auto. f_equal.
      apply for_up_ext. intros k s Hk. rewrite (EC k), (EP (k - 1)) by lia. reflexivity.
  - f_equal. apply for_up_ext. intros k s Hk. rewrite (EC k), (EP (k - 1)) by lia. reflexivity.
Qed.
Lemma ssmconv_ext fold p c p' c' : 2 <= fold ->
  (forall i, 0 <= i < fold -> p i = p' i /\ c i = c' i) -> ssmconv_v fold p c = ssmconv_v fold p' c'.
Proof.
  intros Hf E. assert (EP : forall i, 0 <= i < fold -> p i = p' i) by (intros; apply E; auto).
  assert (EC : forall i, 0 <= i < fold -> c i = c' i) by (intros; apply E; auto).
  unfold ssmconv_v. cbv zeta. rewrite <- (EP 0), <- (EC 0), <- (EC 1), <- (EP (fold - 1)) by lia.
  destruct (ISNANINF (p 0)); auto. destruct (feq (p 0) fzero); auto.
  destruct (dmindex (p 0) =? 0); do 2 f_equal; apply for_up_ext; intros k s Hk; rewrite (EC k), (EP (k - 1)) by lia; reflexivity.
Qed.

(** Special values are returned as they are; a zero head word gives zero. *)
Lemma ddmconv_special {t} fold p ip c ic (m : mem t) : ISNANINF (m p) = true -> ddmconv fold p ip c ic m = m p.
Proof.
  intros H. unfold ddmconv. destruct t; [unfold ddmconv_v|unfold ssmconv_v];
    replace (p + 0 * ip) with p by lia; rewrite H; reflexivity.
Qed.
Lemma ddmconv_zero {t} fold p ip c ic (m : mem t) : m p = fzero -> ddmconv fold p ip c ic m = fzero.
Proof.
  intros H. unfold ddmconv. destruct t; [unfold ddmconv_v|unfold ssmconv_v];
    replace (p + 0 * ip) with p by lia; rewrite H; reflexivity.
Qed.

Lemma ddmconv_words {t} fold p ip c ic p' ip' c' ic' (m m' : mem t) : 2 <= fold ->
  (forall i, 0 <= i < fold -> m (p + i * ip) = m' (p' + i * ip') /\ m (c + i * ic) = m' (c' + i * ic')) ->
  ddmconv fold p ip c ic m = ddmconv fold p' ip' c' ic' m'.
Proof. intros Hf E. unfold ddmconv. destruct t; [apply ddmconv_ext|apply ssmconv_ext]; auto. Qed.

(** Two accumulators that hold the same data convert to the same float. *)
Lemma ddmconv_holds {t} fold p ip c ic p' ip' c' ic' (m m' : mem t) us us' xs xs' : 2 <= fold ->
  lead us = lead us' -> (us ++ xs = [] <-> us' ++ xs' = []) ->
  (forall j, sums xs j = sums xs' j) -> lead xs = lead xs' -> all_finite xs = all_finite xs' ->
  (all_finite xs = false -> special xs = special xs') ->
  holds t fold us xs (P_of m p ip) (P_of m c ic) -> holds t fold us' xs' (P_of m' p' ip') (P_of m' c' ic') ->
  ddmconv fold p ip c ic m = ddmconv fold p' ip' c' ic' m'.
Proof.
  intros Hf LU EU ES LX AF SP H H'. unfold holds in H, H'. rewrite <- AF in H'.
  destruct (all_finite xs) eqn:F.
  - apply ddmconv_words; auto. rewrite lead_app in H'. rewrite lead_app in H. rewrite <- LU, <- LX in H'.
    destruct (us ++ xs), (us' ++ xs'); try (destruct EU as [E1 E2]; try (specialize (E1 eq_refl)); try (specialize (E2 eq_refl)); discriminate).
    + intros i Hi. destruct (H i Hi), (H' i Hi). unfold P_of in *. split; congruence.
    + intros i Hi. destruct (H i Hi), (H' i Hi). unfold P_of in *. rewrite ES in *. split; congruence.
  - rewrite P_of_0 in *. rewrite !ddmconv_special.
    + rewrite H, H'. auto.
    + rewrite H'. apply special_nonfinite.
    + rewrite H. apply special_nonfinite.
Qed.
Lemma ddmconv_perm {t} fold p ip c ic p' ip' c' ic' (m m' : mem t) us xs xs' : 2 <= fold ->
  Permutation.Permutation xs xs' ->
  holds t fold us xs (P_of m p ip) (P_of m c ic) -> holds t fold us xs' (P_of m' p' ip') (P_of m' c' ic') ->
  ddmconv fold p ip c ic m = ddmconv fold p' ip' c' ic' m'.
Proof.
  intros Hf HP. apply ddmconv_holds; auto.
  - split; intros E; apply app_eq_nil in E; destruct E as [-> ->].
    + apply Permutation.Permutation_nil in HP. now subst.
    + symmetry in HP. apply Permutation.Permutation_nil in HP. now subst.
  - intros; apply sums_perm; auto.
  - apply lead_perm; auto.
  - apply all_finite_perm; auto.
  - intros; apply special_perm; auto.
Qed.
