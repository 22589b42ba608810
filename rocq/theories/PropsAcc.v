(** * C07 - C15: the accumulator routines one by one *)
From Coq Require Import ZArith Bool List Lia Permutation.
From Flocq Require Import Core BinarySingleNaN.
From Verif Require Import Fp Mem Binned Spec FpProofs BitProofs CoreArith SpecProofs WordProofs MemProofs AccProofs SumProofs ConvProofs Client History ClientProofs PropsSum.
Import ListNotations.
Open Scope Z_scope.

(** A strided accumulator state whose first bin is k: every primary lies in the
    binade of its bin, i.e. is n units with 4*2^(p-3) <= n < 8*2^(p-3), and every carry is an
    integer of which the float type can still represent the neighbours.  (This is weaker
    than being normalised: raw deposits may be pending.) *)
Definition in_binade {t} (fold k : Z) (P W : Z -> F t) : Prop :=
  0 <= k <= jmax t /\ forall i, 0 <= i < fold ->
    (exists n, is_finite (P i) = true /\ toZ (P i) = n * 2 ^ stored_exp t (k + i) /\ 4 * quarter t <= n < 8 * quarter t) /\
    (exists c, is_finite (W i) = true /\ toZ (W i) = c * 2 ^ (- emin t) /\ Z.abs c + 2 <= 2 ^ prec t).
(** Normalised: n in [6*2^(p-3), 7*2^(p-3)), i.e. the primary in [1.5,1.75) * 2^e. *)
Definition normalised {t} (fold k : Z) (P : Z -> F t) : Prop :=
  forall i, 0 <= i < fold -> exists n,
    is_finite (P i) = true /\ toZ (P i) = n * 2 ^ stored_exp t (k + i) /\ 6 * quarter t <= n < 7 * quarter t.

Lemma in_binade_acc {t} fold k (P W : Z -> F t) : in_binade fold k P W ->
  acc t fold k (fun j => toZ (P (j - k)) / 2 ^ stored_exp t j - 6 * quarter t)
               (fun j => toZ (W (j - k)) / 2 ^ (- emin t)) P W /\
  forall i, 0 <= i < fold ->
    inbin t (6 * quarter t + (toZ (P (k + i - k)) / 2 ^ stored_exp t (k + i) - 6 * quarter t)) /\
    Z.abs (toZ (W (k + i - k)) / 2 ^ (- emin t) +
      (toZ (P (k + i - k)) / 2 ^ stored_exp t (k + i) - 6 * quarter t) / quarter t) <= 2 ^ prec t.
Proof.
  intros [Hk H]. pose proof (quarter_pos t) as QP. pose proof (emin_neg t) as EN.
  assert (D : forall i, 0 <= i < fold -> 2 ^ stored_exp t (k + i) <> 0).
  { intros i Hi. pose proof (stored_exp_ge t (k + i) ltac:(lia)). apply Z.pow_nonzero; lia. }
  assert (D2 : 2 ^ (- emin t) <> 0) by (apply Z.pow_nonzero; lia).
  split.
  - split; auto. intros i Hi. destruct (H i Hi) as [(n & F1 & E1 & B1) (c & F2 & E2 & B2)].
    replace (k + i - k) with i by lia. rewrite E1, E2, !Z.div_mul by auto.
    split; split; auto. rewrite E1. f_equal. lia.
  - intros i Hi. destruct (H i Hi) as [(n & F1 & E1 & B1) (c & F2 & E2 & B2)].
    replace (k + i - k) with i by lia. rewrite E1, E2, !Z.div_mul by auto. split; [unfold inbin; lia|].
    assert (- 2 <= (n - 6 * quarter t) / quarter t <= 1); [|lia].
    split; [apply Z.div_le_lower_bound; lia|]. apply Z.lt_succ_r. apply Z.div_lt_upper_bound; lia.
Qed.

Lemma renorm_canon {t} {fold p ip c ic : Z} (L : layout fold p ip c ic) (m : mem t) k : 1 <= fold ->
  in_binade fold k (P_of m p ip) (P_of m c ic) ->
  canon t fold k (fun j => content t j (m (p + (j - k) * ip)) (m (c + (j - k) * ic)))
    (P_of (dmrenorm fold p ip c ic m) p ip) (P_of (dmrenorm fold p ip c ic m) c ic) /\
  frame fold p ip c ic m (dmrenorm fold p ip c ic m).
Proof.
  intros Hf H. destruct (in_binade_acc _ _ _ _ H) as [A B].
  exact (acc_renorm L Hf m k _ _ A (fun i Hi => proj1 (B i Hi)) (fun i Hi => proj2 (B i Hi))).
Qed.
Lemma content_bound t fold k (P W : Z -> F t) i : in_binade fold k P W -> 0 <= i < fold ->
  Z.abs (content t (k + i) (P i) (W i) / quarter t) <= 2 ^ prec t.
Proof.
  intros H Hi. destruct (in_binade_acc _ _ _ _ H) as [_ B]. destruct (B i Hi) as [_ B2].
  replace (k + i - k) with i in B2 by lia. unfold content. pose proof (quarter_pos t). rewrite Z.div_add_l by lia. exact B2.
Qed.
Lemma canon_content t fold k S (P W : Z -> F t) i : canon t fold k S P W -> 0 <= i < fold ->
  Z.abs (S (k + i) / quarter t) <= 2 ^ prec t -> content t (k + i) (P i) (W i) = S (k + i).
Proof.
  intros [Hk C] Hi HS. destruct (C i Hi) as [-> ->]. unfold content, car_word.
  destruct (pri_word_priw t (k + i) (S (k + i)) ltac:(lia)) as [_ ->]. destruct (ofZ_carw t _ HS) as [[_ ->] _].
  pose proof (stored_exp_ge t (k + i) ltac:(lia)). pose proof (emin_neg t).
  rewrite !Z.div_mul by (apply Z.pow_nonzero; lia). pose proof (quarter_pos t).
  pose proof (Z.div_mod (S (k + i)) (quarter t)). lia.
Qed.

Lemma in_acc_dec fold p ip c ic a : in_acc fold p ip c ic a \/ ~ in_acc fold p ip c ic a.
Proof.
  assert (D : forall n : nat, (exists i, 0 <= i < Z.of_nat n /\ (a = p + i * ip \/ a = c + i * ic)) \/
                              ~ (exists i, 0 <= i < Z.of_nat n /\ (a = p + i * ip \/ a = c + i * ic))).
  { induction n as [|n IH]; [right; intros (i & Hi & _); lia|].
    destruct IH as [(i & Hi & E)|N]; [left; exists i; split; [lia|auto]|].
    destruct (Z.eq_dec a (p + Z.of_nat n * ip)); [left; exists (Z.of_nat n); split; [lia|auto]|].
    destruct (Z.eq_dec a (c + Z.of_nat n * ic)); [left; exists (Z.of_nat n); split; [lia|auto]|].
    right. intros (i & Hi & E). destruct (Z.eq_dec i (Z.of_nat n)) as [->|]; [lia|].
    apply N. exists i. split; [lia|auto]. }
  destruct (Z_le_dec 0 fold).
  - specialize (D (Z.to_nat fold)). rewrite Z2Nat.id in D by lia. exact D.
  - right. intros (i & Hi & _). lia.
Qed.

(** Every state reachable within the limits is of this kind. *)
Lemma rep_in_binade t fold us xs d (P W : Z -> F t) : all_finite xs = true -> us ++ xs <> [] ->
  Z.of_nat (length xs) <= capacity t -> 0 <= d <= endurance t ->
  rep t fold us xs d P W -> in_binade fold (lead (us ++ xs)) P W.
Proof.
  intros AF NE HC Hd H. unfold rep in H. rewrite AF in H. destruct (us ++ xs) eqn:E; [congruence|]. rewrite <- E in *.
  destruct H as (V & C & [Hk A] & S & ZV & ZC & B). split; auto. intros i Hi. destruct (A i Hi) as [[P1 P2] [W1 W2]].
  pose proof (quarter_pos t) as QP. pose proof (quarter_endurance t) as QE. pose proof (endurance_pos t) as EP.
  set (j := lead (us ++ xs) + i) in *. assert (Hj : 0 <= j) by lia.
  pose proof (B j Hj) as Bj. pose proof (S j Hj) as Sj. pose proof (sums_cap xs j Hj HC) as SC.
  pose proof (width_pos t). pose proof (pow2_pos (width t - 1) ltac:(lia)).
  assert (d * 2 ^ (width t - 1) <= quarter t) by nia.
  split.
  - exists (6 * quarter t + V j). split; auto. split; auto. lia.
  - exists (C j). split; auto. split; auto.
    assert (PT : 2 ^ prec t = 2 * 2 ^ (prec t - 1)) by (rewrite <- Z.pow_succ_r by (pose proof (prec_pos t); lia); f_equal; lia).
    assert (4 <= 2 ^ (prec t - 1)) by (change 4 with (2 ^ 2); apply Z.pow_le_mono_r; pose proof (prec_pos t); lia).
    rewrite PT. nia.
Qed.

(** ** C07 *)
Theorem C07_renorm t fold p ip c ic (m : mem t) k :
  1 <= fold -> layout fold p ip c ic ->
  in_binade fold k (fun i => m (p + i * ip)) (fun i => m (c + i * ic)) ->
  let m' := dmrenorm fold p ip c ic m in
  (forall i, 0 <= i < fold ->
     content t (k + i) (m' (p + i * ip)) (m' (c + i * ic)) = content t (k + i) (m (p + i * ip)) (m (c + i * ic))) /\
  normalised fold k (fun i => m' (p + i * ip)) /\
  (forall a, dmrenorm fold p ip c ic m' a = m' a).
Proof.
  intros Hf L H m'. destruct (renorm_canon L m k Hf H) as [C FR]. fold m' in C, FR.
  assert (CB : forall i, 0 <= i < fold -> Z.abs (content t (k + i) (m (p + (k + i - k) * ip)) (m (c + (k + i - k) * ic)) / quarter t) <= 2 ^ prec t).
  { intros i Hi. replace (k + i - k) with i by lia. exact (content_bound t fold k _ _ i H Hi). }
  split; [|split].
  - intros i Hi. pose proof (canon_content _ _ _ _ _ _ i C Hi (CB i Hi)) as E. unfold P_of in E. rewrite E.
    now replace (k + i - k) with i by lia.
  - intros i Hi. destruct C as [Hk C]. destruct (C i Hi) as [E _]. unfold P_of in E. rewrite E.
    destruct (pri_word_priw t (k + i) (content t (k + i) (m (p + (k + i - k) * ip)) (m (c + (k + i - k) * ic))) ltac:(lia)) as [F1 V1].
    eexists. split; [exact F1|]. split; [exact V1|]. pose proof (quarter_pos t).
    pose proof (Z.mod_pos_bound (content t (k + i) (m (p + (k + i - k) * ip)) (m (c + (k + i - k) * ic))) (quarter t)). lia.
  - pose proof (quarter_pos t) as QP.
    pose proof (canon_acc _ _ _ _ C CB) as A.
    destruct (acc_renorm L Hf m' k _ _ A) as [C2 FR2].
    { intros i Hi. pose proof (Z.mod_pos_bound (content t (k + i) (m (p + (k + i - k) * ip)) (m (c + (k + i - k) * ic))) (quarter t) QP). unfold inbin. lia. }
    { intros i Hi. rewrite (Z.div_small (_ mod _)) by (apply Z.mod_pos_bound; lia). rewrite Z.add_0_r. auto. }
    assert (E : forall i, 0 <= i < fold -> dmrenorm fold p ip c ic m' (p + i * ip) = m' (p + i * ip) /\
                                            dmrenorm fold p ip c ic m' (c + i * ic) = m' (c + i * ic)).
    { intros i Hi. destruct C as [Hk C]. destruct C2 as [_ C2]. destruct (C i Hi) as [E1 E2]. destruct (C2 i Hi) as [E3 E4].
      unfold P_of in *. rewrite E1, E2, E3, E4.
      rewrite (Z.mul_comm (_ / _)), <- Z.div_mod by lia. auto. }
    intros a. destruct (in_acc_dec fold p ip c ic a) as [(i & Hi & [-> | ->])|N].
    + apply E; auto.
    + apply E; auto.
    + apply FR2; auto.
Qed.
Print Assumptions C07_renorm.
(** Canonical: equal first bin and equal contents give equal words. *)
Theorem C07_canonical t fold p ip c ic p' ip' c' ic' (m m' : mem t) k :
  1 <= fold -> layout fold p ip c ic -> layout fold p' ip' c' ic' ->
  in_binade fold k (fun i => m (p + i * ip)) (fun i => m (c + i * ic)) ->
  in_binade fold k (fun i => m' (p' + i * ip')) (fun i => m' (c' + i * ic')) ->
  (forall i, 0 <= i < fold ->
     content t (k + i) (m (p + i * ip)) (m (c + i * ic)) = content t (k + i) (m' (p' + i * ip')) (m' (c' + i * ic'))) ->
  forall i, 0 <= i < fold ->
     dmrenorm fold p ip c ic m (p + i * ip) = dmrenorm fold p' ip' c' ic' m' (p' + i * ip') /\
     dmrenorm fold p ip c ic m (c + i * ic) = dmrenorm fold p' ip' c' ic' m' (c' + i * ic').
Proof.
  intros Hf L L' H H' E i Hi. destruct (renorm_canon L m k Hf H) as [[_ C] _].
  destruct (renorm_canon L' m' k Hf H') as [[_ C'] _].
  destruct (C i Hi) as [E1 E2]. destruct (C' i Hi) as [E3 E4]. unfold P_of in *.
  rewrite E1, E2, E3, E4. replace (k + i - k) with i by lia. rewrite E by auto. auto.
Qed.
Print Assumptions C07_canonical.
(** Such states arise: room made for [worst], up to ENDURANCE raw deposits pending. *)
Lemma pending_in_binade t fold (x : F t) n (m : mem t) : 2 <= fold <= MAXFOLD t -> is_finite x = true ->
  Z.of_nat n <= ENDURANCE t -> acc_at fold [x] [] m 0 ->
  in_binade fold (findex x)
    (fun i => deposit_list fold (repeat x n) 0 m (0 + i * 1))
    (fun i => deposit_list fold (repeat x n) 0 m (0 + fold + i * 1)).
Proof.
  intros Hf Fx Hn H0. rewrite ENDURANCE_eq in Hn. pose proof (endurance_pos t).
  assert (LX : lead [x] = findex x) by (unfold lead; cbn; pose proof (findex_range x); lia).
  destruct (deposit_list_rep fold Hf 0 [x] [] (repeat x n) m [] 0) as [H1 _].
  { apply holds_rep; [destruct t; vm_compute; discriminate|exact H0]. }
  { reflexivity. } { discriminate. } { lia. } { rewrite repeat_length. lia. }
  { intros y Hy. apply repeat_spec in Hy. subst y. cbn [app]. lia. }
  cbv zeta in H1. rewrite app_nil_r in H1.
  assert (AF : all_finite (rev (repeat x n)) = true).
  { unfold all_finite. apply forallb_forall. intros y Hy. apply in_rev, repeat_spec in Hy. now subst y. }
  assert (LD : lead ([x] ++ rev (repeat x n)) = findex x).
  { rewrite lead_app, LX. assert (findex x <= lead (rev (repeat x n))); [|lia].
    assert (A : forall y, In y (rev (repeat x n)) -> y = x) by (intros y Hy; apply in_rev, repeat_spec in Hy; auto).
    induction (rev (repeat x n)) as [|y l IH]; [rewrite lead_nil; pose proof (findex_range x); lia|].
    rewrite lead_cons, (A y (or_introl eq_refl)). unfold all_finite in *. cbn in AF. rewrite andb_true_iff in AF.
    assert (findex x <= lead l); [|lia]. clear IH AF H1. induction l as [|z l IH]; [rewrite lead_nil; pose proof (findex_range x); lia|].
    rewrite lead_cons, (A z (or_intror (or_introl eq_refl))).
    assert (findex x <= lead l); [|lia]. apply IH. intros w [->|Hw]; apply A; [left|right; right]; auto. }
  rewrite <- LD. eapply rep_in_binade; [exact AF|discriminate| | |exact H1].
  - rewrite rev_length, repeat_length. unfold capacity.
    assert (2 <= 2 ^ (prec t - 1) - 1) by (destruct t; vm_compute; discriminate). nia.
  - rewrite repeat_length. lia.
Qed.
Example C07_case : in_binade 3 (findex worst)
  (fun i => deposit_list 3 (repeat worst 5) 0 (dbdupdate 3 worst 0 (fun _ => fzero)) (0 + i * 1))
  (fun i => deposit_list 3 (repeat worst 5) 0 (dbdupdate 3 worst 0 (fun _ => fzero)) (0 + 3 + i * 1)).
Proof.
  apply pending_in_binade; [vm_compute; split; discriminate|vm_compute; reflexivity|vm_compute; discriminate|apply C06_case].
Qed.

(** ** C08 *)
(** The leading primary lies in the binade of bin k. *)
Definition head_in_bin {t} (k : Z) (p0 : F t) : Prop :=
  0 <= k <= jmax t /\ is_finite p0 = true /\
  exists n, toZ p0 = n * 2 ^ stored_exp t k /\ 4 * quarter t <= n < 8 * quarter t.
Lemma head_facts t k (p0 : F t) : head_in_bin k p0 ->
  ISNANINF p0 = false /\ feq p0 fzero = false /\ dmindex p0 = k.
Proof.
  intros (Hk & F & n & V & B). assert (PW : priw t k n p0) by (split; auto).
  split; [rewrite ISNANINF_fin, F; reflexivity|]. split; [eapply priw_nonzero; eauto; lia|].
  eapply priw_index; eauto.
Qed.
Lemma bins_empty t j i : 0 <= j <= jmax t -> 0 <= i <= jmax t -> dmbins t j i = pri_word t (j + i) 0.
Proof.
  intros Hj Hi. pose proof (quarter_pos t). apply (priw_inj t (j + i) (6 * quarter t)); [lia|lia|apply bins_priw; auto|].
  pose proof (pri_word_priw t (j + i) 0 ltac:(lia)) as PW. rewrite Z.mod_0_l, Z.add_0_r in PW by lia. exact PW.
Qed.
(** Larger X: the old words move to the end by the difference of the bins, bit for
    bit; the new leading positions are empty bins. *)
Theorem C08_shift t fold p ip c ic (m : mem t) k X :
  1 <= fold <= MAXFOLD t -> layout fold p ip c ic -> head_in_bin k (m p) ->
  is_finite X = true -> bin_of t (toZ X) < k ->
  let j := bin_of t (toZ X) in let s := k - j in
  let m' := dmdupdate fold X p ip c ic m in
  (forall i, 0 <= i < fold ->
     m' (p + i * ip) = (if i <? s then pri_word t (j + i) 0 else m (p + (i - s) * ip)) /\
     m' (c + i * ic) = (if i <? s then fzero else m (c + (i - s) * ic))) /\
  (forall a, ~ in_acc fold p ip c ic a -> m' a = m a).
Proof.
  intros Hf L HH FX Hlt j s m'. destruct (head_facts _ _ _ HH) as (I & N & K).
  pose proof (bin_of_range t (toZ X) (toZ_span t X)) as BR. fold j in BR. rewrite MAXFOLD_eq in Hf.
  pose proof (upd_shift_done L ltac:(lia) m X) as D. cbv zeta in D. rewrite K, (dindex_spec t X FX) in D. fold j s in D.
  specialize (D I N ltac:(unfold s, j; lia)). destruct D as [D1 D2]. split.
  - intros i Hi. unfold m'. destruct (D1 i Hi) as [-> ->]. destruct (Z.ltb_spec i s); split; auto. apply bins_empty; lia.
  - intros a Ha. apply D2. intros i Hi. split; intros ->; apply Ha; exists i; auto.
Qed.
Print Assumptions C08_shift.
(** X not larger: nothing is written. *)
Theorem C08_noop t fold p ip c ic (m : mem t) k X :
  head_in_bin k (m p) -> is_finite X = true -> k <= bin_of t (toZ X) ->
  forall a, dmdupdate fold X p ip c ic m a = m a.
Proof.
  intros HH FX Hge a. destruct (head_facts _ _ _ HH) as (I & N & K).
  rewrite upd_noop; auto. right. split; auto. rewrite K, dindex_spec; auto.
Qed.
Print Assumptions C08_noop.
(** On a zero accumulator: fold empty bins. *)
Theorem C08_zero t fold p ip c ic (m : mem t) X :
  1 <= fold <= MAXFOLD t -> layout fold p ip c ic -> m p = fzero -> is_finite X = true ->
  let m' := dmdupdate fold X p ip c ic m in
  (forall i, 0 <= i < fold -> m' (p + i * ip) = pri_word t (bin_of t (toZ X) + i) 0 /\ m' (c + i * ic) = fzero) /\
  (forall a, ~ in_acc fold p ip c ic a -> m' a = m a).
Proof.
  intros Hf L H0 FX m'. pose proof (bin_of_range t (toZ X) (toZ_span t X)) as BR. rewrite MAXFOLD_eq in Hf.
  pose proof (upd_zero_done L ltac:(lia) m X) as D. rewrite H0 in D.
  specialize (D ltac:(rewrite ISNANINF_fin; reflexivity) eq_refl). destruct D as [D1 D2]. split.
  - intros i Hi. destruct (D1 i Hi) as [E1 E2]. unfold m'. rewrite E1, E2, (dindex_spec t X FX). split; auto. apply bins_empty; lia.
  - intros a Ha. apply D2. intros i Hi. split; intros ->; apply Ha; exists i; auto.
Qed.
Print Assumptions C08_zero.
Lemma pri_word_head t j : 0 <= j <= jmax t -> head_in_bin j (pri_word t j 0).
Proof.
  intros Hj. destruct (pri_word_priw t j 0 ltac:(lia)) as [F V]. split; auto. split; auto.
  eexists. split; [exact V|]. pose proof (quarter_pos t). rewrite Z.mod_0_l by lia. lia.
Qed.
(** Idempotent, from every start that is zero or whose head is in its binade. *)
Theorem C08_idempotent t fold p ip c ic (m : mem t) k X :
  1 <= fold <= MAXFOLD t -> layout fold p ip c ic -> (m p = fzero \/ head_in_bin k (m p)) -> is_finite X = true ->
  let m' := dmdupdate fold X p ip c ic m in
  forall a, dmdupdate fold X p ip c ic m' a = m' a.
Proof.
  intros Hf L HH FX m' a. pose proof (bin_of_range t (toZ X) (toZ_span t X)) as BR.
  destruct HH as [H0|HH].
  - destruct (C08_zero t fold p ip c ic m X Hf L H0 FX) as [D _]. destruct (D 0 ltac:(lia)) as [E _].
    rewrite Z.mul_0_l, !Z.add_0_r in E. fold m' in E. apply (C08_noop t fold p ip c ic m' (bin_of t (toZ X))); auto; [|lia].
    rewrite E. apply pri_word_head. auto.
  - destruct (Z_lt_dec (bin_of t (toZ X)) k) as [Hlt|Hge].
    + destruct (C08_shift t fold p ip c ic m k X Hf L HH FX Hlt) as [D _]. destruct (D 0 ltac:(lia)) as [E _].
      rewrite Z.mul_0_l, !Z.add_0_r in E. fold m' in E. rewrite (proj2 (Z.ltb_lt _ _)) in E by lia.
      apply (C08_noop t fold p ip c ic m' (bin_of t (toZ X))); auto; [|lia]. rewrite E. apply pri_word_head. auto.
    + assert (E : m' p = m p) by (apply (C08_noop t fold p ip c ic m k X); auto; lia).
      apply (C08_noop t fold p ip c ic m' k X); auto; [rewrite E; auto|lia].
Qed.
Print Assumptions C08_idempotent.
Example C08_case : head_in_bin 6 (dbdupdate 3 worst 0 (fun _ => fzero) 0) /\ bin_of Flt (toZ (mkf 1 100 : F Flt)) < 6.
Proof.
  split; [|vm_compute; reflexivity].
  destruct (C08_zero Flt 3 0 1 3 1 (fun _ => fzero) worst ltac:(vm_compute; split; discriminate) (layout_contig 3 0 ltac:(lia)) eq_refl ltac:(vm_compute; reflexivity)) as [D _].
  destruct (D 0 ltac:(lia)) as [E _]. change (head_in_bin 6 (dmdupdate 3 worst 0 1 3 1 (fun _ => fzero) (0 + 0 * 1))). rewrite E.
  replace (bin_of Flt (toZ worst) + 0) with 6 by (vm_compute; reflexivity). apply pri_word_head. vm_compute. split; discriminate.
Qed.

(** ** C09 *)
(** For finite non zero X with 2^(e-1) <= |X| < 2^e (|X| = |toZ X| * 2^emin). *)
Theorem C09_index t (X : F t) e : is_finite X = true ->
  0 <= e - 1 - emin t -> 2 ^ (e - 1 - emin t) <= Z.abs (toZ X) < 2 ^ (e - emin t) ->
  dindex X = Z.min ((emax t - e) / width t) (jmax t).
Proof.
  intros F He H. rewrite dindex_spec by auto. unfold bin_of.
  assert (0 < 2 ^ (e - 1 - emin t)) by (apply pow2_pos; auto).
  destruct (Z.eqb_spec (toZ X) 0); [lia|].
  rewrite (Z.log2_unique (Z.abs (toZ X)) (e - 1 - emin t)); auto.
  - f_equal. f_equal. lia.
  - replace (Z.succ (e - 1 - emin t)) with (e - emin t) by lia. auto.
Qed.
Print Assumptions C09_index.
Theorem C09_zero t s : dindex (B754_zero s : F t) = jmax t.
Proof. rewrite dindex_spec by reflexivity. reflexivity. Qed.
Print Assumptions C09_zero.
Theorem C09_range t (X : F t) : is_finite X = true -> 0 <= dindex X <= MAXINDEX t.
Proof. rewrite MAXINDEX_eq. apply dindex_range. Qed.
Print Assumptions C09_range.
Theorem C09_antitone t (X Y : F t) : is_finite X = true -> is_finite Y = true ->
  Z.abs (toZ X) <= Z.abs (toZ Y) -> dindex Y <= dindex X.
Proof.
  intros FX FY H. rewrite !dindex_spec by auto.
  pose proof (bin_of_range t (toZ Y) (toZ_span t Y)) as BR. unfold bin_of in *.
  destruct (Z.eqb_spec (toZ X) 0); [lia|]. destruct (Z.eqb_spec (toZ Y) 0); [lia|].
  pose proof (Z.log2_le_mono _ _ H). pose proof (width_pos t).
  apply Z.min_le_compat_r. apply Z.div_le_mono; lia.
Qed.
Print Assumptions C09_antitone.
(** dmindex of any accumulator whose leading primary is in the binade of bin k. *)
Theorem C09_dmindex t k (p0 : F t) : head_in_bin k p0 -> dmindex p0 = k /\ dmindex0 p0 = (k =? 0).
Proof.
  intros H. split; [apply head_facts; auto|]. destruct H as (Hk & F & n & V & B).
  eapply priw_index0; [lia|split; eauto|auto].
Qed.
Print Assumptions C09_dmindex.
Example C09_case : dindex (mkf 1 1000 : F Dbl) = 0 /\ dindex (mkf 1 (-1074) : F Dbl) = 51 /\ dindex (mkf (-3) 0 : F Flt) = 9.
Proof. vm_compute. auto. Qed.

(** ** C10 *)
(** toZ is in units of 2^emin: 3*2^(e-1) is 1.5*2^e. *)
Theorem C10_bins t j : 1 <= j <= MAXINDEX t ->
  is_finite (dmbins t 0 j) = true /\
  toZ (dmbins t 0 j) = 3 * 2 ^ (emax t + prec t - width t - j * width t - emin t - 1).
Proof.
  rewrite MAXINDEX_eq. intros Hj. pose proof (jmax_pos t).
  destruct (bins_priw t 0 j ltac:(lia) ltac:(lia)) as [F V]. split; auto. rewrite Z.add_0_l in V. rewrite V.
  pose proof (stored_exp_ge t j ltac:(lia)) as SG. rewrite stored_exp_pos, unit_exp_in in * by lia.
  unfold quarter. replace (6 * 2 ^ (prec t - 3)) with (3 * 2 ^ (prec t - 2)).
  - rewrite <- Z.mul_assoc, <- Z.pow_add_r by (pose proof (prec_pos t); lia). f_equal. f_equal.
    unfold SpecProofs.span. lia.
  - replace (prec t - 2) with (Z.succ (prec t - 3)) by lia. rewrite Z.pow_succ_r by (pose proof (prec_pos t); lia). lia.
Qed.
Print Assumptions C10_bins.
Theorem C10_bin0 t : is_finite (dmbins t 0 0) = true /\ toZ (dmbins t 0 0) = 3 * 2 ^ (emax t - 1 - emin t - 1).
Proof. destruct t; vm_compute; auto. Qed.
Print Assumptions C10_bin0.
(** Every access index+i with index <= MAXINDEX, i < MAXFOLD is inside the table, and
    past MAXINDEX it is the last bin. *)
Theorem C10_table t j i : 0 <= j <= MAXINDEX t -> 0 <= i < MAXFOLD t ->
  is_finite (dmbins t j i) = true /\ dmbins t j i = dmbins t 0 (Z.min (j + i) (MAXINDEX t)) /\ 0 <= j + i < MAXINDEX t + MAXFOLD t.
Proof.
  rewrite MAXFOLD_eq, MAXINDEX_eq. intros Hj Hi. split; [apply bins_priw; lia|]. split; [|lia].
  pose proof (quarter_pos t).
  destruct (Z_le_dec (j + i) (jmax t)) as [HL|HG].
  - rewrite Z.min_l by lia. reflexivity.
  - rewrite Z.min_r by lia. apply (priw_inj t (j + i) (6 * quarter t)); [lia|lia|apply bins_priw; lia|].
    pose proof (bins_priw t 0 (jmax t) ltac:(lia) ltac:(lia)) as [F V]. split; auto. rewrite V. f_equal. f_equal.
    rewrite Z.add_0_l, !stored_exp_pos by (pose proof (jmax_pos t); lia). unfold unit_exp. now rewrite (Z.min_r (j + i)), Z.min_id by lia.
Qed.
Print Assumptions C10_table.

(** ** C11 *)
(** Spec.special, spelled out. *)
Definition ieee_sum_special {t} (xs : list (F t)) (r : F t) : Prop :=
  (In B754_nan xs \/ (In (B754_infinity false) xs /\ In (B754_infinity true) xs) -> r = B754_nan) /\
  (forall s, ~ In B754_nan xs -> In (B754_infinity s) xs -> ~ In (B754_infinity (negb s)) xs -> r = B754_infinity s).
Lemma special_ok {t} (xs : list (F t)) : all_finite xs = false -> ieee_sum_special xs (special xs).
Proof.
  intros AF.
  assert (N : existsb f_isnan xs = true <-> In B754_nan xs).
  { rewrite existsb_exists. split; [intros (x & Hx & E); destruct x; try discriminate; auto|intros H; exists B754_nan; auto]. }
  assert (PI : existsb is_pinf xs = true <-> In (B754_infinity false) xs).
  { rewrite existsb_exists. split; [intros (x & Hx & E); destruct x as [|[]| |]; try discriminate; auto|intros H; exists (B754_infinity false); auto]. }
  assert (NI : existsb is_ninf xs = true <-> In (B754_infinity true) xs).
  { rewrite existsb_exists. split; [intros (x & Hx & E); destruct x as [|[]| |]; try discriminate; auto|intros H; exists (B754_infinity true); auto]. }
  unfold special. split.
  - intros [H|[H1 H2]].
    + apply N in H. now rewrite H.
    + apply PI in H1. apply NI in H2. rewrite H1, H2. now rewrite orb_true_r.
  - intros s H1 H2 H3. assert (E1 : existsb f_isnan xs = false) by (destruct (existsb f_isnan xs); auto; exfalso; apply H1, N; auto).
    rewrite E1. cbn [orb]. destruct s; cbn [negb] in H3.
    + assert (existsb is_ninf xs = true) by (apply NI; auto).
      assert (existsb is_pinf xs = false) by (destruct (existsb is_pinf xs); auto; exfalso; apply H3, PI; auto).
      rewrite H, H0. reflexivity.
    + assert (existsb is_ninf xs = false) by (destruct (existsb is_ninf xs); auto; exfalso; apply H3, NI; auto).
      rewrite H. now rewrite andb_false_r.
Qed.
Lemma holds_nonfinite t fold us xs (m : mem t) p ip c ic : 1 <= fold ->
  all_finite xs = false -> holds t fold us xs (P_of m p ip) (P_of m c ic) ->
  m p = special xs /\ ddmconv fold p ip c ic m = special xs.
Proof.
  intros Hf AF H. unfold holds in H. rewrite AF in H. rewrite P_of_0 in H. split; auto.
  rewrite ddmconv_special; auto. rewrite H, ISNANINF_fin. unfold special. destruct (_ || _); auto.
Qed.
Theorem C11_nonfinite t fold (u : tree t) n m :
  2 <= fold <= MAXFOLD t -> all_finite (leaves u) = false -> Z.of_nat (length (leaves u)) <= CAPACITY t ->
  let '(a, _, r) := eval fold u n m in ieee_sum_special (leaves u) (ddbconv fold a r).
Proof.
  intros Hf AF HC. rewrite CAPACITY_eq in HC. pose proof (eval_holds fold Hf u n m HC) as H.
  destruct (eval fold u n m) as [[a e] r]. destruct H as (_ & _ & H & _).
  destruct (holds_nonfinite t fold [] (leaves u) r a 1 (a + fold) 1 ltac:(lia) AF H) as [_ E].
  unfold ddbconv. rewrite E. apply special_ok. auto.
Qed.
Print Assumptions C11_nonfinite.
Theorem C11_sequential t fold (xs : list (F t)) Y m :
  2 <= fold <= MAXFOLD t -> all_finite xs = false -> Z.of_nat (length xs) <= CAPACITY t ->
  ieee_sum_special xs (ddbconv fold Y (sum_list fold Y xs m)).
Proof.
  intros Hf AF HC. rewrite CAPACITY_eq in HC. destruct (sum_list_holds fold Hf Y xs m HC) as [H _].
  destruct (holds_nonfinite t fold [] xs (sum_list fold Y xs m) Y 1 (Y + fold) 1 ltac:(lia) AF H) as [_ E].
  unfold ddbconv. rewrite E. apply special_ok. auto.
Qed.
Print Assumptions C11_sequential.
Definition inf_tree : tree Dbl := MergeL (Push (mkf (-1) 1023) Empty) (MergeR (Push (B754_infinity true) (Push (mkf 1 1023) Empty)) Empty).
Example C11_case : let '(a, _, r) := eval 2 inf_tree 0 (fun _ => fzero) in ddbconv 2 a r = B754_infinity true.
Proof.
  pose proof (C11_nonfinite Dbl 2 inf_tree 0 (fun _ => fzero) ltac:(vm_compute; split; discriminate) ltac:(vm_compute; reflexivity) ltac:(vm_compute; discriminate)) as H.
  destruct (eval 2 inf_tree 0 (fun _ => fzero)) as [[a e] r]. apply (proj2 H true).
  - intros N. assert (E : existsb f_isnan (leaves inf_tree) = true) by (apply existsb_exists; eexists; split; [exact N|reflexivity]).
    vm_compute in E. discriminate.
  - cbn [inf_tree leaves app In]. auto.
  - intros N. assert (E : existsb is_pinf (leaves inf_tree) = true) by (apply existsb_exists; eexists; split; [exact N|reflexivity]).
    vm_compute in E. discriminate.
Qed.

(** ** C12 *)
Theorem C12_conversion t fold (u u' : tree t) n n' m m' :
  2 <= fold <= MAXFOLD t -> Z.of_nat (length (leaves u)) <= CAPACITY t ->
  Permutation (leaves u) (leaves u') ->
  let '(a, _, r) := eval fold u n m in
  let '(a', _, r') := eval fold u' n' m' in
  ddbconv fold a r = ddbconv fold a' r'.
Proof.
  intros Hf HC HP. rewrite CAPACITY_eq in HC.
  pose proof (eval_holds fold Hf u n m HC) as H1.
  pose proof (eval_holds fold Hf u' n' m' ltac:(rewrite <- (Permutation_length HP); auto)) as H2.
  destruct (eval fold u n m) as [[a e] r]. destruct (eval fold u' n' m') as [[a' e'] r'].
  destruct H1 as (_ & _ & H1 & _). destruct H2 as (_ & _ & H2 & _).
  exact (ddmconv_perm fold a 1 (a + fold) 1 a' 1 (a' + fold) 1 r r' [] _ _ (proj1 Hf) HP H1 H2).
Qed.
Print Assumptions C12_conversion.
(** The same for arbitrary histories on strided accumulators. *)
Theorem C12_history t fold (R R' : nat -> reg) (ops ops' : list (op t)) m m' s s' r r' :
  2 <= fold <= MAXFOLD t -> registers fold R -> registers fold R' ->
  ok fold R m s -> ok fold R' m' s' -> legal_all ops s -> legal_all ops' s' ->
  let g := tracked ops s r in let g' := tracked ops' s' r' in
  normal g = true -> normal g' = true ->
  Permutation (summed g) (summed g') -> Permutation (room g) (room g') ->
  ddmconv fold (rp (R r)) (rip (R r)) (rc (R r)) (ric (R r)) (run fold R ops m) =
  ddmconv fold (rp (R' r')) (rip (R' r')) (rc (R' r')) (ric (R' r')) (run fold R' ops' m').
Proof.
  intros Hf HR HR' O O' L L' g g' N N' PX PU.
  destruct (run_ok fold R Hf HR ops m s O L r) as (_ & _ & H).
  destruct (run_ok fold R' Hf HR' ops' m' s' O' L' r') as (_ & _ & H').
  specialize (H N). specialize (H' N').
  apply (holds_perm _ _ (room g') (room g) (summed g') (summed g')) in H'; [|symmetry; auto|reflexivity].
  exact (ddmconv_perm fold _ _ _ _ _ _ _ _ _ _ (room g) (summed g) (summed g') (proj1 Hf) PX H H').
Qed.
Print Assumptions C12_history.
Example C12_case : (let '(a, _, r) := eval 3 sample_tree 0 (fun _ => fzero) in ddbconv 3 a r) =
  (let '(a, _, r) := eval 3 (MergeL Empty sample_tree) 50 (fun _ => fnan) in ddbconv 3 a r).
Proof.
  pose proof (C12_conversion Dbl 3 sample_tree (MergeL Empty sample_tree) 0 50 (fun _ => fzero) (fun _ => fnan)
    ltac:(vm_compute; split; discriminate) ltac:(vm_compute; discriminate) (Permutation_refl _)) as H.
  destruct (eval 3 sample_tree 0 _) as [[a e] r]. destruct (eval 3 _ 50 _) as [[a' e'] r']. exact H.
Qed.
