(** * C73: sums that fit the precision are exact; integer data give exact integer results *)
From Coq Require Import ZArith Bool List Lia Reals Lra Permutation Ascii.
From Flocq Require Import Core BinarySingleNaN.
From Verif Require Import Fp Mem Binned Spec Client FpProofs BitProofs CoreArith SpecProofs WordProofs MemProofs AccProofs SumProofs History ClientProofs ConvProofs RescaleProofs ScaleProofs SumError ConvTerms ConvFloat ConvSpec RoundTrip PropsSum Gen GenProofs Blas LaneProofs BlasSpec PropsBlas PropsScale PropsAcc PropsConv PropsSign Gemv GemvSpec GemvProofs PropsGemv PropsApi Exact.
Import ListNotations.
Open Scope Z_scope.

(** ** The specification *)
Definition zsum (l : list Z) : Z := fold_right Z.add 0 l.
(** The number [x] is the integer [k]. *)
Definition isint {t} (x : F t) (k : Z) : Prop := is_finite x = true /\ B2R x = IZR k.

Lemma zsum_app a b : zsum (a ++ b) = zsum a + zsum b.
Proof. induction a as [|x a IH]; cbn; [reflexivity|]. unfold zsum in *. cbn [fold_right app]. lia. Qed.
Lemma zsum_rev a : zsum (rev a) = zsum a.
Proof. induction a as [|x a IH]; [reflexivity|]. cbn [rev]. rewrite zsum_app, IH. unfold zsum. cbn [fold_right]. lia. Qed.

(** ** Conversion of an accumulator whose data fit *)
Lemma conv_window t fold e (xs : list (F t)) Y (m : mem t) :
  2 <= fold <= MAXFOLD t -> all_finite xs = true -> Z.of_nat (length xs) <= CAPACITY t -> acc_at fold [] xs m Y ->
  unit_exp t (lead xs + fold - 1) <= e -> Forall (fun x => (2 ^ e | toZ x)) xs -> mags_sum xs <= 2 ^ (53 + e) ->
  Z.abs (exact_sum xs) <= 2 ^ (emax t - emin t) - 2 ^ (emax t - emin t - 20) ->
  is_finite (ddbconv fold Y m) = true /\ B2R (ddbconv fold Y m) = RN t (IZR (exact_sum xs) * bpow radix2 (emin t)).
Proof.
  intros Hf AF HL HA He HD HM HB. rewrite CAPACITY_eq in HL. destruct xs as [|x l].
  - destruct (conv_null fold [] Y m Hf AF HL ltac:(reflexivity) HA) as [A B]. split; [exact A|]. rewrite toZ_B2R, B. cbn [exact_sum map fold_right].
    rewrite Rmult_0_l. symmetry. apply round_0, valid_rnd_N.
  - set (xs := x :: l) in *. rewrite Forall_forall in HD. rewrite (conv_words_ddb t).
    destruct (exact_conv t xs fold e AF HL Hf He HD HM _ _ ltac:(discriminate) HA HB) as [A B]. split; [exact A|]. rewrite B.
    destruct t; [|reflexivity]. cbn [cround]. symmetry. apply round_generic; [apply valid_rnd_N|]. exact (fmt_z Dbl xs fold e He HD HM).
Qed.
Lemma lead_in {t} (xs : list (F t)) : all_finite xs = true -> lead xs = jmax t \/ exists x, In x xs /\ lead xs = bin_of t (toZ x).
Proof.
  unfold lead. induction xs as [|x l IH]; cbn [map fold_right]; [now left|]. rewrite all_finite_cons. intros H. apply andb_true_iff in H as [Fx Fl].
  destruct (IH Fl) as [E|(y & I & E)].
  - rewrite E. destruct (Z.le_ge_cases (jmax t) (findex x)); [left; lia|]. right. exists x. split; [now left|]. unfold findex in *. rewrite Fx in *. lia.
  - destruct (Z.le_ge_cases (findex y) (findex x)).
    + right. exists y. split; [now right|]. rewrite E. assert (Fy : is_finite y = true) by (unfold all_finite in Fl; rewrite forallb_forall in Fl; auto). unfold findex in *. rewrite Fx, Fy in *. lia.
    + right. exists x. split; [now left|]. rewrite E. assert (Fy : is_finite y = true) by (unfold all_finite in Fl; rewrite forallb_forall in Fl; auto). unfold findex in *. rewrite Fx, Fy in *. lia.
Qed.
Lemma mags_in {t} (xs : list (F t)) x : In x xs -> Z.abs (toZ x) <= mags_sum xs.
Proof.
  unfold mags_sum. induction xs as [|y l IH]; [intros []|]. cbn [map fold_right].
  assert (0 <= fold_right Z.add 0 (map (fun x => Z.abs (toZ x)) l)) by (clear; induction l; cbn [map fold_right]; lia).
  intros [->|I]; [lia|specialize (IH I); lia].
Qed.
(** The unit of the last bin kept, from the size of the data. *)
Lemma unit_lead t fold q (xs : list (F t)) : 2 <= fold -> all_finite xs = true -> mags_sum xs < 2 ^ (q + 1) -> 0 <= q ->
  unit_exp t (lead xs + fold - 1) <= Z.max (unit_exp t (jmax t)) (q + 1 - (fold - 1) * width t).
Proof.
  intros Hf AF HM Hq. pose proof (width_pos t) as WP. pose proof (jmax_pos t) as JP. unfold unit_exp.
  destruct (lead_in xs AF) as [E|(x & I & E)]; [rewrite E; apply Z.max_le_iff; left; nia|].
  pose proof (mags_in xs x I) as M. unfold bin_of in E. destruct (Z.eqb_spec (toZ x) 0) as [Z0|NZ]; [rewrite E; apply Z.max_le_iff; left; nia|].
  assert (L : Z.log2 (Z.abs (toZ x)) <= q).
  { assert (Z.log2 (Z.abs (toZ x)) < q + 1); [|lia]. apply Z.log2_lt_pow2; lia. }
  set (g := emax t - emin t - (Z.log2 (Z.abs (toZ x)) + 1)) in *.
  destruct (Z.le_ge_cases (jmax t) (lead xs + fold - 1)); [apply Z.max_le_iff; left; nia|].
  apply Z.max_le_iff. right. rewrite Z.min_l by lia. assert (Q : lead xs = g / width t) by lia.
  pose proof (Z.div_mod g (width t) ltac:(lia)) as DM. pose proof (Z.mod_pos_bound g (width t) ltac:(lia)). rewrite <- Q in DM. unfold g in *. nia.
Qed.

(** Sums of data that are multiples of 2^e, with at most 53 significant bits in the sum of the magnitudes, are
    correctly rounded: exact for double, the float nearest the exact sum for float. *)
Theorem C73_sum t tu fold e p N X incX tmp (m : mem t) :
  2 <= fold <= MAXFOLD t -> tuned t tu -> 0 <= N <= CAPACITY t -> clear_of X incX N tmp (dbnum fold) ->
  let xs := read m X incX N in
  all_finite xs = true -> 0 <= p <= 53 -> p + 1 <= (fold - 1) * width t -> unit_exp t (jmax t) <= e ->
  Forall (fun x => (2 ^ e | toZ x)) xs -> zsum (map (fun x => Z.abs (toZ x)) xs) <= 2 ^ (p + e) ->
  Z.abs (zsum (map toZ xs)) <= 2 ^ (emax t - emin t) - 2 ^ (emax t - emin t - 20) ->
  let r := rdsum tu fold N X incX tmp m in
  is_finite r = true /\ B2R r = RN t (IZR (zsum (map toZ xs)) * bpow radix2 (emin t)) /\
  (p <= prec t -> toZ r = zsum (map toZ xs)).
Proof.
  intros Hf HT HN CX xs AF Hp Hw Hu HD HM HB r.
  assert (E : r = ddbconv fold 0 (sum_list fold 0 xs (fun _ => fzero))) by (apply C20_is_scalar_sum; auto; lia).
  assert (LN : Z.of_nat (length xs) = N) by (apply read_length; lia).
  pose proof (unit_exp_ge t (jmax t)) as UP.
  change (zsum (map toZ xs)) with (exact_sum xs) in *. change (zsum (map (fun x => Z.abs (toZ x)) xs)) with (mags_sum xs) in HM.
  assert (HU : unit_exp t (lead xs + fold - 1) <= e).
  { assert (2 ^ (p + e) < 2 ^ (p + e + 1)) by (apply Z.pow_lt_mono_r; lia).
    pose proof (unit_lead t fold (p + e) xs ltac:(lia) AF ltac:(lia) ltac:(lia)). lia. }
  assert (HM' : mags_sum xs <= 2 ^ (53 + e)) by (assert (2 ^ (p + e) <= 2 ^ (53 + e)) by (apply Z.pow_le_mono_r; lia); lia).
  destruct (conv_window t fold e xs 0 (sum_list fold 0 xs (fun _ => fzero)) Hf AF ltac:(lia)) as [A B]; auto.
  { apply sum_list_at; [exact Hf|]. rewrite CAPACITY_eq in HN. lia. }
  rewrite E. split; [exact A|]. split; [exact B|]. intros HP.
  assert (F : fmt t (IZR (exact_sum xs) * bpow radix2 (emin t))).
  { apply (fmt_mul t (e + emin t)); [lia| |].
    - apply v_mul; [lia|]. apply z_mul. rewrite Forall_forall in HD. exact HD.
    - apply (Rle_trans _ (bpow radix2 (p + e + emin t))); [|apply bpow_le; lia]. apply v_abs; [lia|]. pose proof (z_abs t xs). lia. }
  rewrite (round_generic radix2 _ ZnearestE _ F) in B. rewrite toZ_B2R in B.
  apply eq_IZR. apply (Rmult_eq_reg_r (bpow radix2 (emin t))); [exact B|]. pose proof (bpow_gt_0 radix2 (emin t)). lra.
Qed.
Print Assumptions C73_sum.

(** ** Integer data *)
Lemma isint_toZ {t} (x : F t) k : isint x k -> toZ x = k * 2 ^ (- emin t).
Proof.
  intros [Fx E]. rewrite toZ_B2R in E. apply eq_IZR. rewrite mult_IZR. pose proof (bpow_gt_0 radix2 (emin t)) as B0.
  assert (EP : 0 <= - emin t) by (destruct t; cbv; discriminate). rewrite <- bpow_IZR by exact EP.
  apply (Rmult_eq_reg_r (bpow radix2 (emin t))); [|lra]. rewrite E, Rmult_assoc, <- bpow_plus. replace (- emin t + emin t) with 0 by lia. cbn. ring.
Qed.
Lemma toZ_isint {t} (x : F t) k : is_finite x = true -> toZ x = k * 2 ^ (- emin t) -> isint x k.
Proof.
  intros Fx E. split; [exact Fx|]. rewrite toZ_B2R, E, mult_IZR. assert (EP : 0 <= - emin t) by (destruct t; cbv; discriminate). rewrite <- bpow_IZR by exact EP.
  rewrite Rmult_assoc, <- bpow_plus. replace (- emin t + emin t) with 0 by lia. cbn. ring.
Qed.
Lemma isint_fmt t k : Z.abs k <= 2 ^ prec t -> fmt t (IZR k).
Proof.
  intros H. apply (fmt_mul t 0); [destruct t; cbv; discriminate|exists k; cbn; ring|]. rewrite <- abs_IZR. rewrite bpow_IZR by (pose proof (prec_pos t); lia). apply IZR_le, H.
Qed.
Lemma isint_lt t k : Z.abs k <= 2 ^ prec t -> (Rabs (IZR k) < bpow radix2 (emax t))%R.
Proof.
  intros H. rewrite <- abs_IZR, bpow_IZR by (destruct t; cbv; discriminate). apply IZR_lt. assert (2 ^ prec t < 2 ^ emax t) by (apply Z.pow_lt_mono_r; [lia|destruct t; cbv; discriminate|exact (prec_lt_emax t)]). lia.
Qed.
Lemma isint_mul {t} (x y : F t) a b : isint x a -> isint y b -> Z.abs (a * b) <= 2 ^ prec t -> isint (fmul x y) (a * b).
Proof.
  intros [Fx Ex] [Fy Ey] H. apply (fmul_real t x y (IZR (a * b))); auto; [now rewrite Ex, Ey, mult_IZR|now apply isint_fmt|now apply isint_lt].
Qed.
Lemma isint_abs {t} (x : F t) a : isint x a -> isint (fabs x) (Z.abs a).
Proof. intros [Fx Ex]. unfold fabs. split; [now rewrite is_finite_Babs|]. now rewrite B2R_Babs, Ex, abs_IZR. Qed.

Section ints.
  Context {t : ty}.
  Local Notation u := (2 ^ (- emin t)).
  Lemma u_pos : 0 < u. Proof. apply pow2_pos. destruct t; cbv; discriminate. Qed.
  Lemma ints_finite (xs : list (F t)) ks : Forall2 isint xs ks -> all_finite xs = true.
  Proof. induction 1 as [|x k xs ks [F _] H IH]; [reflexivity|]. rewrite all_finite_cons, F, IH. reflexivity. Qed.
  Lemma ints_sum (xs : list (F t)) ks : Forall2 isint xs ks -> exact_sum xs = zsum ks * u.
  Proof. induction 1 as [|x k xs ks I H IH]; [reflexivity|]. unfold exact_sum, zsum in *. cbn [map fold_right]. rewrite IH, (isint_toZ x k I). ring. Qed.
  Lemma ints_mags (xs : list (F t)) ks : Forall2 isint xs ks -> mags_sum xs = zsum (map Z.abs ks) * u.
  Proof.
    pose proof u_pos. induction 1 as [|x k xs ks I H' IH]; [reflexivity|]. unfold mags_sum, zsum in *. cbn [map fold_right]. rewrite IH, (isint_toZ x k I).
    rewrite Z.abs_mul, (Z.abs_eq u) by lia. ring.
  Qed.
  Lemma ints_in (xs : list (F t)) ks x : Forall2 isint xs ks -> In x xs -> exists k, In k ks /\ isint x k.
  Proof. induction 1 as [|y k xs ks I H IH]; [intros []|]. intros [->|J]; [exists k; split; [now left|exact I]|]. destruct (IH J) as (k' & A & B). exists k'. split; [now right|exact B]. Qed.
  Lemma zsum_in ks k : In k ks -> Z.abs k <= zsum (map Z.abs ks).
  Proof.
    unfold zsum. induction ks as [|y l IH]; [intros []|]. cbn [map fold_right].
    assert (0 <= fold_right Z.add 0 (map Z.abs l)) by (clear; induction l; cbn [map fold_right]; lia). intros [->|I]; [lia|specialize (IH I); lia].
  Qed.
  Lemma zsum_two ks k : zsum (map Z.abs ks) <= 2 ^ prec t -> In k ks -> Z.abs k = 2 ^ prec t -> forall h, In h ks -> h = 0 \/ Z.abs h = 2 ^ prec t.
  Proof.
    unfold zsum. intros HS HI HK h Hh. set (P := 2 ^ prec t) in *. clearbody P.
    assert (PO : forall l, 0 <= fold_right Z.add 0 (map Z.abs l)) by (induction l; cbn [map fold_right]; lia).
    revert h Hh. induction ks as [|y l IH]; [destruct HI|]. cbn [map fold_right] in HS. pose proof (PO l).
    destruct HI as [->|HI].
    - intros h [<-|Hh]; [now right|]. left. pose proof (zsum_in l h Hh) as Q. unfold zsum in Q. lia.
    - pose proof (zsum_in l k HI) as Q. unfold zsum in Q. intros h [<-|Hh]; [left; lia|]. apply IH; auto. lia.
  Qed.
  Lemma lead_ge (xs : list (F t)) q : all_finite xs = true -> (forall x, In x xs -> Z.abs (toZ x) < 2 ^ (q - emin t)) -> q <= emax t ->
    Z.min ((emax t - q) / width t) (jmax t) <= lead xs.
  Proof.
    intros AF HM Hq. destruct (lead_in xs AF) as [->|(x & I & ->)]; [lia|]. specialize (HM x I). unfold bin_of. destruct (Z.eqb_spec (toZ x) 0); [lia|].
    apply Z.min_le_compat_r. pose proof (width_pos t). apply Z.div_le_mono; [lia|].
    assert (Z.log2 (Z.abs (toZ x)) < q - emin t) by (apply Z.log2_lt_pow2; lia). lia.
  Qed.
  Lemma ints_window fold (xs : list (F t)) ks : 2 <= fold -> Forall2 isint xs ks -> zsum (map Z.abs ks) <= 2 ^ prec t ->
    exists e, unit_exp t (lead xs + fold - 1) <= e /\ Forall (fun x => (2 ^ e | toZ x)) xs /\ mags_sum xs <= 2 ^ (53 + e).
  Proof.
    intros Hf HI HS. pose proof (ints_finite xs ks HI) as AF. pose proof u_pos as UP.
    assert (EM : 0 <= - emin t) by (destruct t; cbv; discriminate).
    assert (P53 : prec t <= 53) by (destruct t; cbv; discriminate). pose proof (prec_pos t) as PP.
    assert (MS : forall e, - emin t <= e -> mags_sum xs <= 2 ^ (53 + e)).
    { intros e He. rewrite (ints_mags xs ks HI). apply (Z.le_trans _ (2 ^ prec t * u)); [nia|]. rewrite <- Z.pow_add_r by lia. apply Z.pow_le_mono_r; lia. }
    destruct (existsb (fun k => Z.abs k =? 2 ^ prec t) ks) eqn:EX.
    - apply existsb_exists in EX as (k & IK & EK). apply Z.eqb_eq in EK.
      exists (prec t - emin t). split; [|split; [|apply MS; lia]].
      + assert (L : Z.min ((emax t - (prec t + 1)) / width t) (jmax t) <= lead xs).
        { apply lead_ge; [exact AF| |destruct t; cbv; discriminate]. intros x Hx. pose proof (mags_in xs x Hx) as M. rewrite (ints_mags xs ks HI) in M.
          replace (prec t + 1 - emin t) with (1 + prec t + - emin t) by lia. rewrite !Z.pow_add_r by lia. change (2 ^ 1) with 2. pose proof (pow2_pos (prec t) ltac:(lia)). nia. }
        unfold unit_exp. clear - L Hf. destruct t; cbn [emax width jmax prec] in *; unfold emin in *; cbn [emax prec] in *.
        * change ((1024 - (53 + 1)) / 40) with 24 in L. lia.
        * change ((128 - (24 + 1)) / 13) with 7 in L. lia.
      + apply Forall_forall. intros x Hx. destruct (ints_in xs ks x HI Hx) as (h & Ih & Jh). rewrite (isint_toZ x h Jh).
        replace (prec t - emin t) with (prec t + - emin t) by lia. rewrite Z.pow_add_r by lia. apply Z.mul_divide_mono_r.
        destruct (zsum_two ks k HS IK EK h Ih) as [->|Eh]; [apply Z.divide_0_r|]. apply Z.divide_abs_r. rewrite Eh. apply Z.divide_refl.
    - exists (- emin t). split; [|split; [|apply MS; lia]].
      + assert (L : Z.min ((emax t - prec t) / width t) (jmax t) <= lead xs).
        { apply lead_ge; [exact AF| |destruct t; cbv; discriminate]. intros x Hx. destruct (ints_in xs ks x HI Hx) as (h & Ih & Jh). rewrite (isint_toZ x h Jh).
          assert (NE : Z.abs h <> 2 ^ prec t). { intros E0. assert (existsb (fun k => Z.abs k =? 2 ^ prec t) ks = true); [|congruence]. apply existsb_exists. exists h. split; [exact Ih|]. now apply Z.eqb_eq. }
          pose proof (zsum_in ks h Ih). rewrite Z.abs_mul, (Z.abs_eq u) by lia. replace (prec t - emin t) with (prec t + - emin t) by lia. rewrite Z.pow_add_r by lia. nia. }
        unfold unit_exp. clear - L Hf. destruct t; cbn [emax width jmax prec] in *; unfold emin in *; cbn [emax prec] in *.
        * change ((1024 - 53) / 40) with 24 in L. lia.
        * change ((128 - 24) / 13) with 8 in L. lia.
      + apply Forall_forall. intros x Hx. destruct (ints_in xs ks x HI Hx) as (h & Ih & Jh). rewrite (isint_toZ x h Jh). apply Z.divide_factor_r.
  Qed.
  Lemma ints_conv fold (xs : list (F t)) ks Y (m : mem t) : 2 <= fold <= MAXFOLD t -> Forall2 isint xs ks -> zsum (map Z.abs ks) <= 2 ^ prec t ->
    Z.of_nat (length xs) <= CAPACITY t -> acc_at fold [] xs m Y -> isint (ddbconv fold Y m) (zsum ks).
  Proof.
    intros Hf HI HS HL HA. destruct (ints_window fold xs ks ltac:(lia) HI HS) as (e & E1 & E2 & E3).
    assert (EM : 0 <= - emin t) by (destruct t; cbv; discriminate). pose proof (prec_pos t) as PP.
    assert (SA : Z.abs (zsum ks) <= 2 ^ prec t).
    { apply (Z.le_trans _ (zsum (map Z.abs ks))); [|exact HS]. clear. unfold zsum. induction ks as [|k ks IH]; cbn [map fold_right]; lia. }
    destruct (conv_window t fold e xs Y m Hf (ints_finite xs ks HI) HL HA E1 E2 E3) as [A B].
    { rewrite (ints_sum xs ks HI), Z.abs_mul, (Z.abs_eq u) by (pose proof u_pos; lia). apply (Z.le_trans _ (2 ^ prec t * u)); [pose proof u_pos; nia|].
      clear. destruct t; vm_compute; discriminate. }
    split; [exact A|]. rewrite B, (ints_sum xs ks HI), mult_IZR, <- bpow_IZR, Rmult_assoc, <- bpow_plus by exact EM.
    replace (- emin t + emin t) with 0 by lia. cbn [bpow]. rewrite Rmult_1_r. apply round_generic; [apply valid_rnd_N|]. now apply isint_fmt.
  Qed.
  Lemma ints_list fold (xs : list (F t)) ks : 2 <= fold <= MAXFOLD t -> Forall2 isint xs ks -> zsum (map Z.abs ks) <= 2 ^ prec t ->
    Z.of_nat (length xs) <= CAPACITY t -> forall Y (m : mem t), isint (ddbconv fold Y (sum_list fold Y xs m)) (zsum ks).
  Proof. intros Hf HI HS HL Y m. apply (ints_conv fold xs ks); auto. apply sum_list_at; [exact Hf|]. rewrite <- CAPACITY_eq. exact HL. Qed.
End ints.

Lemma ints_length {t} (xs : list (F t)) ks : Forall2 isint xs ks -> length xs = length ks.
Proof. induction 1; cbn; congruence. Qed.
Lemma map_ints {t} (f : Z -> F t) (k : Z -> Z) N : (forall i, 0 <= i < N -> isint (f i) (k i)) -> Forall2 isint (map f (zseq 0 N)) (map k (zseq 0 N)).
Proof.
  intros H. assert (G : forall i, In i (zseq 0 N) -> isint (f i) (k i)) by (intros i Hi; apply zseq_In in Hi; apply H; lia).
  induction (zseq 0 N) as [|i l IH]; [constructor|]. cbn [map]. constructor; [apply G; now left|]. apply IH. intros j Hj. apply G. now right.
Qed.

(** reproBLAS_rdsum of integers. *)
Theorem C73_sum_integers t tu fold N X incX tmp (m : mem t) (k : Z -> Z) :
  2 <= fold <= MAXFOLD t -> tuned t tu -> 0 <= N <= CAPACITY t -> clear_of X incX N tmp (dbnum fold) ->
  (forall i, 0 <= i < N -> isint (m (X + i * incX)) (k i)) -> zsum (map (fun i => Z.abs (k i)) (zseq 0 N)) <= 2 ^ prec t ->
  isint (rdsum tu fold N X incX tmp m) (zsum (map k (zseq 0 N))).
Proof.
  intros Hf HT HN CX HI HS. pose proof (map_ints (fun i => m (X + i * incX)) k N HI) as F2. fold (read m X incX N) in F2.
  rewrite (C20_is_scalar_sum t tu fold N X incX tmp 0 m (fun _ => fzero)); auto; [|now apply (ints_finite _ _ F2)].
  apply ints_list; auto; [now rewrite map_map|]. pose proof (read_length m X incX N ltac:(lia)). lia.
Qed.
Print Assumptions C73_sum_integers.
Theorem C73_asum_integers t tu fold N X incX tmp (m : mem t) (k : Z -> Z) :
  2 <= fold <= MAXFOLD t -> tuned t tu -> 0 <= N <= CAPACITY t -> clear_of X incX N tmp (dbnum fold) ->
  (forall i, 0 <= i < N -> isint (m (X + i * incX)) (k i)) -> zsum (map (fun i => Z.abs (k i)) (zseq 0 N)) <= 2 ^ prec t ->
  isint (rdasum tu fold N X incX tmp m) (zsum (map (fun i => Z.abs (k i)) (zseq 0 N))).
Proof.
  intros Hf HT HN CX HI HS.
  pose proof (map_ints (fun i => fabs (m (X + i * incX))) (fun i => Z.abs (k i)) N (fun i Hi => isint_abs _ _ (HI i Hi))) as F2.
  assert (E : magnitudes m X incX N = map (fun i => fabs (m (X + i * incX))) (zseq 0 N)) by (unfold magnitudes, read; now rewrite map_map).
  rewrite <- E in F2. rewrite (rdasum_value t tu fold N X incX tmp 0 m (fun _ => fzero)); auto; [|now apply (ints_finite _ _ F2)].
  apply ints_list; auto.
  - rewrite map_map. erewrite map_ext; [exact HS|]. intros i. cbn beta. lia.
  - rewrite magnitudes_length; lia.
Qed.
Print Assumptions C73_asum_integers.
Theorem C73_dot_integers t tu fold N X incX Y incY tmp (m : mem t) (a b : Z -> Z) :
  2 <= fold <= MAXFOLD t -> tuned t tu -> 0 <= N <= CAPACITY t -> clear_of X incX N tmp (dbnum fold) -> clear_of Y incY N tmp (dbnum fold) ->
  (forall i, 0 <= i < N -> isint (m (X + i * incX)) (a i)) -> (forall i, 0 <= i < N -> isint (m (Y + i * incY)) (b i)) ->
  zsum (map (fun i => Z.abs (a i * b i)) (zseq 0 N)) <= 2 ^ prec t ->
  isint (rddot tu fold N X incX Y incY tmp m) (zsum (map (fun i => a i * b i) (zseq 0 N))).
Proof.
  intros Hf HT HN CX CY HA HB HS.
  assert (SM : forall i, 0 <= i < N -> Z.abs (a i * b i) <= 2 ^ prec t).
  { intros i Hi. apply (Z.le_trans _ (zsum (map Z.abs (map (fun i => a i * b i) (zseq 0 N))))); [|now rewrite map_map].
    apply zsum_in. apply in_map_iff. exists i. split; [reflexivity|]. apply zseq_In. lia. }
  pose proof (map_ints (fun i => fmul (m (X + i * incX)) (m (Y + i * incY))) (fun i => a i * b i) N (fun i Hi => isint_mul _ _ _ _ (HA i Hi) (HB i Hi) (SM i Hi))) as F2.
  rewrite <- products_map in F2. rewrite (rddot_value t tu fold N X incX Y incY tmp 0 m (fun _ => fzero)); auto; [|now apply (ints_finite _ _ F2)].
  apply ints_list; auto; [now rewrite map_map|]. rewrite products_map, map_length, zseq_length. lia.
Qed.
Print Assumptions C73_dot_integers.
(** reproBLAS_rdgemm of integer matrices: C := alpha op(A) op(B) + beta C, exactly. *)
Theorem C73_gemm_integers t tu bl fold Order TransA TransB M N K (alpha beta : F t) A lda B ldb C ldc CI bufA bufB (m : mem t)
    (al be : Z) (a b c : Z -> Z -> Z) :
  2 <= fold <= MAXFOLD t -> tuned t tu -> legal_gemm bl -> 0 < M -> 0 < N -> 0 <= K ->
  let ldi := if is_row Order then N else M in
  let lenA := bufA_len bl M K in let lenB := mxt_block bl * myt_block bl in
  gemm_layout fold Order TransA TransB M N K A lda B ldb CI ldi bufA lenA bufB lenB -> ldi <= ldc ->
  (forall i j, 0 <= i < M -> 0 <= j < N -> ~ gemm_touched fold Order M N CI ldi bufA lenA bufB lenB (elem_addr Order C ldc i j)) ->
  K + 1 <= CAPACITY t -> isint alpha al -> isint beta be ->
  (forall i k, 0 <= i < M -> 0 <= k < K -> isint (m (op_addr Order TransA A lda i k)) (a i k) /\ Z.abs (a i k * al) <= 2 ^ prec t) ->
  (forall k j, 0 <= k < K -> 0 <= j < N -> isint (m (op_addr Order TransB B ldb k j)) (b k j)) ->
  (be <> 0 -> forall i j, 0 <= i < M -> 0 <= j < N -> isint (m (elem_addr Order C ldc i j)) (c i j)) ->
  (forall i j, 0 <= i < M -> 0 <= j < N ->
     zsum (map (fun k => Z.abs (a i k * al * b k j)) (zseq 0 K)) + Z.abs (c i j * be) <= 2 ^ prec t) ->
  let m' := rdgemm tu bl fold Order TransA TransB M N K alpha A lda B ldb beta C ldc CI bufA bufB m in
  forall i j, 0 <= i < M -> 0 <= j < N ->
  isint (m' (elem_addr Order C ldc i j)) (al * zsum (map (fun k => a i k * b k j) (zseq 0 K)) + be * c i j).
Proof.
  intros Hf HT LG HM HN HK ldi lenA lenB LY NY HY HC Hal Hbe HA HB HCc HS m'.
  assert (PZ : forall l, 0 <= zsum (map Z.abs l)) by (unfold zsum; induction l; cbn [map fold_right]; lia).
  assert (PI : forall i j, 0 <= i < M -> 0 <= j < N -> Forall2 isint (gemm_products m Order TransA TransB A lda alpha B ldb K i j) (map (fun k => a i k * al * b k j) (zseq 0 K))).
  { intros i j Hi Hj. unfold gemm_products. apply map_ints. intros k Hk. destruct (HA i k Hi Hk) as [A1 A2].
    apply isint_mul; [apply isint_mul; auto|apply HB; auto|]. specialize (HS i j Hi Hj).
    pose proof (zsum_in (map (fun k => a i k * al * b k j) (zseq 0 K)) (a i k * al * b k j)) as Q. rewrite map_map in Q.
    assert (In (a i k * al * b k j) (map (fun k => a i k * al * b k j) (zseq 0 K))) as I by (apply in_map_iff; exists k; split; [reflexivity|apply zseq_In; lia]).
    specialize (Q I). lia. }
  destruct (C25_gemm t tu bl fold Order TransA TransB M N K alpha beta A lda B ldb C ldc CI bufA bufB 0 m Hf HT LG HM HN HK LY NY HY HC) as [R _].
  { intros i j Hi Hj. exact (ints_finite _ _ (PI i j Hi Hj)). }
  intros i j Hi Hj. unfold m'. rewrite (R i j Hi Hj). cbv zeta.
  set (ps := if feq alpha fzero then [] else gemm_products m Order TransA TransB A lda alpha B ldb K i j).
  set (qs := if al =? 0 then [] else map (fun k => a i k * al * b k j) (zseq 0 K)).
  set (cs := if be =? 0 then [] else [c i j * be]).
  set (xs := started beta (m (elem_addr Order C ldc i j))).
  assert (ZI : forall (x : F t) k, isint x k -> feq x fzero = (k =? 0)).
  { intros x k I. rewrite feq_zero by apply I. rewrite (isint_toZ x k I). pose proof (@u_pos t). apply Bool.eq_iff_eq_true. rewrite !Z.eqb_eq. nia. }
  assert (F1 : Forall2 isint ps qs) by (unfold ps, qs; rewrite (ZI alpha al Hal); destruct (Z.eqb_spec al 0); [constructor|apply PI; auto]).
  specialize (HS i j Hi Hj).
  assert (S0 : 0 <= zsum (map (fun k => Z.abs (a i k * al * b k j)) (zseq 0 K))) by (rewrite <- (map_map (fun k => a i k * al * b k j) Z.abs); apply PZ).
  assert (F2 : Forall2 isint xs cs).
  { unfold xs, cs, started. rewrite (ZI beta be Hbe). destruct (Z.eqb_spec be 0); [constructor|]. constructor; [|constructor].
    apply isint_mul; auto. lia. }
  destruct (start_holds fold Hf 0 beta (m (elem_addr Order C ldc i j)) m) as [G0 _]. fold xs in G0.
  pose proof (ints_length _ _ F1) as L1. pose proof (ints_length _ _ F2) as L2.
  assert (LX : Z.of_nat (length (ps ++ xs)) <= capacity t).
  { rewrite app_length, L1, L2. rewrite <- CAPACITY_eq. assert (Z.of_nat (length qs) <= K) by (unfold qs; destruct (al =? 0); [cbn; lia|rewrite map_length, zseq_length; lia]).
    assert (Z.of_nat (length cs) <= 1) by (unfold cs; destruct (be =? 0); cbn; lia). lia. }
  destruct (add_list_holds fold Hf 0 ps _ [] xs G0 LX) as [G1 _].
  set (mm := add_list fold 0 ps _) in *. clearbody mm.
  assert (ES : al * zsum (map (fun k => a i k * b k j) (zseq 0 K)) + be * c i j = zsum (rev qs ++ cs)).
  { rewrite zsum_app, zsum_rev. f_equal.
    - unfold qs. destruct (Z.eqb_spec al 0) as [->|]; [cbn; ring|]. unfold zsum. clear. induction (zseq 0 K) as [|k l IH]; cbn [map fold_right]; [ring|]. rewrite <- IH. ring.
    - unfold cs. destruct (Z.eqb_spec be 0) as [->|]; unfold zsum; cbn [fold_right]; ring. }
  rewrite ES. apply (ints_conv fold (rev ps ++ xs)); auto.
  - apply Forall2_app; [|exact F2]. clear - F1. induction F1; cbn [rev]; [constructor|]. apply Forall2_app; [exact IHF1|constructor; [assumption|constructor]].
  - rewrite map_app, zsum_app, map_rev, zsum_rev.
    assert (Z1 : zsum (map Z.abs qs) <= zsum (map (fun k => Z.abs (a i k * al * b k j)) (zseq 0 K))) by (unfold qs; destruct (al =? 0); [cbn; exact S0|rewrite map_map; lia]).
    assert (Z2 : zsum (map Z.abs cs) <= Z.abs (c i j * be)) by (unfold cs; destruct (be =? 0); unfold zsum; cbn [map fold_right]; lia). lia.
  - rewrite app_length, rev_length, <- app_length, CAPACITY_eq. exact LX.
Qed.
Print Assumptions C73_gemm_integers.

(** reproBLAS_rdgemv of an integer matrix and integer vectors: y := alpha op(A) x + beta y, exactly. *)
Theorem C73_gemv_integers t tu bl fold Order Trans M N (alpha beta : F t) A lda X incX Y incY YI bufX bufA (m : mem t)
    (al be : Z) (a : Z -> Z -> Z) (x y : Z -> Z) :
  2 <= fold <= MAXFOLD t -> tuned t tu -> legal_gemv bl -> 0 < M -> 0 < N ->
  let rows := op_rows Trans M N in let cols := op_cols Trans M N in let lenA := xt_block bl * yt_block bl in
  gemv_layout fold Order Trans rows cols A lda X incX YI 1 bufX bufA lenA -> incY <> 0 ->
  (forall i, 0 <= i < rows -> ~ gemv_touched fold rows YI 1 bufX cols bufA lenA (Y + i * incY)) ->
  cols + 1 <= CAPACITY t -> isint alpha al -> isint beta be ->
  (forall i j, 0 <= i < rows -> 0 <= j < cols -> isint (m (op_addr Order Trans A lda i j)) (a i j)) ->
  (forall j, 0 <= j < cols -> isint (m (X + j * incX)) (x j) /\ Z.abs (x j * al) <= 2 ^ prec t) ->
  (be <> 0 -> forall i, 0 <= i < rows -> isint (m (Y + i * incY)) (y i)) ->
  (forall i, 0 <= i < rows -> zsum (map (fun j => Z.abs (a i j * (x j * al))) (zseq 0 cols)) + Z.abs (y i * be) <= 2 ^ prec t) ->
  let m' := rdgemv tu bl fold Order Trans M N alpha A lda X incX beta Y incY YI bufX bufA m in
  forall i, 0 <= i < rows -> isint (m' (Y + i * incY)) (al * zsum (map (fun j => a i j * x j) (zseq 0 cols)) + be * y i).
Proof.
  intros Hf HT LG HM HN rows cols lenA LY NY HY HC Hal Hbe HA HX HYv HS m'.
  assert (PZ : forall l, 0 <= zsum (map Z.abs l)) by (unfold zsum; induction l; cbn [map fold_right]; lia).
  assert (HK : 0 < cols) by (unfold cols, op_cols; destruct is_notrans; lia).
  assert (PI : forall i, 0 <= i < rows -> Forall2 isint (gemv_products m Order Trans A lda alpha X incX cols i) (map (fun j => a i j * (x j * al)) (zseq 0 cols))).
  { intros i Hi. unfold gemv_products. apply map_ints. intros k Hk. destruct (HX k Hk) as [A1 A2].
    apply isint_mul; [apply HA; auto|apply isint_mul; auto|]. specialize (HS i Hi).
    pose proof (zsum_in (map (fun j => a i j * (x j * al)) (zseq 0 cols)) (a i k * (x k * al))) as Q. rewrite map_map in Q.
    assert (In (a i k * (x k * al)) (map (fun j => a i j * (x j * al)) (zseq 0 cols))) as I by (apply in_map_iff; exists k; split; [reflexivity|apply zseq_In; lia]).
    specialize (Q I). lia. }
  destruct (C25_gemv t tu bl fold Order Trans M N alpha beta A lda X incX Y incY YI bufX bufA 0 m Hf HT LG HM HN LY NY HY HC) as [R _].
  { intros i Hi. exact (ints_finite _ _ (PI i Hi)). }
  intros i Hi. unfold m'. rewrite (R i Hi). cbv zeta. fold cols.
  set (ps := if feq alpha fzero then [] else gemv_products m Order Trans A lda alpha X incX cols i).
  set (qs := if al =? 0 then [] else map (fun j => a i j * (x j * al)) (zseq 0 cols)).
  set (cs := if be =? 0 then [] else [y i * be]).
  set (xs := started beta (m (Y + i * incY))).
  assert (ZI : forall (x : F t) k, isint x k -> feq x fzero = (k =? 0)).
  { intros x0 k I. rewrite feq_zero by apply I. rewrite (isint_toZ x0 k I). pose proof (@u_pos t). apply Bool.eq_iff_eq_true. rewrite !Z.eqb_eq. nia. }
  assert (F1 : Forall2 isint ps qs) by (unfold ps, qs; rewrite (ZI alpha al Hal); destruct (Z.eqb_spec al 0); [constructor|apply PI; auto]).
  specialize (HS i Hi).
  assert (S0 : 0 <= zsum (map (fun j => Z.abs (a i j * (x j * al))) (zseq 0 cols))) by (rewrite <- (map_map (fun j => a i j * (x j * al)) Z.abs); apply PZ).
  assert (F2 : Forall2 isint xs cs).
  { unfold xs, cs, started. rewrite (ZI beta be Hbe). destruct (Z.eqb_spec be 0); [constructor|]. constructor; [|constructor].
    apply isint_mul; auto. lia. }
  destruct (start_holds fold Hf 0 beta (m (Y + i * incY)) m) as [G0 _]. fold xs in G0.
  pose proof (ints_length _ _ F1) as L1. pose proof (ints_length _ _ F2) as L2.
  assert (LX : Z.of_nat (length (ps ++ xs)) <= capacity t).
  { rewrite app_length, L1, L2. rewrite <- CAPACITY_eq. assert (Z.of_nat (length qs) <= cols) by (unfold qs; destruct (al =? 0); [cbn; lia|rewrite map_length, zseq_length; lia]).
    assert (Z.of_nat (length cs) <= 1) by (unfold cs; destruct (be =? 0); cbn; lia). lia. }
  destruct (add_list_holds fold Hf 0 ps _ [] xs G0 LX) as [G1 _].
  set (mm := add_list fold 0 ps _) in *. clearbody mm.
  assert (ES : al * zsum (map (fun j => a i j * x j) (zseq 0 cols)) + be * y i = zsum (rev qs ++ cs)).
  { rewrite zsum_app, zsum_rev. f_equal.
    - unfold qs. destruct (Z.eqb_spec al 0) as [->|]; [cbn; ring|]. unfold zsum. clear. induction (zseq 0 cols) as [|k l IH]; cbn [map fold_right]; [ring|]. rewrite <- IH. ring.
    - unfold cs. destruct (Z.eqb_spec be 0) as [->|]; unfold zsum; cbn [fold_right]; ring. }
  rewrite ES. apply (ints_conv fold (rev ps ++ xs)); auto.
  - apply Forall2_app; [|exact F2]. clear - F1. induction F1; cbn [rev]; [constructor|]. apply Forall2_app; [exact IHF1|constructor; [assumption|constructor]].
  - rewrite map_app, zsum_app, map_rev, zsum_rev.
    assert (Z1 : zsum (map Z.abs qs) <= zsum (map (fun j => Z.abs (a i j * (x j * al))) (zseq 0 cols))) by (unfold qs; destruct (al =? 0); [cbn; exact S0|rewrite map_map; lia]).
    assert (Z2 : zsum (map Z.abs cs) <= Z.abs (y i * be)) by (unfold cs; destruct (be =? 0); unfold zsum; cbn [map fold_right]; lia). lia.
  - rewrite app_length, rev_length, <- app_length, CAPACITY_eq. exact LX.
Qed.
Print Assumptions C73_gemv_integers.

(** ** Cases meeting the hypotheses *)
Lemma isint_mkf t k : Z.abs k < 2 ^ prec t -> isint (mkf k 0 : F t) k.
Proof.
  intros H. pose proof (prec_pos t). assert (EM : emin t <= 0) by (destruct t; cbv; discriminate).
  destruct (mkf_exact t k 0 EM) as (A & B & _).
  - apply repr_le; [lia|lia|destruct t; cbv; discriminate].
  - apply toZ_isint; [exact A|exact B].
Qed.
(** The integers -3 .. 3, over and over: 20 of them with a stride of 3. *)
Definition int_mem : mem Dbl := fun a => mkf (a mod 7 - 3) 0.
Definition int_at (X inc i : Z) : Z := (X + i * inc) mod 7 - 3.
Lemma int_mem_is a : isint (int_mem a) (a mod 7 - 3).
Proof. apply isint_mkf. pose proof (Z.mod_pos_bound a 7 ltac:(lia)). cbn [prec]. lia. Qed.
Example C73_integers_case :
  2 <= 3 <= MAXFOLD Dbl /\ tuned Dbl sample_tuning /\ 0 <= 20 <= CAPACITY Dbl /\ clear_of 0 3 20 100 (dbnum 3) /\
  (forall i, 0 <= i < 20 -> isint (int_mem (0 + i * 3)) (int_at 0 3 i)) /\
  zsum (map (fun i => Z.abs (int_at 0 3 i)) (zseq 0 20)) <= 2 ^ prec Dbl /\ zsum (map (int_at 0 3) (zseq 0 20)) = -1 /\
  zsum (map (fun i => Z.abs (int_at 0 3 i * int_at 0 3 i)) (zseq 0 20)) <= 2 ^ prec Dbl.
Proof.
  split; [vm_compute; intuition discriminate|]. split; [exact (proj1 C18_case)|]. split; [vm_compute; intuition discriminate|].
  split; [intros i Hi; unfold dbnum; lia|]. split; [intros i _; apply int_mem_is|]. split; [vm_compute; discriminate|]. split; [vm_compute; reflexivity|vm_compute; discriminate].
Qed.
(** The 2 by 4 by 3 matrix products of C24, in every order and transposition, with alpha = 2 and beta = -3. *)
Example C73_gemm_case : legal_gemm sample_mblocks /\ isint (mkf 2 0 : F Dbl) 2 /\ isint (mkf (-3) 0 : F Dbl) (-3) /\
  (forall a, isint (int_mem a) (a mod 7 - 3)) /\
  forall Order TransA TransB i j, 0 <= i < 2 -> 0 <= j < 3 ->
    zsum (map (fun k => Z.abs ((op_addr Order TransA 0 6 i k mod 7 - 3) * 2 * (op_addr Order TransB 100 6 k j mod 7 - 3))) (zseq 0 4)) +
      Z.abs ((elem_addr Order 900 5 i j mod 7 - 3) * -3) <= 2 ^ prec Dbl.
Proof.
  split; [apply C24_case|]. split; [apply isint_mkf; vm_compute; reflexivity|]. split; [apply isint_mkf; vm_compute; reflexivity|]. split; [apply int_mem_is|].
  intros Order TransA TransB i j Hi Hj. assert (B : forall a, Z.abs (a mod 7 - 3) <= 4) by (intros a; pose proof (Z.mod_pos_bound a 7 ltac:(lia)); lia).
  change (zseq 0 4) with [0; 1; 2; 3]. unfold zsum. cbn [map fold_right].
  assert (P : forall p q, Z.abs p <= 4 -> Z.abs q <= 4 -> Z.abs (p * 2 * q) <= 32) by (intros p q Hp Hq; rewrite !Z.abs_mul; change (Z.abs 2) with 2; nia).
  pose proof (B (elem_addr Order 900 5 i j)).
  pose proof (P _ _ (B (op_addr Order TransA 0 6 i 0)) (B (op_addr Order TransB 100 6 0 j))).
  pose proof (P _ _ (B (op_addr Order TransA 0 6 i 1)) (B (op_addr Order TransB 100 6 1 j))).
  pose proof (P _ _ (B (op_addr Order TransA 0 6 i 2)) (B (op_addr Order TransB 100 6 2 j))).
  pose proof (P _ _ (B (op_addr Order TransA 0 6 i 3)) (B (op_addr Order TransB 100 6 3 j))).
  change (2 ^ prec Dbl) with 9007199254740992. lia.
Qed.
(** Float data far apart, whose sum needs more than 24 bits: 2^30 + 1 + 2^-10, with 6 bins, is the nearest float. *)
Definition wide : mem Flt := fun a => nth (Z.to_nat a) [mkf 1 30; mkf 1 (-10); mkf 1 0; mkf (-3) 12] fzero.
Example C73_sum_case : forall xs, xs = read wide 0 1 4 ->
  clear_of 0 1 4 100 (dbnum 6) /\ all_finite xs = true /\ 41 + 1 <= (6 - 1) * width Flt /\ unit_exp Flt (jmax Flt) <= 139 /\
  Forall (fun x => (2 ^ 139 | toZ x)) xs /\ zsum (map (fun x => Z.abs (toZ x)) xs) <= 2 ^ (41 + 139) /\
  Z.abs (zsum (map toZ xs)) <= 2 ^ (emax Flt - emin Flt) - 2 ^ (emax Flt - emin Flt - 20).
Proof.
  intros xs ->. split; [intros i Hi; unfold dbnum; lia|]. split; [vm_compute; reflexivity|]. split; [vm_compute; discriminate|]. split; [vm_compute; discriminate|].
  split; [|split; vm_compute; discriminate]. unfold read. change (Gen.zseq 0 4) with [0; 1; 2; 3]. cbn [map].
  repeat constructor.
  - exists (2 ^ 40). vm_compute. reflexivity.
  - exists 1. vm_compute. reflexivity.
  - exists (2 ^ 10). vm_compute. reflexivity.
  - exists (-3 * 2 ^ 22). vm_compute. reflexivity.
Qed.
