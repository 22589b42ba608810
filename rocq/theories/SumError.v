(** * Error of a sum of terms of decreasing size, in real arithmetic with one rounding per addition *)
From Coq Require Import ZArith Bool List Lia Reals Lra.
From Flocq Require Import Core Relative BinarySingleNaN.
From Verif Require Import Fp FpProofs ScaleProofs.
Import ListNotations.
Open Scope R_scope.

Notation u_ t := (bpow radix2 (- prec t)).
Definition fsum (l : list R) : R := fold_right Rplus 0 l.
Definition asum (l : list R) : R := fold_right (fun x s => Rabs x + s) 0 l.
Definition rsum (t : ty) (s : R) (l : list R) : R := fold_left (fun s x => RN t (s + x)) l s.
Definition ismul (e : Z) (x : R) : Prop := exists n : Z, x = IZR n * bpow radix2 e.
Definition fmt (t : ty) (x : R) : Prop := generic_format radix2 (FLT_exp (emin t) (prec t)) x.

Lemma fsum_app a b : fsum (a ++ b) = fsum a + fsum b.
Proof. unfold fsum. induction a as [|x a IH]; cbn [app fold_right]; [lra|]. rewrite IH. lra. Qed.
Lemma asum_app a b : asum (a ++ b) = asum a + asum b.
Proof. unfold asum. induction a as [|x a IH]; cbn [app fold_right]; [lra|]. rewrite IH. lra. Qed.
Lemma asum_pos l : 0 <= asum l.
Proof. unfold asum. induction l as [|x l IH]; cbn [fold_right]; [lra|]. pose proof (Rabs_pos x). lra. Qed.
Lemma fsum_asum l : Rabs (fsum l) <= asum l.
Proof. unfold fsum, asum. induction l as [|x l IH]; cbn [fold_right]; [rewrite Rabs_R0; lra|]. eapply Rle_trans; [apply Rabs_triang|]. lra. Qed.
Lemma rsum_app t s a b : rsum t s (a ++ b) = rsum t (rsum t s a) b.
Proof. unfold rsum. apply fold_left_app. Qed.

Lemma ismul_le e e' x : (e' <= e)%Z -> ismul e x -> ismul e' x.
Proof.
  intros H [n ->]. exists (n * 2 ^ (e - e'))%Z. rewrite mult_IZR, <- bpow_IZR by lia. rewrite Rmult_assoc, <- bpow_plus. do 2 f_equal. lia.
Qed.
Lemma ismul_plus e x y : ismul e x -> ismul e y -> ismul e (x + y).
Proof. intros [a ->] [b ->]. exists (a + b)%Z. rewrite plus_IZR. ring. Qed.
Lemma ismul_0 e : ismul e 0.
Proof. exists 0%Z. ring. Qed.
Lemma fmt_0 t : fmt t 0. Proof. apply generic_format_0. Qed.

(** Multiples of 2^q (q >= emin) below 2^(q+p) are in the format. *)
Lemma fmt_mul t q x : (emin t <= q)%Z -> ismul q x -> Rabs x <= bpow radix2 (q + prec t) -> fmt t x.
Proof.
  intros Hq [n E] H. destruct (Req_dec (Rabs x) (bpow radix2 (q + prec t))) as [Eq|Ne].
  - assert (G : fmt t (bpow radix2 (q + prec t))) by (apply generic_format_FLT_bpow; [exact (prec_gt_0 t)|pose proof (prec_pos t); lia]).
    unfold Rabs in Eq. destruct (Rcase_abs x); [|now rewrite Eq].
    replace x with (- bpow radix2 (q + prec t)) by lra. now apply generic_format_opp.
  - assert (H' : Rabs x < bpow radix2 (q + prec t)) by lra. clear H Ne.
    apply generic_format_FLT. exists (Float radix2 n q); cbn.
    + unfold F2R. cbn. exact E.
    + rewrite E, Rabs_mult, (Rabs_pos_eq (bpow radix2 q)), Z.add_comm, bpow_plus in H' by apply bpow_ge_0.
      apply Rmult_lt_reg_r in H'; [|apply bpow_gt_0]. rewrite <- abs_IZR in H'. apply lt_IZR.
      rewrite (IZR_Zpower radix2) by (pose proof (prec_pos t); lia). exact H'.
    + exact Hq.
Qed.
(** Rounding a multiple of 2^emin has a relative error of at most 2^-p. *)
Lemma RN_rel t x : ismul (emin t) x -> Rabs (RN t x - x) <= u_ t * Rabs x.
Proof.
  intros H. destruct (Rle_lt_dec (Rabs x) (bpow radix2 (emin t + prec t))) as [L|L].
  - rewrite round_generic; [|apply valid_rnd_N|eapply fmt_mul; eauto; lia]. rewrite Rminus_diag_eq, Rabs_R0 by reflexivity.
    apply Rmult_le_pos; [apply bpow_ge_0|apply Rabs_pos].
  - pose proof (relative_error_N_FLT radix2 (emin t) (prec t) (prec_gt_0 t) (fun x => negb (Z.even x)) x) as G.
    eapply Rle_trans; [apply G|].
    + eapply Rle_trans; [|apply Rlt_le; exact L]. apply bpow_le. lia.
    + replace (/ 2) with (bpow radix2 (-1)) by (cbn; lra). rewrite <- bpow_plus. right. f_equal. f_equal. lia.
Qed.
Lemma fmt_emin t x : fmt t x -> ismul (emin t) x.
Proof.
  intros H. apply FLT_format_generic in H; [|exact (prec_gt_0 t)]. destruct H as [[n e] E1 E2 E3]. cbn in *. apply (ismul_le e); auto.
  exists n. rewrite E1. reflexivity.
Qed.
Lemma fmt_RN t x : fmt t (RN t x).
Proof. apply generic_format_round; [apply FLT_exp_valid; exact (prec_gt_0 t)|apply valid_rnd_N]. Qed.
(** Adding x to a number of the format is off by at most |x|. *)
Lemma RN_add_small t s x : fmt t s -> Rabs (RN t (s + x) - (s + x)) <= Rabs x.
Proof.
  intros H. destruct (round_N_pt radix2 (FLT_exp (emin t) (prec t)) (fun x => negb (Z.even x)) (s + x)) as [_ N].
  specialize (N s H). replace (s - (s + x)) with (- x) in N by ring. rewrite Rabs_Ropp in N. exact N.
Qed.

(** ** After the first rounding *)
Lemma rsum_tail t : forall l s, fmt t s -> (forall x, In x l -> ismul (emin t) x) ->
  fmt t (rsum t s l) /\
  forall n M, Rabs s + 2 * asum l <= M ->
  Rabs (rsum t s l - (s + fsum l)) <= INR n * (u_ t * M) + asum (skipn n l).
Proof.
  induction l as [|x l IH]; intros s Fs Hm; cbn [rsum fold_left fsum fold_right].
  - split; [exact Fs|]. intros n M HM. rewrite skipn_nil. cbn. replace (s - (s + 0)) with 0 by ring. rewrite Rabs_R0.
    pose proof (pos_INR n). pose proof (bpow_gt_0 radix2 (- prec t)). pose proof (Rabs_pos s). cbn in HM.
    apply Rplus_le_le_0_compat; [|lra]. apply Rmult_le_pos; auto. apply Rmult_le_pos; lra.
  - fold (rsum t (RN t (s + x)) l). fold (fsum l).
    destruct (IH (RN t (s + x)) (fmt_RN t _) (fun y I => Hm y (or_intror I))) as [I1 I2]. split; [exact I1|].
    intros n M HM. cbn [asum fold_right] in HM. fold (asum l) in HM.
    pose proof (RN_add_small t s x Fs) as ES.
    assert (EM : ismul (emin t) (s + x)) by (apply ismul_plus; [now apply fmt_emin|apply Hm; now left]).
    pose proof (RN_rel t _ EM) as ER. pose proof (bpow_gt_0 radix2 (- prec t)) as UP. pose proof (asum_pos l) as AP.
    pose proof (Rabs_triang s x) as TR. pose proof (Rabs_pos x) as XP. pose proof (Rabs_pos s) as SP.
    assert (BS : Rabs (RN t (s + x)) + 2 * asum l <= M).
    { replace (RN t (s + x)) with ((RN t (s + x) - (s + x)) + (s + x)) by ring. pose proof (Rabs_triang (RN t (s + x) - (s + x)) (s + x)). lra. }
    assert (E1 : Rabs (rsum t (RN t (s + x)) l - (s + (x + fsum l))) <=
      Rabs (rsum t (RN t (s + x)) l - (RN t (s + x) + fsum l)) + Rabs (RN t (s + x) - (s + x))).
    { replace (rsum t (RN t (s + x)) l - (s + (x + fsum l))) with ((rsum t (RN t (s + x)) l - (RN t (s + x) + fsum l)) + (RN t (s + x) - (s + x))) by ring. apply Rabs_triang. }
    destruct n as [|n].
    + specialize (I2 0%nat M BS). cbn [INR skipn] in *. cbn [asum fold_right]. fold (asum l). lra.
    + specialize (I2 n M BS). cbn [skipn]. rewrite S_INR.
      assert (ER' : Rabs (RN t (s + x) - (s + x)) <= u_ t * M).
      { eapply Rle_trans; [exact ER|]. apply Rmult_le_compat_l; lra. }
      lra.
Qed.

(** ** The whole sum.  Each term comes with q: it and all terms before it are multiples of 2^q. *)
Definition decays (t : ty) (n : nat) (l : list (R * Z)) : Prop :=
  forall l1 x q l2, l = l1 ++ (x, q) :: l2 ->
    (emin t <= q)%Z /\ (forall y r, In (y, r) (l1 ++ [(x, q)]) -> ismul q y) /\ (forall y r, In (y, r) l2 -> ismul (emin t) y) /\
    asum (map fst l2) <= bpow radix2 (q + prec t - 10) /\ asum (skipn n (map fst l2)) <= bpow radix2 (q - 10).
Lemma decays_app t n a b : decays t n (a ++ b) -> decays t n a.
Proof.
  intros H l1 x q l2 E. subst a. rewrite <- app_assoc in H. destruct (H l1 x q (l2 ++ b) eq_refl) as (A & B & C & D & G).
  rewrite map_app, asum_app in D. pose proof (asum_pos (map fst b)).
  assert (SK : asum (skipn n (map fst l2)) <= asum (skipn n (map fst (l2 ++ b)))).
  { rewrite map_app, skipn_app, asum_app. pose proof (asum_pos (skipn (n - length (map fst l2)) (map fst b))). lra. }
  split; [exact A|]. split; [exact B|]. split; [intros y r I; apply (C y r), in_or_app; now left|]. split; lra.
Qed.
Lemma decays_fmt t n l x q l2 : decays t n (l ++ (x, q) :: l2) -> Rabs (fsum (map fst l) + x) <= bpow radix2 (q + prec t) ->
  fmt t (fsum (map fst l) + x).
Proof.
  intros H HB. destruct (H l x q l2 eq_refl) as (A & B & _). apply (fmt_mul t q); auto.
  apply ismul_plus; [|apply (B x q), in_or_app; right; now left].
  assert (G : forall l' : list (R * Z), (forall y r, In (y, r) l' -> ismul q y) -> ismul q (fsum (map fst l'))).
  { induction l' as [|[y r] l' IH]; intros HI; cbn; [apply ismul_0|]. apply ismul_plus; [apply (HI y r); now left|apply IH; intros; eapply HI; right; eauto]. }
  apply G. intros y r I. apply (B y r), in_or_app. now left.
Qed.
(** Either no addition rounds, or the sum is large compared with every bit of every term. *)
Lemma rsum_error t n l : decays t n l ->
  rsum t 0 (map fst l) = fsum (map fst l) /\ fmt t (fsum (map fst l)) \/
  (exists l1 x q l2, l = l1 ++ (x, q) :: l2 /\ bpow radix2 (q + prec t) * (1 - bpow radix2 (-10)) <= Rabs (fsum (map fst l))) /\
  fmt t (rsum t 0 (map fst l)) /\
  Rabs (rsum t 0 (map fst l) - fsum (map fst l)) <= (INR n + 1 + INR n * bpow radix2 (-8) + bpow radix2 (-8)) * (1 + bpow radix2 (-9)) * u_ t * Rabs (fsum (map fst l)).
Proof.
  intros H.
  (* find the first addition that rounds *)
  assert (G : forall k l1 l2, length l2 = k -> l = l1 ++ l2 -> rsum t 0 (map fst l1) = fsum (map fst l1) -> fmt t (fsum (map fst l1)) ->
    (rsum t 0 (map fst l) = fsum (map fst l) /\ fmt t (fsum (map fst l))) \/
    exists l1 x q l2, l = l1 ++ (x, q) :: l2 /\ rsum t 0 (map fst l1) = fsum (map fst l1) /\ bpow radix2 (q + prec t) < Rabs (fsum (map fst l1) + x)).
  { induction k as [|k IH]; intros l1 l2 HL El E F; destruct l2 as [|[x q] l2]; try discriminate.
    - left. rewrite app_nil_r in El. subst. auto.
    - destruct (Rle_lt_dec (Rabs (fsum (map fst l1) + x)) (bpow radix2 (q + prec t))) as [Q|Q]; [|right; exists l1, x, q, l2; auto].
      assert (F' : fmt t (fsum (map fst l1) + x)) by (rewrite El in H; exact (decays_fmt t n l1 x q l2 H Q)).
      assert (FS : fsum (map fst (l1 ++ [(x, q)])) = fsum (map fst l1) + x) by (rewrite map_app, fsum_app; cbn; ring).
      apply (IH (l1 ++ [(x, q)]) l2).
      + cbn in HL. lia.
      + rewrite <- app_assoc. exact El.
      + rewrite FS, map_app, rsum_app, E. cbn [map fst rsum fold_left]. apply round_generic; [apply valid_rnd_N|exact F'].
      + rewrite FS. exact F'. }
  destruct (G (length l) [] l eq_refl eq_refl eq_refl (fmt_0 t)) as [D|(l1 & x & q & l2 & El & E & Q)]; [left; exact D|right].
  clear G. set (sg := fsum (map fst l1) + x) in *. destruct (H l1 x q l2 El) as (A & B & C & D1 & D2).
  set (ts := map fst l2) in *.
  assert (RS : rsum t 0 (map fst l) = rsum t (RN t sg) ts) by (rewrite El, map_app, rsum_app, E; reflexivity).
  assert (SS : fsum (map fst l) = sg + fsum ts) by (rewrite El, map_app, fsum_app; cbn; unfold sg, ts, fsum; ring).
  assert (MS : ismul (emin t) sg).
  { apply (ismul_le q); auto. unfold sg. apply ismul_plus; [|apply (B x q), in_or_app; right; now left].
    assert (G : forall l' : list (R * Z), (forall y r, In (y, r) l' -> ismul q y) -> ismul q (fsum (map fst l'))).
    { induction l' as [|[y r] l' IH]; intros HI; cbn; [apply ismul_0|]. apply ismul_plus; [apply (HI y r); now left|apply IH; intros; eapply HI; right; eauto]. }
    apply G. intros y r I. apply (B y r), in_or_app. now left. }
  assert (MT : forall y, In y ts -> ismul (emin t) y).
  { intros y I. unfold ts in I. apply in_map_iff in I. destruct I as ([y' r] & <- & I). apply (C y' r I). }
  destruct (rsum_tail t ts (RN t sg) (fmt_RN t sg) MT) as [T1 T2].
  pose proof (RN_rel t sg MS) as RR. set (u := u_ t) in *. set (w := bpow radix2 (q + prec t)) in *.
  assert (UP : 0 < u <= / 8).
  { unfold u. split; [apply bpow_gt_0|]. replace (/ 8) with (bpow radix2 (-3)) by (cbn; lra). apply bpow_le. pose proof (prec_pos t). lia. }
  assert (D1' : asum ts <= w * bpow radix2 (-10)) by (eapply Rle_trans; [exact D1|]; unfold w; rewrite <- bpow_plus; right; f_equal; lia).
  assert (D2' : asum (skipn n ts) <= u * w * bpow radix2 (-10)) by (eapply Rle_trans; [exact D2|]; unfold w, u; rewrite <- !bpow_plus; right; f_equal; lia).
  pose proof (fsum_asum ts) as FA. pose proof (asum_pos ts) as AP.
  set (h := bpow radix2 (-10)) in *. assert (H10 : h = / 1024) by (unfold h; cbn; lra).
  replace (bpow radix2 (-8)) with (/ 256) by (cbn; lra). replace (bpow radix2 (-9)) with (/ 512) by (cbn; lra).
  assert (SG : Rabs sg * (1 - h) <= Rabs (fsum (map fst l))).
  { rewrite SS. assert (T : Rabs sg - Rabs (fsum ts) <= Rabs (sg + fsum ts)).
    { pose proof (Rabs_triang (sg + fsum ts) (- fsum ts)) as T. rewrite Rabs_Ropp in T. replace (sg + fsum ts + - fsum ts) with sg in T by ring. lra. }
    assert (w * h <= Rabs sg * h) by (apply Rmult_le_compat_r; lra). lra. }
  split; [exists l1, x, q, l2; split; [exact El|]|].
  { fold w. eapply Rle_trans; [|exact SG]. apply Rmult_le_compat_r; lra. }
  rewrite RS. split; [exact T1|].
  assert (RB : Rabs (RN t sg) <= Rabs sg * (1 + u)).
  { replace (RN t sg) with ((RN t sg - sg) + sg) by ring. pose proof (Rabs_triang (RN t sg - sg) sg). lra. }
  specialize (T2 n (Rabs sg * (1 + u) + 2 * asum ts) ltac:(lra)).
  set (S := Rabs (fsum (map fst l))) in *. rewrite SS.
  assert (E1 : Rabs (rsum t (RN t sg) ts - (sg + fsum ts)) <= Rabs (rsum t (RN t sg) ts - (RN t sg + fsum ts)) + Rabs (RN t sg - sg)).
  { replace (rsum t (RN t sg) ts - (sg + fsum ts)) with ((rsum t (RN t sg) ts - (RN t sg + fsum ts)) + (RN t sg - sg)) by ring. apply Rabs_triang. }
  eapply Rle_trans; [exact E1|]. set (z := Rabs sg) in *.
  assert (Z0 : 0 <= z) by apply Rabs_pos. assert (WZ : w <= z) by lra.
  assert (B1 : Rabs (rsum t (RN t sg) ts - (RN t sg + fsum ts)) <= INR n * (u * (z * (1 + u + 2 * h))) + u * z * h).
  { eapply Rle_trans; [exact T2|]. apply Rplus_le_compat.
    - apply Rmult_le_compat_l; [apply pos_INR|]. apply Rmult_le_compat_l; [lra|]. assert (w * h <= z * h) by (apply Rmult_le_compat_r; lra). lra.
    - eapply Rle_trans; [exact D2'|]. apply Rmult_le_compat_r; [lra|]. apply Rmult_le_compat_l; lra. }
  assert (ZS : z <= S * (1 + / 512)).
  { assert (z * (1 - h) * (1 + / 512) <= S * (1 + / 512)) by (apply Rmult_le_compat_r; lra).
    assert (z * 1 <= z * ((1 - h) * (1 + / 512))) by (apply Rmult_le_compat_l; [exact Z0|rewrite H10; lra]). lra. }
  assert (U1 : 1 + u + 2 * h <= 1 + / 256 + u) by (rewrite H10; lra).
  pose proof (pos_INR n) as NP.
  assert (US : u <= / 1024).
  { unfold u. replace (/ 1024) with (bpow radix2 (-10)) by (cbn; lra). apply bpow_le. destruct t; cbn; lia. }
  assert (UZ : 0 <= u * z) by (apply Rmult_le_pos; lra).
  assert (B2 : INR n * (u * (z * (1 + u + 2 * h))) + u * z * h + u * z <= (INR n + 1 + INR n * / 256 + / 256) * (u * z)).
  { replace (INR n * (u * (z * (1 + u + 2 * h)))) with ((INR n * (u * z)) * (1 + u + 2 * h)) by ring.
    assert (NZ : 0 <= INR n * (u * z)) by (apply Rmult_le_pos; lra).
    assert (INR n * (u * z) * (1 + u + 2 * h) <= INR n * (u * z) * (1 + / 256)) by (apply Rmult_le_compat_l; lra).
    assert (u * z * h <= u * z * / 256) by (apply Rmult_le_compat_l; lra). lra. }
  eapply Rle_trans; [|].
  { eapply Rle_trans; [apply Rplus_le_compat; [exact B1|exact RR]|exact B2]. }
  replace ((INR n + 1 + INR n * / 256 + / 256) * (1 + / 512) * u * S) with ((INR n + 1 + INR n * / 256 + / 256) * (u * (S * (1 + / 512)))) by ring.
  apply Rmult_le_compat_l; [lra|]. apply Rmult_le_compat_l; lra.
Qed.

(** Rounding keeps multiples of a power of two. *)
Lemma RN_mul t q x : (emin t <= q)%Z -> ismul q x -> ismul q (RN t x).
Proof.
  intros Hq H. destruct (Rle_lt_dec (Rabs x) (bpow radix2 (q + prec t))) as [L|L].
  - rewrite round_generic; [exact H|apply valid_rnd_N|eapply fmt_mul; eauto].
  - assert (G : bpow radix2 (q + prec t) <= Rabs (RN t x)) by (apply RN_ge; [pose proof (prec_pos t); lia|lra]).
    pose proof (fmt_RN t x) as F. unfold fmt, generic_format in F. set (y := RN t x) in *. rewrite F. unfold F2R. cbn [Fnum Fexp].
    apply (ismul_le (cexp radix2 (FLT_exp (emin t) (prec t)) y)); [|eexists; reflexivity].
    assert (M : (q + prec t < mag radix2 y)%Z) by (apply mag_gt_bpow; exact G). unfold cexp, FLT_exp. lia.
Qed.
Lemma rsum_mul t q l : (emin t <= q)%Z -> forall s, ismul q s -> (forall x, In x l -> ismul q x) -> ismul q (rsum t s l).
Proof.
  intros Hq. induction l as [|x l IH]; intros s Hs Hl; [exact Hs|]. cbn [rsum fold_left]. apply IH.
  - apply RN_mul; auto. apply ismul_plus; auto. apply Hl. now left.
  - intros y I. apply Hl. now right.
Qed.
