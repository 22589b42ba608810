(** * zmdrescale on the temporary complex accumulator of dmzssq *)
From Coq Require Import ZArith Reals Bool List Lia.
From Flocq Require Import Core BinarySingleNaN.
From Verif Require Import Fp Mem Binned Spec FpProofs BitProofs CoreArith SpecProofs WordProofs MemProofs AccProofs SumProofs ScaleProofs RescaleProofs Ssq SsqProofs.
Import ListNotations.
Open Scope Z_scope.

Lemma EXP_zero (t : ty) s : EXP (B754_zero s : F t) = 0.
Proof. destruct t; destruct s; vm_compute; reflexivity. Qed.

Section ZRES.
  Context {t : ty}.
  Variables (fold A : Z).
  Hypothesis Hf : 2 <= fold.
  Hypothesis Hm : fold <= jmax t + 1.
  Local Notation C := (A + 2 * fold).
  Notation in0 := (in_acc fold A 2 C 2).
  Notation in1 := (in_acc fold (A + 1) 2 (C + 1) 2).

  (** The test of iteration i reads cell A + i, part of word i / 2, which is one of those
      already divided (from the word i0 the loop started with). *)
  Definition cell_of (r : F t) (i0 : Z) (m : mem t) (i : Z) : F t :=
    if i0 <=? i / 2 then fdiv (m (A + i)) r else m (A + i).
  Lemma sub_update i X (m : mem t) : 0 <= i < fold ->
    let m' := zmdupdate (fold - i) X (A + i * 2 * 1) 1 (C + i * 2 * 1) 1 m in
    forall a, (forall j, i <= j < fold -> a <> A + 2 * j /\ a <> A + 2 * j + 1 /\ a <> C + 2 * j /\ a <> C + 2 * j + 1) -> m' a = m a.
  Proof.
    intros Hi m' a Ha. unfold m', zmdupdate. rewrite !Z.mul_1_r in *. change (2 * 1) with 2.
    rewrite (update_frame (fold := fold - i) (p := A + i * 2 + 1) (ip := 2) (c := C + i * 2 + 1) (ic := 2)) by
      (try lia; intros (j & Hj & [E|E]); destruct (Ha (i + j) ltac:(lia)) as (N1 & N2 & N3 & N4); lia).
    rewrite (update_frame (fold := fold - i) (p := A + i * 2) (ip := 2) (c := C + i * 2) (ic := 2)) by
      (try lia; intros (j & Hj & [E|E]); destruct (Ha (i + j) ltac:(lia)) as (N1 & N2 & N3 & N4); lia).
    reflexivity.
  Qed.
  Lemma zrescale_loop_ok r : forall n i (m : mem t), 0 <= i -> i + Z.of_nat n = fold ->
    let m' := zrescale_loop n i fold r A 1 C 1 m in
    (forall a, (forall j, i <= j < fold -> a <> A + 2 * j /\ a <> A + 2 * j + 1 /\ a <> C + 2 * j /\ a <> C + 2 * j + 1) -> m' a = m a) /\
    (forall i0 o, i <= i0 < fold -> o = 0 \/ o = 1 ->
       (forall i1, i <= i1 <= i0 -> feq (cell_of r i m i1) fzero = false) ->
       m' (A + 2 * i0 + o) = fdiv (m (A + 2 * i0 + o)) r /\ m' (C + 2 * i0 + o) = m (C + 2 * i0 + o)).
  Proof.
    induction n as [|n IH]; intros i m Hi Hn; cbn [zrescale_loop].
    - split; [auto|intros; lia].
    - set (m0 := upd m (A + i * 2 * 1) (fdiv (m (A + i * 2 * 1)) r)).
      set (m1 := upd m0 (A + i * 2 * 1 + 1) (fdiv (m0 (A + i * 2 * 1 + 1)) r)).
      assert (E0 : m1 (A + 2 * i) = fdiv (m (A + 2 * i)) r).
      { unfold m1, m0. rewrite upd_other by lia. replace (A + 2 * i) with (A + i * 2 * 1) by lia. apply upd_same. }
      assert (E1 : m1 (A + 2 * i + 1) = fdiv (m (A + 2 * i + 1)) r).
      { unfold m1, m0. replace (A + 2 * i + 1) with (A + i * 2 * 1 + 1) by lia. rewrite upd_same. now rewrite upd_other by lia. }
      assert (O1 : forall a, a <> A + 2 * i -> a <> A + 2 * i + 1 -> m1 a = m a).
      { intros a N0 N1. unfold m1, m0. now rewrite !upd_other by lia. }
      clearbody m1. clear m0.
      assert (ET : m1 (A + i * 1) = cell_of r i m i).
      { unfold cell_of. rewrite Z.mul_1_r. destruct (Z.leb_spec i (i / 2)) as [G|G].
        - assert (i = 0) by (pose proof (Z.div_lt_upper_bound i 2 i); lia). subst i. replace (A + 0) with (A + 2 * 0) by lia. exact E0.
        - apply O1; assert (i <> 0) by (intros ->; cbn in G; lia); lia. }
      rewrite ET. destruct (feq (cell_of r i m i) fzero) eqn:Z0.
      + split.
        * intros a Ha. rewrite sub_update by (auto; lia). apply O1; destruct (Ha i ltac:(lia)) as (N1 & N2 & _); auto.
        * intros i0 o Hi0 Ho HN. rewrite (HN i ltac:(lia)) in Z0. discriminate.
      + destruct (IH (i + 1) m1 ltac:(lia) ltac:(lia)) as [IA IB]. split.
        * intros a Ha. rewrite IA; [apply O1; destruct (Ha i ltac:(lia)) as (N1 & N2 & _); auto|]. intros j Hj. apply Ha. lia.
        * intros i0 o Hi0 Ho HN. destruct (Z.eq_dec i0 i) as [->|Ne].
          -- rewrite !IA by (intros j Hj; destruct Ho; lia). split; [|apply O1; destruct Ho; lia].
             destruct Ho as [->| ->]; [rewrite Z.add_0_r; exact E0|exact E1].
          -- destruct (IB i0 o ltac:(lia) Ho) as [B1 B2].
             ++ intros i1 Hi1. rewrite <- (HN i1 ltac:(lia)). f_equal. unfold cell_of.
                pose proof (Z.div_mod i1 2 ltac:(lia)) as DM. pose proof (Z.mod_pos_bound i1 2 ltac:(lia)) as MB.
                destruct (Z.leb_spec (i + 1) (i1 / 2)), (Z.leb_spec i (i1 / 2)); try lia.
                ** f_equal. apply O1; lia.
                ** assert (i1 / 2 = i) by lia. destruct (Z.eq_dec (i1 mod 2) 0).
                   --- replace (A + i1) with (A + 2 * i) by lia. exact E0.
                   --- replace (A + i1) with (A + 2 * i + 1) by lia. exact E1.
                ** apply O1; lia.
             ++ rewrite B1, B2, !O1 by (destruct Ho; lia). auto.
  Qed.

  Lemma zrescale_ok m k V0 C0 V1 C1 z z' :
    acc t fold k V0 C0 (P_of m A 2) (P_of m C 2) -> acc t fold k V1 C1 (P_of m (A + 1) 2) (P_of m (C + 1) 2) -> 1 <= k ->
    (forall j, 0 <= j -> inbin t (6 * quarter t + V0 j)) -> (forall j, 0 <= j -> inbin t (6 * quarter t + V1 j)) ->
    zmin t <= z -> z < z' -> z' <= zmax t ->
    let s := 2 * (z' - z) in
    let m' := zmdrescale fold (pow2 t (width t * z')) (pow2 t (width t * z)) A 1 C 1 m in
    rescaled (fold := fold) (p := A) (ip := 2) (c := C) (ic := 2) k V0 s m m' /\
    rescaled (fold := fold) (p := A + 1) (ip := 2) (c := C + 1) (ic := 2) k V1 s m m' /\
    (forall a, ~ in0 a -> ~ in1 a -> m' a = m a).
  Proof.
    intros [Hk A0] [_ A1] K1 B0 B1 H1 H2 H3 s m'.
    pose proof (scale_exp_range t z ltac:(lia)) as [E1 _]. pose proof (scale_exp_range t z' ltac:(lia)) as [E2 _].
    pose proof (prec_pos t) as PP. pose proof (emin_neg t). pose proof (width_pos t) as WP.
    assert (EM : m' = zrescale_loop (Z.to_nat fold) 0 fold
      (if width t * s <? emax t then pow2 t (width t * s) else B754_infinity false) A 1 C 1 m).
    { unfold m', zmdrescale. replace (feq (pow2 t (width t * z')) (pow2 t (width t * z))) with false.
      2:{ symmetry. unfold feq. destruct (mkf_pow2 t (width t * z')) as [Q1 Q2]; [lia|]. destruct (mkf_pow2 t (width t * z)) as [R1 R2]; [lia|].
          rewrite Beqb_correct, Q2, R2 by auto. apply Req_bool_false. intros E. apply bpow_inj in E. nia. }
      assert (NZ : forall e, emin t <= e < emax t -> feq (pow2 t e) fzero = false).
      { intros e He. destruct (mkf_pow2 t e He) as [Q1 Q2]. rewrite feq_zero, pow2_toZ by auto. apply Z.eqb_neq.
        pose proof (pow2_pos (e - emin t) ltac:(lia)). lia. }
      rewrite !NZ by lia. cbn [orb]. rewrite (rescale_factor t z z') by auto. reflexivity. }
    clearbody m'. set (r := if width t * s <? emax t then _ else _) in *.
    assert (Hs : 0 < s) by lia. clearbody s.
    destruct (zrescale_loop_ok r (Z.to_nat fold) 0 m ltac:(lia) ltac:(lia)) as [R1 R2]. rewrite <- EM in R1, R2.
    assert (FR : forall a, ~ in0 a -> ~ in1 a -> m' a = m a).
    { intros a N0 N1. apply R1. intros j Hj. assert (I0 : in0 (A + j * 2) /\ in0 (C + j * 2) /\ in1 (A + 1 + j * 2) /\ in1 (C + 1 + j * 2)).
      { repeat split; first [now apply in_pri|now apply in_car]. }
      destruct I0 as (I1 & I2 & I3 & I4). repeat split; intros E; subst a.
      - apply N0. now replace (A + 2 * j) with (A + j * 2) by lia.
      - apply N1. now replace (A + 2 * j + 1) with (A + 1 + j * 2) by lia.
      - apply N0. now replace (C + 2 * j) with (C + j * 2) by lia.
      - apply N1. now replace (C + 2 * j + 1) with (C + 1 + j * 2) by lia. }
    assert (CO : forall i, 0 <= i -> cell_of r 0 m i = fdiv (m (A + i)) r).
    { intros i Hi. unfold cell_of. destruct (Z.leb_spec 0 (i / 2)); [reflexivity|]. pose proof (Z.div_pos i 2). lia. }
    (* the word i of component o *)
    set (V := fun o : Z => if o =? 0 then V0 else V1).
    assert (AW : forall o i, o = 0 \/ o = 1 -> 0 <= i < fold -> priw t (k + i) (6 * quarter t + V o (k + i)) (m (A + 2 * i + o)) /\
      inbin t (6 * quarter t + V o (k + i))).
    { intros o i [-> | ->] Hi; cbn [V Z.eqb]; (split; [|first [apply B0; lia|apply B1; lia]]).
      - destruct (A0 i Hi) as [W _]. unfold P_of in W. now replace (A + 2 * i + 0) with (A + i * 2) by lia.
      - destruct (A1 i Hi) as [W _]. unfold P_of in W. now replace (A + 2 * i + 1) with (A + 1 + i * 2) by lia. }
    assert (X : width t * s < emax t -> forall o i, o = 0 \/ o = 1 -> 0 <= i < fold -> k + i + s <= jmax t ->
       priw t (k + i + s) (6 * quarter t + V o (k + i)) (fdiv (m (A + 2 * i + o)) r) /\ feq (fdiv (m (A + 2 * i + o)) r) fzero = false).
    { intros HW o i Ho Hi HI. unfold r. destruct (Z.ltb_spec (width t * s) (emax t)); [|lia].
      destruct (AW o i Ho Hi) as [W1 W2]. destruct (fdiv_priw t (k + i) _ _ s ltac:(lia) W1 W2 ltac:(lia) HW) as [D _].
      specialize (D ltac:(lia)). split; [exact D|]. eapply priw_nonzero; [|exact D|exact W2]. lia. }
    assert (XE : width t * s < emax t -> forall o i, o = 0 \/ o = 1 -> 0 <= i < fold -> k + i + s <= jmax t ->
       m' (A + 2 * i + o) = fdiv (m (A + 2 * i + o)) r /\ m' (C + 2 * i + o) = m (C + 2 * i + o)).
    { intros HW o i Ho Hi HI. apply R2; [lia|exact Ho|]. intros i1 Hi1. rewrite CO by lia.
      pose proof (Z.div_mod i1 2 ltac:(lia)) as DM. pose proof (Z.mod_pos_bound i1 2 ltac:(lia)) as MB.
      replace (A + i1) with (A + 2 * (i1 / 2) + i1 mod 2) by lia. pose proof (Z.div_pos i1 2 ltac:(lia) ltac:(lia)).
      apply X; auto; lia. }
    set (IDX := if width t * s <? emax t then Z.min (k + s) (jmax t) else jmax t).
    (* the heads *)
    assert (DI : dindex (fzero : F t) = jmax t) by (rewrite dindex_spec by reflexivity; reflexivity).
    assert (HD : forall o, o = 0 \/ o = 1 -> ISNANINF (m' (A + o)) = false /\
      ((feq (m' (A + o)) fzero = false /\ dmindex (m' (A + o)) = IDX) \/
       (feq (m' (A + o)) fzero = true /\ (jmax t < k + s \/ emax t <= width t * s)))).
    { (* heads after the division, far case *)
      assert (FAR : jmax t < k + s \/ emax t <= width t * s -> IDX = jmax t /\ forall o, o = 0 \/ o = 1 ->
        let q := fdiv (m (A + o)) r in is_finite q = true /\ dmindex q = jmax t).
      { intros FA. split; [unfold IDX; destruct (Z.ltb_spec (width t * s) (emax t)); lia|]. intros o Ho q.
        destruct (AW o 0 Ho ltac:(lia)) as [W1 W2]. rewrite Z.add_0_r in W1, W2. replace (A + 2 * 0 + o) with (A + o) in W1 by lia.
        unfold q, r. destruct (Z.ltb_spec (width t * s) (emax t)) as [HW|HW].
        - destruct (fdiv_priw t k _ _ s ltac:(lia) W1 W2 ltac:(lia) HW) as [_ D]. destruct (D ltac:(lia) ltac:(lia)) as [D1 D2].
          split; [exact D1|now apply EXP0_index].
        - destruct (priw_nonzero t k _ _ ltac:(lia) W1 W2) as [N1 N2]. destruct W1 as [FP _].
          destruct (m (A + o)) as [sg|sg| |sg mm e HH]; try discriminate. split; [reflexivity|]. cbn. apply EXP0_index. apply EXP_zero. }
      assert (EM2 : feq (fdiv (m A) r) fzero = true -> exists m1, m1 A = fdiv (m A) r /\ m1 (A + 1) = fdiv (m (A + 1)) r /\
             m' = dmdupdate fold fzero (A + 1) 2 (C + 1) 2 (dmdupdate fold fzero A 2 C 2 m1)).
      { intros Z0. rewrite EM. destruct (Z.to_nat fold) as [|n] eqn:En; [lia|]. cbn [zrescale_loop].
             change (0 * 2 * 1) with 0. change (0 * 1) with 0. rewrite !Z.add_0_r, !Z.sub_0_r.
             set (m0 := upd m A (fdiv (m A) r)). set (m1 := upd m0 (A + 1) (fdiv (m0 (A + 1)) r)).
             assert (Q0 : m1 A = fdiv (m A) r) by (unfold m1, m0; rewrite upd_other by lia; apply upd_same).
             assert (Q1 : m1 (A + 1) = fdiv (m (A + 1)) r) by (unfold m1, m0; rewrite upd_same, upd_other by lia; reflexivity).
             exists m1. rewrite Q0, Z0. split; [reflexivity|]. split; [exact Q1|]. reflexivity. }
      assert (NEAR : jmax t < k + s \/ emax t <= width t * s \/ (k + s <= jmax t /\ width t * s < emax t)) by lia.
      rewrite or_assoc in NEAR || idtac.
      destruct NEAR as [NE|[NE|[NE1 NE2]]].
      1,2: assert (FA : jmax t < k + s \/ emax t <= width t * s) by lia; destruct (FAR FA) as [EI FQ]; clear FAR;
        rewrite EI; clear EI IDX;
        (* two cases on the first test *)
        destruct (feq (fdiv (m A) r) fzero) eqn:Z0.
      1,3: clear R2 XE X; destruct (EM2 eq_refl) as (m1 & Q0 & Q1 & EM3); clear EM2; rewrite EM3; clear EM EM3 FR R1 m';
        destruct (FQ 0 ltac:(auto)) as [F0 I0]; rewrite Z.add_0_r in F0, I0; destruct (FQ 1 ltac:(auto)) as [F1 I1];
        pose proof (layout_complex_re fold A ltac:(lia)) as LR; pose proof (layout_complex_im fold A ltac:(lia)) as LI;
        assert (T1 : feq (m1 A) fzero = true) by (now rewrite Q0);
        assert (T2 : ISNANINF (m1 A) = false) by (rewrite ISNANINF_fin, Q0, F0; reflexivity);
        assert (T3 : 0 <= dindex (fzero : F t) <= jmax t) by (rewrite DI; lia);
        destruct (acc_update_zero LR ltac:(lia) m1 fzero Hm T1 T2 T3) as [U UF];
        set (m2 := dmdupdate fold fzero A 2 C 2 m1) in *; clearbody m2; rewrite DI in U;
        assert (P1 : m2 (A + 1) = m1 (A + 1)) by (apply UF; intros (j & Hj & [E|E]); lia);
        set (m3 := dmdupdate fold fzero (A + 1) 2 (C + 1) 2 m2);
        assert (UF3 : frame (t := t) fold (A + 1) 2 (C + 1) 2 m2 m3) by (apply update_frame; [lia]);
        (intros o [-> | ->];
        [ rewrite Z.add_0_r; assert (P3 : m3 A = m2 A) by (apply UF3; intros (j & Hj & [E|E]); lia); rewrite P3;
          destruct (priw_0 _ _ _ _ _ _ _ U ltac:(lia)) as (U1 & U2 & U3 & _);
          [unfold inbin; pose proof (quarter_pos t); lia|]; rewrite P_of_0 in U1, U2, U3; split; [exact U2|left; auto]
        | destruct (feq (m2 (A + 1)) fzero) eqn:Z1;
          [ assert (T4 : ISNANINF (m2 (A + 1)) = false) by (rewrite ISNANINF_fin, P1, Q1, F1; reflexivity);
            destruct (acc_update_zero LI ltac:(lia) m2 fzero Hm Z1 T4 T3) as [U' _]; fold m3 in U'; rewrite DI in U';
            destruct (priw_0 _ _ _ _ _ _ _ U' ltac:(lia)) as (U1 & U2 & U3 & _);
            [unfold inbin; pose proof (quarter_pos t); lia|]; rewrite P_of_0 in U1, U2, U3; split; [exact U2|left; auto]
          | assert (E3 : m3 = m2) by (apply (upd_noop (ip := 2) (c := C + 1) (ic := 2)); right; split; [exact Z1|rewrite P1, Q1, I1, DI; lia]);
            rewrite E3, Z1; split; [rewrite ISNANINF_fin, P1, Q1, F1; reflexivity|left; split; [reflexivity|now rewrite P1, Q1]] ] ]).
      1,2: intros o Ho; destruct (R2 0 o ltac:(lia) Ho) as [R3 _];
        [ intros i1 Hi1; replace i1 with 0 by lia; rewrite CO by lia; rewrite Z.add_0_r; exact Z0 |];
        replace (A + 2 * 0 + o) with (A + o) in R3 by lia; rewrite R3; destruct (FQ o Ho) as [F0 I0];
        split; [rewrite ISNANINF_fin, F0; reflexivity|]; destruct (feq (fdiv (m (A + o)) r) fzero); [right; auto|left; auto].
      intros o Ho. destruct (XE NE2 o 0 Ho ltac:(lia) ltac:(lia)) as [XE1 _]. destruct (X NE2 o 0 Ho ltac:(lia) ltac:(lia)) as [X0 X1].
      rewrite <- XE1 in X0, X1. replace (A + 2 * 0 + o) with (A + o) in X0, X1 by lia. rewrite !Z.add_0_r in X0.
      destruct (AW o 0 Ho ltac:(lia)) as [_ W2]. rewrite Z.add_0_r in W2.
      split; [destruct X0 as [FX _]; now rewrite ISNANINF_fin, FX|]. left. split; [exact X1|].
      unfold IDX. destruct (Z.ltb_spec (width t * s) (emax t)); [|lia]. rewrite Z.min_l by lia. eapply priw_index; [|exact X0|exact W2]. lia. }
    split; [|split; [|exact FR]].
    - destruct (HD 0 ltac:(auto)) as [D1 D2]. rewrite Z.add_0_r in D1, D2. split; [exact D1|]. split; [exact D2|].
      intros HW i Hi HI. destruct (XE HW 0 i ltac:(auto) Hi HI) as [X1 X2]. destruct (X HW 0 i ltac:(auto) Hi HI) as [X3 _].
      rewrite !Z.add_0_r in *. rewrite (Z.mul_comm i 2), X1, X2. split; [exact X3|reflexivity].
    - destruct (HD 1 ltac:(auto)) as [D1 D2]. split; [exact D1|]. split; [exact D2|].
      intros HW i Hi HI. destruct (XE HW 1 i ltac:(auto) Hi HI) as [X1 X2]. destruct (X HW 1 i ltac:(auto) Hi HI) as [X3 _].
      replace (A + 1 + i * 2) with (A + 2 * i + 1) by lia. replace (C + 1 + i * 2) with (C + 2 * i + 1) by lia.
      rewrite X1, X2. split; [exact X3|reflexivity].
  Qed.
End ZRES.
