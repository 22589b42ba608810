(** * The routines depend on the words of their accumulators only, not on where they are *)
From Coq Require Import ZArith Bool List Lia.
From Flocq Require Import Core BinarySingleNaN.
From Verif Require Import Fp Mem Binned Spec MemProofs AccProofs ConvProofs Client History.
Import ListNotations.
Open Scope Z_scope.

(** Accumulator r in m and accumulator r' in m' have the same words. *)
Definition same_acc {t} (fold : Z) (m : mem t) (r : reg) (m' : mem t) (r' : reg) : Prop :=
  forall i, 0 <= i < fold ->
    m (rp r + i * rip r) = m' (rp r' + i * rip r') /\ m (rc r + i * ric r) = m' (rc r' + i * ric r').
Definition fits_reg (fold : Z) (r : reg) : Prop := layout fold (rp r) (rip r) (rc r) (ric r).
(** Nothing outside the cells of r changes. *)
Definition only {t} (fold : Z) (r : reg) (m m' : mem t) : Prop := forall a, ~ cells fold r a -> m' a = m a.

Lemma head_car fold r i : 0 < fold -> fits_reg fold r -> 0 <= i < fold -> rc r + i * ric r <> rp r.
Proof. intros Hf L Hi E. apply (lay_pc _ _ _ _ _ L 0 i); lia. Qed.
Lemma head_pri fold r i : 0 < fold -> fits_reg fold r -> 0 < i < fold -> rp r + i * rip r <> rp r.
Proof. intros Hf L Hi E. assert (i = 0); [|lia]. apply (lay_p _ _ _ _ _ L); lia. Qed.

Section SIM.
  Context {t : ty} (fold : Z) (Hf : 2 <= fold).
  Notation DN r m m' G H := (done (rp r) (rip r) (rc r) (ric r) m m' 0 fold G H).

  Lemma done_only (r : reg) (m m1 : mem t) G H : fits_reg fold r -> DN r m m1 G H -> only fold r m m1.
  Proof. intros L D a Ha. eapply (done_out (fold := fold)); eauto; lia. Qed.
  Lemma done_same (r r' : reg) (m m' m1 m1' : mem t) G H G' H' :
    DN r m m1 G H -> DN r' m' m1' G' H' ->
    (forall i, 0 <= i < fold -> G i = G' i /\ H i = H' i) -> same_acc fold m1 r m1' r'.
  Proof.
    intros [D _] [D' _] E i Hi. destruct (D i Hi) as [-> ->]. destruct (D' i Hi) as [-> ->]. auto.
  Qed.
  Lemma same_head (r r' : reg) (m m' : mem t) : same_acc fold m r m' r' -> m (rp r) = m' (rp r').
  Proof. intros S. destruct (S 0 ltac:(lia)) as [E _]. now rewrite !Z.mul_0_l, !Z.add_0_r in E. Qed.
  Lemma only_refl (r : reg) (m : mem t) : only fold r m m. Proof. intros a _. reflexivity. Qed.
  Lemma only_trans (r : reg) (m m1 m2 : mem t) : only fold r m m1 -> only fold r m1 m2 -> only fold r m m2.
  Proof. intros A B a Ha. etransitivity; [apply B|apply A]; auto. Qed.

  Definition step (f : reg -> mem t -> mem t) : Prop :=
    forall r r' m m', fits_reg fold r -> fits_reg fold r' -> same_acc fold m r m' r' ->
      same_acc fold (f r m) r (f r' m') r' /\ only fold r m (f r m).
  Lemma step_comp f g : step f -> step g -> step (fun r m => g r (f r m)).
  Proof.
    intros F G r r' m m' L L' S. destruct (F r r' m m' L L' S) as [S1 O1].
    destruct (G r r' _ _ L L' S1) as [S2 O2]. split; auto. eapply only_trans; eauto.
  Qed.
  Lemma step_setzero : step (fun r => dmsetzero fold (rp r) (rip r) (rc r) (ric r)).
  Proof.
    intros r r' m m' L L' S. pose proof (dmsetzero_done L ltac:(lia) m) as D. pose proof (dmsetzero_done L' ltac:(lia) m') as D'.
    split; [eapply done_same; eauto|eapply done_only; eauto].
  Qed.
  Lemma step_renorm : step (fun r => dmrenorm fold (rp r) (rip r) (rc r) (ric r)).
  Proof.
    intros r r' m m' L L' S. pose proof (same_head _ _ _ _ S) as E0.
    destruct (feq (m (rp r)) fzero) eqn:Z0; [|destruct (ISNANINF (m (rp r))) eqn:I0].
    - unfold dmrenorm. rewrite <- E0, Z0. cbn [orb]. split; [auto|apply only_refl].
    - unfold dmrenorm. rewrite <- E0, Z0, I0. cbn [orb]. split; [auto|apply only_refl].
    - pose proof (dmrenorm_done L ltac:(lia) m Z0 I0) as D. rewrite E0 in Z0, I0.
      pose proof (dmrenorm_done L' ltac:(lia) m' Z0 I0) as D'.
      split; [eapply done_same; eauto|eapply done_only; eauto].
      intros i Hi. destruct (S i Hi) as [E1 E2]. unfold renorm_P, renorm_C, P_of. now rewrite E1, E2.
  Qed.
  Lemma step_negate : step (fun r => dmnegate fold (rp r) (rip r) (rc r) (ric r)).
  Proof.
    intros r r' m m' L L' S. pose proof (same_head _ _ _ _ S) as E0.
    destruct (feq (m (rp r)) fzero) eqn:Z0.
    - unfold dmnegate. rewrite <- E0, Z0. split; [auto|apply only_refl].
    - pose proof (dmnegate_done L ltac:(lia) m Z0) as D. rewrite E0 in Z0.
      pose proof (dmnegate_done L' ltac:(lia) m' Z0) as D'.
      split; [eapply done_same; eauto|eapply done_only; eauto].
      intros i Hi. destruct (S i Hi) as [E1 E2]. cbv zeta. now rewrite E0, E1, E2.
  Qed.
  Lemma step_update X : step (fun r => dmdupdate fold X (rp r) (rip r) (rc r) (ric r)).
  Proof.
    intros r r' m m' L L' S. pose proof (same_head _ _ _ _ S) as E0.
    destruct (ISNANINF (m (rp r))) eqn:I0; [|destruct (feq (m (rp r)) fzero) eqn:Z0].
    - unfold dmdupdate. rewrite <- E0, I0. split; [auto|apply only_refl].
    - pose proof (upd_zero_done L ltac:(lia) m X I0 Z0) as D. rewrite E0 in Z0, I0.
      pose proof (upd_zero_done L' ltac:(lia) m' X I0 Z0) as D'.
      split; [eapply done_same; eauto|eapply done_only; eauto].
    - destruct (Z_lt_dec 0 (dmindex (m (rp r)) - dindex X)) as [HS|HS].
      + pose proof (upd_shift_done L ltac:(lia) m X I0 Z0 HS) as D. rewrite E0 in Z0, I0, HS.
        pose proof (upd_shift_done L' ltac:(lia) m' X I0 Z0 HS) as D'.
        split; [eapply done_same; eauto|eapply done_only; eauto].
        intros i Hi. cbv beta. rewrite E0. set (s := dmindex (m' (rp r')) - dindex X) in *.
        destruct (Z.ltb_spec i s); auto. destruct (S (i - s) ltac:(lia)) as [E1 E2]. now rewrite E1, E2.
      + rewrite !upd_noop; [split; [auto|apply only_refl]| |].
        * right. rewrite <- E0. split; auto. lia.
        * right. split; auto. lia.
  Qed.

  Lemma words_same (r r' : reg) (m m' : mem t) n : forall i, 0 <= i -> i + Z.of_nat n <= fold -> same_acc fold m r m' r' ->
    words m (rp r) (rip r) i n = words m' (rp r') (rip r') i n.
  Proof.
    induction n as [|n IH]; intros i Hi Hn S; cbn [words]; auto. f_equal.
    - apply S. lia.
    - apply IH; auto; lia.
  Qed.
  Lemma words_inj (m m' : mem t) p ip p' ip' n : forall i, words m p ip i n = words m' p' ip' i n ->
    forall j, i <= j < i + Z.of_nat n -> m (p + j * ip) = m' (p' + j * ip').
  Proof.
    induction n as [|n IH]; intros i H j Hj; [lia|].
    cbn [words] in H. injection H as H1 H2.
    destruct (Z.eq_dec i j) as [->|]; auto. apply (IH (i + 1)); auto. lia.
  Qed.
  Lemma step_deposit X : step (fun r => dmddeposit fold X (rp r) (rip r)).
  Proof.
    intros r r' m m' L L' S. pose proof (same_head _ _ _ _ S) as E0.
    pose proof (words_same r r' m m' (Z.to_nat fold) 0 ltac:(lia) ltac:(lia) S) as W.
    destruct (ISNANINF X || ISNANINF (m (rp r))) eqn:I0.
    - unfold dmddeposit. rewrite <- E0, I0. split.
      + intros i Hi. destruct (S i Hi) as [E1 E2].
        assert (A : forall q, fits_reg fold q -> rc q + i * ric q <> rp q).
        { intros q LQ. apply head_car with (fold := fold); auto; lia. }
        rewrite !(upd_other _ _ _ (_ + i * ric _)) by auto. split; auto.
        destruct (Z.eq_dec i 0) as [->|N].
        * rewrite !Z.mul_0_l, !Z.add_0_r, !upd_same. reflexivity.
        * assert (B : forall q, fits_reg fold q -> rp q + i * rip q <> rp q).
          { intros q LQ. apply head_pri with (fold := fold); auto; lia. }
          rewrite !upd_other by auto. auto.
      + intros a Ha. apply upd_other. intros ->. apply Ha. exists 0. split; [lia|left; lia].
    - apply orb_false_iff in I0. destruct I0 as [I1 I2]. pose proof I2 as I2'. rewrite E0 in I2'.
      assert (HW : words (dmddeposit fold X (rp r) (rip r) m) (rp r) (rip r) 0 (Z.to_nat fold) =
                   words (dmddeposit fold X (rp r') (rip r') m') (rp r') (rip r') 0 (Z.to_nat fold) /\
        (forall a, (forall j, 0 <= j < fold -> a <> rp r + j * rip r) -> dmddeposit fold X (rp r) (rip r) m a = m a) /\
        (forall a, (forall j, 0 <= j < fold -> a <> rp r' + j * rip r') -> dmddeposit fold X (rp r') (rip r') m' a = m' a)).
      { destruct (dmindex0 (m (rp r))) eqn:N0; pose proof N0 as N0'; rewrite E0 in N0'.
        - destruct (dmddeposit_words0 (lay_p _ _ _ _ _ L) m X Hf I1 I2 N0) as [A1 A2].
          destruct (dmddeposit_words0 (lay_p _ _ _ _ _ L') m' X Hf I1 I2' N0') as [B1 B2].
          split; [now rewrite A1, B1, W|auto].
        - destruct (dmddeposit_words (lay_p _ _ _ _ _ L) m X ltac:(lia) I1 I2 N0) as [A1 A2].
          destruct (dmddeposit_words (lay_p _ _ _ _ _ L') m' X ltac:(lia) I1 I2' N0') as [B1 B2].
          split; [now rewrite A1, B1, W|auto]. }
      destruct HW as (HW & A2 & B2). split.
      + intros i Hi. split.
        * apply (words_inj _ _ _ _ _ _ _ _ HW). lia.
        * rewrite A2, B2; [apply S; auto| |].
          -- intros j Hj EQ. symmetry in EQ. apply (lay_pc _ _ _ _ _ L') in EQ; auto.
          -- intros j Hj EQ. symmetry in EQ. apply (lay_pc _ _ _ _ _ L) in EQ; auto.
      + intros a Ha. apply A2. intros j Hj ->. apply Ha. exists j. auto.
  Qed.
  Lemma step_add X : step (fun r => dmdadd fold X (rp r) (rip r) (rc r) (ric r)).
  Proof. exact (step_comp _ _ (step_comp _ _ (step_update X) (step_deposit X)) step_renorm). Qed.
  Lemma step_conv X : step (fun r => dmdconv fold X (rp r) (rip r) (rc r) (ric r)).
  Proof. exact (step_comp _ _ step_setzero (step_add X)). Qed.

  (** Two accumulators x (read), y (written). *)
  Section TWO.
    Variables x y x' y' : reg.
    Hypothesis Ly : fits_reg fold y. Hypothesis Ly' : fits_reg fold y'.
    Hypothesis A : disjoint (cells fold x) (cells fold y). Hypothesis A' : disjoint (cells fold x') (cells fold y').
    Lemma step_set (m m' : mem t) : same_acc fold m x m' x' ->
      same_acc fold (dmdmset fold (rp x) (rip x) (rc x) (ric x) (rp y) (rip y) (rc y) (ric y) m) y
                    (dmdmset fold (rp x') (rip x') (rc x') (ric x') (rp y') (rip y') (rc y') (ric y') m') y' /\
      only fold y m (dmdmset fold (rp x) (rip x) (rc x) (ric x) (rp y) (rip y) (rc y) (ric y) m).
    Proof.
      intros S. pose proof (dmdmset_done Ly ltac:(lia) m A) as D. pose proof (dmdmset_done Ly' ltac:(lia) m' A') as D'.
      split; [eapply done_same; eauto|eapply done_only; eauto].
    Qed.
    Lemma step_merge (m m' : mem t) : same_acc fold m x m' x' -> same_acc fold m y m' y' ->
      same_acc fold (dmdmadd fold (rp x) (rip x) (rc x) (ric x) (rp y) (rip y) (rc y) (ric y) m) y
                    (dmdmadd fold (rp x') (rip x') (rc x') (ric x') (rp y') (rip y') (rc y') (ric y') m') y' /\
      only fold y m (dmdmadd fold (rp x) (rip x) (rc x) (ric x) (rp y) (rip y) (rc y) (ric y) m).
    Proof.
      intros Sx Sy. pose proof (same_head _ _ _ _ Sx) as Ex. pose proof (same_head _ _ _ _ Sy) as Ey.
      destruct (feq (m (rp x)) fzero) eqn:Zx.
      { unfold dmdmadd. rewrite <- Ex, Zx. split; [auto|apply only_refl]. }
      destruct (feq (m (rp y)) fzero) eqn:Zy.
      { unfold dmdmadd. rewrite <- Ex, <- Ey, Zx, Zy.
        pose proof (copy_done Ly ltac:(lia) m A) as D. pose proof (copy_done Ly' ltac:(lia) m' A') as D'.
        split; [eapply done_same; eauto|eapply done_only; eauto]. }
      destruct (ISNANINF (m (rp x)) || ISNANINF (m (rp y))) eqn:I0.
      { unfold dmdmadd. rewrite <- Ex, <- Ey, Zx, Zy, I0. split.
        - intros i Hi. destruct (Sy i Hi) as [E1 E2].
          assert (B : forall q, fits_reg fold q -> rc q + i * ric q <> rp q).
          { intros q LQ. apply head_car with (fold := fold); auto; lia. }
          rewrite !(upd_other _ _ _ (_ + i * ric _)) by auto. split; auto.
          destruct (Z.eq_dec i 0) as [->|N].
          + rewrite !Z.mul_0_l, !Z.add_0_r, !upd_same. reflexivity.
          + assert (C : forall q, fits_reg fold q -> rp q + i * rip q <> rp q).
            { intros q LQ. apply head_pri with (fold := fold); auto; lia. }
            rewrite !upd_other by auto. auto.
        - intros a Ha. apply upd_other. intros ->. apply Ha. exists 0. split; [lia|left; lia]. }
      apply orb_false_iff in I0. destruct I0 as [Ix Iy].
      rewrite (dmdmadd_raw m) by auto. rewrite (dmdmadd_raw m') by (rewrite <- ?Ex, <- ?Ey; auto).
      match goal with |- same_acc _ (dmrenorm _ _ _ _ _ ?u) _ (dmrenorm _ _ _ _ _ ?v) _ /\ _ => set (m1 := u); set (m1' := v) end.
      assert (S1 : same_acc fold m1 y m1' y' /\ only fold y m m1).
      { destruct (Z_lt_dec 0 (dmindex (m (rp y)) - dmindex (m (rp x)))) as [HS|HS].
        - pose proof (merge_pos Ly ltac:(lia) m A HS) as D. rewrite Ex, Ey in HS. pose proof (merge_pos Ly' ltac:(lia) m' A' HS) as D'.
          split; [eapply done_same; eauto|eapply done_only; eauto].
          intros i Hi. cbv beta. rewrite Ex, Ey. set (s := dmindex (m' (rp y')) - dmindex (m' (rp x'))) in *.
          destruct (Sx i Hi) as [-> ->]. destruct (Z.ltb_spec i s); auto.
          destruct (Sy (i - s) ltac:(lia)) as [-> ->]. auto.
        - assert (HS' : 0 <= dmindex (m (rp x)) - dmindex (m (rp y))) by lia.
          pose proof (merge_neg Ly ltac:(lia) m A HS') as D. rewrite Ex, Ey in HS'. pose proof (merge_neg Ly' ltac:(lia) m' A' HS') as D'.
          split; [eapply done_same; eauto|eapply done_only; eauto].
          intros i Hi. cbv beta. rewrite Ex, Ey. set (s := dmindex (m' (rp x')) - dmindex (m' (rp y'))) in *.
          destruct (Sy i Hi) as [-> ->]. destruct (Z.ltb_spec i s); auto.
          destruct (Sx (i - s) ltac:(lia)) as [-> ->]. auto. }
      destruct S1 as [S1 O1]. destruct (step_renorm y y' m1 m1' Ly Ly' S1) as [S2 O2].
      split; auto. eapply only_trans; eauto.
    Qed.
  End TWO.

  (** Conversion reads only the words. *)
  Lemma conv_same (r r' : reg) (m m' : mem t) : same_acc fold m r m' r' ->
    ddmconv fold (rp r) (rip r) (rc r) (ric r) m = ddmconv fold (rp r') (rip r') (rc r') (ric r') m'.
  Proof.
    intros S. destruct t; unfold ddmconv; [apply ddmconv_ext|apply ssmconv_ext]; try lia; intros i Hi; apply S; auto.
  Qed.
End SIM.

(** The register an operation writes. *)
Definition target {t} (o : op t) : nat :=
  match o with
  | SetZero r | Update _ r | Deposit _ r | Renorm r | Add _ r | ConvTo _ r | Negate r => r
  | Merge _ r' | SetTo _ r' => r'
  end.
Definition two_regs {t} (o : op t) : Prop :=
  match o with Merge r r' | SetTo r r' => r <> r' | _ => True end.

Lemma exec_sim t fold (R R' : nat -> reg) (o : op t) (m m' : mem t) : 2 <= fold ->
  registers fold R -> registers fold R' -> two_regs o ->
  (forall r, same_acc fold m (R r) m' (R' r)) ->
  (forall r, same_acc fold (exec fold R o m) (R r) (exec fold R' o m') (R' r)) /\
  only fold (R (target o)) m (exec fold R o m).
Proof.
  intros Hf HR HR' T S.
  assert (MAIN : (same_acc fold (exec fold R o m) (R (target o)) (exec fold R' o m') (R' (target o)) /\
                  only fold (R (target o)) m (exec fold R o m)) /\
                 only fold (R' (target o)) m' (exec fold R' o m')).
  { pose proof (proj1 HR) as L. pose proof (proj1 HR') as L'.
    assert (ST : forall f : reg -> mem t -> mem t, step fold f -> forall r,
      (same_acc fold (f (R r) m) (R r) (f (R' r) m') (R' r) /\ only fold (R r) m (f (R r) m)) /\ only fold (R' r) m' (f (R' r) m')).
    { intros f F r. split; [apply F; auto; apply L || apply L'|].
      apply (F (R' r) (R r) m' m); [apply L'|apply L|]. intros i Hi. destruct (S r i Hi). auto. }
    assert (S' : forall r, same_acc fold m' (R' r) m (R r)) by (intros r i Hi; destruct (S r i Hi); auto).
    destruct o as [r|X r|X r|r|X r|X r|r r'|r r'|r]; cbn [exec target two_regs] in *.
    - apply (ST _ (step_setzero fold Hf)).
    - apply (ST _ (step_update fold Hf X)).
    - apply (ST _ (step_deposit fold Hf X)).
    - apply (ST _ (step_renorm fold Hf)).
    - apply (ST _ (step_add fold Hf X)).
    - apply (ST _ (step_conv fold Hf X)).
    - split; [exact (step_merge fold Hf (R r) (R r') (R' r) (R' r') (L r') (L' r') (proj2 HR r r' T) (proj2 HR' r r' T) m m' (S r) (S r'))|].
      exact (proj2 (step_merge fold Hf (R' r) (R' r') (R r) (R r') (L' r') (L r') (proj2 HR' r r' T) (proj2 HR r r' T) m' m (S' r) (S' r'))).
    - split; [exact (step_set fold Hf (R r) (R r') (R' r) (R' r') (L r') (L' r') (proj2 HR r r' T) (proj2 HR' r r' T) m m' (S r))|].
      exact (proj2 (step_set fold Hf (R' r) (R' r') (R r) (R r') (L' r') (L r') (proj2 HR' r r' T) (proj2 HR r r' T) m' m (S' r))).
    - apply (ST _ (step_negate fold Hf)). }
  destruct MAIN as [[S1 O1] O2]. split; auto.
  intros r. destruct (Nat.eq_dec r (target o)) as [->|N]; auto.
  assert (U : forall (Q : nat -> reg) (w w' : mem t), registers fold Q -> only fold (Q (target o)) w w' ->
    forall i, 0 <= i < fold -> w' (rp (Q r) + i * rip (Q r)) = w (rp (Q r) + i * rip (Q r)) /\
                               w' (rc (Q r) + i * ric (Q r)) = w (rc (Q r) + i * ric (Q r))).
  { intros Q w w' HQ O i Hi. split; apply O; intros C; eapply (proj2 HQ r (target o) N); eauto; exists i; auto. }
  intros i Hi. destruct (U R m _ HR O1 i Hi) as [-> ->]. destruct (U R' m' _ HR' O2 i Hi) as [-> ->]. apply S; auto.
Qed.

Lemma run_sim t fold (R R' : nat -> reg) (ops : list (op t)) : 2 <= fold -> registers fold R -> registers fold R' ->
  Forall two_regs ops -> forall m m',
  (forall r, same_acc fold m (R r) m' (R' r)) ->
  (forall r, same_acc fold (run fold R ops m) (R r) (run fold R' ops m') (R' r)) /\
  (forall a, (forall o, In o ops -> ~ cells fold (R (target o)) a) -> run fold R ops m a = m a).
Proof.
  intros Hf HR HR' FT. induction FT as [|o ops T FT IH]; intros m m' S; cbn [run]; [split; auto|].
  destruct (exec_sim t fold R R' o m m' Hf HR HR' T S) as [S1 O1]. destruct (IH _ _ S1) as [S2 O2]. split; auto.
  intros a Ha. rewrite O2; [apply O1; apply Ha; left; auto|]. intros o' Ho'. apply Ha. right; auto.
Qed.
