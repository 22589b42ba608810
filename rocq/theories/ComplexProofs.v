(** * Complex accumulators are pairs of strided real accumulators *)
From Coq Require Import ZArith Bool List Lia Permutation FunctionalExtensionality.
From Flocq Require Import Core BinarySingleNaN.
From Verif Require Import Fp Mem Binned Spec FpProofs BitProofs CoreArith SpecProofs WordProofs MemProofs AccProofs SumProofs ConvProofs Client History ClientProofs StrideProofs PropsSum PropsAcc.
Import ListNotations.
Open Scope Z_scope.

(** ** Memory commutation *)
Lemma upd_comm {t} (m : mem t) a b v w : a <> b -> upd (upd m a v) b w = upd (upd m b w) a v.
Proof.
  intros N. apply functional_extensionality. intros x. unfold upd.
  destruct (Z.eqb_spec x b), (Z.eqb_spec x a); congruence.
Qed.
Lemma upd_upd {t} (m : mem t) a v w : upd (upd m a v) a w = upd m a w.
Proof. apply functional_extensionality. intros x. unfold upd. destruct (x =? a); auto. Qed.

Lemma dep_step_eq {t} p ip i (m : mem t) x : deposit_step p ip i (m, x) =
  (upd m (p + i * ip) (fadd (or1 x) (m (p + i * ip))), fadd x (fsub (m (p + i * ip)) (fadd (or1 x) (m (p + i * ip))))).
Proof. reflexivity. Qed.
Lemma dep_loop_upd {t} p ip n a v : forall i (m : mem t) x,
  (forall j, i <= j < i + Z.of_nat n -> a <> p + j * ip) ->
  loop n i (deposit_step p ip) (upd m a v, x) =
  (upd (fst (loop n i (deposit_step p ip) (m, x))) a v, snd (loop n i (deposit_step p ip) (m, x))).
Proof.
  induction n as [|n IH]; intros i m x H; [reflexivity|].
  cbn [loop]. unfold deposit_step at 2 4 6. rewrite upd_other by (intros E; apply (H i); lia).
  rewrite upd_comm by (apply (H i); lia). apply IH. intros j Hj. apply H. lia.
Qed.
Lemma zdep_loop {t} p ip n : forall i (m : mem t) xR xI,
  (forall j k, i <= j < i + Z.of_nat n -> i <= k < i + Z.of_nat n -> p + j * (2 * ip) <> p + 1 + k * (2 * ip)) ->
  loop n i (zdeposit_step p ip) (m, (xR, xI)) =
  let '(m1, x1) := loop n i (deposit_step p (2 * ip)) (m, xR) in
  let '(m2, x2) := loop n i (deposit_step (p + 1) (2 * ip)) (m1, xI) in (m2, (x1, x2)).
Proof.
  induction n as [|n IH]; intros i m xR xI H; [reflexivity|].
  cbn [loop]. unfold zdeposit_step at 2, deposit_step at 2.
  replace (p + i * 2 * ip + 1) with (p + 1 + i * (2 * ip)) by lia.
  replace (p + i * 2 * ip) with (p + i * (2 * ip)) by lia.
  rewrite IH by (intros; apply H; lia).
  assert (N0 : forall j, i <= j < i + Z.of_nat (S n) -> p + 1 + i * (2 * ip) <> p + j * (2 * ip)).
  { intros j Hj E. apply (H j i); lia. }
  rewrite dep_loop_upd by (intros j Hj; apply N0; lia).
  destruct (loop n (i + 1) (deposit_step p (2 * ip)) (upd m (p + i * (2 * ip)) (fadd (or1 xR) (m (p + i * (2 * ip)))), _)) as [m1 x1] eqn:E1.
  cbn [fst snd].
  assert (K : m1 (p + 1 + i * (2 * ip)) = m (p + 1 + i * (2 * ip))).
  { pose proof (dep_loop_upd p (2 * ip) n (p + 1 + i * (2 * ip)) (m (p + 1 + i * (2 * ip))) (i + 1)
      (upd m (p + i * (2 * ip)) (fadd (or1 xR) (m (p + i * (2 * ip))))) (fadd xR (fsub (m (p + i * (2 * ip))) (fadd (or1 xR) (m (p + i * (2 * ip))))))) as D.
    rewrite E1 in D. cbn [fst snd] in D.
    replace (upd (upd m (p + i * (2 * ip)) (fadd (or1 xR) (m (p + i * (2 * ip))))) (p + 1 + i * (2 * ip)) (m (p + 1 + i * (2 * ip))))
      with (upd m (p + i * (2 * ip)) (fadd (or1 xR) (m (p + i * (2 * ip))))) in D.
    - rewrite E1 in D. specialize (D ltac:(intros j Hj; apply N0; lia)). injection D as D. rewrite D. apply upd_same.
    - apply functional_extensionality. intros x. unfold upd. destruct (Z.eqb_spec x (p + 1 + i * (2 * ip))); auto.
      subst x. destruct (Z.eqb_spec (p + 1 + i * (2 * ip)) (p + i * (2 * ip))); auto. exfalso. apply (N0 i); lia. }
  rewrite (dep_step_eq (p + 1) (2 * ip) i m1 xI), K. reflexivity.
Qed.

(** ** The two parts of a complex accumulator; strides count complex numbers *)
Definition re_of (r : reg) : reg := mkreg (rp r) (2 * rip r) (rc r) (2 * ric r).
Definition im_of (r : reg) : reg := mkreg (rp r + 1) (2 * rip r) (rc r + 1) (2 * ric r).
(** The complex accumulators R seen as real ones: 2r is the real part of R r, 2r+1 the imaginary part. *)
Definition parts (R : nat -> reg) (n : nat) : reg :=
  if Nat.even n then re_of (R (Nat.div2 n)) else im_of (R (Nat.div2 n)).

(** One complex call on complex accumulators named by numbers. *)
Inductive zop (t : ty) :=
| ZSetZero (r : nat) | ZUpdate (XR XI : F t) (r : nat) | ZDeposit (XR XI : F t) (r : nat) | ZRenorm (r : nat)
| ZAdd (XR XI : F t) (r : nat) | ZConvTo (XR XI : F t) (r : nat)
| ZMerge (r r' : nat) | ZSetTo (r r' : nat) | ZNegate (r : nat).
Arguments ZSetZero {t}. Arguments ZUpdate {t}. Arguments ZDeposit {t}. Arguments ZRenorm {t}. Arguments ZAdd {t}.
Arguments ZConvTo {t}. Arguments ZMerge {t}. Arguments ZSetTo {t}. Arguments ZNegate {t}.
Definition zexec {t} (fold : Z) (R : nat -> reg) (o : zop t) (m : mem t) : mem t :=
  let p r := rp (R r) in let ip r := rip (R r) in let c r := rc (R r) in let ic r := ric (R r) in
  match o with
  | ZSetZero r => zmsetzero fold (p r) (ip r) (c r) (ic r) m
  | ZUpdate XR XI r => zmzupdate fold XR XI (p r) (ip r) (c r) (ic r) m
  | ZDeposit XR XI r => zmzdeposit fold XR XI (p r) (ip r) m
  | ZRenorm r => zmrenorm fold (p r) (ip r) (c r) (ic r) m
  | ZAdd XR XI r => zmzadd fold XR XI (p r) (ip r) (c r) (ic r) m
  | ZConvTo XR XI r => zmzconv fold XR XI (p r) (ip r) (c r) (ic r) m
  | ZMerge r r' => zmzmadd fold (p r) (ip r) (c r) (ic r) (p r') (ip r') (c r') (ic r') m
  | ZSetTo r r' => zmzmset fold (p r) (ip r) (c r) (ic r) (p r') (ip r') (c r') (ic r') m
  | ZNegate r => zmnegate fold (p r) (ip r) (c r) (ic r) m
  end.
Fixpoint zrun {t} (fold : Z) (R : nat -> reg) (ops : list (zop t)) (m : mem t) : mem t :=
  match ops with [] => m | o :: ops' => zrun fold R ops' (zexec fold R o m) end.
(** The two real calls a complex call should amount to. *)
Definition real_ops {t} (o : zop t) : list (op t) :=
  let re r := (2 * r)%nat in let im r := (2 * r + 1)%nat in
  match o with
  | ZSetZero r => [SetZero (re r); SetZero (im r)]
  | ZUpdate XR XI r => [Update XR (re r); Update XI (im r)]
  | ZDeposit XR XI r => [Deposit XR (re r); Deposit XI (im r)]
  | ZRenorm r => [Renorm (re r); Renorm (im r)]
  | ZAdd XR XI r => [Add XR (re r); Add XI (im r)]
  | ZConvTo XR XI r => [ConvTo XR (re r); ConvTo XI (im r)]
  | ZMerge r r' => [Merge (re r) (re r'); Merge (im r) (im r')]
  | ZSetTo r r' => [SetTo (re r) (re r'); SetTo (im r) (im r')]
  | ZNegate r => [Negate (re r); Negate (im r)]
  end.

Section COMM.
  Context {t : ty} (fold : Z) (Hf : 2 <= fold).
  Lemma cells_dec r a : cells fold r a \/ ~ cells fold r a.
  Proof. unfold cells. apply in_acc_dec. Qed.
  Lemma same_cells (m m' : mem t) r a : same_acc fold m r m' r -> cells fold r a -> m a = m' a.
  Proof. intros S (i & Hi & [-> | ->]); apply S; auto. Qed.
  Lemma only_same (r r' : reg) (m m' : mem t) : disjoint (cells fold r) (cells fold r') -> only fold r m m' -> same_acc fold m' r' m r'.
  Proof.
    intros D O i Hi. split; apply O; intros C; eapply D; eauto; exists i; auto.
  Qed.
  Lemma same_refl (r : reg) (m : mem t) : same_acc fold m r m r. Proof. intros i Hi. auto. Qed.
  Lemma step_commute (f g : reg -> mem t -> mem t) (r r' : reg) (m : mem t) :
    step fold f -> step fold g -> fits_reg fold r -> fits_reg fold r' -> disjoint (cells fold r) (cells fold r') ->
    f r (g r' m) = g r' (f r m).
  Proof.
    intros F G L L' D. assert (D' : disjoint (cells fold r') (cells fold r)) by (intros a A B; eapply D; eauto).
    destruct (F r r m m L L (same_refl r m)) as [_ OF]. destruct (G r' r' m m L' L' (same_refl r' m)) as [_ OG].
    destruct (F r r (g r' m) m L L (only_same r' r m _ D' OG)) as [SF OF'].
    destruct (G r' r' (f r m) m L' L' (only_same r r' m _ D OF)) as [SG OG'].
    apply functional_extensionality. intros a.
    destruct (cells_dec r a) as [Ca|Ca].
    - rewrite (same_cells _ _ r a SF Ca). symmetry. apply OG'. intros C. eapply D; eauto.
    - rewrite (OF' a Ca). destruct (cells_dec r' a) as [Cb|Cb].
      + symmetry. apply (same_cells _ _ r' a SG Cb).
      + rewrite (OG a Cb), (OG' a Cb), (OF a Ca). reflexivity.
  Qed.

  Lemma zmzdeposit_parts (XR XI : F t) (r : reg) (m : mem t) :
    fits_reg fold (re_of r) -> fits_reg fold (im_of r) -> disjoint (cells fold (re_of r)) (cells fold (im_of r)) ->
    zmzdeposit fold XR XI (rp r) (rip r) m =
    dmddeposit fold XI (rp r + 1) (2 * rip r) (dmddeposit fold XR (rp r) (2 * rip r) m).
  Proof.
    intros L L' D.
    pose proof (step_commute (fun q => dmddeposit fold XR (rp q) (rip q)) (fun q => dmddeposit fold XI (rp q) (rip q))
       (re_of r) (im_of r) m (step_deposit fold Hf XR) (step_deposit fold Hf XI) L L' D) as CM.
    cbn [rp rip re_of im_of] in CM.
    assert (NH : rp r + 1 <> rp r) by lia.
    unfold zmzdeposit. destruct (ISNANINF XR || ISNANINF (m (rp r))) eqn:I1.
    { f_equal. unfold dmddeposit. rewrite I1. reflexivity. }
    destruct (ISNANINF XI || ISNANINF (m (rp r + 1))) eqn:I2.
    { rewrite <- CM. f_equal. unfold dmddeposit. rewrite I2. reflexivity. }
    destruct (dmindex0 (m (rp r)) || dmindex0 (m (rp r + 1))) eqn:I3; [reflexivity|].
    apply orb_false_iff in I3. destruct I3 as [I3 I4].
    assert (AP : forall j k, 0 <= j < fold -> 0 <= k < fold -> rp r + j * (2 * rip r) <> rp r + 1 + k * (2 * rip r)).
    { intros j k Hj Hk E. apply (D (rp r + j * (2 * rip r))); [exists j; split; [lia|left; reflexivity]|].
      exists k. split; [lia|left; cbn [rp rip im_of]; lia]. }
    unfold for_up. rewrite zdep_loop by (intros j k Hj Hk; apply AP; lia).
    unfold dmddeposit at 2. rewrite I1, I3. unfold for_up.
    set (n := Z.to_nat (fold - 1 - 0)). replace (Z.max (fold - 1) 0) with (fold - 1) by lia.
    destruct (loop n 0 (deposit_step (rp r) (2 * rip r)) (m, XR)) as [m1 x1] eqn:E1.
    assert (K : m1 (rp r + 1) = m (rp r + 1)).
    { destruct (dmddeposit_words (lay_p _ _ _ _ _ L) m XR) as [_ W]; [lia| | | |].
      - apply orb_false_iff in I1. apply I1.
      - apply orb_false_iff in I1. apply I1.
      - exact I3.
      - cbv zeta in W. cbn [rp rip re_of] in W. specialize (W (rp r + 1)). unfold dmddeposit in W. rewrite I1, I3 in W.
        unfold for_up in W. fold n in W. rewrite E1 in W. replace (Z.max (fold - 1) 0) with (fold - 1) in W by lia.
        rewrite upd_other in W.
        + apply W. intros j Hj E. apply (AP j 0); lia.
        + intros E. apply (AP (fold - 1) 0); lia. }
    set (a1 := rp r + (fold - 1) * (2 * rip r)). set (a2 := rp r + 1 + (fold - 1) * (2 * rip r)).
    unfold dmddeposit. rewrite upd_other by (intros E; apply (AP (fold - 1) 0); lia). rewrite K.
    rewrite I2, I4. unfold for_up. fold n. replace (Z.max (fold - 1) 0) with (fold - 1) by lia. fold a2.
    rewrite dep_loop_upd by (intros j Hj; apply AP; lia).
    destruct (loop n 0 (deposit_step (rp r + 1) (2 * rip r)) (m1, XI)) as [m2 x2] eqn:E2. cbn [fst snd].
    replace (rp r + (fold - 1) * 2 * rip r + 1) with a2 by (unfold a2; lia).
    replace (rp r + (fold - 1) * 2 * rip r) with a1 by (unfold a1; lia).
    assert (N12 : a2 <> a1) by (intros E; apply (AP (fold - 1) (fold - 1)); unfold a1, a2 in *; lia).
    assert (K2 : m2 a1 = m1 a1).
    { pose proof (dep_loop_upd (rp r + 1) (2 * rip r) n a1 (m1 a1) 0 m1 XI) as DU.
      rewrite E2 in DU. cbn [fst snd] in DU.
      assert (EM : upd m1 a1 (m1 a1) = m1).
      { apply functional_extensionality. intros x. unfold upd. destruct (Z.eqb_spec x a1); subst; auto. }
      rewrite EM, E2 in DU. specialize (DU ltac:(intros j Hj; apply AP; lia)). injection DU as DU. rewrite DU. apply upd_same. }
    rewrite (upd_other m2 a1 _ a2) by exact N12. rewrite K2.
    rewrite (upd_other m2 a1 _ a2) by exact N12. reflexivity.
  Qed.
End COMM.

Lemma parts_re R r : parts R (2 * r) = re_of (R r).
Proof. unfold parts. rewrite Nat.even_mul. cbn [Nat.even orb]. now rewrite Nat.div2_double. Qed.
Lemma parts_im R r : parts R (2 * r + 1) = im_of (R r).
Proof.
  unfold parts. rewrite Nat.even_add, Nat.even_mul. cbn [Nat.even orb eqb].
  rewrite Nat.add_1_r, Nat.div2_succ_double. reflexivity.
Qed.
Lemma parts_disj fold R r r' : registers fold (parts R) -> disjoint (cells fold (re_of (R r))) (cells fold (im_of (R r'))).
Proof.
  intros [_ D]. rewrite <- parts_re, <- parts_im. apply D. lia.
Qed.
Lemma zexec_parts t fold (R : nat -> reg) (o : zop t) (m : mem t) : 2 <= fold -> registers fold (parts R) ->
  zexec fold R o m = run fold (parts R) (real_ops o) m.
Proof.
  intros Hf HR. pose proof (proj1 HR) as L.
  assert (Lr : forall r, fits_reg fold (re_of (R r))) by (intros r; rewrite <- parts_re; apply L).
  assert (Li : forall r, fits_reg fold (im_of (R r))) by (intros r; rewrite <- parts_im; apply L).
  assert (D : forall r, disjoint (cells fold (re_of (R r))) (cells fold (im_of (R r)))) by (intros r; apply parts_disj; auto).
  destruct o as [r|XR XI r|XR XI r|r|XR XI r|XR XI r|r r'|r r'|r]; cbn [zexec run real_ops exec];
    rewrite ?parts_re, ?parts_im; cbn [re_of im_of rp rip rc ric]; try reflexivity.
  - apply zmzdeposit_parts; auto.
  - unfold zmzadd, dmdadd. rewrite (zmzdeposit_parts fold Hf) by auto. unfold zmrenorm, zmzupdate.
    pose proof (fun m => step_commute (t := t) fold (fun q => dmddeposit fold XR (rp q) (rip q))
       (fun q => dmdupdate fold XI (rp q) (rip q) (rc q) (ric q)) (re_of (R r)) (im_of (R r)) m (step_deposit fold Hf XR) (step_update fold Hf XI) (Lr r) (Li r) (D r)) as C1.
    pose proof (fun m => step_commute (t := t) fold (fun q => dmrenorm fold (rp q) (rip q) (rc q) (ric q))
       (fun q => dmdupdate fold XI (rp q) (rip q) (rc q) (ric q)) (re_of (R r)) (im_of (R r)) m (step_renorm fold Hf) (step_update fold Hf XI) (Lr r) (Li r) (D r)) as C2.
    pose proof (fun m => step_commute (t := t) fold (fun q => dmrenorm fold (rp q) (rip q) (rc q) (ric q))
       (fun q => dmddeposit fold XI (rp q) (rip q)) (re_of (R r)) (im_of (R r)) m (step_renorm fold Hf) (step_deposit fold Hf XI) (Lr r) (Li r) (D r)) as C3.
    cbn [re_of im_of rp rip rc ric] in C1, C2, C3. rewrite C1, C3, C2. reflexivity.
  - unfold zmzconv. rewrite !(Z.mul_comm _ 2). reflexivity.
Qed.
Lemma run_app t fold (R : nat -> reg) (ops ops' : list (op t)) (m : mem t) :
  run fold R (ops ++ ops') m = run fold R ops' (run fold R ops m).
Proof. revert m. induction ops as [|o ops IH]; intros m; cbn [app run]; auto. Qed.
Lemma zrun_parts t fold (R : nat -> reg) (ops : list (zop t)) : 2 <= fold -> registers fold (parts R) -> forall m,
  zrun fold R ops m = run fold (parts R) (flat_map real_ops ops) m.
Proof.
  intros Hf HR. induction ops as [|o ops IH]; intros m; cbn [zrun flat_map]; auto.
  rewrite run_app, <- zexec_parts by auto. apply IH.
Qed.

(** ** Sums of complex data *)
Notation zre m Y := (P_of m Y 2).
Notation zrc m Y fold := (P_of m (Y + 2 * fold) 2).
Notation zim m Y := (P_of m (Y + 1) 2).
Notation zic m Y fold := (P_of m (Y + 2 * fold + 1) 2).

Section ZSUM.
  Context {t : ty} (fold : Z) (Hf : 2 <= fold <= MAXFOLD t).
  (** The contiguous complex accumulator at Y holds the sums of both parts. *)
  Definition zholds (zs : list (F t * F t)) (m : mem t) (Y : Z) : Prop :=
    holds t fold [] (map fst zs) (zre m Y) (zrc m Y fold) /\
    holds t fold [] (map snd zs) (zim m Y) (zic m Y fold).
  Let Hf2 := Hf2 fold Hf. Let Hfm := Hfm fold Hf.
  Definition zreg (Y : Z) : reg := mkreg Y 1 (Y + 2 * fold) 1.
  Lemma zcells_re Y a : cells fold (re_of (zreg Y)) a -> block Y (zbnum fold) a.
  Proof. intros (i & Hi & [E|E]); unfold block, zbnum; cbn [re_of rp rip rc ric zreg] in E; lia. Qed.
  Lemma zcells_im Y a : cells fold (im_of (zreg Y)) a -> block Y (zbnum fold) a.
  Proof. intros (i & Hi & [E|E]); unfold block, zbnum; cbn [im_of rp rip rc ric zreg] in E; lia. Qed.
  Lemma zfits_re Y : fits_reg fold (re_of (zreg Y)).
  Proof. exact (layout_complex_re fold Y ltac:(lia)). Qed.
  Lemma zfits_im Y : fits_reg fold (im_of (zreg Y)).
  Proof. exact (layout_complex_im fold Y ltac:(lia)). Qed.
  Lemma zdisj Y : disjoint (cells fold (re_of (zreg Y))) (cells fold (im_of (zreg Y))).
  Proof. intros a (i & Hi & E) (j & Hj & E'). cbn [re_of im_of rp rip rc ric zreg] in *. lia. Qed.

  (** A zb routine as re part then im part. *)
  Lemma zbsetzero_parts Y (m : mem t) : zbsetzero fold Y m =
    dmsetzero fold (Y + 1) 2 (Y + 2 * fold + 1) 2 (dmsetzero fold Y 2 (Y + 2 * fold) 2 m).
  Proof. reflexivity. Qed.
  Lemma zbzadd_parts (XR XI : F t) Y (m : mem t) : zbzadd fold XR XI Y m =
    dmdadd fold XI (Y + 1) 2 (Y + 2 * fold + 1) 2 (dmdadd fold XR Y 2 (Y + 2 * fold) 2 m).
  Proof.
    set (R := fun n : nat => mkreg (Y + Z.of_nat n * zbnum fold) 1 (Y + Z.of_nat n * zbnum fold + 2 * fold) 1).
    assert (HR : registers fold (parts R)).
    { split.
      - intros n. unfold parts. destruct (Nat.even n); [apply (zfits_re (Y + Z.of_nat (Nat.div2 n) * zbnum fold))|apply (zfits_im (Y + Z.of_nat (Nat.div2 n) * zbnum fold))].
      - intros n n' N a. unfold parts. pose proof (Nat.div2_odd n) as E1. pose proof (Nat.div2_odd n') as E2.
        rewrite <- !Nat.negb_odd. unfold cells, in_acc.
        destruct (Nat.odd n), (Nat.odd n'); cbn [negb re_of im_of R rp rip rc ric Nat.b2n] in *; unfold zbnum;
        intros (i & Hi & A) (j & Hj & B);
        assert (EQ : Z.of_nat (Nat.div2 n) = Z.of_nat (Nat.div2 n')) by
          (destruct (Z.lt_trichotomy (Z.of_nat (Nat.div2 n)) (Z.of_nat (Nat.div2 n'))) as [?|[?|?]]; auto; exfalso; nia);
        rewrite EQ in *; try (exfalso; apply N; lia);
        generalize dependent (Z.of_nat (Nat.div2 n') * (4 * fold)); intros; lia. }
    pose proof (zexec_parts t fold R (ZAdd XR XI 0) m Hf2 HR) as E. cbn [zexec real_ops run exec] in E.
    rewrite parts_re, parts_im in E. cbn [R rp rip rc ric re_of im_of Z.of_nat] in E.
    rewrite Z.mul_0_l, Z.add_0_r in E. exact E.
  Qed.

  Lemma zfr (Y : Z) (m m' : mem t) : only fold (re_of (zreg Y)) m m' \/ only fold (im_of (zreg Y)) m m' ->
    forall a, ~ block Y (zbnum fold) a -> m' a = m a.
  Proof.
    intros [O|O] a Ha; apply O; intros C; apply Ha; [apply zcells_re|apply zcells_im]; auto.
  Qed.
  Lemma zre_im (Y : Z) (m m' : mem t) us xs : only fold (im_of (zreg Y)) m m' ->
    holds t fold us xs (zre m Y) (zrc m Y fold) -> holds t fold us xs (zre m' Y) (zrc m' Y fold).
  Proof.
    intros O H. eapply holds_words_ext; [exact Hf2| |exact H]. intros i Hi. unfold P_of.
    split; apply O; intros C; apply (zdisj Y _) in C; auto; exists i; split; auto.
  Qed.
  Lemma zim_re (Y : Z) (m m' : mem t) us xs : only fold (re_of (zreg Y)) m m' ->
    holds t fold us xs (zim m Y) (zic m Y fold) -> holds t fold us xs (zim m' Y) (zic m' Y fold).
  Proof.
    intros O H. eapply holds_words_ext; [exact Hf2| |exact H]. intros i Hi. unfold P_of.
    split; apply O; intros C; refine (zdisj Y _ C _); exists i; split; auto.
  Qed.

  Lemma zsetzero_holds Y (m : mem t) : let m' := zbsetzero fold Y m in
    zholds [] m' Y /\ (forall a, ~ block Y (zbnum fold) a -> m' a = m a).
  Proof.
    intros m'. unfold m'. rewrite zbsetzero_parts.
    destruct (rep_setzero (layout_complex_re fold Y ltac:(lia)) Hf2 m) as [H1 F1]. cbv zeta in H1, F1.
    set (m1 := dmsetzero fold Y 2 (Y + 2 * fold) 2 m) in *.
    destruct (rep_setzero (layout_complex_im fold Y ltac:(lia)) Hf2 m1) as [H2 F2]. cbv zeta in H2, F2.
    set (m2 := dmsetzero fold (Y + 1) 2 (Y + 2 * fold + 1) 2 m1) in *. clearbody m1 m2.
    split; [split|].
    - eapply zre_im; [exact F2|]. exact H1.
    - exact H2.
    - intros a Ha. rewrite (zfr Y m1 m2 (or_intror F2) a Ha). apply (zfr Y m m1 (or_introl F1) a Ha).
  Qed.
  Lemma zadd_holds Y zs x (m : mem t) : zholds zs m Y -> Z.of_nat (length (x :: zs)) <= capacity t ->
    let m' := zbzadd fold (fst x) (snd x) Y m in
    zholds (x :: zs) m' Y /\ (forall a, ~ block Y (zbnum fold) a -> m' a = m a).
  Proof.
    intros [HR HI] HC m'. unfold m'. rewrite zbzadd_parts. cbn [length] in HC.
    pose proof (endurance_pos t) as EP.
    destruct (rep_add (layout_complex_re fold Y ltac:(lia)) Hf2 Hfm m [] (map fst zs) 0 (fst x)) as [H1 F1].
    { apply holds_rep; auto. rewrite map_length. lia. } { lia. } { intros _. cbn [length]. rewrite map_length. lia. }
    cbv zeta in H1, F1. set (m1 := dmdadd fold (fst x) Y 2 (Y + 2 * fold) 2 m) in *.
    apply (zim_re Y m m1 _ _ F1) in HI.
    destruct (rep_add (layout_complex_im fold Y ltac:(lia)) Hf2 Hfm m1 [] (map snd zs) 0 (snd x)) as [H2 F2].
    { apply holds_rep; auto. rewrite map_length. lia. } { lia. } { intros _. cbn [length]. rewrite map_length. lia. }
    cbv zeta in H2, F2. set (m2 := dmdadd fold (snd x) (Y + 1) 2 (Y + 2 * fold + 1) 2 m1) in *. clearbody m1 m2.
    split; [split|].
    - eapply zre_im; [exact F2|]. exact H1.
    - exact H2.
    - intros a Ha. rewrite (zfr Y m1 m2 (or_intror F2) a Ha). apply (zfr Y m m1 (or_introl F1) a Ha).
  Qed.
  Lemma zmerge_holds X Y zs zs' (m : mem t) : X + zbnum fold <= Y \/ Y + zbnum fold <= X ->
    zholds zs m X -> zholds zs' m Y -> Z.of_nat (length (zs ++ zs')) <= capacity t ->
    let m' := zbzbadd fold X Y m in
    zholds (zs ++ zs') m' Y /\ (forall a, ~ block Y (zbnum fold) a -> m' a = m a).
  Proof.
    intros A [XR XI] [HR HI] HC m'. rewrite app_length in HC.
    unfold m'. change (zbzbadd fold X Y m) with
      (dmdmadd fold (X + 1) 2 (X + 2 * fold + 1) 2 (Y + 1) 2 (Y + 2 * fold + 1) 2
        (dmdmadd fold X 2 (X + 2 * fold) 2 Y 2 (Y + 2 * fold) 2 m)).
    destruct (rep_merge (layout_complex_re fold Y ltac:(lia)) Hf2 Hfm (pX := X) (ipX := 2) (cX := X + 2 * fold) (icX := 2) m [] (map fst zs) [] (map fst zs')) as (_ & F1 & H1).
    { intros a (i & Hi & E) (j & Hj & E'). unfold zbnum in A. lia. }
    { apply holds_rep; auto. rewrite map_length. lia. } { apply holds_rep; auto. rewrite map_length. lia. }
    { intros _. rewrite app_length, !map_length. lia. }
    cbv zeta in H1, F1. specialize (H1 XR HR). set (m1 := dmdmadd fold X 2 (X + 2 * fold) 2 Y 2 (Y + 2 * fold) 2 m) in *.
    apply (zim_re Y m m1 _ _ F1) in HI.
    assert (XI' : holds t fold [] (map snd zs) (zim m1 X) (zic m1 X fold)).
    { eapply holds_words_ext; [exact Hf2| |exact XI]. intros i Hi. unfold P_of.
      split; apply F1; intros (j & Hj & E); unfold zbnum in A; lia. }
    destruct (rep_merge (layout_complex_im fold Y ltac:(lia)) Hf2 Hfm (pX := X + 1) (ipX := 2) (cX := X + 2 * fold + 1) (icX := 2) m1 [] (map snd zs) [] (map snd zs')) as (_ & F2 & H2).
    { intros a (i & Hi & E) (j & Hj & E'). unfold zbnum in A. lia. }
    { apply holds_rep; auto. rewrite map_length. lia. } { apply holds_rep; auto. rewrite map_length. lia. }
    { intros _. rewrite app_length, !map_length. lia. }
    cbv zeta in H2, F2. specialize (H2 XI' HI).
    set (m2 := dmdmadd fold (X + 1) 2 (X + 2 * fold + 1) 2 (Y + 1) 2 (Y + 2 * fold + 1) 2 m1) in *. clearbody m1 m2.
    split; [split|].
    - eapply zre_im; [exact F2|]. rewrite map_app. exact H1.
    - rewrite map_app. exact H2.
    - intros a Ha. rewrite (zfr Y m1 m2 (or_intror F2) a Ha). apply (zfr Y m m1 (or_introl F1) a Ha).
  Qed.

  Lemma zholds_perm zs zs' (m : mem t) Y : Permutation zs zs' -> zholds zs m Y -> zholds zs' m Y.
  Proof.
    intros P [A B]. split; (eapply holds_perm; [reflexivity| |eassumption]); apply Permutation_map; auto.
  Qed.
  Lemma zholds_outside zs (m m' : mem t) Y : (forall a, block Y (zbnum fold) a -> m' a = m a) -> zholds zs m Y -> zholds zs m' Y.
  Proof.
    intros E [A B]. unfold block, zbnum in E.
    split; (eapply holds_words_ext; [exact Hf2| |eassumption]); intros i Hi; unfold P_of; split; apply E; lia.
  Qed.
  Lemma zholds_cells zs (m m' : mem t) Y Y' : all_finite (map fst zs) = true -> all_finite (map snd zs) = true ->
    zholds zs m Y -> zholds zs m' Y' -> forall i, 0 <= i < zbnum fold -> m (Y + i) = m' (Y' + i).
  Proof.
    intros AR AI [R I] [R' I'] i Hi. unfold zbnum in Hi.
    destruct (holds_unique t fold _ _ _ _ _ _ ltac:(lia) R R') as [_ ER]. specialize (ER AR).
    destruct (holds_unique t fold _ _ _ _ _ _ ltac:(lia) I I') as [_ EI]. specialize (EI AI). unfold P_of in ER, EI.
    destruct (Z.Even_or_Odd i) as [[q E]|[q E]].
    - destruct (Z_lt_dec q fold).
      + destruct (ER q ltac:(lia)) as [E1 _]. replace (Y + i) with (Y + q * 2) by lia. replace (Y' + i) with (Y' + q * 2) by lia. auto.
      + destruct (ER (q - fold) ltac:(lia)) as [_ E1]. replace (Y + i) with (Y + 2 * fold + (q - fold) * 2) by lia.
        replace (Y' + i) with (Y' + 2 * fold + (q - fold) * 2) by lia. auto.
    - destruct (Z_lt_dec q fold).
      + destruct (EI q ltac:(lia)) as [E1 _]. replace (Y + i) with (Y + 1 + q * 2) by lia. replace (Y' + i) with (Y' + 1 + q * 2) by lia. auto.
      + destruct (EI (q - fold) ltac:(lia)) as [_ E1]. replace (Y + i) with (Y + 2 * fold + 1 + (q - fold) * 2) by lia.
        replace (Y' + i) with (Y' + 2 * fold + 1 + (q - fold) * 2) by lia. auto.
  Qed.

  Lemma zadd_list_holds Y xs : forall (m : mem t) zs, zholds zs m Y -> Z.of_nat (length (xs ++ zs)) <= capacity t ->
    let m' := zadd_list fold Y xs m in
    zholds (xs ++ zs) m' Y /\ (forall a, ~ block Y (zbnum fold) a -> m' a = m a).
  Proof.
    induction xs as [|x xs IH]; intros m zs H HC; [split; auto|].
    cbn [app length] in HC. rewrite app_length in HC.
    destruct (zadd_holds Y zs x m H ltac:(cbn [length]; lia)) as [H1 F1]. cbv zeta in H1, F1.
    destruct (IH _ _ H1) as [H2 F2]; [rewrite app_length; cbn [length]; lia|].
    cbv zeta. cbn [zadd_list fold_left]. split.
    - eapply zholds_perm; [|exact H2]. symmetry. apply Permutation_middle.
    - intros a Ha. etransitivity; [apply F2|apply F1]; auto.
  Qed.
  Lemma zsum_list_holds Y xs (m : mem t) : Z.of_nat (length xs) <= capacity t ->
    let m' := zsum_list fold Y xs m in
    zholds xs m' Y /\ (forall a, ~ block Y (zbnum fold) a -> m' a = m a).
  Proof.
    intros HC. destruct (zsetzero_holds Y m) as [H0 F0]. cbv zeta in H0, F0.
    destruct (zadd_list_holds Y xs _ _ H0) as [H1 F1]; [rewrite app_nil_r; auto|].
    cbv zeta in *. rewrite app_nil_r in H1. split; auto.
    intros a Ha. etransitivity; [apply F1|apply F0]; auto.
  Qed.

  Lemma zeval_holds (u : ztree t) : forall next m, Z.of_nat (length (zleaves u)) <= capacity t ->
    let '(a, n, m') := zeval fold u next m in
    next <= a /\ a + zbnum fold <= n /\ zholds (zleaves u) m' a /\
    (forall x, ~ (next <= x < n) -> m' x = m x).
  Proof.
    assert (ZN : zbnum fold = 4 * fold) by reflexivity.
    induction u as [|x u IH|l IHl r IHr|l IHl r IHr]; intros next m HC; cbn [zeval zleaves] in *.
    - destruct (zsetzero_holds next m) as [H F]. split; [lia|split; [lia|split; [exact H|]]].
      intros x Hx. apply F. unfold block. lia.
    - cbn [length] in HC. specialize (IH next m ltac:(lia)). destruct (zeval fold u next m) as [[a n] m1].
      destruct IH as (A1 & A2 & A3 & A4). destruct (zadd_holds a _ x m1 A3) as [H1 F1]; [cbn [length]; lia|].
      split; [lia|split; [lia|split; [exact H1|]]].
      intros y Hy. etransitivity; [apply F1; unfold block; lia|auto].
    - rewrite app_length in HC. specialize (IHl next m ltac:(lia)).
      destruct (zeval fold l next m) as [[a n] m1]. destruct IHl as (A1 & A2 & A3 & A4).
      specialize (IHr n m1 ltac:(lia)). destruct (zeval fold r n m1) as [[b n'] m2]. destruct IHr as (B1 & B2 & B3 & B4).
      apply (zholds_outside _ _ m2) in A3; [|intros x Hx; unfold block in Hx; apply B4; lia].
      destruct (zmerge_holds b a _ _ m2 ltac:(lia) B3 A3) as [H1 F1]; [rewrite app_length; lia|].
      split; [lia|split; [lia|split]].
      + eapply zholds_perm; [apply Permutation_app_comm|exact H1].
      + intros x Hx. etransitivity; [apply F1; unfold block; lia|]. rewrite B4 by lia. apply A4. lia.
    - rewrite app_length in HC. specialize (IHl next m ltac:(lia)).
      destruct (zeval fold l next m) as [[a n] m1]. destruct IHl as (A1 & A2 & A3 & A4).
      specialize (IHr n m1 ltac:(lia)). destruct (zeval fold r n m1) as [[b n'] m2]. destruct IHr as (B1 & B2 & B3 & B4).
      apply (zholds_outside _ _ m2) in A3; [|intros x Hx; unfold block in Hx; apply B4; lia].
      destruct (zmerge_holds a b _ _ m2 ltac:(lia) A3 B3) as [H1 F1]; [rewrite app_length; lia|].
      split; [lia|split; [lia|split; [exact H1|]]].
      intros x Hx. etransitivity; [apply F1; unfold block; lia|]. rewrite B4 by lia. apply A4. lia.
  Qed.
End ZSUM.
