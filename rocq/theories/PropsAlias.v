(** * C67: an accumulator merged into itself; merging vectors of accumulators with any stride *)
From Coq Require Import ZArith Bool List Lia Permutation.
From Flocq Require Import Core BinarySingleNaN.
From Verif Require Import Fp Mem Binned Spec Client FpProofs BitProofs CoreArith SpecProofs WordProofs MemProofs AccProofs SumProofs ConvProofs History ClientProofs StrideProofs ComplexProofs BlasZSpec PropsSum PropsAcc PropsMem.
Import ListNotations.
Open Scope Z_scope.

(** ** Merging r into itself is merging a copy of it *)
Section SELF.
  Context {t : ty} (fold : Z) (Hf : 2 <= fold) (r z : reg).
  Hypothesis L : fits_reg fold r.
  Hypothesis A : disjoint (cells fold z) (cells fold r).
  Local Notation p := (rp r). Local Notation ip := (rip r). Local Notation c := (rc r). Local Notation ic := (ric r).

  Lemma self_raw (m : mem t) : done p ip c ic m (merge_raw fold p ip c ic p ip c ic m) 0 fold
    (fun i => fadd (m (p + i * ip)) (fsub (m (p + i * ip)) (dmbins t (dmindex (m p)) i)))
    (fun i => fadd (m (c + i * ic)) (m (c + i * ic))).
  Proof.
    unfold merge_raw. cbv zeta. rewrite Z.sub_diag. change (0 <? 0) with false. cbv iota. change (0 - 0) with 0.
    apply (for_up_done L); try lia. intros k m' Hk D a. cbv zeta. rewrite Z.add_0_r.
    rewrite (upd_other m' _ _ (c + k * ic)) by (intros E; apply (lay_pc _ _ _ _ _ L k k); lia).
    rewrite (done_pri L _ _ _ _ _ _ k D), (done_car L _ _ _ _ _ _ k D) by lia. reflexivity.
  Qed.
  Lemma self_sim (m m' : mem t) : same_acc fold m r m' r -> same_acc fold m r m' z ->
    same_acc fold (dmdmadd fold p ip c ic p ip c ic m) r (dmdmadd fold (rp z) (rip z) (rc z) (ric z) p ip c ic m') r /\
    only fold r m (dmdmadd fold p ip c ic p ip c ic m).
  Proof.
    intros Sr Sz. pose proof (same_head fold Hf _ _ _ _ Sr) as Er. pose proof (same_head fold Hf _ _ _ _ Sz) as Ez.
    destruct (feq (m p) fzero) eqn:Z0.
    { unfold dmdmadd. rewrite <- Ez, Z0. split; [exact Sr|apply only_refl]. }
    destruct (ISNANINF (m p)) eqn:I0.
    { unfold dmdmadd. rewrite <- Ez, <- Er, Z0, I0. cbn [orb]. split.
      - intros i Hi. destruct (Sr i Hi) as [E1 E2].
        rewrite !(upd_other _ _ _ (c + i * ic)) by (apply head_car with (fold := fold); auto; lia). split; [|exact E2].
        destruct (Z.eq_dec i 0) as [->|N].
        + rewrite !Z.mul_0_l, !Z.add_0_r, !upd_same. reflexivity.
        + rewrite !upd_other by (apply head_pri with (fold := fold); auto; lia). exact E1.
      - intros a Ha. apply upd_other. intros ->. apply Ha. exists 0. split; [lia|left; lia]. }
    rewrite (dmdmadd_raw (fold:=fold) m) by auto. rewrite (dmdmadd_raw (fold:=fold) m') by (rewrite <- ?Er, <- ?Ez; auto).
    pose proof (self_raw m) as D.
    pose proof (merge_neg (fold:=fold) L ltac:(lia) (pX := rp z) (ipX := rip z) (cX := rc z) (icX := ric z) m') as D'. cbv zeta in D'.
    rewrite <- Er, <- Ez, Z.sub_diag in D'. specialize (D' A ltac:(lia)).
    set (m1 := merge_raw fold p ip c ic p ip c ic m) in *. set (m1' := merge_raw fold p ip c ic (rp z) (rip z) (rc z) (ric z) m') in *.
    assert (S1 : same_acc fold m1 r m1' r).
    { eapply done_same; [exact D|exact D'|]. intros i Hi. cbv beta. destruct (Z.ltb_spec i 0); [lia|]. rewrite Z.sub_0_r.
      destruct (Sr i Hi) as [<- <-]. destruct (Sz i Hi) as [<- <-]. auto. }
    destruct (step_renorm fold Hf r r m1 m1' L L S1) as [S2 O2]. split; [exact S2|].
    eapply only_trans; [|exact O2]. eapply done_only; eauto.
  Qed.
End SELF.
(** Any register, strided or not, merged into itself. *)
Definition spare (fold : Z) (r : reg) : reg :=
  let B := Z.abs (rp r) + fold * Z.abs (rip r) + Z.abs (rc r) + fold * Z.abs (ric r) + 1 in mkreg B 1 (B + fold) 1.
Lemma spare_apart fold r : 1 <= fold -> disjoint (cells fold (spare fold r)) (cells fold r).
Proof. intros Hf a (i & Hi & E) (j & Hj & E'). unfold spare in E. cbn [rp rip rc ric] in E. nia. Qed.
Lemma self_holds t fold (r : reg) us xs (m : mem t) : 2 <= fold <= MAXFOLD t -> fits_reg fold r ->
  2 * Z.of_nat (length xs) <= capacity t -> holds t fold us xs (pri m r) (car m r) ->
  let m1 := dmdmadd fold (rp r) (rip r) (rc r) (ric r) (rp r) (rip r) (rc r) (ric r) m in
  holds t fold (us ++ us) (xs ++ xs) (pri m1 r) (car m1 r) /\ only fold r m m1.
Proof.
  intros Hf L HC H m1. pose (z := spare fold r). assert (A : disjoint (cells fold z) (cells fold r)) by (apply spare_apart; lia).
  assert (LZ : fits_reg fold z) by (apply layout_contig; lia).
  pose proof (dmdmset_done LZ ltac:(lia) (pX := rp r) (ipX := rip r) (cX := rc r) (icX := ric r) m) as D.
  assert (A' : disjoint (cells fold r) (cells fold z)) by (intros a H1 H2; exact (A a H2 H1)).
  specialize (D A'). set (m' := dmdmset fold (rp r) (rip r) (rc r) (ric r) (rp z) (rip z) (rc z) (ric z) m) in *. destruct D as [D1 D2].
  assert (Sz : same_acc fold m r m' z) by (intros i Hi; destruct (D1 i Hi) as [E1 E2]; auto).
  assert (Sr : same_acc fold m r m' r).
  { intros i Hi. split; symmetry; apply D2; intros j Hj; split; intros E.
    - apply (A (rp r + i * rip r)); [exists j; auto|exists i; auto].
    - apply (A (rp r + i * rip r)); [exists j; auto|exists i; auto].
    - apply (A (rc r + i * ric r)); [exists j; auto|exists i; auto].
    - apply (A (rc r + i * ric r)); [exists j; auto|exists i; auto]. }
  destruct (self_sim fold ltac:(lia) r z L A m m' Sr Sz) as [S O]. split; [|exact O].
  destruct (rep_merge L (Hf2 fold Hf) (Hfm fold Hf) (pX := rp z) (ipX := rip z) (cX := rc z) (icX := ric z) m' us xs us xs A) as (_ & _ & HH).
  - apply holds_rep; [lia|]. eapply holds_words_ext; [exact (Hf2 fold Hf)| |exact H]. intros i Hi. destruct (Sz i Hi) as [E1 E2]. split; symmetry; assumption.
  - apply holds_rep; [lia|]. eapply holds_words_ext; [exact (Hf2 fold Hf)| |exact H]. intros i Hi. destruct (Sr i Hi) as [E1 E2]. split; symmetry; assumption.
  - intros _. rewrite app_length. lia.
  - cbv zeta in HH. eapply holds_words_ext; [exact (Hf2 fold Hf)| |apply HH].
    + intros i Hi. destruct (S i Hi) as [E1 E2]. split; assumption.
    + eapply holds_words_ext; [exact (Hf2 fold Hf)| |exact H]. intros i Hi. destruct (Sz i Hi) as [E1 E2]. split; symmetry; assumption.
    + eapply holds_words_ext; [exact (Hf2 fold Hf)| |exact H]. intros i Hi. destruct (Sr i Hi) as [E1 E2]. split; symmetry; assumption.
Qed.
(** ** C67 *)
(** binned_dbdbadd with both arguments the same accumulator: every value counted twice. *)
Theorem C67_self_merge t fold Y us xs (m : mem t) : 2 <= fold <= MAXFOLD t ->
  acc_at fold us xs m Y -> 2 * Z.of_nat (length xs) <= CAPACITY t ->
  acc_at fold (us ++ us) (xs ++ xs) (dbdbadd fold Y Y m) Y /\ unchanged_outside Y (dbnum fold) m (dbdbadd fold Y Y m).
Proof.
  intros Hf H HC. rewrite CAPACITY_eq in HC.
  destruct (self_holds t fold (mkreg Y 1 (Y + fold) 1) us xs m Hf) as [H1 O]; [apply layout_contig; lia|exact HC|exact H|].
  split; [exact H1|]. intros a Ha. apply O. intros (i & Hi & E). cbn [rp rip rc ric] in E. unfold dbnum in Ha. lia.
Qed.
Print Assumptions C67_self_merge.
Theorem C67_self_merge_complex t fold Y us vs zs (m : mem t) : 2 <= fold <= MAXFOLD t ->
  zacc_at fold us vs zs m Y -> 2 * Z.of_nat (length zs) <= CAPACITY t ->
  zacc_at fold (us ++ us) (vs ++ vs) (zs ++ zs) (zbzbadd fold Y Y m) Y /\ unchanged_outside Y (zbnum fold) m (zbzbadd fold Y Y m).
Proof.
  intros Hf [HR HI] HC. rewrite CAPACITY_eq in HC.
  change (zbzbadd fold Y Y m) with (dmdmadd fold (Y + 1) 2 (Y + 2 * fold + 1) 2 (Y + 1) 2 (Y + 2 * fold + 1) 2
        (dmdmadd fold Y 2 (Y + 2 * fold) 2 Y 2 (Y + 2 * fold) 2 m)).
  destruct (self_holds t fold (mkreg Y 2 (Y + 2 * fold) 2) us (map fst zs) m Hf) as [H1 O1];
    [apply layout_complex_re; lia|rewrite map_length; exact HC|exact HR|]. cbn [rp rip rc ric] in H1, O1.
  set (m1 := dmdmadd fold Y 2 (Y + 2 * fold) 2 Y 2 (Y + 2 * fold) 2 m) in *. clearbody m1.
  destruct (self_holds t fold (mkreg (Y + 1) 2 (Y + 2 * fold + 1) 2) vs (map snd zs) m1 Hf) as [H2 O2];
    [apply layout_complex_im; lia|rewrite map_length; exact HC| |]; cbn [rp rip rc ric].
  { eapply holds_words_ext; [exact (Hf2 fold Hf)| |exact HI]. intros i Hi. unfold pri, car, P_of; cbn [rp rip rc ric].
    split; apply O1; intros (j & Hj & E); cbn [rp rip rc ric] in E; lia. }
  cbn [rp rip rc ric] in H2, O2. set (m2 := dmdmadd fold (Y + 1) 2 _ 2 _ 2 _ 2 m1) in *. clearbody m2.
  split; [split|].
  - rewrite map_app. eapply holds_words_ext; [exact (Hf2 fold Hf)| |exact H1]. intros i Hi. unfold pri, car, P_of; cbn [rp rip rc ric].
    split; apply O2; intros (j & Hj & E); cbn [rp rip rc ric] in E; lia.
  - rewrite map_app. exact H2.
  - intros a Ha. unfold zbnum in Ha. rewrite O2, O1; auto; intros (j & Hj & E); cbn [rp rip rc ric] in E; lia.
Qed.
Print Assumptions C67_self_merge_complex.
(** A copy onto itself does nothing. *)
Theorem C67_self_copy t fold Y (m : mem t) : 0 <= fold -> forall a, dbdbset fold Y Y m a = m a.
Proof.
  intros Hf. unfold dbdbset, dmdmset. refine (for_up_inv (fun _ m1 => forall a, m1 a = m a) _ 0 fold m Hf _ _); auto.
  intros k m1 Hk I a. cbv zeta. unfold upd.
  destruct (Z.eqb_spec a (Y + fold + k * 1)) as [-> |]; [destruct (Z.eqb_spec (Y + fold + k * 1) (Y + k * 1)) as [E|]; [rewrite E|]; auto|].
  destruct (Z.eqb_spec a (Y + k * 1)) as [-> |]; auto.
Qed.
Print Assumptions C67_self_copy.

(** The i-th accumulator of a vector with stride inc. *)
Definition nth_acc (fold X inc i : Z) : Z := X + i * (inc * dbnum fold).
Definition upto (n : Z) : list Z := map Z.of_nat (seq 0 (Z.to_nat n)).
(** binned_dbdbaddv, any strides: element i of Y receives element i of X.  The elements
    of Y are distinct (incY is not 0) and overlap no element of X; X may repeat (incX = 0). *)
Theorem C67_vector t fold N X incX Y incY (us xs vs ys : Z -> list (F t)) (m : mem t) :
  2 <= fold <= MAXFOLD t -> 0 <= N -> incY <> 0 ->
  (forall i j, 0 <= i < N -> 0 <= j < N -> apart (dbnum fold) (nth_acc fold X incX i) (nth_acc fold Y incY j)) ->
  (forall i, 0 <= i < N -> acc_at fold (us i) (xs i) m (nth_acc fold X incX i) /\
     acc_at fold (vs i) (ys i) m (nth_acc fold Y incY i) /\ Z.of_nat (length (xs i ++ ys i)) <= CAPACITY t) ->
  let m' := dbdbaddv fold N X incX Y incY m in
  (forall i, 0 <= i < N -> acc_at fold (us i ++ vs i) (xs i ++ ys i) m' (nth_acc fold Y incY i)) /\
  (forall a, (forall i, 0 <= i < N -> ~ nth_acc fold Y incY i <= a < nth_acc fold Y incY i + dbnum fold) -> m' a = m a).
Proof.
  intros Hf HN NZ AP H m'.
  pose proof (for_up_inv (fun k m1 => (forall i, 0 <= i < k -> acc_at fold (us i ++ vs i) (xs i ++ ys i) m1 (nth_acc fold Y incY i)) /\
      (forall a, (forall i, 0 <= i < k -> ~ nth_acc fold Y incY i <= a < nth_acc fold Y incY i + dbnum fold) -> m1 a = m a))
      (fun i m => dbdbadd fold (nth_acc fold X incX i) (nth_acc fold Y incY i) m) 0 N m HN) as G. cbv beta in G.
  change (for_up 0 N _ m) with m' in G. clearbody m'. apply G; clear G.
  - split; auto. intros; lia.
  - intros k m1 Hk (G1 & G2). destruct (H k Hk) as (H1 & H2 & H3). rewrite CAPACITY_eq in H3.
    assert (D : forall i j, 0 <= i < N -> 0 <= j < N -> i <> j -> apart (dbnum fold) (nth_acc fold Y incY i) (nth_acc fold Y incY j)).
    { intros i j _ _ NE. unfold apart, nth_acc, dbnum. assert (Hc : (i - j) * incY <= -1 \/ 1 <= (i - j) * incY) by nia.
      destruct Hc; [left|right]; nia. }
    destruct (merge_at t fold (nth_acc fold X incX k) (nth_acc fold Y incY k) (us k) (xs k) (vs k) (ys k) m1 Hf (AP k k Hk Hk)) as [M1 M2].
    + eapply holds_words_ext; [exact (Hf2 fold Hf)| |exact H1]. intros j Hj. cbv beta.
      assert (O : forall a, nth_acc fold X incX k <= a < nth_acc fold X incX k + dbnum fold -> m1 a = m a).
      { intros a Ha. apply G2. intros i Hi. specialize (AP k i Hk ltac:(lia)). unfold apart in AP. lia. }
      unfold dbnum in O. split; apply O; lia.
    + eapply holds_words_ext; [exact (Hf2 fold Hf)| |exact H2]. intros j Hj. cbv beta.
      assert (O : forall a, nth_acc fold Y incY k <= a < nth_acc fold Y incY k + dbnum fold -> m1 a = m a).
      { intros a Ha. apply G2. intros i Hi. specialize (D k i Hk ltac:(lia) ltac:(lia)). unfold apart in D. lia. }
      unfold dbnum in O. split; apply O; lia.
    + exact H3.
    + split.
      * intros i Hi. destruct (Z.eq_dec i k) as [-> |NE]; [exact M1|]. apply (acc_at_unchanged t fold _ _ m1 _ _ (nth_acc fold Y incY k)); auto; try lia.
        -- apply D; lia.
        -- apply G1. lia.
      * intros a Ha. rewrite M2 by (apply Ha; lia). apply G2. intros i Hi. apply Ha. lia.
Qed.
Print Assumptions C67_vector.
(** X and Y the same vector: every element is doubled in place. *)
Theorem C67_vector_self t fold N Y incY (vs ys : Z -> list (F t)) (m : mem t) :
  2 <= fold <= MAXFOLD t -> 0 <= N -> incY <> 0 ->
  (forall i, 0 <= i < N -> acc_at fold (vs i) (ys i) m (nth_acc fold Y incY i) /\ 2 * Z.of_nat (length (ys i)) <= CAPACITY t) ->
  let m' := dbdbaddv fold N Y incY Y incY m in
  (forall i, 0 <= i < N -> acc_at fold (vs i ++ vs i) (ys i ++ ys i) m' (nth_acc fold Y incY i)) /\
  (forall a, (forall i, 0 <= i < N -> ~ nth_acc fold Y incY i <= a < nth_acc fold Y incY i + dbnum fold) -> m' a = m a).
Proof.
  intros Hf HN NZ H m'.
  pose proof (for_up_inv (fun k m1 => (forall i, 0 <= i < k -> acc_at fold (vs i ++ vs i) (ys i ++ ys i) m1 (nth_acc fold Y incY i)) /\
      (forall a, (forall i, 0 <= i < k -> ~ nth_acc fold Y incY i <= a < nth_acc fold Y incY i + dbnum fold) -> m1 a = m a))
      (fun i m => dbdbadd fold (nth_acc fold Y incY i) (nth_acc fold Y incY i) m) 0 N m HN) as G. cbv beta in G.
  change (for_up 0 N _ m) with m' in G. clearbody m'. apply G; clear G.
  - split; auto. intros; lia.
  - intros k m1 Hk (G1 & G2). destruct (H k Hk) as (H2 & H3).
    assert (D : forall i j, 0 <= i < N -> 0 <= j < N -> i <> j -> apart (dbnum fold) (nth_acc fold Y incY i) (nth_acc fold Y incY j)).
    { intros i j _ _ NE. unfold apart, nth_acc, dbnum. assert (Hc : (i - j) * incY <= -1 \/ 1 <= (i - j) * incY) by nia.
      destruct Hc; [left|right]; nia. }
    destruct (C67_self_merge t fold (nth_acc fold Y incY k) (vs k) (ys k) m1 Hf) as [M1 M2].
    + eapply holds_words_ext; [exact (Hf2 fold Hf)| |exact H2]. intros j Hj. cbv beta.
      assert (O : forall a, nth_acc fold Y incY k <= a < nth_acc fold Y incY k + dbnum fold -> m1 a = m a).
      { intros a Ha. apply G2. intros i Hi. specialize (D k i Hk ltac:(lia) ltac:(lia)). unfold apart in D. lia. }
      unfold dbnum in O. split; apply O; lia.
    + exact H3.
    + split.
      * intros i Hi. destruct (Z.eq_dec i k) as [-> |NE]; [exact M1|]. apply (acc_at_unchanged t fold _ _ m1 _ _ (nth_acc fold Y incY k)); auto; try lia.
        -- apply D; lia.
        -- apply G1. lia.
      * intros a Ha. rewrite M2 by (apply Ha; lia). apply G2. intros i Hi. apply Ha. lia.
Qed.
Print Assumptions C67_vector_self.
Lemma upto_S k : 0 <= k -> upto (k + 1) = upto k ++ [k].
Proof.
  intros H. unfold upto. rewrite Z2Nat.inj_add by lia. change (Z.to_nat 1) with 1%nat. rewrite Nat.add_1_r, seq_S, map_app. cbn.
  rewrite Z2Nat.id by lia. reflexivity.
Qed.
Lemma flat_map_snoc {A B} (f : A -> list B) l a : flat_map f (l ++ [a]) = flat_map f l ++ f a.
Proof. induction l; cbn; [apply app_nil_r|]. rewrite IHl, app_assoc. reflexivity. Qed.
(** incY = 0: every element of X is merged into the one accumulator at Y. *)
Theorem C67_vector_reduce t fold N X incX Y (us xs : Z -> list (F t)) vs ys (m : mem t) :
  2 <= fold <= MAXFOLD t -> 0 <= N ->
  (forall i, 0 <= i < N -> apart (dbnum fold) (nth_acc fold X incX i) Y /\ acc_at fold (us i) (xs i) m (nth_acc fold X incX i)) ->
  acc_at fold vs ys m Y -> Z.of_nat (length (flat_map xs (upto N) ++ ys)) <= CAPACITY t ->
  let m' := dbdbaddv fold N X incX Y 0 m in
  acc_at fold (flat_map us (upto N) ++ vs) (flat_map xs (upto N) ++ ys) m' Y /\ unchanged_outside Y (dbnum fold) m m'.
Proof.
  intros Hf HN H HY HC m'.
  pose proof (for_up_inv (fun k m1 => Z.of_nat (length (flat_map xs (upto k) ++ ys)) <= CAPACITY t ->
      acc_at fold (flat_map us (upto k) ++ vs) (flat_map xs (upto k) ++ ys) m1 Y /\ unchanged_outside Y (dbnum fold) m m1)
      (fun i m => dbdbadd fold (nth_acc fold X incX i) (nth_acc fold Y 0 i) m) 0 N m HN) as G. cbv beta in G.
  change (for_up 0 N _ m) with m' in G. clearbody m'. apply G; clear G; [| |exact HC].
  - split; [exact HY|intros a _; reflexivity].
  - intros k m1 Hk I C. rewrite upto_S in * by lia. rewrite !flat_map_snoc in *. rewrite !app_length in *.
    destruct I as [I1 I2]; [lia|]. replace (nth_acc fold Y 0 k) with Y by (unfold nth_acc; lia).
    destruct (H k Hk) as [A1 A2]. rewrite CAPACITY_eq in C.
    destruct (merge_at t fold (nth_acc fold X incX k) Y (us k) (xs k) (flat_map us (upto k) ++ vs) (flat_map xs (upto k) ++ ys) m1 Hf A1) as [M1 M2]; [|exact I1|rewrite !app_length; lia|].
    + eapply acc_at_unchanged; [lia|exact A1|exact I2|exact A2].
    + split.
      * eapply holds_perm; [| |exact M1]; rewrite app_assoc; apply Permutation_app_tail, Permutation_app_comm.
      * intros a Ha. rewrite M2 by exact Ha. apply I2. exact Ha.
Qed.
Print Assumptions C67_vector_reduce.

(** binned_zbzbaddv, the complex version. *)
Definition nth_zacc (fold X inc i : Z) : Z := X + i * (inc * zbnum fold).
Theorem C67_vector_complex t fold N X incX Y incY (xs ys : Z -> list (F t * F t)) (m : mem t) :
  2 <= fold <= MAXFOLD t -> 0 <= N -> incY <> 0 ->
  (forall i j, 0 <= i < N -> 0 <= j < N -> apart (zbnum fold) (nth_zacc fold X incX i) (nth_zacc fold Y incY j)) ->
  (forall i, 0 <= i < N -> zacc_at fold [] [] (xs i) m (nth_zacc fold X incX i) /\
     zacc_at fold [] [] (ys i) m (nth_zacc fold Y incY i) /\ Z.of_nat (length (xs i ++ ys i)) <= CAPACITY t) ->
  let m' := zbzbaddv fold N X incX Y incY m in
  (forall i, 0 <= i < N -> zacc_at fold [] [] (xs i ++ ys i) m' (nth_zacc fold Y incY i)) /\
  (forall a, (forall i, 0 <= i < N -> ~ nth_zacc fold Y incY i <= a < nth_zacc fold Y incY i + zbnum fold) -> m' a = m a).
Proof.
  intros Hf HN NZ AP H m'.
  pose proof (for_up_inv (fun k m1 => (forall i, 0 <= i < k -> zacc_at fold [] [] (xs i ++ ys i) m1 (nth_zacc fold Y incY i)) /\
      (forall a, (forall i, 0 <= i < k -> ~ nth_zacc fold Y incY i <= a < nth_zacc fold Y incY i + zbnum fold) -> m1 a = m a))
      (fun i m => zbzbadd fold (nth_zacc fold X incX i) (nth_zacc fold Y incY i) m) 0 N m HN) as G. cbv beta in G.
  change (for_up 0 N _ m) with m' in G. clearbody m'. apply G; clear G.
  - split; auto. intros; lia.
  - intros k m1 Hk (G1 & G2). destruct (H k Hk) as (H1 & H2 & H3). rewrite CAPACITY_eq in H3.
    assert (D : forall i j, 0 <= i < N -> 0 <= j < N -> i <> j -> apart (zbnum fold) (nth_zacc fold Y incY i) (nth_zacc fold Y incY j)).
    { intros i j _ _ NE. unfold apart, nth_zacc, zbnum. assert (Hc : (i - j) * incY <= -1 \/ 1 <= (i - j) * incY) by nia.
      destruct Hc; [left|right]; nia. }
    destruct (zmerge_holds fold Hf (nth_zacc fold X incX k) (nth_zacc fold Y incY k) (xs k) (ys k) m1 (AP k k Hk Hk)) as [M1 M2].
    + apply (zholds_outside fold Hf _ m); [|exact H1]. intros a Ha. unfold block in Ha. apply G2. intros i Hi.
      specialize (AP k i Hk ltac:(lia)). unfold apart in AP. lia.
    + apply (zholds_outside fold Hf _ m); [|exact H2]. intros a Ha. unfold block in Ha. apply G2. intros i Hi.
      specialize (D k i Hk ltac:(lia) ltac:(lia)). unfold apart in D. lia.
    + exact H3.
    + cbv zeta in M1, M2. unfold block in M2. split.
      * intros i Hi. destruct (Z.eq_dec i k) as [-> |NE]; [exact M1|]. apply (zholds_outside fold Hf _ m1); [|apply G1; lia].
        intros a Ha. unfold block in Ha. apply M2. specialize (D i k ltac:(lia) Hk NE). unfold apart in D. lia.
      * intros a Ha. rewrite M2 by (apply Ha; lia). apply G2. intros i Hi. apply Ha. lia.
Qed.
Print Assumptions C67_vector_complex.

(** A vector whose elements run downwards, two apart, receives one accumulator in both elements. *)
Definition c67_mem : mem Dbl := sum_list 3 88 [mkf 3 0] (sum_list 3 100 [mkf 1 60; mkf (-1) 0] (sum_list 3 0 [mkf 5 0; mkf 1 (-30)] (fun _ => fzero))).
Definition c67_y (i : Z) : list (F Dbl) := if i =? 0 then [mkf 1 60; mkf (-1) 0] else [mkf 3 0].
Example C67_case : let m' := dbdbaddv 3 2 0 0 100 (-2) c67_mem in
  acc_at 3 [] [mkf 5 0; mkf 1 (-30); mkf 1 60; mkf (-1) 0] m' 100 /\ acc_at 3 [] [mkf 5 0; mkf 1 (-30); mkf 3 0] m' 88.
Proof.
  pose proof (C67_vector Dbl 3 2 0 0 100 (-2) (fun _ => []) (fun _ => [mkf 5 0; mkf 1 (-30)]) (fun _ => []) c67_y c67_mem) as V.
  cbv zeta in V. destruct V as [V _].
  - rewrite MAXFOLD_eq; cbn; lia.
  - lia.
  - lia.
  - intros i j Hi Hj. unfold apart, nth_acc, dbnum. lia.
  - assert (H0 : 2 <= 3 <= MAXFOLD Dbl) by (rewrite MAXFOLD_eq; cbn; lia).
    assert (HC : forall l : list (F Dbl), (length l <=? 4)%nat = true -> Z.of_nat (length l) <= capacity Dbl)
      by (intros l Hl; apply Nat.leb_le in Hl; cbn; lia).
    intros i Hi. unfold c67_y, c67_mem. set (a := mkf 5 0). set (b := mkf 1 (-30)). set (c := mkf 1 60). set (d := mkf (-1) 0). set (e := mkf 3 0).
    clearbody a b c d e. set (m0 := (fun _ => fzero) : mem Dbl). clearbody m0.
    destruct (sum_list_holds 3 H0 0 [a; b] m0 (HC [a; b] eq_refl)) as [K1 _]. set (m1 := sum_list 3 0 [a; b] m0) in *. clearbody m1.
    destruct (sum_list_holds 3 H0 100 [c; d] m1 (HC [c; d] eq_refl)) as [K2 U2]. set (m2 := sum_list 3 100 [c; d] m1) in *. clearbody m2.
    destruct (sum_list_holds 3 H0 88 [e] m2 (HC [e] eq_refl)) as [K3 U3]. set (m3 := sum_list 3 88 [e] m2) in *. clearbody m3.
    unfold block, dbnum in U2, U3. change (2 * 3) with 6 in U2, U3.
    assert (E1 : acc_at 3 [] [a; b] m3 0).
    { eapply holds_words_ext; [lia| |exact K1]. intros j Hj. unfold P_of. split; (etransitivity; [apply U3; lia|apply U2; lia]). }
    assert (E2 : acc_at 3 [] [c; d] m3 100).
    { eapply holds_words_ext; [lia| |exact K2]. intros j Hj. unfold P_of. split; apply U3; lia. }
    replace (nth_acc 3 0 0 i) with 0 by (unfold nth_acc; lia). destruct (Z.eqb_spec i 0) as [-> |NE].
    + split; [exact E1|]. split; [exact E2|]. rewrite CAPACITY_eq. apply HC. reflexivity.
    + replace i with 1 by lia. split; [exact E1|]. split; [exact K3|]. rewrite CAPACITY_eq. apply HC. reflexivity.
  - split; [exact (V 0 ltac:(lia))|exact (V 1 ltac:(lia))].
Qed.
