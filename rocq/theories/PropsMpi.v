(** * C26, C27, C41: MPI reductions *)
From Coq Require Import ZArith Bool List Lia Permutation.
From Flocq Require Import Core BinarySingleNaN.
From Verif Require Import Fp Mem Binned Spec FpProofs BitProofs CoreArith SpecProofs WordProofs MemProofs AccProofs SumProofs ConvProofs Client History ClientProofs PropsSum PropsAcc ComplexProofs PropsComplex Blas BlasSpec PropsBlas Gemv GemvSpec GemvProofs Mpi MpiSpec.
Import ListNotations.
Open Scope Z_scope.

Lemma perm_remove i (l : list nat) : NoDup l -> In i l -> Permutation l (i :: remove Nat.eq_dec i l).
Proof.
  intros ND HI. apply NoDup_Permutation; auto.
  - constructor; [apply remove_In|]. clear HI. induction l as [|a l IH]; cbn [remove]; auto.
    inversion ND; subst. destruct (Nat.eq_dec i a); auto. constructor; auto. intros H. apply in_remove in H. tauto.
  - intros x. cbn [In]. destruct (Nat.eq_dec i x) as [-> |NE].
    + split; auto.
    + split.
      * intros H. right. apply in_in_remove; auto.
      * intros [H|H]; [congruence|]. apply in_remove in H. tauto.
Qed.
Lemma nodup_remove i (l : list nat) : NoDup l -> NoDup (remove Nat.eq_dec i l).
Proof.
  intros ND. induction l as [|a l IH]; cbn [remove]; auto.
  inversion ND; subst. destruct (Nat.eq_dec i a); auto. constructor; auto. intros H. apply in_remove in H. tauto.
Qed.
Lemma flat_map_perm {A} (f : nat -> list A) l l' : Permutation l l' -> Permutation (flat_map f l) (flat_map f l').
Proof. intros H. induction H; cbn; auto using Permutation_app_head. - rewrite !app_assoc. apply Permutation_app_tail, Permutation_app_comm. - etransitivity; eauto. Qed.
Lemma flat_map_ext_in {A} (f g : nat -> list A) l : (forall x, In x l -> f x = g x) -> flat_map f l = flat_map g l.
Proof. induction l; cbn; auto. intros H. rewrite H by now left. f_equal. apply IHl. intros. apply H. now right. Qed.
(** Data of the ranks still live after a call. *)
Lemma live_data {A} (f : nat -> list A) i j live : NoDup live -> In i live -> In j live -> i <> j ->
  let g := fun k => if Nat.eq_dec k j then f i ++ f j else f k in
  Permutation (flat_map g (remove Nat.eq_dec i live)) (flat_map f live).
Proof.
  intros ND Hi Hj NE g. pose proof (nodup_remove i live ND) as ND1.
  assert (Hj1 : In j (remove Nat.eq_dec i live)) by (apply in_in_remove; auto).
  rewrite (flat_map_perm f _ _ (perm_remove i live ND Hi)). cbn [flat_map].
  rewrite (flat_map_perm f _ _ (perm_remove j _ ND1 Hj1)), (flat_map_perm g _ _ (perm_remove j _ ND1 Hj1)). cbn [flat_map].
  rewrite app_assoc. apply Permutation_app.
  - unfold g. destruct (Nat.eq_dec j j); [reflexivity|congruence].
  - rewrite (flat_map_ext_in g f); [reflexivity|]. intros x Hx. unfold g. destruct (Nat.eq_dec x j) as [-> |]; auto.
    exfalso. exact (remove_In Nat.eq_dec _ _ Hx).
Qed.

Section M.
  Context {t : ty} (fold : Z) (Hf : 2 <= fold <= MAXFOLD t).
  Lemma addv_holds n X Y (us xs vs ys : Z -> list (F t)) (m : mem t) : 0 <= n -> apart (n * dbnum fold) X Y ->
    (forall e, 0 <= e < n -> acc_at fold (us e) (xs e) m (elem fold X e) /\ acc_at fold (vs e) (ys e) m (elem fold Y e) /\
       Z.of_nat (length (xs e ++ ys e)) <= capacity t) ->
    let m' := mpi_dbdbadd fold n X Y m in
    (forall e, 0 <= e < n -> acc_at fold (us e ++ vs e) (xs e ++ ys e) m' (elem fold Y e)) /\
    (forall a, ~ within Y (n * dbnum fold) a -> m' a = m a).
  Proof.
    intros Hn AP H m'.
    pose proof (for_up_inv (fun k m1 => (forall e, 0 <= e < k -> acc_at fold (us e ++ vs e) (xs e ++ ys e) m1 (elem fold Y e)) /\
      (forall a, ~ within Y (k * dbnum fold) a -> m1 a = m a))
      (fun i m => let X := X + i * (1 * dbnum fold) in let Y := Y + i * (1 * dbnum fold) in dmdmadd fold X 1 (X + fold) 1 Y 1 (Y + fold) 1 m)
      0 n m Hn) as G. cbv beta in G. change (for_up 0 n _ m) with m' in G. apply G.
    - split; auto. intros; lia.
    - clear G. intros k m1 Hk (G1 & G2). cbv zeta. rewrite Z.mul_1_l.
      change (dmdmadd fold (X + k * dbnum fold) 1 (X + k * dbnum fold + fold) 1 (Y + k * dbnum fold) 1 (Y + k * dbnum fold + fold) 1 m1)
        with (dbdbadd fold (elem fold X k) (elem fold Y k) m1).
      destruct (H k Hk) as (H1 & H2 & H3). unfold within, elem, apart, dbnum in *.
      destruct (merge_at t fold (X + k * (2 * fold)) (Y + k * (2 * fold)) (us k) (xs k) (vs k) (ys k) m1 Hf) as [M1 M2].
      + unfold apart, dbnum. nia.
      + eapply (acc_at_frame fold Hf); [|exact H1]. intros a Ha. apply G2. unfold within, dbnum in *. nia.
      + eapply (acc_at_frame fold Hf); [|exact H2]. intros a Ha. apply G2. unfold within, dbnum in *. nia.
      + exact H3.
      + split.
        * intros e He. destruct (Z.eq_dec e k) as [-> |NE]; [exact M1|].
          eapply (acc_at_frame fold Hf); [|apply (G1 e); lia]. intros a Ha. apply M2. unfold dbnum in *. nia.
        * intros a Ha. rewrite M2 by (unfold dbnum; nia). apply G2. nia.
  Qed.
End M.

(** Any operator that merges element-wise, reduced by any schedule. *)
Section SCHED.
  Context {t : ty} {A : Type} (num : Z) (Hnum : 0 < num) (op : Z -> Z -> Z -> mem t -> mem t)
    (hold : list A -> mem t -> Z -> Prop) (fits : list A -> Prop).
  Context (frame_ok : forall l (m m' : mem t) Y, (forall a, within Y num a -> m' a = m a) -> hold l m Y -> hold l m' Y).
  Context (fits_part : forall l a b, Permutation l (a ++ b) -> fits l -> fits a).
  Context (op_ok : forall n X Y (xs ys : Z -> list A) m, 0 <= n -> apart (n * num) X Y ->
    (forall e, 0 <= e < n -> hold (xs e) m (X + e * num) /\ hold (ys e) m (Y + e * num) /\ fits (xs e ++ ys e)) ->
    (forall e, 0 <= e < n -> hold (xs e ++ ys e) (op n X Y m) (Y + e * num)) /\
    (forall a, ~ within Y (n * num) a -> op n X Y m a = m a)).
  Definition run_ops (buf : nat -> Z) (cs : list call) (m : mem t) : mem t :=
    fold_left (fun m c => op (cnt c) (buf (src c) + off c * num) (buf (dst c) + off c * num) m) cs m.
  Lemma calls_holds len buf ranks (HB : buffers num len ranks buf) : forall cs (live : Z -> list nat) fin (xs : nat -> Z -> list A) (m : mem t),
    Forall (fun c => 0 <= off c /\ 0 <= cnt c /\ off c + cnt c <= len) cs ->
    (forall e, 0 <= e < len -> NoDup (live e) /\ incl (live e) ranks /\ reduces (live e) (filter (covers e) cs) (fin e) /\
       fits (flat_map (fun r => xs r e) (live e)) /\
       (forall r, In r (live e) -> hold (xs r e) m (buf r + e * num))) ->
    let m' := run_ops buf cs m in
    forall e, 0 <= e < len ->
    (exists xs', hold xs' m' (buf (fin e) + e * num) /\ Permutation xs' (flat_map (fun r => xs r e) (live e))).
  Proof.
    induction cs as [|c cs IH]; intros live fin xs m FA H m' e He.
    - destruct (H e He) as (_ & _ & RD & _ & HA). cbn [filter] in RD. inversion RD as [r E|]; subst.
      exists (xs (fin e) e). cbn [flat_map]. rewrite app_nil_r.
      split; [|reflexivity]. apply HA. rewrite <- E. now left.
    - inversion FA as [|? ? (O1 & O2 & O3) FA']. subst.
      set (i := src c) in *. set (j := dst c) in *.
      assert (CV : forall e, covers e c = true <-> off c <= e < off c + cnt c) by (intros; unfold covers; lia).
      (* an empty call *)
      destruct (Z.eq_dec (cnt c) 0) as [Z0|NZ].
      { assert (NC : forall e, covers e c = false) by (intros e1; unfold covers; lia).
        set (m1 := op (cnt c) (buf i + off c * num) (buf j + off c * num) m) in *.
        assert (E1 : forall a, m1 a = m a).
        { intros a. unfold m1. rewrite Z0. apply (op_ok 0 _ _ (fun _ => []) (fun _ => [])); try lia; unfold apart, within; lia. }
        assert (EM : m' = run_ops buf cs m1) by reflexivity. rewrite EM. clear EM m'. clearbody m1.
        apply (IH live fin xs m1 FA'); auto.
        intros e1 He1. destruct (H e1 He1) as (H1 & H2 & H3 & H4 & H5). cbn [filter] in H3. rewrite NC in H3.
        split; [|split; [|split; [|split]]]; auto. intros r Hr. eapply frame_ok; [|exact (H5 r Hr)]. auto. }
      assert (IJ : forall e, 0 <= e < len -> covers e c = true -> In i (live e) /\ In j (live e) /\ i <> j /\
        reduces (remove Nat.eq_dec i (live e)) (filter (covers e) cs) (fin e)).
      { intros e1 He1 HC. destruct (H e1 He1) as (_ & _ & RD & _). cbn [filter] in RD. rewrite HC in RD. inversion RD; subst. auto. }
      destruct (IJ (off c) ltac:(lia) ltac:(apply CV; lia)) as (I1 & I2 & I3 & _).
      assert (AP : apart (len * num) (buf i) (buf j)).
      { destruct (H (off c) ltac:(lia)) as (_ & IN & _). apply HB; auto. }
      assert (JR : In j ranks) by (destruct (H (off c) ltac:(lia)) as (_ & IN' & _); apply IN'; exact I2).
      destruct (op_ok (cnt c) (buf i + off c * num) (buf j + off c * num)
        (fun e => xs i (off c + e)) (fun e => xs j (off c + e)) m O2) as [A1 A2].
      { unfold apart in *. nia. }
      { intros e1 He1. destruct (H (off c + e1) ltac:(lia)) as (ND & IN & RD & HC & HA).
        destruct (IJ (off c + e1) ltac:(lia) ltac:(apply CV; lia)) as (J1 & J2 & J3 & _).
        split; [|split].
        - specialize (HA i J1). replace (buf i + off c * num + e1 * num) with (buf i + (off c + e1) * num) by ring. exact HA.
        - specialize (HA j J2). replace (buf j + off c * num + e1 * num) with (buf j + (off c + e1) * num) by ring. exact HA.
        - eapply fits_part; [|exact HC]. rewrite (flat_map_perm _ _ _ (perm_remove i _ ND J1)). cbn [flat_map].
          assert (J2' : In j (remove Nat.eq_dec i (live (off c + e1)))) by (apply in_in_remove; auto).
          rewrite (flat_map_perm _ _ _ (perm_remove j _ (nodup_remove i _ ND) J2')). cbn [flat_map].
          rewrite app_assoc. reflexivity. }
      set (m1 := op (cnt c) (buf i + off c * num) (buf j + off c * num) m) in *.
      assert (EM : m' = run_ops buf cs m1) by reflexivity. rewrite EM. clear EM m'. clearbody m1.
      set (live1 := fun e => if covers e c then remove Nat.eq_dec i (live e) else live e).
      set (xs1 := fun k e => if covers e c then if Nat.eq_dec k j then xs i e ++ xs j e else xs k e else xs k e).
      assert (FM : forall e, 0 <= e < len -> Permutation (flat_map (fun r => xs1 r e) (live1 e)) (flat_map (fun r => xs r e) (live e))).
      { intros e1 He1. unfold live1, xs1. destruct (covers e1 c) eqn:HC; [|reflexivity].
        destruct (H e1 He1) as (ND & _). destruct (IJ e1 He1 HC) as (J1 & J2 & J3 & _).
        exact (live_data (fun r => xs r e1) i j (live e1) ND J1 J2 J3). }
      destruct (IH live1 fin xs1 m1 FA') with (e := e) as (xs' & R1 & R3); auto.
      + intros e1 He1. destruct (H e1 He1) as (ND & IN & RD & HC & HA).
        assert (HC1 : fits (flat_map (fun r => xs1 r e1) (live1 e1))).
        { eapply fits_part; [|exact HC]. rewrite app_nil_r. symmetry. apply FM. exact He1. }
        revert HC1. unfold live1. destruct (covers e1 c) eqn:HCV; intros HC1.
        * destruct (IJ e1 He1 HCV) as (J1 & J2 & J3 & J4). pose proof HCV as HCV'. apply CV in HCV.
          split; [now apply nodup_remove|]. split.
          { intros x Hx. apply in_remove in Hx. apply IN. tauto. }
          split; [exact J4|]. split; [exact HC1|]. intros r Hr. apply in_remove in Hr. destruct Hr as [Hr NE].
          unfold xs1. rewrite HCV'.
          destruct (Nat.eq_dec r j) as [-> |NJ].
          -- specialize (A1 (e1 - off c) ltac:(lia)). cbv beta in A1. replace (off c + (e1 - off c)) with e1 in A1 by ring.
             replace (buf j + off c * num + (e1 - off c) * num) with (buf j + e1 * num) in A1 by ring. exact A1.
          -- eapply frame_ok; [|exact (HA r Hr)]. intros a Ha. apply A2.
             pose proof (HB r j (IN r Hr) (IN j J2) NJ) as AP'. unfold within, apart in *. clear - AP' Ha HCV O1 O2 O3 Hnum He1. nia.
        * split; [exact ND|]. split; [exact IN|]. cbn [filter] in RD. rewrite HCV in RD. split; [exact RD|]. split; [exact HC1|].
          intros r Hr. unfold xs1. rewrite HCV.
          eapply frame_ok; [|exact (HA r Hr)]. intros a Ha. apply A2.
          assert (NC : ~ (off c <= e1 < off c + cnt c)) by (rewrite <- CV, HCV; discriminate).
          destruct (Nat.eq_dec r j) as [-> |NJ].
          -- unfold within in *. clear - NC Ha O1 O2 O3 Hnum He1. nia.
          -- pose proof (HB r j (IN r Hr) JR NJ) as AP'. unfold within, apart in *. clear - AP' Ha O1 O2 O3 Hnum He1. nia.
      + exists xs'. split; [exact R1|]. rewrite R3. exact (FM e He).
  Qed.
End SCHED.
(** The real operator: data = made room for (true) or added (false). *)
Definition room_of {t} (l : list (bool * F t)) : list (F t) := map snd (filter fst l).
Definition data_of {t} (l : list (bool * F t)) : list (F t) := map snd (filter (fun x => negb (fst x)) l).
Definition tag {t} (us xs : list (F t)) : list (bool * F t) := map (pair true) us ++ map (pair false) xs.
Lemma filter_perm {A} (f : A -> bool) l l' : Permutation l l' -> Permutation (filter f l) (filter f l').
Proof.
  intros H. induction H; cbn [filter]; auto.
  - destruct (f x); auto.
  - destruct (f x), (f y); auto. apply perm_swap.
  - etransitivity; eauto.
Qed.
Lemma room_tag {t} (us xs : list (F t)) : room_of (tag us xs) = us.
Proof.
  unfold room_of, tag. rewrite filter_app, map_app.
  replace (filter fst (map (pair true) us)) with (map (pair true) us) by (induction us; cbn; congruence).
  replace (filter fst (map (pair false) xs)) with (@nil (bool * F t)) by (induction xs; cbn; congruence).
  cbn. rewrite app_nil_r, map_map. cbn. apply map_id.
Qed.
Lemma data_tag {t} (us xs : list (F t)) : data_of (tag us xs) = xs.
Proof.
  unfold data_of, tag. rewrite filter_app, map_app.
  replace (filter (fun x => negb (fst x)) (map (pair true) us)) with (@nil (bool * F t)) by (induction us; cbn; congruence).
  replace (filter (fun x => negb (fst x)) (map (pair false) xs)) with (map (pair false) xs) by (induction xs; cbn; congruence).
  cbn. rewrite map_map. cbn. apply map_id.
Qed.
Lemma room_app {t} (a b : list (bool * F t)) : room_of (a ++ b) = room_of a ++ room_of b.
Proof. unfold room_of. now rewrite filter_app, map_app. Qed.
Lemma data_app {t} (a b : list (bool * F t)) : data_of (a ++ b) = data_of a ++ data_of b.
Proof. unfold data_of. now rewrite filter_app, map_app. Qed.
Lemma room_flat {t} (f g : nat -> list (F t)) l : room_of (flat_map (fun r => tag (f r) (g r)) l) = flat_map f l.
Proof. induction l; cbn [flat_map]; auto. now rewrite room_app, room_tag, IHl. Qed.
Lemma data_flat {t} (f g : nat -> list (F t)) l : data_of (flat_map (fun r => tag (f r) (g r)) l) = flat_map g l.
Proof. induction l; cbn [flat_map]; auto. now rewrite data_app, data_tag, IHl. Qed.
Lemma room_perm {t} (a b : list (bool * F t)) : Permutation a b -> Permutation (room_of a) (room_of b).
Proof. intros. apply Permutation_map, filter_perm; auto. Qed.
Lemma data_perm {t} (a b : list (bool * F t)) : Permutation a b -> Permutation (data_of a) (data_of b).
Proof. intros. apply Permutation_map, filter_perm; auto. Qed.

Lemma reduce_holds t fold len ranks buf cs result (us xs : nat -> Z -> list (F t)) (m : mem t) :
  2 <= fold <= MAXFOLD t -> buffers (dbnum fold) len ranks buf -> reduction ranks len cs result ->
  (forall e, 0 <= e < len -> Z.of_nat (length (flat_map (fun r => xs r e) ranks)) <= capacity t /\
     forall r, In r ranks -> acc_at fold (us r e) (xs r e) m (elem fold (buf r) e)) ->
  forall e, 0 <= e < len -> exists us' xs',
    acc_at fold us' xs' (run_calls fold buf cs m) (elem fold (buf (result e)) e) /\
    Permutation us' (flat_map (fun r => us r e) ranks) /\ Permutation xs' (flat_map (fun r => xs r e) ranks).
Proof.
  intros Hf HB (ND & FA & RD) H e He.
  destruct (calls_holds (t := t) (A := bool * F t) (dbnum fold) ltac:(unfold dbnum; lia) (fun n X Y m => mpi_dbdbadd fold n X Y m)
    (fun l m Y => acc_at fold (room_of l) (data_of l) m Y) (fun l => Z.of_nat (length (data_of l)) <= capacity t)) 
    with (len := len) (buf := buf) (ranks := ranks) (cs := cs) (live := fun _ : Z => ranks) (fin := result)
      (xs := fun r e => tag (us r e) (xs r e)) (m := m) (e := e) as (l & R1 & R2); auto.
  - intros l m1 m2 Y E HA. eapply (acc_at_frame fold Hf); [|exact HA]. exact E.
  - intros l a b P. rewrite (Permutation_length (data_perm _ _ P)), data_app, app_length. lia.
  - intros n X Y xs1 ys1 m1 Hn AP HA.
    destruct (addv_holds fold Hf n X Y (fun e => room_of (xs1 e)) (fun e => data_of (xs1 e)) (fun e => room_of (ys1 e)) (fun e => data_of (ys1 e)) m1 Hn AP) as [B1 B2].
    { intros e1 He1. destruct (HA e1 He1) as (H1 & H2 & H3). rewrite data_app in H3. auto. }
    split; [|exact B2]. intros e1 He1. rewrite room_app, data_app. apply B1. exact He1.
  - intros e1 He1. destruct (H e1 He1) as [HC HA]. split; [exact ND|]. split; [apply incl_refl|]. split; [apply RD; exact He1|].
    split; [now rewrite data_flat|]. intros r Hr. rewrite room_tag, data_tag. apply HA. exact Hr.
  - exists (room_of l), (data_of l). split; [exact R1|].
    apply room_perm in R2 as R3. apply data_perm in R2. rewrite room_flat in R3. rewrite data_flat in R2. auto.
Qed.
(** Two reductions of the same data: any number of processes, any distribution of the
    data over them, any schedule, any buffers, any accumulator receiving the result. *)
Theorem C26_schedule_independent t fold len ranks ranks' buf buf' cs cs' result result'
    (us xs us' xs' : nat -> Z -> list (F t)) (m m' : mem t) :
  2 <= fold <= MAXFOLD t ->
  buffers (dbnum fold) len ranks buf -> buffers (dbnum fold) len ranks' buf' ->
  reduction ranks len cs result -> reduction ranks' len cs' result' ->
  (forall e r, 0 <= e < len -> In r ranks -> acc_at fold (us r e) (xs r e) m (elem fold (buf r) e)) ->
  (forall e r, 0 <= e < len -> In r ranks' -> acc_at fold (us' r e) (xs' r e) m' (elem fold (buf' r) e)) ->
  (forall e, 0 <= e < len -> Z.of_nat (length (flat_map (fun r => xs r e) ranks)) <= CAPACITY t /\
     Permutation (flat_map (fun r => us r e) ranks) (flat_map (fun r => us' r e) ranks') /\
     Permutation (flat_map (fun r => xs r e) ranks) (flat_map (fun r => xs' r e) ranks')) ->
  forall e, 0 <= e < len ->
  (all_finite (flat_map (fun r => xs r e) ranks) = true ->
   same_words fold (run_calls fold buf cs m) (elem fold (buf (result e)) e) (run_calls fold buf' cs' m') (elem fold (buf' (result' e)) e)) /\
  ddbconv fold (elem fold (buf (result e)) e) (run_calls fold buf cs m) =
  ddbconv fold (elem fold (buf' (result' e)) e) (run_calls fold buf' cs' m').
Proof.
  intros Hf HB HB' RD RD' HA HA' HP e He. rewrite CAPACITY_eq in HP.
  destruct (reduce_holds t fold len ranks buf cs result us xs m Hf HB RD) with (e := e) as (u1 & x1 & A1 & B1 & C1); auto.
  { intros e1 He1. split; [apply HP; exact He1|]. intros r Hr. apply HA; auto. }
  destruct (reduce_holds t fold len ranks' buf' cs' result' us' xs' m' Hf HB' RD') with (e := e) as (u2 & x2 & A2 & B2 & C2); auto.
  { intros e1 He1. destruct (HP e1 He1) as (P1 & P2 & P3). split; [now rewrite <- (Permutation_length P3)|]. intros r Hr. apply HA'; auto. }
  destruct (HP e He) as (P1 & P2 & P3).
  assert (PU : Permutation u1 u2) by (rewrite B1, B2; exact P2). assert (PX : Permutation x1 x2) by (rewrite C1, C2; exact P3).
  split.
  - intros AF. eapply acc_at_same; [exact Hf| |exact PU|exact PX|exact A1|exact A2]. now rewrite (all_finite_perm _ _ C1).
  - eapply conv_acc; [exact Hf|exact PU|exact PX|exact A1|exact A2].
Qed.
Print Assumptions C26_schedule_independent.
(** When every process accumulated its own data, the reduction gives the words of one
    accumulator fed with all the data, one number at a time, in any order. *)
Theorem C26_is_sequential t fold len ranks buf cs result (xs : nat -> Z -> list (F t)) (m m' : mem t) T all :
  2 <= fold <= MAXFOLD t -> buffers (dbnum fold) len ranks buf -> reduction ranks len cs result ->
  (forall e r, 0 <= e < len -> In r ranks -> acc_at fold [] (xs r e) m (elem fold (buf r) e)) ->
  (forall e, 0 <= e < len -> Z.of_nat (length (flat_map (fun r => xs r e) ranks)) <= CAPACITY t) ->
  forall e, 0 <= e < len -> Permutation (flat_map (fun r => xs r e) ranks) all ->
  (all_finite all = true ->
   same_words fold (run_calls fold buf cs m) (elem fold (buf (result e)) e) (sum_list fold T all m') T) /\
  ddbconv fold (elem fold (buf (result e)) e) (run_calls fold buf cs m) = ddbconv fold T (sum_list fold T all m').
Proof.
  intros Hf HB RD HA HC e He HP. rewrite CAPACITY_eq in HC.
  destruct (reduce_holds t fold len ranks buf cs result (fun _ _ => []) xs m Hf HB RD) with (e := e) as (u1 & x1 & A1 & B1 & C1); auto.
  assert (E0 : forall l : list nat, flat_map (fun _ => @nil (F t)) l = []) by (induction l; auto). rewrite E0 in B1.
  destruct (sum_list_holds fold Hf T all m') as [A2 _].
  { rewrite <- (Permutation_length HP). apply HC. exact He. }
  assert (PX : Permutation x1 all) by (rewrite C1; exact HP).
  split.
  - intros AF. eapply acc_at_same; [exact Hf| |exact B1|exact PX|exact A1|exact A2]. now rewrite (all_finite_perm _ _ PX).
  - eapply conv_acc; [exact Hf|exact B1|exact PX|exact A1|exact A2].
Qed.
Print Assumptions C26_is_sequential.

(** ** C41: complex accumulators *)
Section MZ.
  Context {t : ty} (fold : Z) (Hf : 2 <= fold <= MAXFOLD t).
  Lemma zaddv_holds n X Y (xs ys : Z -> list (F t * F t)) (m : mem t) : 0 <= n -> apart (n * zbnum fold) X Y ->
    (forall e, 0 <= e < n -> zholds fold (xs e) m (X + e * zbnum fold) /\ zholds fold (ys e) m (Y + e * zbnum fold) /\
       Z.of_nat (length (xs e ++ ys e)) <= capacity t) ->
    (forall e, 0 <= e < n -> zholds fold (xs e ++ ys e) (zbzbaddv fold n X 1 Y 1 m) (Y + e * zbnum fold)) /\
    (forall a, ~ within Y (n * zbnum fold) a -> zbzbaddv fold n X 1 Y 1 m a = m a).
  Proof.
    intros Hn AP H. set (m' := zbzbaddv fold n X 1 Y 1 m).
    pose proof (for_up_inv (fun k m1 => (forall e, 0 <= e < k -> zholds fold (xs e ++ ys e) m1 (Y + e * zbnum fold)) /\
      (forall a, ~ within Y (k * zbnum fold) a -> m1 a = m a))
      (fun i m => let X := X + i * (1 * zbnum fold) in let Y := Y + i * (1 * zbnum fold) in zmzmadd fold X 1 (X + 2 * fold) 1 Y 1 (Y + 2 * fold) 1 m)
      0 n m Hn) as G. cbv beta in G. change (for_up 0 n _ m) with m' in G. apply G.
    - split; auto. intros; lia.
    - clear G. intros k m1 Hk (G1 & G2). cbv zeta. rewrite Z.mul_1_l.
      change (zmzmadd fold (X + k * zbnum fold) 1 (X + k * zbnum fold + 2 * fold) 1 (Y + k * zbnum fold) 1 (Y + k * zbnum fold + 2 * fold) 1 m1)
        with (zbzbadd fold (X + k * zbnum fold) (Y + k * zbnum fold) m1).
      destruct (H k Hk) as (H1 & H2 & H3). unfold within, apart, zbnum in *.
      destruct (zmerge_holds fold Hf (X + k * (4 * fold)) (Y + k * (4 * fold)) (xs k) (ys k) m1) as [M1 M2].
      + unfold zbnum. nia.
      + eapply (zholds_outside fold Hf); [|exact H1]. intros a Ha. apply G2. unfold block, zbnum in *. nia.
      + eapply (zholds_outside fold Hf); [|exact H2]. intros a Ha. apply G2. unfold block, zbnum in *. nia.
      + exact H3.
      + cbv zeta in M1, M2. split.
        * intros e He. destruct (Z.eq_dec e k) as [-> |NE]; [exact M1|].
          eapply (zholds_outside fold Hf); [|apply (G1 e); lia]. intros a Ha. apply M2. unfold block, zbnum in *. nia.
        * intros a Ha. rewrite M2 by (unfold block, zbnum; nia). apply G2. nia.
  Qed.
End MZ.
Definition run_ccalls (fold : Z) (buf : nat -> Z) (cs : list call) (m : mem Flt) : mem Flt :=
  fold_left (fun m c => mpi_cbcbadd fold (cnt c) (zelem fold (buf (src c)) (off c)) (zelem fold (buf (dst c)) (off c)) m) cs m.
Definition run_zcalls (fold : Z) (buf : nat -> Z) (cs : list call) (m : mem Dbl) : mem Dbl :=
  fold_left (fun m c => mpi_zbzbadd fold (cnt c) (zelem fold (buf (src c)) (off c)) (zelem fold (buf (dst c)) (off c)) m) cs m.
(** Single precision: every process holds the accumulators of its own data (words of
    any sequential sum); the result is the accumulator of all the data. *)
Theorem C41_float fold len ranks buf cs result (xs : nat -> Z -> list (F Flt * F Flt)) (m m' : mem Flt) T all :
  2 <= fold <= MAXFOLD Flt -> buffers (zbnum fold) len ranks buf -> reduction ranks len cs result ->
  (forall e r, 0 <= e < len -> In r ranks -> zsame_words fold m (zelem fold (buf r) e) (zsum_list fold T (xs r e) m') T) ->
  (forall e, 0 <= e < len -> Z.of_nat (length (flat_map (fun r => xs r e) ranks)) <= CAPACITY Flt) ->
  forall e, 0 <= e < len -> Permutation (flat_map (fun r => xs r e) ranks) all ->
  let m1 := run_ccalls fold buf cs m in
  (zfinite all = true -> zsame_words fold m1 (zelem fold (buf (result e)) e) (zsum_list fold T all m') T) /\
  zzbconv_sub fold (zelem fold (buf (result e)) e) m1 = zzbconv_sub fold T (zsum_list fold T all m').
Proof.
  intros Hf HB (ND & FA & RD) HA HC e He HP m1. rewrite CAPACITY_eq in HC.
  assert (CP : forall e r, 0 <= e < len -> In r ranks -> Z.of_nat (length (xs r e)) <= capacity Flt).
  { intros e1 r He1 Hr. specialize (HC e1 He1). destruct (in_split r ranks Hr) as (l1 & l2 & E). rewrite E, flat_map_app, app_length in HC.
    cbn [flat_map] in HC. rewrite app_length in HC. lia. }
  destruct (calls_holds (t := Flt) (A := F Flt * F Flt) (zbnum fold) ltac:(unfold zbnum; lia) (fun n X Y m => mpi_cbcbadd fold n X Y m)
    (fun l m Y => zholds fold l m Y) (fun l => Z.of_nat (length l) <= capacity Flt))
    with (len := len) (buf := buf) (ranks := ranks) (cs := cs) (live := fun _ : Z => ranks) (fin := result)
      (xs := xs) (m := m) (e := e) as (l & R1 & R2); auto.
  - intros l m2 m3 Y E H. eapply (zholds_outside fold Hf); [|exact H]. exact E.
  - intros l a b P. rewrite (Permutation_length P), app_length. lia.
  - intros n X Y xs1 ys1 m2 Hn AP H. exact (zaddv_holds fold Hf n X Y xs1 ys1 m2 Hn AP H).
  - intros e1 He1. split; [exact ND|]. split; [apply incl_refl|]. split; [apply RD; exact He1|].
    split; [apply HC; exact He1|]. intros r Hr.
    destruct (zsum_list_holds fold Hf T (xs r e1) m' (CP e1 r He1 Hr)) as [[Z1 Z2] _].
    specialize (HA e1 r He1 Hr). unfold zsame_words, zelem in HA. set (Y0 := buf r + e1 * zbnum fold) in *. clearbody Y0.
    split; (eapply holds_words_ext; [exact (Hf2 fold Hf)| |eassumption]); intros i Hi;
      unfold zre, zrc, zim, zic, P_of; rewrite <- ?Z.add_assoc; split; apply HA; lia.
  - assert (PL : Permutation l all) by (rewrite R2; exact HP).
    destruct (zsum_list_holds fold Hf T all m') as [H2 _].
    { rewrite <- (Permutation_length HP). apply HC. exact He. }
    apply (zholds_perm _ _ all) in R1; [|exact PL]. split.
    + intros AF. apply andb_true_iff in AF. exact (zholds_cells fold Hf all _ _ _ _ (proj1 AF) (proj2 AF) R1 H2).
    + destruct R1 as [R1 I1], H2 as [R2' I2]. unfold zzbconv_sub, zzmconv_sub. f_equal.
      * exact (ddmconv_perm fold _ 2 _ 2 _ 2 _ 2 _ _ [] _ _ (proj1 Hf) (Permutation_refl _) R1 R2').
      * exact (ddmconv_perm fold _ 2 _ 2 _ 2 _ 2 _ _ [] _ _ (proj1 Hf) (Permutation_refl _) I1 I2).
Qed.
Print Assumptions C41_float.
(** Double precision: the operator installed by binnedMPI_ZBZBADD calls the real
    routine, which takes the first half of each complex accumulator for a real
    accumulator.  The statement of C41_float is false for it: with (1,2) on one
    process and (3,4) on the other, the imaginary part of the result is not 6. *)
Definition two_ranks (r : nat) : Z := 100 * (Z.of_nat r + 1).
Definition one_call : list call := [Call 0 1 0 1].
Definition c41_mem : mem Dbl := zsum_list 3 200 [(mkf 3 0, mkf 4 0)] (zsum_list 3 100 [(mkf 1 0, mkf 2 0)] (fun _ => fzero)).
Definition c41_data (r : nat) (e : Z) : list (F Dbl * F Dbl) := match r with O => [(mkf 1 0, mkf 2 0)] | _ => [(mkf 3 0, mkf 4 0)] end.
Lemma two_buffers num : 0 < num <= 100 -> buffers num 1 [0%nat; 1%nat] two_ranks.
Proof. intros H i j [<-|[<-|[]]] [<-|[<-|[]]] NE; try congruence; unfold apart, two_ranks; lia. Qed.
Lemma one_reduction : reduction [0%nat; 1%nat] 1 one_call (fun _ => 1%nat).
Proof.
  split; [repeat constructor; cbn; lia|]. split; [repeat constructor; cbn; lia|].
  intros e He. assert (e = 0) as -> by lia. cbn. apply reduces_call; cbn; [auto|auto|discriminate|constructor].
Qed.
Theorem C41_double_refuted :
  ~ (forall fold len ranks buf cs result (xs : nat -> Z -> list (F Dbl * F Dbl)) (m m' : mem Dbl) T all,
  2 <= fold <= MAXFOLD Dbl -> buffers (zbnum fold) len ranks buf -> reduction ranks len cs result ->
  (forall e r, 0 <= e < len -> In r ranks -> zsame_words fold m (zelem fold (buf r) e) (zsum_list fold T (xs r e) m') T) ->
  (forall e, 0 <= e < len -> Z.of_nat (length (flat_map (fun r => xs r e) ranks)) <= CAPACITY Dbl) ->
  forall e, 0 <= e < len -> Permutation (flat_map (fun r => xs r e) ranks) all ->
  let m1 := run_zcalls fold buf cs m in
  zfinite all = true -> zzbconv_sub fold (zelem fold (buf (result e)) e) m1 = zzbconv_sub fold T (zsum_list fold T all m')).
Proof.
  intros H. set (z := fun _ : Z => @fzero Dbl).
  assert (E : zzbconv_sub 3 (zelem 3 (two_ranks 1) 0) (run_zcalls 3 two_ranks one_call c41_mem) =
    zzbconv_sub 3 100 (zsum_list 3 100 [(mkf 1 0, mkf 2 0); (mkf 3 0, mkf 4 0)] z)).
  { apply (H 3 1 [0%nat; 1%nat] two_ranks one_call (fun _ => 1%nat) c41_data c41_mem z 100); clear H.
    - vm_compute. split; discriminate.
    - apply two_buffers. unfold zbnum. lia.
    - exact one_reduction.
    - assert (Hf : 2 <= 3 <= MAXFOLD Dbl) by (vm_compute; split; discriminate).
      assert (SUM : forall Y p q (m : mem Dbl), zholds 3 [(mkf p 0, mkf q 0)] (zsum_list 3 Y [(mkf p 0, mkf q 0)] m) Y /\
        (forall a, ~ block Y (zbnum 3) a -> zsum_list 3 Y [(mkf p 0, mkf q 0)] m a = m a)).
      { intros Y p q m. apply (zsum_list_holds 3 Hf). vm_compute. discriminate. }
      destruct (SUM 200 3 4 (zsum_list 3 100 [(mkf 1 0, mkf 2 0)] z)) as [S1 S2].
      intros e r He Hr. assert (e = 0) as -> by lia.
      assert (ZC : forall p q (m m' : mem Dbl) Y Y', is_finite (mkf (t := Dbl) p 0) = true -> is_finite (mkf (t := Dbl) q 0) = true ->
        zholds 3 [(mkf p 0, mkf q 0)] m Y -> zholds 3 [(mkf p 0, mkf q 0)] m' Y' -> zsame_words 3 m Y m' Y').
      { intros p q m m' Y Y' F1 F2 H1 H2. refine (zholds_cells 3 Hf _ m m' Y Y' _ _ H1 H2); unfold all_finite; cbn [map fst snd forallb]; rewrite andb_true_r; assumption. }
      destruct Hr as [<-|[<-|[]]].
      + refine (ZC 1 2 _ _ _ _ eq_refl eq_refl _ (proj1 (SUM 100 1 2 z))).
        eapply (zholds_outside 3 Hf); [|exact (proj1 (SUM 100 1 2 z))]. intros a Ha. apply S2. change (zelem 3 (two_ranks 0) 0) with 100 in Ha. unfold block, zbnum in *. lia.
      + exact (ZC 3 4 _ _ _ _ eq_refl eq_refl S1 (proj1 (SUM 100 3 4 z))).
    - intros e He. vm_compute. discriminate.
    - lia.
    - reflexivity.
    - vm_compute. reflexivity. }
  apply (f_equal (fun p => feq (snd p) (mkf 6 0))) in E.
  assert (E1 : feq (snd (zzbconv_sub 3 (zelem 3 (two_ranks 1) 0) (run_zcalls 3 two_ranks one_call c41_mem))) (mkf 6 0) = false) by (vm_compute; reflexivity).
  assert (E2 : feq (snd (zzbconv_sub 3 100 (zsum_list 3 100 [(mkf 1 0, mkf 2 0); (mkf 3 0, mkf 4 0)] z))) (mkf 6 0) = true) by (vm_compute; reflexivity).
  congruence.
Qed.
Print Assumptions C41_double_refuted.

(** ** C26: which folds have an operator *)
Theorem C26_operator t fold : 2 <= fold <= MAXINDEX t -> mpi_op t fold = Some fold.
Proof. intros H. unfold mpi_op. destruct (Z.leb_spec 2 fold), (Z.ltb_spec fold (MAXINDEX t + 1)); cbn; auto; lia. Qed.
Print Assumptions C26_operator.
(** The largest legal fold (MAXFOLD) has none. *)
Theorem C26_operator_maxfold_refuted t : mpi_op t (MAXFOLD t) = None.
Proof. destruct t; reflexivity. Qed.
Print Assumptions C26_operator_maxfold_refuted.
(** Three processes, two elements per buffer; the first element reduced 0,2 -> 1, the
    second by 1 -> 2 then 2 -> 0. *)
Definition three (r : nat) : Z := 100 * (Z.of_nat r + 1).
Definition c26_data (r : nat) (e : Z) : list (F Dbl) := [mkf (Z.of_nat r * 7 - 5) (300 * e); mkf 1 (-40 * Z.of_nat r)].
Definition c26_mem : mem Dbl :=
  fold_left (fun m r => sum_list 3 (elem 3 (three r) 1) (c26_data r 1) (sum_list 3 (elem 3 (three r) 0) (c26_data r 0) m)) [0%nat; 1%nat; 2%nat] (fun _ => fzero).
Definition c26_calls : list call := [Call 1 2 1 1; Call 0 1 0 1; Call 2 0 1 1; Call 2 1 0 1].
Example C26_case : buffers (dbnum 3) 2 [0%nat; 1%nat; 2%nat] three /\
  reduction [0%nat; 1%nat; 2%nat] 2 c26_calls (fun e => if e =? 0 then 1%nat else 0%nat) /\
  (forall e r, 0 <= e < 2 -> In r [0%nat; 1%nat; 2%nat] -> acc_at 3 [] (c26_data r e) c26_mem (elem 3 (three r) e)) /\
  feq (ddbconv 3 (elem 3 (three 1) 0) (run_calls 3 three c26_calls c26_mem)) (fadd (mkf 7 0) (mkf 1 (-40))) = true.
Proof.
  assert (Hf : 2 <= 3 <= MAXFOLD Dbl) by (vm_compute; split; discriminate).
  split; [|split; [|split]].
  - intros i j [<-|[<-|[<-|[]]]] [<-|[<-|[<-|[]]]] NE; try congruence; unfold apart, three, dbnum; lia.
  - split; [repeat constructor; cbn; lia|]. split; [repeat constructor; cbn; lia|].
    intros e He. assert (E : e = 0 \/ e = 1) by lia. destruct E as [-> | ->]; cbn.
    + apply reduces_call; cbn; [auto|auto|discriminate|]. apply reduces_call; cbn; [auto|auto|discriminate|constructor].
    + apply reduces_call; cbn; [auto|auto|discriminate|]. apply reduces_call; cbn; [auto|auto|discriminate|constructor].
  - assert (SUM : forall Y (l : list (F Dbl)) (m : mem Dbl), (length l = 2)%nat -> acc_at 3 [] l (sum_list 3 Y l m) Y /\
      (forall a, ~ within Y (dbnum 3) a -> sum_list 3 Y l m a = m a)).
    { intros Y l m Hl. apply (sum_list_holds 3 Hf). rewrite Hl. vm_compute. discriminate. }
    assert (KEEP : forall Y Z0 (l l' : list (F Dbl)) (m : mem Dbl), (length l' = 2)%nat -> apart (dbnum 3) Y Z0 ->
      acc_at 3 [] l m Y -> acc_at 3 [] l (sum_list 3 Z0 l' m) Y).
    { intros Y Z0 l l' m Hl AP HA. eapply (acc_at_frame 3 Hf); [|exact HA]. intros a Ha. apply (SUM Z0 l' m Hl).
      unfold apart, within, dbnum in *. lia. }
    intros e r He Hr. unfold c26_mem. cbn [fold_left].
    assert (E : e = 0 \/ e = 1) by lia.
    destruct Hr as [<-|[<-|[<-|[]]]], E as [-> | ->];
      repeat (apply KEEP; [reflexivity|unfold apart, elem, three, dbnum; lia|]); apply SUM; reflexivity.
  - vm_compute. reflexivity.
Qed.
