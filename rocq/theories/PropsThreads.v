(** * C58: calls on different accumulators by concurrent threads

    A schedule is the order in which the calls of all threads happen (each call is taken as one
    step: a call touches only the accumulators it names, see C15, so two calls of different threads
    that respect the ownership rule below have disjoint footprints and commute). *)
From Coq Require Import ZArith Bool List Lia Permutation.
From Coq Require Import Classical_Prop.
From Flocq Require Import Core BinarySingleNaN.
From Verif Require Import Fp Mem Binned Spec FpProofs BitProofs CoreArith SpecProofs WordProofs MemProofs AccProofs SumProofs ConvProofs Client History ClientProofs StrideProofs PropsSum PropsAcc PropsMem Mpi MpiSpec PropsMpi.
Import ListNotations.
Open Scope Z_scope.

(** The accumulators a call reads only. *)
Definition source {t} (o : op t) : list nat := match o with Merge r _ | SetTo r _ => [r] | _ => [] end.
(** A schedule: calls tagged with the thread that makes them. *)
Definition program_of {t} (i : nat) (sched : list (nat * op t)) : list (op t) :=
  map snd (filter (fun p => Nat.eqb (fst p) i) sched).
(** Thread i writes only accumulators it owns, and reads only those and shared ones, which
    nobody owns (so nobody writes them). *)
Definition well_behaved {t} (owner : nat -> option nat) (sched : list (nat * op t)) : Prop :=
  forall i o, In (i, o) sched -> two_regs o /\ owner (target o) = Some i /\
    forall r, In r (source o) -> owner r = Some i \/ owner r = None.

(** One call on memories that agree on the accumulators it names. *)
Lemma exec_local {t} fold (R : nat -> reg) (o : op t) (m m' : mem t) : 2 <= fold -> registers fold R -> two_regs o ->
  (forall r, r = target o \/ In r (source o) -> same_acc fold m (R r) m' (R r)) ->
  same_acc fold (exec fold R o m) (R (target o)) (exec fold R o m') (R (target o)) /\
  only fold (R (target o)) m (exec fold R o m).
Proof.
  intros Hf HR T S. pose proof (proj1 HR) as L.
  assert (ST : forall f : reg -> mem t -> mem t, step fold f -> forall r, same_acc fold m (R r) m' (R r) ->
      same_acc fold (f (R r) m) (R r) (f (R r) m') (R r) /\ only fold (R r) m (f (R r) m)).
  { intros f F r Sr. apply F; auto; apply L. }
  destruct o as [r|X r|X r|r|X r|X r|r r'|r r'|r]; cbn [exec target source two_regs] in *.
  - apply (ST _ (step_setzero fold Hf)); auto.
  - apply (ST _ (step_update fold Hf X)); auto.
  - apply (ST _ (step_deposit fold Hf X)); auto.
  - apply (ST _ (step_renorm fold Hf)); auto.
  - apply (ST _ (step_add fold Hf X)); auto.
  - apply (ST _ (step_conv fold Hf X)); auto.
  - apply (step_merge fold Hf (R r) (R r') (R r) (R r') (L r') (L r') (proj2 HR r r' T) (proj2 HR r r' T)); apply S; cbn; auto.
  - apply (step_set fold Hf (R r) (R r') (R r) (R r') (L r') (L r') (proj2 HR r r' T) (proj2 HR r r' T)); apply S; cbn; auto.
  - apply (ST _ (step_negate fold Hf)); auto.
Qed.
Lemma same_acc_only {t} fold (R : nat -> reg) r q (m m' : mem t) : registers fold R -> r <> q -> only fold (R q) m m' -> same_acc fold m (R r) m' (R r).
Proof.
  intros HR N O i Hi. split; symmetry; apply O; intros C; eapply (proj2 HR r q N); eauto; exists i; auto.
Qed.
Lemma same_acc_trans {t} fold (m m' m'' : mem t) r r' r'' : same_acc fold m r m' r' -> same_acc fold m' r' m'' r'' -> same_acc fold m r m'' r''.
Proof. intros A B i Hi. destruct (A i Hi) as [-> ->]. apply B; auto. Qed.
Lemma same_acc_refl {t} fold (m : mem t) r : same_acc fold m r m r.
Proof. intros i Hi. auto. Qed.
Lemma same_acc_sym {t} fold (m m' : mem t) r r' : same_acc fold m r m' r' -> same_acc fold m' r' m r.
Proof. intros A i Hi. destruct (A i Hi). auto. Qed.
Lemma program_cons {t} i j (o : op t) sched : program_of i ((j, o) :: sched) = if Nat.eqb j i then o :: program_of i sched else program_of i sched.
Proof. unfold program_of. cbn [filter fst]. now destruct (Nat.eqb j i). Qed.

(** Every accumulator ends with the words its owner, running alone, would have left there: for
    any number of threads and any interleaving of their calls, with no precondition on the calls
    or on the contents of memory; shared and unused memory is untouched. *)
Theorem C58_threads t fold (R : nat -> reg) owner (sched : list (nat * op t)) (m : mem t) : 2 <= fold ->
  registers fold R -> well_behaved owner sched ->
  (forall r i, owner r = Some i ->
     same_acc fold (run fold R (map snd sched) m) (R r) (run fold R (program_of i sched) m) (R r)) /\
  (forall a, (forall r, owner r <> None -> ~ cells fold (R r) a) -> run fold R (map snd sched) m a = m a).
Proof.
  intros Hf HR WB. split.
  - intros r i Hi.
    assert (G : forall sched : list (nat * op t), well_behaved owner sched -> forall m m' : mem t, (forall r, owner r = Some i \/ owner r = None -> same_acc fold m (R r) m' (R r)) ->
      forall r, owner r = Some i \/ owner r = None -> same_acc fold (run fold R (map snd sched) m) (R r) (run fold R (program_of i sched) m') (R r)).
    { clear -Hf HR. intros s. induction s as [|[j o] s IH]; intros WB m m' S r Hr; [now apply S|].
      rewrite program_cons. cbn [map snd run]. destruct (WB j o (or_introl eq_refl)) as (T & OW & SRC).
      assert (WB' : well_behaved owner s) by (intros i' o' Ho; apply WB; now right).
      destruct (Nat.eqb_spec j i) as [->|NJ].
      - cbn [run]. apply IH; auto. intros q Hq.
        assert (SS : forall q, q = target o \/ In q (source o) -> same_acc fold m (R q) m' (R q)).
        { intros q' [->|Hs]; [apply S; auto|]. apply S, SRC, Hs. }
        destruct (exec_local fold R o m m' Hf HR T SS) as [E1 O1].
        destruct (exec_local fold R o m' m Hf HR T) as [_ O2]; [intros q' Hq'; apply same_acc_sym; auto|].
        destruct (Nat.eq_dec q (target o)) as [->|NQ]; auto.
        eapply same_acc_trans; [apply same_acc_sym, (same_acc_only fold R q _ _ _ HR NQ O1)|].
        eapply same_acc_trans; [apply S; auto|]. apply (same_acc_only fold R q _ _ _ HR NQ O2).
      - apply IH; auto. intros q Hq. destruct (exec_local fold R o m m Hf HR T) as [_ O1]; [intros; apply same_acc_refl|].
        eapply same_acc_trans; [|apply S; exact Hq]. apply same_acc_sym, (same_acc_only fold R q (target o)); auto.
        intros ->. rewrite OW in Hq. destruct Hq as [Hq|Hq]; congruence. }
    apply G; auto. intros q _. apply same_acc_refl.
  - revert m. induction sched as [|[j o] s IH]; intros m a Ha; [reflexivity|]. cbn [map snd run].
    destruct (WB j o (or_introl eq_refl)) as (T & OW & SRC). rewrite IH; auto.
    + destruct (exec_local fold R o m m Hf HR T) as [_ O1]; [intros; apply same_acc_refl|]. apply O1, Ha. rewrite OW. discriminate.
    + intros i' o' Ho. apply WB. now right.
Qed.
Print Assumptions C58_threads.
(** So the whole memory is the same after any two interleavings of the same threads. *)
Theorem C58_interleavings t fold (R : nat -> reg) owner (sched sched' : list (nat * op t)) (m : mem t) : 2 <= fold ->
  registers fold R -> well_behaved owner sched -> well_behaved owner sched' ->
  (forall i, program_of i sched = program_of i sched') ->
  forall a, run fold R (map snd sched) m a = run fold R (map snd sched') m a.
Proof.
  intros Hf HR W W' E a. destruct (C58_threads t fold R owner sched m Hf HR W) as [S U]. destruct (C58_threads t fold R owner sched' m Hf HR W') as [S' U'].
  destruct (classic (exists r, owner r <> None /\ cells fold (R r) a)) as [(r & O & C)|N].
  - destruct (owner r) as [i|] eqn:OR; [|congruence]. specialize (S r i OR). specialize (S' r i OR). rewrite E in S.
    destruct C as (k & Hk & C). destruct (S k Hk) as [A1 A2]. destruct (S' k Hk) as [B1 B2]. destruct C as [-> | ->]; congruence.
  - rewrite U, U'; auto; intros r O C; apply N; eauto.
Qed.
Print Assumptions C58_interleavings.

(** ** A parallel sum *)
(** Thread i clears accumulator i and adds its data to it. *)
Definition adder {t} (i : nat) (xs : list (F t)) : list (op t) := SetZero i :: map (fun x => Add x i) xs.
(** Afterwards the accumulators are merged in any order (the calls of an MpiSpec reduction). *)
Definition merges {t} (cs : list call) : list (op t) := map (fun c => Merge (src c) (dst c)) cs.

Section PAR.
  Context {t : ty} (fold : Z) (Hf : 2 <= fold <= MAXFOLD t) (R : nat -> reg) (HR : registers fold R).
  Notation has m r xs := (holds t fold [] xs (pri m (R r)) (car m (R r))).
  Lemma adds_hold i (ys : list (F t)) : forall xs (m : mem t), Z.of_nat (length (xs ++ ys)) <= capacity t -> has m i xs ->
    has (run fold R (map (fun x => Add x i) ys) m) i (rev ys ++ xs).
  Proof.
    assert (HmF : fold <= jmax t + 1) by (rewrite <- MAXFOLD_eq; lia).
    induction ys as [|y ys IH]; intros xs m HC H; [exact H|]. cbn [map run exec rev]. rewrite <- app_assoc. cbn [app].
    pose proof (endurance_pos t). rewrite app_length in HC. cbn [length] in HC.
    destruct (rep_add (proj1 HR i) (proj1 Hf) HmF m [] xs 0 y) as [A _]; [apply holds_rep; [lia|exact H]|lia|intros _; cbn [length]; lia|].
    apply IH; [rewrite app_length; cbn [length]; lia|exact A].
  Qed.
  Lemma adder_holds i (xs : list (F t)) (m : mem t) : Z.of_nat (length xs) <= capacity t -> has (run fold R (adder i xs) m) i (rev xs).
  Proof.
    intros HC. unfold adder. cbn [run exec]. destruct (rep_setzero (proj1 HR i) (proj1 Hf) m) as [A _].
    pose proof (adds_hold i xs [] (dmsetzero fold (rp (R i)) (rip (R i)) (rc (R i)) (ric (R i)) m) HC) as G. rewrite app_nil_r in G. apply G.
    unfold rep in A. cbn in A. exact A.
  Qed.
  Lemma merges_hold live cs r : reduces live cs r -> NoDup live -> forall (d : nat -> list (F t)) (m : mem t),
    Z.of_nat (length (flat_map d live)) <= capacity t -> (forall i, In i live -> has m i (d i)) ->
    exists xs, has (run fold R (merges cs) m) r xs /\ Permutation xs (flat_map d live).
  Proof.
    assert (HmF : fold <= jmax t + 1) by (rewrite <- MAXFOLD_eq; lia).
    induction 1 as [r|live c cs r I1 I2 NE RD IH]; intros ND d m HC HA.
    - exists (d r). split; [apply HA; now left|]. cbn. now rewrite app_nil_r.
    - set (s := src c) in *. set (e := dst c) in *. cbn [merges map run exec]. fold s e.
      assert (P1 : Permutation live (s :: remove Nat.eq_dec s live)).
      { now apply perm_remove. }
      set (rest := remove Nat.eq_dec s live) in *.
      assert (I2' : In e rest) by (apply in_in_remove; auto).
      assert (ND' : NoDup rest) by (now apply nodup_remove).
      destruct (in_split e rest I2') as (l1 & l2 & E).
      assert (P2 : Permutation live (s :: e :: l1 ++ l2)) by (rewrite P1, E; constructor; symmetry; apply Permutation_middle).
      assert (LEN : Z.of_nat (length (flat_map d live)) = Z.of_nat (length (d s)) + Z.of_nat (length (d e)) + Z.of_nat (length (flat_map d (l1 ++ l2)))).
      { rewrite (Permutation_length (Permutation_flat_map d P2)). cbn [flat_map]. rewrite !app_length. lia. }
      destruct (rep_merge (proj1 HR e) (proj1 Hf) HmF m [] (d s) [] (d e) (proj2 HR s e NE)) as (_ & F1 & M1).
      { apply holds_rep; [lia|]. apply HA, I1. } { apply holds_rep; [lia|]. apply HA, I2. }
      { intros _. rewrite app_length. lia. }
      specialize (M1 (HA s I1) (HA e I2)). cbv zeta in F1, M1.
      set (m1 := dmdmadd fold (rp (R s)) (rip (R s)) (rc (R s)) (ric (R s)) (rp (R e)) (rip (R e)) (rc (R e)) (ric (R e)) m) in *.
      pose (d' := fun i => if Nat.eq_dec i e then d s ++ d e else d i).
      assert (D1 : forall l, ~ In e l -> flat_map d' l = flat_map d l).
      { intros l Hl. induction l as [|a l IHl]; auto. cbn [flat_map]. rewrite IHl by (intros C; apply Hl; now right). unfold d' at 1.
        destruct (Nat.eq_dec a e) as [->|]; auto. exfalso. apply Hl. now left. }
      assert (NI : ~ In e l1 /\ ~ In e l2).
      { rewrite E in ND'. apply NoDup_remove_2 in ND'. split; intros C; apply ND', in_or_app; auto. }
      assert (P3 : Permutation (flat_map d' rest) (flat_map d live)).
      { rewrite E, (Permutation_flat_map d P2). rewrite flat_map_app. cbn [flat_map]. rewrite !D1 by tauto. rewrite flat_map_app.
        assert (E' : d' e = d s ++ d e) by (unfold d'; destruct (Nat.eq_dec e e); congruence). rewrite E'.
        rewrite Permutation_app_comm, <- !app_assoc. apply Permutation_app_head, Permutation_app_head. apply Permutation_app_comm. }
      destruct (IH ND' d' m1) as (xs & X1 & X2).
      { rewrite (Permutation_length P3). exact HC. }
      { intros i Hi. unfold d'. destruct (Nat.eq_dec i e) as [->|N]; [exact M1|].
        eapply holds_words_ext; [exact (ClientProofs.Hf2 fold Hf)| |apply HA]. 2:{ apply in_remove in Hi. tauto. }
        intros k Hk. destruct (same_acc_only fold R i e m m1 HR N F1 k Hk) as [Q1 Q2]. split; symmetry; assumption. }
      exists xs. split; [exact X1|]. now rewrite X2.
  Qed.
End PAR.
Lemma holds_words_eq t fold us xs P W P' W' : 0 < fold -> all_finite xs = true ->
  holds t fold us xs P W -> holds t fold us xs P' W' -> forall i, 0 <= i < fold -> P i = P' i /\ W i = W' i.
Proof.
  intros Hf AF. unfold holds. rewrite AF. destruct (us ++ xs); intros H H' i Hi; destruct (H i Hi) as [-> ->]; destruct (H' i Hi) as [-> ->]; auto.
Qed.
(** Any number of threads, any distribution of the data, any interleaving of the threads and any
    order of the merges: the last accumulator has the words, and converts to the value, of one
    accumulator to which all numbers are added one after the other. *)
Theorem C58_parallel_sum t fold (R : nat -> reg) n (data : nat -> list (F t)) (sched : list (nat * op t)) cs r (all : list (F t)) (m m' : mem t) Y :
  2 <= fold <= MAXFOLD t -> registers fold R ->
  (forall i o, In (i, o) sched -> (i < n)%nat) ->
  (forall i, (i < n)%nat -> program_of i sched = adder i (data i)) ->
  reduces (seq 0 n) cs r -> Permutation all (flat_map data (seq 0 n)) -> Z.of_nat (length all) <= CAPACITY t ->
  let w := run fold R (merges cs) (run fold R (map snd sched) m) in
  let w' := sum_list fold Y all m' in
  (all_finite all = true -> same_acc fold w (R r) w' (mkreg Y 1 (Y + fold) 1)) /\
  ddmconv fold (rp (R r)) (rip (R r)) (rc (R r)) (ric (R r)) w = ddbconv fold Y w'.
Proof.
  intros Hf HR HI HP RD PA HC w w'. rewrite CAPACITY_eq in HC.
  assert (LT : Z.of_nat (length (flat_map data (seq 0 n))) <= capacity t) by (rewrite <- (Permutation_length PA); exact HC).
  pose (owner := fun r : nat => Some r).
  assert (WB : well_behaved owner sched).
  { intros i o Hio. assert (Hi := HI i o Hio).
    assert (HO : In o (program_of i sched)) by (unfold program_of; apply in_map_iff; exists (i, o); split; auto; apply filter_In; split; auto; apply Nat.eqb_refl).
    rewrite (HP i Hi) in HO. destruct HO as [<-|HO]; [cbn; repeat split; intros ? []|]. apply in_map_iff in HO. destruct HO as (x & <- & _). cbn. repeat split; intros ? []. }
  destruct (C58_threads t fold R owner sched m ltac:(lia) HR WB) as [TH _].
  destruct (merges_hold fold Hf R HR (seq 0 n) cs r RD (seq_NoDup n 0) (fun i => rev (data i)) (run fold R (map snd sched) m)) as (xs & X1 & X2).
  { assert (E : length (flat_map (fun i => rev (data i)) (seq 0 n)) = length (flat_map data (seq 0 n))).
    { generalize (seq 0 n). intros l. induction l as [|a l IH]; auto. cbn [flat_map]. rewrite !app_length, rev_length, IH. auto. }
    rewrite E. exact LT. }
  { intros i Hi. assert (Hn : (i < n)%nat) by (apply in_seq in Hi; lia).
    eapply holds_words_ext; [exact (ClientProofs.Hf2 fold Hf)| |apply (adder_holds fold Hf R HR i (data i) m)].
    - intros k Hk. destruct (TH i i eq_refl k Hk) as [Q1 Q2]. rewrite (HP i Hn) in Q1, Q2. split; assumption.
    - apply in_split in Hi. destruct Hi as (l1 & l2 & E). rewrite E, flat_map_app in LT. cbn [flat_map] in LT. rewrite !app_length in LT. lia. }
  fold w in X1.
  assert (PX : Permutation xs all).
  { rewrite X2, PA. clear. induction (seq 0 n) as [|a l IH]; auto. cbn [flat_map]. apply Permutation_app; auto. symmetry. apply Permutation_rev. }
  destruct (sum_list_holds fold Hf Y all m' HC) as [S1 _]. fold w' in S1.
  split.
  - intros AF. apply (holds_perm _ _ [] [] xs all) in X1; [|constructor|exact PX].
    exact (holds_words_eq t fold [] all _ _ _ _ ltac:(lia) AF X1 S1).
  - exact (ddmconv_perm fold _ _ _ _ Y 1 (Y + fold) 1 w w' [] xs all (proj1 Hf) PX X1 S1).
Qed.
Print Assumptions C58_parallel_sum.
(** Three threads, the accumulators of C15_case: thread 1 starts before thread 0 has finished, thread 2
    adds nothing, and accumulator 0 is merged into the one the others went to. *)
Definition par_data (i : nat) : list (F Dbl) := match i with 0%nat => [mkf 1 70; mkf 3 0] | 1%nat => [mkf (-1) 70; mkf 5 10] | _ => [] end.
Definition par_sched : list (nat * op Dbl) :=
  [(0%nat, SetZero 0); (1%nat, SetZero 1); (0%nat, Add (mkf 1 70) 0); (1%nat, Add (mkf (-1) 70) 1); (2%nat, SetZero 2);
   (1%nat, Add (mkf 5 10) 1); (0%nat, Add (mkf 3 0) 0)].
Example C58_case : registers 3 sample_regs /\ (forall i o, In (i, o) par_sched -> (i < 3)%nat) /\ (forall i, (i < 3)%nat -> program_of i par_sched = adder i (par_data i)) /\
  reduces (seq 0 3) [Call 2 1 0 1; Call 0 1 0 1] 1 /\
  (let w := run 3 sample_regs (merges [Call 2 1 0 1; Call 0 1 0 1]) (run 3 sample_regs (map snd par_sched) (fun _ => fnan)) in
   let r := sample_regs 1 in
   feq (ddmconv 3 (rp r) (rip r) (rc r) (ric r) w) (fadd (mkf 3 0) (mkf 5 10)) = true) /\
  well_behaved (t := Dbl) (fun r => if Nat.eqb r 2 then None else Some r)
    [(0%nat, SetZero 0); (1%nat, SetTo 2 1); (0%nat, Merge 2 0); (1%nat, Negate 1)].
Proof.
  split; [apply C02_history_case|]. split; [|split; [|split; [|split]]].
  - intros i o H. unfold par_sched in H. cbn [In] in H. repeat (destruct H as [H|H]; [injection H as <- _; lia|]). destruct H.
  - intros i Hi. destruct i as [|[|[|i]]]; [reflexivity|reflexivity|reflexivity|lia].
  - apply reduces_call; cbn; [auto|auto|discriminate|]. apply reduces_call; cbn; [auto|auto|discriminate|constructor].
  - vm_compute. reflexivity.
  - intros i o H. cbn in H. repeat (destruct H as [H|H]; [injection H as <- <-; cbn; repeat split; auto; intros r Hr; destruct Hr as [<-|[]] || destruct Hr; cbn; auto|]). destruct H.
Qed.
