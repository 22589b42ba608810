(** * Arbitrary histories of calls on any number of accumulators

    A program is a list of library calls on registers; register r is an accumulator
    with its own base addresses and strides.  [exec] runs the modelled routines of
    Binned.v; [track] says, without looking at memory, which floats each register
    has summed. *)
From Coq Require Import ZArith Bool List Lia Permutation.
From Flocq Require Import Core BinarySingleNaN.
From Verif Require Import Fp Mem Binned Spec FpProofs BitProofs CoreArith SpecProofs WordProofs MemProofs AccProofs SumProofs.
Import ListNotations.
Open Scope Z_scope.

Inductive op (t : ty) :=
| SetZero (r : nat) | Update (X : F t) (r : nat) | Deposit (X : F t) (r : nat) | Renorm (r : nat)
| Add (X : F t) (r : nat) | ConvTo (X : F t) (r : nat)
| Merge (r r' : nat)   (* r' += r *)
| SetTo (r r' : nat)   (* r' := r *)
| Negate (r : nat).
Arguments SetZero {t}. Arguments Update {t}. Arguments Deposit {t}. Arguments Renorm {t}. Arguments Add {t}.
Arguments ConvTo {t}. Arguments Merge {t}. Arguments SetTo {t}. Arguments Negate {t}.

Record reg := mkreg { rp : Z; rip : Z; rc : Z; ric : Z }.
Definition cells (fold : Z) (r : reg) (a : Z) : Prop := in_acc fold (rp r) (rip r) (rc r) (ric r) a.
Definition pri {t} (m : mem t) (r : reg) : Z -> F t := P_of m (rp r) (rip r).
Definition car {t} (m : mem t) (r : reg) : Z -> F t := P_of m (rc r) (ric r).

(** The calls: dmsetzero.c, dmdupdate.c, dmddeposit.c, dmrenorm.c, dmdadd.c, dmdconv.c,
    dmdmadd.c, dmdmset.c, dmnegate.c as modelled in Binned.v. *)
Definition exec {t} (fold : Z) (R : nat -> reg) (o : op t) (m : mem t) : mem t :=
  let p r := rp (R r) in let ip r := rip (R r) in let c r := rc (R r) in let ic r := ric (R r) in
  match o with
  | SetZero r => dmsetzero fold (p r) (ip r) (c r) (ic r) m
  | Update X r => dmdupdate fold X (p r) (ip r) (c r) (ic r) m
  | Deposit X r => dmddeposit fold X (p r) (ip r) m
  | Renorm r => dmrenorm fold (p r) (ip r) (c r) (ic r) m
  | Add X r => dmdadd fold X (p r) (ip r) (c r) (ic r) m
  | ConvTo X r => dmdconv fold X (p r) (ip r) (c r) (ic r) m
  | Merge r r' => dmdmadd fold (p r) (ip r) (c r) (ic r) (p r') (ip r') (c r') (ic r') m
  | SetTo r r' => dmdmset fold (p r) (ip r) (c r) (ic r) (p r') (ip r') (c r') (ic r') m
  | Negate r => dmnegate fold (p r) (ip r) (c r) (ic r) m
  end.

(** What a register has received: floats it made room for, floats summed, number
    of raw deposits since the last renormalisation, is it normalised. *)
Record ghost (t : ty) := mkg { room : list (F t); summed : list (F t); raw : Z; normal : bool }.
Arguments mkg {t}. Arguments room {t}. Arguments summed {t}. Arguments raw {t}. Arguments normal {t}.
Definition ghost0 {t} : ghost t := mkg [] [] 0 true.
Definition put {A} (f : nat -> A) (r : nat) (v : A) : nat -> A := fun s => if Nat.eqb s r then v else f s.

Definition track {t} (o : op t) (s : nat -> ghost t) : nat -> ghost t :=
  match o with
  | SetZero r => put s r ghost0
  | Update X r => put s r (mkg (X :: room (s r)) (summed (s r)) (raw (s r)) (normal (s r)))
  | Deposit X r => put s r (mkg (room (s r)) (X :: summed (s r)) (raw (s r) + 1) false)
  | Renorm r => put s r (mkg (room (s r)) (summed (s r)) 0 true)
  | Add X r => put s r (mkg (room (s r)) (X :: summed (s r)) 0 true)
  | ConvTo X r => put s r (mkg [] [X] 0 true)
  | Merge r r' => put s r' (mkg (room (s r) ++ room (s r')) (summed (s r) ++ summed (s r')) 0
                               (normal (s r) && normal (s r')))
  | SetTo r r' => put s r' (s r)
  | Negate r => put s r (mkg (room (s r)) (map fneg (summed (s r))) 0 false)
  end.

(** Documented preconditions: at most CAPACITY summands; at most ENDURANCE raw
    deposits between renormalisations; a raw deposit only of a value for which room
    was made; merge and negate only without pending raw deposits. *)
Definition fits {t} (xs : list (F t)) : Prop := all_finite xs = true -> Z.of_nat (length xs) <= CAPACITY t.
Definition legal {t} (o : op t) (s : nat -> ghost t) : Prop :=
  match o with
  | SetZero r => True
  | Update X r => True
  | Deposit X r =>
      room (s r) ++ summed (s r) <> [] /\ lead (room (s r) ++ summed (s r)) <= findex X /\
      raw (s r) < ENDURANCE t
  | Renorm r => fits (summed (s r))
  | Add X r => raw (s r) < ENDURANCE t /\ fits (X :: summed (s r))
  | ConvTo X r => True
  | Merge r r' => r <> r' /\ raw (s r) = 0 /\ raw (s r') = 0 /\ fits (summed (s r) ++ summed (s r'))
  | SetTo r r' => r <> r'
  | Negate r => raw (s r) = 0
  end.

Fixpoint run {t} (fold : Z) (R : nat -> reg) (ops : list (op t)) (m : mem t) : mem t :=
  match ops with [] => m | o :: ops' => run fold R ops' (exec fold R o m) end.
Fixpoint tracked {t} (ops : list (op t)) (s : nat -> ghost t) : nat -> ghost t :=
  match ops with [] => s | o :: ops' => tracked ops' (track o s) end.
Fixpoint legal_all {t} (ops : list (op t)) (s : nat -> ghost t) : Prop :=
  match ops with [] => True | o :: ops' => legal o s /\ legal_all ops' (track o s) end.

(** Registers that do not overlap. *)
Definition registers (fold : Z) (R : nat -> reg) : Prop :=
  (forall r, layout fold (rp (R r)) (rip (R r)) (rc (R r)) (ric (R r))) /\
  (forall r r', r <> r' -> disjoint (cells fold (R r)) (cells fold (R r'))).

(** ** Proofs *)
Lemma holds_update {t} {fold p ip c ic : Z} (L : layout fold p ip c ic) (m : mem t) us xs X :
  2 <= fold <= jmax t + 1 ->
  holds t fold us xs (P_of m p ip) (P_of m c ic) -> rep t fold us xs 0 (P_of m p ip) (P_of m c ic) ->
  let m' := dmdupdate fold X p ip c ic m in
  holds t fold (X :: us) xs (P_of m' p ip) (P_of m' c ic).
Proof.
  intros Hf H HR m'. pose proof (endurance_pos t) as EP.
  assert (Hf2 : 2 <= fold) by lia. assert (Hm2 : fold <= jmax t + 1) by lia.
  destruct (rep_update L Hf2 Hm2 m us xs 0 X HR ltac:(lia)) as [HR' _]. fold m' in HR'.
  pose proof (rep_head_gen (fold:=fold) ltac:(lia) _ _ _ _ _ HR ltac:(lia)) as HH. rewrite P_of_0 in HH.
  unfold holds in H |- *. unfold rep in HR'. destruct (all_finite xs) eqn:HF; auto.
  cbn [app]. cbn [app] in HR'.
  destruct HR' as (V' & C' & A' & S' & ZV' & ZC' & B').
  set (k' := lead (X :: us ++ xs)) in *.
  pose proof (lead_range (X :: us ++ xs)) as LR'. fold k' in LR'.
  (* words of the updated accumulator *)
  assert (W0 : forall i, P_of m c ic i = P_of m c ic i) by auto.
  assert (CZ : (fzero : F t) = car_word t 0) by (destruct t; reflexivity).
  assert (PZ : forall j, 0 <= j -> forall w, priw t j (6 * quarter t) w -> w = pri_word t j 0).
  { intros j Hj w Hw. pose proof (quarter_pos t). apply (priw_inj t j (6 * quarter t)); auto; try lia.
    pose proof (pri_word_priw t j 0 Hj) as PW. rewrite Z.mod_0_l, Z.add_0_r in PW by lia. exact PW. }
  assert (FI : dindex X = findex X /\ 0 <= findex X <= jmax t).
  { split; [|apply findex_range]. unfold findex. destruct (is_finite X) eqn:FX; [apply dindex_spec; auto|apply nonfinite_bits; auto]. }
  destruct FI as [FI FR].
  destruct (us ++ xs) eqn:E.
  - apply app_eq_nil in E. destruct E as [-> ->].
    assert (K : k' = findex X) by (unfold k'; rewrite lead_cons, lead_nil; lia).
    pose proof (upd_zero_done L ltac:(lia) m X) as D. rewrite HH in D.
    specialize (D ltac:(rewrite ISNANINF_fin; reflexivity) eq_refl). destruct D as [D _].
    intros i Hi. unfold P_of. destruct (D i Hi) as [D1 D2]. fold m' in D1, D2. rewrite D1, D2, FI, K.
    split; auto. apply PZ; [lia|]. apply bins_priw; lia.
  - rewrite <- E in *. destruct HH as [N1 N2].
    unfold rep in HR. rewrite HF, E in HR. rewrite <- E in HR. cbv zeta in HR.
    destruct HR as (V & C & A & S & ZV & ZC & B). set (k := lead (us ++ xs)) in *.
    pose proof (lead_range (us ++ xs)) as LR. fold k in LR. pose proof (quarter_pos t) as QP.
    assert (IB : inbin t (6 * quarter t + V k)) by (specialize (B k ltac:(lia)); unfold inbin; lia).
    destruct (priw_0 _ _ _ _ _ _ _ A ltac:(lia) IB) as (_ & N3 & N4 & _). rewrite P_of_0 in *.
    assert (K : k' = Z.min (findex X) k) by (unfold k'; rewrite lead_cons, <- E; reflexivity).
    destruct (Z_lt_dec (findex X) k) as [Hlt|Hge].
    + rewrite K, Z.min_l by lia.
      pose proof (upd_shift_done L ltac:(lia) m X) as D. cbv zeta in D. rewrite N4, FI in D.
      specialize (D N3 N1 ltac:(lia)). destruct D as [D _].
      intros i Hi. unfold P_of. destruct (D i Hi) as [D1 D2]. fold m' in D1, D2. rewrite D1, D2.
      assert (SB : forall j, 0 <= j < k -> sums xs j = 0).
      { intros j Hj. apply sums_below; auto. unfold k in Hj. rewrite lead_app in Hj. lia. }
      destruct (Z.ltb_spec i (k - findex X)).
      * rewrite SB by lia. split; auto. apply PZ; [lia|]. apply bins_priw; lia.
      * destruct (H (i - (k - findex X)) ltac:(lia)) as [H1 H2]. unfold P_of in H1, H2.
        rewrite H1, H2. replace (k + (i - (k - findex X))) with (findex X + i) by lia. auto.
    + rewrite K, Z.min_r by lia.
      assert (E2 : m' = m) by (apply upd_noop; right; split; auto; rewrite N4, FI; lia).
      rewrite E2. exact H.
Qed.

Section HIST.
  Context {t : ty} (fold : Z) (R : nat -> reg).
  Hypothesis Hf : 2 <= fold <= MAXFOLD t.
  Hypothesis HR : registers fold R.

  Definition ok (m : mem t) (s : nat -> ghost t) : Prop :=
    forall r, 0 <= raw (s r) <= ENDURANCE t /\
      rep t fold (room (s r)) (summed (s r)) (raw (s r)) (pri m (R r)) (car m (R r)) /\
      (normal (s r) = true -> holds t fold (room (s r)) (summed (s r)) (pri m (R r)) (car m (R r))).

  Lemma fits_cap (xs : list (F t)) : fits xs -> all_finite xs = true -> Z.of_nat (length xs) <= capacity t.
  Proof. unfold fits. rewrite CAPACITY_eq. auto. Qed.
  Lemma one_cap (x : F t) : Z.of_nat (length [x]) <= capacity t.
  Proof. destruct t; discriminate. Qed.
  Lemma put_same {A} (f : nat -> A) r v : put f r v r = v.
  Proof. unfold put. now rewrite Nat.eqb_refl. Qed.
  Lemma put_other {A} (f : nat -> A) r v s : s <> r -> put f r v s = f s.
  Proof. intros. unfold put. destruct (Nat.eqb_spec s r); congruence. Qed.

  (** If only register r changes, the others are still right. *)
  Lemma ok_put m m' s r g :
    ok m s ->
    frame fold (rp (R r)) (rip (R r)) (rc (R r)) (ric (R r)) m m' ->
    0 <= raw g <= ENDURANCE t ->
    rep t fold (room g) (summed g) (raw g) (pri m' (R r)) (car m' (R r)) ->
    (normal g = true -> holds t fold (room g) (summed g) (pri m' (R r)) (car m' (R r))) ->
    ok m' (put s r g).
  Proof.
    intros O FR G1 G2 G3 r'. destruct (Nat.eq_dec r' r) as [->|N].
    - rewrite put_same. auto.
    - rewrite put_other by auto. destruct (O r') as (O1 & O2 & O3).
      assert (E : forall i, 0 <= i < fold -> pri m' (R r') i = pri m (R r') i /\ car m' (R r') i = car m (R r') i).
      { intros i Hi. unfold pri, car, P_of. split; apply FR; intros HI.
        - apply (proj2 HR r' r N (rp (R r') + i * rip (R r'))); auto. unfold cells. auto using in_pri.
        - apply (proj2 HR r' r N (rc (R r') + i * ric (R r'))); auto. unfold cells. auto using in_car. }
      split; [auto|split].
      + eapply rep_words_ext; [lia|exact E|exact O2].
      + intros HN. eapply holds_words_ext; [lia|exact E|auto].
  Qed.

  Lemma exec_ok o m s : ok m s -> legal o s -> ok (exec fold R o m) (track o s).
  Proof.
    intros O LG. pose proof (endurance_pos t) as EP. rewrite <- ENDURANCE_eq in EP.
    assert (Hf2 : 2 <= fold) by lia. assert (HmF : fold <= jmax t + 1) by (rewrite <- MAXFOLD_eq; lia).
    assert (ND : forall r, raw (s r) = 0 -> normal (s r) = true -> True) by auto.
    destruct o as [r|X r|X r|r|X r|X r|r r'|r r'|r]; cbn [exec track legal] in *; pose proof (proj1 HR) as LY.
    - destruct (rep_setzero (LY r) Hf2 m) as [A B]. eapply ok_put; eauto; cbn; try lia.
    - destruct (O r) as (O1 & O2 & O3). rewrite ENDURANCE_eq in O1.
      destruct (rep_update (LY r) Hf2 HmF m _ _ _ X O2 O1) as [A B].
      eapply ok_put; eauto; cbn; rewrite ?ENDURANCE_eq; auto.
      intros HN. apply (holds_update (LY r)); auto.
      apply O3 in HN. unfold rep. unfold rep in O2. destruct (all_finite (summed (s r))) eqn:AF; auto.
      destruct (room (s r) ++ summed (s r)) eqn:E; auto. rewrite <- E in *.
      destruct O2 as (V & C & A1 & S1 & Z1 & Z2 & _).
      (* canonical offsets *)
      assert (RR : forall i, 0 <= i < fold -> V (lead (room (s r) ++ summed (s r)) + i) = sums (summed (s r)) (lead (room (s r) ++ summed (s r)) + i) mod quarter t).
      { intros i Hi. unfold holds in HN. rewrite AF, E in HN. rewrite <- E in HN. cbv zeta in HN.
        destruct (HN i Hi) as [H1 _]. destruct A1 as [HK A1]. destruct (A1 i Hi) as [[F1 V1] _].
        pose proof (pri_word_priw t (lead (room (s r) ++ summed (s r)) + i) (sums (summed (s r)) (lead (room (s r) ++ summed (s r)) + i)) ltac:(lia)) as [F2 V2].
        unfold pri in V1, H1. rewrite H1, V2 in V1. pose proof (stored_exp_ge t (lead (room (s r) ++ summed (s r)) + i) ltac:(lia)).
        apply Z.mul_reg_r in V1; [lia|]. pose proof (pow2_pos (stored_exp t (lead (room (s r) ++ summed (s r)) + i)) ltac:(lia)). lia. }
      pose proof (quarter_pos t) as QP. set (k := lead (room (s r) ++ summed (s r))) in *.
      exists (fun j => sums (summed (s r)) j mod quarter t), (fun j => sums (summed (s r)) j / quarter t).
      split; [|split; [|split; [|split]]].
      + destruct A1 as [HK A1]. split; auto. intros i Hi. destruct (A1 i Hi) as [P1 C1].
        rewrite <- RR by auto. split; auto.
        replace (sums (summed (s r)) (k + i) / quarter t) with (C (k + i)); auto.
        rewrite <- (S1 (k + i)) by lia. specialize (RR i Hi). rewrite <- S1 in RR by lia.
        rewrite (Z.add_comm (_ * quarter t)), Z_mod_plus_full in RR.
        rewrite Z.div_add_l by lia. rewrite (Z.div_small (V (k + i))); [lia|]. rewrite RR. apply Z.mod_pos_bound. lia.
      + intros j Hj. pose proof (Z.div_mod (sums (summed (s r)) j) (quarter t)). lia.
      + intros j Hj. rewrite <- S1, Z1, Z2 by lia. reflexivity.
      + intros j Hj. rewrite <- S1, Z1, Z2 by lia. reflexivity.
      + intros j Hj. pose proof (Z.mod_pos_bound (sums (summed (s r)) j) (quarter t)). lia.
    - destruct LG as (G1 & G2 & G3). destruct (O r) as (O1 & O2 & O3).
      destruct (rep_deposit (LY r) Hf2 m _ _ _ X O2) as [A B]; auto.
      { rewrite <- ENDURANCE_eq. lia. }
      eapply ok_put; eauto; cbn; try lia; try discriminate.
    - destruct (O r) as (O1 & O2 & O3). rewrite ENDURANCE_eq in O1.
      destruct (rep_renorm (LY r) Hf2 m _ _ _ O2 O1) as [A B]; [apply fits_cap; auto|].
      eapply ok_put; eauto; cbn; try lia.
      unfold rep. destruct (all_finite (summed (s r))) eqn:AF.
      + pose proof (holds_rep _ _ _ _ _ _ (fits_cap _ LG AF) A) as HH. unfold rep in HH. rewrite AF in HH. exact HH.
      + unfold holds in A. rewrite AF in A. exact A.
    - destruct LG as (G1 & G2). destruct (O r) as (O1 & O2 & O3).
      destruct (rep_add (LY r) Hf2 HmF m _ _ _ X O2) as [A B].
      { rewrite <- ENDURANCE_eq. lia. }
      { apply fits_cap; auto. }
      eapply ok_put; eauto; cbn; try lia.
      unfold rep. destruct (all_finite (X :: summed (s r))) eqn:AF.
      + pose proof (holds_rep _ _ _ _ _ _ (fits_cap _ G2 AF) A) as HH. unfold rep in HH. rewrite AF in HH. exact HH.
      + unfold holds in A. rewrite AF in A. exact A.
    - destruct (rep_setzero (LY r) Hf2 m) as [A B].
      destruct (rep_add (LY r) Hf2 HmF _ _ _ _ X A) as [A2 B2].
      { rewrite <- ENDURANCE_eq. lia. }
      { intros _. apply one_cap. }
      eapply (ok_put m); eauto; cbn; try lia.
      + eapply frame_trans; eauto.
      + apply holds_rep; auto. apply one_cap.
    - destruct LG as (G1 & G2 & G3 & G4). destruct (O r) as (O1 & O2 & O3). destruct (O r') as (O1' & O2' & O3').
      rewrite G2 in O2. rewrite G3 in O2'.
      destruct (rep_merge (LY r') Hf2 HmF m _ _ _ _ (proj2 HR r r' G1) O2 O2') as (A & B & C); [apply fits_cap; auto|].
      eapply ok_put; eauto; cbn; try lia.
      intros HN. apply andb_true_iff in HN. destruct HN. apply C; auto.
    - destruct (O r) as (O1 & O2 & O3).
      destruct (rep_set (LY r') Hf2 m (room (s r)) (summed (s r)) (raw (s r)) (proj2 HR r r' LG)) as (A & B & C).
      eapply ok_put; eauto.
    - destruct (O r) as (O1 & O2 & O3). rewrite LG in O2.
      destruct (rep_negate (LY r) Hf2 HmF m _ _ O2) as [A B].
      eapply ok_put; eauto; cbn; try lia; try discriminate.
  Qed.

  Lemma run_ok ops : forall m s, ok m s -> legal_all ops s -> ok (run fold R ops m) (tracked ops s).
  Proof.
    induction ops as [|o ops IH]; intros m s O LG; auto.
    destruct LG as [L1 L2]. cbn [run tracked]. apply IH; auto. apply exec_ok; auto.
  Qed.
End HIST.
