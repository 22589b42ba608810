(** * C79: the documented way to accumulate by hand: update, deposits, renormalisation *)
From Coq Require Import ZArith Bool List Lia Permutation.
From Flocq Require Import Core BinarySingleNaN.
From Verif Require Import Fp Mem Binned Spec FpProofs BitProofs CoreArith SpecProofs WordProofs MemProofs AccProofs SumProofs ConvProofs Client History ClientProofs StrideProofs PropsSum PropsAcc PropsMem ComplexProofs PropsComplex Gen GenProofs Blas LaneProofs ReduceProofs DriverProofs BlasZ ZEvents ZKernel ZDriver ZLoop Ssq SsqProofs BlasDZ DZLoop BlasZSpec.
Import ListNotations.
Open Scope Z_scope.

(** A block is a bound and the values deposited under it.  For each block the loop calls
    binned_dbdupdate with the bound, binned_dbddeposit on every value, and binned_dbrenorm
    (dbddeposit.c:8-9, the note of its documentation). *)
Definition by_hand {t} (fold : Z) (blocks : list (F t * list (F t))) (Y : Z) (m : mem t) : mem t :=
  fold_left (fun m b => dbrenorm fold Y (deposit_list fold (snd b) Y (dbdupdate fold (fst b) Y m))) blocks m.
(** The same with binned_zbzupdate, binned_zbzdeposit, binned_zbrenorm (zbzdeposit.c:8-9); the bound
    has a real and an imaginary part. *)
Definition zby_hand {t} (fold : Z) (blocks : list ((F t * F t) * list (F t * F t))) (Y : Z) (m : mem t) : mem t :=
  fold_left (fun m b => zbrenorm fold Y
    (fold_left (fun m z => zbzdeposit fold (fst z) (snd z) Y m) (snd b) (zbzupdate fold (fst (fst b)) (snd (fst b)) Y m))) blocks m.
(** The same with the real bound of binned_zbdupdate for both parts. *)
Definition zdby_hand {t} (fold : Z) (blocks : list (F t * list (F t * F t))) (Y : Z) (m : mem t) : mem t :=
  fold_left (fun m b => zbrenorm fold Y
    (fold_left (fun m z => zbzdeposit fold (fst z) (snd z) Y m) (snd b) (zbdupdate fold (fst b) Y m))) blocks m.

(** All the values of some blocks. *)
Definition data {A B} (blocks : list (A * list B)) : list B := flat_map snd blocks.
(** |x| <= |y|, both finite. *)
Definition within {t} (x y : F t) : Prop := is_finite x = true /\ is_finite y = true /\ Z.abs (toZ x) <= Z.abs (toZ y).
(** The values of each block are finite, at most ENDURANCE many, and within the bound. *)
Definition bounded_blocks {t} (blocks : list (F t * list (F t))) : Prop :=
  forall X xs, In (X, xs) blocks -> Z.of_nat (length xs) <= ENDURANCE t /\ is_finite X = true /\ forall x, In x xs -> within x X.
(** Every element of l is within some element of l'. *)
Definition none_larger {t} (l l' : list (F t)) : Prop := forall x, In x l -> exists y, In y l' /\ within x y.

(** ** Same words from the same data and the same largest bound *)
Lemma within_index {t} (x y : F t) : within x y -> findex y <= findex x.
Proof. intros (Fx & Fy & H). rewrite !findex_fin by auto. now apply bin_mono. Qed.
Lemma none_larger_lead {t} (l l' : list (F t)) : none_larger l l' -> lead l' <= lead l.
Proof.
  induction l as [|x l IH]; intros H; [apply lead_range|]. rewrite lead_cons. apply Z.min_glb.
  - destruct (H x (or_introl eq_refl)) as (y & Iy & W). apply within_index in W. pose proof (lead_le l' y Iy). lia.
  - apply IH. intros y Hy. apply H. now right.
Qed.
Lemma holds_relead {t} fold (us us' xs : list (F t)) P W : us ++ xs <> [] -> us' ++ xs <> [] ->
  lead (us ++ xs) = lead (us' ++ xs) -> holds t fold us xs P W -> holds t fold us' xs P W.
Proof.
  unfold holds. intros N1 N2 E. destruct (all_finite xs); auto. rewrite E. destruct (us ++ xs), (us' ++ xs); try contradiction. auto.
Qed.
Lemma in_nonempty {A} (x : A) (l : list A) : In x l -> l <> []. Proof. intros H ->. exact H. Qed.

Section LOOP.
  Context {t : ty}.
  Variables (fold p ip c ic : Z).
  Hypothesis Hf : 2 <= fold <= jmax t + 1.
  Hypothesis L : layout fold p ip c ic.
  Notation holdsm m us xs := (holds t fold us xs (P_of m p ip) (P_of m c ic)).
  Notation repm m us xs d := (rep t fold us xs d (P_of m p ip) (P_of m c ic)).
  Notation framem := (@frame t fold p ip c ic).
  Definition dmloop (blocks : list (F t * list (F t))) (m : mem t) : mem t :=
    fold_left (fun m b => dmrenorm fold p ip c ic (fold_left (fun m x => dmddeposit fold x p ip m) (snd b)
      (dmdupdate fold (fst b) p ip c ic m))) blocks m.
  Lemma deposits_rep us ys : forall (m : mem t) xs d, repm m us xs d -> us ++ xs <> [] -> 0 <= d ->
    d + Z.of_nat (length ys) <= endurance t -> (forall y, In y ys -> lead us <= findex y) ->
    let m' := fold_left (fun m x => dmddeposit fold x p ip m) ys m in
    repm m' us (rev ys ++ xs) (d + Z.of_nat (length ys)) /\ framem m m'.
  Proof.
    induction ys as [|y ys IH]; intros m xs d H NE Hd HL HB.
    - cbn [fold_left rev app length]. rewrite Z.add_0_r. split; auto. intros a _. reflexivity.
    - cbn [length] in HL. destruct (rep_deposit L (proj1 Hf) m us xs d y H) as [H1 F1]; auto; try lia.
      { specialize (HB y (or_introl eq_refl)). rewrite lead_app. lia. }
      destruct (IH (dmddeposit fold y p ip m) (y :: xs) (d + 1)) as [H2 F2]; auto; try lia.
      { intros E. apply app_eq_nil in E. destruct E; discriminate. }
      { intros z Hz. apply HB. now right. }
      cbn [fold_left]. split.
      + cbn [rev length]. rewrite <- app_assoc. cbn [app].
        replace (d + Z.of_nat (S (length ys))) with (d + 1 + Z.of_nat (length ys)) by lia. exact H2.
      + intros a Ha. etransitivity; [apply F2; auto|apply F1; auto].
  Qed.
  Lemma dmloop_holds blocks : bounded_blocks blocks -> forall (m : mem t) us xs, holdsm m us xs ->
    Z.of_nat (length (data blocks ++ xs)) <= capacity t ->
    let m' := dmloop blocks m in
    exists us', holdsm m' us' (data blocks ++ xs) /\ Permutation us' (map fst blocks ++ us) /\ framem m m'.
  Proof.
    induction blocks as [|[X ys] blocks IH]; intros HB m us xs H HC.
    - exists us. cbn. split; auto. split; auto. intros a _. reflexivity.
    - destruct (HB X ys (or_introl eq_refl)) as (LE & FX & WX). rewrite ENDURANCE_eq in LE.
      cbn [data flat_map snd] in HC. rewrite !app_length in HC.
      assert (C0 : Z.of_nat (length xs) <= capacity t) by lia. pose proof (endurance_pos t) as EP.
      destruct (rep_update L (proj1 Hf) (proj2 Hf) m us xs 0 X) as [R1 F1]; [now apply holds_rep|lia|].
      set (m1 := dmdupdate fold X p ip c ic m) in *.
      destruct (deposits_rep (X :: us) ys m1 xs 0 R1) as [R2 F2]; try lia.
      { discriminate. }
      { intros y Hy. apply WX in Hy. apply within_index in Hy. rewrite lead_cons. lia. }
      set (m2 := fold_left _ ys m1) in *.
      destruct (rep_renorm L (proj1 Hf) m2 (X :: us) (rev ys ++ xs) _ R2) as [R3 F3]; try lia.
      { intros _. rewrite app_length, rev_length. lia. }
      set (m3 := dmrenorm fold p ip c ic m2) in *.
      destruct (IH (fun X' xs' I => HB X' xs' (or_intror I)) m3 (X :: us) (rev ys ++ xs) R3) as (us' & H4 & P4 & F4).
      { unfold data in *. rewrite !app_length, rev_length. lia. }
      exists us'. cbn [dmloop fold_left fst snd] in *. split; [|split].
      + eapply holds_perm; [reflexivity| |exact H4]. unfold data. cbn [flat_map snd]. rewrite <- app_assoc.
        transitivity (flat_map snd blocks ++ ys ++ xs).
        * apply Permutation_app_head, Permutation_app_tail. symmetry. apply Permutation_rev.
        * apply Permutation_app_swap_app.
      + cbn [map fst app]. rewrite P4. symmetry. apply Permutation_middle.
      + intros a Ha. unfold framem in *. fold m1. fold m2. fold m3. rewrite F4, F3, F2, F1; auto.
  Qed.
End LOOP.

Section ZLOOPS.
  Context {t : ty}.
  Variables (fold Y : Z).
  Hypothesis Hf : 2 <= fold <= jmax t + 1.
  Notation C := (Y + 2 * fold).
  Notation rep0 m us xs d := (rep t fold us xs d (P_of m Y (2 * 1)) (P_of m C (2 * 1))).
  Notation rep1 m us xs d := (rep t fold us xs d (P_of m (Y + 1) (2 * 1)) (P_of m (C + 1) (2 * 1))).
  Notation holds0 m us xs := (holds t fold us xs (P_of m Y (2 * 1)) (P_of m C (2 * 1))).
  Notation holds1 m us xs := (holds t fold us xs (P_of m (Y + 1) (2 * 1)) (P_of m (C + 1) (2 * 1))).
  Notation zf := (@zframe t fold Y 1 C 1).
  Let H2 : 2 <= fold := proj1 Hf.
  Lemma L0 : layout fold Y (2 * 1) C (2 * 1). Proof. apply layout_complex_re; lia. Qed.
  Lemma L1 : layout fold (Y + 1) (2 * 1) (C + 1) (2 * 1). Proof. apply layout_complex_im; lia. Qed.
  Lemma D01 : disjoint (in_acc fold Y (2 * 1) C (2 * 1)) (in_acc fold (Y + 1) (2 * 1) (C + 1) (2 * 1)).
  Proof. intros a (i & Hi & [E|E]) (j & Hj & [E'|E']); lia. Qed.
  Lemma zf_outside m m' : zf m m' -> unchanged_outside Y (zbnum fold) m m'.
  Proof.
    intros H a Ha. unfold zbnum in Ha. apply H; intros (i & Hi & [E|E]); apply Ha; lia.
  Qed.
  Lemma zupd_ok m us0 xs0 us1 xs1 XR XI d : rep0 m us0 xs0 d -> rep1 m us1 xs1 d -> 0 <= d <= endurance t ->
    let m' := zbzupdate fold XR XI Y m in rep0 m' (XR :: us0) xs0 d /\ rep1 m' (XI :: us1) xs1 d /\ zf m m'.
  Proof.
    intros R0 R1 Hd m'. destruct (rep_update L0 H2 (proj2 Hf) m us0 xs0 d XR R0 Hd) as [A0 B0].
    unfold m', zbzupdate, zmzupdate. set (m1 := dmdupdate fold XR Y _ _ _ m) in *. clearbody m1.
    apply (both D01 (fun m => rep1 m us1 xs1 d) (fun m => rep0 m (XR :: us0) xs0 d) (fun m => rep1 m (XI :: us1) xs1 d) m m1); auto.
    - apply (local_rep H2).
    - apply (local_rep H2).
    - intros R1'. apply (rep_update L1 H2 (proj2 Hf) m1 us1 xs1 d XI R1' Hd).
  Qed.
  Lemma zdep_ok m us0 xs0 us1 xs1 XR XI d : rep0 m us0 xs0 d -> rep1 m us1 xs1 d -> 0 <= d < endurance t ->
    us0 ++ xs0 <> [] -> us1 ++ xs1 <> [] -> lead (us0 ++ xs0) <= findex XR -> lead (us1 ++ xs1) <= findex XI ->
    let m' := zbzdeposit fold XR XI Y m in
    rep0 m' us0 (XR :: xs0) (d + 1) /\ rep1 m' us1 (XI :: xs1) (d + 1) /\ zf m m'.
  Proof.
    intros R0 R1 Hd N0 N1 I0 I1 m'. destruct (rep_deposit L0 H2 m us0 xs0 d XR R0 Hd N0 I0) as [A0 B0].
    unfold m', zbzdeposit.
    pose proof (zmzdeposit_parts fold H2 XR XI (zreg fold Y) m L0 L1 D01) as E. cbn [zreg rp rip] in E. rewrite E. clear E.
    set (m1 := dmddeposit fold XR Y _ m) in *. clearbody m1.
    apply (both D01 (fun m => rep1 m us1 xs1 d) (fun m => rep0 m us0 (XR :: xs0) (d + 1)) (fun m => rep1 m us1 (XI :: xs1) (d + 1)) m m1); auto.
    - apply (local_rep H2).
    - apply (local_rep H2).
    - intros R1'. apply (rep_deposit L1 H2 m1 us1 xs1 d XI R1' Hd N1 I1).
  Qed.
  Lemma zdeps_ok us0 us1 zs : forall m xs0 xs1 d, rep0 m us0 xs0 d -> rep1 m us1 xs1 d -> 0 <= d ->
    d + Z.of_nat (length zs) <= endurance t -> us0 <> [] -> us1 <> [] ->
    (forall z, In z zs -> lead us0 <= findex (fst z) /\ lead us1 <= findex (snd z)) ->
    let m' := fold_left (fun m z => zbzdeposit fold (fst z) (snd z) Y m) zs m in
    rep0 m' us0 (rev (map fst zs) ++ xs0) (d + Z.of_nat (length zs)) /\
    rep1 m' us1 (rev (map snd zs) ++ xs1) (d + Z.of_nat (length zs)) /\ zf m m'.
  Proof.
    induction zs as [|z zs IH]; intros m xs0 xs1 d R0 R1 Hd HL N0 N1 HB.
    - cbn [fold_left map rev app length]. rewrite Z.add_0_r. split; auto. split; auto. apply zframe_refl.
    - cbn [length] in HL. destruct (HB z (or_introl eq_refl)) as [B0 B1].
      destruct (zdep_ok m us0 xs0 us1 xs1 (fst z) (snd z) d R0 R1) as (A0 & A1 & A2); try lia.
      { intros E. apply app_eq_nil in E. tauto. }
      { intros E. apply app_eq_nil in E. tauto. }
      { rewrite lead_app. lia. }
      { rewrite lead_app. lia. }
      destruct (IH (zbzdeposit fold (fst z) (snd z) Y m) (fst z :: xs0) (snd z :: xs1) (d + 1)) as (E0 & E1 & E2); auto; try lia.
      { intros y Hy. apply HB. now right. }
      cbn [fold_left map rev length]. rewrite <- !app_assoc. cbn [app].
      replace (d + Z.of_nat (S (length zs))) with (d + 1 + Z.of_nat (length zs)) by lia. split; [exact E0|]. split; [exact E1|].
      eapply zframe_trans; eassumption.
  Qed.
  Lemma zren_ok m us0 xs0 us1 xs1 d : rep0 m us0 xs0 d -> rep1 m us1 xs1 d -> 0 <= d <= endurance t ->
    Z.of_nat (length xs0) <= capacity t -> Z.of_nat (length xs1) <= capacity t ->
    let m' := zbrenorm fold Y m in holds0 m' us0 xs0 /\ holds1 m' us1 xs1 /\ zf m m'.
  Proof.
    intros R0 R1 Hd C0 C1 m'. destruct (rep_renorm L0 H2 m us0 xs0 d R0 Hd (fun _ => C0)) as [A0 B0].
    unfold m', zbrenorm, zmrenorm. set (m1 := dmrenorm fold Y _ _ _ m) in *. clearbody m1.
    apply (both D01 (fun m => rep1 m us1 xs1 d) (fun m => holds0 m us0 xs0) (fun m => holds1 m us1 xs1) m m1); auto.
    - apply (local_holds H2).
    - apply (local_rep H2).
    - intros R1'. apply (rep_renorm L1 H2 m1 us1 xs1 d R1' Hd (fun _ => C1)).
  Qed.
  (** The bound and the values of the real (imaginary) parts of a block. *)
  Definition re_block (b : (F t * F t) * list (F t * F t)) : F t * list (F t) := (fst (fst b), map fst (snd b)).
  Definition im_block (b : (F t * F t) * list (F t * F t)) : F t * list (F t) := (snd (fst b), map snd (snd b)).
  Lemma zloop_holds blocks : bounded_blocks (map re_block blocks) -> bounded_blocks (map im_block blocks) ->
    forall m us0 xs0 us1 xs1, holds0 m us0 xs0 -> holds1 m us1 xs1 ->
    Z.of_nat (length (data blocks)) + Z.of_nat (length xs0) <= capacity t -> length xs0 = length xs1 ->
    let m' := zby_hand fold blocks Y m in
    exists us0' us1', holds0 m' us0' (map fst (data blocks) ++ xs0) /\ holds1 m' us1' (map snd (data blocks) ++ xs1) /\
      Permutation us0' (map fst (map fst blocks) ++ us0) /\ Permutation us1' (map snd (map fst blocks) ++ us1) /\ zf m m'.
  Proof.
    induction blocks as [|[[XR XI] zs] blocks IH]; intros B0 B1 m us0 xs0 us1 xs1 R0 R1 HC HL.
    - exists us0, us1. cbn. split; auto. split; auto. split; auto. split; auto. apply zframe_refl.
    - destruct (B0 XR (map fst zs) (or_introl eq_refl)) as (LE & FR & WR).
      destruct (B1 XI (map snd zs) (or_introl eq_refl)) as (_ & FI & WI).
      rewrite ENDURANCE_eq, map_length in LE. cbn [data flat_map snd] in HC. rewrite !app_length in HC. fold (data blocks) in HC.
      pose proof (endurance_pos t) as EP.
      destruct (zupd_ok m us0 xs0 us1 xs1 XR XI 0) as (U0 & U1 & U2); [apply holds_rep; auto; lia|apply holds_rep; auto; lia|lia|].
      destruct (zdeps_ok (XR :: us0) (XI :: us1) zs (zbzupdate fold XR XI Y m) xs0 xs1 0) as (E0 & E1 & E2); auto; try lia; try discriminate.
      { intros z Hz. rewrite !lead_cons. pose proof (within_index _ _ (WR _ (in_map fst _ _ Hz))). pose proof (within_index _ _ (WI _ (in_map snd _ _ Hz))). lia. }
      destruct (zren_ok _ _ _ _ _ _ E0 E1) as (G0 & G1 & G2); [lia| | |].
      { rewrite app_length, rev_length, map_length. lia. }
      { rewrite app_length, rev_length, map_length. lia. }
      destruct (IH (fun X' xs' I => B0 X' xs' (or_intror I)) (fun X' xs' I => B1 X' xs' (or_intror I)) _ _ _ _ _ G0 G1) as (v0 & v1 & J0 & J1 & P0 & P1 & J2).
      { rewrite app_length, rev_length, map_length. lia. }
      { rewrite !app_length, !rev_length, !map_length. lia. }
      exists v0, v1. cbn [zby_hand fold_left fst snd] in *.
      assert (SW : forall (f : F t * F t -> F t) xs, Permutation (map f (data blocks) ++ rev (map f zs) ++ xs) (map f (data (((XR, XI), zs) :: blocks)) ++ xs)).
      { intros f xs. unfold data. cbn [flat_map snd]. rewrite map_app, <- app_assoc.
        transitivity (map f (flat_map snd blocks) ++ map f zs ++ xs); [|apply Permutation_app_swap_app].
        apply Permutation_app_head, Permutation_app_tail. symmetry. apply Permutation_rev. }
      split; [|split; [|split; [|split]]].
      + eapply holds_perm; [reflexivity|apply SW|exact J0].
      + eapply holds_perm; [reflexivity|apply SW|exact J1].
      + cbn [map fst app]. rewrite P0. symmetry. apply Permutation_middle.
      + cbn [map fst snd app]. rewrite P1. symmetry. apply Permutation_middle.
      + eapply zframe_trans; [exact U2|]. eapply zframe_trans; [exact E2|]. eapply zframe_trans; [exact G2|exact J2].
  Qed.
End ZLOOPS.

Lemma holds_same {t} fold (us xs us' xs' : list (F t)) P W P' W' : 0 < fold -> all_finite xs = true -> Permutation xs xs' ->
  none_larger (us ++ xs) (us' ++ xs') -> none_larger (us' ++ xs') (us ++ xs) ->
  holds t fold us xs P W -> holds t fold us' xs' P' W' -> forall i, 0 <= i < fold -> P i = P' i /\ W i = W' i.
Proof.
  intros Hf AF HP N N' H H' i Hi. assert (H1 : holds t fold us' xs P' W') by (eapply holds_perm; [reflexivity|symmetry; exact HP|exact H']). clear H'. rename H1 into H'.
  assert (EL : lead (us ++ xs) = lead (us' ++ xs)).
  { apply none_larger_lead in N. apply none_larger_lead in N'. rewrite !lead_app in *. rewrite (lead_perm _ _ HP) in *. lia. }
  destruct (us ++ xs) as [|x l] eqn:E.
  - assert (E' : us' ++ xs' = []) by (destruct (us' ++ xs') as [|y l]; auto; destruct (N' y (or_introl eq_refl)) as (z & [] & _)).
    apply app_eq_nil in E, E'. destruct E as [-> ->], E' as [-> ->].
    exact (proj2 (holds_unique t fold [] [] P W P' W' ltac:(lia) H H') eq_refl i Hi).
  - assert (NE : us' ++ xs <> []).
    { destruct (N x (or_introl eq_refl)) as (y & I & _). intros E'. apply app_eq_nil in E'. destruct E' as [-> ->].
      cbn [app] in I. apply Permutation_nil in HP. rewrite HP in I. exact I. }
    apply (holds_relead fold us us' xs) in H; [|rewrite E; discriminate|exact NE|rewrite E; exact EL].
    exact (proj2 (holds_unique t fold us' xs P W P' W' ltac:(lia) H H') AF i Hi).
Qed.
Lemma blocks_finite {t} (blocks : list (F t * list (F t))) : bounded_blocks blocks -> all_finite (data blocks) = true.
Proof.
  intros H. apply forallb_forall. intros x I. apply in_flat_map in I. destruct I as ([X xs] & I & J). destruct (H X xs I) as (_ & _ & W).
  exact (proj1 (W x J)).
Qed.
Lemma blocks_within {t} (blocks : list (F t * list (F t))) : bounded_blocks blocks -> none_larger (data blocks) (map fst blocks).
Proof.
  intros H x I. apply in_flat_map in I. destruct I as ([X xs] & I & J). destruct (H X xs I) as (_ & _ & W).
  exists X. split; [exact (in_map fst _ _ I)|exact (W x J)].
Qed.
Lemma within_trans {t} (x y z : F t) : within x y -> within y z -> within x z.
Proof. intros (A & B & C) (D & E & G). split; auto. split; auto. lia. Qed.
Lemma none_larger_app {t} (l l' k : list (F t)) : none_larger l k -> none_larger l' k -> none_larger (l ++ l') k.
Proof. intros A B x I. apply in_app_iff in I. destruct I; auto. Qed.
Lemma none_larger_appl {t} (l k k' : list (F t)) : none_larger l k -> none_larger l (k ++ k').
Proof. intros A x I. destruct (A x I) as (y & J & W). exists y. rewrite in_app_iff. auto. Qed.
Lemma none_larger_appr {t} (l k k' : list (F t)) : none_larger l k' -> none_larger l (k ++ k').
Proof. intros A x I. destruct (A x I) as (y & J & W). exists y. rewrite in_app_iff. auto. Qed.
Lemma none_larger_trans {t} (l k h : list (F t)) : none_larger l k -> none_larger k h -> none_larger l h.
Proof. intros A B x I. destruct (A x I) as (y & J & W). destruct (B y J) as (z & K & V). exists z. split; auto. exact (within_trans x y z W V). Qed.
Lemma none_larger_perm {t} (l k k' : list (F t)) : Permutation k k' -> none_larger l k -> none_larger l k'.
Proof. intros P A x I. destruct (A x I) as (y & J & W). exists y. split; auto. exact (Permutation_in _ P J). Qed.
Lemma finite_self {t} (l : list (F t)) : all_finite l = true -> none_larger l l.
Proof. intros A x I. exists x. split; auto. unfold all_finite in A. rewrite forallb_forall in A. split; auto. split; auto. lia. Qed.

(** ** C79 *)
(** What the loop leaves, from any accumulator. *)
Theorem C79_accumulates t fold (blocks : list (F t * list (F t))) us xs Y (m : mem t) :
  2 <= fold <= MAXFOLD t -> bounded_blocks blocks -> acc_at fold us xs m Y ->
  Z.of_nat (length (data blocks ++ xs)) <= CAPACITY t ->
  let m' := by_hand fold blocks Y m in
  acc_at fold (map fst blocks ++ us) (data blocks ++ xs) m' Y /\ unchanged_outside Y (dbnum fold) m m'.
Proof.
  intros Hf HB H HC m'. rewrite CAPACITY_eq in HC. rewrite MAXFOLD_eq in Hf.
  destruct (dmloop_holds fold Y 1 (Y + fold) 1 Hf (layout_contig fold Y ltac:(lia)) blocks HB m us xs H HC) as (us' & H1 & P1 & F1).
  split.
  - unfold acc_at. eapply holds_perm; [exact P1|reflexivity|exact H1].
  - intros a Ha. refine (frame_contig fold Y m m' _ F1 a Ha). lia.
Qed.
Print Assumptions C79_accumulates.
(** Into a fresh accumulator, no bound larger than the data: the words of one add per value. *)
Theorem C79_real t fold (blocks : list (F t * list (F t))) ys Y Y' (m m' : mem t) :
  2 <= fold <= MAXFOLD t -> bounded_blocks blocks -> none_larger (map fst blocks) (data blocks) ->
  Permutation (data blocks) ys -> Z.of_nat (length ys) <= CAPACITY t ->
  same_words fold (by_hand fold blocks Y (dbsetzero fold Y m)) Y (sum_list fold Y' ys m') Y'.
Proof.
  intros Hf HB NL HP HC. pose proof (Permutation_length HP) as EL. rewrite CAPACITY_eq in HC.
  destruct (sum_list_holds fold Hf Y [] m) as [H0 _]; [cbn [length]; unfold capacity; destruct t; cbn; lia|].
  change (sum_list fold Y [] m) with (dbsetzero fold Y m) in H0.
  destruct (C79_accumulates t fold blocks [] [] Y (dbsetzero fold Y m) Hf HB H0) as [H1 _].
  { rewrite app_nil_r, CAPACITY_eq. lia. }
  destruct (sum_list_holds fold Hf Y' ys m' HC) as [H2 _]. rewrite !app_nil_r in H1.
  set (m1 := by_hand fold blocks Y _) in *. set (m2 := sum_list fold Y' ys m') in *. clearbody m1 m2.
  pose proof (blocks_finite blocks HB) as AF.
  assert (K : forall i, 0 <= i < fold -> m1 (Y + i * 1) = m2 (Y' + i * 1) /\ m1 (Y + fold + i * 1) = m2 (Y' + fold + i * 1)).
  { refine (holds_same fold (map fst blocks) (data blocks) [] ys _ _ _ _ ltac:(lia) AF HP _ _ H1 H2).
    - cbn [app]. apply (none_larger_perm _ _ _ HP). apply none_larger_app; auto. now apply finite_self.
    - cbn [app]. apply none_larger_appr. apply (none_larger_perm _ ys); [symmetry; exact HP|]. apply finite_self.
      rewrite <- (all_finite_perm _ _ HP). exact AF. }
  intros i Hi. destruct (Z_lt_dec i fold).
  - destruct (K i ltac:(lia)) as [E _]. rewrite !Z.mul_1_r in E. exact E.
  - destruct (K (i - fold) ltac:(lia)) as [_ E]. rewrite !Z.mul_1_r in E.
    replace (Y + i) with (Y + fold + (i - fold)) by lia. rewrite E. f_equal. lia.
Qed.
Print Assumptions C79_real.
(** Bounds larger than the data: the words depend on the data and on the largest bound, not on the
    order, the blocks or the smaller bounds. *)
Theorem C79_bounds t fold (blocks blocks' : list (F t * list (F t))) Y Y' (m m' : mem t) :
  2 <= fold <= MAXFOLD t -> bounded_blocks blocks -> bounded_blocks blocks' ->
  Permutation (data blocks) (data blocks') -> Z.of_nat (length (data blocks)) <= CAPACITY t ->
  none_larger (map fst blocks) (map fst blocks') -> none_larger (map fst blocks') (map fst blocks) ->
  same_words fold (by_hand fold blocks Y (dbsetzero fold Y m)) Y (by_hand fold blocks' Y' (dbsetzero fold Y' m')) Y'.
Proof.
  intros Hf HB HB' HP HC N N'. pose proof (Permutation_length HP) as EL.
  assert (G : forall bs Y (m : mem t), bounded_blocks bs -> Z.of_nat (length (data bs)) <= CAPACITY t ->
    acc_at fold (map fst bs) (data bs) (by_hand fold bs Y (dbsetzero fold Y m)) Y).
  { clear - Hf. intros bs Y m HB HC.
    destruct (sum_list_holds fold Hf Y [] m) as [H0 _]; [cbn [length]; unfold capacity; destruct t; cbn; lia|].
    change (sum_list fold Y [] m) with (dbsetzero fold Y m) in H0.
    destruct (C79_accumulates t fold bs [] [] Y (dbsetzero fold Y m) Hf HB H0) as [H1 _].
    { rewrite app_nil_r. exact HC. }
    rewrite !app_nil_r in H1. exact H1. }
  pose proof (G blocks Y m HB HC) as H1. pose proof (G blocks' Y' m' HB' ltac:(lia)) as H2. clear G.
  set (m1 := by_hand fold blocks Y _) in *. set (m2 := by_hand fold blocks' Y' _) in *. clearbody m1 m2.
  pose proof (blocks_within _ HB) as W. pose proof (blocks_within _ HB') as W'.
  assert (K : forall i, 0 <= i < fold -> m1 (Y + i * 1) = m2 (Y' + i * 1) /\ m1 (Y + fold + i * 1) = m2 (Y' + fold + i * 1)).
  { refine (holds_same fold (map fst blocks) (data blocks) (map fst blocks') (data blocks') _ _ _ _ ltac:(lia) (blocks_finite _ HB) HP _ _ H1 H2);
      apply none_larger_appl, none_larger_app; auto; eapply none_larger_trans; eauto. }
  intros i Hi. destruct (Z_lt_dec i fold).
  - destruct (K i ltac:(lia)) as [E _]. rewrite !Z.mul_1_r in E. exact E.
  - destruct (K (i - fold) ltac:(lia)) as [_ E]. rewrite !Z.mul_1_r in E.
    replace (Y + i) with (Y + fold + (i - fold)) by lia. rewrite E. f_equal. lia.
Qed.
Print Assumptions C79_bounds.

(** Complex data: a bound for each part. *)
Definition zbounded_blocks {t} (blocks : list ((F t * F t) * list (F t * F t))) : Prop :=
  forall X zs, In (X, zs) blocks -> Z.of_nat (length zs) <= ENDURANCE t /\ is_finite (fst X) = true /\ is_finite (snd X) = true /\
    forall z, In z zs -> within (fst z) (fst X) /\ within (snd z) (snd X).
Lemma zbounded_re {t} (blocks : list ((F t * F t) * list (F t * F t))) : zbounded_blocks blocks ->
  bounded_blocks (map re_block blocks) /\ bounded_blocks (map im_block blocks).
Proof.
  intros H. split; intros X xs I; apply in_map_iff in I; destruct I as ([[XR XI] zs] & E & I); injection E as <- <-;
    destruct (H _ _ I) as (A & B & C & D); rewrite map_length; (split; [exact A|split; [assumption|]]);
    intros x J; apply in_map_iff in J; destruct J as (z & <- & J); now apply D.
Qed.
Lemma zwords {t} fold (m m' : mem t) Y Y' :
  (forall i, 0 <= i < fold -> m (Y + i * 2) = m' (Y' + i * 2) /\ m (Y + 2 * fold + i * 2) = m' (Y' + 2 * fold + i * 2)) ->
  (forall i, 0 <= i < fold -> m (Y + 1 + i * 2) = m' (Y' + 1 + i * 2) /\ m (Y + 2 * fold + 1 + i * 2) = m' (Y' + 2 * fold + 1 + i * 2)) ->
  zsame_words fold m Y m' Y'.
Proof.
  intros ER EI i Hi. destruct (Z.Even_or_Odd i) as [[q E]|[q E]].
  - destruct (Z_lt_dec q fold).
    + destruct (ER q ltac:(lia)) as [E1 _]. replace (Y + i) with (Y + q * 2) by lia. replace (Y' + i) with (Y' + q * 2) by lia. auto.
    + destruct (ER (q - fold) ltac:(lia)) as [_ E1]. replace (Y + i) with (Y + 2 * fold + (q - fold) * 2) by lia.
      replace (Y' + i) with (Y' + 2 * fold + (q - fold) * 2) by lia. auto.
  - destruct (Z_lt_dec q fold).
    + destruct (EI q ltac:(lia)) as [E1 _]. replace (Y + i) with (Y + 1 + q * 2) by lia. replace (Y' + i) with (Y' + 1 + q * 2) by lia. auto.
    + destruct (EI (q - fold) ltac:(lia)) as [_ E1]. replace (Y + i) with (Y + 2 * fold + 1 + (q - fold) * 2) by lia.
      replace (Y' + i) with (Y' + 2 * fold + 1 + (q - fold) * 2) by lia. auto.
Qed.
Theorem C79_zaccumulates t fold (blocks : list ((F t * F t) * list (F t * F t))) us vs zs Y (m : mem t) :
  2 <= fold <= MAXFOLD t -> zbounded_blocks blocks -> zacc_at fold us vs zs m Y ->
  Z.of_nat (length (data blocks ++ zs)) <= CAPACITY t ->
  let m' := zby_hand fold blocks Y m in
  zacc_at fold (map fst (map fst blocks) ++ us) (map snd (map fst blocks) ++ vs) (data blocks ++ zs) m' Y /\
  unchanged_outside Y (zbnum fold) m m'.
Proof.
  intros Hf HB [H0 H1] HC m'. rewrite CAPACITY_eq in HC. rewrite MAXFOLD_eq in Hf. destruct (zbounded_re _ HB) as [B0 B1].
  rewrite app_length in HC.
  destruct (zloop_holds fold Y Hf blocks B0 B1 m us (map fst zs) vs (map snd zs) H0 H1) as (u & v & R0 & R1 & P0 & P1 & FR).
  { rewrite map_length. lia. }
  { now rewrite !map_length. }
  split; [split|].
  - eapply holds_perm; [exact P0|rewrite map_app; reflexivity|exact R0].
  - eapply holds_perm; [exact P1|rewrite map_app; reflexivity|exact R1].
  - apply (zf_outside fold Y Hf). exact FR.
Qed.
Print Assumptions C79_zaccumulates.
Lemma zfresh {t} fold Y (m : mem t) : 2 <= fold <= MAXFOLD t -> zacc_at fold [] [] [] (zbsetzero fold Y m) Y.
Proof. intros Hf. exact (proj1 (zsetzero_holds fold Hf Y m)). Qed.
Lemma zblocks_finite {t} (blocks : list ((F t * F t) * list (F t * F t))) : zbounded_blocks blocks -> zfinite (data blocks) = true.
Proof.
  intros H. apply andb_true_iff. split; apply forallb_forall; intros x I; apply in_map_iff in I; destruct I as (z & <- & I);
    apply in_flat_map in I; destruct I as ([X zs] & I & J); destruct (H X zs I) as (_ & _ & _ & W); apply (W z J).
Qed.
Theorem C79_complex t fold (blocks : list ((F t * F t) * list (F t * F t))) zs Y Y' (m m' : mem t) :
  2 <= fold <= MAXFOLD t -> zbounded_blocks blocks ->
  (* no bound is larger than the largest real (imaginary) part *)
  none_larger (map fst (map fst blocks)) (map fst (data blocks)) -> none_larger (map snd (map fst blocks)) (map snd (data blocks)) ->
  Permutation (data blocks) zs -> Z.of_nat (length zs) <= CAPACITY t ->
  zsame_words fold (zby_hand fold blocks Y (zbsetzero fold Y m)) Y (zsum_list fold Y' zs m') Y'.
Proof.
  intros Hf HB N0 N1 HP HC. pose proof (Permutation_length HP) as EL.
  destruct (C79_zaccumulates t fold blocks [] [] [] Y (zbsetzero fold Y m) Hf HB (zfresh fold Y m Hf)) as [[R0 R1] _].
  { rewrite app_nil_r. lia. }
  rewrite CAPACITY_eq in HC. destruct (zsum_list_holds fold Hf Y' zs m' HC) as [[S0 S1] _]. rewrite !app_nil_r in R0, R1.
  set (m1 := zby_hand fold blocks Y _) in *. set (m2 := zsum_list fold Y' zs m') in *. clearbody m1 m2.
  pose proof (zblocks_finite blocks HB) as AF. apply andb_true_iff in AF. destruct AF as [A0 A1].
  apply zwords.
  - refine (holds_same fold _ _ [] (map fst zs) _ _ _ _ ltac:(lia) A0 (Permutation_map fst HP) _ _ R0 S0).
    + cbn [app]. apply (none_larger_perm _ _ _ (Permutation_map fst HP)). apply none_larger_app; auto. now apply finite_self.
    + cbn [app]. apply none_larger_appr. apply (none_larger_perm _ (map fst zs)); [symmetry; exact (Permutation_map fst HP)|]. apply finite_self.
      rewrite <- (all_finite_perm _ _ (Permutation_map fst HP)). exact A0.
  - refine (holds_same fold _ _ [] (map snd zs) _ _ _ _ ltac:(lia) A1 (Permutation_map snd HP) _ _ R1 S1).
    + cbn [app]. apply (none_larger_perm _ _ _ (Permutation_map snd HP)). apply none_larger_app; auto. now apply finite_self.
    + cbn [app]. apply none_larger_appr. apply (none_larger_perm _ (map snd zs)); [symmetry; exact (Permutation_map snd HP)|]. apply finite_self.
      rewrite <- (all_finite_perm _ _ (Permutation_map snd HP)). exact A1.
Qed.
Print Assumptions C79_complex.
(** binned_zbdupdate: one real bound makes the same room in both parts. *)
Lemma zdby_hand_eq {t} fold (blocks : list (F t * list (F t * F t))) Y : forall m,
  zdby_hand fold blocks Y m = zby_hand fold (map (fun b => ((fst b, fst b), snd b)) blocks) Y m.
Proof. induction blocks as [|b blocks IH]; intros m; [reflexivity|]. cbn [zdby_hand zby_hand map fold_left fst snd] in *. apply IH. Qed.
Theorem C79_real_bound t fold (blocks : list (F t * list (F t * F t))) us vs zs Y (m : mem t) :
  2 <= fold <= MAXFOLD t ->
  (forall X zs, In (X, zs) blocks -> Z.of_nat (length zs) <= ENDURANCE t /\ is_finite X = true /\
    forall z, In z zs -> within (fst z) X /\ within (snd z) X) ->
  zacc_at fold us vs zs m Y -> Z.of_nat (length (data blocks ++ zs)) <= CAPACITY t ->
  let m' := zdby_hand fold blocks Y m in
  zacc_at fold (map fst blocks ++ us) (map fst blocks ++ vs) (data blocks ++ zs) m' Y /\ unchanged_outside Y (zbnum fold) m m'.
Proof.
  intros Hf HB HA HC m'. unfold m'. rewrite zdby_hand_eq.
  assert (ED : data (map (fun b : F t * list (F t * F t) => ((fst b, fst b), snd b)) blocks) = data blocks).
  { unfold data. clear. induction blocks as [|b l IH]; [reflexivity|]. cbn [map flat_map fst snd]. now rewrite IH. }
  pose proof (C79_zaccumulates t fold (map (fun b => ((fst b, fst b), snd b)) blocks) us vs zs Y m Hf) as H.
  cbv zeta in H. rewrite !map_map in H. cbn [fst snd] in H. rewrite ED in H. apply H; auto.
  intros X ws I. apply in_map_iff in I. destruct I as ([X' ws'] & E & I). injection E as <- <-. destruct (HB X' ws' I) as (A & B & D).
  cbn [fst snd]. auto.
Qed.
Print Assumptions C79_real_bound.
(** The words then depend only on the data and the largest bound. *)
Theorem C79_zbounds t fold (blocks blocks' : list ((F t * F t) * list (F t * F t))) Y Y' (m m' : mem t) :
  2 <= fold <= MAXFOLD t -> zbounded_blocks blocks -> zbounded_blocks blocks' ->
  Permutation (data blocks) (data blocks') -> Z.of_nat (length (data blocks)) <= CAPACITY t ->
  none_larger (map fst (map fst blocks)) (map fst (map fst blocks')) -> none_larger (map fst (map fst blocks')) (map fst (map fst blocks)) ->
  none_larger (map snd (map fst blocks)) (map snd (map fst blocks')) -> none_larger (map snd (map fst blocks')) (map snd (map fst blocks)) ->
  zsame_words fold (zby_hand fold blocks Y (zbsetzero fold Y m)) Y (zby_hand fold blocks' Y' (zbsetzero fold Y' m')) Y'.
Proof.
  intros Hf HB HB' HP HC N0 N0' N1 N1'. pose proof (Permutation_length HP) as EL.
  destruct (C79_zaccumulates t fold blocks [] [] [] Y (zbsetzero fold Y m) Hf HB (zfresh fold Y m Hf)) as [[R0 R1] _].
  { rewrite app_nil_r. lia. }
  destruct (C79_zaccumulates t fold blocks' [] [] [] Y' (zbsetzero fold Y' m') Hf HB' (zfresh fold Y' m' Hf)) as [[S0 S1] _].
  { rewrite app_nil_r. lia. }
  rewrite !app_nil_r in R0, R1, S0, S1.
  set (m1 := zby_hand fold blocks Y _) in *. set (m2 := zby_hand fold blocks' Y' _) in *. clearbody m1 m2.
  pose proof (zblocks_finite blocks HB) as AF. apply andb_true_iff in AF. destruct AF as [A0 A1].
  assert (W : forall bs : list ((F t * F t) * list (F t * F t)), zbounded_blocks bs ->
    none_larger (map fst (data bs)) (map fst (map fst bs)) /\ none_larger (map snd (data bs)) (map snd (map fst bs))).
  { clear. intros bs H. split; intros x I; apply in_map_iff in I; destruct I as (z & <- & I); apply in_flat_map in I;
      destruct I as ([X zs] & I & J); destruct (H X zs I) as (_ & _ & _ & W); apply (in_map fst) in I; cbn [fst] in I.
    - exists (fst X). split; [now apply in_map|apply (W z J)].
    - exists (snd X). split; [now apply in_map|apply (W z J)]. }
  destruct (W _ HB) as [W0 W1]. destruct (W _ HB') as [W0' W1']. clear W.
  apply zwords.
  - refine (holds_same fold _ _ _ _ _ _ _ _ ltac:(lia) A0 (Permutation_map fst HP) _ _ R0 S0);
      apply none_larger_appl, none_larger_app; auto; eapply none_larger_trans; eauto.
  - refine (holds_same fold _ _ _ _ _ _ _ _ ltac:(lia) A1 (Permutation_map snd HP) _ _ R1 S1);
      apply none_larger_appl, none_larger_app; auto; eapply none_larger_trans; eauto.
Qed.
Print Assumptions C79_zbounds.
(** A bound that a value exceeds is not harmless: with two bins of difference its leading bits are lost. *)
Definition small_bound : F Flt := mkf 1 0.
Definition too_large : F Flt := mkf 1 30.
Theorem C79_bound_needed :
  bits (ddbconv 2 0 (by_hand 2 [(small_bound, [too_large])] 0 (dbsetzero 2 0 (fun _ => fzero)))) <>
  bits (ddbconv 2 0 (sum_list 2 0 [too_large] (fun _ => fzero))).
Proof. vm_compute. discriminate. Qed.
(** Two blocks, the second with data in a larger bin, and two orders of magnitude of bounds. *)
Definition c79_blocks : list (F Dbl * list (F Dbl)) :=
  [(mkf 3 0, [mkf 1 0; mkf 3 0; mkf (-3) (-1)]); (mkf (-5) 60, [mkf 1 (-30); mkf 5 60])].
Example C79_case : bounded_blocks c79_blocks /\ none_larger (map fst c79_blocks) (data c79_blocks) /\
  Z.of_nat (length (data c79_blocks)) <= CAPACITY Dbl.
Proof.
  split; [|split; [|vm_compute; discriminate]].
  - intros X xs [I|[I|[]]]; injection I as <- <-; (split; [vm_compute; discriminate|split; [reflexivity|]]);
      intros x [<-|I]; try (destruct I as [<-|I]); try (destruct I as [<-|I]); try contradiction;
      split; try reflexivity; split; try reflexivity; vm_compute; discriminate.
  - intros x [<-|[<-|[]]].
    + exists (mkf 3 0). split; [exact (or_intror (or_introl eq_refl))|]. split; [reflexivity|split; [reflexivity|vm_compute; discriminate]].
    + exists (mkf 5 60). split; [exact (or_intror (or_intror (or_intror (or_intror (or_introl eq_refl)))))|]. split; [reflexivity|split; [reflexivity|vm_compute; discriminate]].
Qed.
Definition c79_zblocks : list ((F Dbl * F Dbl) * list (F Dbl * F Dbl)) :=
  [((mkf 3 0, mkf 1 70), [(mkf 1 0, mkf 1 70); (mkf 3 0, mkf 2 0)]); ((mkf (-5) 60, mkf 1 0), [(mkf 5 60, mkf 1 0)])].
Example C79_zcase : zbounded_blocks c79_zblocks /\
  none_larger (map fst (map fst c79_zblocks)) (map fst (data c79_zblocks)) /\
  none_larger (map snd (map fst c79_zblocks)) (map snd (data c79_zblocks)).
Proof.
  split; [|split].
  - intros X xs [I|[I|[]]]; injection I as <- <-; (split; [vm_compute; discriminate|split; [reflexivity|split; [reflexivity|]]]);
      intros x [<-|I]; try (destruct I as [<-|I]); try contradiction; split; split; try reflexivity; split; try reflexivity; vm_compute; discriminate.
  - intros x [<-|[<-|[]]].
    + exists (mkf 3 0). split; [exact (or_intror (or_introl eq_refl))|]. split; [reflexivity|split; [reflexivity|vm_compute; discriminate]].
    + exists (mkf 5 60). split; [exact (or_intror (or_intror (or_introl eq_refl)))|]. split; [reflexivity|split; [reflexivity|vm_compute; discriminate]].
  - intros x [<-|[<-|[]]].
    + exists (mkf 1 70). split; [exact (or_introl eq_refl)|]. split; [reflexivity|split; [reflexivity|vm_compute; discriminate]].
    + exists (mkf 1 0). split; [exact (or_intror (or_intror (or_introl eq_refl)))|]. split; [reflexivity|split; [reflexivity|vm_compute; discriminate]].
Qed.
