(** * The loop of dmzasum *)
From Coq Require Import ZArith Bool List Lia Permutation.
From Flocq Require Import Core BinarySingleNaN.
From Verif Require Import Fp Mem Binned Spec FpProofs BitProofs CoreArith SpecProofs WordProofs MemProofs AccProofs SumProofs Gen GenProofs Blas LaneProofs ReduceProofs DriverProofs BlasZ ZEvents ZKernel ZDriver ZLoop Ssq SsqProofs BlasDZ DZLoop.
Import ListNotations.
Open Scope Z_scope.

(** ** Frames and NaN propagation, whatever the words are *)
Section RAW.
  Context {t : ty} {fold p ip c ic : Z} (L : layout fold p ip c ic).
  Hypothesis Hf : 1 <= fold.
  Notation framem := (frame (t := t) fold p ip c ic).
  Lemma frame_two' (m m' : mem t) i v w : framem m m' -> 0 <= i < fold -> framem m (upd (upd m' (c + i * ic) v) (p + i * ip) w).
  Proof.
    intros H Hi a Ha. rewrite !upd_other; [now apply H| |]; intros ->; apply Ha; [now apply in_car|now apply in_pri].
  Qed.
  Lemma renorm_frame (m : mem t) : framem m (dmrenorm fold p ip c ic m).
  Proof.
    unfold dmrenorm. destruct (_ || _); [apply frame_refl|].
    apply (for_up_inv (fun _ m' => framem m m')); [lia|apply frame_refl|]. intros k s Hk H.
    cbv zeta. now apply frame_two'.
  Qed.
  Lemma renorm_nan (m : mem t) : m p = B754_nan -> dmrenorm fold p ip c ic m = m.
  Proof. intros E. unfold dmrenorm. rewrite E, ISNANINF_fin. now rewrite orb_true_r. Qed.
  Context {pX ipX cX icX : Z} (DJ : disjoint (in_acc fold pX ipX cX icX) (in_acc fold p ip c ic)).
  Lemma madd_frame (m : mem t) : framem m (dmdmadd fold pX ipX cX icX p ip c ic m).
  Proof.
    unfold dmdmadd. destruct (feq (m pX) fzero); [apply frame_refl|]. destruct (feq (m p) fzero).
    { apply (for_up_inv (fun _ m' => framem m m')); [lia|apply frame_refl|]. intros k s Hk H.
      apply (frame_two m s k _ (fun m => m (cX + k * icX))); auto. }
    destruct (_ || _); [intros a Ha; apply upd_other; intros ->; apply Ha; exists 0; split; [lia|left; ring]|]. cbv zeta.
    set (shift := dmindex (m p) - dmindex (m pX)). destruct (Z.ltb_spec 0 shift).
    - set (m1 := for_down _ _ _ _). set (m2 := for_up _ _ _ m1).
      assert (F1 : framem m m1).
      { unfold m1. destruct (Z_le_gt_dec (shift - 1) (fold - 1)) as [G|G].
        - apply (for_down_inv (fun _ m' => framem m m')); [lia|apply frame_refl|]. intros k s Hk HH.
          apply (frame_two m s k _ (fun m => fadd (m (cX + k * icX)) (m (c + (k - shift) * ic)))); auto. lia.
        - unfold for_down. replace (Z.to_nat (fold - 1 - shift + 1)) with 0%nat by lia. cbn. apply frame_refl. }
      assert (F2 : framem m m2).
      { unfold m2. apply (for_up_inv (fun _ m' => framem m m')); [lia|exact F1|]. intros k s Hk HH.
        apply (frame_two m s k _ (fun m => m (cX + k * icX))); auto. lia. }
      eapply frame_trans; [exact F2|apply renorm_frame].
    - set (m2 := for_up _ _ _ m).
      assert (F2 : framem m m2).
      { unfold m2. destruct (Z_le_gt_dec (0 - shift) fold) as [G|G].
        - apply (for_up_inv (fun _ m' => framem m m')); [lia|apply frame_refl|]. intros k s Hk HH.
          apply (frame_two m s k _ (fun m => fadd (m (c + k * ic)) (m (cX + (k + shift) * icX)))); auto. lia.
        - unfold for_up. replace (Z.to_nat (fold - (0 - shift))) with 0%nat by lia. cbn. apply frame_refl. }
      eapply frame_trans; [exact F2|apply renorm_frame].
  Qed.
  Lemma madd_nan (m : mem t) : m pX = B754_nan \/ m p = B754_nan -> dmdmadd fold pX ipX cX icX p ip c ic m p = B754_nan.
  Proof.
    intros H. unfold dmdmadd. destruct H as [E|E].
    - rewrite E. change (feq (B754_nan : F t) fzero) with false. cbv iota. destruct (feq (m p) fzero).
      + destruct (acc_set L Hf m DJ) as [S _]. destruct (S 0 ltac:(lia)) as [S0 _]. unfold P_of in S0. rewrite !Z.mul_0_l, !Z.add_0_r in S0.
        unfold dmdmset in S0. rewrite S0. exact E.
      + rewrite (ISNANINF_fin t B754_nan). cbn [is_finite negb]. cbn [orb]. rewrite upd_same, fadd_nan_r. reflexivity.
    - destruct (feq (m pX) fzero); [exact E|]. rewrite E. change (feq (B754_nan : F t) fzero) with false.
      rewrite (ISNANINF_fin t B754_nan). cbn [is_finite negb]. rewrite orb_true_r. rewrite upd_same. apply fadd_nan_l.
  Qed.
End RAW.

Lemma holds_nonfinite t fold us (xs : list (F t)) P W : all_finite xs = false -> (holds t fold us xs P W <-> P 0 = special xs).
Proof. intros E. unfold holds. rewrite E. reflexivity. Qed.
Lemma rep_nonfinite t fold us (xs : list (F t)) d P W : all_finite xs = false -> (rep t fold us xs d P W <-> P 0 = special xs).
Proof. intros E. unfold rep. rewrite E. reflexivity. Qed.
Lemma fadd_isnan {t} (a b : F t) : f_isnan a = true \/ f_isnan b = true -> fadd a b = B754_nan.
Proof. intros [H|H]; [destruct a|destruct b]; try discriminate; [apply fadd_nan_l|apply fadd_nan_r]. Qed.

Section ASUM.
  Context {t : ty}.
  Variables (fold A p ip c ic : Z).
  Notation CA := (A + 2 * fold).
  Notation in0 := (in_acc fold A (2 * 1) CA (2 * 1)).
  Notation in1 := (in_acc fold (A + 1) (2 * 1) (CA + 1) (2 * 1)).
  Notation inY := (in_acc fold p ip c ic).
  Hypothesis Hf : 2 <= fold.
  Hypothesis Hm : fold <= jmax t + 1.
  Hypothesis L : layout fold p ip c ic.
  Hypothesis D0 : disjoint in0 inY.
  Hypothesis D1 : disjoint in1 inY.
  Notation rep0 m us xs d := (rep t fold us xs d (P_of m A (2 * 1)) (P_of m CA (2 * 1))).
  Notation rep1 m us xs d := (rep t fold us xs d (P_of m (A + 1) (2 * 1)) (P_of m (CA + 1) (2 * 1))).
  Notation holds0 m us xs := (holds t fold us xs (P_of m A (2 * 1)) (P_of m CA (2 * 1))).
  Notation holds1 m us xs := (holds t fold us xs (P_of m (A + 1) (2 * 1)) (P_of m (CA + 1) (2 * 1))).
  Notation holdsY m us xs := (holds t fold us xs (P_of m p ip) (P_of m c ic)).
  Notation frameY := (@frame t fold p ip c ic).
  Notation zframeA := (@zframe t fold A 1 CA 1).
  Notation dzf := (@dzframe t fold A p ip c ic).
  Notation dzout := (dzoutside fold A p ip c ic).
  Let LA0 := LA0 fold A Hf.
  Let LA1 := LA1 fold A Hf.
  Let DA := DA fold A.

  (** A NaN was seen and one of the three heads shows it. *)
  Definition nan3 (m : mem t) : Prop := m p = B754_nan \/ m A = B754_nan \/ m (A + 1) = B754_nan.
  Definition some_reps (d : Z) (m : mem t) : Prop :=
    exists us0 ws0 us1 ws1, all_finite ws0 = true /\ all_finite ws1 = true /\
      Z.of_nat (length (ws0 ++ ws1)) <= capacity t /\ rep0 m us0 ws0 d /\ rep1 m us1 ws1 d.
  Lemma nan3_test (m : mem t) : (f_isnan (m p) || f_isnan (m A) || f_isnan (m (A + 1))) = true <-> nan3 m.
  Proof.
    unfold nan3. rewrite !orb_true_iff.
    assert (E : forall x : F t, f_isnan x = true <-> x = B754_nan) by (intros x; destruct x; split; intros; try discriminate; reflexivity).
    rewrite !E. tauto.
  Qed.
  Lemma nan3_frameY m m' : frameY m m' -> (m p = B754_nan -> m' p = B754_nan) -> nan3 m -> nan3 m'.
  Proof.
    intros F HP H. destruct (frameY_heads fold A p ip c ic Hf D0 D1 m m' F) as [E0 E1]. unfold nan3. rewrite E0, E1. unfold nan3 in H. tauto.
  Qed.
  Lemma nan3_zrenorm m : nan3 m -> nan3 (zbrenorm fold A m) /\ zframeA m (zbrenorm fold A m).
  Proof.
    intros H. unfold zbrenorm, zmrenorm.
    pose proof (renorm_frame (fold := fold) (p := A) (ip := 2 * 1) (c := CA) (ic := 2 * 1) ltac:(lia) m) as F0.
    assert (N0 : m A = B754_nan -> dmrenorm fold A (2 * 1) CA (2 * 1) m A = B754_nan) by (intros E; rewrite renorm_nan; auto).
    set (m1 := dmrenorm fold A (2 * 1) CA (2 * 1) m) in *.
    pose proof (renorm_frame (fold := fold) (p := A + 1) (ip := 2 * 1) (c := CA + 1) (ic := 2 * 1) ltac:(lia) m1) as F1.
    assert (N1 : m1 (A + 1) = B754_nan -> dmrenorm fold (A + 1) (2 * 1) (CA + 1) (2 * 1) m1 (A + 1) = B754_nan) by (intros E; rewrite renorm_nan; auto).
    set (m2 := dmrenorm fold (A + 1) (2 * 1) (CA + 1) (2 * 1) m1) in *. clearbody m1 m2.
    assert (FR : zframeA m m2) by (intros a I J; rewrite F1, F0; auto). split; [|exact FR].
    unfold nan3. rewrite (zframe_p fold A p ip c ic Hf D0 D1 m m2 FR). destruct H as [H|[H|H]]; auto.
    - right. left. rewrite (frame1_in0 DA m1 m2 A F1); [auto|apply in_p; exact Hf].
    - right. right. apply N1. rewrite (frame0_in1 DA m m1 (A + 1) F0); [auto|apply in_p; exact Hf].
  Qed.

  Definition seen (ys zs0 zs1 : list (F t)) := ys ++ map fabs (zs0 ++ zs1).
  Definition asum_in us ys zs0 zs1 d (m : mem t) : Prop :=
    if all_finite (seen ys zs0 zs1) then
      holdsY m us ys /\ rep0 m (map fabs zs1) (map fabs zs0) d /\ rep1 m (map fabs zs0) (map fabs zs1) d
    else if f_isnan (special (seen ys zs0 zs1)) then nan3 m
    else m p = special (seen ys zs0 zs1) /\ some_reps d m.

  Lemma seen_more ys zs0 zs1 xs0 xs1 :
    Permutation (map fabs (xs0 ++ xs1) ++ seen ys zs0 zs1) (seen ys (xs0 ++ zs0) (xs1 ++ zs1)).
  Proof.
    unfold seen. rewrite Permutation_app_swap_app. apply Permutation_app_head. rewrite <- map_app. apply Permutation_map.
    rewrite <- !app_assoc. apply Permutation_app_head. rewrite !app_assoc. apply Permutation_app_tail. apply Permutation_app_comm.
  Qed.

  (** The merge at the end. *)
  Lemma asum_end us ys zs0 zs1 d m : asum_in us ys zs0 zs1 d m -> 0 <= d <= endurance t ->
    (all_finite (seen ys zs0 zs1) = true -> Z.of_nat (length (seen ys zs0 zs1)) <= capacity t) ->
    let m1 := zbrenorm fold A m in
    let m2 := dmdmadd fold A 2 CA 2 p ip c ic m1 in
    let m3 := dmdmadd fold (A + 1) 2 (CA + 1) 2 p ip c ic m2 in
    holdsY m3 us (seen ys zs0 zs1) /\ dzf m m3.
  Proof.
    intros H Hd HC m1 m2 m3. unfold asum_in in H. pose proof (endurance_pos t) as EP.
    pose proof (madd_frame (fold := fold) (p := p) (ip := ip) (c := c) (ic := ic) ltac:(lia) (pX := A) (ipX := 2) (cX := CA) (icX := 2) m1) as F2. fold m2 in F2.
    pose proof (madd_frame (fold := fold) (p := p) (ip := ip) (c := c) (ic := ic) ltac:(lia) (pX := A + 1) (ipX := 2) (cX := CA + 1) (icX := 2) m2) as F3. fold m3 in F3.
    destruct (all_finite (seen ys zs0 zs1)) eqn:FS; [|destruct (f_isnan (special (seen ys zs0 zs1))) eqn:FN].
    - destruct H as (HY & R0 & R1). specialize (HC eq_refl). unfold seen in HC. rewrite !app_length, map_length, app_length in HC.
      destruct (zrenorm_ok fold A Hf m _ _ _ _ d R0 R1 Hd) as (A0 & A1 & FA); try (rewrite map_length; lia). fold m1 in A0, A1, FA.
      assert (HY1 : holdsY m1 us ys) by (eapply zframe_holdsY; eauto). clearbody m1.
      pose proof FS as FS'. unfold seen in FS'. rewrite map_app, !all_finite_app in FS'. apply andb_true_iff in FS'. destruct FS' as [FY FZ]. apply andb_true_iff in FZ. destruct FZ as [FZ0 FZ1].
      destruct (rep_merge L Hf Hm m1 _ _ us ys D0 (holds_rep _ _ (map fabs zs1) (map fabs zs0) _ _ ltac:(rewrite map_length; lia) A0) (holds_rep _ _ us ys _ _ ltac:(lia) HY1)) as (_ & _ & M2).
      { intros _. rewrite app_length, map_length. lia. }
      specialize (M2 A0 HY1). change (2 * 1) with 2 in M2. fold m2 in M2. clearbody m2.
      assert (A1' : holds1 m2 (map fabs zs0) (map fabs zs1)).
      { eapply (local_holds Hf (p := A + 1) (ip := 2 * 1) (c := CA + 1) (ic := 2 * 1)); [|exact A1]. intros a I. apply F2. intros J. exact (D1 _ I J). }
      destruct (rep_merge L Hf Hm m2 _ _ _ _ D1 (holds_rep _ _ (map fabs zs0) (map fabs zs1) _ _ ltac:(rewrite map_length; lia) A1') (holds_rep _ _ (map fabs zs1 ++ us) (map fabs zs0 ++ ys) _ _ ltac:(rewrite app_length, map_length; lia) M2)) as (_ & _ & M3).
      { intros _. rewrite !app_length, !map_length. lia. }
      specialize (M3 A1' M2). change (2 * 1) with 2 in M3. fold m3 in M3. clearbody m3. split.
      + destruct (us ++ ys ++ map fabs zs0 ++ map fabs zs1) as [|b l] eqn:NE.
        * apply app_eq_nil in NE. destruct NE as [-> NE]. apply app_eq_nil in NE. destruct NE as [-> NE]. apply app_eq_nil in NE. destruct NE as [E0 E1].
          rewrite E0, E1 in *. unfold seen. now rewrite map_app, E0, E1.
        * assert (NE' : us ++ seen ys zs0 zs1 <> []) by (unfold seen; rewrite map_app, NE; discriminate).
          assert (PP : Permutation ((map fabs zs0 ++ map fabs zs1 ++ us) ++ map fabs zs1 ++ map fabs zs0 ++ ys) ((map fabs zs0 ++ map fabs zs1) ++ us ++ seen ys zs0 zs1)).
          { unfold seen. rewrite map_app, <- !app_assoc. do 3 apply Permutation_app_head. rewrite Permutation_app_swap_app. rewrite app_assoc. rewrite Permutation_app_comm. reflexivity. }
          eapply holds_ext; [| | | | | |exact M3].
          -- now rewrite !all_finite_app, FY, FZ0, FZ1.
          -- exact FS.
          -- intros E. rewrite E in PP. apply Permutation_nil in PP. apply app_eq_nil in PP. destruct PP as [_ PP]. contradiction.
          -- exact NE'.
          -- rewrite (lead_perm _ _ PP). unfold seen. rewrite !lead_app, map_app, !lead_app. lia.
          -- intros j. apply sums_perm. unfold seen. rewrite map_app. rewrite app_assoc, Permutation_app_comm. apply Permutation_app_head, Permutation_app_comm.
      + eapply dzframe_trans; [apply zframe_dz; exact FA|]. eapply dzframe_trans; apply frameY_dz; eauto.
    - destruct (nan3_zrenorm m H) as [H1 FA]. fold m1 in H1, FA. clearbody m1.
      assert (H3 : m3 p = B754_nan).
      { destruct (frameY_heads fold A p ip c ic Hf D0 D1 m1 m2 F2) as [E0 E1]. unfold nan3 in H1.
        assert (N2 : m1 A = B754_nan \/ m1 p = B754_nan -> m2 p = B754_nan) by (intros; apply (madd_nan L ltac:(lia) D0 m1); auto).
        apply (madd_nan L ltac:(lia) D1 m2). destruct H1 as [H1|[H1|H1]]; [right; auto|right; auto|left; congruence]. }
      split.
      + apply holds_nonfinite; auto. rewrite P_of_0, H3. destruct (special (seen ys zs0 zs1)); try discriminate. reflexivity.
      + eapply dzframe_trans; [apply zframe_dz; exact FA|]. eapply dzframe_trans; apply frameY_dz; eauto.
    - destruct H as [HP (us0 & ws0 & us1 & ws1 & W0 & W1 & WC & R0 & R1)]. rewrite app_length in WC.
      destruct (zrenorm_ok fold A Hf m _ _ _ _ d R0 R1 Hd) as (A0 & A1 & FA); try lia. fold m1 in A0, A1, FA.
      pose proof (zframe_p fold A p ip c ic Hf D0 D1 m m1 FA) as E1. clearbody m1. rewrite HP in E1.
      set (s := special (seen ys zs0 zs1)) in *. assert (FSs : is_finite s = false) by apply special_fin.
      assert (AF : forall l, all_finite (l ++ [s]) = false) by (intros l; rewrite all_finite_app; cbn; now rewrite FSs, andb_false_r).
      assert (SP : forall l, all_finite l = true -> special (l ++ [s]) = s).
      { intros l Fl. destruct (special_app l [s]) as (_ & S2 & _). rewrite S2 by auto. now apply special_one. }
      assert (HY1 : holdsY m1 [] [s]).
      { apply holds_nonfinite; [apply (AF [])|]. rewrite P_of_0, E1. symmetry. apply (SP []). reflexivity. }
      destruct (rep_merge L Hf Hm m1 _ _ [] [s] D0 (holds_rep _ _ us0 ws0 _ _ ltac:(lia) A0) (proj2 (rep_nonfinite _ _ _ _ 0 _ _ (AF [])) (proj1 (holds_nonfinite _ _ _ _ _ _ (AF [])) HY1))) as (_ & _ & M2).
      { rewrite AF. discriminate. }
      specialize (M2 A0 HY1). change (2 * 1) with 2 in M2. fold m2 in M2. clearbody m2.
      assert (A1' : holds1 m2 us1 ws1).
      { eapply (local_holds Hf (p := A + 1) (ip := 2 * 1) (c := CA + 1) (ic := 2 * 1)); [|exact A1]. intros a I. apply F2. intros J. exact (D1 _ I J). }
      destruct (rep_merge L Hf Hm m2 _ _ _ _ D1 (holds_rep _ _ us1 ws1 _ _ ltac:(lia) A1') (proj2 (rep_nonfinite _ _ (us0 ++ []) _ 0 _ _ (AF ws0)) (proj1 (holds_nonfinite _ _ _ _ _ _ (AF ws0)) M2))) as (_ & _ & M3).
      { rewrite app_assoc, AF. discriminate. }
      specialize (M3 A1' M2). change (2 * 1) with 2 in M3. fold m3 in M3. clearbody m3. split.
      + apply holds_nonfinite; auto. fold s. apply holds_nonfinite in M3; [|rewrite app_assoc; apply AF]. rewrite M3, app_assoc. apply SP. now rewrite all_finite_app, W0, W1.
      + eapply dzframe_trans; [apply zframe_dz; exact FA|]. eapply dzframe_trans; apply frameY_dz; eauto.
  Qed.

  Lemma nan_seen ys zs0 zs1 ts0 ts1 : all_finite (seen ys zs0 zs1) = false -> special (seen ys zs0 zs1) = B754_nan ->
    all_finite (seen ys (ts0 ++ zs0) (ts1 ++ zs1)) = false /\ special (seen ys (ts0 ++ zs0) (ts1 ++ zs1)) = B754_nan.
  Proof.
    intros H1 H2. rewrite <- (all_finite_perm _ _ (seen_more ys zs0 zs1 ts0 ts1)), <- (special_perm _ _ (seen_more ys zs0 zs1 ts0 ts1)).
    split; [now rewrite all_finite_app, H1, andb_false_r|]. now apply special_nan_more.
  Qed.
  Lemma asum_loop_ok : forall fuel tu N X iX i NB d (m : mem t) us ys zs0 zs1,
    legal_avec (amax_vec tu) -> legal_vec (dep_vec tu) -> 0 <= i <= N -> N - i < Z.of_nat fuel -> 1 <= NB <= endurance t -> 0 <= d <= endurance t ->
    asum_in us ys zs0 zs1 d m -> dzout X iX (N - i) ->
    let ts0 := parts 0 X iX m (N - i) in let ts1 := parts 1 X iX m (N - i) in
    Z.of_nat (length (seen ys (ts0 ++ zs0) (ts1 ++ zs1))) <= capacity t ->
    let m' := zasum_loop fuel tu fold N X iX p ip c ic A i NB d m in
    holdsY m' us (seen ys (ts0 ++ zs0) (ts1 ++ zs1)) /\ dzf m m'.
  Proof.
    induction fuel as [|fuel IH]; intros tu N X iX i NB d m us ys zs0 zs1 LTA LTV Hi Hfu HNB Hd ST OX ts0 ts1 HC; [lia|].
    cbn [zasum_loop]. destruct (Z.ltb_spec i N) as [Li|Li].
    2:{ assert (E0 : ts0 = []) by (unfold ts0; rewrite parts_map, zseq_nil by lia; reflexivity).
        assert (E1 : ts1 = []) by (unfold ts1; rewrite parts_map, zseq_nil by lia; reflexivity).
        rewrite E0, E1 in *. cbn [app] in *. apply (asum_end us ys zs0 zs1 d m ST Hd). auto. }
    set (n := Z.min (N - i) NB). assert (Hn : 1 <= n <= endurance t) by lia.
    assert (En : N - i = n + (N - (i + n))) by lia. assert (Hr : 0 <= N - (i + n)) by lia.
    assert (Hn1 : n <= N - i) by lia. clearbody n.
    set (xs0 := parts 0 X iX m n). set (xs1 := parts 1 X iX m n).
    set (us0' := parts 0 (X + n * (2 * iX)) iX m (N - (i + n))). set (us1' := parts 1 (X + n * (2 * iX)) iX m (N - (i + n))).
    assert (E0 : ts0 = xs0 ++ us0') by (unfold ts0; rewrite En; apply zterms_split; lia).
    assert (E1 : ts1 = xs1 ++ us1') by (unfold ts1; rewrite En; apply zterms_split; lia).
    rewrite E0, E1 in *. clear E0 E1 ts0 ts1. rewrite En in OX.
    destruct (dzoutside_shift fold A p ip c ic X iX n _ ltac:(lia) Hr OX) as [OX1 OX2].
    assert (LX0 : Z.of_nat (length xs0) = n) by (unfold xs0; rewrite parts_length; lia).
    assert (LX1 : Z.of_nat (length xs1) = n) by (unfold xs1; rewrite parts_length; lia).
    assert (PERM : forall ws0 ws1, Permutation (seen ys (us0' ++ xs0 ++ ws0) (us1' ++ xs1 ++ ws1)) (seen ys ((xs0 ++ us0') ++ ws0) ((xs1 ++ us1') ++ ws1))).
    { intros ws0 ws1. unfold seen. apply Permutation_app_head, Permutation_map. rewrite !app_assoc.
      apply Permutation_app; [|reflexivity]. rewrite <- !app_assoc, (app_assoc us0'), (app_assoc xs0).
      apply Permutation_app; [apply Permutation_app_comm|]. apply Permutation_app_head. apply Permutation_app_comm. }
    assert (LS : forall l0 l1, Z.of_nat (length (seen ys l0 l1)) = Z.of_nat (length ys) + Z.of_nat (length l0) + Z.of_nat (length l1)).
    { intros l0 l1. unfold seen. rewrite app_length, map_length, app_length. lia. }
    assert (REC : forall m1 d1, dzf m m1 -> 0 <= d1 <= endurance t -> asum_in us ys (xs0 ++ zs0) (xs1 ++ zs1) d1 m1 ->
      let r := zasum_loop fuel tu fold N (X + n * (2 * iX)) iX p ip c ic A (i + n) n d1 m1 in
      holdsY r us (seen ys ((xs0 ++ us0') ++ zs0) ((xs1 ++ us1') ++ zs1)) /\ dzf m r).
    { intros m1 d1 F1 Hd1 ST1.
      pose proof (dzoutside_parts fold A p ip c ic 0 _ _ _ m m1 Hr OX2 F1) as ET0. fold us0' in ET0.
      pose proof (dzoutside_parts fold A p ip c ic 1 _ _ _ m m1 Hr OX2 F1) as ET1. fold us1' in ET1.
      pose proof (IH tu N (X + n * (2 * iX)) iX (i + n) n d1 m1 us ys (xs0 ++ zs0) (xs1 ++ zs1)) as R.
      cbv zeta in R. rewrite ET0, ET1 in R. destruct R as [R1 R2]; auto; try lia.
      { rewrite LS, !app_length in *. lia. }
      split; [|eapply dzframe_trans; eauto]. eapply holds_perm; [reflexivity|apply PERM|exact R1]. }
    cbv zeta. pose proof (amax2_ok tu n X iX m LTA ltac:(lia)) as SC. cbv zeta in SC. fold xs0 xs1 in SC.
    set (amax := amax2 tu n X iX m) in *. clearbody amax. destruct SC as [SC1 SC2].
    (* the branch for infinities *)
    assert (SA : exists m1, (if f_isinf amax || f_isinf (m p) then add_mags n X iX p m else m) = m1 /\ frameY m m1 /\
      m1 p = (if f_isinf amax || f_isinf (m p) then fold_left fadd (mags2 X iX n m) (m p) else m p) /\ (forall a, a <> p -> m1 a = m a)).
    { destruct (f_isinf amax || f_isinf (m p)).
      - destruct (add_mags_ok n X iX p m ltac:(lia)) as [H1 H2].
        { intros j o Hj Ho E. destruct (OX1 j o Hj Ho) as [NO _]. apply NO. rewrite E. apply in_p. exact Hf. }
        eexists. split; [reflexivity|]. split; [|split; [exact H1|exact H2]]. intros a Ha. apply H2. intros ->. apply Ha, in_p. exact Hf.
      - exists m. split; [reflexivity|]. split; [apply frame_refl|]. auto. }
    destruct SA as (m1 & -> & F1 & HP1 & HO1).
    pose proof (frameY_heads fold A p ip c ic Hf D0 D1 m m1 F1) as [HA0 HA1].
    pose proof (mags2_perm X iX n m) as MP. fold xs0 xs1 in MP.
    set (sn := seen ys zs0 zs1) in *.
    pose proof (seen_more ys zs0 zs1 xs0 xs1) as SM. fold sn in SM.
    (* exit with NaN *)
    assert (EXIT : nan3 m1 -> all_finite (seen ys (xs0 ++ zs0) (xs1 ++ zs1)) = false -> special (seen ys (xs0 ++ zs0) (xs1 ++ zs1)) = B754_nan ->
      let r := upd m1 p (fadd (m1 p) (fadd (m1 A) (m1 (A + 1)))) in
      holdsY r us (seen ys ((xs0 ++ us0') ++ zs0) ((xs1 ++ us1') ++ zs1)) /\ dzf m r).
    { intros N3 NF NS r. destruct (nan_seen _ _ _ us0' us1' NF NS) as [NF' NS'].
      rewrite (all_finite_perm _ _ (PERM zs0 zs1)) in NF'. rewrite (special_perm _ _ (PERM zs0 zs1)) in NS'. split.
      - apply holds_nonfinite; auto. rewrite P_of_0, NS'. unfold r. rewrite upd_same. unfold nan3 in N3.
        destruct N3 as [E|[E|E]]; rewrite E; rewrite ?fadd_nan_l, ?fadd_nan_r; auto.
      - eapply dzframe_trans; [apply frameY_dz; exact F1|]. apply frameY_dz. intros a Ha. unfold r. apply upd_other. intros ->. apply Ha, in_p. exact Hf. }
    unfold asum_in in ST. fold sn in ST.
    destruct (negb (all_finite sn) && f_isnan (special sn)) eqn:BN.
    { (* a NaN was seen before *)
      apply andb_true_iff in BN. destruct BN as [BN1 BN2]. apply negb_true_iff in BN1. rewrite BN1, BN2 in ST.
      assert (N3 : nan3 m1).
      { apply (nan3_frameY m m1 F1); [|exact ST]. intros E. rewrite HP1. destruct (f_isinf amax || f_isinf (m p)); auto. apply fold_nan. now right. }
      rewrite (proj2 (nan3_test m1) N3).
      assert (NS : special sn = B754_nan) by (destruct (special sn); try discriminate; reflexivity).
      destruct (nan_seen ys zs0 zs1 xs0 xs1 BN1 NS). now apply EXIT. }
    assert (RP : some_reps d m /\ (if all_finite sn then is_finite (m p) = true else m p = special sn)).
    { destruct (all_finite sn) eqn:FS.
      - destruct ST as (HY & R0 & R1). pose proof FS as FS'. unfold sn, seen in FS'. rewrite map_app, !all_finite_app in FS'.
        apply andb_true_iff in FS'. destruct FS' as [FY FZ]. apply andb_true_iff in FZ. destruct FZ as [FZ0 FZ1].
        rewrite LS, !app_length in HC. split.
        + exists (map fabs zs1), (map fabs zs0), (map fabs zs0), (map fabs zs1). repeat split; auto. rewrite app_length, !map_length. lia.
        + pose proof (rep_head (ip := ip) (c := c) (ic := ic) Hf m us ys 0 (holds_rep _ _ us ys _ _ ltac:(lia) HY) ltac:(lia)) as RH.
          rewrite FY in RH. destruct (us ++ ys); [now rewrite RH|apply RH].
      - cbn [negb andb] in BN. rewrite BN in ST. destruct ST as [ST1 ST2]. split; auto. }
    destruct RP as [RP HD].
    assert (AF : is_finite (m A) = true /\ is_finite (m (A + 1)) = true).
    { destruct RP as (vs0 & ws0 & vs1 & ws1 & W0 & W1 & _ & R0 & R1).
      split; [apply (rep_fin0 fold A Hf m _ _ _ R0 W0 Hd)|apply (rep_fin1 fold A Hf m _ _ _ R1 W1 Hd)]. }
    destruct (inf_stage sn (xs0 ++ xs1) (mags2 X iX n m) amax (m p) HD SC2 MP) as [(FS & BA & BB)|(NF & HS)]; cbv zeta in *.
    2:{ (* infinity or NaN *)
      rewrite <- HP1 in HS. rewrite (all_finite_perm _ _ SM) in NF. rewrite (special_perm _ _ SM) in HS.
      destruct (f_isnan (m1 p)) eqn:NN; cbn [orb].
      - apply EXIT; auto; [left|rewrite <- HS]; destruct (m1 p); try discriminate; reflexivity.
      - rewrite HA0, HA1. destruct AF as [AF0 AF1].
        replace (f_isnan (m A)) with false by (destruct (m A); try discriminate; reflexivity).
        replace (f_isnan (m (A + 1))) with false by (destruct (m (A + 1)); try discriminate; reflexivity). cbn [orb].
        assert (II : f_isinf (m1 p) = true).
        { pose proof (special_fin (seen ys (xs0 ++ zs0) (xs1 ++ zs1))) as SF. rewrite <- HS in SF. destruct (m1 p); try discriminate; reflexivity. }
        rewrite II. apply REC; [apply frameY_dz; exact F1|exact Hd|]. unfold asum_in. rewrite NF, <- HS, NN. split; [reflexivity|].
        destruct RP as (vs0 & ws0 & vs1 & ws1 & W0 & W1 & WC & R0 & R1). destruct (frameY_rep fold A p ip c ic Hf D0 D1 m m1 _ _ _ _ _ _ F1 (conj R0 R1)) as [R0' R1'].
        exists vs0, ws0, vs1, ws1. auto 6. }
    (* finite so far *)
    rewrite FS in *. rewrite BB in HP1.
    assert (Em : forall a, m1 a = m a) by (intros a; destruct (Z.eq_dec a p) as [->|]; auto).
    rewrite HA0, HA1, HP1. destruct AF as [AF0 AF1].
    replace (f_isnan (m p)) with false by (destruct (m p); try discriminate; reflexivity).
    replace (f_isnan (m A)) with false by (destruct (m A); try discriminate; reflexivity).
    replace (f_isnan (m (A + 1))) with false by (destruct (m (A + 1)); try discriminate; reflexivity). cbn [orb].
    replace (f_isinf (m p)) with false by (destruct (m p); try discriminate; reflexivity).
    destruct ST as (HY & R0 & R1).
    assert (HY1 : holdsY m1 us ys) by (apply (local_holds Hf us ys m m1); auto).
    destruct (frameY_rep fold A p ip c ic Hf D0 D1 m m1 _ _ _ _ _ _ F1 (conj R0 R1)) as [R01 R11]. clear R0 R1.
    pose proof FS as FS'. unfold sn, seen in FS'. rewrite map_app, !all_finite_app in FS'.
    apply andb_true_iff in FS'. destruct FS' as [FY FZ]. apply andb_true_iff in FZ. destruct FZ as [FZ0 FZ1].
    rewrite LS, !app_length in HC. rewrite (ENDURANCE_eq t).
    assert (RN : exists m2 d1, (if endurance t <? d + n then (zbrenorm fold A m1, 0) else (m1, d)) = (m2, d1) /\
       rep0 m2 (map fabs zs1) (map fabs zs0) d1 /\ rep1 m2 (map fabs zs0) (map fabs zs1) d1 /\ 0 <= d1 /\ d1 + n <= endurance t /\ zframeA m1 m2).
    { destruct (Z.ltb_spec (endurance t) (d + n)).
      - destruct (zrenorm_ok fold A Hf m1 _ _ _ _ d R01 R11 Hd) as (A0 & A1 & FA); try (rewrite map_length; lia).
        eexists _, _. split; [reflexivity|]. split; [apply holds_rep; [rewrite map_length; lia|exact A0]|]. split; [apply holds_rep; [rewrite map_length; lia|exact A1]|].
        split; [lia|]. split; [lia|exact FA].
      - eexists _, _. split; [reflexivity|]. split; [exact R01|]. split; [exact R11|]. split; [lia|]. split; [lia|apply zframe_refl]. }
    destruct RN as (m2 & d1 & -> & R02 & R12 & Hd1 & Hd2 & F2).
    destruct (zupdate_ok fold A Hf Hm m2 _ _ _ _ d1 amax R02 R12 ltac:(lia)) as (R03 & R13 & F3).
    set (m3 := zmdupdate fold amax A 1 CA 1 m2) in *. clearbody m3.
    assert (F13 : zframeA m1 m3) by (eapply zframe_trans; eauto).
    assert (FM3 : dzf m m3) by (eapply dzframe_trans; [apply frameY_dz; exact F1|apply zframe_dz; exact F13]).
    assert (EX0 : map (fun i0 => fabs (part X iX m3 0 (Elem i0))) (zseq 0 n) = map fabs xs0).
    { rewrite <- (map_map (fun i0 => part X iX m3 0 (Elem i0)) fabs), <- parts_map. f_equal. apply (dzoutside_parts fold A p ip c ic); auto. lia. }
    assert (EX1 : map (fun i0 => fabs (part X iX m3 1 (Elem i0))) (zseq 0 n) = map fabs xs1).
    { rewrite <- (map_map (fun i0 => part X iX m3 1 (Elem i0)) fabs), <- parts_map. f_equal. apply (dzoutside_parts fold A p ip c ic); auto. lia. }
    destruct (all_finite (xs0 ++ xs1)) eqn:FX.
    - assert (NA : existsb f_isnan (xs0 ++ xs1) = false) by (apply all_finite_flags; auto). specialize (SC1 NA).
      destruct (max_index amax (xs0 ++ xs1) SC1 FX) as [MI1 MI2].
      assert (FI : forall x : F t, findex (fabs x) = findex x) by (intros x; unfold findex; rewrite fin_fabs, toZ_fabs; destruct (is_finite x); auto; now rewrite bin_of_abs).
      pose proof (zkernel_fin fold A Hf (dep_vec tu) n (fun cc s => fabs (part X iX m3 cc s)) m3 amax (map fabs zs1) (map fabs zs0) (map fabs zs0) (map fabs zs1) d1 LTV ltac:(lia)) as K.
      cbv beta zeta in K. rewrite EX0, EX1 in K. specialize (K R03 R13 FZ0 FZ1). rewrite <- map_app, all_finite_fabs in K. specialize (K FX).
      destruct (zkernel 1 (dep_vec tu) fold n (fun cc s => fabs (part X iX m3 cc s)) A 1 m3) as [m4 q]. cbn [fst snd] in K.
      destruct K as (-> & R04 & R14 & F4); auto; try lia.
      { intros x I. apply in_map_iff in I. destruct I as (y & <- & I). rewrite FI. auto. }
      { intros cc h. destruct (zval_none ZSum X iX X iX m3 cc h) as (V1 & V2 & _). unfold part. rewrite fin_fabs, toZ_fabs, V1, V2. auto. }
      assert (F14 : zframeA m1 m4) by (eapply zframe_trans; eauto).
      apply REC; [eapply dzframe_trans; [apply frameY_dz; exact F1|apply zframe_dz; exact F14]|lia|].
      unfold asum_in. rewrite <- (all_finite_perm _ _ SM), all_finite_app, all_finite_fabs, FX, FS. cbn [andb].
      split; [eapply zframe_holdsY; eauto|].
      assert (LL : lead (map fabs xs0 ++ map fabs xs1) = findex amax).
      { assert (LF : forall l : list (F t), lead (map fabs l) = lead l).
        { intros l. induction l as [|x l IHl]; [reflexivity|]. cbn [map]. now rewrite !lead_cons, IHl, FI. }
        rewrite <- map_app, LF. apply Z.le_antisymm; auto. clear -MI1 SC1 FX. pose proof (findex_range amax) as FR.
        induction (xs0 ++ xs1) as [|x l IHl] in MI1 |- *; [rewrite lead_nil; lia|]. rewrite lead_cons.
        pose proof (MI1 x (or_introl eq_refl)). assert (findex amax <= lead l) by (apply IHl; intros; apply MI1; now right). lia. }
      assert (NE : map fabs xs0 <> [] /\ map fabs xs1 <> []) by (split; intros E; apply map_eq_nil in E; [rewrite E in LX0; cbn in LX0|rewrite E in LX1; cbn in LX1]; lia).
      rewrite lead_app in LL.
      assert (NE2 : forall a b : list (F t), map fabs xs0 ++ a <> [] /\ map fabs xs1 ++ b <> []).
      { intros a b. split; intros E; apply app_eq_nil in E; tauto. }
      rewrite !map_app. split.
      + eapply rep_relead; [| | |exact R04].
        * discriminate.
        * intros E. apply app_eq_nil in E. destruct E as [_ E]. now apply (NE2 _ []) in E.
        * cbn [app]. rewrite lead_cons, !lead_app. lia.
      + eapply rep_relead; [| | |exact R14].
        * discriminate.
        * intros E. apply app_eq_nil in E. destruct E as [_ E]. now apply (NE2 []) in E.
        * cbn [app]. rewrite lead_cons, !lead_app. lia.
    - (* a NaN in the block *)
      assert (NA : existsb f_isnan (xs0 ++ xs1) = true).
      { destruct (existsb f_isnan (xs0 ++ xs1)) eqn:NA; auto. exfalso. specialize (SC1 eq_refl). destruct SC1 as (M1 & M2 & M3 & M4).
        destruct (all_finite_ex (xs0 ++ xs1) FX) as (x & I & Fx). specialize (M3 x I). unfold mag in M3 at 1. rewrite Fx in M3.
        destruct (is_finite amax) eqn:FA; [apply mag_fin in FA; lia|]. destruct amax; discriminate. }
      destruct (zkernel_nan fold A Hf (dep_vec tu) n (fun cc s => fabs (part X iX m3 cc s)) m3 LTV ltac:(lia)) as (K1 & K2 & K3).
      { destruct (all_finite_ex (xs0 ++ xs1) FX) as (x & I & Fx). apply in_app_or in I.
        assert (G : forall cc, In x (parts cc X iX m3 n) -> exists i0, 0 <= i0 < n /\ is_finite (fabs (part X iX m3 cc (Elem i0))) = false).
        { intros cc J. rewrite parts_map in J. apply in_map_iff in J. destruct J as (i0 & <- & J). apply zseq_In in J. exists i0. split; [lia|]. now rewrite fin_fabs. }
        destruct I as [I|I]; [exists 0|exists 1].
        - destruct (G 0) as (i0 & G1 & G2); [|eauto 6]. rewrite (dzoutside_parts fold A p ip c ic 0 X iX n m m3); auto; lia.
        - destruct (G 1) as (i0 & G1 & G2); [|eauto 6]. rewrite (dzoutside_parts fold A p ip c ic 1 X iX n m m3); auto; lia. }
      destruct (zkernel 1 (dep_vec tu) fold n (fun cc s => fabs (part X iX m3 cc s)) A 1 m3) as [m4 q]. cbn [fst snd] in *. rewrite K1.
      assert (F14 : zframeA m1 m4) by (eapply zframe_trans; eauto).
      apply REC; [eapply dzframe_trans; [apply frameY_dz; exact F1|apply zframe_dz; exact F14]|lia|].
      unfold asum_in. rewrite <- (all_finite_perm _ _ SM), all_finite_app, all_finite_fabs, FX. cbn [andb].
      rewrite <- (special_perm _ _ SM). unfold special. rewrite existsb_app, nan_fabs_list, NA. cbn [orb f_isnan]. unfold nan3. tauto.
  Qed.
End ASUM.
