(** * The loops of zmzsum, zmzdotc, zmzdotu: both components *)
From Coq Require Import ZArith Bool List Lia Permutation.
From Flocq Require Import Core BinarySingleNaN.
From Verif Require Import Fp Mem Binned Spec FpProofs BitProofs CoreArith SpecProofs WordProofs MemProofs AccProofs SumProofs Gen GenProofs Blas LaneProofs ReduceProofs DriverProofs BlasZ ZEvents ZKernel ZDriver.
Import ListNotations.
Open Scope Z_scope.

Section ZLOOP.
  Context {t : ty} {fold p ip c ic : Z}.
  Notation in0 := (in_acc fold p (2 * ip) c (2 * ic)).
  Notation in1 := (in_acc fold (p + 1) (2 * ip) (c + 1) (2 * ic)).
  Hypothesis L0 : layout fold p (2 * ip) c (2 * ic).
  Hypothesis L1 : layout fold (p + 1) (2 * ip) (c + 1) (2 * ic).
  Hypothesis DJ : disjoint in0 in1.
  Hypothesis Hf : 2 <= fold.
  Hypothesis Hm : fold <= jmax t + 1.
  Notation frame0 := (@frame t fold p (2 * ip) c (2 * ic)).
  Notation frame1 := (@frame t fold (p + 1) (2 * ip) (c + 1) (2 * ic)).
  Notation local0 := (@local t fold p (2 * ip) c (2 * ic)).
  Notation local1 := (@local t fold (p + 1) (2 * ip) (c + 1) (2 * ic)).
  Definition zframe (m m' : mem t) : Prop := forall a, ~ in0 a -> ~ in1 a -> m' a = m a.
  Lemma zframe_refl m : zframe m m. Proof. intros a _ _. reflexivity. Qed.
  Lemma zframe_trans m m1 m2 : zframe m m1 -> zframe m1 m2 -> zframe m m2.
  Proof. intros A B a H0 H1. rewrite B, A; auto. Qed.
  Lemma frame0_in1 m m' a : frame0 m m' -> in1 a -> m' a = m a.
  Proof. intros H I. apply H. intros J. exact (DJ _ J I). Qed.
  Lemma frame1_in0 m m' a : frame1 m m' -> in0 a -> m' a = m a.
  Proof. intros H I. apply H. intros J. exact (DJ _ I J). Qed.
  Lemma both (Q1 R0 R1 : mem t -> Prop) m m1 m2 : local0 R0 -> local1 Q1 -> Q1 m -> R0 m1 -> frame0 m m1 ->
    (Q1 m1 -> R1 m2 /\ frame1 m1 m2) -> R0 m2 /\ R1 m2 /\ zframe m m2.
  Proof.
    intros HR0 HQ1 Q R F H. destruct H as [R' F'].
    - apply (HQ1 m); auto. intros a I. now apply frame0_in1.
    - split; [|split; [exact R'|]].
      + apply (HR0 m1); auto. intros a I. now apply frame1_in0.
      + intros a N0 N1. rewrite F', F; auto.
  Qed.
  (** The n elements at X are not part of the accumulator. *)
  Definition zoutside (X iX n : Z) : Prop :=
    forall i o, 0 <= i < n -> o = 0 \/ o = 1 -> ~ in0 (X + i * (2 * iX) + o) /\ ~ in1 (X + i * (2 * iX) + o).
  Lemma zoutside_shift X iX a b : 0 <= a -> 0 <= b -> zoutside X iX (a + b) ->
    zoutside X iX a /\ zoutside (X + a * (2 * iX)) iX b.
  Proof.
    intros Ha Hb H. split; intros i o Hi Ho; [apply H; auto; lia|].
    replace (X + a * (2 * iX) + i * (2 * iX) + o) with (X + (a + i) * (2 * iX) + o) by ring. apply H; auto. lia.
  Qed.
  Lemma zoutside_terms k cc X iX Y iY n (m m' : mem t) : 0 <= n -> zoutside X iX n -> zoutside Y iY n -> zframe m m' ->
    zterms k cc X iX Y iY m' n = zterms k cc X iX Y iY m n.
  Proof.
    intros Hn HX HY F. apply zterms_ext; auto. intros i o Hi Ho. split; apply F; first [now apply HX|now apply HY].
  Qed.
  Lemma zoutside_elem {A} (f : F t -> F t -> F t -> F t -> A) X iX Y iY n (m m' : mem t) : zoutside X iX n -> zoutside Y iY n -> zframe m m' ->
    forall j, 0 <= j < n -> at_elem f X iX Y iY m' j = at_elem f X iX Y iY m j.
  Proof.
    intros HX HY F j Hj. unfold at_elem.
    assert (E : forall W iW o, zoutside W iW n -> o = 0 \/ o = 1 -> m' (W + j * (2 * iW) + o) = m (W + j * (2 * iW) + o)).
    { intros W iW o HW Ho. apply F; now apply HW. }
    pose proof (E X iX 0 HX ltac:(auto)) as E1. pose proof (E Y iY 0 HY ltac:(auto)) as E2. rewrite !Z.add_0_r in E1, E2.
    pose proof (E X iX 1 HX ltac:(auto)) as E3. pose proof (E Y iY 1 HY ltac:(auto)) as E4. now rewrite E1, E2, E3, E4.
  Qed.
  (** The kernel, component by component. *)
  Lemma zkernel_comps nt v n val (m : mem t) :
    let es := fst (zkernel_events nt v n) in
    let any0 := dmindex0 (m p) || dmindex0 (m (p + 1)) in
    let m1 := comp_kernel (fold := fold) (p := p) (ip := 2 * ip) nt v any0 (map (fun e => (fst e, val 0 (snd e))) es) m in
    zkernel nt v fold n val p ip m =
    (comp_kernel (fold := fold) (p := p + 1) (ip := 2 * ip) nt v any0 (map (fun e => (fst e, val 1 (snd e))) es) m1,
     snd (zkernel_events nt v n)).
  Proof.
    intros es any0 m1. unfold zkernel, es, any0 in *. clear es any0. destruct (zkernel_events nt v n) as [es q]. cbn [fst snd] in *.
    cbv zeta. rewrite Z.add_0_r. f_equal.
    assert (F1 : frame0 m m1) by (apply comp_kernel_frame; exact L0).
    assert (E1 : m1 (p + 1) = m (p + 1)) by (apply frame0_in1; auto; apply in_p; exact Hf).
    assert (E2 : read m1 (p + 1) (2 * ip) fold = read m (p + 1) (2 * ip) fold).
    { unfold read. apply map_ext_in. intros i Hi. apply zseq_In in Hi. apply frame0_in1; auto. apply in_pri. lia. }
    unfold comp_kernel. fold m1. now rewrite E1, E2.
  Qed.
  Notation cst0 := (@cst t fold p (2 * ip) c (2 * ic)).
  Notation cst1 := (@cst t fold (p + 1) (2 * ip) (c + 1) (2 * ic)).
  Notation cout0 := (@cout t fold p (2 * ip) c (2 * ic)).
  Notation cout1 := (@cout t fold (p + 1) (2 * ip) (c + 1) (2 * ic)).
  Notation Bst0 := (@Bst t fold p (2 * ip) c (2 * ic)).
  Notation Bst1 := (@Bst t fold (p + 1) (2 * ip) (c + 1) (2 * ic)).
  Notation Cst0 := (@Cst t fold p (2 * ip) c (2 * ic)).
  Notation Cst1 := (@Cst t fold (p + 1) (2 * ip) (c + 1) (2 * ic)).
  Notation Dst0 := (@Dst t fold p (2 * ip) c (2 * ic)).
  Notation Dst1 := (@Dst t fold (p + 1) (2 * ip) (c + 1) (2 * ic)).

  (** One block, after the branches for infinities. *)
  Lemma block_ok us0 us1 zs0 zs1 d k v n X iX Y iY amax0 amax1 (m : mem t) :
    legal_vec v -> 1 <= n -> nterms k * n <= endurance t -> 0 <= d -> nterms k * d <= endurance t ->
    zoutside X iX n -> zoutside Y iY n ->
    let xs0 := zterms k 0 X iX Y iY m n in
    let xs1 := zterms k 1 X iX Y iY m n in
    (existsb f_isnan xs0 = false -> is_max amax0 xs0) -> (existsb f_isnan xs1 = false -> is_max amax1 xs1) ->
    hfacts zs0 xs0 amax0 (m p) -> hfacts zs1 xs1 amax1 (m (p + 1)) ->
    Bst0 us0 zs0 (nterms k * d) (m p) m -> Bst1 us1 zs1 (nterms k * d) (m (p + 1)) m ->
    (is_finite (m p) = true -> all_finite zs0 = true -> Z.of_nat (length zs0) <= capacity t) ->
    (is_finite (m (p + 1)) = true -> all_finite zs1 = true -> Z.of_nat (length zs1) <= capacity t) ->
    let amax0' := if ISNANINF (m p) then m p else amax0 in
    let amax1' := if ISNANINF (m (p + 1)) then m (p + 1) else amax1 in
    let '(m1, d1) := if ENDURANCE t / nterms k <? d + n then (zmrenorm fold p ip c ic m, 0) else (m, d) in
    let m2 := zmzupdate fold amax0' amax1' p ip c ic m1 in
    let '(m3, q) := zkernel (nterms k) v fold n (zval k X iX Y iY m2) p ip m2 in
    let m4 := if f_isinf amax0' then upd m3 p amax0' else m3 in
    let m5 := if f_isinf amax1' then upd m4 (p + 1) amax1' else m4 in
    q = n /\ 0 <= d1 /\ nterms k * (d1 + n) <= endurance t /\
    cst0 us0 (xs0 ++ zs0) (nterms k * (d1 + n)) m5 /\ cst1 us1 (xs1 ++ zs1) (nterms k * (d1 + n)) m5 /\ zframe m m5.
  Proof.
    intros HV Hn HB Hd HBd OX OY xs0 xs1 SC0 SC1 HH0 HH1 B0 B1 HC0 HC1. pose proof (nterms_12 k) as NT. pose proof (nterms_pos k) as NP.
    set (h0 := m p) in *. set (h1 := m (p + 1)) in *. intros U0 U1. rewrite (ENDURANCE_eq t).
    assert (EQ : endurance t / nterms k <? d + n = (endurance t <? nterms k * (d + n))).
    { destruct (Z.ltb_spec (endurance t / nterms k) (d + n)), (Z.ltb_spec (endurance t) (nterms k * (d + n))); auto; exfalso.
      - pose proof (Z.div_le_lower_bound (endurance t) (nterms k) (d + n)). lia.
      - pose proof (Z.div_lt_upper_bound (endurance t) (nterms k) (d + n)). lia. }
    rewrite EQ. clear EQ.
    assert (SB : exists m1 d1, (if endurance t <? nterms k * (d + n) then (zmrenorm fold p ip c ic m, 0) else (m, d)) = (m1, d1) /\
      0 <= d1 /\ nterms k * (d1 + n) <= endurance t /\
      Bst0 us0 zs0 (nterms k * d1) h0 m1 /\ Bst1 us1 zs1 (nterms k * d1) h1 m1 /\ zframe m m1).
    { destruct (Z.ltb_spec (endurance t) (nterms k * (d + n))) as [G|G].
      - exists (zmrenorm fold p ip c ic m), 0. split; [reflexivity|]. split; [lia|]. split; [lia|]. rewrite Z.mul_0_r. unfold zmrenorm.
        destruct (stageB L0 Hf us0 zs0 _ h0 true m B0 ltac:(nia) HC0) as [S1 S2]. cbv zeta in *.
        set (m1 := dmrenorm fold p (2 * ip) c (2 * ic) m) in *. clearbody m1.
        apply (both (Bst1 us1 zs1 (nterms k * d) h1) _ _ m m1); [apply local_Bst; exact Hf|apply local_Bst; exact Hf|exact B1|exact S1|exact S2|].
        intros B1'. apply (stageB L1 Hf us1 zs1 _ h1 true m1 B1' ltac:(nia) HC1).
      - exists m, d. split; [reflexivity|]. split; [lia|]. split; [lia|]. split; [exact B0|]. split; [exact B1|apply zframe_refl]. }
    destruct SB as (m1 & d1 & -> & Hd1 & HB1 & B0' & B1' & F1).
    assert (SCC : let m2 := zmzupdate fold U0 U1 p ip c ic m1 in
      Cst0 us0 zs0 (nterms k * d1) U0 h0 m2 /\ Cst1 us1 zs1 (nterms k * d1) U1 h1 m2 /\ zframe m1 m2).
    { cbv zeta. unfold zmzupdate. destruct (stageC L0 Hf Hm us0 zs0 _ U0 h0 m1 B0' ltac:(nia)) as [S1 S2].
      set (m2 := dmdupdate fold U0 p (2 * ip) c (2 * ic) m1) in *. clearbody m2.
      apply (both (Bst1 us1 zs1 (nterms k * d1) h1) _ _ m1 m2); [apply local_Cst; exact Hf|apply local_Bst; exact Hf|exact B1'|exact S1|exact S2|].
      intros BB. apply (stageC L1 Hf Hm us1 zs1 _ U1 h1 m2 BB ltac:(nia)). }
    cbv zeta in SCC. cbv zeta. set (m2 := zmzupdate fold U0 U1 p ip c ic m1) in *. clearbody m2. destruct SCC as (C0 & C1 & F2).
    assert (F12 : zframe m m2) by (eapply zframe_trans; eauto).
    assert (E0 : zterms k 0 X iX Y iY m2 n = xs0) by (apply zoutside_terms; auto; lia).
    assert (E1 : zterms k 1 X iX Y iY m2 n = xs1) by (apply zoutside_terms; auto; lia).
    assert (CU : forall zs xs (amax h : F t), hfacts zs xs amax h -> is_finite h = true -> (if ISNANINF h then h else amax) = amax).
    { intros zs xs amax h _ Fh. rewrite ISNANINF_fin, Fh. reflexivity. }
    assert (C0' : Cst0 us0 zs0 (nterms k * d1) amax0 h0 m2).
    { destruct C0 as [C0|[Fh C0]]; [left; exact C0|right]. split; auto. unfold U0 in C0. now rewrite (CU _ _ _ _ HH0 Fh) in C0. }
    assert (C1' : Cst1 us1 zs1 (nterms k * d1) amax1 h1 m2).
    { destruct C1 as [C1|[Fh C1]]; [left; exact C1|right]. split; auto. unfold U1 in C1. now rewrite (CU _ _ _ _ HH1 Fh) in C1. }
    clear C0 C1. rewrite zkernel_comps.
    pose proof (zkernel_events_ok (nterms k) v n NP HV ltac:(lia)) as KK.
    destruct (zkernel_events (nterms k) v n) as [es q]. cbn [fst snd] in *. destruct KK as (K1 & K2 & K3).
    set (any0 := dmindex0 (m2 p) || dmindex0 (m2 (p + 1))).
    split; [exact K1|]. split; [exact Hd1|]. split; [exact HB1|].
    assert (N1 : forall cc h, is_finite (zval k X iX Y iY m2 cc (Pad h)) = true) by (intros; apply zval_none).
    assert (N2 : forall cc h, toZ (zval k X iX Y iY m2 cc (Pad h)) = 0) by (intros; apply zval_none).
    destruct (stageD L0 Hf us0 zs0 xs0 (nterms k * d1) amax0 h0 (nterms k) v any0 es n (zval k X iX Y iY m2 0) m2) as [D0 G0]; auto; try lia.
    { unfold any0. now intros ->. }
    set (m3 := comp_kernel (nterms k) v any0 (map (fun e => (fst e, zval k X iX Y iY m2 0 (snd e))) es) m2) in *.
    assert (P1 : m3 (p + 1) = m2 (p + 1)) by (apply frame0_in1; auto; apply in_p; exact Hf).
    clearbody m3.
    set (m4 := comp_kernel (nterms k) v any0 (map (fun e => (fst e, zval k X iX Y iY m2 1 (snd e))) es) m3).
    assert (SD : Dst0 us0 zs0 xs0 (nterms k * d1 + nterms k * n) h0 m4 /\ Dst1 us1 zs1 xs1 (nterms k * d1 + nterms k * n) h1 m4 /\ zframe m2 m4).
    { apply (both (Cst1 us1 zs1 (nterms k * d1) amax1 h1) _ _ m2 m3); [apply local_Dst; exact Hf|apply local_Cst; exact Hf|exact C1'|exact D0|exact G0|].
      intros CC. apply (stageD L1 Hf us1 zs1 xs1 (nterms k * d1) amax1 h1 (nterms k) v any0 es n (zval k X iX Y iY m2 1) m3); auto; try lia.
      unfold any0. rewrite P1. intros ->. apply orb_true_r. }
    clearbody m4. destruct SD as (SD0 & SD1 & F4).
    rewrite Z.mul_add_distr_l.
    destruct (stageE Hf us0 zs0 xs0 _ amax0 h0 m4 HH0 SD0) as [T0 G1]. fold U0 in T0, G1.
    set (m5 := if f_isinf U0 then upd m4 p U0 else m4) in *. clearbody m5.
    destruct (both (Dst1 us1 zs1 xs1 (nterms k * d1 + nterms k * n) h1) (cst0 us0 (xs0 ++ zs0) (nterms k * d1 + nterms k * n))
      (cst1 us1 (xs1 ++ zs1) (nterms k * d1 + nterms k * n)) m4 m5 (if f_isinf U1 then upd m5 (p + 1) U1 else m5)) as (R0 & R1 & R2);
      [apply local_cst; exact Hf|apply local_Dst; exact Hf|exact SD1|exact T0|exact G1| |].
    { intros DD. apply (stageE Hf us1 zs1 xs1 _ amax1 h1 m5 HH1 DD). }
    split; [exact R0|]. split; [exact R1|]. eapply zframe_trans; [exact F12|]. eapply zframe_trans; eauto.
  Qed.
  Lemma hfacts_step us zs d xs ts' amax pp iip cc iic (m : mem t) : hfacts zs xs amax (m pp) -> is_finite (m pp) = false ->
    @cst t fold pp iip cc iic us (xs ++ zs) d m /\
    (f_isnan (m pp) = true -> @cout t fold pp iip cc iic us ((xs ++ ts') ++ zs) m).
  Proof.
    intros [_ H] NF. destruct (H NF) as [A B]. unfold cst, cout. rewrite A. split; [exact B|]. intros E.
    replace (all_finite ((xs ++ ts') ++ zs)) with false.
    - right. destruct (m pp); try discriminate. reflexivity.
    - rewrite !all_finite_app in *. destruct (all_finite xs), (all_finite ts'), (all_finite zs); auto.
  Qed.
  Lemma zloop_ok : forall fuel k tu N X iX Y iY i NB d (m : mem t) us0 us1 zs0 zs1,
    legal_avec (amax_vec tu) -> legal_vec (dep_vec tu) -> 0 <= i <= N -> N - i < Z.of_nat fuel ->
    1 <= NB -> nterms k * NB <= endurance t -> 0 <= d -> nterms k * d <= endurance t ->
    cst0 us0 zs0 (nterms k * d) m -> cst1 us1 zs1 (nterms k * d) m ->
    zoutside X iX (N - i) -> zoutside Y iY (N - i) ->
    let ts0 := zterms k 0 X iX Y iY m (N - i) in
    let ts1 := zterms k 1 X iX Y iY m (N - i) in
    (all_finite zs0 = true -> Z.of_nat (length (ts0 ++ zs0)) <= capacity t) ->
    (all_finite zs1 = true -> Z.of_nat (length (ts1 ++ zs1)) <= capacity t) ->
    let m' := zreduce_loop fuel k tu fold N X iX Y iY p ip c ic i NB d m in
    cout0 us0 (ts0 ++ zs0) m' /\ cout1 us1 (ts1 ++ zs1) m' /\ zframe m m'.
  Proof.
    induction fuel as [|fuel IH]; intros k tu N X iX Y iY i NB d m us0 us1 zs0 zs1 LA LV Hi Hfu HNB HNB2 Hd HBd S0 S1 OX OY ts0 ts1 HC0 HC1; [lia|].
    pose proof (nterms_12 k) as NT. pose proof (nterms_pos k) as NP.
    cbn [zreduce_loop]. destruct (Z.ltb_spec i N) as [Li|Li].
    2:{ assert (E0 : ts0 = []) by (unfold ts0, zterms; rewrite zseq_nil by nia; reflexivity).
        assert (E1 : ts1 = []) by (unfold ts1, zterms; rewrite zseq_nil by nia; reflexivity).
        rewrite E0, E1 in *. cbn [app] in *. unfold zmrenorm. clear E0 E1 ts0 ts1.
        destruct (stageZ L0 Hf us0 zs0 _ m S0 ltac:(nia) HC0) as [A0 F0].
        set (m1 := dmrenorm fold p (2 * ip) c (2 * ic) m) in *. clearbody m1.
        apply (both (cst1 us1 zs1 (nterms k * d)) _ _ m m1); [apply local_cout; exact Hf|apply local_cst; exact Hf|exact S1|exact A0|exact F0|].
        intros S1'. apply (stageZ L1 Hf us1 zs1 _ m1 S1' ltac:(nia) HC1). }
    set (n := Z.min (N - i) NB). assert (Hn : 1 <= n) by lia. assert (Hn2 : nterms k * n <= endurance t) by nia.
    assert (En : N - i = n + (N - (i + n))) by lia. assert (Hr : 0 <= N - (i + n)) by lia.
    assert (Hn1 : n <= N - i) by lia. clearbody n.
    set (xs0 := zterms k 0 X iX Y iY m n). set (xs1 := zterms k 1 X iX Y iY m n).
    set (rs0 := zterms k 0 (X + n * (2 * iX)) iX (Y + n * (2 * iY)) iY m (N - (i + n))).
    set (rs1 := zterms k 1 (X + n * (2 * iX)) iX (Y + n * (2 * iY)) iY m (N - (i + n))).
    assert (Ets0 : ts0 = xs0 ++ rs0) by (unfold ts0; rewrite En; apply zterms_split; lia).
    assert (Ets1 : ts1 = xs1 ++ rs1) by (unfold ts1; rewrite En; apply zterms_split; lia).
    rewrite Ets0, Ets1 in *. clear Ets0 Ets1 ts0 ts1. rewrite En in OX, OY.
    destruct (zoutside_shift X iX n _ ltac:(lia) Hr OX) as [OX1 OX2].
    destruct (zoutside_shift Y iY n _ ltac:(lia) Hr OY) as [OY1 OY2].
    (* the recursive call *)
    assert (REC : forall m1 d1, zframe m m1 -> 0 <= d1 -> nterms k * d1 <= endurance t ->
      cst0 us0 (xs0 ++ zs0) (nterms k * d1) m1 -> cst1 us1 (xs1 ++ zs1) (nterms k * d1) m1 ->
      let m' := zreduce_loop fuel k tu fold N (X + n * (2 * iX)) iX (Y + n * (2 * iY)) iY p ip c ic (i + n) n d1 m1 in
      cout0 us0 ((xs0 ++ rs0) ++ zs0) m' /\ cout1 us1 ((xs1 ++ rs1) ++ zs1) m' /\ zframe m m').
    { intros m1 d1 F1 Hd1 Hd2 T0 T1.
      pose proof (zoutside_terms k 0 _ _ _ _ _ m m1 Hr OX2 OY2 F1) as ET0. fold rs0 in ET0.
      pose proof (zoutside_terms k 1 _ _ _ _ _ m m1 Hr OX2 OY2 F1) as ET1. fold rs1 in ET1.
      pose proof (IH k tu N (X + n * (2 * iX)) iX (Y + n * (2 * iY)) iY (i + n) n d1 m1 us0 us1 (xs0 ++ zs0) (xs1 ++ zs1)) as R.
      cbv zeta in R. rewrite ET0, ET1 in R.
      assert (PM : forall xs ts zs : list (F t), Permutation (ts ++ xs ++ zs) ((xs ++ ts) ++ zs)).
      { intros xs ts zs. rewrite app_assoc, (Permutation_app_comm ts xs). reflexivity. }
      destruct R as (R0 & R1 & R2); auto; try lia.
      - intros FA. rewrite all_finite_app in FA. apply andb_true_iff in FA. destruct FA as [_ FA]. specialize (HC0 FA).
        rewrite !app_length in *. lia.
      - intros FA. rewrite all_finite_app in FA. apply andb_true_iff in FA. destruct FA as [_ FA]. specialize (HC1 FA).
        rewrite !app_length in *. lia.
      - split; [eapply cout_perm; [apply PM|exact R0]|]. split; [eapply cout_perm; [apply PM|exact R1]|].
        eapply zframe_trans; eauto. }
    pose proof (zscan_terms (amax_vec tu) k X iX Y iY m 0 n LA ltac:(lia)) as SC0.
    pose proof (zscan_terms (amax_vec tu) k X iX Y iY m 1 n LA ltac:(lia)) as SC1. cbv zeta in SC0, SC1.
    fold xs0 in SC0. fold xs1 in SC1.
    set (amax0 := zscan (nterms k) (amax_vec tu) n (zval k X iX Y iY m 0)) in *.
    set (amax1 := zscan (nterms k) (amax_vec tu) n (zval k X iX Y iY m 1)) in *. clearbody amax0 amax1.
    destruct SC0 as [SA0 SB0]. destruct SC1 as [SA1 SB1]. cbv zeta.
    assert (NP0 : forall a, a <> p -> in0 a -> True) by auto. clear NP0.
    pose proof (@in_p fold p (2 * ip) c (2 * ic) Hf) as IP0. pose proof (@in_p fold (p + 1) (2 * ip) (c + 1) (2 * ic) Hf) as IP1.
    destruct (stageA (p := p) (ip := 2 * ip) (c := c) (ic := 2 * ic) Hf us0 zs0 xs0 (nterms k * d) amax0 n (fun j m => at_elem (zwhole k 0) X iX Y iY m j) m S0 ltac:(nia) ltac:(lia) SB0) as (HH0 & B0 & F0).
    { intros j m' Hj HF. apply (zoutside_elem _ X iX Y iY n m m'); auto. intros a N0 N1. apply HF. intros ->. contradiction. }
    { intros h W. apply whole_fold; auto; lia. }
    cbv beta in HH0, B0, F0.
    set (m1 := if f_isinf amax0 || f_isinf (m p) then _ else m) in *. clearbody m1.
    assert (ZF1 : zframe m m1) by (intros a N0 N1; now apply F0).
    assert (S1' : cst1 us1 zs1 (nterms k * d) m1).
    { apply (@local_cst t fold (p + 1) (2 * ip) (c + 1) (2 * ic) Hf us1 zs1 _ m m1); auto. intros a I. now apply frame0_in1. }
    destruct (stageA (p := p + 1) (ip := 2 * ip) (c := c + 1) (ic := 2 * ic) Hf us1 zs1 xs1 (nterms k * d) amax1 n (fun j m => at_elem (zwhole k 1) X iX Y iY m j) m1 S1' ltac:(nia) ltac:(lia) SB1) as (HH1 & B1 & F1).
    { intros j m' Hj HF. apply (zoutside_elem _ X iX Y iY n m1 m'); auto. intros a N0 N1. apply HF. intros ->. contradiction. }
    { intros h W. unfold xs1. rewrite <- (zoutside_terms k 1 X iX Y iY n m m1); auto; [|lia]. apply whole_fold; auto; lia. }
    cbv beta in HH1, B1, F1.
    set (m2 := if f_isinf amax1 || f_isinf (m1 (p + 1)) then _ else m1) in *. clearbody m2.
    assert (EP : m2 p = m1 p) by (apply frame1_in0; auto).
    assert (B0' : Bst0 us0 zs0 (nterms k * d) (m2 p) m2).
    { rewrite EP. apply (@local_Bst t fold p (2 * ip) c (2 * ic) Hf us0 zs0 _ (m1 p) m1 m2); auto. intros a I. now apply frame1_in0. }
    rewrite <- EP in HH0. clear B0 EP.
    assert (ZF2 : zframe m m2) by (intros a N0 N1; rewrite F1 by auto; auto).
    clear S0 S1 S1' F0 F1 ZF1 m1.
    destruct (f_isnan (m2 p) && f_isnan (m2 (p + 1))) eqn:NN.
    { apply andb_true_iff in NN. destruct NN as [NN0 NN1].
      destruct (hfacts_step us0 zs0 0 xs0 rs0 amax0 p (2 * ip) c (2 * ic) m2 HH0) as [_ C0]; [destruct (m2 p); try discriminate; reflexivity|].
      destruct (hfacts_step us1 zs1 0 xs1 rs1 amax1 (p + 1) (2 * ip) (c + 1) (2 * ic) m2 HH1) as [_ C1]; [destruct (m2 (p + 1)); try discriminate; reflexivity|].
      split; [now apply C0|]. split; [now apply C1|exact ZF2]. }
    clear NN.
    destruct (f_isinf (m2 p) && f_isinf (m2 (p + 1))) eqn:II.
    { apply andb_true_iff in II. destruct II as [I0 I1]. apply REC; auto.
      - apply (hfacts_step us0 zs0 (nterms k * d) xs0 rs0 amax0 p (2 * ip) c (2 * ic) m2 HH0). destruct (m2 p); try discriminate; reflexivity.
      - apply (hfacts_step us1 zs1 (nterms k * d) xs1 rs1 amax1 (p + 1) (2 * ip) (c + 1) (2 * ic) m2 HH1). destruct (m2 (p + 1)); try discriminate; reflexivity. }
    clear II.
    pose proof (block_ok us0 us1 zs0 zs1 d k (dep_vec tu) n X iX Y iY amax0 amax1 m2 LV Hn Hn2 Hd HBd OX1 OY1) as BK.
    cbv zeta in BK. rewrite !(zoutside_terms k _ X iX Y iY n m m2) in BK by (auto; lia). fold xs0 xs1 in BK.
    specialize (BK SA0 SA1 HH0 HH1 B0' B1).
    assert (Q0 : is_finite (m2 p) = true -> all_finite zs0 = true -> Z.of_nat (length zs0) <= capacity t).
    { intros _ FZ. specialize (HC0 FZ). rewrite !app_length in HC0. lia. }
    assert (Q1 : is_finite (m2 (p + 1)) = true -> all_finite zs1 = true -> Z.of_nat (length zs1) <= capacity t).
    { intros _ FZ. specialize (HC1 FZ). rewrite !app_length in HC1. lia. }
    specialize (BK Q0 Q1).
    set (U0 := if ISNANINF (m2 p) then m2 p else amax0) in *. set (U1 := if ISNANINF (m2 (p + 1)) then m2 (p + 1) else amax1) in *.
    clearbody U0 U1. destruct (if ENDURANCE t / nterms k <? d + n then (zmrenorm fold p ip c ic m2, 0) else (m2, d)) as [m3 d3].
    set (m4 := zmzupdate fold U0 U1 p ip c ic m3) in *. clearbody m4.
    destruct (zkernel (nterms k) (dep_vec tu) fold n (zval k X iX Y iY m4) p ip m4) as [m5 q].
    set (m6 := if f_isinf U0 then upd m5 p U0 else m5) in *. set (m7 := if f_isinf U1 then upd m6 (p + 1) U1 else m6) in *.
    clearbody m7. destruct BK as (-> & Hd3 & HB3 & T0 & T1 & F3).
    apply REC; auto; [eapply zframe_trans; eauto|lia].
  Qed.
End ZLOOP.
