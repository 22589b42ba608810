(** * The generated scans compute the scan model *)
From Coq Require Import ZArith Bool List Lia.
From Flocq Require Import Core BinarySingleNaN.
From Verif Require Import Fp Mem Binned MemProofs ComplexProofs Gen GenProofs Blas BlasZ LaneProofs Emit EmitBits EmitExec EmitLevels EmitGroup EmitLoad EmitPrep EmitRun EmitStore EmitKernel.
Import ListNotations.
Open Scope Z_scope.

(** The values scanned are the magnitudes of these summands. *)
Definition akind {t} (two cx : bool) : kclass t := if two then (if cx then KDotU else KDot) else KSum.
Lemma akind_fits {t} two cx : fits (akind (t:=t) two cx) cx = true. Proof. destruct two, cx; reflexivity. Qed.
Lemma akind_width {t} v cx two n : areg_width (t:=t) v cx two n = reg_width v cx (akind (t:=t) two cx) n.
Proof. unfold areg_width, reg_width. destruct two, cx; reflexivity. Qed.
Lemma fabs_fneg {t} (x : F t) : fabs (fneg x) = fabs x. Proof. destruct x; reflexivity. Qed.

Section APrep.
  Context {t : ty}.
  Variables (v : isa) (cx : bool) (n : Z) (part : bool) (c : ctx).
  Hypothesis WF : wf_load v t cx n part (left c).
  Local Notation bs := (bsize v t).
  Local Notation h := (n * dsize cx / bsize v t).

  Lemma apreprocess_ok two lw ix iy (s : state t) : areg_width (t:=t) v cx two n <= lw ->
    (v = SISD -> cx && two = true -> (4 | lw)) ->
    let s' := execs c (apreprocess v cx two lw n ix iy part) s in
    snd s' = snd s /\
    (forall f, 0 <= f < areg_width (t:=t) v cx two n * bs -> flat v (fst s') RX f =
       fabs (pval (akind two cx) cx n (lv cx c (snd s) PX ix) (lv cx c (snd s) PY iy) fnan f)) /\
    (forall r, (forall i, r <> RX i) -> (forall i, r <> RY i) -> fst s' r = fst s r).
  Proof.
    intros Hlw EV. destruct (prep_h v cx n part c WF) as [H0 HB]. pose proof (bsize_pos v t) as BP.
    cbv zeta. unfold apreprocess. cbv zeta. rewrite !(ld_tab v cx n part (left c) _ _ WF).
    change (ax_vars lw) with (tab RX lw). unfold ay_vars. change (vars RY ?a) with (tab RY a).
    assert (XI : forall i i', RX i = RX i' -> i = i') by (intros i i' E; injection E; auto).
    assert (YI : forall i i', RY i = RY i' -> i = i') by (intros i i' E; injection E; auto).
    assert (LX : forall e p inc i l, 0 <= i < h -> 0 <= l < bs -> eval c (snd s) e (ld_e v cx part p inc i) l = lv cx c (snd s) p inc (i * bs + l)).
    { intros. apply (ld_val v cx n); auto. }
    assert (LR : forall p inc i r, ~ In r (reads (ld_e (t:=t) v cx part p inc i))) by (intros; rewrite (ld_reads v cx n part (left c)) by auto; intros []).
    unfold areg_width in *. destruct two; cbn [akind] in *; rewrite ?Z.mul_1_r in *.
    - assert (C : cx = true \/ cx = false) by (destruct cx; auto). destruct C as [C|C].
      + (* complex products *)
        assert (D2 : dsize cx = 2) by (rewrite C; reflexivity).
        assert (D3 : h * dsize cx = h * 2) by (rewrite D2 at 2; reflexivity). rewrite D3 in *.
        replace (if cx then lw / 2 else lw) with (lw / 2) by (rewrite C; reflexivity).
        match goal with |- context [if cx then ?A else ?B] => replace (if cx then A else B) with A by (rewrite C; reflexivity) end.
        replace (if cx then @KDotU t else KDot) with (@KDotU t) by (rewrite C; reflexivity).
        rewrite !execs_app.
        assert (ML : h * 2 / 2 = h) by (apply Z.div_mul; lia). rewrite ML.
        assert (LW2 : h <= lw / 2) by (rewrite <- ML; apply Z.div_le_mono; lia).
        destruct (load_line v cx n c RX (ld_e v cx part PX ix) lw s XI ltac:(lia) ltac:(intros; apply LR)) as (M & V & Fr).
        set (s1 := execs c _ s) in *. clearbody s1.
        destruct (load_line v cx n c RY (ld_e v cx part PY iy) (lw / 2) s1 YI ltac:(lia) ltac:(intros; apply LR)) as (M2 & V2 & Fr2).
        set (s2 := execs c _ s1) in *. clearbody s2.
        assert (EV' : v = SISD -> (4 | lw)) by (intros E; apply EV; [exact E|rewrite C; reflexivity]).
        assert (E2 : v = SISD -> (2 | lw)) by (intros E; destruct (EV' E) as [q ->]; exists (q * 2); ring).
        assert (E3 : v = SISD -> (2 | lw / 2)).
        { intros E. destruct (EV' E) as [q ->]. exists q. replace (q * 4) with (q * 2 * 2) by ring. apply Z.div_mul. lia. }
        assert (E4 : v = SISD -> (2 | h)) by (intros E; exists n; rewrite D2, E, sisd_bs, Z.div_1_r; reflexivity).
        rewrite swap_tab, odd_tab, even_tab by auto.
        tabs. rewrite !vabs_tab. rewrite !from_tab by lia. tabs.
        replace (Z.min (Z.min h lw) (Z.min lw (lw / 2))) with h by lia.
        replace (Z.min (Z.min (h * 2) lw - h) (Z.min lw (lw / 2))) with h by lia.
        match goal with |- context [execs c (tab (fun i => Let (RX i) (@?A i)) h) (execs c (tab (fun j => Let (RX (h + j)) (@?B j)) h) s2)] =>
          destruct (cross_ok v c A B (fun _ => fabs) (fun _ => fabs) h s2 H0 E4) as (C1 & C2 & C3 & C4) end.
        { intros i r Hr. rewrite abs_reads in Hr. cbn [reads app In] in Hr. destruct Hr as [<-|Hr]; [auto|]. apply even_reads in Hr. auto. }
        { intros i r Hi Hr. rewrite abs_reads in Hr. cbn [reads] in Hr. apply in_app_or in Hr. destruct Hr as [Hr|Hr]; [left; eapply swap_reads; eauto|right; eapply odd_reads; eauto]. }
        { intros m e i l Hl. rewrite abs_val. cbn [eval]. rewrite even_val by auto. reflexivity. }
        { intros m e i l Hl. rewrite abs_val. cbn [eval]. rewrite swap_val, odd_val by auto. reflexivity. }
        set (s3 := execs c _ s2) in *. set (s4 := execs c _ s3) in *. clearbody s4.
        assert (FX : forall f, 0 <= f < h * bs -> flat v (fst s2) RX f = lv cx c (snd s) PX ix f).
        { apply flat_of. intros i l Hi Hl. rewrite Fr2, V by (auto; intros; discriminate). apply LX; auto. }
        assert (FY : forall f, 0 <= f < h * bs -> flat v (fst s2) RY f = lv cx c (snd s) PY iy f).
        { apply flat_of. intros i l Hi Hl. rewrite V2, M by auto. apply LX; auto. }
        assert (EB : (2 | h * bs)) by (rewrite HB, D2; exists n; reflexivity).
        split; [congruence|]. split; [|intros r R1 R2; rewrite C4, Fr2, Fr; auto].
        intros f Hf. unfold pval. rewrite <- HB. destruct (Z.ltb_spec f (h * bs)) as [L|L].
        * rewrite C2 by lia. pose proof (pair_bound f _ EB ltac:(lia)). rewrite FX, FY by lia. reflexivity.
        * assert (L2 : 0 <= f - h * bs < h * bs) by lia. rewrite C3 by lia. cbv zeta.
          pose proof (pair_bound _ _ EB L2). pose proof (swapped_bound _ _ EB L2). rewrite FX, FY by lia.
          destruct (_ =? 1); [reflexivity|]. rewrite fabs_fneg. reflexivity.
      + assert (D1 : h * dsize cx = h) by (rewrite C at 2; apply Z.mul_1_r). rewrite D1 in *.
        replace (if cx then lw / 2 else lw) with lw by (rewrite C; reflexivity).
        match goal with |- context [if cx then ?A else ?B] => replace (if cx then A else B) with B by (rewrite C; reflexivity) end.
        replace (if cx then @KDotU t else KDot) with (@KDot t) by (rewrite C; reflexivity).
        rewrite !execs_app.
        destruct (load_line v cx n c RX (ld_e v cx part PX ix) lw s XI Hlw ltac:(intros; apply LR)) as (M & V & Fr).
        set (s1 := execs c _ s) in *. clearbody s1.
        destruct (load_line v cx n c RY (ld_e v cx part PY iy) lw s1 YI Hlw ltac:(intros; apply LR)) as (M2 & V2 & Fr2).
        set (s2 := execs c _ s1) in *. clearbody s2.
        tabs. rewrite vabs_tab. tabs. replace (Z.min lw (Z.min lw (Z.min h lw))) with h by lia.
        destruct (exec_tab c RX (abs_e v (fun i => VMul (VReg (RX i)) (VReg (RY i)))) h s2) as (M3 & V3 & F3); [side|intros i i' Hi Hi'; rewrite abs_reads; side|].
        set (s3 := execs c _ s2) in *. clearbody s3. split; [congruence|]. split.
        * intros f Hf. unfold pval. revert f Hf. apply (flat_of v _ _ _ (fun f => fabs (fmul (lv cx c (snd s) PX ix f) (lv cx c (snd s) PY iy f)))).
          intros i l Hi Hl. rewrite V3, abs_val by auto. cbn [eval]. rewrite Fr2 by (intros; discriminate). rewrite V, V2, M by auto. do 2 f_equal; apply LX; auto.
        * intros r R1 R2. rewrite F3, Fr2, Fr; auto.
    - rewrite vabs_tab. destruct (load_line v cx n c RX (abs_e v (ld_e v cx part PX ix)) lw s XI Hlw ltac:(intros; rewrite abs_reads; apply LR)) as (M & V & Fr).
      set (s1 := execs c _ s) in *. clearbody s1. split; [exact M|]. split; [|intros; apply Fr; auto].
      intros f Hf. unfold pval. revert f Hf. apply (flat_of v _ _ _ (fun f => fabs (lv cx c (snd s) PX ix f))). intros i l Hi Hl. rewrite V, abs_val by auto. f_equal. apply LX; auto.
  Qed.
End APrep.

Lemma fold_none {A} (g : A -> Z -> A) (p : Z -> bool) l : (forall x, In x l -> p x = false) -> forall a, fold_left (fun a x => if p x then g a x else a) l a = a.
Proof. induction l as [|x l IH]; intros H a; [reflexivity|]. cbn [fold_left]. rewrite H by (left; auto). apply IH. intros; apply H; right; auto. Qed.
Lemma fold_mod {A} (g : A -> Z -> A) P r : 0 <= r < P -> forall (G : nat) a,
  fold_left (fun a x => if r =? x mod P then g a x else a) (zseq 0 (Z.of_nat G * P)) a = fold_left (fun a i => g a (i * P + r)) (zseq 0 (Z.of_nat G)) a.
Proof.
  intros Hr. induction G as [|G IH]; intros a; [reflexivity|].
  replace (Z.of_nat (S G) * P) with (Z.of_nat G * P + (r + (1 + (P - 1 - r)))) by lia. replace (Z.of_nat (S G)) with (Z.of_nat G + 1) by lia.
  rewrite !zseq_app, !fold_left_app by nia. rewrite IH. rewrite !Z.add_0_l. rewrite (zseq_cons (Z.of_nat G)), (zseq_nil _ (1 - 1)) by lia. cbn [fold_left].
  set (b := fold_left _ (zseq 0 (Z.of_nat G)) a). clearbody b. rewrite (zseq_cons (Z.of_nat G * P + r) 1), (zseq_nil _ (1 - 1)) by lia. cbn [fold_left].
  assert (M : forall x, Z.of_nat G * P <= x < Z.of_nat G * P + P -> (r =? x mod P) = (x =? Z.of_nat G * P + r)).
  { intros x Hx. replace (x mod P) with (x - Z.of_nat G * P). { destruct (Z.eqb_spec r (x - Z.of_nat G * P)), (Z.eqb_spec x (Z.of_nat G * P + r)); lia. }
    apply (Z.mod_unique x P (Z.of_nat G)); lia. }
  rewrite (fold_none g (fun x => r =? x mod P) (zseq (Z.of_nat G * P) r)).
  2:{ intros x Hx. apply zseq_In in Hx. rewrite M by lia. apply Z.eqb_neq. lia. }
  rewrite M, Z.eqb_refl by lia. apply (fold_none g (fun x => r =? x mod P)).
  intros x Hx. apply zseq_In in Hx. rewrite M by lia. apply Z.eqb_neq. lia.
Qed.

Lemma maxes_ok {t} c suf (s : state t) (reg : nat) : 0 < suf ->
  let s' := execs c (tab (fun i => Let (RM (i mod suf)) (VMax (VReg (RM (i mod suf))) (VReg (RX i)))) (Z.of_nat reg)) s in
  snd s' = snd s /\
  (forall j l, fst s' (RM j) l = fold_left (fun a i => if j =? i mod suf then fmax a (fst s (RX i) l) else a) (zseq 0 (Z.of_nat reg)) (fst s (RM j) l)) /\
  (forall r, (forall i, r <> RM i) -> fst s' r = fst s r).
Proof.
  intros Hs. induction reg as [|reg IH]; cbv zeta. { split; [reflexivity|]. split; reflexivity. }
  destruct IH as (I1 & I2 & I3). rewrite tab_snoc, execs_app by lia. replace (Z.of_nat (S reg) - 1) with (Z.of_nat reg) by lia.
  set (s1 := execs c (tab _ (Z.of_nat reg)) s) in *. clearbody s1. rewrite one_reg. cbn [fst snd]. split; [exact I1|].
  replace (Z.of_nat (S reg)) with (Z.of_nat reg + 1) by lia. rewrite zseq_app by lia. rewrite Z.add_0_l, (zseq_cons (Z.of_nat reg)), (zseq_nil _ (1 - 1)) by lia. split.
  - intros j l. rewrite fold_left_app. cbn [fold_left]. rewrite <- I2. destruct (Z.eqb_spec j (Z.of_nat reg mod suf)) as [->|N].
    + rewrite set_same. cbn [eval]. rewrite (I3 (RX _)) by discriminate. reflexivity.
    + rewrite set_other by (intros E; injection E; auto). reflexivity.
  - intros r Hr. rewrite set_other by auto. apply I3. exact Hr.
Qed.

Section Scans.
  Context {t : ty}.
  Variables (v : isa) (cx two : bool) (unroll : Z).
  Local Notation ts := (tsize v t cx).
  Local Notation bs := (bsize v t).
  Local Notation ds := (dsize cx).
  Local Notation k := (akind (t:=t) two cx).
  Local Notation nt := (nsum k cx).
  Local Notation lanes := (Z.max ts 1).
  Local Notation suf := (suf_width v cx).
  Hypothesis LEGAL : legal_avec (AVec ts unroll).
  Variables (X incX Y incY acc : Z) (ix iy : incr).
  Hypothesis IX : incv ix = incX.
  Hypothesis IY : two = true -> incv iy = incY.

  Lemma suf_lanes : suf * bs = lanes * ds /\ 0 < suf.
  Proof.
    clear. pose proof (suf_pos v cx). split; [|assumption].
    destruct v, t, cx; reflexivity.
  Qed.

  (** One step of the model's scan, component q. *)
  Definition mstep (m : mem t) (q : Z) (st : Z -> F t) (e : Z * src) (l : Z) : F t :=
    if l =? fst e then fmax (st l) (fabs (gkval cx k X incX Y incY m q (snd e))) else st l.

  Lemma lane_steps m q (c : call) (L : Z) G st : 0 <= L < lanes -> nt * size c = Z.of_nat G * lanes ->
    fold_left (mstep m q) (zamax_events nt lanes c) st L =
    fold_left (fun a g => fmax a (fabs (gkval cx k X incX Y incY m q (summand nt c (g * lanes + L))))) (zseq 0 (Z.of_nat G)) (st L).
  Proof.
    intros HL HG. unfold zamax_events. rewrite fold_map. rewrite <- (fold_mod (fun a x => fmax a (fabs (gkval cx k X incX Y incY m q (summand nt c x)))) lanes L HL), <- HG.
    generalize (zseq 0 (nt * size c)) as l. intros l. revert st. induction l as [|x l IH]; intros st; [reflexivity|]. cbn [fold_left]. rewrite IH. reflexivity.
  Qed.

  Lemma scan_body_ok (s : state t) c (st : Z -> Z -> F t) : shape ts unroll c ->
    (forall l q, 0 <= l < lanes -> 0 <= q < ds -> flat v (fst s) RM (l * ds + q) = st q l) ->
    let s' := execs (body_ctx cx X incX Y incY acc c) (abody v cx two unroll ix iy (size c) (negb (cnt c =? size c))) s in
    snd s' = snd s /\
    (forall l q, 0 <= l < lanes -> 0 <= q < ds -> flat v (fst s') RM (l * ds + q) = fold_left (mstep (snd s) q) (zamax_events nt lanes c) (st q) l).
  Proof.
    intros SH HS. cbv zeta. destruct LEGAL as (Ht & Hu & Hd). cbn [a_type_size a_unroll] in *.
    pose proof (bsize_pos v t) as BP. pose proof (dsize_pos cx) as DP. destruct suf_lanes as (SL & SP). pose proof (nsum_pos k cx) as NP.
    set (n := size c) in *. set (part := negb (cnt c =? n)) in *. set (cc := body_ctx cx X incX Y incY acc c).
    assert (F : (lanes | n) /\ 0 < n <= unroll /\ wf_load v t cx n part (left cc)).
    { destruct SH as [C S]. fold n in C, S.
      assert (DV : (lanes | n)).
      { destruct S as [[_ [->|(q & Hq & E & _ & T)]]|[-> L]].
        - exact Hd.
        - apply width_divides; [apply tsize_width| |lia]. exists q. auto.
        - rewrite Z.max_l by lia. apply Z.divide_refl. }
      assert (TU : lanes <= unroll) by (apply Z.divide_pos_le; [lia|exact Hd]).
      split; [exact DV|]. split.
      { split; [lia|]. destruct S as [[_ [->|(q & Hq & E & L & T)]]|[E L]]; lia. }
      unfold wf_load. split; [lia|]. split; [exact DV|]. unfold part. cbn [left cc body_ctx]. destruct (Z.eqb_spec (cnt c) n); cbn [negb]; [assumption|].
      destruct S as [[E _]|[E L]]; [lia|]. lia. }
    destruct F as (DV & NB & WF).
    assert (AB : abody (t:=t) v cx two unroll ix iy n part = apreprocess v cx two (areg_width (t:=t) v cx two unroll) n ix iy part ++ aprocess v cx (areg_width (t:=t) v cx two unroll) (areg_width (t:=t) v cx two n)).
    { unfold abody. cbv zeta. destruct part; [|reflexivity]. destruct WF as (_ & _ & E & _). rewrite <- E. reflexivity. }
    rewrite AB, execs_app.
    assert (RW : areg_width (t:=t) v cx two n * bs = nt * n * ds) by (rewrite akind_width; apply rw_mul; exact DV).
    assert (RL : 0 <= areg_width (t:=t) v cx two n <= areg_width (t:=t) v cx two unroll) by (rewrite !akind_width; apply rw_le; lia).
    destruct (apreprocess_ok v cx n part cc WF two (areg_width (t:=t) v cx two unroll) ix iy s (proj2 RL)) as (P1 & P2 & P3).
    { intros E1 E2. apply andb_true_iff in E2. destruct E2 as [E2 E3]. unfold areg_width. rewrite E1, E2, E3, sisd_bs, Z.div_1_r. cbn [dsize]. exists unroll. ring. }
    set (s1 := execs cc _ s) in *. clearbody s1.
    set (reg := areg_width (t:=t) v cx two n) in *.
    assert (AP : aprocess (t:=t) v cx (areg_width (t:=t) v cx two unroll) reg = tab (fun i => Let (RM (i mod suf)) (VMax (VReg (RM (i mod suf))) (VReg (RX i)))) reg).
    { unfold aprocess. cbv zeta. change (ax_vars ?w) with (tab RX w). change (m_vars v cx) with (tab RM suf). rewrite upto_tab, tab_length, Z.min_l by lia.
      rewrite cycle_tab by exact SP. unfold set_equal, vmax, rd. rewrite !tab_map, !zipw_tab, !Z.min_id. reflexivity. }
    rewrite AP. clear AP AB.
    pose proof (maxes_ok cc suf s1 (Z.to_nat reg) SP) as MX. cbv zeta in MX. rewrite Z2Nat.id in MX by lia. destruct MX as (Q1 & Q2 & _).
    set (s2 := execs cc _ s1) in *. clearbody s2. split; [congruence|].
    intros l q Hl Hq. destruct DV as [g0 Eg]. assert (0 <= g0) by nia.
    set (G := Z.to_nat (nt * g0)). assert (EG : nt * n = Z.of_nat G * lanes) by (unfold G; rewrite Z2Nat.id by nia; rewrite Eg; ring).
    rewrite (lane_steps (snd s) q c l G) by (auto). rewrite <- HS by auto.
    assert (ER : reg = Z.of_nat G * suf).
    { apply (Z.mul_reg_r _ _ bs); [lia|]. transitivity (Z.of_nat G * (suf * bs)); [rewrite RW, SL, EG; ring|ring]. }
    assert (B : 0 <= l * ds + q < suf * bs) by (rewrite SL; nia). destruct (pos_bs v t _ suf B) as (B1 & B2 & B3).
    unfold flat. set (j := (l * ds + q) / bs) in *. set (kk := (l * ds + q) mod bs) in *.
    rewrite Q2, ER. rewrite (fold_mod (fun a i => fmax a (fst s1 (RX i) kk)) suf j B1). rewrite P3 by discriminate.
    apply fold_ext. intros b g Hg. apply zseq_In in Hg. f_equal.
    assert (EF : (g * suf + j) * bs + kk = (g * lanes + l) * ds + q) by nia.
    rewrite <- (flat_at v (fst s1) RX) by exact B2. rewrite EF.
    assert (BF : 0 <= (g * lanes + l) * ds + q < reg * bs).
    { rewrite RW, EG. split; [nia|]. assert (g * lanes + l < Z.of_nat G * lanes) by nia. nia. }
    rewrite P2 by exact BF. f_equal.
    assert (LVX : forall f, lv cx cc (snd s) PX ix f = lv cx cc (snd s) PX (branch_inc incX) f).
    { intros f. unfold lv. rewrite !index_elems, incv_branch, IX. reflexivity. }
    assert (LVY : two = true -> forall f, lv cx cc (snd s) PY iy f = lv cx cc (snd s) PY (branch_inc incY) f).
    { intros E f. unfold lv. rewrite !index_elems, incv_branch, (IY E). reflexivity. }
    assert (PV : forall f, pval k cx n (lv cx cc (snd s) PX ix) (lv cx cc (snd s) PY iy) fnan f = pval k cx n (lv cx cc (snd s) PX (branch_inc incX)) (lv cx cc (snd s) PY (branch_inc incY)) fnan f).
    { intros f. assert (T : two = true \/ two = false) by (destruct two; auto). destruct T as [T|T].
      - replace (akind (t:=t) two cx) with (if cx then @KDotU t else KDot) by (unfold akind; rewrite T; reflexivity). destruct (Bool.bool_dec cx true) as [E|E].
        + replace (if cx then @KDotU t else KDot) with (@KDotU t) by (rewrite E; reflexivity). unfold pval. rewrite !LVX, !(LVY T). reflexivity.
        + apply Bool.not_true_is_false in E. replace (if cx then @KDotU t else KDot) with (@KDot t) by (rewrite E; reflexivity). unfold pval. rewrite !LVX, !(LVY T). reflexivity.
      - replace (akind (t:=t) two cx) with (@KSum t) by (unfold akind; rewrite T; reflexivity). unfold pval. apply LVX. }
    rewrite PV. unfold cc, n. rewrite (pval_val k cx X incX Y incY acc c (snd s) fnan).
    - fold n. rewrite Z.add_comm, Z.mod_add, Z.div_add by lia. rewrite Z.mod_small, Z.div_small, Z.add_0_l by lia. reflexivity.
    - apply akind_fits.
    - intros scl. unfold akind. destruct two, cx; discriminate.
    - fold n. rewrite <- RW. exact BF.
    - destruct SH. lia.
  Qed.

  Lemma scans_ok cs : Forall (shape ts unroll) cs -> forall (s : state t) (st : Z -> Z -> F t),
    (forall l q, 0 <= l < lanes -> 0 <= q < ds -> flat v (fst s) RM (l * ds + q) = st q l) ->
    let s' := fold_left (fun s c => execs (body_ctx cx X incX Y incY acc c) (abody v cx two unroll ix iy (size c) (negb (cnt c =? size c))) s) cs s in
    snd s' = snd s /\
    (forall l q, 0 <= l < lanes -> 0 <= q < ds -> flat v (fst s') RM (l * ds + q) = fold_left (mstep (snd s) q) (flat_map (zamax_events nt lanes) cs) (st q) l).
  Proof.
    induction 1 as [|c cs Hc _ IH]; intros s st HS; cbv zeta; [split; [reflexivity|exact HS]|]. cbn [fold_left flat_map].
    destruct (scan_body_ok s c st Hc HS) as (A & B). set (s1 := execs _ _ s) in *. clearbody s1.
    destruct (IH s1 (fun q => fold_left (mstep (snd s) q) (zamax_events nt lanes c) (st q)) B) as (C & D). cbv zeta in C, D.
    split; [congruence|]. intros l q Hl Hq. rewrite D by auto. rewrite A, fold_left_app. reflexivity.
  Qed.
End Scans.

(** The maximum over the lanes of one register. *)
Lemma lane_maxes {t} c d (s : state t) (K : nat) : 0 < d ->
  let s' := execs c (map (fun i => LetLane RMaxBuf (i mod d) (SMax (SLane RMaxBuf (i mod d)) (SLane RMaxBuf i))) (zseq d (Z.of_nat K))) s in
  snd s' = snd s /\ (forall l, d <= l -> fst s' RMaxBuf l = fst s RMaxBuf l) /\
  (forall q, 0 <= q < d -> fst s' RMaxBuf q = fold_left (fun a i => if q =? i mod d then fmax a (fst s RMaxBuf (i + d)) else a) (zseq 0 (Z.of_nat K)) (fst s RMaxBuf q)).
Proof.
  intros Hd. induction K as [|K IH]; cbv zeta. { split; [reflexivity|]. split; reflexivity. }
  destruct IH as (I1 & I2 & I3). replace (Z.of_nat (S K)) with (Z.of_nat K + 1) by lia. rewrite !zseq_app by lia. rewrite map_app, execs_app.
  set (s1 := execs c (map _ (zseq d (Z.of_nat K))) s) in *. clearbody s1. rewrite Z.add_0_l.
  rewrite (zseq_cons (d + Z.of_nat K)), (zseq_nil _ (1 - 1)) by lia. cbn [map execs fold_left].
  pose proof (Z.mod_pos_bound (d + Z.of_nat K) d Hd) as MB.
  destruct s1 as [e1 m1]. cbn [exec fst snd] in *. split; [exact I1|]. cbn [eval_s].
  split.
  - intros l Hl. rewrite set_same. destruct (Z.eqb_spec l ((d + Z.of_nat K) mod d)); [lia|]. auto.
  - intros q Hq. rewrite set_same, fold_left_app. rewrite <- I3 by exact Hq. rewrite (zseq_cons (Z.of_nat K)), (zseq_nil _ (1 - 1)) by lia. cbn [fold_left].
    replace ((d + Z.of_nat K) mod d) with (Z.of_nat K mod d) by (rewrite <- (Z.mod_add (Z.of_nat K) 1 d) by lia; f_equal; ring).
    destruct (Z.eqb_spec q (Z.of_nat K mod d)) as [E|E]; [|reflexivity]. rewrite <- E. unfold fmax. rewrite (I2 (d + _)) by lia. rewrite (Z.add_comm d). reflexivity.
Qed.

Theorem emitted_scan_ok {t} v (cx two : bool) unroll n X incX Y incY acc e (m : mem t) :
  legal_avec (AVec (tsize v t cx) unroll) -> 0 <= n ->
  emitted_scan v cx two unroll n X incX Y incY acc e m =
  if cx then
    let S q := zscan (if two then 2 else 1) (AVec (tsize v t cx) unroll) n (zval (if two then ZDotU else ZSum) X incX Y incY m q) in
    upd (upd m acc (S 0)) (acc + 1) (S 1)
  else upd m acc (scan (AVec (tsize v t cx) unroll) n (val (if two then Dot else Sum) X incX Y incY m)).
Proof.
  intros LEGAL Hn. unfold emitted_scan. cbv zeta.
  set (c0 := Ctx (fun p => match p with PX => X | PY => Y | PAcc => acc end) n).
  set (all1 := (incX =? 1) && (negb two || (incY =? 1))).
  assert (IX : incv (if all1 then One else Var incX) = incX).
  { destruct all1 eqn:E; [|reflexivity]. apply andb_true_iff in E. destruct E as [E _]. apply Z.eqb_eq in E. symmetry. exact E. }
  assert (IY : two = true -> incv (if all1 then One else Var incY) = incY).
  { intros T. destruct all1 eqn:E; [|reflexivity]. apply andb_true_iff in E. destruct E as [_ E]. rewrite T in E. cbn [negb orb] in E. apply Z.eqb_eq in E. symmetry. exact E. }
  set (ix := if all1 then One else Var incX) in *. set (iy := if all1 then One else Var incY) in *. clearbody ix iy all1.
  destruct (suf_lanes (t:=t) v cx) as (SL & SP). pose proof (bsize_pos v t) as BP. pose proof (dsize_pos cx) as DSP.
  (* the variables start at zero *)
  assert (INIT : let s0 := execs c0 (set_equal (m_vars v cx) (repeat (vzero v) (length (m_vars v cx)))) (e, m) in
     snd s0 = m /\ forall i l, 0 <= i < suf_width v cx -> fst s0 (RM i) l = fzero).
  { cbv zeta. split; [destruct v, cx; reflexivity|]. intros i l Hi. destruct v, cx; unfold suf_width, dsize in Hi;
      (assert (i = 0 \/ i = 1) as [-> | ->] by lia; try lia; reflexivity). }
  cbv zeta in INIT. set (s0 := execs c0 (set_equal _ _) (e, m)) in *. clearbody s0. destruct INIT as (M0 & Z0).
  pose proof LEGAL as (Ht & Hu & Hd). cbn [a_type_size a_unroll] in Ht, Hu, Hd.
  pose proof (unrolled_cover (tsize v t cx) unroll n Ht Hu Hd Hn) as U.
  set (lanes := Z.max (tsize v t cx) 1) in *.
  assert (ZE : forall nt, zscan_events nt (AVec (tsize v t cx) unroll) n = let '(cs, _) := run_unrolled (tsize v t cx) unroll n in flat_map (zamax_events nt lanes) cs) by reflexivity.
  assert (RE : scan_events (AVec (tsize v t cx) unroll) n = let '(cs, _) := run_unrolled (tsize v t cx) unroll n in flat_map (amax_events lanes) cs) by reflexivity.
  destruct (run_unrolled (tsize v t cx) unroll n) as [cs p]. destruct U as (_ & _ & SH).
  destruct (scans_ok v cx two unroll LEGAL X incX Y incY acc ix iy IX IY cs SH s0 (fun _ _ => fzero)) as (A & B).
  { intros l q Hl Hq. assert (B : 0 <= l * dsize cx + q < suf_width v cx * bsize v t) by (rewrite SL; fold lanes; nia). destruct (pos_bs v t _ _ B) as (B1 & _).
    unfold flat. apply Z0. exact B1. }
  cbv zeta in A, B. set (s1 := fold_left _ cs s0) in *. clearbody s1. rewrite M0 in A, B. fold lanes in B.
  set (nt := nsum (akind (t:=t) two cx) cx) in *.
  set (st := fun q => fold_left (mstep cx two X incX Y incY m q) (flat_map (zamax_events nt lanes) cs) (fun _ => fzero)).
  assert (B' : forall l q, 0 <= l < lanes -> 0 <= q < dsize cx -> flat v (fst s1) RM (l * dsize cx + q) = st q l) by (intros l q Hl Hq; rewrite B by auto; reflexivity).
  clear B. rename B' into B.
  (* the final merge *)
  set (T := fun q => fold_left (fun b l => fmax b (st q l)) (zseq 1 (lanes - 1)) (st q 0)).
  assert (FIN : snd (execs c0 (max_into v cx 0 One (m_vars v cx)) s1) = if cx then upd (upd m acc (T 0)) (acc + 1) (T 1) else upd m acc (T 0)).
  { assert (I0 : index cx 0 One 0 = 0) by (destruct cx; reflexivity). assert (I1 : cx = true -> index cx 0 One 1 = 1) by (intros ->; reflexivity).
    destruct (vector v) eqn:EV.
    - assert (BS : bsize v t = lanes * dsize cx) by (rewrite <- SL; destruct v; [discriminate| |]; cbn [suf_width]; ring).
      assert (L1 : 1 <= lanes) by (unfold lanes; lia).
      assert (MI : max_into (t:=t) v cx 0 One (m_vars v cx) = [Let RMaxBuf (VReg (RM 0))] ++
        map (fun i => LetLane RMaxBuf (i mod dsize cx) (SMax (SLane RMaxBuf (i mod dsize cx)) (SLane RMaxBuf i))) (zseq (dsize cx) (Z.of_nat (Z.to_nat ((lanes - 1) * dsize cx)))) ++
        map (fun i => Store PAcc (index cx 0 One i) (SLane RMaxBuf i)) (zseq 0 (dsize cx))).
      { rewrite Z2Nat.id by nia. replace ((lanes - 1) * dsize cx) with (bsize v t - dsize cx) by (rewrite BS; ring). unfold max_into. destruct v; [discriminate| |]; reflexivity. }
      rewrite MI, !execs_app. clear MI. rewrite one_reg. set (s2 := (set_reg (fst s1) _ _, snd s1)).
      destruct (lane_maxes c0 (dsize cx) s2 (Z.to_nat ((lanes - 1) * dsize cx)) DSP) as (Q1 & _ & Q2). cbv zeta in Q1, Q2.
      set (s3 := execs c0 _ s2) in *. clearbody s3.
      assert (R : forall q, 0 <= q < dsize cx -> fst s3 RMaxBuf q = T q).
      { intros q Hq. rewrite Q2 by exact Hq. rewrite Z2Nat.id by nia.
        replace ((lanes - 1) * dsize cx) with (Z.of_nat (Z.to_nat (lanes - 1)) * dsize cx) by (rewrite Z2Nat.id by lia; reflexivity).
        rewrite (fold_mod (fun a i => fmax a (fst s2 RMaxBuf (i + dsize cx))) (dsize cx) q Hq). rewrite Z2Nat.id by lia.
        unfold T. rewrite (zseq_from0 1), fold_map.
        assert (V : forall l, 0 <= l < lanes -> fst s2 RMaxBuf (l * dsize cx + q) = st q l).
        { intros l Hl. unfold s2. cbn [fst]. rewrite set_same. cbn [eval]. rewrite <- B by auto. rewrite <- (Z.add_0_l (l * dsize cx + q)) at 1.
          unfold flat. rewrite Z.div_small, Z.mod_small by (rewrite BS; nia). reflexivity. }
        replace (fst s2 RMaxBuf q) with (st q 0) by (rewrite <- V by lia; reflexivity).
        apply fold_ext. intros b l Hl. apply zseq_In in Hl. f_equal. rewrite <- V by lia. f_equal. ring. }
      unfold execs. destruct s3 as [e3 m3]. cbn [fst snd] in *. destruct cx.
      + cbn [dsize] in *. change (zseq 0 2) with [0; 1]. cbn [map fold_left exec snd eval_s]. rewrite I0, I1 by reflexivity. cbn [at_ c0]. rewrite Z.add_0_r, !R by lia. rewrite Q1. unfold s2. cbn [snd]. rewrite A. reflexivity.
      + cbn [dsize] in *. change (zseq 0 1) with [0]. cbn [map fold_left exec snd eval_s]. rewrite I0. cbn [at_ c0]. rewrite Z.add_0_r, !R by lia. rewrite Q1. unfold s2. cbn [snd]. rewrite A. reflexivity.
    - destruct v; try discriminate. assert (L1 : lanes = 1) by (unfold lanes; destruct cx, t; reflexivity).
      assert (R : forall q, 0 <= q < dsize cx -> fst s1 (RM q) 0 = T q).
      { intros q Hq. unfold T. rewrite L1. change (zseq 1 (1 - 1)) with (@nil Z). cbn [fold_left]. rewrite <- B by lia. unfold flat. rewrite sisd_bs, Z.div_1_r, Z.mod_1_r. reflexivity. }
      unfold execs. destruct s1 as [e3 m3]. cbn [fst snd] in *. destruct cx.
      + cbn [dsize] in *. unfold max_into. change (zseq 0 (dsize true)) with [0; 1]. change (m_vars SISD true) with [RM 0; RM 1]. cbn [map fold_left exec snd eval_s]. rewrite I0, I1 by reflexivity.
        cbn [at_ c0]. change (nth (Z.to_nat 0) [RM 0; RM 1] RCons) with (RM 0). change (nth (Z.to_nat 1) [RM 0; RM 1] RCons) with (RM 1). rewrite Z.add_0_r, !R by lia. rewrite A. reflexivity.
      + cbn [dsize] in *. unfold max_into. change (zseq 0 (dsize false)) with [0]. change (m_vars SISD false) with [RM 0]. cbn [map fold_left exec snd eval_s]. rewrite I0.
        cbn [at_ c0]. change (nth (Z.to_nat 0) [RM 0] RCons) with (RM 0). rewrite Z.add_0_r, !R by lia. rewrite A. reflexivity. }
  rewrite FIN. clear FIN. destruct cx.
  - cbv zeta. assert (E : forall q, T q = zscan (if two then 2 else 1) (AVec (tsize v t true) unroll) n (zval (if two then ZDotU else ZSum) X incX Y incY m q)); [|rewrite !E; reflexivity].
    intros q. unfold T, zscan. rewrite ZE. fold lanes. unfold st, mstep, nt. destruct two; reflexivity.
  - assert (E : T 0 = scan (AVec (tsize v t false) unroll) n (val (if two then Dot else Sum) X incX Y incY m)); [|rewrite E; reflexivity].
    unfold T, scan. rewrite RE. cbn [a_type_size]. fold lanes. unfold st.
    assert (N1 : nt = 1) by (unfold nt; destruct two; reflexivity). rewrite N1.
    assert (EV : flat_map (amax_events lanes) cs = map (fun ev => (fst ev, opt (snd ev))) (flat_map (zamax_events 1 lanes) cs)).
    { rewrite !flat_map_concat_map, concat_map, map_map. f_equal. apply map_ext_in. intros c Hc. unfold amax_events, zamax_events. rewrite Z.mul_1_l, map_map.
      apply map_ext_in. intros l Hl. apply zseq_In in Hl. cbn [fst snd]. f_equal.
      unfold summand. assert (Bd : 0 <= l < size c) by lia. rewrite Z.mod_small, Z.div_small by exact Bd. destruct (_ <? _); [|reflexivity]. cbn [opt]. f_equal. ring. }
    rewrite EV, fold_map. unfold mstep. destruct two; reflexivity.
Qed.

(** The conjugated dot product has the same scan: the sign is dropped. *)
Lemma zscan_conj {t} v n X incX Y incY (m : mem t) q : zscan 2 v n (zval ZDotU X incX Y incY m q) = zscan 2 v n (zval ZDotC X incX Y incY m q).
Proof.
  assert (E : forall s, fabs (zval ZDotU X incX Y incY m q s) = fabs (zval ZDotC X incX Y incY m q s)).
  { intros s. unfold zval, at_elem, zterm. destruct s; cbn [nterms]; repeat destruct (_ =? _); rewrite ?fabs_fneg; reflexivity. }
  unfold zscan.
  assert (G : forall l (st : Z -> F t), fold_left (fun st ev l => if l =? fst ev then fmax (st l) (fabs (zval ZDotU X incX Y incY m q (snd ev))) else st l) l st =
     fold_left (fun st ev l => if l =? fst ev then fmax (st l) (fabs (zval ZDotC X incX Y incY m q (snd ev))) else st l) l st).
  { induction l as [|ev l IH]; intros st; [reflexivity|]. cbn [fold_left]. rewrite E. apply IH. }
  rewrite G. reflexivity.
Qed.
