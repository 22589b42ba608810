(** * Merging scaled accumulators (dmdmaddsq) *)
From Coq Require Import ZArith Bool List Lia Permutation Reals Lra.
From Flocq Require Import Core BinarySingleNaN.
From Verif Require Import Fp Mem Binned Spec FpProofs BitProofs CoreArith SpecProofs WordProofs MemProofs AccProofs SumProofs ReduceProofs DriverProofs ScaleProofs RescaleProofs Ssq SsqProofs.
Import ListNotations.
Open Scope Z_scope.

Lemma app_inv_len {A} (a b c d : list A) : length a = length c -> a ++ b = c ++ d -> a = c /\ b = d.
Proof.
  revert c. induction a as [|x a IH]; intros [|y c] HL E; try discriminate; [auto|]. injection HL as HL. injection E as -> E.
  destruct (IH c HL E) as [-> ->]. auto.
Qed.
(** An accumulator whose words are known up to bin lm only. *)
Definition racc (t : ty) (fold lm k : Z) (V C : Z -> Z) (P W : Z -> F t) : Prop :=
  0 <= k <= jmax t /\ feq (P 0) fzero = false /\ ISNANINF (P 0) = false /\ dmindex (P 0) = k /\
  (forall j, 0 <= j < k -> j <= lm -> V j = 0 /\ C j = 0) /\
  forall i, 0 <= i < fold -> k + i <= lm ->
    priw t (k + i) (6 * quarter t + V (k + i)) (P i) /\ carw t (C (k + i)) (W i).
Lemma acc_racc t fold lm k V C P W : 1 <= fold -> acc t fold k V C P W -> inbin t (6 * quarter t + V k) ->
  zero_below k V -> zero_below k C -> racc t fold lm k V C P W.
Proof.
  intros Hf A B ZV ZC. destruct (priw_0 _ _ _ _ _ _ _ A Hf B) as (A1 & A2 & A3 & _). destruct A as [Hk A].
  split; [exact Hk|]. split; [exact A1|]. split; [exact A2|]. split; [exact A3|]. split; [|intros i Hi _; now apply A].
  intros j Hj _. split; [apply ZV|apply ZC]; auto.
Qed.

Section RMERGE.
  Context {t : ty} {fold p ip c ic : Z} (L : layout fold p ip c ic).
  Hypothesis Hf : 2 <= fold.
  Hypothesis Hm : fold <= jmax t + 1.
  Context {pX ipX cX icX : Z}.
  Notation accm m k V C := (acc t fold k V C (P_of m p ip) (P_of m c ic)).
  Notation raccm lm m k V C := (racc t fold lm k V C (P_of m p ip) (P_of m c ic)).
  Notation raccX lm m k V C := (racc t fold lm k V C (P_of m pX ipX) (P_of m cX icX)).
  Notation holdsm m us xs := (holds t fold us xs (P_of m p ip) (P_of m c ic)).
  Notation repm m us xs d := (rep t fold us xs d (P_of m p ip) (P_of m c ic)).
  Notation framem := (frame (t := t) fold p ip c ic).

  Lemma racc_merge lm m kX VX CX kY VY CY :
    disjoint (in_acc fold pX ipX cX icX) (in_acc fold p ip c ic) ->
    raccX lm m kX VX CX -> raccm lm m kY VY CY -> Z.min kX kY + fold - 1 <= lm ->
    (forall j, 0 <= j <= lm -> - 2 * quarter t <= VX j < 2 * quarter t) ->
    (forall j, 0 <= j <= lm -> - 2 * quarter t <= VY j < 2 * quarter t) ->
    (forall j, 0 <= j <= lm -> - 2 * quarter t <= VX j + VY j < 2 * quarter t) ->
    (forall j, 0 <= j <= lm -> Z.abs (CX j + CY j) <= 2 ^ prec t) ->
    let m' := merge_raw fold p ip c ic pX ipX cX icX m in
    accm m' (Z.min kX kY) (fun j => VX j + VY j) (fun j => CX j + CY j) /\ framem m m'.
  Proof.
    intros DJ (HkX & _ & _ & EX & ZX & AX) (HkY & _ & _ & EY & ZY & AY) HL BX BY BS BC m'.
    pose proof (quarter8 t) as Q8. pose proof (quarter_pos t) as QP. assert (Hf1 : 1 <= fold) by lia.
    rewrite P_of_0 in EX, EY.
    destruct (Z_lt_dec kX kY) as [Hlt|Hge].
    - rewrite Z.min_l in * by lia.
      pose proof (merge_pos L Hf1 m (pX:=pX) (ipX:=ipX) (cX:=cX) (icX:=icX)) as D. cbv zeta in D.
      rewrite EX, EY in D. specialize (D DJ ltac:(lia)). fold m' in D.
      split; [|eapply done_frame; exact D]. destruct D as [D _]. split; [lia|].
      intros i Hi. destruct (D i Hi) as [D1 D2]. unfold P_of. rewrite D1, D2.
      destruct (AX i Hi ltac:(lia)) as [X1 X2]. unfold P_of in X1, X2.
      destruct (Z.ltb_spec i (kY - kX)).
      + destruct (ZY (kX + i) ltac:(lia) ltac:(lia)) as [-> ->]. rewrite !Z.add_0_r. auto.
      + destruct (AY (i - (kY - kX)) ltac:(lia) ltac:(lia)) as [Y1 Y2]. unfold P_of in Y1, Y2.
        pose proof (bins_priw t kY (i - (kY - kX)) HkY ltac:(lia)) as BB.
        replace (kY + (i - (kY - kX))) with (kX + i) in * by lia. split.
        * apply priw_merge; auto; try lia. specialize (BY (kX + i)). lia. apply BS. lia.
        * apply carw_add; auto. apply BC. lia.
    - rewrite Z.min_r in * by lia.
      pose proof (merge_neg L Hf1 m (pX:=pX) (ipX:=ipX) (cX:=cX) (icX:=icX)) as D. cbv zeta in D.
      rewrite EX, EY in D. specialize (D DJ ltac:(lia)). fold m' in D.
      split; [|eapply done_frame; exact D]. destruct D as [D _]. split; [lia|].
      intros i Hi. destruct (D i Hi) as [D1 D2]. unfold P_of. rewrite D1, D2.
      destruct (AY i Hi ltac:(lia)) as [Y1 Y2]. unfold P_of in Y1, Y2.
      destruct (Z.ltb_spec i (kX - kY)).
      + destruct (ZX (kY + i) ltac:(lia) ltac:(lia)) as [-> ->]. rewrite !Z.add_0_l. auto.
      + destruct (AX (i - (kX - kY)) ltac:(lia) ltac:(lia)) as [X1 X2]. unfold P_of in X1, X2.
        pose proof (bins_priw t kX (i - (kX - kY)) HkX ltac:(lia)) as BB.
        replace (kX + (i - (kX - kY))) with (kY + i) in * by lia. split.
        * rewrite (Z.add_comm (VX _)).
          apply priw_merge; auto; try lia. specialize (BX (kY + i)). lia. rewrite Z.add_comm. apply BS. lia.
        * rewrite (Z.add_comm (CX _)). apply carw_add; auto. rewrite Z.add_comm. apply BC. lia.
  Qed.

  (** Merge of two such accumulators of xs and ys. *)
  Lemma racc_madd lm m kX VX CX kY VY CY (us xs ys : list (F t)) :
    disjoint (in_acc fold pX ipX cX icX) (in_acc fold p ip c ic) ->
    raccX lm m kX VX CX -> raccm lm m kY VY CY -> Z.min kX kY + fold - 1 <= lm ->
    (forall j, 0 <= j <= lm -> CX j * quarter t + VX j = sums xs j) ->
    (forall j, 0 <= j <= lm -> CY j * quarter t + VY j = sums ys j) ->
    (forall j, 0 <= j <= lm -> - quarter t < VX j < quarter t) ->
    (forall j, 0 <= j <= lm -> - quarter t < VY j < quarter t) ->
    all_finite (xs ++ ys) = true -> us ++ xs ++ ys <> [] -> Z.of_nat (length (xs ++ ys)) <= capacity t ->
    lead (us ++ xs ++ ys) = Z.min kX kY ->
    let m' := dmdmadd fold pX ipX cX icX p ip c ic m in
    holdsm m' us (xs ++ ys) /\ framem m m'.
  Proof.
    intros DJ RX RY HL SX SY BX BY FA NE HC LE m'.
    pose proof RX as (HkX & NZX & NIX & _). pose proof RY as (HkY & NZY & NIY & _). rewrite P_of_0 in *.
    assert (E : m' = dmrenorm fold p ip c ic (merge_raw fold p ip c ic pX ipX cX icX m)) by (apply dmdmadd_raw; auto).
    pose proof (quarter_pos t) as QP. set (k := Z.min kX kY) in *.
    assert (SS : forall j, 0 <= j <= lm -> (CX j + CY j) * quarter t + (VX j + VY j) = sums (xs ++ ys) j).
    { intros j Hj. rewrite sums_app, <- SX, <- SY by auto. ring. }
    destruct (racc_merge lm m kX VX CX kY VY CY DJ RX RY HL) as [AM FM].
    { intros j Hj. specialize (BX j Hj). lia. }
    { intros j Hj. specialize (BY j Hj). lia. }
    { intros j Hj. specialize (BX j Hj). specialize (BY j Hj). lia. }
    { intros j Hj. specialize (BX j Hj). specialize (BY j Hj). specialize (SS j Hj).
      pose proof (sums_cap (xs ++ ys) j ltac:(lia) HC) as CC. rewrite <- SS in CC.
      pose proof (prec_pos t). assert (PP : 2 ^ prec t = 2 * 2 ^ (prec t - 1)).
      { rewrite <- Z.pow_succ_r by lia. f_equal. lia. }
      assert (2 ^ 3 <= 2 ^ (prec t - 1)) by (apply Z.pow_le_mono_r; lia). clear -CC BX BY PP H0 QP. nia. }
    set (m1 := merge_raw fold p ip c ic pX ipX cX icX m) in *. clearbody m1. fold k in AM.
    assert (Hk : 0 <= k <= jmax t) by lia. assert (HL' : k + fold - 1 <= lm) by exact HL. clearbody k.
    destruct (acc_renorm L ltac:(lia) m1 _ _ _ AM) as [CN FN].
    { intros i Hi. specialize (BX (k + i) ltac:(lia)). specialize (BY (k + i) ltac:(lia)). unfold inbin. lia. }
    { intros i Hi. set (j := k + i).
      pose proof (carry_cap (xs ++ ys) j ltac:(lia) HC) as CC.
      rewrite <- SS, Z.div_add_l in CC by lia. exact CC. }
    rewrite <- E in CN, FN. split; [|eapply frame_trans; eassumption].
    unfold holds. rewrite FA. destruct (us ++ xs ++ ys) eqn:EL; [contradiction|]. rewrite <- EL in *.
    rewrite LE. destruct CN as [_ CN]. cbv zeta. intros i Hi. destruct (CN i Hi) as [-> ->]. rewrite SS by lia. auto.
  Qed.

  (** Rescaling keeps the bins up to lm. *)
  Lemma rescale_racc lm m (us xs xs' : list (F t)) z z' : repm m us xs 0 -> all_finite xs = true -> us ++ xs <> [] ->
    zmin t <= z -> z < z' -> z' <= zmax t -> lm < jmax t ->
    let s := 2 * (z' - z) in let k := lead (us ++ xs) in
    1 <= k -> (k + s <= lm -> width t * s < emax t) ->
    (forall j, 0 <= j <= lm -> sums xs' j = if j <? s then 0 else sums xs (j - s)) ->
    let m' := dmdrescale fold (scl t z') (scl t z) p ip c ic m in
    framem m m' /\ exists k' V C, raccm lm m' k' V C /\ ((k' = k + s /\ k + s <= jmax t) \/ (k' = jmax t /\ lm < k + s)) /\
      (forall j, 0 <= j <= lm -> C j * quarter t + V j = sums xs' j) /\ (forall j, 0 <= j <= lm -> - quarter t < V j < quarter t).
  Proof.
    intros R FX NE Z1 Z2 Z3 Hl s k K1 Hov HS m'. assert (Hf1 : 1 <= fold) by lia.
    unfold rep in R. rewrite FX in R. assert (R' : exists V C, acc t fold k V C (P_of m p ip) (P_of m c ic) /\
        (forall j, 0 <= j -> C j * quarter t + V j = sums xs j) /\ zero_below k V /\ zero_below k C /\
        (forall j, 0 <= j -> - quarter t - 0 * 2 ^ (width t - 1) < V j < quarter t + 0 * 2 ^ (width t - 1))).
    { clear -R NE. subst k. destruct (us ++ xs); [contradiction|exact R]. }
    clear R. destruct R' as (V & C & A & HV & ZV & ZC & BV).
    pose proof (quarter_pos t) as QP.
    assert (IB : forall j, 0 <= j -> inbin t (6 * quarter t + V j)) by (intros j Hj; specialize (BV j Hj); unfold inbin; lia).
    assert (Hs : 0 < s) by (unfold s; lia).
    destruct (rescale_ok L Hf1 Hm m k V C z z' A K1) as (F1 & N1 & N2 & N3 & W); auto.
    { intros i Hi. apply IB. lia. }
    fold s in N3, W. set (m2 := dmdrescale fold (scl t z') (scl t z) p ip c ic m) in *. subst m'. clearbody m2.
    set (idx := if width t * s <? emax t then Z.min (k + s) (jmax t) else jmax t) in *.
    destruct A as [Hk A].
    assert (IX : (idx = k + s /\ width t * s < emax t /\ k + s <= jmax t) \/ (idx = jmax t /\ lm < k + s)).
    { unfold idx. destruct (Z.ltb_spec (width t * s) (emax t)) as [HW|HW].
      - destruct (Z_le_gt_dec (k + s) (jmax t)); [left|right]; lia.
      - right. split; auto. destruct (Z_le_gt_dec (k + s) lm) as [G|G]; [|lia]. specialize (Hov G). lia. }
    clearbody idx. split; [exact F1|].
    exists idx, (fun j => if j <? s then 0 else V (j - s)), (fun j => if j <? s then 0 else C (j - s)).
    split; [|split; [|split]].
    - split; [destruct IX as [(-> & _ & ?)|[-> _]]; lia|]. rewrite P_of_0. split; auto. split; auto. split; auto. split.
      + intros j Hj Hj'. destruct (Z.ltb_spec j s); [auto|]. split; [apply ZV|apply ZC]; destruct IX as [(-> & _)|[-> ?]]; lia.
      + intros i Hi HI. destruct IX as [(-> & HW & _)|[-> ?]]; [|lia]. destruct (W HW i Hi ltac:(lia)) as [W1 W2].
        destruct (Z.ltb_spec (k + s + i) s); [lia|]. replace (k + s + i - s) with (k + i) by lia.
        replace (k + s + i) with (k + i + s) by lia. split; auto. unfold P_of. rewrite W2. now apply A.
    - destruct IX as [(-> & _ & ?)|[-> ?]]; auto.
    - intros j Hj. rewrite HS by auto. destruct (Z.ltb_spec j s); [ring|]. apply HV. lia.
    - intros j Hj. destruct (Z.ltb_spec j s); [lia|]. specialize (BV (j - s) ltac:(lia)). lia.
  Qed.
End RMERGE.

Lemma rep_racc {t} fold lm (us xs : list (F t)) P W : 1 <= fold -> rep t fold us xs 0 P W -> all_finite xs = true -> us ++ xs <> [] ->
  exists V C, racc t fold lm (lead (us ++ xs)) V C P W /\ (forall j, 0 <= j <= lm -> C j * quarter t + V j = sums xs j) /\
    (forall j, 0 <= j <= lm -> - quarter t < V j < quarter t).
Proof.
  intros Hf R FX NE. unfold rep in R. rewrite FX in R. pose proof (quarter_pos t).
  assert (R' : exists V C, acc t fold (lead (us ++ xs)) V C P W /\
        (forall j, 0 <= j -> C j * quarter t + V j = sums xs j) /\ zero_below (lead (us ++ xs)) V /\ zero_below (lead (us ++ xs)) C /\
        (forall j, 0 <= j -> - quarter t - 0 * 2 ^ (width t - 1) < V j < quarter t + 0 * 2 ^ (width t - 1))).
  { destruct (us ++ xs); [contradiction|exact R]. }
  destruct R' as (V & C & A & HV & ZV & ZC & BV). exists V, C. pose proof (lead_range (us ++ xs)).
  split; [|split; [intros; apply HV; lia|intros j Hj; specialize (BV j); lia]].
  apply acc_racc; auto. specialize (BV (lead (us ++ xs))). unfold inbin. lia.
Qed.

(** ** The merge *)
Lemma scl_pos t z : zmin t <= z <= zmax t -> feq (scl t z) fzero = false.
Proof.
  intros H. pose proof (scale_exp_range t z H) as [E1 _]. pose proof (prec_pos t). rewrite feq_zero by apply (mkf_pow2 t (width t * z) ltac:(lia)).
  rewrite pow2_toZ by lia. apply Z.eqb_neq. pose proof (pow2_pos (width t * z - emin t) ltac:(lia)). lia.
Qed.
Lemma feq_scl t z z' : zmin t <= z <= zmax t -> zmin t <= z' <= zmax t -> feq (scl t z) (scl t z') = (z =? z').
Proof.
  intros H H'. pose proof (scale_exp_range t z H) as [E1 _]. pose proof (scale_exp_range t z' H') as [E2 _]. pose proof (prec_pos t). pose proof (width_pos t).
  destruct (mkf_pow2 t (width t * z)) as [A1 A2]; [lia|]. destruct (mkf_pow2 t (width t * z')) as [B1 B2]; [lia|].
  unfold feq. rewrite Beqb_correct, A2, B2 by auto. destruct (Z.eqb_spec z z') as [->|N].
  - now apply Req_bool_true.
  - apply Req_bool_false. intros E. apply bpow_inj in E. nia.
Qed.
Lemma lead_ge {t} (l : list (F t)) b : (forall x, In x l -> b <= findex x) -> b <= jmax t -> b <= lead l.
Proof.
  intros H J. induction l as [|x l IH]; [now rewrite lead_nil|]. rewrite lead_cons.
  pose proof (H x (or_introl eq_refl)). assert (b <= lead l) by (apply IH; intros; apply H; now right). lia.
Qed.

(** Data xs at scale z dominated by data ys at scale z' > z. *)
Section DOM.
  Context {t : ty}.
  Variables (xs ys : list (F t)) (MX MY : F t).
  Hypothesis HX : is_max MX xs. Hypothesis HY : is_max MY ys.
  Hypothesis FX : all_finite xs = true. Hypothesis FY : all_finite ys = true.
  Hypothesis LZ : scale_z MX < scale_z MY.
  Local Notation z := (scale_z MX). Local Notation z' := (scale_z MY).
  Lemma dom_range : zmin t <= z /\ z' <= zmax t.
  Proof. pose proof (scale_z_range t MX). pose proof (scale_z_range t MY). lia. Qed.
  Lemma dom_le : Z.abs (toZ MX) <= Z.abs (toZ MY).
  Proof.
    pose proof (max_finite _ _ HX FX). pose proof (max_finite _ _ HY FY).
    destruct (Z_le_gt_dec (Z.abs (toZ MX)) (Z.abs (toZ MY))); auto. exfalso.
    assert (z' <= z) by (apply scale_z_mono; auto; lia). lia.
  Qed.
  Lemma dom_in x : In x xs -> in_scale z x /\ in_scale z' x /\ lead (map (sq (scl t z')) ys) <= findex (sq (scl t z') x).
  Proof.
    intros I. destruct (max_mags _ _ x HX FX I) as [Fx Lx]. pose proof dom_le as DL. pose proof dom_range as DR.
    pose proof (max_finite _ _ HY FY) as FM.
    assert (I1 : in_scale z x) by (apply (max_in_scale MX xs x HX FX I)).
    assert (I2 : in_scale z' x) by (apply (in_scale_up z); auto; lia).
    split; auto. split; auto.
    assert (A : findex (sq (scl t z') MY) <= findex (sq (scl t z') x)).
    { apply sq_findex_mono; auto; [now apply in_own_scale|lia]. }
    destruct HY as (_ & _ & _ & [E0|(y & Iy & E0)]).
    - (* maximum 0: the scale is the least one *)
      exfalso. assert (z' <= z) by (apply scale_z_mono; auto; [now apply (max_finite _ _ HX)|rewrite E0; cbn; lia]). lia.
    - eapply Z.le_trans; [|exact A]. rewrite E0, sq_fabs. apply lead_le. apply in_map. exact Iy.
  Qed.
  Lemma dom_hi : lead (map (sq (scl t z')) ys) <= hi_bin t.
  Proof.
    pose proof (max_finite _ _ HY FY) as FM. pose proof dom_range as DR.
    pose proof (sq_hi MY FM ltac:(lia)) as H. rewrite dscale_eq in H.
    destruct HY as (_ & _ & _ & [E0|(y & Iy & E0)]).
    - exfalso. assert (z' <= z) by (apply scale_z_mono; auto; [now apply (max_finite _ _ HX)|rewrite E0; cbn; lia]). lia.
    - eapply Z.le_trans; [|exact H]. assert (E1 : forall s, sq s MY = sq s y) by (intros; rewrite E0; apply sq_fabs). rewrite E1. apply lead_le. apply in_map. exact Iy.
  Qed.
  Lemma dom_fin : all_finite (map (sq (scl t z)) xs) = true /\ all_finite (map (sq (scl t z')) xs) = true /\ all_finite (map (sq (scl t z')) ys) = true.
  Proof.
    unfold all_finite. repeat split; apply forallb_forall; intros y I; apply in_map_iff in I; destruct I as (x & <- & I); apply sq_fin.
    - now apply dom_in. - now apply dom_in. - apply (max_in_scale MY ys x HY FY I).
  Qed.
  Lemma dom_lead : let kY := lead (map (sq (scl t z')) ys) in let k := lead (map (sq (scl t z)) xs) in
    1 <= k /\ kY <= k + 2 * (z' - z) /\ kY <= lead (map (sq (scl t z')) xs) /\
    (k + 2 * (z' - z) <= lim t -> width t * (2 * (z' - z)) < emax t).
  Proof.
    intros kY k. pose proof dom_range as DR. pose proof dom_hi as DH. fold kY in DH.
    assert (HJ : hi_bin t <= jmax t) by (destruct t; cbn; lia).
    assert (LO : lo_bin t <= k).
    { apply lead_ge; [|destruct t; cbn; lia]. intros y I. apply in_map_iff in I. destruct I as (x & <- & I). apply sq_lo. now apply dom_in. }
    split; [assert (1 <= lo_bin t) by (destruct t; cbn; lia); lia|]. split; [|split].
    - assert (kY - 2 * (z' - z) <= k); [|lia]. apply lead_ge; [|lia]. intros y I. apply in_map_iff in I. destruct I as (x & <- & I).
      destruct (dom_in x I) as (I1 & I2 & I3). pose proof (findex_change z z' x kY I1 LZ ltac:(lia) DH I3). lia.
    - apply lead_ge; [|lia]. intros y I. apply in_map_iff in I. destruct I as (x & <- & I). now apply dom_in.
    - intros HK. assert (W2 : 2 * (z' - z) <= lim t - lo_bin t) by lia. clear -W2 LZ.
      generalize dependent (z' - z). destruct t; cbn [lim lo_bin width emax]; intros; lia.
  Qed.
End DOM.

Section MADDSQ.
  Context {t : ty} {fold p ip c ic pX ipX cX icX : Z} (L : layout fold p ip c ic) (LX : layout fold pX ipX cX icX).
  Hypothesis Hf : 2 <= fold.
  Hypothesis Hs : hi_bin t + fold - 1 <= lim t.
  Variable T : Z.
  Hypothesis DXY : disjoint (in_acc fold pX ipX cX icX) (in_acc fold p ip c ic).
  Hypothesis DTY : disjoint (in_acc fold T 1 (T + fold) 1) (in_acc fold p ip c ic).
  Hypothesis DXT : disjoint (in_acc fold pX ipX cX icX) (in_acc fold T 1 (T + fold) 1).
  Notation holdsm m us xs := (holds t fold us xs (P_of m p ip) (P_of m c ic)).
  Notation holdsX m us xs := (holds t fold us xs (P_of m pX ipX) (P_of m cX icX)).
  Notation holdsT m us xs := (holds t fold us xs (P_of m T 1) (P_of m (T + fold) 1)).

  Lemma rescale_noop (m : mem t) q iq d id s : dmdrescale fold s fzero q iq d id m = m.
  Proof. unfold dmdrescale. change (feq (fzero : F t) fzero) with true. now rewrite orb_true_r. Qed.

  (** Accumulators with further data vsX, vsY that count for scale and leading bin only. *)
  Lemma maddsq_gen (m : mem t) scX scY (vsX xs vsY ys : list (F t)) :
    good_scale scX (vsX ++ xs) -> good_scale scY (vsY ++ ys) -> all_finite (vsX ++ xs) = true -> all_finite (vsY ++ ys) = true ->
    holdsX m (map (sq scX) vsX) (map (sq scX) xs) -> holdsm m (map (sq scY) vsY) (map (sq scY) ys) ->
    Z.of_nat (length (xs ++ ys)) <= capacity t ->
    let r := dmdmaddsq fold scX pX ipX cX icX scY p ip c ic T m in
    good_scale (fst r) ((vsX ++ xs) ++ vsY ++ ys) /\
    holdsm (snd r) (map (sq (fst r)) (vsX ++ vsY)) (map (sq (fst r)) (xs ++ ys)) /\
    (forall a, ~ in_acc fold p ip c ic a -> ~ in_acc fold T 1 (T + fold) 1 a -> snd r a = m a).
  Proof.
    intros GX GY FX FY AX AY HC. pose proof (Hm' Hs) as Hm. rewrite app_length, Nat2Z.inj_add in HC.
    pose proof (layout_contig fold T ltac:(lia)) as LT.
    assert (CX : Z.of_nat (length (map (sq scX) xs)) <= capacity t) by (rewrite map_length; lia).
    assert (CY : Z.of_nat (length (map (sq scY) ys)) <= capacity t) by (rewrite map_length; lia).
    pose proof (holds_rep t fold _ _ _ _ CX AX) as RX. pose proof (holds_rep t fold _ _ _ _ CY AY) as RY.
    assert (FSX : all_finite (map (sq scX) (vsX ++ xs)) = true) by now apply good_scale_fin.
    assert (FSY : all_finite (map (sq scY) (vsY ++ ys)) = true) by now apply good_scale_fin.
    assert (FSX' : all_finite (map (sq scX) xs) = true) by (rewrite map_app, all_finite_app in FSX; now apply andb_true_iff in FSX).
    assert (FSY' : all_finite (map (sq scY) ys) = true) by (rewrite map_app, all_finite_app in FSY; now apply andb_true_iff in FSY).
    (* same scale, or Y empty, or plain merge *)
    assert (SAME : forall sc, map (sq scX) (vsX ++ xs) = map (sq sc) (vsX ++ xs) -> map (sq scY) (vsY ++ ys) = map (sq sc) (vsY ++ ys) ->
      let m' := dmdmadd fold pX ipX cX icX p ip c ic m in
      holdsm m' (map (sq sc) (vsX ++ vsY)) (map (sq sc) (xs ++ ys)) /\ forall a, ~ in_acc fold p ip c ic a -> m' a = m a).
    { intros sc E1 E2 m'. rewrite !map_app in E1, E2.
      apply app_inv_len in E1; [|now rewrite !map_length]. apply app_inv_len in E2; [|now rewrite !map_length].
      destruct E1 as [E1 E1'], E2 as [E2 E2']. rewrite !map_app, <- E1, <- E2, <- E1', <- E2'.
      destruct (rep_merge L Hf Hm m (map (sq scX) vsX) (map (sq scX) xs) (map (sq scY) vsY) (map (sq scY) ys) DXY RX RY) as (_ & FR & HH).
      { intros _. rewrite app_length, !map_length. lia. }
      split; [now apply HH|exact FR]. }
    unfold dmdmaddsq. destruct (vsX ++ xs) as [|x0 xs0] eqn:EX, (vsY ++ ys) as [|y0 ys0] eqn:EY.
    - (* both empty *)
      cbn [good_scale] in GX, GY. subst scX scY. change (flt (@fzero t) fzero) with false. change (feq (@fzero t) fzero) with true.
      cbv iota. destruct (SAME fzero eq_refl eq_refl) as [S1 S2]. cbn [fst snd]. split; [reflexivity|]. split; auto.
    - (* X empty *)
      apply app_eq_nil in EX. destruct EX as [-> ->].
      cbn [good_scale] in GX. subst scX. destruct GY as (MY & HY & ->). rewrite dscale_eq in *. pose proof (scale_z_range t MY) as RZ.
      set (zy := scale_z MY) in *.
      assert (E1 : flt (scl t zy) fzero = false).
      { pose proof (flt_0_scl t zy RZ) as H. unfold flt, fzero in *. destruct (scl t zy) as [[]|[]| |[] ? ? ?]; try discriminate; reflexivity. }
      assert (E2 : feq (@fzero t) (scl t zy) = false).
      { pose proof (scl_pos t zy RZ) as H. unfold feq, fzero in *. destruct (scl t zy) as [[]|[]| |[] ? ? ?]; try discriminate; reflexivity. }
      rewrite E1, E2. rewrite rescale_noop. cbn [fst snd]. destruct (rep_set (pX := pX) (ipX := ipX) (cX := cX) (icX := icX) LT Hf m [] [] 0 DXT) as (S1 & S2 & S3).
      set (m1 := dmdmset fold pX ipX cX icX T 1 (T + fold) 1 m) in *. clearbody m1. specialize (S1 RX).
      assert (Z0 : m1 T = fzero). { destruct (S1 0 ltac:(lia)) as [S1' _]. unfold P_of in S1'. now rewrite Z.mul_0_l, Z.add_0_r in S1'. }
      assert (E3 : dmdmadd fold T 1 (T + fold) 1 p ip c ic m1 = m1).
      { unfold dmdmadd. rewrite Z0. change (feq (@fzero t) fzero) with true. reflexivity. }
      rewrite E3. cbn [app]. split; [exists MY; split; [exact HY|now rewrite dscale_eq]|]. split; [|intros a _ Ha; now apply S3].
      eapply holds_words_ext; [exact Hf| |exact AY]. intros i Hi. split; apply S3; intros I; eapply DTY; try exact I; [apply in_pri|apply in_car]; auto.
    - (* Y empty *)
      apply app_eq_nil in EY. destruct EY as [-> ->].
      cbn [good_scale] in GY. subst scY. pose proof GX as GX'. destruct GX as (MX & HX & ->). rewrite dscale_eq in *. pose proof (scale_z_range t MX) as RZ.
      rewrite flt_0_scl by auto. rewrite rescale_noop. destruct (SAME (scl t (scale_z MX)) eq_refl eq_refl) as [S1 S2]. cbn [fst snd].
      rewrite !app_nil_r in *. split; [exact GX'|]. split; auto.
    - destruct GX as (MX & HX & ->), GY as (MY & HY & ->). rewrite <- EX, <- EY in *.
      assert (NX : vsX ++ xs <> []) by (rewrite EX; discriminate). assert (NY : vsY ++ ys <> []) by (rewrite EY; discriminate).
      rewrite !dscale_eq in *. pose proof (scale_z_range t MX) as RZX. pose proof (scale_z_range t MY) as RZY.
      pose proof (max_finite _ _ HX FX) as FMX. pose proof (max_finite _ _ HY FY) as FMY.
      pose proof (is_max_merge _ _ _ _ HX HY) as MM.
      assert (SM : scale_z (fmax MX MY) = Z.max (scale_z MX) (scale_z MY)).
      { unfold fmax. rewrite flt_mag by (apply HX || apply HY). unfold mag. rewrite FMX, FMY.
        destruct (Z.ltb_spec (Z.abs (toZ MY)) (Z.abs (toZ MX))).
        - assert (scale_z MY <= scale_z MX) by (apply scale_z_mono; auto; lia). lia.
        - assert (scale_z MX <= scale_z MY) by (apply scale_z_mono; auto; lia). lia. }
      assert (GS : good_scale (scl t (Z.max (scale_z MX) (scale_z MY))) ((vsX ++ xs) ++ vsY ++ ys)).
      { unfold good_scale. destruct ((vsX ++ xs) ++ vsY ++ ys) eqn:EA; [rewrite EX in EA; discriminate EA|].
        exists (fmax MX MY). split; [exact MM|]. now rewrite dscale_eq, SM. }
      clear EX EY x0 xs0 y0 ys0.
      assert (NE : forall s, map (sq s) vsX ++ map (sq s) xs <> [] /\ map (sq s) vsY ++ map (sq s) ys <> []).
      { intros s. rewrite <- !map_app. split; intros E; apply map_eq_nil in E; contradiction. }
      assert (LE : forall s, lead (map (sq s) (vsX ++ vsY) ++ map (sq s) xs ++ map (sq s) ys) =
        Z.min (lead (map (sq s) (vsX ++ xs))) (lead (map (sq s) (vsY ++ ys)))).
      { intros s. rewrite !map_app, !lead_app. lia. }
      assert (NE2 : forall s, map (sq s) (vsX ++ vsY) ++ map (sq s) xs ++ map (sq s) ys <> []).
      { intros s E. apply app_eq_nil in E. destruct E as [E1 E2]. apply app_eq_nil in E2. destruct E2 as [E2 E3].
        rewrite map_app in E1. apply app_eq_nil in E1. destruct E1 as [E1 _]. destruct (NE s) as [N _]. rewrite E1, E2 in N. now apply N. }
      rewrite flt_scl by auto. destruct (Z.ltb_spec (scale_z MY) (scale_z MX)) as [Lz|Lz]; cbn [fst snd].
      + (* rescale Y *)
        rewrite Z.max_l in GS by lia. split; [exact GS|]. pose proof (dom_range (t := t) MY MX) as DR.
        destruct (dom_lead _ _ MY MX HY HX FY FX Lz) as (D1 & D2 & D3 & D4).
        destruct (dom_fin _ _ MY MX HY HX FY FX Lz) as (E1 & E2 & E3).
        pose proof (dom_hi _ _ MY MX HY HX FY FX Lz) as DH.
        rewrite (map_app (sq (scl t (scale_z MY))) vsY) in D1, D2, D4. rewrite (map_app (sq (scl t (scale_z MX))) vsY) in D3, E2.
        rewrite all_finite_app in E2. apply andb_true_iff in E2. destruct E2 as [_ E2].
        destruct (rescale_racc L Hf Hm (lim t) m _ _ (map (sq (scl t (scale_z MX))) ys) (scale_z MY) (scale_z MX) RY FSY' (proj2 (NE _))) as (F1 & k' & V & C & Q1 & Q2 & Q3 & Q4); auto; try lia.
        { apply lim_jmax. }
        { intros j Hj. apply sums_change; auto; try lia. intros x I. apply (dom_in _ _ MY MX HY HX FY FX Lz x). apply in_or_app. auto. }
        set (m1 := dmdrescale fold _ _ p ip c ic m) in *. clearbody m1.
        assert (RX1 : rep t fold (map (sq (scl t (scale_z MX))) vsX) (map (sq (scl t (scale_z MX))) xs) 0 (P_of m1 pX ipX) (P_of m1 cX icX)).
        { apply holds_rep; auto. eapply holds_words_ext; [exact Hf| |exact AX]. intros i Hi.
          split; apply F1; intros I; [eapply DXY; [apply in_pri; exact Hi|exact I]|eapply DXY; [apply in_car; exact Hi|exact I]]. }
        destruct (rep_racc fold (lim t) _ _ _ _ ltac:(lia) RX1 FSX' (proj1 (NE _))) as (V2 & C2 & Q5 & Q6 & Q7).
        rewrite <- map_app in Q5.
        assert (K' : lead (map (sq (scl t (scale_z MX))) (vsX ++ xs)) <= k').
        { pose proof (lead_range (map (sq (scl t (scale_z MX))) (vsX ++ xs))). destruct Q2 as [[-> _]|[-> _]]; lia. }
        destruct (racc_madd L Hf Hm (lim t) m1 _ V2 C2 k' V C (map (sq (scl t (scale_z MX))) (vsX ++ vsY)) (map (sq (scl t (scale_z MX))) xs) (map (sq (scl t (scale_z MX))) ys) DXY Q5 Q1) as [H1 H2]; auto; try lia.
        { rewrite all_finite_app, FSX'. exact E2. }
        { rewrite app_length, !map_length. lia. }
        { rewrite LE, (map_app _ vsY). lia. }
        rewrite (map_app _ xs). split; [exact H1|]. intros a Ha _. etransitivity; [apply H2; auto|apply F1; auto].
      + rewrite feq_scl by auto. destruct (Z.eqb_spec (scale_z MX) (scale_z MY)) as [Ez|Ez]; cbn [fst snd].
        * rewrite Ez in *. rewrite Z.max_id in GS. split; [exact GS|]. destruct (SAME (scl t (scale_z MY)) eq_refl eq_refl) as [S1 S2]. auto.
        * (* copy X and rescale the copy *)
          assert (Lz' : scale_z MX < scale_z MY) by lia. rewrite Z.max_r in GS by lia. split; [exact GS|]. pose proof (dom_range (t := t) MX MY) as DR.
          destruct (rep_set (pX := pX) (ipX := ipX) (cX := cX) (icX := icX) LT Hf m (map (sq (scl t (scale_z MX))) vsX) (map (sq (scl t (scale_z MX))) xs) 0 DXT) as (S1 & _ & S3).
          set (m0 := dmdmset fold pX ipX cX icX T 1 (T + fold) 1 m) in *. clearbody m0. specialize (S1 RX).
          destruct (dom_lead _ _ MX MY HX HY FX FY Lz') as (D1 & D2 & D3 & D4).
          destruct (dom_fin _ _ MX MY HX HY FX FY Lz') as (E1 & E2 & E3).
          pose proof (dom_hi _ _ MX MY HX HY FX FY Lz') as DH.
          rewrite (map_app (sq (scl t (scale_z MX))) vsX) in D1, D2, D4. rewrite (map_app (sq (scl t (scale_z MY))) vsX) in D3, E2.
          rewrite all_finite_app in E2. apply andb_true_iff in E2. destruct E2 as [_ E2].
          destruct (rescale_racc LT Hf Hm (lim t) m0 _ _ (map (sq (scl t (scale_z MY))) xs) (scale_z MX) (scale_z MY) S1 FSX' (proj1 (NE _))) as (F1 & k' & V & C & Q1 & Q2 & Q3 & Q4); auto; try lia.
          { apply lim_jmax. }
          { intros j Hj. apply sums_change; auto; try lia. intros x I. apply (dom_in _ _ MX MY HX HY FX FY Lz' x). apply in_or_app. auto. }
          set (m1 := dmdrescale fold _ _ T 1 (T + fold) 1 m0) in *. clearbody m1.
          assert (FT : forall a, ~ in_acc fold T 1 (T + fold) 1 a -> m1 a = m a).
          { intros a Ha. etransitivity; [apply F1; auto|apply S3; auto]. }
          assert (RY1 : rep t fold (map (sq (scl t (scale_z MY))) vsY) (map (sq (scl t (scale_z MY))) ys) 0 (P_of m1 p ip) (P_of m1 c ic)).
          { apply holds_rep; auto. eapply holds_words_ext; [exact Hf| |exact AY]. intros i Hi.
            split; apply FT; intros I; eapply DTY; try exact I; [apply in_pri|apply in_car]; auto. }
          destruct (rep_racc fold (lim t) _ _ _ _ ltac:(lia) RY1 FSY' (proj2 (NE _))) as (V2 & C2 & Q5 & Q6 & Q7).
          rewrite <- map_app in Q5.
          assert (K' : lead (map (sq (scl t (scale_z MY))) (vsY ++ ys)) <= k').
          { pose proof (lead_range (map (sq (scl t (scale_z MY))) (vsY ++ ys))). destruct Q2 as [[-> _]|[-> _]]; lia. }
          destruct (racc_madd L Hf Hm (lim t) m1 k' V C _ V2 C2 (map (sq (scl t (scale_z MY))) (vsX ++ vsY)) (map (sq (scl t (scale_z MY))) xs) (map (sq (scl t (scale_z MY))) ys) DTY Q1 Q5) as [H1 H2]; auto; try lia.
          { rewrite all_finite_app, FSY', E2. reflexivity. }
          { rewrite app_length, !map_length. lia. }
          { rewrite LE, (map_app _ vsX). lia. }
          rewrite (map_app _ xs). split; [exact H1|]. intros a Ha HT. etransitivity; [apply H2; auto|apply FT; auto].
  Qed.
  Lemma maddsq_fin (m : mem t) scX scY (xs ys : list (F t)) :
    good_scale scX xs -> good_scale scY ys -> all_finite xs = true -> all_finite ys = true ->
    holdsX m [] (map (sq scX) xs) -> holdsm m [] (map (sq scY) ys) -> Z.of_nat (length (xs ++ ys)) <= capacity t ->
    let r := dmdmaddsq fold scX pX ipX cX icX scY p ip c ic T m in
    good_scale (fst r) (xs ++ ys) /\ holdsm (snd r) [] (map (sq (fst r)) (xs ++ ys)) /\
    (forall a, ~ in_acc fold p ip c ic a -> ~ in_acc fold T 1 (T + fold) 1 a -> snd r a = m a).
  Proof. exact (maddsq_gen m scX scY [] xs [] ys). Qed.
End MADDSQ.

(** ** Accumulators that are not finite *)
Definition head_of {t} (zs : list (F t)) (d : Z) (h : F t) : Prop :=
  if all_finite zs then feq h fzero = false /\ is_finite h = true
  else if existsb f_isnan zs then h = B754_nan
  else is_finite h = false /\ (width t * (2 * d) < emax t -> h = B754_infinity false).
Lemma head_nonzero {t} (zs : list (F t)) d h : head_of zs d h -> feq h fzero = false.
Proof.
  unfold head_of. destruct (all_finite zs); [tauto|]. destruct (existsb f_isnan zs); [intros ->; reflexivity|]. intros [H _].
  destruct h as [|[]| |]; try discriminate; reflexivity.
Qed.
Lemma head_special {t} (zs : list (F t)) d h : all_finite zs = false -> head_of zs d h -> ISNANINF h = true.
Proof.
  unfold head_of. intros ->. rewrite ISNANINF_fin. destruct (existsb f_isnan zs); [intros ->; reflexivity|]. intros [-> _]. reflexivity.
Qed.
Lemma head_add {t} (xs ys : list (F t)) d d' hX hY : all_finite (xs ++ ys) = false -> 0 <= d -> 0 <= d' ->
  head_of xs d hX -> head_of ys d' hY -> head_of (xs ++ ys) (Z.max d d') (fadd hY hX).
Proof.
  intros NF Hd Hd'. pose proof (width_pos t) as WP. unfold head_of at 3. rewrite NF, existsb_app. rewrite all_finite_app in NF.
  assert (M : forall a b, width t * (2 * Z.max a b) < emax t -> width t * (2 * a) < emax t /\ width t * (2 * b) < emax t) by (intros; nia).
  unfold head_of. destruct (all_finite xs) eqn:FX, (all_finite ys) eqn:FY; try discriminate NF.
  - intros [_ Fx]. assert (NX : existsb f_isnan xs = false) by (apply all_finite_flags in FX; tauto). rewrite NX. cbn [orb].
    destruct (existsb f_isnan ys).
    + intros ->. apply fadd_nan_l.
    + intros [H1 H2]. rewrite fadd_fin_r by auto. split; auto. intros H. apply H2. now apply (M d d').
  - intros HX [_ Fy]. assert (NY : existsb f_isnan ys = false) by (apply all_finite_flags in FY; tauto). rewrite NY, orb_false_r.
    destruct (existsb f_isnan xs).
    + rewrite HX. destruct hY; reflexivity.
    + destruct HX as [H1 H2]. rewrite fadd_fin_l by auto. split; auto. intros H. apply H2. now apply (M d d').
  - destruct (existsb f_isnan xs); cbn [orb].
    + intros -> _. destruct hY; reflexivity.
    + intros [H1 H2]. destruct (existsb f_isnan ys).
      * intros ->. apply fadd_nan_l.
      * intros [H3 H4]. split.
        { destruct hX as [|[]| |], hY as [|[]| |]; try discriminate; reflexivity. }
        intros H. destruct (M d d' H) as [A B]. rewrite H2, H4 by auto. reflexivity.
Qed.

Lemma fdiv_special_nz {t} (h r : F t) : is_finite h = false -> feq (fdiv h r) fzero = false.
Proof. destruct h as [|[]| |], r as [[]|[]| |[] ? ? ?]; try discriminate; reflexivity. Qed.
Lemma fdiv_nan {t} (r : F t) : fdiv B754_nan r = B754_nan.
Proof. destruct r; reflexivity. Qed.
Section OPERAND.
  Context {t : ty} {fold p ip c ic : Z} (L : layout fold p ip c ic).
  Hypothesis Hf : 2 <= fold.
  Hypothesis Hs : hi_bin t + fold - 1 <= lim t.
  (** A scaled accumulator of zs; when zs is not finite any power of the scale will do. *)
  Definition operand (zs : list (F t)) (sc : F t) (m : mem t) : Prop :=
    if all_finite zs then good_scale sc zs /\ holds t fold [] (map (sq sc) zs) (P_of m p ip) (P_of m c ic)
    else m p = special (map fabs zs) /\ exists z, zmin t <= z <= zmax t /\ sc = scl t z.
  Lemma operand_scale zs sc m : operand zs sc m -> zs <> [] -> exists z, zmin t <= z <= zmax t /\ sc = scl t z.
  Proof.
    unfold operand. destruct (all_finite zs); [|tauto]. intros [G _] NE. unfold good_scale in G. destruct zs; [contradiction|].
    destruct G as (M & _ & ->). exists (scale_z M). split; [apply scale_z_range|apply dscale_eq].
  Qed.
  Lemma rescale_same (m : mem t) s : feq s s = true -> dmdrescale fold s s p ip c ic m = m.
  Proof. intros E. unfold dmdrescale. now rewrite E. Qed.
  Lemma operand_rescale zs sc m z z' : operand zs sc m -> zs <> [] -> sc = scl t z -> zmin t <= z <= zmax t -> z <= z' -> z' <= zmax t ->
    Z.of_nat (length zs) <= capacity t ->
    head_of zs (z' - z) (dmdrescale fold (scl t z') sc p ip c ic m p).
  Proof.
    intros O NE E Hz Hz' Hz'' HC. pose proof (Hm' Hs) as Hm. unfold operand in O. unfold head_of. destruct (all_finite zs) eqn:FZ.
    - destruct O as [G H]. pose proof (good_scale_fin sc zs G FZ) as FS.
      assert (HC' : Z.of_nat (length (map (sq sc) zs)) <= capacity t) by (rewrite map_length; lia).
      pose proof (holds_rep t fold [] _ _ _ HC' H) as R. clear H.
      destruct (Z.eq_dec z z') as [<-|NZ].
      + rewrite E, rescale_same by (rewrite feq_scl by auto; apply Z.eqb_refl).
        pose proof (rep_head (ip := ip) (c := c) (ic := ic) Hf _ _ _ _ R ltac:(pose proof (endurance_pos t); lia)) as RH.
        rewrite FS in RH. cbn [app] in RH. destruct zs; [contradiction|]. exact RH.
      + unfold rep in R. rewrite FS in R. cbn [app] in R.
        assert (R' : exists V C, acc t fold (lead (map (sq sc) zs)) V C (P_of m p ip) (P_of m c ic) /\ forall j, 0 <= j -> - quarter t < V j < quarter t).
        { destruct zs; [contradiction|]. cbn [map] in R |- *. destruct R as (V & C & A & _ & _ & _ & B). exists V, C. split; [exact A|].
          intros j Hj. specialize (B j Hj). lia. }
        destruct R' as (V & C & A & B). pose proof (lead_range (map (sq sc) zs)) as LR.
        assert (LO : lo_bin t <= lead (map (sq sc) zs)).
        { apply lead_ge; [|destruct t; cbn; lia]. intros y I. apply in_map_iff in I. destruct I as (x & <- & I). rewrite E. apply sq_lo.
          unfold good_scale in G. destruct zs; [contradiction|]. destruct G as (M & HM & GM).
          pose proof (max_in_scale M _ x HM FZ I) as IS. rewrite dscale_eq in GM. rewrite E in GM.
          assert (EZ : z = scale_z M).
          { pose proof (scale_z_range t M) as RM. pose proof (feq_scl t z (scale_z M) Hz RM) as Q. rewrite <- GM in Q.
            rewrite feq_scl, Z.eqb_refl in Q by auto. symmetry in Q. now apply Z.eqb_eq in Q. }
          rewrite EZ. exact IS. }
        pose proof (quarter_pos t).
        destruct (rescale_ok L ltac:(lia) Hm m (lead (map (sq sc) zs)) V C z z' A) as (_ & N1 & N2 & _); auto; try lia.
        { assert (1 <= lo_bin t) by (destruct t; cbn; lia). lia. }
        { intros i Hi. specialize (B (lead (map (sq sc) zs) + i) ltac:(lia)). unfold inbin. lia. }
        rewrite E. split; [exact N1|]. rewrite ISNANINF_fin in N2. now apply negb_false_iff in N2.
    - destruct O as [H _]. rewrite special_fabs in H by auto.
      destruct (Z.eq_dec z z') as [<-|NZ].
      + rewrite E, rescale_same by (rewrite feq_scl by auto; apply Z.eqb_refl). rewrite H. destruct (existsb f_isnan zs); auto.
      + set (r := fmul (fdiv (scl t z') (scl t z)) (fdiv (scl t z') (scl t z))).
        assert (ER : r = if width t * (2 * (z' - z)) <? emax t then pow2 t (width t * (2 * (z' - z))) else B754_infinity false) by (apply rescale_factor; lia).
        assert (DM : dmdrescale fold (scl t z') sc p ip c ic m p = fdiv (m p) r).
        { unfold dmdrescale. rewrite E, feq_scl, !scl_pos by lia. destruct (Z.eqb_spec z' z); [lia|]. cbn [orb]. fold r.
          destruct (rescale_loop_ok L r (Z.to_nat fold) 0 m ltac:(lia) ltac:(lia)) as [_ R2].
          destruct (R2 0 ltac:(lia)) as [R3 _].
          - intros i1 Hi1. replace i1 with 0 by lia. rewrite Z.mul_0_l, Z.add_0_r. apply fdiv_special_nz. rewrite H. now destruct (existsb f_isnan zs).
          - now rewrite Z.mul_0_l, Z.add_0_r in R3. }
        rewrite DM, H, ER. destruct (existsb f_isnan zs); [apply fdiv_nan|].
        destruct (Z.ltb_spec (width t * (2 * (z' - z))) (emax t)) as [W|W].
        * pose proof (width_pos t). pose proof (emin_neg t). assert (0 < width t * (2 * (z' - z))) by nia.
          destruct (mkf_pow2 t (width t * (2 * (z' - z)))) as [P1 P2]; [lia|].
          pose proof (pow2_sign t (width t * (2 * (z' - z))) ltac:(lia)) as P3.
          assert (E1 : fdiv (B754_infinity false) (pow2 t (width t * (2 * (z' - z)))) = B754_infinity false).
          { clear -P1 P3. generalize dependent (pow2 t (width t * (2 * (z' - z)))). intros [s|s| |s ? ? ?] P1 P3; try discriminate P1; cbn in P3; subst s; reflexivity. }
          rewrite E1. auto.
        * split; [reflexivity|]. intros; lia.
  Qed.
End OPERAND.

Section MADDSPECIAL.
  Context {t : ty} {fold p ip c ic pX ipX cX icX : Z} (L : layout fold p ip c ic) (LX : layout fold pX ipX cX icX).
  Hypothesis Hf : 2 <= fold.
  Hypothesis Hs : hi_bin t + fold - 1 <= lim t.
  Variable T : Z.
  Hypothesis DXY : disjoint (in_acc fold pX ipX cX icX) (in_acc fold p ip c ic).
  Hypothesis DTY : disjoint (in_acc fold T 1 (T + fold) 1) (in_acc fold p ip c ic).
  Hypothesis DXT : disjoint (in_acc fold pX ipX cX icX) (in_acc fold T 1 (T + fold) 1).
  Notation opX := (operand (t := t) (fold := fold) (p := pX) (ip := ipX) (c := cX) (ic := icX)).
  Notation opY := (operand (t := t) (fold := fold) (p := p) (ip := ip) (c := c) (ic := ic)).
  Notation opT := (operand (t := t) (fold := fold) (p := T) (ip := 1) (c := T + fold) (ic := 1)).

  Lemma in_head q iq d id : in_acc fold q iq d id q.
  Proof. exists 0. split; [lia|left; lia]. Qed.
  Lemma madd_special q iq d id (m : mem t) : feq (m q) fzero = false -> feq (m p) fzero = false ->
    ISNANINF (m q) || ISNANINF (m p) = true -> dmdmadd fold q iq d id p ip c ic m p = fadd (m p) (m q).
  Proof. intros H1 H2 H3. unfold dmdmadd. rewrite H1, H2, H3. apply upd_same. Qed.
  Lemma op_special (zs : list (F t)) (h h' : F t) d : head_of zs d h -> all_finite zs = false -> ISNANINF h || ISNANINF h' = true.
  Proof. intros H NF. now rewrite (head_special zs d h NF H). Qed.

  Lemma maddsq_special (m : mem t) scX scY (xs ys : list (F t)) :
    opX xs scX m -> opY ys scY m -> all_finite (xs ++ ys) = false -> Z.of_nat (length (xs ++ ys)) <= capacity t ->
    let r := dmdmaddsq fold scX pX ipX cX icX scY p ip c ic T m in
    (exists z, zmin t <= z <= zmax t /\ fst r = scl t z) /\
    (existsb f_isnan (xs ++ ys) = true -> snd r p = B754_nan) /\
    (existsb f_isnan (xs ++ ys) = false ->
      (forall zX zY, zmin t <= zX <= zmax t -> zmin t <= zY <= zmax t -> scX = scl t zX -> scY = scl t zY -> width t * (2 * Z.abs (zX - zY)) < emax t) ->
      snd r p = B754_infinity false).
  Proof.
    intros OX OY NF HC. rewrite app_length, Nat2Z.inj_add in HC. pose proof (layout_contig fold T ltac:(lia)) as LT.
    pose proof NF as NF'. rewrite all_finite_app in NF'.
    assert (FIN : forall d h, head_of (xs ++ ys) d h ->
      (forall zX zY, zmin t <= zX <= zmax t -> zmin t <= zY <= zmax t -> scX = scl t zX -> scY = scl t zY -> d = Z.abs (zX - zY)) -> xs <> [] -> ys <> [] ->
      (existsb f_isnan (xs ++ ys) = true -> h = B754_nan) /\
      (existsb f_isnan (xs ++ ys) = false ->
        (forall zX zY, zmin t <= zX <= zmax t -> zmin t <= zY <= zmax t -> scX = scl t zX -> scY = scl t zY -> width t * (2 * Z.abs (zX - zY)) < emax t) -> h = B754_infinity false)).
    { intros d h H HD NX NY. unfold head_of in H. rewrite NF in H. split; intros E; rewrite E in H; auto. intros HW. apply H.
      destruct (operand_scale _ _ _ OX NX) as (zX & RX & EX). destruct (operand_scale _ _ _ OY NY) as (zY & RY & EY).
      rewrite (HD zX zY) by auto. now apply HW. }
    unfold dmdmaddsq. destruct xs as [|x0 xs0].
    { (* X empty *)
      destruct OX as [GX HX]. cbn [good_scale] in GX. subst scX. cbn [app] in *.
      destruct ys as [|y0 ys0]; [discriminate|]. destruct (operand_scale _ _ _ OY ltac:(discriminate)) as (zy & RZ & ->).
      assert (E1 : flt (scl t zy) fzero = false).
      { pose proof (flt_0_scl t zy RZ) as H. unfold flt, fzero in *. destruct (scl t zy) as [[]|[]| |[] ? ? ?]; try discriminate; reflexivity. }
      assert (E2 : feq (@fzero t) (scl t zy) = false).
      { pose proof (scl_pos t zy RZ) as H. unfold feq, fzero in *. destruct (scl t zy) as [[]|[]| |[] ? ? ?]; try discriminate; reflexivity. }
      rewrite E1, E2, rescale_noop. cbn [fst snd]. split; [eauto|].
      destruct (acc_set (pX := pX) (ipX := ipX) (cX := cX) (icX := icX) LT ltac:(lia) m DXT) as [S1 S3].
      set (m1 := dmdmset fold pX ipX cX icX T 1 (T + fold) 1 m) in *. clearbody m1.
      assert (Z0 : m1 T = fzero).
      { destruct (S1 0 ltac:(lia)) as [S1' _]. rewrite !Z.mul_0_l, !Z.add_0_r in S1'. rewrite S1'. destruct (HX 0 ltac:(lia)) as [HX' _].
        unfold P_of in HX'. now rewrite Z.mul_0_l, Z.add_0_r in HX'. }
      assert (E3 : dmdmadd fold T 1 (T + fold) 1 p ip c ic m1 = m1).
      { unfold dmdmadd. rewrite Z0. change (feq (@fzero t) fzero) with true. reflexivity. }
      rewrite E3. assert (EP : m1 p = m p) by (apply S3; intros I; eapply DTY; [exact I|apply in_head]). rewrite EP.
      unfold operand in OY. rewrite NF in OY. destruct OY as [-> _]. rewrite special_fabs by auto.
      split; [intros ->; reflexivity|intros -> _; reflexivity]. }
    destruct ys as [|y0 ys0].
    { (* Y empty *)
      destruct OY as [GY HY]. cbn [good_scale] in GY. subst scY. rewrite app_nil_r in *.
      destruct (operand_scale _ _ _ OX ltac:(discriminate)) as (zx & RZ & ->).
      rewrite flt_0_scl, rescale_noop by auto. cbn [fst snd]. split; [eauto|].
      unfold operand in OX. rewrite NF in OX. destruct OX as [HX _]. rewrite special_fabs in HX by auto.
      assert (Z0 : m p = fzero) by (destruct (HY 0 ltac:(lia)) as [HY' _]; unfold P_of in HY'; now rewrite Z.mul_0_l, Z.add_0_r in HY').
      assert (E3 : dmdmadd fold pX ipX cX icX p ip c ic m p = m pX).
      { unfold dmdmadd. rewrite Z0. change (feq (@fzero t) fzero) with true.
        replace (feq (m pX) fzero) with false by (rewrite HX; now destruct (existsb f_isnan (x0 :: xs0))).
        destruct (acc_set (pX := pX) (ipX := ipX) (cX := cX) (icX := icX) L ltac:(lia) m DXY) as [S1 _].
        destruct (S1 0 ltac:(lia)) as [S1' _]. rewrite !Z.mul_0_l, !Z.add_0_r in S1'. exact S1'. }
      rewrite E3, HX. split; [intros ->; reflexivity|intros -> _; reflexivity]. }
    set (xs := x0 :: xs0) in *. set (ys := y0 :: ys0) in *. assert (NX : xs <> []) by discriminate. assert (NY : ys <> []) by discriminate.
    clearbody xs ys. clear x0 xs0 y0 ys0.
    destruct (operand_scale _ _ _ OX NX) as (zx & RZX & EX). destruct (operand_scale _ _ _ OY NY) as (zy & RZY & EY).
    assert (DD : forall d, d = Z.abs (zx - zy) -> forall zX zY, zmin t <= zX <= zmax t -> zmin t <= zY <= zmax t -> scX = scl t zX -> scY = scl t zY -> d = Z.abs (zX - zY)).
    { intros d -> zX zY R1 R2 E1 E2. assert (INJ : forall a b, zmin t <= a <= zmax t -> zmin t <= b <= zmax t -> scl t a = scl t b -> a = b).
      { intros a b Ha Hb E. apply Z.eqb_eq. rewrite <- (feq_scl t a b) by auto. rewrite <- E, feq_scl by auto. apply Z.eqb_refl. }
      rewrite (INJ zx zX), (INJ zy zY) by congruence. reflexivity. }
    assert (HX0 : head_of xs 0 (m pX)).
    { pose proof (operand_rescale LX Hf Hs xs scX m zx zx OX NX EX RZX ltac:(lia) ltac:(lia) ltac:(lia)) as H.
      rewrite EX in H. rewrite rescale_same in H by (rewrite feq_scl by auto; apply Z.eqb_refl). now rewrite Z.sub_diag in H. }
    assert (HY0 : head_of ys 0 (m p)).
    { pose proof (operand_rescale L Hf Hs ys scY m zy zy OY NY EY RZY ltac:(lia) ltac:(lia) ltac:(lia)) as H.
      rewrite EY in H. rewrite rescale_same in H by (rewrite feq_scl by auto; apply Z.eqb_refl). now rewrite Z.sub_diag in H. }
    assert (SPEC : forall hX hY dX dY, head_of xs dX hX -> head_of ys dY hY -> ISNANINF hX || ISNANINF hY = true).
    { intros hX hY dX dY A B. destruct (all_finite xs) eqn:FX.
      - rewrite orb_comm. eapply op_special; eauto.
      - eapply op_special; eauto. }
    rewrite EX, EY in *. rewrite flt_scl by auto. destruct (Z.ltb_spec zy zx) as [Lz|Lz]; cbn [fst snd].
    - split; [eauto|].
      pose proof (operand_rescale L Hf Hs ys _ m zy zx OY NY eq_refl RZY ltac:(lia) ltac:(lia) ltac:(lia)) as H.
      pose proof (rescale_frame L m (scl t zx) (scl t zy) ltac:(lia)) as FR.
      set (m1 := dmdrescale fold (scl t zx) (scl t zy) p ip c ic m) in *. clearbody m1.
      assert (E1 : m1 pX = m pX) by (apply FR; intros I; eapply DXY; [apply in_head|exact I]). rewrite <- E1 in HX0.
      rewrite madd_special by (try (eapply head_nonzero; eassumption); eapply SPEC; eassumption).
      apply (FIN (Z.max 0 (zx - zy))); auto; [|apply DD; lia]. apply head_add; auto; lia.
    - rewrite feq_scl by auto. destruct (Z.eqb_spec zx zy) as [Ez|Ez]; cbn [fst snd].
      + split; [eauto|]. rewrite madd_special by (try (eapply head_nonzero; eassumption); eapply SPEC; eassumption).
        apply (FIN (Z.max 0 0)); auto; [|apply DD; lia]. apply head_add; auto; lia.
      + split; [eauto|].
        destruct (acc_set (pX := pX) (ipX := ipX) (cX := cX) (icX := icX) LT ltac:(lia) m DXT) as [S1 S3].
        set (m0 := dmdmset fold pX ipX cX icX T 1 (T + fold) 1 m) in *. clearbody m0.
        assert (OT : opT xs (scl t zx) m0).
        { unfold operand in OX |- *. destruct (all_finite xs).
          - destruct OX as [G H]. split; auto. eapply holds_words_ext; [exact Hf| |exact H]. exact S1.
          - destruct OX as [H G]. split; auto. destruct (S1 0 ltac:(lia)) as [S1' _]. rewrite !Z.mul_0_l, !Z.add_0_r in S1'. now rewrite S1'. }
        pose proof (operand_rescale LT Hf Hs xs _ m0 zx zy OT NX eq_refl RZX ltac:(lia) ltac:(lia) ltac:(lia)) as H.
        pose proof (rescale_frame LT m0 (scl t zy) (scl t zx) ltac:(lia)) as FR.
        set (m1 := dmdrescale fold (scl t zy) (scl t zx) T 1 (T + fold) 1 m0) in *. clearbody m1.
        assert (E1 : m1 p = m p).
        { etransitivity; [apply FR|apply S3]; intros I; eapply DTY; try exact I; apply in_head. }
        rewrite <- E1 in HY0.
        rewrite madd_special by (try (eapply head_nonzero; eassumption); eapply SPEC; eassumption).
        apply (FIN (Z.max (zy - zx) 0)); auto; [|apply DD; lia]. apply head_add; auto; lia.
  Qed.
End MADDSPECIAL.
