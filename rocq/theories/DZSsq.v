(** * The loop of dmzssq *)
From Coq Require Import ZArith Bool List Lia Permutation Reals Lra.
From Flocq Require Import Core BinarySingleNaN.
From Verif Require Import Fp Mem Binned Spec FpProofs BitProofs CoreArith SpecProofs WordProofs MemProofs AccProofs SumProofs Gen GenProofs Blas LaneProofs ReduceProofs DriverProofs ScaleProofs RescaleProofs Ssq SsqProofs MaddsqProofs BlasZ ZEvents ZKernel ZDriver ZLoop RescaleZ BlasDZ DZLoop DZAsum.
Import ListNotations.
Open Scope Z_scope.

(** ** dmdmaddsq when a first word is NaN, and when the scales agree *)
Section MSQ.
  Context {t : ty} {fold p ip c ic pX ipX cX icX : Z} (L : layout fold p ip c ic).
  Hypothesis Hf : 2 <= fold.
  Variable T : Z.
  Hypothesis DXY : disjoint (in_acc fold pX ipX cX icX) (in_acc fold p ip c ic).
  Hypothesis DTY : disjoint (in_acc fold T 1 (T + fold) 1) (in_acc fold p ip c ic).
  Hypothesis DXT : disjoint (in_acc fold pX ipX cX icX) (in_acc fold T 1 (T + fold) 1).
  Lemma maddsq_frame (m : mem t) scX scY : forall a, ~ in_acc fold p ip c ic a -> ~ in_acc fold T 1 (T + fold) 1 a ->
    snd (dmdmaddsq fold scX pX ipX cX icX scY p ip c ic T m) a = m a.
  Proof.
    intros a HY HT. pose proof (layout_contig fold T ltac:(lia)) as LT. unfold dmdmaddsq. destruct (flt scY scX); [|destruct (feq scX scY)]; cbn [snd].
    - rewrite madd_frame by (auto; lia). apply (rescale_frame L); auto. lia.
    - apply madd_frame; auto. lia.
    - rewrite madd_frame by (auto; lia). rewrite (rescale_frame LT) by (auto; lia).
      destruct (acc_set (pX := pX) (ipX := ipX) (cX := cX) (icX := icX) LT ltac:(lia) m DXT) as [_ S]. apply S. exact HT.
  Qed.
  Lemma rescale_nan q iq d id (Lq : layout fold q iq d id) (m : mem t) s s' : m q = B754_nan -> dmdrescale fold s s' q iq d id m q = B754_nan.
  Proof.
    intros E. unfold dmdrescale. destruct (_ || _); [exact E|]. set (r := fmul _ _).
    destruct (rescale_loop_ok Lq r (Z.to_nat fold) 0 m ltac:(lia) ltac:(lia)) as [_ R2].
    destruct (R2 0 ltac:(lia)) as [R3 _].
    - intros i1 Hi1. replace i1 with 0 by lia. rewrite Z.mul_0_l, Z.add_0_r, E, fdiv_nan. reflexivity.
    - rewrite Z.mul_0_l, Z.add_0_r in R3. cbv zeta in R3. rewrite R3, E. apply fdiv_nan.
  Qed.
  Lemma maddsq_nan (m : mem t) scX scY : m pX = B754_nan \/ m p = B754_nan ->
    snd (dmdmaddsq fold scX pX ipX cX icX scY p ip c ic T m) p = B754_nan.
  Proof.
    intros H. pose proof (layout_contig fold T ltac:(lia)) as LT. unfold dmdmaddsq. destruct (flt scY scX); [|destruct (feq scX scY)]; cbn [snd].
    - apply (madd_nan L ltac:(lia) DXY). destruct H as [H|H]; [left|right].
      + rewrite (rescale_frame L); auto; [lia|]. intros I. eapply DXY; [apply in_p; exact Hf|exact I].
      + now apply rescale_nan.
    - apply (madd_nan L ltac:(lia) DXY). exact H.
    - apply (madd_nan L ltac:(lia) DTY). destruct (acc_set (pX := pX) (ipX := ipX) (cX := cX) (icX := icX) LT ltac:(lia) m DXT) as [S1 S3].
      destruct H as [H|H]; [left|right].
      + apply (rescale_nan _ _ _ _ LT). destruct (S1 0 ltac:(lia)) as [S1' _]. unfold P_of in S1'. rewrite !Z.mul_0_l, !Z.add_0_r in S1'. now rewrite S1'.
      + rewrite (rescale_frame LT); [|lia|]. rewrite S3; auto. all: intros I; eapply DTY; [exact I|apply in_p; exact Hf].
  Qed.
  Definition okscale (sc : F t) : Prop := sc = fzero \/ exists z, zmin t <= z <= zmax t /\ sc = scl t z.
  Lemma maddsq_fresh (m : mem t) sc : okscale sc ->
    dmdmaddsq fold sc pX ipX cX icX fzero p ip c ic T m = (sc, dmdmadd fold pX ipX cX icX p ip c ic m).
  Proof.
    intros [->|(z & Hz & ->)]; unfold dmdmaddsq.
    - reflexivity.
    - rewrite flt_0_scl by auto. now rewrite rescale_noop.
  Qed.
  Lemma maddsq_same (m : mem t) sc : okscale sc ->
    dmdmaddsq fold sc pX ipX cX icX sc p ip c ic T m = (sc, dmdmadd fold pX ipX cX icX p ip c ic m).
  Proof.
    intros [->|(z & Hz & ->)]; unfold dmdmaddsq.
    - reflexivity.
    - rewrite flt_scl, Z.ltb_irrefl, feq_scl, Z.eqb_refl by auto. reflexivity.
  Qed.
End MSQ.
Lemma good_scale_ok {t} (sc : F t) zs : good_scale sc zs -> okscale sc.
Proof.
  destruct zs; cbn [good_scale]; [now left|]. intros (M & _ & ->). right. exists (scale_z M). split; [apply scale_z_range|apply dscale_eq].
Qed.
Lemma rescaled_ext {t fold p ip c ic} k V s (m m1 m2 : mem t) : 1 <= fold -> (forall a, in_acc fold p ip c ic a -> m2 a = m1 a) ->
  rescaled (fold := fold) (p := p) (ip := ip) (c := c) (ic := ic) k V s m m1 -> rescaled (fold := fold) (p := p) (ip := ip) (c := c) (ic := ic) k V s m m2.
Proof.
  intros Hf E (H1 & H2 & H3). assert (EP : m2 p = m1 p) by (apply E; exists 0; split; [lia|left; lia]).
  unfold rescaled. rewrite EP. split; [exact H1|]. split; [exact H2|]. intros HW i Hi HI. rewrite (E (p + i * ip)), (E (c + i * ic)); [auto|now apply in_car|now apply in_pri].
Qed.

Section SSQ.
  Context {t : ty}.
  Variables (fold A p ip c ic : Z).
  Notation CA := (A + 2 * fold).
  Notation in0 := (in_acc fold A (2 * 1) CA (2 * 1)).
  Notation in1 := (in_acc fold (A + 1) (2 * 1) (CA + 1) (2 * 1)).
  Notation inY := (in_acc fold p ip c ic).
  Hypothesis Hf : 2 <= fold.
  Hypothesis Hs : hi_bin t + fold - 1 <= lim t.
  Hypothesis L : layout fold p ip c ic.
  Hypothesis D0 : disjoint in0 inY.
  Hypothesis D1 : disjoint in1 inY.
  Notation rep0 m us xs d := (rep t fold us xs d (P_of m A (2 * 1)) (P_of m CA (2 * 1))).
  Notation rep1 m us xs d := (rep t fold us xs d (P_of m (A + 1) (2 * 1)) (P_of m (CA + 1) (2 * 1))).
  Notation holds0 m us xs := (holds t fold us xs (P_of m A (2 * 1)) (P_of m CA (2 * 1))).
  Notation holds1 m us xs := (holds t fold us xs (P_of m (A + 1) (2 * 1)) (P_of m (CA + 1) (2 * 1))).
  Notation holdsY m us xs := (holds t fold us xs (P_of m p ip) (P_of m c ic)).
  Notation frameY := (@frame t fold p ip c ic).
  Notation zframeA := (@zframe t fold A 1 CA 1).
  Notation dzf := (@dzframe t fold A p ip c ic).
  Notation dzout := (dzoutside fold A p ip c ic).
  Let Hm : fold <= jmax t + 1 := Hm' Hs.
  Let LA0 := LA0 fold A Hf.
  Let LA1 := LA1 fold A Hf.
  Let DA := DA fold A.

  Lemma zmdrescale_frame s s' (m : mem t) : zframeA m (zmdrescale fold s s' A 1 CA 1 m).
  Proof.
    intros a N0 N1. unfold zmdrescale. destruct (_ || _); [reflexivity|].
    destruct (zrescale_loop_ok fold A Hf (fmul (fdiv s s') (fdiv s s')) (Z.to_nat fold) 0 m ltac:(lia) ltac:(lia)) as [H _]. apply H.
    intros j Hj. repeat split; intros ->.
    - apply N0. exists j. split; [lia|left; lia].
    - apply N1. exists j. split; [lia|left; lia].
    - apply N0. exists j. split; [lia|right; lia].
    - apply N1. exists j. split; [lia|right; lia].
  Qed.

  Lemma zssq_step (m : mem t) zs0 zs1 d sc xs0 xs1 amax :
    good_scale sc (zs0 ++ zs1) -> rep0 m (map (sq sc) zs1) (map (sq sc) zs0) d -> rep1 m (map (sq sc) zs0) (map (sq sc) zs1) d ->
    0 <= d <= endurance t -> all_finite (zs0 ++ zs1) = true ->
    is_max amax (xs0 ++ xs1) -> all_finite (xs0 ++ xs1) = true -> xs0 ++ xs1 <> [] ->
    exists m1 sc1, (if flt sc (dscale amax) then
        (if flt fzero sc then zmdrescale fold (dscale amax) sc A 1 CA 1 m else m, dscale amax) else (m, sc)) = (m1, sc1) /\
      let am := fmul (fdiv amax sc1) (fdiv amax sc1) in
      let m2 := zmdupdate fold am A 1 CA 1 m1 in
      good_scale sc1 ((xs0 ++ xs1) ++ zs0 ++ zs1) /\ is_finite am = true /\
      rep0 m2 (am :: map (sq sc1) zs1) (map (sq sc1) zs0) d /\ rep1 m2 (am :: map (sq sc1) zs0) (map (sq sc1) zs1) d /\ zframeA m m2 /\
      (forall x, In x (xs0 ++ xs1) -> findex am <= findex (sq sc1 x)) /\ lead (map (sq sc1) (xs0 ++ xs1)) <= findex am.
  Proof.
    intros G R0 R1 Hd HZ HM HX NE. pose proof (max_finite _ _ HM HX) as FA. set (xs := xs0 ++ xs1) in *. clearbody xs.
    set (za := scale_z amax). pose proof (scale_z_range t amax) as ZA. fold za in ZA.
    assert (TAIL : forall z, in_scale z amax ->
      let am := fmul (fdiv amax (scl t z)) (fdiv amax (scl t z)) in
      am = sq (scl t z) amax /\ is_finite am = true /\
      (forall x, In x xs -> findex am <= findex (sq (scl t z) x)) /\ lead (map (sq (scl t z)) xs) <= findex am).
    { intros z IS am. assert (E : am = sq (scl t z) amax) by (unfold am, sq; now rewrite div_mul_scl).
      split; [exact E|]. rewrite E. split; [now apply sq_fin|]. split.
      - intros x I. destruct (max_mags _ _ x HM HX I) as [Fx Lx]. apply sq_findex_mono; auto. eapply in_scale_le; eauto.
      - destruct HM as (_ & _ & _ & [E0|(x & I & E0)]).
        + rewrite E0. rewrite findex_fin by (apply sq_fin; rewrite <- E0; exact IS).
          assert (T : toZ (sq (scl t z) fzero) = 0).
          { rewrite E0 in IS. destruct (sq_val z fzero IS) as (A1 & A2 & A3 & A4). apply (IZR_bpow_inj t). rewrite <- toZ_B2R, A3.
            assert (Y : ysc z (@fzero t) = 0%R) by (unfold ysc; cbn [fzero B2R]; rewrite Rmult_0_l; apply round_0, valid_rnd_N).
            rewrite Y, Rmult_0_l, Rmult_0_l. apply round_0, valid_rnd_N. }
          rewrite T. change (bin_of t 0) with (jmax t). apply lead_range.
        + rewrite E0, sq_fabs. apply lead_le. apply in_map. exact I. }
    rewrite dscale_eq. fold za. destruct (zs0 ++ zs1) as [|z0 zsr] eqn:EZ.
    - (* empty accumulator *)
      apply app_eq_nil in EZ. destruct EZ as [-> ->].
      cbn [good_scale] in G. subst sc. rewrite flt_0_scl by auto. change (flt (@fzero t) fzero) with false.
      eexists _, _. split; [reflexivity|]. cbv zeta. rewrite app_nil_r.
      destruct (TAIL za (in_own_scale _ FA)) as (T1 & T2 & T3 & T4). cbn [map] in R0, R1 |- *.
      destruct (zupdate_ok fold A Hf Hm m [] [] [] [] d (fmul (fdiv amax (scl t za)) (fdiv amax (scl t za))) R0 R1 Hd) as (R2 & R3 & F2).
      split; [destruct xs as [|x xs]; [contradiction|]; exists amax; split; auto; now rewrite dscale_eq|].
      split; [exact T2|]. split; [exact R2|]. split; [exact R3|]. split; [exact F2|]. split; [exact T3|exact T4].
    - destruct G as (M & MX & ->). rewrite !dscale_eq in *. set (z := scale_z M) in *.
      pose proof (scale_z_range t M) as ZR. fold z in ZR. rewrite <- EZ in *.
      assert (NZ : zs0 ++ zs1 <> []) by (rewrite EZ; discriminate). clear EZ z0 zsr.
      pose proof (max_finite _ _ MX HZ) as FM. rewrite flt_scl, flt_0_scl by auto.
      pose proof (is_max_merge _ _ _ _ HM MX) as MM.
      assert (CE : xs ++ zs0 ++ zs1 <> []) by (destruct xs; [contradiction|discriminate]).
      assert (GS : forall a, is_max a (xs ++ zs0 ++ zs1) -> good_scale (scl t (scale_z a)) (xs ++ zs0 ++ zs1)).
      { intros a Ha. unfold good_scale. destruct (xs ++ zs0 ++ zs1); [contradiction|]. exists a. split; auto. now rewrite dscale_eq. }
      pose proof HZ as HZ'. rewrite all_finite_app in HZ'. apply andb_true_iff in HZ'. destruct HZ' as [HZ0 HZ1].
      destruct (Z.ltb_spec z za) as [Lz|Lz].
      + (* larger scale *)
        eexists _, _. split; [reflexivity|]. cbv zeta.
        destruct (TAIL za (in_own_scale _ FA)) as (T1 & T2 & T3 & T4).
        set (am := fmul (fdiv amax (scl t za)) (fdiv amax (scl t za))) in *. clearbody am.
        assert (AM : Z.abs (toZ M) <= Z.abs (toZ amax)).
        { destruct (Z_le_gt_dec (Z.abs (toZ M)) (Z.abs (toZ amax))); auto. exfalso.
          assert (za <= z) by (apply scale_z_mono; auto; lia). lia. }
        assert (ZM : forall x, In x (zs0 ++ zs1) -> in_scale z x /\ findex am <= findex (sq (scl t za) x)).
        { intros x I. destruct (max_mags _ _ x MX HZ I) as [Fx Lx]. split; [now apply (max_in_scale M _ x MX HZ I)|].
          rewrite T1. apply sq_findex_mono; [|now apply in_own_scale|lia]. eapply in_scale_le; [apply (in_own_scale amax FA)|auto|lia]. }
        assert (HB : findex am <= hi_bin t).
        { rewrite T1. unfold za. rewrite <- dscale_eq. apply sq_hi; auto. fold za. lia. }
        assert (HJ : hi_bin t <= jmax t) by (destruct t; cbn; lia).
        assert (LG : forall (s : F t) b (l : list (F t)), (forall x, In x l -> b <= findex (sq s x)) -> b <= jmax t -> b <= lead (map (sq s) l)).
        { intros s b l H J. apply lead_ge; auto. intros y I. apply in_map_iff in I. destruct I as (x & <- & I). auto. }
        set (k := lead (map (sq (scl t z)) (zs0 ++ zs1))).
        assert (LO : lo_bin t <= k).
        { apply LG; [|destruct t; cbn; lia]. intros x I. apply sq_lo. now apply ZM. }
        assert (K1 : 1 <= k) by (assert (1 <= lo_bin t) by (destruct t; cbn; lia); lia).
        assert (KB : findex am <= k + 2 * (za - z)).
        { assert (findex am - 2 * (za - z) <= k); [|lia]. apply LG; [|lia]. intros x I. destruct (ZM x I) as [I1 I2].
          pose proof (findex_change z za x (findex am) I1 Lz ltac:(lia) HB I2). lia. }
        assert (KW : k + 2 * (za - z) <= lim t -> width t * (2 * (za - z)) < emax t).
        { intros HK. assert (W2 : 2 * (za - z) <= lim t - lo_bin t) by lia. clear -W2 Lz. generalize dependent (za - z).
          destruct t; cbn [lim lo_bin width emax]; intros; lia. }
        assert (E0 : lead (map (sq (scl t z)) zs1 ++ map (sq (scl t z)) zs0) = k) by (unfold k; rewrite map_app, !lead_app; lia).
        assert (E1 : lead (map (sq (scl t z)) zs0 ++ map (sq (scl t z)) zs1) = k) by (unfold k; rewrite map_app, !lead_app; lia).
        assert (FS : forall s z', s = scl t z' -> z <= z' -> z' <= zmax t -> all_finite (map (sq s) zs0) = true /\ all_finite (map (sq s) zs1) = true).
        { intros s z' -> H1 H2. assert (HH : forall l, (forall x, In x l -> In x (zs0 ++ zs1)) -> all_finite (map (sq (scl t z')) l) = true).
          { intros l HL. unfold all_finite. apply forallb_forall. intros y I. apply in_map_iff in I. destruct I as (x & <- & I).
            apply sq_fin. apply (in_scale_up z); try lia. now apply ZM, HL. }
          split; apply HH; intros x I; apply in_or_app; auto. }
        destruct (FS (scl t z) z eq_refl ltac:(lia) ltac:(lia)) as [FZ0 FZ1]. destruct (FS (scl t za) za eq_refl ltac:(lia) ltac:(lia)) as [FA0 FA1].
        assert (N0 : map (sq (scl t z)) zs1 ++ map (sq (scl t z)) zs0 <> []).
        { rewrite <- map_app. intros E. apply map_eq_nil in E. apply app_eq_nil in E. destruct E as [-> ->]. now apply NZ. }
        assert (N1 : map (sq (scl t z)) zs0 ++ map (sq (scl t z)) zs1 <> []).
        { rewrite <- map_app. intros E. apply map_eq_nil in E. contradiction. }
        assert (ACC : forall us ws P W, rep t fold us ws d P W -> all_finite ws = true -> us ++ ws <> [] -> lead (us ++ ws) = k ->
          exists V C, acc t fold k V C P W /\ (forall j, 0 <= j -> inbin t (6 * quarter t + V j))).
        { clear -Hd. intros us ws P W R F N E. unfold rep in R. rewrite F, E in R. destruct (us ++ ws); [contradiction|].
          destruct R as (V & C & HA & _ & _ & _ & BV). exists V, C. split; auto. intros j Hj. specialize (BV j Hj).
          pose proof (quarter_endurance t) as QE. pose proof (width_pos t) as WP. pose proof (pow2_pos (width t - 1) ltac:(lia)) as P2.
          assert (BQ : d * 2 ^ (width t - 1) <= quarter t) by (rewrite QE; apply Z.mul_le_mono_nonneg_r; lia).
          unfold inbin. lia. }
        destruct (ACC _ _ _ _ R0 FZ0 N0 E0) as (V0 & C0 & A0 & B0). destruct (ACC _ _ _ _ R1 FZ1 N1 E1) as (V1 & C1 & A1 & B1). clear ACC.
        assert (RS0 : forall V C, acc t fold k V C (P_of m A (2 * 1)) (P_of m CA (2 * 1)) -> (forall j, 0 <= j -> inbin t (6 * quarter t + V j)) ->
          rescaled (fold := fold) (p := A) (ip := 2 * 1) (c := CA) (ic := 2 * 1) k V (2 * (za - z)) m (zmdrescale fold (scl t za) (scl t z) A 1 CA 1 m)).
        { intros V C HA HB0. apply (zrescale_ok fold A Hf Hm m k V C V1 C1 z za); auto; lia. }
        assert (RS1 : forall V C, acc t fold k V C (P_of m (A + 1) (2 * 1)) (P_of m (CA + 1) (2 * 1)) -> (forall j, 0 <= j -> inbin t (6 * quarter t + V j)) ->
          rescaled (fold := fold) (p := A + 1) (ip := 2 * 1) (c := CA + 1) (ic := 2 * 1) k V (2 * (za - z)) m (zmdrescale fold (scl t za) (scl t z) A 1 CA 1 m)).
        { intros V C HA HB0. apply (zrescale_ok fold A Hf Hm m k V0 C0 V C z za); auto; lia. }
        pose proof (zmdrescale_frame (scl t za) (scl t z) m) as F1.
        set (m1 := zmdrescale fold (scl t za) (scl t z) A 1 CA 1 m) in *. clearbody m1.
        destruct (rep_rescaled (p := A) (ip := 2 * 1) (c := CA) (ic := 2 * 1) LA0 Hf Hm m m1 _ _ (map (sq (scl t za)) zs0) d (2 * (za - z)) am (lim t) R0 Hd FZ0 FA0 N0) as [Q0 U0];
          rewrite ?E0; auto; try lia; try apply lim_jmax.
        { apply LG; [|lia]. intros x I. apply ZM, in_or_app. auto. }
        { intros j Hj. apply sums_change; auto; try lia. intros x I. apply ZM, in_or_app. auto. }
        set (m1' := dmdupdate fold am A (2 * 1) CA (2 * 1) m1) in *.
        destruct (rep_rescaled (p := A + 1) (ip := 2 * 1) (c := CA + 1) (ic := 2 * 1) LA1 Hf Hm m m1' _ _ (map (sq (scl t za)) zs1) d (2 * (za - z)) am (lim t) R1 Hd FZ1 FA1 N1) as [Q1 U1];
          rewrite ?E1; auto; try lia; try apply lim_jmax.
        { apply LG; [|lia]. intros x I. apply ZM, in_or_app. auto. }
        { intros j Hj. apply sums_change; auto; try lia. intros x I. apply ZM, in_or_app. auto. }
        { intros V C HA HB0. eapply rescaled_ext; [lia| |apply (RS1 V C HA HB0)]. intros a Ha. apply U0. intros I. exact (DA _ I Ha). }
        change (zmdupdate fold am A 1 CA 1 m1) with (dmdupdate fold am (A + 1) (2 * 1) (CA + 1) (2 * 1) m1').
        set (m2 := dmdupdate fold am (A + 1) (2 * 1) (CA + 1) (2 * 1) m1') in *. clearbody m2 m1'.
        assert (Q0' : rep0 m2 [am] (map (sq (scl t za)) zs0) d).
        { apply (local_rep (p := A) (ip := 2 * 1) (c := CA) (ic := 2 * 1) Hf _ _ d m1' m2); auto. intros a I. apply U1. intros J. exact (DA _ I J). }
        assert (LL : forall l0 l1, (forall x, In x (l0 ++ l1) -> In x (zs0 ++ zs1)) ->
          lead ([am] ++ map (sq (scl t za)) l0) = lead ((am :: map (sq (scl t za)) l1) ++ map (sq (scl t za)) l0)).
        { intros l0 l1 HL. cbn [app]. rewrite !lead_cons, lead_app.
          assert (findex am <= lead (map (sq (scl t za)) l1)) by (apply LG; [|lia]; intros x I; apply ZM, HL, in_or_app; auto). lia. }
        split. { apply GS. assert (E : amax = fmax amax M \/ amax = M).
            { unfold fmax. rewrite flt_mag by (apply HM || apply MX). unfold mag. rewrite FA, FM.
              destruct (Z.ltb_spec (Z.abs (toZ M)) (Z.abs (toZ amax))); [now left|]. right.
              apply mag_inj; try (apply HM || apply MX). unfold mag. rewrite FA, FM. lia. }
            destruct E as [E|E]; [rewrite E; exact MM|]. exfalso. unfold za, z in Lz. rewrite E in Lz. lia. }
        split; [exact T2|]. split; [|split; [|split; [|split; [exact T3|exact T4]]]].
        * eapply rep_relead; [| |apply (LL zs0 zs1); auto|exact Q0']; discriminate.
        * eapply rep_relead; [| |apply (LL zs1 zs0)|exact Q1]; try discriminate. intros x I. apply in_app_or in I. apply in_or_app. tauto.
        * eapply zframe_trans; [exact F1|]. intros a I J. rewrite U1, U0; auto.
      + eexists _, _. split; [reflexivity|]. cbv zeta.
        assert (EQ : scale_z (fmax amax M) = z /\ (forall x, In x (amax :: xs ++ zs0 ++ zs1) -> in_scale z x)).
        { assert (FF : is_finite (fmax amax M) = true) by (destruct (fmax_cases amax M) as [->| ->]; auto).
          assert (E : scale_z (fmax amax M) = z).
          { unfold fmax. rewrite flt_mag by (apply HM || apply MX). unfold mag. rewrite FA, FM.
            destruct (Z.ltb_spec (Z.abs (toZ M)) (Z.abs (toZ amax))); [|reflexivity]. fold za.
            assert (z <= za) by (apply scale_z_mono; auto; lia). lia. }
          split; auto. intros x I. rewrite <- E. destruct I as [<-|I].
          - eapply in_scale_le; [apply (in_own_scale _ FF)|auto|].
            unfold fmax. rewrite flt_mag by (apply HM || apply MX). unfold mag. rewrite FA, FM.
            destruct (Z.ltb_spec (Z.abs (toZ M)) (Z.abs (toZ amax))); lia.
          - apply (max_in_scale _ (xs ++ zs0 ++ zs1)); auto. rewrite all_finite_app, HX, HZ. reflexivity. }
        destruct EQ as [EQ IS].
        destruct (TAIL z (IS _ (or_introl eq_refl))) as (T1 & T2 & T3 & T4).
        set (am := fmul (fdiv amax (scl t z)) (fdiv amax (scl t z))) in *. clearbody am.
        destruct (zupdate_ok fold A Hf Hm m _ _ _ _ d am R0 R1 Hd) as (R2 & R3 & F2).
        split. { rewrite <- EQ. now apply GS. }
        split; [exact T2|]. split; [exact R2|]. split; [exact R3|]. split; [exact F2|]. split; [exact T3|exact T4].
  Qed.

  Variables (T T2 : Z).
  Notation inT := (in_acc fold T 1 (T + fold) 1).
  Notation inT2 := (in_acc fold T2 1 (T2 + fold) 1).
  Hypothesis DTY : disjoint inT inY.
  Hypothesis D0T : disjoint in0 inT.
  Hypothesis D1T : disjoint in1 inT.
  Hypothesis DTY2 : disjoint inT2 inY.
  Hypothesis D1T2 : disjoint in1 inT2.
  Definition sframe (m m' : mem t) : Prop := forall a, ~ inY a -> ~ in0 a -> ~ in1 a -> ~ inT a -> ~ inT2 a -> m' a = m a.
  Lemma dzf_sframe m m' : dzf m m' -> sframe m m'.
  Proof. intros H a I0 I1 I2 _ _. now apply H. Qed.
  Lemma sframe_trans m m1 m2 : sframe m m1 -> sframe m1 m2 -> sframe m m2.
  Proof. intros H1 H2 a I0 I1 I2 I3 I4. rewrite H2, H1; auto. Qed.

  Notation seenq ys zs0 zs1 := (seen (map fabs ys) zs0 zs1).
  Definition zssq_in ys (scY : F t) zs0 zs1 d sc (m : mem t) : Prop :=
    if all_finite (seenq ys zs0 zs1) then
      good_scale scY ys /\ holdsY m [] (map (sq scY) ys) /\ good_scale sc (zs0 ++ zs1) /\
      rep0 m (map (sq sc) zs1) (map (sq sc) zs0) d /\ rep1 m (map (sq sc) zs0) (map (sq sc) zs1) d
    else if f_isnan (special (seenq ys zs0 zs1)) then nan3 A p m
    else m p = special (seenq ys zs0 zs1) /\ some_reps fold A d m /\ okscale sc.
  Definition zssq_out ys (scY : F t) zs0 zs1 sc (m : mem t) : Prop :=
    let zs := ys ++ zs0 ++ zs1 in
    if all_finite zs then good_scale sc zs /\ holdsY m [] (map (sq sc) zs)
    else (existsb f_isnan zs = true \/ scY = fzero) -> m p = special (map fabs zs) /\ sc = dscale (mkf 1 0).
  Lemma zssq_out_perm ys scY zs0 zs1 ws0 ws1 sc m : Permutation (zs0 ++ zs1) (ws0 ++ ws1) ->
    zssq_out ys scY zs0 zs1 sc m -> zssq_out ys scY ws0 ws1 sc m.
  Proof.
    intros P0. assert (P : Permutation (ys ++ zs0 ++ zs1) (ys ++ ws0 ++ ws1)) by now apply Permutation_app_head.
    unfold zssq_out. rewrite <- (all_finite_perm _ _ P), <- (special_perm _ _ (Permutation_map fabs P)), <- (existsb_perm _ _ _ P).
    destruct (all_finite _); auto. intros [G H]. split; [eapply good_scale_perm; eauto|].
    eapply holds_perm; [reflexivity| |exact H]. now apply Permutation_map.
  Qed.
  Lemma seenq_all (ys zs0 zs1 : list (F t)) : seenq ys zs0 zs1 = map fabs (ys ++ zs0 ++ zs1).
  Proof. unfold seen. now rewrite !map_app. Qed.

  Lemma madd_inf q iq d id (m : mem t) s : m p = B754_infinity s -> is_finite (m q) = true ->
    dmdmadd fold q iq d id p ip c ic m p = B754_infinity s.
  Proof.
    intros E Fq. unfold dmdmadd. destruct (feq (m q) fzero); [exact E|]. rewrite E.
    replace (feq (B754_infinity s : F t) fzero) with false by (destruct s; reflexivity).
    rewrite (ISNANINF_fin t (B754_infinity s)). cbn [is_finite negb]. rewrite orb_true_r, upd_same.
    destruct (m q); try discriminate; destruct s; reflexivity.
  Qed.
  (** The merge at the end. *)
  Lemma zssq_end ys scY zs0 zs1 d sc m : zssq_in ys scY zs0 zs1 d sc m -> 0 <= d <= endurance t ->
    Z.of_nat (length (ys ++ zs0 ++ zs1)) <= capacity t ->
    let m1 := zbrenorm fold A m in
    let r2 := dmdmaddsq fold sc A 2 CA 2 scY p ip c ic T m1 in
    let r3 := dmdmaddsq fold sc (A + 1) 2 (CA + 1) 2 (fst r2) p ip c ic T2 (snd r2) in
    zssq_out ys scY zs0 zs1 (if ISNANINF (snd r3 p) then dscale (mkf 1 0) else fst r3) (snd r3) /\ sframe m (snd r3).
  Proof.
    intros H Hd HC m1 r2 r3. unfold zssq_in in H. pose proof (endurance_pos t) as EP. rewrite !app_length in HC.
    pose proof (maddsq_frame (pX := A) (ipX := 2) (cX := CA) (icX := 2) L Hf T D0T m1 sc scY) as F2. fold r2 in F2.
    pose proof (maddsq_frame (pX := A + 1) (ipX := 2) (cX := CA + 1) (icX := 2) L Hf T2 D1T2 (snd r2) sc (fst r2)) as F3. fold r3 in F3.
    assert (FR : zframeA m m1 -> sframe m (snd r3)).
    { intros FA a I0 I1 I2 I3 I4. rewrite F3, F2, FA; auto. }
    rewrite seenq_all in H.
    assert (SN : forall l : list (F t), all_finite l = false -> special (map fabs l) = if existsb f_isnan l then B754_nan else B754_infinity false) by (intros; now apply special_fabs).
    rewrite all_finite_fabs in H. destruct (all_finite (ys ++ zs0 ++ zs1)) eqn:FS; [|rewrite (SN _ FS) in H; destruct (existsb f_isnan (ys ++ zs0 ++ zs1)) eqn:FN; cbn [f_isnan] in H].
    - destruct H as (GY & HY & GA & R0 & R1).
      destruct (zrenorm_ok fold A Hf m _ _ _ _ d R0 R1 Hd) as (A0 & A1 & FA); try (rewrite map_length; lia). fold m1 in A0, A1, FA.
      specialize (FR FA).
      assert (HY1 : holdsY m1 [] (map (sq scY) ys)) by (eapply zframe_holdsY; eauto). clearbody m1.
      pose proof FS as FS'. rewrite !all_finite_app in FS'. apply andb_true_iff in FS'. destruct FS' as [FY FZ]. apply andb_true_iff in FZ. destruct FZ as [FZ0 FZ1].
      pose proof (maddsq_gen (pX := A) (ipX := 2) (cX := CA) (icX := 2) L Hf Hs T D0 DTY D0T m1 sc scY zs1 zs0 [] ys) as M2. cbn [app] in M2.
      fold r2 in M2. destruct M2 as (G2 & H2 & _); auto.
      { eapply good_scale_perm; [apply Permutation_app_comm|exact GA]. }
      { rewrite all_finite_app, FZ1, FZ0. reflexivity. }
      { rewrite app_length. lia. }
      rewrite app_nil_r in H2.
      assert (A1' : holds1 (snd r2) (map (sq sc) zs0) (map (sq sc) zs1)).
      { eapply (local_holds Hf (p := A + 1) (ip := 2 * 1) (c := CA + 1) (ic := 2 * 1)); [|exact A1]. intros a I. apply F2; intros J; [exact (D1 _ I J)|exact (D1T _ I J)]. }
      pose proof (maddsq_gen (pX := A + 1) (ipX := 2) (cX := CA + 1) (icX := 2) L Hf Hs T2 D1 DTY2 D1T2 (snd r2) sc (fst r2) zs0 zs1 zs1 (zs0 ++ ys)) as M3.
      fold r3 in M3. destruct M3 as (G3 & H3 & _); auto.
      { now rewrite app_assoc. }
      { rewrite all_finite_app, FZ0, FZ1. reflexivity. }
      { rewrite !all_finite_app, FZ0, FZ1, FY. reflexivity. }
      { rewrite !app_length. lia. }
      set (s := fst r3) in *. set (m3 := snd r3) in *. clearbody s m3. clear F2 F3 r2 r3 G2 H2 A1' HY1 A0 A1.
      assert (INC : forall x, In x ((zs0 ++ zs1) ++ zs1 ++ zs0 ++ ys) <-> In x (ys ++ zs0 ++ zs1)) by (intros x; rewrite !in_app_iff; tauto).
      assert (G : good_scale s (ys ++ zs0 ++ zs1)).
      { destruct (ys ++ zs0 ++ zs1) as [|b l] eqn:NE.
        - apply app_eq_nil in NE. destruct NE as [-> NE]. apply app_eq_nil in NE. destruct NE as [-> ->]. exact G3.
        - destruct ((zs0 ++ zs1) ++ zs1 ++ zs0 ++ ys) as [|b' l'] eqn:NE'; [exfalso; apply (INC b); now left|].
          destruct G3 as (M & HM & ->). exists M. split; auto. eapply is_max_incl; [exact HM|exact INC]. }
      assert (HH : holdsY m3 [] (map (sq s) (ys ++ zs0 ++ zs1))).
      { pose proof (good_scale_fin s _ G FS) as FQ.
        destruct (ys ++ zs0 ++ zs1) as [|b l] eqn:NE.
        - apply app_eq_nil in NE. destruct NE as [-> NE]. apply app_eq_nil in NE. destruct NE as [-> ->]. exact H3.
        - rewrite <- NE in *.
          assert (PP : Permutation (zs1 ++ zs0 ++ ys) (ys ++ zs0 ++ zs1)) by (rewrite Permutation_app_comm, <- app_assoc, Permutation_app_swap_app; reflexivity).
          eapply holds_ext; [| | | | | |exact H3].
          + rewrite (all_finite_perm _ _ (Permutation_map (sq s) PP)). exact FQ.
          + exact FQ.
          + rewrite <- map_app. intros E. apply map_eq_nil in E. rewrite <- app_assoc in E. apply app_eq_nil in E. destruct E as [-> E].
            apply app_eq_nil in E. destruct E as [-> E]. cbn [app] in *. subst ys. discriminate.
          + rewrite NE. discriminate.
          + cbn [app]. rewrite !map_app, !lead_app. lia.
          + intros j. apply sums_perm, Permutation_map, PP. }
      assert (NI : ISNANINF (m3 p) = false).
      { pose proof (good_scale_fin s _ G FS) as FQ.
        assert (LC : Z.of_nat (length (map (sq s) (ys ++ zs0 ++ zs1))) <= capacity t) by (rewrite map_length, !app_length; lia).
        pose proof (holds_rep t fold [] _ _ _ LC HH) as R'.
        pose proof (rep_head (ip := ip) (c := c) (ic := ic) Hf _ _ _ _ R' ltac:(lia)) as RH.
        rewrite FQ in RH. rewrite ISNANINF_fin. cbn [app] in RH.
        destruct (map (sq s) (ys ++ zs0 ++ zs1)); [rewrite RH|rewrite (proj2 RH)]; reflexivity. }
      rewrite NI. split; [|exact FR]. unfold zssq_out. rewrite FS. auto.
    - destruct (nan3_zrenorm fold A p ip c ic Hf D0 D1 m H) as [H1 FA]. fold m1 in H1, FA. specialize (FR FA). clearbody m1.
      assert (H3 : snd r3 p = B754_nan).
      { assert (E1 : snd r2 (A + 1) = m1 (A + 1)) by (apply F2; intros J; [eapply D1|eapply D1T]; try exact J; apply in_p; exact Hf).
        assert (N2 : m1 A = B754_nan \/ m1 p = B754_nan -> snd r2 p = B754_nan) by (intros; apply (maddsq_nan L Hf T D0 DTY D0T m1); auto).
        apply (maddsq_nan L Hf T2 D1 DTY2 D1T2). destruct H1 as [H1|[H1|H1]]; [right; auto|right; auto|left; congruence]. }
      split; [|exact FR]. rewrite H3, ISNANINF_fin. cbn [is_finite negb]. unfold zssq_out. rewrite FS, (SN _ FS), FN. auto.
    - destruct H as [HP [(us0 & ws0 & us1 & ws1 & W0 & W1 & WC & R0 & R1) OS]]. rewrite app_length in WC.
      destruct (zrenorm_ok fold A Hf m _ _ _ _ d R0 R1 Hd) as (A0 & A1 & FA); try lia. fold m1 in A0, A1, FA.
      pose proof (zframe_p fold A p ip c ic Hf D0 D1 m m1 FA) as E1. specialize (FR FA). clearbody m1. rewrite HP in E1.
      split; [|exact FR]. unfold zssq_out. rewrite FS, FN, (SN _ FS), FN. intros [HH| ->]; [discriminate|].
      assert (FH0 : is_finite (m1 A) = true) by (apply (rep_fin0 fold A Hf m1 us0 ws0 0); auto; [|lia]; apply holds_rep; [lia|exact A0]).
      assert (FH1 : is_finite (m1 (A + 1)) = true) by (apply (rep_fin1 fold A Hf m1 us1 ws1 0); auto; [|lia]; apply holds_rep; [lia|exact A1]).
      assert (EA : snd r2 (A + 1) = m1 (A + 1)) by (apply F2; intros J; [eapply D1|eapply D1T]; try exact J; apply in_p; exact Hf).
      assert (E2 : r2 = (sc, dmdmadd fold A 2 CA 2 p ip c ic m1)) by (apply maddsq_fresh; exact OS).
      assert (P2 : snd r2 p = B754_infinity false) by (rewrite E2; now apply madd_inf).
      assert (E3 : r3 = (sc, dmdmadd fold (A + 1) 2 (CA + 1) 2 p ip c ic (snd r2))).
      { unfold r3. rewrite E2 at 1. cbn [fst]. now apply maddsq_same. }
      assert (P3 : snd r3 p = B754_infinity false) by (rewrite E3; apply madd_inf; [exact P2|now rewrite EA]).
      rewrite P3, ISNANINF_fin. cbn [is_finite negb]. auto.
  Qed.

  Hypothesis ET2 : T2 = T + dbnum fold.
  Lemma sq0 (sc : F t) : okscale sc -> sc <> fzero -> is_finite (sq sc fzero) = true /\ toZ (sq sc (@fzero t)) = 0.
  Proof.
    intros [->|(z & Hz & ->)] N; [contradiction|]. split.
    - apply sq_fin. split; [reflexivity|]. split; [exact Hz|]. apply pow2_pos. pose proof (scale_exp_range t z Hz) as [? _].
      pose proof (prec_pos t). pose proof (width_pos t). lia.
    - unfold sq. set (i0 := fdiv _ _). clearbody i0. destruct i0 as [[]|[]| |[]]; reflexivity.
  Qed.
  Lemma zssq_loop_ok : forall fuel tu N X iX i NB d sc (m : mem t) ys scY zs0 zs1,
    legal_avec (amax_vec tu) -> legal_vec (dep_vec tu) -> 0 <= i <= N -> N - i < Z.of_nat fuel -> 1 <= NB <= endurance t -> 0 <= d <= endurance t ->
    zssq_in ys scY zs0 zs1 d sc m -> dzout X iX (N - i) ->
    let ts0 := parts 0 X iX m (N - i) in let ts1 := parts 1 X iX m (N - i) in
    Z.of_nat (length (ys ++ (ts0 ++ zs0) ++ ts1 ++ zs1)) <= capacity t ->
    let r := zssq_loop fuel tu fold N X iX scY p ip c ic A T i NB d sc m in
    zssq_out ys scY (ts0 ++ zs0) (ts1 ++ zs1) (fst r) (snd r) /\ sframe m (snd r).
  Proof.
    induction fuel as [|fuel IH]; intros tu N X iX i NB d sc m ys scY zs0 zs1 LTA LTV Hi Hfu HNB Hd ST OX ts0 ts1 HC; [lia|].
    cbn [zssq_loop]. destruct (Z.ltb_spec i N) as [Li|Li].
    2:{ assert (E0 : ts0 = []) by (unfold ts0; rewrite parts_map, zseq_nil by lia; reflexivity).
        assert (E1 : ts1 = []) by (unfold ts1; rewrite parts_map, zseq_nil by lia; reflexivity).
        rewrite E0, E1 in *. cbn [app] in *. pose proof (zssq_end ys scY zs0 zs1 d sc m ST Hd HC) as R. cbv zeta in R. rewrite ET2 in R.
        cbv zeta. destruct (dmdmaddsq fold sc A 2 CA 2 scY p ip c ic T (zbrenorm fold A m)) as [s2 m2]. cbn [fst snd] in R.
        destruct (dmdmaddsq fold sc (A + 1) 2 (CA + 1) 2 s2 p ip c ic (T + dbnum fold) m2) as [s3 m3]. cbn [fst snd] in R |- *. exact R. }
    set (n := Z.min (N - i) NB). assert (Hn : 1 <= n <= endurance t) by lia.
    assert (En : N - i = n + (N - (i + n))) by lia. assert (Hr : 0 <= N - (i + n)) by lia.
    assert (Hn1 : n <= N - i) by lia. clearbody n.
    set (xs0 := parts 0 X iX m n). set (xs1 := parts 1 X iX m n).
    set (us0' := parts 0 (X + n * (2 * iX)) iX m (N - (i + n))). set (us1' := parts 1 (X + n * (2 * iX)) iX m (N - (i + n))).
    assert (E0 : ts0 = xs0 ++ us0') by (unfold ts0; rewrite En; apply zterms_split; lia).
    assert (E1 : ts1 = xs1 ++ us1') by (unfold ts1; rewrite En; apply zterms_split; lia).
    rewrite E0, E1 in *. clear E0 E1 ts0 ts1. rewrite En in OX.
    destruct (dzoutside_shift fold A p ip c ic X iX n _ ltac:(lia) Hr OX) as [OX1 OX2].
    assert (LX0 : Z.of_nat (length xs0) = n) by (unfold xs0; rewrite parts_length; lia).
    assert (LX1 : Z.of_nat (length xs1) = n) by (unfold xs1; rewrite parts_length; lia).
    assert (PERM : forall ws0 ws1, Permutation ((us0' ++ xs0 ++ ws0) ++ us1' ++ xs1 ++ ws1) (((xs0 ++ us0') ++ ws0) ++ (xs1 ++ us1') ++ ws1)).
    { intros ws0 ws1. apply Permutation_app; rewrite !app_assoc; apply Permutation_app_tail, Permutation_app_comm. }
    rewrite !app_length in HC.
    assert (REC : forall m1 d1 sc1, dzf m m1 -> 0 <= d1 <= endurance t -> zssq_in ys scY (xs0 ++ zs0) (xs1 ++ zs1) d1 sc1 m1 ->
      let r := zssq_loop fuel tu fold N (X + n * (2 * iX)) iX scY p ip c ic A T (i + n) n d1 sc1 m1 in
      zssq_out ys scY ((xs0 ++ us0') ++ zs0) ((xs1 ++ us1') ++ zs1) (fst r) (snd r) /\ sframe m (snd r)).
    { intros m1 d1 sc1 F1 Hd1 ST1.
      pose proof (dzoutside_parts fold A p ip c ic 0 _ _ _ m m1 Hr OX2 F1) as ET0. fold us0' in ET0.
      pose proof (dzoutside_parts fold A p ip c ic 1 _ _ _ m m1 Hr OX2 F1) as ET1. fold us1' in ET1.
      pose proof (IH tu N (X + n * (2 * iX)) iX (i + n) n d1 sc1 m1 ys scY (xs0 ++ zs0) (xs1 ++ zs1)) as R.
      cbv zeta in R. rewrite ET0, ET1 in R. destruct R as [R1 R2]; auto; try lia.
      { rewrite !app_length. lia. }
      split; [|eapply sframe_trans; [apply dzf_sframe|]; eauto]. eapply zssq_out_perm; [apply PERM|exact R1]. }
    cbv zeta. pose proof (amax2_ok tu n X iX m LTA ltac:(lia)) as SC. cbv zeta in SC. fold xs0 xs1 in SC.
    set (amax := amax2 tu n X iX m) in *. clearbody amax. destruct SC as [SC1 SC2].
    (* the branch for infinities *)
    assert (SA : exists m1, (if f_isinf amax || f_isinf (m p) then add_mags n X iX p m else m) = m1 /\ frameY m m1 /\
      m1 p = (if f_isinf amax || f_isinf (m p) then fold_left fadd (mags2 X iX n m) (m p) else m p) /\ (forall a, a <> p -> m1 a = m a)).
    { destruct (f_isinf amax || f_isinf (m p)).
      - destruct (add_mags_ok n X iX p m ltac:(lia)) as [H1 H2].
        { intros j o Hj Ho E. destruct (OX1 j o Hj Ho) as [NO _]. apply NO. rewrite E. apply in_p. exact Hf. }
        eexists. split; [reflexivity|]. split; [|split; [exact H1|exact H2]]. intros a Ha. apply H2. intros ->. apply Ha, in_p. exact Hf.
      - exists m. split; [reflexivity|]. split; [apply frame_refl|]. auto. }
    destruct SA as (m1 & -> & F1 & HP1 & HO1).
    pose proof (frameY_heads fold A p ip c ic Hf D0 D1 m m1 F1) as [HA0 HA1].
    pose proof (mags2_perm X iX n m) as MP. fold xs0 xs1 in MP.
    set (sn := seenq ys zs0 zs1) in *.
    pose proof (seen_more (map fabs ys) zs0 zs1 xs0 xs1) as SM. fold sn in SM.
    (* exit with NaN *)
    assert (EXIT : nan3 A p m1 -> all_finite (seenq ys (xs0 ++ zs0) (xs1 ++ zs1)) = false -> special (seenq ys (xs0 ++ zs0) (xs1 ++ zs1)) = B754_nan ->
      let r := upd m1 p (fadd (m1 p) (fadd (m1 A) (m1 (A + 1)))) in
      zssq_out ys scY ((xs0 ++ us0') ++ zs0) ((xs1 ++ us1') ++ zs1) (dscale (mkf 1 0)) r /\ sframe m r).
    { intros N3 NF NS r. destruct (nan_seen _ _ _ us0' us1' NF NS) as [NF' NS'].
      rewrite seenq_all in NF', NS'. split.
      - eapply zssq_out_perm; [apply PERM|]. unfold zssq_out. rewrite all_finite_fabs in NF'. rewrite NF'. intros _. split; [|reflexivity].
        rewrite NS'. unfold r. rewrite upd_same. unfold nan3 in N3.
        destruct N3 as [E|[E|E]]; rewrite E; rewrite ?fadd_nan_l, ?fadd_nan_r; auto.
      - apply dzf_sframe. eapply dzframe_trans; [apply frameY_dz; exact F1|]. apply frameY_dz. intros a Ha. unfold r. apply upd_other. intros ->. apply Ha, in_p. exact Hf. }
    unfold zssq_in in ST. fold sn in ST.
    destruct (negb (all_finite sn) && f_isnan (special sn)) eqn:BN.
    { (* a NaN was seen before *)
      apply andb_true_iff in BN. destruct BN as [BN1 BN2]. apply negb_true_iff in BN1. rewrite BN1, BN2 in ST.
      assert (N3 : nan3 A p m1).
      { apply (nan3_frameY fold A p ip c ic Hf D0 D1 m m1 F1); [|exact ST]. intros E. rewrite HP1. destruct (f_isinf amax || f_isinf (m p)); auto. apply fold_nan. now right. }
      rewrite (proj2 (nan3_test A p m1) N3).
      assert (NS : special sn = B754_nan) by (destruct (special sn); try discriminate; reflexivity).
      destruct (nan_seen (map fabs ys) zs0 zs1 xs0 xs1 BN1 NS). now apply EXIT. }
    assert (FZS : all_finite sn = true -> all_finite ys = true /\ all_finite (zs0 ++ zs1) = true).
    { unfold sn. rewrite seenq_all, all_finite_fabs, all_finite_app. apply andb_true_iff. }
    assert (FQ : forall (sc : F t) l0 l1, good_scale sc (l0 ++ l1) -> all_finite (l0 ++ l1) = true -> all_finite (map (sq sc) l0) = true /\ all_finite (map (sq sc) l1) = true).
    { intros s l0 l1 G F. apply andb_true_iff. rewrite <- all_finite_app, <- map_app. now apply good_scale_fin. }
    assert (RP : some_reps fold A d m /\ okscale sc /\ (if all_finite sn then is_finite (m p) = true else m p = special sn)).
    { destruct (all_finite sn) eqn:FS.
      - destruct ST as (GY & HY & GA & R0 & R1). destruct (FZS eq_refl) as [FY FZ]. destruct (FQ sc _ _ GA FZ) as [FZ0 FZ1]. split; [|split].
        + exists (map (sq sc) zs1), (map (sq sc) zs0), (map (sq sc) zs0), (map (sq sc) zs1). repeat split; auto. rewrite app_length, !map_length. lia.
        + eapply good_scale_ok; eauto.
        + pose proof (good_scale_fin scY ys GY FY) as FQY.
          pose proof (rep_head (ip := ip) (c := c) (ic := ic) Hf m [] (map (sq scY) ys) 0 (holds_rep _ _ [] (map (sq scY) ys) _ _ ltac:(rewrite map_length; lia) HY) ltac:(lia)) as RH.
          rewrite FQY in RH. cbn [app] in RH. destruct (map (sq scY) ys); [now rewrite RH|apply RH].
      - cbn [negb andb] in BN. rewrite BN in ST. destruct ST as (ST1 & ST2 & ST3). auto. }
    destruct RP as (RP & OS & HD).
    assert (AF : is_finite (m A) = true /\ is_finite (m (A + 1)) = true).
    { destruct RP as (vs0 & ws0 & vs1 & ws1 & W0 & W1 & _ & R0 & R1).
      split; [apply (rep_fin0 fold A Hf m _ _ _ R0 W0 Hd)|apply (rep_fin1 fold A Hf m _ _ _ R1 W1 Hd)]. }
    destruct (inf_stage sn (xs0 ++ xs1) (mags2 X iX n m) amax (m p) HD SC2 MP) as [(FS & BA & BB)|(NF & HS)]; cbv zeta in *.
    2:{ (* infinity or NaN *)
      rewrite <- HP1 in HS. rewrite (all_finite_perm _ _ SM) in NF. rewrite (special_perm _ _ SM) in HS.
      destruct (f_isnan (m1 p)) eqn:NN; cbn [orb].
      - apply EXIT; auto; [left|rewrite <- HS]; destruct (m1 p); try discriminate; reflexivity.
      - rewrite HA0, HA1. destruct AF as [AF0 AF1].
        replace (f_isnan (m A)) with false by (destruct (m A); try discriminate; reflexivity).
        replace (f_isnan (m (A + 1))) with false by (destruct (m (A + 1)); try discriminate; reflexivity). cbn [orb].
        assert (II : f_isinf (m1 p) = true).
        { pose proof (special_fin (seenq ys (xs0 ++ zs0) (xs1 ++ zs1))) as SF. rewrite <- HS in SF. destruct (m1 p); try discriminate; reflexivity. }
        rewrite II. apply REC; [apply frameY_dz; exact F1|exact Hd|]. unfold zssq_in. rewrite NF, <- HS, NN. split; [reflexivity|]. split; [|exact OS].
        destruct RP as (vs0 & ws0 & vs1 & ws1 & W0 & W1 & WC & R0 & R1). destruct (frameY_rep fold A p ip c ic Hf D0 D1 m m1 _ _ _ _ _ _ F1 (conj R0 R1)) as [R0' R1'].
        exists vs0, ws0, vs1, ws1. auto 6. }
    (* finite so far *)
    rewrite FS in *. rewrite BB in HP1. destruct (FZS eq_refl) as [FY FZ]. clear FZS.
    assert (Em : forall a, m1 a = m a) by (intros a; destruct (Z.eq_dec a p) as [->|]; auto).
    rewrite HA0, HA1, HP1. destruct AF as [AF0 AF1].
    replace (f_isnan (m p)) with false by (destruct (m p); try discriminate; reflexivity).
    replace (f_isnan (m A)) with false by (destruct (m A); try discriminate; reflexivity).
    replace (f_isnan (m (A + 1))) with false by (destruct (m (A + 1)); try discriminate; reflexivity). cbn [orb].
    replace (f_isinf (m p)) with false by (destruct (m p); try discriminate; reflexivity).
    destruct ST as (GY & HY & GA & R0 & R1).
    assert (HY1 : holdsY m1 [] (map (sq scY) ys)) by (apply (local_holds Hf [] (map (sq scY) ys) m m1); auto).
    destruct (frameY_rep fold A p ip c ic Hf D0 D1 m m1 _ _ _ _ _ _ F1 (conj R0 R1)) as [R01 R11]. clear R0 R1.
    rewrite (ENDURANCE_eq t).
    assert (RN : exists m2 d1, (if endurance t <? d + n then (zbrenorm fold A m1, 0) else (m1, d)) = (m2, d1) /\
       rep0 m2 (map (sq sc) zs1) (map (sq sc) zs0) d1 /\ rep1 m2 (map (sq sc) zs0) (map (sq sc) zs1) d1 /\ 0 <= d1 /\ d1 + n <= endurance t /\ zframeA m1 m2).
    { destruct (Z.ltb_spec (endurance t) (d + n)).
      - destruct (zrenorm_ok fold A Hf m1 _ _ _ _ d R01 R11 Hd) as (A0 & A1 & FA); try (rewrite map_length; lia).
        eexists _, _. split; [reflexivity|]. split; [apply holds_rep; [rewrite map_length; lia|exact A0]|]. split; [apply holds_rep; [rewrite map_length; lia|exact A1]|].
        split; [lia|]. split; [lia|exact FA].
      - eexists _, _. split; [reflexivity|]. split; [exact R01|]. split; [exact R11|]. split; [lia|]. split; [lia|apply zframe_refl]. }
    destruct RN as (m2 & d1 & -> & R02 & R12 & Hd1 & Hd2 & F2).
    assert (EXP : forall m3, dzf m m3 -> forall cc, parts cc X iX m3 n = parts cc X iX m n).
    { intros m3 F cc. apply (dzoutside_parts fold A p ip c ic); auto. lia. }
    assert (PV : forall (s : F t) m3 cc, map (fun i0 => sq s (part X iX m3 cc (Elem i0))) (zseq 0 n) = map (sq s) (parts cc X iX m3 n)).
    { intros s m3 cc. rewrite parts_map, map_map. reflexivity. }
    destruct (all_finite (xs0 ++ xs1)) eqn:FX.
    - assert (NA : existsb f_isnan (xs0 ++ xs1) = false) by (apply all_finite_flags; auto). specialize (SC1 NA).
      assert (NE : xs0 ++ xs1 <> []) by (intros E; apply app_eq_nil in E; destruct E as [E _]; rewrite E in LX0; cbn in LX0; lia).
      destruct (zssq_step m2 zs0 zs1 d1 sc xs0 xs1 amax GA R02 R12 ltac:(lia) FZ SC1 FX NE) as (m2' & sc1 & -> & S1 & S2 & S3 & S4 & S5 & S6 & S7).
      set (am := fmul (fdiv amax sc1) (fdiv amax sc1)) in *. clearbody am.
      set (m3 := zmdupdate fold am A 1 CA 1 m2') in *. clearbody m3.
      assert (F13 : zframeA m1 m3) by (eapply zframe_trans; eauto).
      assert (FM3 : dzf m m3) by (eapply dzframe_trans; [apply frameY_dz; exact F1|apply zframe_dz; exact F13]).
      assert (G1 : good_scale sc1 ((xs0 ++ zs0) ++ xs1 ++ zs1)).
      { eapply good_scale_perm; [|exact S1]. rewrite <- !app_assoc. apply Permutation_app_head. apply Permutation_app_swap_app. }
      assert (F1' : all_finite ((xs0 ++ zs0) ++ xs1 ++ zs1) = true).
      { rewrite !all_finite_app in *. apply andb_true_iff in FZ, FX. destruct FZ as [-> ->], FX as [-> ->]. reflexivity. }
      destruct (FQ sc1 _ _ G1 F1') as [FQ0 FQ1]. rewrite map_app, all_finite_app in FQ0, FQ1.
      apply andb_true_iff in FQ0, FQ1. destruct FQ0 as [FX0 FZ0], FQ1 as [FX1 FZ1].
      pose proof (zkernel_fin fold A Hf (dep_vec tu) n (fun cc s => sq sc1 (part X iX m3 cc s)) m3 am (map (sq sc1) zs1) (map (sq sc1) zs0) (map (sq sc1) zs0) (map (sq sc1) zs1) d1 LTV ltac:(lia)) as K.
      cbv beta zeta in K. rewrite !PV, !(EXP m3 FM3) in K. fold xs0 xs1 in K. rewrite <- map_app in K. specialize (K S3 S4 FZ0 FZ1).
      destruct (zkernel 1 (dep_vec tu) fold n (fun cc s => sq sc1 (part X iX m3 cc s)) A 1 m3) as [m4 q]. cbn [fst snd] in K.
      destruct K as (-> & R04 & R14 & F4); auto; try lia.
      { rewrite map_app, all_finite_app, FX0, FX1. reflexivity. }
      { intros x I. apply in_map_iff in I. destruct I as (y & <- & I). auto. }
      { intros cc h. unfold part. destruct (zval_none ZSum X iX X iX m3 cc h) as (V1 & V2 & V3).
        assert (OS1 : okscale sc1) by (eapply good_scale_ok; eauto).
        assert (NZ1 : sc1 <> fzero).
        { intros ->. destruct ((xs0 ++ xs1) ++ zs0 ++ zs1) as [|b l] eqn:EE; [apply app_eq_nil in EE; tauto|]. destruct S1 as (M & _ & E). rewrite dscale_eq in E.
          pose proof (scl_pos t (scale_z M) (scale_z_range t M)) as Q. rewrite <- E in Q. discriminate Q. }
        destruct (sq0 sc1 OS1 NZ1) as [Z1 Z2].
        rewrite <- (sq_fabs sc1 (zval ZSum X iX X iX m3 cc (Pad h))), V3. auto. }
      assert (F14 : zframeA m1 m4) by (eapply zframe_trans; eauto).
      apply REC; [eapply dzframe_trans; [apply frameY_dz; exact F1|apply zframe_dz; exact F14]|lia|].
      unfold zssq_in. rewrite <- (all_finite_perm _ _ SM), all_finite_app, all_finite_fabs, FX, FS. cbn [andb].
      split; [exact GY|]. split; [eapply zframe_holdsY; eauto|]. split; [exact G1|].
      assert (LL : findex am = lead (map (sq sc1) (xs0 ++ xs1))).
      { apply Z.le_antisymm; auto. apply lead_ge; [|apply findex_range].
        intros y I. apply in_map_iff in I. destruct I as (x & <- & I). auto. }
      rewrite map_app, lead_app in LL. rewrite !map_app.
      assert (NE2 : forall a b : list (F t), map (sq sc1) xs0 ++ a <> [] /\ map (sq sc1) xs1 ++ b <> []).
      { intros a b. split; intros E; apply app_eq_nil in E; destruct E as [E _]; apply map_eq_nil in E; [rewrite E in LX0; cbn in LX0|rewrite E in LX1; cbn in LX1]; lia. }
      split.
      + eapply rep_relead; [| | |exact R04].
        * discriminate.
        * intros E. apply app_eq_nil in E. destruct E as [_ E]. now apply (NE2 _ []) in E.
        * cbn [app]. rewrite lead_cons, !lead_app. lia.
      + eapply rep_relead; [| | |exact R14].
        * discriminate.
        * intros E. apply app_eq_nil in E. destruct E as [_ E]. now apply (NE2 []) in E.
        * cbn [app]. rewrite lead_cons, !lead_app. lia.
    - (* a NaN in the block *)
      assert (NA : existsb f_isnan (xs0 ++ xs1) = true).
      { destruct (existsb f_isnan (xs0 ++ xs1)) eqn:NA; auto. exfalso. specialize (SC1 eq_refl). destruct SC1 as (M1 & M2 & M3 & M4).
        destruct (all_finite_ex (xs0 ++ xs1) FX) as (x & I & Fx). specialize (M3 x I). unfold mag in M3 at 1. rewrite Fx in M3.
        destruct (is_finite amax) eqn:FA; [apply mag_fin in FA; lia|]. destruct amax; discriminate. }
      assert (RS : exists m2' sc1, (if flt sc (dscale amax) then
         (if flt fzero sc then zmdrescale fold (dscale amax) sc A 1 CA 1 m2 else m2, dscale amax) else (m2, sc)) = (m2', sc1) /\ zframeA m2 m2').
      { destruct (flt sc (dscale amax)); [destruct (flt fzero sc)|]; eexists _, _; (split; [reflexivity|]); try apply zframe_refl.
        apply zmdrescale_frame. }
      destruct RS as (m2' & sc1 & -> & F2').
      pose proof (zupdate_frame fold A Hf (fmul (fdiv amax sc1) (fdiv amax sc1)) m2') as F3.
      set (m3 := zmdupdate fold _ A 1 CA 1 m2') in *. clearbody m3.
      assert (F13 : zframeA m1 m3) by (eapply zframe_trans; [exact F2|]; eapply zframe_trans; eauto).
      assert (FM3 : dzf m m3) by (eapply dzframe_trans; [apply frameY_dz; exact F1|apply zframe_dz; exact F13]).
      destruct (zkernel_nan fold A Hf (dep_vec tu) n (fun cc s => sq sc1 (part X iX m3 cc s)) m3 LTV ltac:(lia)) as (K1 & K2 & K3).
      { apply existsb_exists in NA. destruct NA as (x & I & Nx). apply in_app_or in I.
        assert (G : forall cc, In x (parts cc X iX m3 n) -> exists i0, 0 <= i0 < n /\ is_finite (sq sc1 (part X iX m3 cc (Elem i0))) = false).
        { intros cc J. rewrite parts_map in J. apply in_map_iff in J. destruct J as (i0 & <- & J). apply zseq_In in J. exists i0. split; [lia|]. now apply sq_nan. }
        destruct I as [I|I]; [exists 0|exists 1].
        - destruct (G 0) as (i0 & Q1 & Q2); [|eauto 6]. rewrite (EXP m3 FM3). exact I.
        - destruct (G 1) as (i0 & Q1 & Q2); [|eauto 6]. rewrite (EXP m3 FM3). exact I. }
      destruct (zkernel 1 (dep_vec tu) fold n (fun cc s => sq sc1 (part X iX m3 cc s)) A 1 m3) as [m4 q]. cbn [fst snd] in *. rewrite K1.
      assert (F14 : zframeA m1 m4) by (eapply zframe_trans; eauto).
      apply REC; [eapply dzframe_trans; [apply frameY_dz; exact F1|apply zframe_dz; exact F14]|lia|].
      unfold zssq_in. rewrite <- (all_finite_perm _ _ SM), all_finite_app, all_finite_fabs, FX. cbn [andb].
      rewrite <- (special_perm _ _ SM). unfold special. rewrite existsb_app, nan_fabs_list, NA. cbn [orb f_isnan]. unfold nan3. tauto.
  Qed.
End SSQ.
