(** * The reductions dmdsum, dmdasum, dmddot on finite terms *)
From Coq Require Import ZArith Bool List Lia Lra Reals Permutation.
From Flocq Require Import Core BinarySingleNaN.
From Verif Require Import Fp Mem Binned Spec FpProofs BitProofs CoreArith SpecProofs WordProofs MemProofs AccProofs SumProofs Gen GenProofs Blas LaneProofs.
Import ListNotations.
Open Scope Z_scope.

(** ** Comparison of magnitudes *)
Lemma flt_toZ {t} (a b : F t) : is_finite a = true -> is_finite b = true -> flt a b = (toZ a <? toZ b).
Proof.
  intros Fa Fb. unfold flt. rewrite Bltb_correct by assumption. rewrite !toZ_B2R.
  pose proof (bpow_gt_0 radix2 (emin t)). destruct (Z.ltb_spec (toZ a) (toZ b)).
  - apply Rlt_bool_true. apply Rmult_lt_compat_r; auto. now apply IZR_lt.
  - apply Rlt_bool_false. apply Rmult_le_compat_r; [lra|]. now apply IZR_le.
Qed.
Lemma toZ_fabs {t} (x : F t) : toZ (fabs x) = Z.abs (toZ x).
Proof.
  destruct x as [| | |s mm e H]; try reflexivity. cbn [fabs Babs toZ].
  destruct (e_bounds t s mm e H eq_refl) as [He _].
  rewrite Z.abs_mul, (Z.abs_eq (2 ^ _)) by (apply Z.pow_nonneg; lia). f_equal. destruct s; reflexivity.
Qed.
Lemma fin_fabs {t} (x : F t) : is_finite (fabs x) = is_finite x. Proof. destruct x; reflexivity. Qed.
Lemma sgn_fabs {t} (x : F t) : f_isnan x = false -> Bsign (fabs x) = false. Proof. destruct x; easy. Qed.
Lemma nan_fabs {t} (x : F t) : f_isnan (fabs x) = f_isnan x. Proof. destruct x; reflexivity. Qed.
(** Magnitude of a float that is not NaN; infinities above everything. *)
Definition mag {t} (x : F t) : Z := if is_finite x then Z.abs (toZ x) else 2 ^ span t.
Lemma mag_nonneg {t} (x : F t) : 0 <= mag x.
Proof. unfold mag. destruct (is_finite x); [lia|]. apply Z.pow_nonneg. lia. Qed.
Lemma mag_fin {t} (x : F t) : is_finite x = true <-> mag x < 2 ^ span t.
Proof.
  unfold mag. destruct (is_finite x) eqn:E; [|split; [discriminate|lia]].
  split; [intros _; apply toZ_span|auto].
Qed.
Lemma mag_fabs {t} (x : F t) : mag (fabs x) = mag x.
Proof. unfold mag. rewrite fin_fabs, toZ_fabs. now rewrite Z.abs_involutive. Qed.
Lemma sign_toZ {t} (x : F t) : Bsign x = false -> 0 <= toZ x.
Proof.
  destruct x as [| | |s mm e H]; cbn [Bsign toZ]; try lia. intros ->.
  destruct (e_bounds t false mm e H eq_refl) as [He _]. apply Z.mul_nonneg_nonneg; [apply Pos2Z.is_nonneg|apply Z.pow_nonneg; lia].
Qed.
Lemma flt_mag {t} (a b : F t) : f_isnan a = false -> f_isnan b = false -> Bsign a = false -> Bsign b = false ->
  flt a b = (mag a <? mag b).
Proof.
  intros Na Nb Sa Sb. destruct (is_finite a) eqn:Fa, (is_finite b) eqn:Fb.
  - rewrite flt_toZ by auto. unfold mag. rewrite Fa, Fb. apply sign_toZ in Sa, Sb. rewrite !Z.abs_eq by auto. reflexivity.
  - pose proof (proj1 (mag_fin a) Fa). assert (E : mag b = 2 ^ span t) by (unfold mag; now rewrite Fb).
    rewrite E. destruct (Z.ltb_spec (mag a) (2 ^ span t)); [|lia].
    destruct b as [|sb| |]; try discriminate. cbn in Sb. subst sb. destruct a; try discriminate; reflexivity.
  - pose proof (proj1 (mag_fin b) Fb). assert (E : mag a = 2 ^ span t) by (unfold mag; now rewrite Fa).
    rewrite E. destruct (Z.ltb_spec (2 ^ span t) (mag b)); [lia|].
    destruct a as [|sa| |]; try discriminate. cbn in Sa. subst sa. destruct b; try discriminate; reflexivity.
  - unfold mag. rewrite Fa, Fb, Z.ltb_irrefl.
    destruct a as [|sa| |]; try discriminate. destruct b as [|sb| |]; try discriminate.
    cbn in Sa, Sb. subst. reflexivity.
Qed.
Lemma mag_inj {t} (a b : F t) : f_isnan a = false -> f_isnan b = false -> Bsign a = false -> Bsign b = false ->
  mag a = mag b -> a = b.
Proof.
  intros Na Nb Sa Sb E. destruct (is_finite a) eqn:Fa, (is_finite b) eqn:Fb.
  - unfold mag in E. rewrite Fa, Fb in E. rewrite !Z.abs_eq in E by (apply sign_toZ; auto).
    apply float_ext; auto. right. congruence.
  - pose proof (proj1 (mag_fin a) Fa). unfold mag in E at 2. rewrite Fb in E. lia.
  - pose proof (proj1 (mag_fin b) Fb). unfold mag in E at 1. rewrite Fa in E. lia.
  - destruct a as [|sa| |]; try discriminate. destruct b as [|sb| |]; try discriminate.
    cbn in Sa, Sb. subst. reflexivity.
Qed.

(** M is the largest magnitude of xs (0 for none). *)
Definition is_max {t} (M : F t) (xs : list (F t)) : Prop :=
  f_isnan M = false /\ Bsign M = false /\ (forall x, In x xs -> mag x <= mag M) /\
  (M = fzero \/ exists x, In x xs /\ M = fabs x).
Lemma is_max_nil {t} : is_max (@fzero t) [].
Proof. repeat split; auto. intros x []. Qed.
Lemma is_max_merge {t} (A B : F t) xs ys : is_max A xs -> is_max B ys -> is_max (fmax A B) (xs ++ ys).
Proof.
  intros (NA & SA & UA & EA) (NB & SB & UB & EB). unfold fmax. rewrite flt_mag by auto.
  destruct (Z.ltb_spec (mag B) (mag A)).
  - repeat split; auto.
    + intros x Hx. apply in_app_or in Hx. destruct Hx as [Hx|Hx]; [auto|]. apply UB in Hx. lia.
    + destruct EA as [|(x & I & E)]; [auto|]. right. exists x. rewrite in_app_iff. auto.
  - repeat split; auto.
    + intros x Hx. apply in_app_or in Hx. destruct Hx as [Hx|Hx]; [|auto]. apply UA in Hx. lia.
    + destruct EB as [|(x & I & E)]; [auto|]. right. exists x. rewrite in_app_iff. auto.
Qed.
Lemma is_max_one {t} (x : F t) : f_isnan x = false -> is_max (fabs x) [x].
Proof.
  intros N. repeat split.
  - now rewrite nan_fabs.
  - now apply sgn_fabs.
  - intros y [<-|[]]. rewrite mag_fabs. lia.
  - right. exists x. split; [now left|reflexivity].
Qed.
Lemma is_max_step {t} (M : F t) xs x : f_isnan x = false -> is_max M xs -> is_max (fmax M (fabs x)) (xs ++ [x]).
Proof. intros N H. apply is_max_merge; auto. now apply is_max_one. Qed.
Lemma is_max_incl {t} (M : F t) xs ys : is_max M xs -> (forall x, In x xs <-> In x ys) -> is_max M ys.
Proof.
  intros (N & S & U & E) H. repeat split; auto.
  - intros x Hx. apply U, H, Hx.
  - destruct E as [|(x & I & E)]; auto. right. exists x. split; auto. now apply H.
Qed.
Lemma is_max_unique {t} (M M' : F t) xs : is_max M xs -> is_max M' xs -> M = M'.
Proof.
  intros (N & S & U & E) (N' & S' & U' & E'). apply mag_inj; auto.
  assert (A : forall A B : F t, (forall x, In x xs -> mag x <= mag B) -> A = fzero \/ (exists x, In x xs /\ A = fabs x) -> mag A <= mag B).
  { clear. intros A B U [->|(x & I & ->)].
    - apply (mag_nonneg B).
    - rewrite mag_fabs. auto. }
  pose proof (A M M' U' E). pose proof (A M' M U E'). lia.
Qed.

(** ** The scan *)
Lemma scan_max {t} v n (val : option Z -> F t) : legal_avec v -> 0 <= n ->
  val None = fzero -> (forall i, 0 <= i < n -> f_isnan (val (Some i)) = false) ->
  is_max (scan v n val) (map (fun i => val (Some i)) (zseq 0 n)).
Proof.
  intros HL Hn V0 VN. destruct (scan_events_ok v n HL Hn) as [E1 E2]. unfold scan.
  set (es := scan_events v n) in *. clearbody es. set (lanes := Z.max (a_type_size v) 1) in *.
  assert (L1 : 1 <= lanes) by (unfold lanes; lia). clearbody lanes.
  set (xs := fun l => map (fun e : Z * option Z => val (snd e)) (filter (fun e => l =? fst e) es)).
  assert (NN : forall e, In e es -> f_isnan (val (snd e)) = false).
  { intros [l [i|]] I; cbn; [|now rewrite V0]. apply VN.
    assert (I' : In i (elems es)) by (unfold elems; apply in_flat_map; exists (l, Some i); split; auto; now left).
    rewrite E1 in I'. apply zseq_In in I'. lia. }
  set (st := fold_left _ es _).
  assert (ST : forall l, is_max (st l) (xs l)).
  { intros l. unfold st, xs. clear E1 E2 st xs.
    enough (G : forall st0 pre, is_max (st0 l) pre -> is_max (fold_left (fun st e l =>
        if l =? fst e then fmax (st l) (fabs (val (snd e))) else st l) es st0 l)
        (pre ++ map (fun e : Z * option Z => val (snd e)) (filter (fun e => l =? fst e) es))).
    { apply (G (fun _ => fzero) []). apply is_max_nil. }
    induction es as [|[l' e] es IH]; intros st0 pre H; cbn [fold_left filter].
    - cbn. now rewrite app_nil_r.
    - cbn [fst snd]. destruct (Z.eqb_spec l l') as [->|Nl].
      + cbn [map snd].
        replace (pre ++ val e :: _) with ((pre ++ [val e]) ++ map (fun e : Z * option Z => val (snd e)) (filter (fun e => l' =? fst e) es))
          by (rewrite <- app_assoc; reflexivity).
        apply IH; [intros; apply NN; now right|].
        rewrite Z.eqb_refl. apply is_max_step; auto. apply (NN (l', e)). now left.
      + apply IH; [intros; apply NN; now right|]. destruct (Z.eqb_spec l l'); [congruence|]. exact H. }
  assert (M : is_max (fold_left (fun b l => fmax b (st l)) (zseq 1 (lanes - 1)) (st 0)) (flat_map xs (zseq 0 lanes))).
  { rewrite (zseq_cons 0) by lia. change (0 + 1) with 1. cbn [flat_map].
    generalize (zseq 1 (lanes - 1)). intros ls. generalize (ST 0). generalize (st 0) (xs 0).
    induction ls as [|l ls IH]; intros M pre H; cbn [fold_left flat_map]; [now rewrite app_nil_r|].
    rewrite app_assoc. apply IH. apply is_max_merge; auto. }
  set (r := fold_left _ _ _) in *. clearbody r. destruct M as (M1 & M2 & M3 & M4). repeat split; auto.
  - intros x Hx. apply in_map_iff in Hx. destruct Hx as (i & <- & Hi). apply M3.
    rewrite <- E1 in Hi. unfold elems in Hi. apply in_flat_map in Hi. destruct Hi as ([l o] & I & J). cbn in J.
    destruct o as [k|]; [|destruct J]. destruct J as [->|[]].
    rewrite Forall_forall in E2. pose proof (E2 _ I) as HL'. cbn in HL'.
    apply in_flat_map. exists l. split; [apply zseq_In; lia|]. unfold xs. apply in_map_iff.
    exists (l, Some i). split; auto. apply filter_In. split; auto. cbn. apply Z.eqb_refl.
  - destruct M4 as [|(x & I & E)]; [auto|]. apply in_flat_map in I. destruct I as (l & _ & I).
    unfold xs in I. apply in_map_iff in I. destruct I as ([l' [i|]] & <- & I); cbn in E.
    + right. exists (val (Some i)). split; auto. apply in_map_iff. exists i. split; auto.
      rewrite <- E1. unfold elems. apply in_flat_map. exists (l', Some i). split; [|now left].
      apply filter_In in I. apply I.
    + left. rewrite E, V0. reflexivity.
Qed.

(** ** Bins of a maximum *)
Lemma bin_mono t X Y : Z.abs X <= Z.abs Y -> bin_of t Y <= bin_of t X.
Proof.
  intros H. unfold bin_of. pose proof (width_pos t). destruct (Z.eqb_spec X 0).
  - destruct (Z.eqb_spec Y 0); lia.
  - destruct (Z.eqb_spec Y 0); [lia|].
    assert (Z.log2 (Z.abs X) <= Z.log2 (Z.abs Y)) by (apply Z.log2_le_mono; lia).
    assert ((emax t - emin t - (Z.log2 (Z.abs Y) + 1)) / width t <= (emax t - emin t - (Z.log2 (Z.abs X) + 1)) / width t)
      by (apply Z.div_le_mono; lia). lia.
Qed.
Lemma bin_of_abs t X : bin_of t (Z.abs X) = bin_of t X.
Proof.
  unfold bin_of. rewrite Z.abs_involutive. destruct (Z.eqb_spec X 0) as [->|]; [reflexivity|].
  destruct (Z.eqb_spec (Z.abs X) 0); [lia|reflexivity].
Qed.
Lemma max_finite {t} (M : F t) xs : is_max M xs -> all_finite xs = true -> is_finite M = true.
Proof.
  intros (_ & _ & _ & [->|(x & I & ->)]) HF; [reflexivity|]. rewrite fin_fabs.
  unfold all_finite in HF. rewrite forallb_forall in HF. auto.
Qed.
Lemma max_index {t} (M : F t) xs : is_max M xs -> all_finite xs = true ->
  (forall x, In x xs -> findex M <= findex x) /\ lead xs <= findex M.
Proof.
  intros H HF. pose proof (max_finite M xs H HF) as FM. destruct H as (_ & _ & U & E).
  assert (HI : forall x, In x xs -> is_finite x = true) by (unfold all_finite in HF; rewrite forallb_forall in HF; auto).
  unfold findex. rewrite FM. split.
  - intros x I. rewrite (HI x I). apply bin_mono. specialize (U x I). unfold mag in U.
    rewrite FM, (HI x I) in U. exact U.
  - destruct E as [->|(x & I & ->)].
    + change (bin_of t (toZ (@fzero t))) with (jmax t). apply lead_range.
    + rewrite toZ_fabs. rewrite bin_of_abs.
      pose proof (lead_le xs x I) as LE. unfold findex in LE. rewrite (HI x I) in LE. exact LE.
Qed.

(** ** The kernel on the representation relation *)
Definition same_bins {t} (vs xs : list (F t)) : Prop :=
  forall j, sums vs j = sums xs j /\ mags vs j = mags xs j.
Lemma slice_0 t j : slice t 0 j = 0.
Proof.
  unfold slice. assert (R : forall n, remainder t 0 n = 0).
  { induction n as [|n IH]; [reflexivity|]. cbn [remainder]. rewrite IH. reflexivity. }
  rewrite R. reflexivity.
Qed.
Lemma padded_bins {t} (val : option Z -> F t) : toZ (val None) = 0 -> forall es,
  same_bins (map (fun e : Z * option Z => val (snd e)) es) (map (fun i => val (Some i)) (elems es)).
Proof.
  intros V0 es j. unfold mags. rewrite !sums_zsum. induction es as [|[l [i|]] es [IH1 IH2]]; [auto| |].
  - cbn [map snd elems flat_map app] in *. rewrite !zsum_cons. unfold elems in *. rewrite IH1, IH2. auto.
  - cbn [map snd elems flat_map app] in *. rewrite !zsum_cons, V0, slice_0. unfold elems in *. rewrite IH1, IH2. auto.
Qed.

Section KREP.
  Context {t : ty} {fold p ip c ic : Z} (L : layout fold p ip c ic).
  Hypothesis Hf : 2 <= fold.
  Hypothesis Hm : fold <= jmax t + 1.
  Notation repm m us xs d := (rep t fold us xs d (P_of m p ip) (P_of m c ic)).
  Notation framem := (frame fold p ip c ic).

  Lemma rep_lanes vector ts lanes dep (m : mem t) us zs d (es : list (Z * F t)) (xs : list (F t)) :
    lane_shape vector ts lanes -> dep_ok (lead (us ++ zs)) dep -> (forall s x, length (dep s x) = length s) ->
    repm m us zs d -> all_finite zs = true -> us ++ zs <> [] -> all_finite xs = true ->
    (forall x, In x xs -> lead (us ++ zs) <= findex x) ->
    Forall (fun e => 0 <= fst e < lanes) es ->
    Forall (fun x => is_finite x = true /\ lead (us ++ zs) <= findex x) (map snd es) ->
    same_bins (map snd es) xs ->
    0 <= d -> d + Z.of_nat (length xs) <= endurance t ->
    let m' := store_lanes vector ts lanes fold p ip (run_lanes dep (read m p ip fold) es) m in
    repm m' us (xs ++ zs) (d + Z.of_nat (length xs)) /\ framem m m'.
  Proof.
    intros LS OK LEN R HZ NE HX XB HE HV SB Hd HB m'. unfold rep in R. rewrite HZ in R.
    destruct (us ++ zs) as [|a l] eqn:E; [contradiction|]. rewrite <- E in *. clear NE.
    set (k := lead (us ++ zs)) in *. destruct R as (V & C & A & S & ZV & ZC & B).
    pose proof (lead_range (us ++ zs)) as LR. fold k in LR.
    pose proof (quarter_endurance t) as QE. pose proof (width_pos t).
    pose proof (pow2_pos (width t - 1) ltac:(lia)) as WP. set (w := 2 ^ (width t - 1)) in *.
    assert (HV' : Forall (fun x => is_finite x = true /\ k <= bin_of t (toZ x)) (map snd es)).
    { eapply Forall_impl; [|exact HV]. intros x [Fx Ix]. unfold findex in Ix. rewrite Fx in Ix. auto. }
    destruct (acc_lanes L ltac:(lia) vector ts lanes dep m k V C es LS OK LEN A HE HV') as [A' FR].
    { intros i Hi. assert (E2 : mags (map snd es) (k + i) = mags xs (k + i)) by apply SB. rewrite E2. specialize (B (k + i) ltac:(lia)).
      pose proof (mags_bound xs (k + i) ltac:(lia)). fold w in H0. nia. }
    fold m' in A', FR. split.
    2:{ intros x Hx. apply FR. intros j Hj ->. apply Hx. now apply in_pri. }
    assert (LK : lead (us ++ xs ++ zs) = k).
    { assert (G : k <= lead xs).
      { clear -XB LR. induction xs as [|x xs IH].
        - rewrite lead_nil. lia.
        - rewrite lead_cons. pose proof (XB x (or_introl eq_refl)).
          assert (k <= lead xs) by (apply IH; intros; apply XB; now right). lia. }
      unfold k in *. rewrite !lead_app in *. lia. }
    unfold rep. rewrite all_finite_app, HX, HZ. cbn [andb].
    destruct (us ++ xs ++ zs) as [|b r] eqn:E'.
    { apply app_eq_nil in E'. destruct E' as [-> E']. apply app_eq_nil in E'. destruct E' as [_ ->]. discriminate. }
    rewrite <- E' in *. clear E' b r. rewrite LK. cbv zeta.
    exists (fun j => V j + sums xs j), C. split; [|split; [|split; [|split]]].
    - destruct A' as [K1 K2]. split; [exact K1|]. intros i Hi. destruct (K2 i Hi) as [K3 K4].
      rewrite (proj1 (SB (k + i))) in K3. auto.
    - intros j Hj. rewrite sums_app, <- S by auto. ring.
    - intros j Hj. rewrite ZV by auto. cbn. clear -XB Hj HX. induction xs as [|x xs IH]; [reflexivity|].
      rewrite sums_cons. rewrite all_finite_cons in HX. apply andb_true_iff in HX. destruct HX as [F1 F2].
      pose proof (XB x (or_introl eq_refl)) as XX. unfold findex in XX. rewrite F1 in XX.
      rewrite slice_below by lia. rewrite IH; auto. intros; apply XB; now right.
    - exact ZC.
    - intros j Hj. specialize (B j Hj). pose proof (sums_bound xs j Hj). fold w in H0 |- *. nia.
  Qed.

  (** Room made for a value that the data needs anyway. *)
  Lemma rep_drop (P W : Z -> F t) a us xs d : rep t fold (a :: us) xs d P W -> us ++ xs <> [] -> lead (us ++ xs) <= findex a ->
    rep t fold us xs d P W.
  Proof.
    unfold rep. destruct (all_finite xs); auto. intros H NE LE.
    destruct (us ++ xs) as [|b l] eqn:E; [contradiction|]. cbn [app] in H. rewrite E in H.
    rewrite lead_cons in H. rewrite Z.min_r in H by exact LE. exact H.
  Qed.

  (** The whole kernel. *)
  Lemma rep_kernel v (m : mem t) us zs d n (val : option Z -> F t) : legal_vec v -> 0 <= n ->
    let xs := map (fun i => val (Some i)) (zseq 0 n) in
    repm m us zs d -> all_finite zs = true -> us ++ zs <> [] -> all_finite xs = true ->
    (forall x, In x xs -> lead (us ++ zs) <= findex x) ->
    is_finite (val None) = true -> toZ (val None) = 0 ->
    0 <= d -> d + n <= endurance t ->
    let '(m', adv) := kernel v fold n val p ip m in
    adv = n /\ repm m' us (xs ++ zs) (d + n) /\ framem m m'.
  Proof.
    intros HV Hn xs R HZ NE HX XB F0 V0 Hd HB.
    assert (LX : Z.of_nat (length xs) = n) by (unfold xs; rewrite map_length, zseq_length; lia).
    pose proof (kernel_events_ok v n HV Hn) as KE. unfold kernel, deposit_lanes. destruct (kernel_events v n) as [es adv].
    destruct KE as (K1 & K2 & K3). split; [exact K1|].
    pose proof (lead_range (us ++ zs)) as LR. remember (lead (us ++ zs)) as k eqn:EK.
    assert (I0 : dmindex0 (m p) = (k =? 0)).
    { pose proof R as R'. unfold rep in R'. rewrite HZ in R'. destruct (us ++ zs) as [|a l] eqn:E; [contradiction|].
      rewrite <- E in *. rewrite <- EK in R'. destruct R' as (V & C & A & _ & _ & _ & B).
      assert (IB : inbin t (6 * quarter t + V k)).
      { specialize (B k ltac:(lia)). pose proof (quarter_endurance t). pose proof (width_pos t).
        pose proof (pow2_pos (width t - 1) ltac:(lia)). unfold inbin. nia. }
      destruct (priw_0 _ _ _ _ _ _ _ A ltac:(lia) IB) as (_ & _ & _ & N4). now rewrite P_of_0 in N4. }
    rewrite I0.
    set (dep := if k =? 0 then _ else _).
    assert (OK : dep_ok k dep /\ forall s x, length (dep s x) = length s).
    { unfold dep. destruct (Z.eqb_spec k 0) as [Ek|Nk].
      - rewrite Ek. split; [apply dep_ok_0|intros; apply kdep0_length].
      - split; [apply dep_ok_pos; lia|intros; apply kdep_length]. }
    destruct OK as [OK LEN]. rewrite <- LX.
    assert (MS : map snd (map (fun e : Z * option Z => (fst e, val (snd e))) es) = map (fun e => val (snd e)) es)
      by (rewrite map_map; reflexivity).
    apply rep_lanes; rewrite <- ?EK; auto.
    - apply legal_lanes. exact HV.
    - rewrite Forall_map. exact K3.
    - rewrite MS, Forall_map. rewrite Forall_forall. intros [l [i|]] I; cbn [snd].
      + assert (J : In (val (Some i)) xs).
        { unfold xs. apply in_map_iff. exists i. split; auto. rewrite <- K2. unfold elems. apply in_flat_map.
          exists (l, Some i). split; auto. now left. }
        split; [|now apply XB]. unfold all_finite in HX. rewrite forallb_forall in HX. auto.
      + split; [exact F0|]. unfold findex. rewrite F0, V0. change (bin_of t 0) with (jmax t). lia.
    - rewrite MS. unfold xs. rewrite <- K2. apply padded_bins. exact V0.
    - lia.
  Qed.
End KREP.
