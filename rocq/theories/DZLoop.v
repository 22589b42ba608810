(** * The loops of dmzasum: two components collected apart, merged at the end *)
From Coq Require Import ZArith Bool List Lia Permutation.
From Flocq Require Import Core BinarySingleNaN.
From Verif Require Import Fp Mem Binned Spec FpProofs BitProofs CoreArith SpecProofs WordProofs MemProofs AccProofs SumProofs Gen GenProofs Blas LaneProofs ReduceProofs DriverProofs BlasZ ZEvents ZKernel ZDriver ZLoop Ssq SsqProofs BlasDZ.
Import ListNotations.
Open Scope Z_scope.

Lemma rep_relead t fold (us us' xs : list (F t)) d P W : us ++ xs <> [] -> us' ++ xs <> [] ->
  lead (us ++ xs) = lead (us' ++ xs) -> rep t fold us xs d P W -> rep t fold us' xs d P W.
Proof.
  unfold rep. intros N1 N2 E. destruct (all_finite xs); auto. rewrite E. destruct (us ++ xs), (us' ++ xs); try contradiction. auto.
Qed.
Lemma fold_nan {t} (l : list (F t)) h : existsb f_isnan l = true \/ h = B754_nan -> fold_left fadd l h = B754_nan.
Proof.
  revert h. induction l as [|x l IH]; intros h H; cbn [fold_left existsb] in *.
  - destruct H as [H|H]; [discriminate|exact H].
  - apply IH. destruct H as [H| ->]; [|right; apply fadd_nan_l]. destruct (f_isnan x) eqn:E; [|left; exact H]. right.
    destruct x; try discriminate. apply fadd_nan_r.
Qed.
Lemma fabs_sgn {t} (x : F t) : f_isnan x = false -> sgn_ok false (fabs x).
Proof. destruct x; easy. Qed.
Lemma existsb_perm {A} (f : A -> bool) l l' : Permutation l l' -> existsb f l = existsb f l'.
Proof. induction 1; cbn; try congruence. now rewrite !orb_assoc, (orb_comm (f y)). Qed.

(** The branch for infinities: [sn] are the values seen so far, [xs] the block. *)
Lemma inf_stage {t} (sn xs l : list (F t)) (amax h : F t) :
  (if all_finite sn then is_finite h = true else h = special sn) ->
  (f_isinf amax = true -> exists x, In x xs /\ f_isinf x = true) ->
  Permutation l (map fabs xs) ->
  let b := f_isinf amax || f_isinf h in
  let h1 := if b then fold_left fadd l h else h in
  (all_finite sn = true /\ f_isinf amax = false /\ b = false) \/
  (all_finite (map fabs xs ++ sn) = false /\ h1 = special (map fabs xs ++ sn)).
Proof.
  intros HD SC2 HP b h1. destruct b eqn:BI.
  - right. assert (NF : all_finite (map fabs xs ++ sn) = false).
    { rewrite all_finite_app, all_finite_fabs. destruct (all_finite sn) eqn:FZ; [|apply andb_false_r]. rewrite andb_true_r.
      apply orb_true_iff in BI. destruct BI as [BI|BI]; [|destruct h; discriminate].
      destruct (SC2 BI) as (x & I & E). destruct (all_finite xs) eqn:FX; auto. unfold all_finite in FX. rewrite forallb_forall in FX.
      apply FX in I. destruct x; discriminate. }
    split; [exact NF|]. unfold h1. clear h1.
    destruct (existsb f_isnan xs) eqn:NX.
    + rewrite fold_nan by (left; rewrite (existsb_perm _ _ _ HP), nan_fabs_list; exact NX).
      unfold special. rewrite existsb_app, nan_fabs_list, NX. reflexivity.
    + assert (HO : head_ok true false (map fabs xs ++ sn) (fold_left fadd l h)).
      { apply (head_perm true false (rev l ++ sn)); [apply Permutation_app_tail; rewrite <- HP; symmetry; apply Permutation_rev|].
        apply head_fold.
        - unfold head_ok. destruct (all_finite sn); auto.
        - intros _. right. intros x I. apply (Permutation_in _ HP) in I. apply in_map_iff in I. destruct I as (y & <- & I). apply fabs_sgn.
          destruct (f_isnan y) eqn:Ny; auto. rewrite <- NX. symmetry. apply existsb_exists. eauto. }
      unfold head_ok in HO. rewrite NF in HO. destruct HO as [HO|[? _]]; [exact HO|discriminate].
  - apply orb_false_iff in BI. destruct BI as [B1 B2]. destruct (all_finite sn) eqn:FS; [left; auto|].
    right. rewrite all_finite_app, FS, andb_false_r. split; [reflexivity|].
    assert (EN : h = B754_nan) by (pose proof (special_fin sn) as SF; rewrite <- HD in SF; destruct h; try discriminate; reflexivity).
    unfold h1. rewrite EN in *. symmetry. apply special_nan_more; auto.
Qed.

(** The two components of n elements. *)
Notation parts c X iX m n := (zterms ZSum c X iX X iX m n).
Lemma parts_map {t} c X iX (m : mem t) n : parts c X iX m n = map (fun i => part X iX m c (Elem i)) (zseq 0 n).
Proof. unfold zterms. cbn [nterms]. now rewrite Z.mul_1_l. Qed.
Lemma part_some {t} c X iX (m : mem t) i : part X iX m c (Elem i) = if c =? 0 then m (X + i * (2 * iX)) else m (X + i * (2 * iX) + 1).
Proof. unfold part, zval, at_elem, zterm. cbn [nterms]. rewrite Z.div_1_r. reflexivity. Qed.
Lemma parts_length {t} c X iX (m : mem t) n : length (parts c X iX m n) = Z.to_nat n.
Proof. now rewrite parts_map, map_length, zseq_length. Qed.
Definition mags2 {t} (X iX n : Z) (m : mem t) : list (F t) :=
  flat_map (fun j => [fabs (m (X + j * (2 * iX))); fabs (m (X + j * (2 * iX) + 1))]) (zseq 0 n).
Lemma mags2_perm {t} X iX n (m : mem t) : Permutation (mags2 X iX n m) (map fabs (parts 0 X iX m n ++ parts 1 X iX m n)).
Proof.
  rewrite !parts_map, map_app, !map_map. unfold mags2. induction (zseq 0 n) as [|j l IH]; [reflexivity|].
  cbn [flat_map map app]. rewrite !part_some. cbn [Z.eqb]. constructor. rewrite IH. apply Permutation_cons_app. reflexivity.
Qed.
Lemma add_mags_ok {t} n X iX p (m : mem t) : 0 <= n ->
  (forall j o, 0 <= j < n -> o = 0 \/ o = 1 -> X + j * (2 * iX) + o <> p) ->
  let m' := add_mags n X iX p m in
  m' p = fold_left fadd (mags2 X iX n m) (m p) /\ (forall a, a <> p -> m' a = m a).
Proof.
  intros Hn HX m'. unfold m', add_mags, mags2.
  apply (for_up_inv (fun j m' => m' p = fold_left fadd (flat_map (fun j => [fabs (m (X + j * (2 * iX))); fabs (m (X + j * (2 * iX) + 1))]) (zseq 0 j)) (m p) /\
    (forall a, a <> p -> m' a = m a))); auto.
  intros j m1 Hj [H1 H2]. pose proof (HX j 0 Hj ltac:(auto)) as N0. rewrite Z.add_0_r in N0. pose proof (HX j 1 Hj ltac:(auto)) as N1. split.
  - rewrite upd_same, upd_same. rewrite (upd_other m1 p) by auto. rewrite (H2 _ N0), (H2 _ N1).
    rewrite zseq_app by lia. rewrite flat_map_app, fold_left_app, <- H1.
    rewrite (zseq_cons (0 + j) 1), (zseq_nil _ (1 - 1)), Z.add_0_l by lia. reflexivity.
  - intros a Ha. rewrite !upd_other by auto. auto.
Qed.
Lemma amax2_ok {t} tu n X iX (m : mem t) : legal_avec (amax_vec tu) -> 0 <= n ->
  let M := amax2 tu n X iX m in let xs := parts 0 X iX m n ++ parts 1 X iX m n in
  (existsb f_isnan xs = false -> is_max M xs) /\ (f_isinf M = true -> exists x, In x xs /\ f_isinf x = true).
Proof.
  intros LA Hn M xs. destruct (zscan_terms (amax_vec tu) ZSum X iX X iX m 0 n LA Hn) as [A0 B0].
  destruct (zscan_terms (amax_vec tu) ZSum X iX X iX m 1 n LA Hn) as [A1 B1]. cbn [nterms] in *.
  unfold xs. split.
  - intros NN. rewrite existsb_app in NN. apply orb_false_iff in NN. destruct NN as [N0 N1]. unfold M, amax2. apply is_max_merge; auto.
  - intros HI. unfold M, amax2 in HI.
    change (part X iX m 0) with (zval ZSum X iX X iX m 0) in HI. change (part X iX m 1) with (zval ZSum X iX X iX m 1) in HI.
    destruct (fmax_cases (zscan 1 (amax_vec tu) n (zval ZSum X iX X iX m 0)) (zscan 1 (amax_vec tu) n (zval ZSum X iX X iX m 1))) as [E|E]; rewrite E in HI.
    + destruct (B0 HI) as (x & I & J). exists x. rewrite in_app_iff. auto.
    + destruct (B1 HI) as (x & I & J). exists x. rewrite in_app_iff. auto.
Qed.

Section DZ.
  Context {t : ty}.
  Variables (fold A p ip c ic : Z).
  Notation CA := (A + 2 * fold).
  Notation in0 := (in_acc fold A (2 * 1) CA (2 * 1)).
  Notation in1 := (in_acc fold (A + 1) (2 * 1) (CA + 1) (2 * 1)).
  Notation inY := (in_acc fold p ip c ic).
  Hypothesis Hf : 2 <= fold.
  Hypothesis Hm : fold <= jmax t + 1.
  Hypothesis L : layout fold p ip c ic.
  Hypothesis D0 : disjoint in0 inY.
  Hypothesis D1 : disjoint in1 inY.
  Notation rep0 m us xs d := (rep t fold us xs d (P_of m A (2 * 1)) (P_of m CA (2 * 1))).
  Notation rep1 m us xs d := (rep t fold us xs d (P_of m (A + 1) (2 * 1)) (P_of m (CA + 1) (2 * 1))).
  Notation holds0 m us xs := (holds t fold us xs (P_of m A (2 * 1)) (P_of m CA (2 * 1))).
  Notation holds1 m us xs := (holds t fold us xs (P_of m (A + 1) (2 * 1)) (P_of m (CA + 1) (2 * 1))).
  Notation holdsY m us xs := (holds t fold us xs (P_of m p ip) (P_of m c ic)).
  Notation frameY := (@frame t fold p ip c ic).
  Notation zframeA := (@zframe t fold A 1 CA 1).
  Definition dzframe (m m' : mem t) : Prop := forall a, ~ inY a -> ~ in0 a -> ~ in1 a -> m' a = m a.
  Lemma dzframe_refl m : dzframe m m. Proof. intros a _ _ _. reflexivity. Qed.
  Lemma dzframe_trans m m1 m2 : dzframe m m1 -> dzframe m1 m2 -> dzframe m m2.
  Proof. intros X Y a H0 H1 H2. rewrite Y, X; auto. Qed.
  Lemma zframe_dz m m' : zframeA m m' -> dzframe m m'.
  Proof. intros H a _ N0 N1. now apply H. Qed.
  Lemma frameY_dz m m' : frameY m m' -> dzframe m m'.
  Proof. intros H a N _ _. now apply H. Qed.
  Lemma LA0 : layout fold A (2 * 1) CA (2 * 1). Proof. apply layout_complex_re; lia. Qed.
  Lemma LA1 : layout fold (A + 1) (2 * 1) (CA + 1) (2 * 1). Proof. apply layout_complex_im; lia. Qed.
  Lemma DA : disjoint in0 in1.
  Proof. intros a (i & Hi & [E|E]) (j & Hj & [E'|E']); lia. Qed.
  Lemma zframe_holdsY m m' us xs : zframeA m m' -> holdsY m us xs -> holdsY m' us xs.
  Proof.
    intros F. apply (local_holds Hf us xs m m'). intros a I. apply F; intros J; [exact (D0 _ J I)|exact (D1 _ J I)].
  Qed.
  Lemma zframe_p m m' : zframeA m m' -> m' p = m p.
  Proof. intros F. apply F; intros J; [apply (D0 _ J)|apply (D1 _ J)]; apply in_p; exact Hf. Qed.
  Lemma frameY_rep m m' us xs d us' xs' d' : frameY m m' -> rep0 m us xs d /\ rep1 m us' xs' d' -> rep0 m' us xs d /\ rep1 m' us' xs' d'.
  Proof.
    intros F [R0 R1]. split.
    - apply (local_rep (p := A) (ip := 2 * 1) (c := CA) (ic := 2 * 1) Hf us xs d m m'); auto. intros a I. apply F. intros J. exact (D0 _ I J).
    - apply (local_rep (p := A + 1) (ip := 2 * 1) (c := CA + 1) (ic := 2 * 1) Hf us' xs' d' m m'); auto. intros a I. apply F. intros J. exact (D1 _ I J).
  Qed.
  Lemma frameY_heads m m' : frameY m m' -> m' A = m A /\ m' (A + 1) = m (A + 1).
  Proof.
    intros F. split; apply F; intros J; [apply (D0 A)|apply (D1 (A + 1))]; auto; apply in_p; exact Hf.
  Qed.
  (** The n elements at X are in none of the accumulators. *)
  Definition dzoutside (X iX n : Z) : Prop :=
    forall i o, 0 <= i < n -> o = 0 \/ o = 1 -> let a := X + i * (2 * iX) + o in ~ inY a /\ ~ in0 a /\ ~ in1 a.
  Lemma dzoutside_shift X iX a b : 0 <= a -> 0 <= b -> dzoutside X iX (a + b) ->
    dzoutside X iX a /\ dzoutside (X + a * (2 * iX)) iX b.
  Proof.
    intros Ha Hb H. split; intros i o Hi Ho; [apply H; auto; lia|].
    cbv zeta. replace (X + a * (2 * iX) + i * (2 * iX) + o) with (X + (a + i) * (2 * iX) + o) by ring. apply H; auto. lia.
  Qed.
  Lemma dzoutside_parts cc X iX n (m m' : mem t) : 0 <= n -> dzoutside X iX n -> dzframe m m' -> parts cc X iX m' n = parts cc X iX m n.
  Proof.
    intros Hn HX F. apply zterms_ext; auto. intros i o Hi Ho. destruct (HX i o Hi Ho) as (N1 & N2 & N3). split; apply F; auto.
  Qed.

  (** ** Renormalisation, update and kernel on the temporary accumulator *)
  Lemma zrenorm_ok m us0 xs0 us1 xs1 d : rep0 m us0 xs0 d -> rep1 m us1 xs1 d -> 0 <= d <= endurance t ->
    Z.of_nat (length xs0) <= capacity t -> Z.of_nat (length xs1) <= capacity t ->
    let m' := zbrenorm fold A m in holds0 m' us0 xs0 /\ holds1 m' us1 xs1 /\ zframeA m m'.
  Proof.
    intros R0 R1 Hd C0 C1 m'. destruct (rep_renorm LA0 Hf m us0 xs0 d R0 Hd (fun _ => C0)) as [A0 B0].
    unfold m', zbrenorm, zmrenorm. set (m1 := dmrenorm fold A _ _ _ m) in *. clearbody m1.
    apply (both DA (fun m => rep1 m us1 xs1 d) (fun m => holds0 m us0 xs0) (fun m => holds1 m us1 xs1) m m1); auto.
    - apply (local_holds Hf).
    - apply (local_rep Hf).
    - intros R1'. apply (rep_renorm LA1 Hf m1 us1 xs1 d R1' Hd (fun _ => C1)).
  Qed.
  Lemma zupdate_ok m us0 xs0 us1 xs1 d X : rep0 m us0 xs0 d -> rep1 m us1 xs1 d -> 0 <= d <= endurance t ->
    let m' := zmdupdate fold X A 1 CA 1 m in rep0 m' (X :: us0) xs0 d /\ rep1 m' (X :: us1) xs1 d /\ zframeA m m'.
  Proof.
    intros R0 R1 Hd m'. destruct (rep_update LA0 Hf Hm m us0 xs0 d X R0 Hd) as [A0 B0].
    unfold m', zmdupdate. set (m1 := dmdupdate fold X A _ _ _ m) in *. clearbody m1.
    apply (both DA (fun m => rep1 m us1 xs1 d) (fun m => rep0 m (X :: us0) xs0 d) (fun m => rep1 m (X :: us1) xs1 d) m m1); auto.
    - apply (local_rep Hf).
    - apply (local_rep Hf).
    - intros R1'. apply (rep_update LA1 Hf Hm m1 us1 xs1 d X R1' Hd).
  Qed.
  Lemma zupdate_frame X m : zframeA m (zmdupdate fold X A 1 CA 1 m).
  Proof.
    intros a N0 N1. unfold zmdupdate. rewrite (update_frame (p := A + 1) (c := CA + 1)) by (auto; lia). rewrite update_frame by (auto; lia). reflexivity.
  Qed.
  Lemma zkernel_fin v n (val : Z -> src -> F t) m am us0 us1 zs0 zs1 d : legal_vec v -> 1 <= n ->
    let xs0 := map (fun i => val 0 (Elem i)) (zseq 0 n) in let xs1 := map (fun i => val 1 (Elem i)) (zseq 0 n) in
    rep0 m (am :: us0) zs0 d -> rep1 m (am :: us1) zs1 d -> all_finite zs0 = true -> all_finite zs1 = true ->
    all_finite (xs0 ++ xs1) = true -> (forall x, In x (xs0 ++ xs1) -> findex am <= findex x) ->
    (forall cc h, is_finite (val cc (Pad h)) = true /\ toZ (val cc (Pad h)) = 0) -> 0 <= d -> d + n <= endurance t ->
    let r := zkernel 1 v fold n val A 1 m in
    snd r = n /\ rep0 (fst r) (am :: us0) (xs0 ++ zs0) (d + n) /\ rep1 (fst r) (am :: us1) (xs1 ++ zs1) (d + n) /\ zframeA m (fst r).
  Proof.
    intros HV Hn xs0 xs1 R0 R1 F0 F1 FX HX HN Hd HB r. unfold r. clear r. rewrite (zkernel_comps (c := CA) (ic := 1) LA0 DA Hf).
    cbn [fst snd]. pose proof (zkernel_events_ok 1 v n ltac:(lia) HV ltac:(lia)) as KK.
    destruct (zkernel_events 1 v n) as [es q]. cbn [fst snd] in *. destruct KK as (K1 & K2 & K3). split; [exact K1|].
    rewrite all_finite_app in FX. apply andb_true_iff in FX. destruct FX as [FX0 FX1].
    set (any0 := dmindex0 (m A) || dmindex0 (m (A + 1))).
    assert (LE : forall us zs (x : F t), findex am <= findex x -> lead ((am :: us) ++ zs) <= findex x) by (intros us zs x H; cbn [app]; rewrite lead_cons; lia).
    destruct (comp_kernel_rep (c := CA) (ic := 2 * 1) LA0 Hf 1 v any0 es m (am :: us0) zs0 d n (val 0)) as [A0 B0];
      rewrite ?Z.mul_1_l in *; auto; try lia; try discriminate; try (intros; apply HN).
    { intros x I. apply LE, HX, in_or_app. now left. }
    { unfold any0. now intros ->. }
    fold xs0 in A0. set (m1 := comp_kernel _ _ _ _ _) in *.
    assert (P1 : m1 (A + 1) = m (A + 1)) by (apply (frame0_in1 DA m m1 (A + 1) B0); apply in_p; exact Hf). clearbody m1.
    apply (both DA (fun m => rep1 m (am :: us1) zs1 d) (fun m => rep0 m (am :: us0) (xs0 ++ zs0) (d + n)) (fun m => rep1 m (am :: us1) (xs1 ++ zs1) (d + n)) m m1); auto;
      try apply (local_rep Hf).
    intros R1'.
    destruct (comp_kernel_rep (c := CA + 1) (ic := 2 * 1) LA1 Hf 1 v any0 es m1 (am :: us1) zs1 d n (val 1)) as [A1 B1];
      rewrite ?Z.mul_1_l in *; auto; try lia; try discriminate; try (intros; apply HN).
    { intros x I. apply LE, HX, in_or_app. now right. }
    { unfold any0. rewrite P1. intros ->. apply orb_true_r. }
  Qed.
  Lemma zkernel_nan v n (val : Z -> src -> F t) m : legal_vec v -> 1 <= n ->
    (exists cc i, (cc = 0 \/ cc = 1) /\ 0 <= i < n /\ is_finite (val cc (Elem i)) = false) ->
    let r := zkernel 1 v fold n val A 1 m in
    snd r = n /\ (fst r A = B754_nan \/ fst r (A + 1) = B754_nan) /\ zframeA m (fst r).
  Proof.
    intros HV Hn (cc & i & Hc & Hi & NF) r. unfold r. clear r. rewrite (zkernel_comps (c := CA) (ic := 1) LA0 DA Hf).
    cbn [fst snd]. pose proof (zkernel_events_ok 1 v n ltac:(lia) HV ltac:(lia)) as KK.
    destruct (zkernel_events 1 v n) as [es q]. cbn [fst snd] in *. destruct KK as (K1 & K2 & K3). split; [exact K1|].
    set (any0 := dmindex0 (m A) || dmindex0 (m (A + 1))). clearbody any0.
    pose proof (comp_kernel_frame (c := CA) (ic := 2 * 1) LA0 1 v any0 (map (fun e => (fst e, val 0 (snd e))) es) m) as F0.
    pose proof (comp_kernel_nan (c := CA) (ic := 2 * 1) LA0 Hf 1 v any0 es m n (val 0) ltac:(lia) HV ltac:(lia) K2 K3) as G0.
    set (m1 := comp_kernel (p := A) _ _ _ _ _) in *. clearbody m1.
    pose proof (comp_kernel_frame (c := CA + 1) (ic := 2 * 1) LA1 1 v any0 (map (fun e => (fst e, val 1 (snd e))) es) m1) as F1.
    pose proof (comp_kernel_nan (c := CA + 1) (ic := 2 * 1) LA1 Hf 1 v any0 es m1 n (val 1) ltac:(lia) HV ltac:(lia) K2 K3) as G1.
    set (m2 := comp_kernel (p := A + 1) _ _ _ _ _) in *. clearbody m2. rewrite Z.mul_1_l in *.
    split; [|intros a N0 N1; rewrite F1, F0; auto].
    destruct Hc as [-> | ->].
    - left. rewrite (frame1_in0 DA m1 m2 A F1); [apply G0; right; eauto|apply in_p; exact Hf].
    - right. apply G1. right. eauto.
  Qed.
  Lemma rep_fin0 m us xs d : rep0 m us xs d -> all_finite xs = true -> 0 <= d <= endurance t -> is_finite (m A) = true.
  Proof.
    intros R FX Hd. pose proof (rep_head (ip := 2 * 1) (c := CA) (ic := 2 * 1) Hf m us xs d R Hd) as H. rewrite FX in H.
    destruct (us ++ xs); [now rewrite H|apply H].
  Qed.
  Lemma rep_fin1 m us xs d : rep1 m us xs d -> all_finite xs = true -> 0 <= d <= endurance t -> is_finite (m (A + 1)) = true.
  Proof.
    intros R FX Hd. pose proof (rep_head (ip := 2 * 1) (c := CA + 1) (ic := 2 * 1) Hf m us xs d R Hd) as H. rewrite FX in H.
    destruct (us ++ xs); [now rewrite H|apply H].
  Qed.
End DZ.
