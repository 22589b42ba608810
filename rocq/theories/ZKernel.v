(** * The complex kernels, one component at a time *)
From Coq Require Import ZArith Bool List Lia Permutation.
From Flocq Require Import Core BinarySingleNaN.
From Verif Require Import Fp Mem Binned Spec FpProofs BitProofs CoreArith SpecProofs WordProofs MemProofs AccProofs SumProofs Gen GenProofs Blas LaneProofs ReduceProofs DriverProofs GemvProofs BlasZ ZEvents.
Import ListNotations.
Open Scope Z_scope.

(** ** One deposit *)
Lemma fmul_1 {t} (x : F t) : fmul x (mkf 1 0) = x.
Proof. apply fmul_one. destruct t; vm_compute; reflexivity. Qed.
Lemma fadd_zero_r {t} (x : F t) s : is_finite x = true ->
  is_finite (fadd x (B754_zero s)) = true /\ toZ (fadd x (B754_zero s)) = toZ x.
Proof.
  destruct x as [sx| | |sx mx ex Hx]; try discriminate; intros _.
  - cbn. destruct (Bool.eqb sx s); auto.
  - split; reflexivity.
Qed.
Lemma fmul_zero_r {t} (x : F t) : is_finite x = true -> exists s, fmul x fzero = B754_zero s.
Proof. destruct x as [sx| | |sx mx ex Hx]; try discriminate; intros _; cbn; eauto. Qed.
Lemma kdep0z_same {t} (c e : F t) s x : kdep0z c e e s x = kdep0 c e s x.
Proof. destruct s; reflexivity. Qed.
Lemma kdep0z_length {t} a b c (s : list (F t)) x : length (kdep0z a b c s x) = length s.
Proof. destruct s; [reflexivity|]. unfold kdep0z. cbv zeta. cbn [length]. now rewrite kdep_length. Qed.
Lemma kdep0z_head {t} a b c : @dep_head t (kdep0z a b c).
Proof.
  intros [|s0 s] x H; [contradiction|]. exists (or1 (fmul x a)). split; [reflexivity|split; [|discriminate]].
  intros Fx. apply or1_nonfinite. now apply fmul_nonfinite_l.
Qed.
Lemma dep_ok_other {t} k : 0 < k -> @dep_ok t k (kdep0z (mkf 1 0) (mkf 1 0) fzero).
Proof.
  intros Hk V s x HP Fx Hb HB. pose proof (toZ_span t x) as SP. destruct s as [|M s]; [exact I|].
  unfold kdep0z. cbv zeta. rewrite !fmul_1, kdep_dep, (fadd_comm M (or1 x)). destruct HP as [HM HMs].
  assert (VX : toZ x = remainder t (toZ x) (Z.to_nat k)) by (rewrite remainder_below; auto; lia).
  pose proof (HB 0 ltac:(cbn [length]; lia)) as B0. rewrite Z.add_0_r in B0.
  assert (HR : Z.abs (toZ x) <= 2 ^ (unit_exp t k + width t - 1)).
  { pose proof (remainder_bound t (toZ x) (Z.to_nat k) ltac:(lia)) as R. rewrite Z2Nat.id, <- VX in R by lia. exact R. }
  assert (SL : rhaz (toZ x) (2 ^ unit_exp t k) = slice t (toZ x) k) by (unfold slice; now rewrite <- VX).
  pose proof (slice_step t x M k _ Fx Hk HM HR) as S. rewrite SL in S. cbv zeta in S.
  destruct S as (S1 & S2 & S3); [lia|]. set (q := fadd (or1 x) M) in *. split.
  - replace (6 * quarter t + (V k + slice t (toZ x) k)) with (6 * quarter t + V k + slice t (toZ x) k) by ring. exact S1.
  - assert (FQ : is_finite (fsub M q) = true).
    { revert S2. destruct x as [sx| | |sx mx ex Hx]; try discriminate; destruct (fsub M q); try reflexivity; cbn; discriminate. }
    destruct (fmul_zero_r _ FQ) as [sz EZ]. rewrite EZ. destruct (fadd_zero_r (fadd x (fsub M q)) sz S2) as [F3 V3].
    assert (SP' : Z.abs (toZ x) <= 2 ^ span t) by lia. apply (dep_list_val (toZ x) V SP'); auto; try lia.
    + rewrite V3, S3, remainder_succ, <- VX by lia. reflexivity.
    + intros i Hi. specialize (HB (i + 1)). replace (k + 1 + i) with (k + (i + 1)) by ring. apply HB. cbn [length] in *. lia.
Qed.
Lemma zdep_ok {t} any0 k : 0 <= k -> (k = 0 -> any0 = true) ->
  @dep_ok t k (zdep any0 (k =? 0)) /\ (forall s x, length (zdep any0 (k =? 0) s x : list (F t)) = length s).
Proof.
  intros Hk HA. unfold zdep. destruct (Z.eqb_spec k 0) as [->|Nk].
  - rewrite (HA eq_refl). split; [|intros; apply kdep0z_length].
    intros V s x. rewrite kdep0z_same. apply dep_ok_0.
  - destruct any0.
    + split; [apply dep_ok_other; lia|intros; apply kdep0z_length].
    + split; [apply dep_ok_pos; lia|intros; apply kdep_length].
Qed.
Lemma zdep_head {t} any0 this0 : @dep_head t (zdep any0 this0).
Proof.
  unfold zdep. destruct any0; [|apply kdep_head]. cbv zeta. destruct this0; apply kdep0z_head.
Qed.

(** ** The kernel *)
Lemma zsum_perm {A} (f : A -> Z) l l' : Permutation l l' -> zsum f l = zsum f l'.
Proof. induction 1; rewrite ?zsum_cons in *; try lia; auto. Qed.
Lemma zpadded_bins {t} (val : src -> F t) : (forall h, toZ (val (Pad h)) = 0) -> forall es,
  same_bins (map (fun e : Z * src => val (snd e)) es) (map (fun i => val (Elem i)) (zelems es)).
Proof.
  intros V0 es j. unfold mags. rewrite !sums_zsum. induction es as [|[l [i|h]] es [IH1 IH2]]; [auto| |].
  - cbn [map snd zelems flat_map opt_list app] in *. rewrite !zsum_cons. unfold zelems in *. rewrite IH1, IH2. auto.
  - cbn [map snd zelems flat_map opt_list app] in *. rewrite !zsum_cons, V0, slice_0. unfold zelems in *. rewrite IH1, IH2. auto.
Qed.
Lemma padded_perm {t} (val : src -> F t) es n : (forall h, toZ (val (Pad h)) = 0) ->
  Permutation (zelems es) (zseq 0 n) ->
  same_bins (map (fun e : Z * src => val (snd e)) es) (map (fun i => val (Elem i)) (zseq 0 n)).
Proof.
  intros V0 HP j. destruct (zpadded_bins val V0 es j) as [A B].
  assert (P : Permutation (map (fun i => val (Elem i)) (zelems es)) (map (fun i => val (Elem i)) (zseq 0 n)))
    by (now apply Permutation_map). rewrite A, B. unfold mags. rewrite !sums_zsum.
  split; apply zsum_perm; exact P.
Qed.
Lemma zlegal_lanes nt v : 0 < nt -> legal_vec v -> lane_shape (simd v) (type_size v) (nt * pipe_width v).
Proof.
  intros Hn H. destruct (legal_lanes v H) as [A B]. split; [nia|]. intros E. destruct (B E) as [B1 B2].
  split; auto. now apply Z.divide_mul_r.
Qed.

Section COMP.
  Context {t : ty} {fold p ip c ic : Z} (L : layout fold p ip c ic).
  Hypothesis Hf : 2 <= fold.
  Hypothesis Hm : fold <= jmax t + 1.
  Notation repm m us xs d := (rep t fold us xs d (P_of m p ip) (P_of m c ic)).
  Notation holdsm m us xs := (holds t fold us xs (P_of m p ip) (P_of m c ic)).
  Notation framem := (frame fold p ip c ic).

  (** What the kernel does to one component. *)
  Definition comp_kernel (nt : Z) (v : vec) (any0 : bool) (es : list (Z * F t)) (m : mem t) : mem t :=
    store_lanes (simd v) (type_size v) (nt * pipe_width v) fold p ip
      (run_lanes (zdep any0 (dmindex0 (m p))) (read m p ip fold) es) m.

  Lemma rep_index0 (m : mem t) us zs d : repm m us zs d -> all_finite zs = true -> us ++ zs <> [] ->
    0 <= d <= endurance t -> dmindex0 (m p) = (lead (us ++ zs) =? 0).
  Proof.
    intros R HZ NE Hd. pose proof (lead_range (us ++ zs)) as LR.
    unfold rep in R. rewrite HZ in R. destruct (us ++ zs) as [|a l] eqn:E; [contradiction|].
    rewrite <- E in *. remember (lead (us ++ zs)) as k eqn:EK. destruct R as (V & C & A & _ & _ & _ & B).
    assert (IB : inbin t (6 * quarter t + V k)).
    { specialize (B k ltac:(lia)). pose proof (quarter_endurance t). pose proof (width_pos t).
      pose proof (pow2_pos (width t - 1) ltac:(lia)). unfold inbin. nia. }
    destruct (priw_0 _ _ _ _ _ _ _ A ltac:(lia) IB) as (_ & _ & _ & N4). now rewrite P_of_0 in N4.
  Qed.

  Lemma comp_kernel_rep nt v any0 es (m : mem t) us zs d n (val : src -> F t) :
    0 < nt -> legal_vec v -> 0 <= n ->
    Permutation (zelems es) (zseq 0 (nt * n)) -> Forall (fun e => 0 <= fst e < nt * pipe_width v) es ->
    let xs := map (fun i => val (Elem i)) (zseq 0 (nt * n)) in
    repm m us zs d -> all_finite zs = true -> us ++ zs <> [] -> all_finite xs = true ->
    (forall x, In x xs -> lead (us ++ zs) <= findex x) ->
    (forall h, is_finite (val (Pad h)) = true) -> (forall h, toZ (val (Pad h)) = 0) ->
    0 <= d -> d + nt * n <= endurance t -> (dmindex0 (m p) = true -> any0 = true) ->
    let m' := comp_kernel nt v any0 (map (fun e => (fst e, val (snd e))) es) m in
    repm m' us (xs ++ zs) (d + nt * n) /\ framem m m'.
  Proof.
    intros Hnt HV Hn K2 K3 xs R HZ NE HX XB F0 V0 Hd HB HA.
    assert (LX : Z.of_nat (length xs) = nt * n) by (unfold xs; rewrite map_length, zseq_length; nia).
    pose proof (lead_range (us ++ zs)) as LR.
    pose proof (rep_index0 m us zs d R HZ NE ltac:(nia)) as I0.
    unfold comp_kernel. rewrite I0 in *.
    destruct (@zdep_ok t any0 (lead (us ++ zs))) as [OK LEN]; [lia|intros E; apply HA; now rewrite E|].
    rewrite <- LX.
    assert (MS : map snd (map (fun e : Z * src => (fst e, val (snd e))) es) = map (fun e => val (snd e)) es)
      by (rewrite map_map; reflexivity).
    apply rep_lanes; auto.
    - now apply zlegal_lanes.
    - rewrite Forall_map. exact K3.
    - rewrite MS, Forall_map. rewrite Forall_forall. intros [l [i|h]] I; cbn [snd].
      + assert (J : In (val (Elem i)) xs).
        { unfold xs. apply in_map_iff. exists i. split; auto. rewrite <- K2. unfold zelems. apply in_flat_map.
          exists (l, Elem i). split; auto. now left. }
        split; [|now apply XB]. unfold all_finite in HX. rewrite forallb_forall in HX. auto.
      + split; [apply F0|]. unfold findex. rewrite F0, V0. change (bin_of t 0) with (jmax t). lia.
    - rewrite MS. unfold xs. apply padded_perm; auto.
    - nia.
  Qed.
  Lemma comp_kernel_frame nt v any0 es (m : mem t) : framem m (comp_kernel nt v any0 es m).
  Proof.
    unfold comp_kernel. intros a Ha.
    destruct (store_lanes_val (simd v) (type_size v) (nt * pipe_width v) fold p ip
      (run_lanes (zdep any0 (dmindex0 (m p))) (read m p ip fold) es) m (lay_p _ _ _ _ _ L)) as [_ S2].
    apply S2. intros j Hj ->. apply Ha. now apply in_pri.
  Qed.
  Lemma comp_kernel_nan nt v any0 es (m : mem t) n (val : src -> F t) :
    0 < nt -> legal_vec v -> 0 <= n ->
    Permutation (zelems es) (zseq 0 (nt * n)) -> Forall (fun e => 0 <= fst e < nt * pipe_width v) es ->
    m p = B754_nan \/ (exists i, 0 <= i < nt * n /\ is_finite (val (Elem i)) = false) ->
    comp_kernel nt v any0 (map (fun e => (fst e, val (snd e))) es) m p = B754_nan.
  Proof.
    intros Hnt HV Hn K2 K3 H. unfold comp_kernel.
    set (st := run_lanes _ _ _).
    destruct (store_lanes_val (simd v) (type_size v) (nt * pipe_width v) fold p ip st m (lay_p _ _ _ _ _ L)) as [S1 S2].
    set (m' := store_lanes _ _ _ _ _ _ _ _) in *. clearbody m'.
    specialize (S1 0 ltac:(lia)). rewrite Z.mul_0_l, Z.add_0_r in S1. rewrite S1.
    pose proof (zlegal_lanes nt v Hnt HV) as LS.
    assert (NE : read m p ip fold <> []) by (unfold read; rewrite (zseq_cons 0) by lia; discriminate).
    assert (HD0 : nth 0 (read m p ip fold) fnan = m p).
    { unfold read. rewrite (zseq_cons 0) by lia. cbn [map nth]. f_equal. lia. }
    destruct H as [H|(i & Hi & Fi)].
    - apply (consolidate_nan _ _ _ _ _ 0); [exact LS|destruct LS; lia|].
      unfold st. rewrite run_lanes_lane. change (Z.to_nat 0) with 0%nat. apply lane_nan; auto; [apply zdep_head|].
      left. now rewrite HD0.
    - assert (I : In i (zelems es)) by (rewrite K2; apply zseq_In; lia).
      unfold zelems in I. apply in_flat_map in I. destruct I as ([l o] & I & J). cbn in J.
      destruct o as [i'|]; [|destruct J]. destruct J as [->|[]].
      rewrite Forall_forall in K3. pose proof (K3 _ I) as Hl. cbn in Hl.
      apply (consolidate_nan _ _ _ _ _ l); [exact LS|exact Hl|].
      unfold st. rewrite run_lanes_lane. change (Z.to_nat 0) with 0%nat. apply lane_nan; auto; [apply zdep_head|].
      right. exists (val (Elem i)). split; auto. unfold lane. apply in_map_iff. exists (l, val (Elem i)).
      split; auto. apply filter_In. split; [|cbn; apply Z.eqb_refl]. apply in_map_iff. exists (l, Elem i). auto.
  Qed.
End COMP.
