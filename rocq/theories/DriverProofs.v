(** * The loops of dmdsum, dmdasum, dmddot *)
From Coq Require Import ZArith Bool List Lia Permutation.
From Flocq Require Import Core BinarySingleNaN.
From Verif Require Import Fp Mem Binned Spec FpProofs BitProofs CoreArith SpecProofs WordProofs MemProofs AccProofs SumProofs Gen GenProofs Blas LaneProofs ReduceProofs.
Import ListNotations.
Open Scope Z_scope.

(** ** NaN and the kernel *)
Lemma fadd_nan_l {t} (x : F t) : fadd B754_nan x = B754_nan. Proof. destruct x; reflexivity. Qed.
Lemma fadd_nan_r {t} (x : F t) : fadd x B754_nan = B754_nan. Proof. destruct x; reflexivity. Qed.
Lemma fsub_nan_l {t} (x : F t) : fsub B754_nan x = B754_nan. Proof. destruct x; reflexivity. Qed.
Lemma or1_nonfinite {t} (x : F t) : is_finite x = false -> or1 x = B754_nan.
Proof. destruct x as [|s| |]; try discriminate; intros _; destruct t; try destruct s; vm_compute; reflexivity. Qed.
Lemma fmul_nonfinite_l {t} (x y : F t) : is_finite x = false -> is_finite (fmul x y) = false.
Proof. destruct x, y; try discriminate; reflexivity. Qed.
Lemma fold_nan {t A} (f : A -> F t) ls : forall r, r = B754_nan \/ (exists a, In a ls /\ f a = B754_nan) ->
  fold_left (fun r a => fadd r (f a)) ls r = B754_nan.
Proof.
  induction ls as [|a ls IH]; intros r [->|(b & I & E)]; cbn [fold_left].
  - reflexivity.
  - destruct I.
  - apply IH. left. apply fadd_nan_l.
  - destruct I as [<-|I].
    + apply IH. left. rewrite E. apply fadd_nan_r.
    + apply IH. right. eauto.
Qed.
Lemma consolidate_nan {t} vector ts lanes (w : Z -> F t) pri l : lane_shape vector ts lanes ->
  0 <= l < lanes -> w l = B754_nan -> consolidate vector ts lanes w pri = B754_nan.
Proof.
  intros [HL HV] Hl E. unfold consolidate. destruct vector.
  - destruct (HV eq_refl) as [Ht [g Eg]].
    assert (Dv : lanes / ts = g) by (rewrite Eg; apply Z.div_mul; lia). rewrite Dv.
    pose proof (Z.mod_pos_bound l ts ltac:(lia)) as MB. pose proof (Z.div_mod l ts ltac:(lia)) as DM.
    assert (Q : 0 <= l / ts < g).
    { split; [apply Z.div_pos; lia|]. apply Z.div_lt_upper_bound; lia. }
    set (r := fun l0 : Z => fold_left (fun r k => fadd r (fsub (w (k * ts + l0)) pri)) (zseq 1 (g - 1))
      (if ts =? 1 then w l0 else fsub (w l0) (if l0 =? 0 then fzero else pri))).
    change (fold_left (fun s l => fadd s (r l)) (zseq 1 (ts - 1)) (r 0) = B754_nan).
    assert (R : r (l mod ts) = B754_nan).
    { unfold r. apply fold_nan. destruct (Z.eq_dec (l / ts) 0) as [E0|N0].
      - left. rewrite E0 in DM. replace (l mod ts) with l by lia. rewrite E. destruct (ts =? 1); [reflexivity|apply fsub_nan_l].
      - right. exists (l / ts). split; [apply zseq_In; lia|].
        replace (l / ts * ts + l mod ts) with l by lia. rewrite E. apply fsub_nan_l. }
    apply fold_nan. destruct (Z.eq_dec (l mod ts) 0) as [E0|N0].
    + left. now rewrite <- E0.
    + right. exists (l mod ts). split; auto. apply zseq_In. lia.
  - apply fold_nan. destruct (Z.eq_dec l 0) as [->|N0]; [now left|]. right. exists l. split; [apply zseq_In; lia|].
    rewrite E. apply fsub_nan_l.
Qed.
(** The first word of a lane after a deposit is a sum; NaN for a non finite element. *)
Definition dep_head {t} (dep : list (F t) -> F t -> list (F t)) : Prop :=
  forall s x, s <> [] -> exists g, nth 0 (dep s x) fnan = fadd (nth 0 s fnan) g /\ (is_finite x = false -> g = B754_nan) /\
    dep s x <> [].
Lemma kdep_head {t} : @dep_head t kdep.
Proof.
  intros [|s0 [|s1 s]] x H; [contradiction| |]; exists (or1 x); (split; [reflexivity|split; [apply or1_nonfinite|discriminate]]).
Qed.
Lemma kdep0_head {t} c e : @dep_head t (kdep0 c e).
Proof.
  intros [|s0 s] x H; [contradiction|]. exists (or1 (fmul x c)). split; [reflexivity|split; [|discriminate]].
  intros Fx. apply or1_nonfinite. now apply fmul_nonfinite_l.
Qed.
Lemma lane_nan {t} dep (HD : @dep_head t dep) xs : forall s, s <> [] ->
  nth 0 s fnan = B754_nan \/ (exists x, In x xs /\ is_finite x = false) ->
  nth 0 (fold_left dep xs s) fnan = B754_nan.
Proof.
  induction xs as [|x xs IH]; intros s NE [E|(y & I & Fy)]; cbn [fold_left].
  - exact E.
  - destruct I.
  - destruct (HD s x NE) as (g & H1 & H2 & H3). apply IH; auto. left. rewrite H1, E. apply fadd_nan_l.
  - destruct (HD s x NE) as (g & H1 & H2 & H3). apply IH; auto. destruct I as [<-|I].
    + left. rewrite H1, H2 by auto. apply fadd_nan_r.
    + right. eauto.
Qed.

Section KNAN.
  Context {t : ty} {fold p ip c ic : Z} (L : layout fold p ip c ic).
  Hypothesis Hf : 2 <= fold.
  Notation framem := (frame fold p ip c ic).
  Lemma kernel_nan v (m : mem t) n (val : option Z -> F t) : legal_vec v -> 0 <= n ->
    (exists i, 0 <= i < n /\ is_finite (val (Some i)) = false) ->
    let '(m', adv) := kernel v fold n val p ip m in
    adv = n /\ m' p = B754_nan /\ framem m m'.
  Proof.
    intros HV Hn (i & Hi & Fi). pose proof (kernel_events_ok v n HV Hn) as KE. unfold kernel, deposit_lanes.
    destruct (kernel_events v n) as [es adv]. destruct KE as (K1 & K2 & K3). split; [exact K1|].
    set (dep := if dmindex0 (m p) then _ else _).
    assert (HD : dep_head dep) by (unfold dep; destruct (dmindex0 (m p)); [apply kdep0_head|apply kdep_head]).
    clearbody dep.
    set (st := run_lanes _ _ _).
    destruct (store_lanes_val (simd v) (type_size v) (pipe_width v) fold p ip st m (lay_p _ _ _ _ _ L)) as [S1 S2].
    set (m' := store_lanes _ _ _ _ _ _ _ _) in *. clearbody m'. split.
    2:{ intros a Ha. apply S2. intros j Hj ->. apply Ha. now apply in_pri. }
    specialize (S1 0 ltac:(lia)). rewrite Z.mul_0_l, Z.add_0_r in S1. rewrite S1.
    assert (I : In i (elems es)) by (rewrite K2; apply zseq_In; lia).
    unfold elems in I. apply in_flat_map in I. destruct I as ([l o] & I & J). cbn in J.
    destruct o as [i'|]; [|destruct J]. destruct J as [->|[]].
    rewrite Forall_forall in K3. pose proof (K3 _ I) as Hl. cbn in Hl.
    apply (consolidate_nan _ _ _ _ _ l); [now apply legal_lanes|exact Hl|].
    unfold st. rewrite run_lanes_lane. change (Z.to_nat 0) with 0%nat. apply lane_nan; auto.
    - unfold read. rewrite (zseq_cons 0) by lia. discriminate.
    - right. exists (val (Some i)). split; auto. unfold lane. apply in_map_iff. exists (l, val (Some i)).
      split; auto. apply filter_In. split; [|cbn; apply Z.eqb_refl]. apply in_map_iff. exists (l, Some i). auto.
  Qed.
End KNAN.

(** ** The scan with NaNs: it returns 0 or the magnitude of an element *)
Lemma fmax_pick {t} (Q : F t -> Prop) a b : Q a -> Q b -> Q (fmax a b).
Proof. unfold fmax. destruct (flt b a); auto. Qed.
Lemma scan_pick {t} v n (val : option Z -> F t) : legal_avec v -> 0 <= n -> val None = fzero ->
  scan v n val = fzero \/ exists i, 0 <= i < n /\ scan v n val = fabs (val (Some i)).
Proof.
  intros HL Hn V0. destruct (scan_events_ok v n HL Hn) as [E1 E2]. unfold scan.
  set (Q := fun r => r = fzero \/ exists i, 0 <= i < n /\ r = fabs (val (Some i))).
  set (es := scan_events v n) in *. clearbody es.
  assert (EQ : forall e, In e es -> Q (fabs (val (snd e)))).
  { intros [l [i|]] I; cbn; [|left; now rewrite V0]. right. exists i. split; auto.
    assert (I' : In i (elems es)) by (unfold elems; apply in_flat_map; exists (l, Some i); split; auto; now left).
    rewrite E1 in I'. apply zseq_In in I'. lia. }
  assert (ST : forall l, Q (fold_left (fun st e l =>
      if l =? fst e then fmax (st l) (fabs (val (snd e))) else st l) es (fun _ => fzero) l)).
  { clear E1 E2. assert (Q0 : forall l : Z, Q ((fun _ => fzero) l)) by (intros; now left). revert Q0. generalize (fun _ : Z => @fzero t).
    induction es as [|e es IH]; intros st Q0 l; [apply Q0|]. cbn [fold_left]. apply IH.
    - intros; apply EQ; now right.
    - intros l'. cbv beta. destruct (l' =? fst e); [|apply Q0]. apply fmax_pick; [apply Q0|]. apply EQ. now left. }
  set (st := fold_left _ es _) in *. clearbody st.
  change (Q (fold_left (fun b l => fmax b (st l)) (zseq 1 (Z.max (a_type_size v) 1 - 1)) (st 0))).
  generalize (zseq 1 (Z.max (a_type_size v) 1 - 1)). intros ls. generalize (ST 0). generalize (st 0).
  induction ls as [|l ls IH]; intros b Hb; [exact Hb|]. cbn [fold_left]. apply IH. now apply fmax_pick.
Qed.

(** ** The terms of a reduction *)
Definition terms {t} (k : kind) (X incX Y incY : Z) (m : mem t) (n : Z) : list (F t) :=
  map (fun i => term k (m (X + i * incX)) (m (Y + i * incY))) (zseq 0 n).
Lemma terms_length {t} k X iX Y iY (m : mem t) n : length (terms k X iX Y iY m n) = Z.to_nat n.
Proof. unfold terms. now rewrite map_length, zseq_length. Qed.
Lemma terms_split {t} k X iX Y iY (m : mem t) a b : 0 <= a -> 0 <= b ->
  terms k X iX Y iY m (a + b) = terms k X iX Y iY m a ++ terms k (X + a * iX) iX (Y + a * iY) iY m b.
Proof.
  intros Ha Hb. unfold terms. rewrite zseq_app by lia. rewrite map_app. f_equal.
  rewrite (zseq_shift 0 b a), map_map. apply map_ext_in. intros i _. f_equal; f_equal; ring.
Qed.
Lemma terms_ext {t} k X iX Y iY (m m' : mem t) n :
  (forall i, 0 <= i < n -> m' (X + i * iX) = m (X + i * iX) /\ m' (Y + i * iY) = m (Y + i * iY)) ->
  terms k X iX Y iY m' n = terms k X iX Y iY m n.
Proof.
  intros H. unfold terms. apply map_ext_in. intros i Hi. apply zseq_In in Hi.
  destruct (H i ltac:(lia)) as [-> ->]. reflexivity.
Qed.
Lemma val_none {t} k X iX Y iY (m : mem t) : val k X iX Y iY m None = fzero.
Proof. destruct k; reflexivity. Qed.
Lemma terms_val {t} k X iX Y iY (m : mem t) n :
  map (fun i => val k X iX Y iY m (Some i)) (zseq 0 n) = terms k X iX Y iY m n.
Proof. reflexivity. Qed.
(** What the scan sees: the terms themselves, or their values before fabs. *)
Definition skind (k : kind) : kind := match k with Dot => Dot | _ => Sum end.
Lemma scan_terms {t} v k X iX Y iY (m : mem t) n : legal_avec v -> 0 <= n ->
  let M := scan v n (val (skind k) X iX Y iY m) in
  (existsb f_isnan (terms k X iX Y iY m n) = false -> is_max M (terms k X iX Y iY m n)) /\
  (f_isinf M = true -> exists x, In x (terms k X iX Y iY m n) /\ f_isinf x = true).
Proof.
  intros HL Hn M.
  assert (TA : forall i, term k (m (X + i * iX)) (m (Y + i * iY)) = val (skind k) X iX Y iY m (Some i) \/
    term k (m (X + i * iX)) (m (Y + i * iY)) = fabs (val (skind k) X iX Y iY m (Some i))) by (intros i; destruct k; auto).
  split.
  - intros NN. assert (NI : forall i, 0 <= i < n -> f_isnan (term k (m (X + i * iX)) (m (Y + i * iY))) = false).
    { intros i Hi. destruct (f_isnan _) eqn:E; auto. rewrite <- NN. symmetry. apply existsb_exists.
      eexists. split; [|exact E]. unfold terms. apply in_map_iff. exists i. split; auto. apply zseq_In. lia. }
    assert (MX : is_max M (map (fun i => val (skind k) X iX Y iY m (Some i)) (zseq 0 n))).
    { apply scan_max; auto; [apply val_none|]. intros i Hi. specialize (NI i Hi).
      destruct (TA i) as [E|E]; rewrite E in NI; auto. now rewrite nan_fabs in NI. }
    destruct MX as (A & B & C & D). repeat split; auto.
    + intros x I. unfold terms in I. apply in_map_iff in I. destruct I as (i & <- & I).
      assert (J : In (val (skind k) X iX Y iY m (Some i)) (map (fun i => val (skind k) X iX Y iY m (Some i)) (zseq 0 n)))
        by (apply in_map_iff; eauto). apply C in J.
      destruct (TA i) as [E|E]; rewrite E; auto. now rewrite mag_fabs.
    + destruct D as [|(x & I & E)]; auto. right. apply in_map_iff in I. destruct I as (i & <- & I).
      exists (term k (m (X + i * iX)) (m (Y + i * iY))). split; [apply in_map_iff; eauto|]. rewrite E.
      destruct (TA i) as [E'|E']; rewrite E'; [auto|]. now destruct (val (skind k) X iX Y iY m (Some i)).
  - intros HI. destruct (scan_pick v n (val (skind k) X iX Y iY m) HL Hn (val_none _ _ _ _ _ _)) as [E|(i & Hi & E)].
    + unfold M in HI. rewrite E in HI. discriminate.
    + exists (term k (m (X + i * iX)) (m (Y + i * iY))). split; [apply in_map_iff; exists i; split; auto; apply zseq_In; lia|].
      unfold M in HI. rewrite E in HI. destruct (TA i) as [E'|E']; rewrite E'; auto.
      now destruct (val (skind k) X iX Y iY m (Some i)).
Qed.

(** ** The branch for infinities *)
Definition sgn_ok {t} (s : bool) (x : F t) : Prop :=
  match x with
  | B754_nan => False
  | B754_infinity s' => s' = s
  | B754_zero _ => True
  | B754_finite s' _ _ _ => s' = s
  end.
Lemma fadd_finite_cases {t} (a b : F t) : is_finite a = true -> is_finite b = true ->
  is_finite (fadd a b) = true \/ (fadd a b = B754_infinity (Bsign b) /\ exists s mm e H, b = B754_finite s mm e H).
Proof.
  intros Fa Fb. destruct b as [sb| | |sb mb eb Hb]; try discriminate.
  - left. destruct a; try discriminate; cbn; auto. destruct (Bool.eqb _ _); reflexivity.
  - pose proof (Bplus_correct (prec t) (emax t) (prec_gt_0 t) (prec_lt_emax t) mode_NE a (B754_finite sb mb eb Hb) Fa Fb) as H.
    destruct (Rlt_bool _ _).
    + left. apply H.
    + right. destruct H as [H1 H2]. split; [|eauto 6]. rewrite <- H2. clear -H1.
      change (fadd a (B754_finite sb mb eb Hb)) with (Bplus mode_NE a (B754_finite sb mb eb Hb)).
      destruct (Bplus mode_NE a (B754_finite sb mb eb Hb)) as [s|s| |s mm e He]; cbn in H1; try discriminate.
      injection H1 as ->. reflexivity.
Qed.
(** Adding [xs] one by one to a head word. *)
Definition head_ok {t} (g : bool) (s : bool) (seen : list (F t)) (h : F t) : Prop :=
  if all_finite seen then is_finite h = true \/ (exists s', h = B754_infinity s' /\ (g = true -> s' = s))
  else h = special seen \/ (g = false /\ h = B754_nan).
Lemma special_sgn {t} s (xs : list (F t)) : all_finite xs = false -> (forall x, In x xs -> sgn_ok s x) ->
  special xs = B754_infinity s.
Proof.
  intros NF H.
  assert (N : existsb f_isnan xs = false).
  { destruct (existsb f_isnan xs) eqn:E; auto. apply existsb_exists in E. destruct E as (x & I & E).
    apply H in I. destruct x; try discriminate. destruct I. }
  assert (O1 : s = true -> forall x : F t, In x xs -> is_pinf x = false).
  { intros -> x I. apply H in I. destruct x as [|[]| |]; try reflexivity. discriminate. }
  assert (O2 : s = false -> forall x : F t, In x xs -> is_ninf x = false).
  { intros -> x I. apply H in I. destruct x as [|[]| |]; try reflexivity. discriminate. }
  assert (X : forall f : F t -> bool, (forall x, In x xs -> f x = false) -> existsb f xs = false).
  { intros f Hf. destruct (existsb f xs) eqn:E; auto. apply existsb_exists in E. destruct E as (x & I & E).
    rewrite Hf in E by auto. discriminate. }
  pose proof (nonfinite_flags xs NF) as NF'. unfold special. rewrite N in *. destruct s.
  - pose proof (X _ (O1 eq_refl)) as P. rewrite P in *.
    destruct NF' as [?|[?|E]]; try discriminate. rewrite E. reflexivity.
  - pose proof (X _ (O2 eq_refl)) as P. rewrite P in *.
    destruct NF' as [?|[E|?]]; try discriminate. rewrite E. reflexivity.
Qed.
Lemma special_step {t} (x : F t) seen : all_finite seen = false -> fadd (special seen) x = special (x :: seen).
Proof.
  intros NF. destruct (special_app [x] seen) as (S1 & S2 & S3). cbn [app] in *. destruct (is_finite x) eqn:Fx.
  - assert (E : all_finite [x] = true) by (cbn; now rewrite Fx). rewrite S2 by auto.
    apply fadd_fin_r; auto. apply special_fin.
  - assert (E : all_finite [x] = false) by (cbn; now rewrite Fx). rewrite <- S1 by auto.
    now rewrite special_one.
Qed.
Lemma head_fold {t} g s (xs : list (F t)) : forall seen h,
  head_ok g s seen h -> (g = true -> all_finite seen = false \/ forall x, In x xs -> sgn_ok s x) ->
  head_ok g s (rev xs ++ seen) (fold_left fadd xs h).
Proof.
  induction xs as [|x xs IH]; intros seen h H G; [exact H|]. cbn [fold_left rev]. rewrite <- app_assoc. apply IH.
  - unfold head_ok in *. cbn [app]. rewrite all_finite_cons. destruct (all_finite seen) eqn:FS.
    + rewrite andb_true_r. destruct (is_finite x) eqn:Fx.
      * destruct H as [Fh|(s' & -> & Hs)].
        -- destruct (fadd_finite_cases h x Fh Fx) as [|(E & s0 & mm & e & He & Ex)]; auto. right. exists (Bsign x). split; auto.
           intros Eg. destruct (G Eg) as [?|G']; [discriminate|]. specialize (G' x (or_introl eq_refl)). subst x. exact G'.
        -- right. exists s'. split; auto. now apply fadd_fin_r.
      * destruct (special_app [x] seen) as (_ & _ & S3). cbn [app] in S3. rewrite S3, special_one by auto.
        destruct H as [Fh|(s' & -> & Hs)]; [left; now apply fadd_fin_l|].
        destruct x as [|sx| |]; try discriminate; [|left; reflexivity]. cbn. destruct (Bool.eqb s' sx) eqn:E.
        -- left. apply eqb_prop in E. now subst.
        -- destruct g; [|right; auto]. exfalso. rewrite Hs in E by auto. destruct (G eq_refl) as [?|G']; [discriminate|].
           specialize (G' _ (or_introl eq_refl)). cbn in G'. subst. now rewrite eqb_reflx in E.
    + rewrite andb_false_r. destruct H as [->|[-> ->]]; [left; now apply special_step|right; split; auto; apply fadd_nan_l].
  - intros Eg. destruct (G Eg) as [E|E]; [left; cbn [app]; rewrite all_finite_cons, E; apply andb_false_r|right; intros; apply E; now right].
Qed.
Lemma head_perm {t} g s (l l' : list (F t)) h : Permutation l l' -> head_ok g s l h -> head_ok g s l' h.
Proof. intros P. unfold head_ok. now rewrite (all_finite_perm _ _ P), (special_perm _ _ P). Qed.
Lemma for_up_head {t} (m : mem t) p n (f : Z -> mem t -> F t) : 0 <= n ->
  (forall j m', 0 <= j < n -> (forall a, a <> p -> m' a = m a) -> f j m' = f j m) ->
  let m' := for_up 0 n (fun j m => upd m p (fadd (m p) (f j m))) m in
  m' p = fold_left fadd (map (fun j => f j m) (zseq 0 n)) (m p) /\ (forall a, a <> p -> m' a = m a).
Proof.
  intros Hn HF m'. unfold m'.
  apply (for_up_inv (fun j m' => m' p = fold_left fadd (map (fun j => f j m) (zseq 0 j)) (m p) /\ (forall a, a <> p -> m' a = m a))); auto.
  - intros j m1 Hj [H1 H2]. split.
    + rewrite upd_same. rewrite zseq_app by lia. rewrite map_app, fold_left_app. rewrite <- H1.
      rewrite (zseq_cons (0 + j) 1), (zseq_nil _ (1 - 1)), Z.add_0_l by lia. cbn. f_equal. apply HF; auto.
    + intros a Ha. rewrite upd_other by auto. auto.
Qed.

Section LOOP.
  Context {t : ty} {fold p ip c ic : Z} (L : layout fold p ip c ic).
  Hypothesis Hf : 2 <= fold.
  Hypothesis Hm : fold <= jmax t + 1.
  Notation repm m us xs d := (rep t fold us xs d (P_of m p ip) (P_of m c ic)).
  Notation holdsm m us xs := (holds t fold us xs (P_of m p ip) (P_of m c ic)).
  Notation framem := (frame fold p ip c ic).
  Definition legal_tuning (tu : tuning) : Prop :=
    1 <= block_max tu <= endurance t /\ legal_avec (amax_vec tu) /\ legal_vec (dep_vec tu).
  (** The n strided cells at X are not part of the accumulator. *)
  Definition outside (X incX n : Z) : Prop := forall i, 0 <= i < n -> ~ in_acc fold p ip c ic (X + i * incX).

  Variables (g s : bool).
  Definition st_in us zs d (m : mem t) : Prop :=
    if all_finite zs then repm m us zs d else m p = special zs \/ (g = false /\ m p = B754_nan).
  Definition st_out us zs (m : mem t) : Prop :=
    if all_finite zs then holdsm m us zs else m p = special zs \/ (g = false /\ m p = B754_nan).

  Lemma in_acc_p : in_acc fold p ip c ic p.
  Proof. exists 0. split; [lia|]. left. ring. Qed.

  Lemma st_out_perm us (zs zs' : list (F t)) m : Permutation zs zs' -> st_out us zs m -> st_out us zs' m.
  Proof.
    intros P. unfold st_out. rewrite <- (all_finite_perm _ _ P), <- (special_perm _ _ P).
    destruct (all_finite zs); auto. apply holds_perm; auto.
  Qed.
  Lemma special_nan_more (xs zs : list (F t)) : all_finite zs = false -> special zs = B754_nan -> special (xs ++ zs) = B754_nan.
  Proof.
    intros NF E. destruct (special_app xs zs) as (S1 & S2 & _). destruct (all_finite xs) eqn:FX.
    - now rewrite S2.
    - rewrite <- S1 by auto. rewrite E. apply fadd_nan_l.
  Qed.
  Lemma outside_shift X iX a b : 0 <= a -> 0 <= b -> outside X iX (a + b) ->
    outside X iX a /\ outside (X + a * iX) iX b.
  Proof.
    intros Ha Hb H. split; intros i Hi; [apply H; lia|].
    replace (X + a * iX + i * iX) with (X + (a + i) * iX) by ring. apply H. lia.
  Qed.
  Lemma outside_terms k X iX Y iY n (m m' : mem t) : outside X iX n -> outside Y iY n -> framem m m' ->
    terms k X iX Y iY m' n = terms k X iX Y iY m n.
  Proof. intros HX HY F. apply terms_ext. intros i Hi. split; apply F; [now apply HX|now apply HY]. Qed.

  Lemma loop_ok : forall fuel k tu N X iX Y iY i NB d (m : mem t) us zs,
    legal_tuning tu -> 0 <= i <= N -> N - i < Z.of_nat fuel -> 1 <= NB <= endurance t -> 0 <= d <= endurance t ->
    st_in us zs d m -> outside X iX (N - i) -> outside Y iY (N - i) ->
    let ts := terms k X iX Y iY m (N - i) in
    (all_finite zs = true -> Z.of_nat (length (ts ++ zs)) <= capacity t) ->
    (g = true -> all_finite ts = true \/ all_finite zs = false \/ forall x, In x ts -> sgn_ok s x) ->
    let m' := reduce_loop fuel k tu fold N X iX Y iY p ip c ic i NB d m in
    st_out us (ts ++ zs) m' /\ framem m m'.
  Proof.
    induction fuel as [|fuel IH]; intros k tu N X iX Y iY i NB d m us zs LT Hi Hfu HNB Hd ST OX OY ts HC HG; [lia|].
    cbn [reduce_loop]. destruct (Z.ltb_spec i N) as [Li|Li].
    2:{ assert (E : ts = []) by (unfold ts, terms; rewrite zseq_nil by lia; reflexivity).
        rewrite E in *. cbn [app] in *. clear E ts. unfold st_in, st_out in *. destruct (all_finite zs) eqn:FZ.
        - destruct (rep_renorm L Hf m us zs d ST Hd (fun _ => HC eq_refl)) as [A B]. split; auto.
        - assert (E : dmrenorm fold p ip c ic m = m).
          { unfold dmrenorm. replace (ISNANINF (m p)) with true; [now rewrite orb_true_r|]. symmetry. rewrite ISNANINF_fin.
            destruct ST as [E|[_ E]]; rewrite E; [now rewrite special_fin|reflexivity]. }
          rewrite E. split; auto. apply frame_refl. }
    set (n := Z.min (N - i) NB). assert (Hn : 1 <= n <= endurance t) by lia.
    assert (En : N - i = n + (N - (i + n))) by lia. assert (Hr : 0 <= N - (i + n)) by lia.
    assert (Hn1 : n <= N - i) by lia. clearbody n.
    set (xs := terms k X iX Y iY m n). set (ts' := terms k (X + n * iX) iX (Y + n * iY) iY m (N - (i + n))).
    assert (Ets : ts = xs ++ ts') by (unfold ts; rewrite En; apply terms_split; lia).
    rewrite Ets in *. clear Ets ts. rewrite En in OX, OY.
    destruct (outside_shift X iX n _ ltac:(lia) Hr OX) as [OX1 OX2].
    destruct (outside_shift Y iY n _ ltac:(lia) Hr OY) as [OY1 OY2].
    destruct LT as (LT1 & LA & LV).
    assert (LX : Z.of_nat (length xs) = n) by (unfold xs; rewrite terms_length; lia).
    (* the recursive call *)
    assert (REC : forall m1 d1, framem m m1 -> 0 <= d1 <= endurance t -> st_in us (xs ++ zs) d1 m1 ->
      let m' := reduce_loop fuel k tu fold N (X + n * iX) iX (Y + n * iY) iY p ip c ic (i + n) n d1 m1 in
      st_out us ((xs ++ ts') ++ zs) m' /\ framem m m').
    { intros m1 d1 F1 Hd1 ST1. pose proof (outside_terms k _ _ _ _ _ m m1 OX2 OY2 F1) as ET. fold ts' in ET.
      pose proof (IH k tu N (X + n * iX) iX (Y + n * iY) iY (i + n) n d1 m1 us (xs ++ zs)) as R.
      cbv zeta in R. rewrite ET in R. destruct R as [R1 R2]; auto; try lia; [now split|..].
      - intros FA. rewrite all_finite_app in FA. apply andb_true_iff in FA. destruct FA as [_ FA]. specialize (HC FA).
        rewrite !app_length in *. lia.
      - intros Eg. rewrite all_finite_app. destruct (HG Eg) as [A|[A|A]].
        + rewrite all_finite_app in A. apply andb_true_iff in A. left. apply A.
        + right. left. rewrite A. apply andb_false_r.
        + right. right. intros x Hx. apply A. apply in_or_app. now right.
      - split; [|eapply frame_trans; eauto]. eapply st_out_perm; [|exact R1].
        rewrite <- app_assoc. rewrite app_assoc, (Permutation_app_comm ts' xs). now rewrite app_assoc. }
    pose proof (scan_terms (amax_vec tu) k X iX Y iY m n LA ltac:(lia)) as SC. cbv zeta in SC.
    set (amax := scan (amax_vec tu) n _) in SC. fold xs in SC.
    replace (scan (amax_vec tu) n _) with amax by (unfold amax, skind; destruct k; reflexivity).
    clearbody amax. destruct SC as [SC1 SC2].
    assert (HD : if all_finite zs then is_finite (m p) = true else m p = special zs \/ (g = false /\ m p = B754_nan)).
    { unfold st_in in ST. destruct (all_finite zs) eqn:FZ; auto. pose proof (rep_head (ip := ip) (c := c) (ic := ic) Hf m us zs d ST Hd) as RH. rewrite FZ in RH.
      destruct (us ++ zs); [now rewrite RH|apply RH]. }
    destruct (f_isinf amax || f_isinf (m p)) eqn:BI.
    - (* infinities *)
      destruct (for_up_head m p n (fun j m => term k (m (X + j * iX)) (m (Y + j * iY))) ltac:(lia)) as [H1 H2].
      { intros j m1 Hj HF. rewrite !HF; [reflexivity| |]; intros E; [apply (OY1 j Hj)|apply (OX1 j Hj)]; rewrite E; apply in_acc_p. }
      set (m1 := for_up 0 n _ m) in *. clearbody m1. fold (terms k X iX Y iY m n) in H1. fold xs in H1.
      assert (F1 : framem m m1) by (intros a Ha; apply H2; intros ->; apply Ha, in_acc_p).
      assert (HH : head_ok g s (xs ++ zs) (m1 p)).
      { apply (head_perm g s (rev xs ++ zs)); [apply Permutation_app_tail; symmetry; apply Permutation_rev|]. rewrite H1.
        assert (H0 : head_ok g s zs (m p)) by (unfold head_ok; destruct (all_finite zs); auto).
        destruct (all_finite zs) eqn:FZ.
        - apply head_fold; auto. intros Eg. right.
          destruct (HG Eg) as [A|[A|A]]; [|discriminate|intros; apply A; apply in_or_app; now left].
          exfalso. rewrite all_finite_app in A. apply andb_true_iff in A. destruct A as [A _].
          apply orb_true_iff in BI. destruct BI as [BI|BI]; [|destruct (m p); discriminate].
          destruct (SC2 BI) as (x & I & E). unfold all_finite in A. rewrite forallb_forall in A. apply A in I. destruct x; discriminate.
        - apply head_fold; auto. }
      assert (NF : all_finite (xs ++ zs) = false).
      { rewrite all_finite_app. destruct (all_finite zs) eqn:FZ; [|apply andb_false_r]. rewrite andb_true_r.
        apply orb_true_iff in BI. destruct BI as [BI|BI]; [|destruct (m p); discriminate].
        destruct (SC2 BI) as (x & I & E). destruct (all_finite xs) eqn:FX; auto. unfold all_finite in FX. rewrite forallb_forall in FX.
        apply FX in I. destruct x; discriminate. }
      unfold head_ok in HH. rewrite NF in HH.
      destruct (f_isnan (m1 p)) eqn:NN.
      + split; [|exact F1]. eapply st_out_perm with (zs := ts' ++ xs ++ zs); [rewrite app_assoc, (Permutation_app_comm ts' xs); reflexivity|].
        unfold st_out. rewrite all_finite_app, NF, andb_false_r. destruct (m1 p); try discriminate.
        destruct HH as [HH|[HH _]]; [left|right; auto]. symmetry. apply special_nan_more; auto.
      + assert (II : f_isinf (m1 p) = true).
        { pose proof (special_fin (xs ++ zs)) as SF. destruct HH as [HH|[_ HH]]; rewrite HH in *; [|discriminate].
          destruct (special (xs ++ zs)); try discriminate; reflexivity. }
        rewrite II. apply REC; auto. unfold st_in. rewrite NF. exact HH.
    - apply orb_false_iff in BI. destruct BI as [BI1 BI2].
      destruct (f_isnan (m p)) eqn:NN.
      + split; [|apply frame_refl]. unfold st_out. destruct (all_finite zs) eqn:FZ; [destruct (m p); discriminate|].
        rewrite all_finite_app, FZ, andb_false_r. destruct (m p); try discriminate.
        destruct HD as [HH|[HH _]]; [left|right; auto]. symmetry. apply special_nan_more; auto.
      + rewrite BI2. assert (FZ : all_finite zs = true).
        { destruct (all_finite zs); auto. destruct HD as [HH|[_ HH]]; [|rewrite HH in NN; discriminate].
          pose proof (special_fin zs) as SF. rewrite <- HH in SF. destruct (m p); discriminate. }
        rewrite FZ in *. clear HD. unfold st_in in ST. rewrite FZ in ST. specialize (HC eq_refl).
        rewrite (ENDURANCE_eq t).
        assert (RN : exists m1 d1, (if endurance t <? d + n then (dmrenorm fold p ip c ic m, 0) else (m, d)) = (m1, d1) /\
          repm m1 us zs d1 /\ 0 <= d1 /\ d1 + n <= endurance t /\ framem m m1).
        { destruct (Z.ltb_spec (endurance t) (d + n)).
          - destruct (rep_renorm L Hf m us zs d ST Hd) as [A B]; [intros _; rewrite !app_length in HC; lia|].
            eexists _, _. split; [reflexivity|]. split; [apply holds_rep; auto; rewrite !app_length in HC; lia|]. split; [lia|]. split; [lia|exact B].
          - eexists _, _. split; [reflexivity|]. split; [exact ST|]. split; [lia|]. split; [lia|apply frame_refl]. }
        destruct RN as (m1 & d1 & -> & R1 & Hd1 & Hd2 & F1).
        destruct (rep_update L Hf Hm m1 us zs d1 amax R1 ltac:(lia)) as [R2 F2].
        set (m2 := dmdupdate fold amax p ip c ic m1) in *. clearbody m2.
        assert (F12 : framem m m2) by (eapply frame_trans; eauto).
        assert (EX : terms k X iX Y iY m2 n = xs) by (apply outside_terms; auto).
        destruct (all_finite xs) eqn:FX.
        * assert (NA : existsb f_isnan xs = false) by (apply all_finite_flags; auto).
          pose proof (max_index amax xs (SC1 NA) FX) as [MI1 MI2].
          pose proof (rep_kernel L Hf (dep_vec tu) m2 (amax :: us) zs d1 n (val k X iX Y iY m2) LV ltac:(lia)) as RK.
          cbv zeta in RK. rewrite terms_val, EX in RK.
          destruct (kernel (dep_vec tu) fold n (val k X iX Y iY m2) p ip m2) as [m3 adv].
          destruct RK as (K1 & K2 & K3); auto.
          { discriminate. }
          { intros x Ix. etransitivity; [|apply MI1; exact Ix]. apply lead_le. now left. }
          { rewrite val_none. reflexivity. }
          { rewrite val_none. reflexivity. }
          rewrite K1. apply REC; [eapply frame_trans; eauto|lia|]. unfold st_in. rewrite all_finite_app, FX, FZ. cbn [andb].
          apply (rep_drop (fold := fold) _ _ amax); auto.
          -- destruct us; [|discriminate]. destruct xs; [cbn in LX; lia|discriminate].
          -- rewrite !lead_app. lia.
        * assert (NA : existsb f_isnan xs = true).
          { destruct (existsb f_isnan xs) eqn:NA; auto. exfalso. specialize (SC1 eq_refl). destruct SC1 as (M1 & M2 & M3 & M4).
            assert (EI : exists x, In x xs /\ is_finite x = false).
            { clear -FX. induction xs as [|x xs IH]; [discriminate|]. rewrite all_finite_cons in FX. destruct (is_finite x) eqn:E.
              - destruct (IH FX) as (y & I & Fy). exists y. split; auto. now right.
              - exists x. split; auto. now left. }
            destruct EI as (x & I & Fx). specialize (M3 x I). unfold mag in M3 at 1. rewrite Fx in M3.
            destruct (is_finite amax) eqn:FA; [apply mag_fin in FA; lia|]. destruct amax; discriminate. }
          pose proof (kernel_nan L Hf (dep_vec tu) m2 n (val k X iX Y iY m2) LV ltac:(lia)) as RK.
          destruct (kernel (dep_vec tu) fold n (val k X iX Y iY m2) p ip m2) as [m3 adv].
          destruct RK as (K1 & K2 & K3).
          { apply existsb_exists in NA. destruct NA as (x & I & Nx). rewrite <- EX in I. unfold terms in I.
            apply in_map_iff in I. destruct I as (j & <- & I). apply zseq_In in I. exists j. split; [lia|]. cbn [val].
            destruct (term k _ _); try discriminate. reflexivity. }
          rewrite K1. apply REC; [eapply frame_trans; eauto|lia|]. unfold st_in. rewrite all_finite_app, FX. cbn [andb].
          left. rewrite K2. unfold special. rewrite existsb_app, NA. reflexivity.
  Qed.
End LOOP.
