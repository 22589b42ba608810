(** * The loops of zmzsum, zmzdotc, zmzdotu *)
From Coq Require Import ZArith Bool List Lia Permutation.
From Flocq Require Import Core BinarySingleNaN.
From Verif Require Import Fp Mem Binned Spec FpProofs BitProofs CoreArith SpecProofs WordProofs MemProofs AccProofs SumProofs Gen GenProofs Blas LaneProofs ReduceProofs DriverProofs BlasZ ZEvents ZKernel.
Import ListNotations.
Open Scope Z_scope.

(** ** Plain additions: exact for infinities and NaN, or NaN *)
Definition wk {t} (seen : list (F t)) (h : F t) : Prop := all_finite seen = true \/ h = special seen \/ h = B754_nan.
Lemma wk_one {t} (x : F t) : wk [x] x.
Proof.
  unfold wk. destruct (is_finite x) eqn:E; [left; cbn; now rewrite E|]. right. left. symmetry. now apply special_one.
Qed.
Lemma fadd_inf {t} s (x : F t) : fadd x (B754_infinity s) = B754_infinity s \/ fadd x (B754_infinity s) = B754_nan.
Proof. destruct x as [|sx| |]; cbn; auto. destruct sx, s; cbn; auto. Qed.
Lemma fadd_any_nonfinite {t} (x y : F t) : is_finite y = false -> fadd x y = y \/ fadd x y = B754_nan.
Proof.
  destruct y as [|s| |]; try discriminate; intros _; [apply fadd_inf|right; apply fadd_nan_r].
Qed.
Lemma wk_merge {t} (A B : list (F t)) a b : wk A a -> wk B b -> wk (A ++ B) (fadd a b).
Proof.
  unfold wk. intros HA HB. rewrite all_finite_app. destruct (special_app A B) as (S1 & S2 & S3).
  destruct (all_finite A) eqn:FA, (all_finite B) eqn:FB; cbn [andb]; auto.
  - right. rewrite S2 by auto. destruct HB as [E|[->| ->]]; [discriminate| |right; apply fadd_nan_r].
    apply fadd_any_nonfinite. apply special_fin.
  - right. rewrite S3 by auto. destruct HA as [E|[->| ->]]; [discriminate| |right; apply fadd_nan_l].
    rewrite fadd_comm. apply fadd_any_nonfinite. apply special_fin.
  - right. destruct HA as [E|[->| ->]]; [discriminate| |right; apply fadd_nan_l].
    destruct HB as [E|[->| ->]]; [discriminate| |right; apply fadd_nan_r].
    left. rewrite fadd_comm. now apply S1.
Qed.
Lemma wk_perm {t} (A B : list (F t)) h : Permutation A B -> wk A h -> wk B h.
Proof. intros P. unfold wk. now rewrite (all_finite_perm _ _ P), (special_perm _ _ P). Qed.
Lemma fsub_neg {t} (a b : F t) : fsub a b = fadd a (fneg b).
Proof.
  destruct a as [sa|sa| |sa ma ea Ha], b as [sb|sb| |sb mb eb Hb]; try reflexivity; try (destruct sa, sb; reflexivity).
Qed.

(** ** The summands of a reduction *)
Definition zterms {t} (k : zkind) (c X iX Y iY : Z) (m : mem t) (n : Z) : list (F t) :=
  map (fun s => zval k X iX Y iY m c (Elem s)) (zseq 0 (nterms k * n)).
Lemma nterms_pos k : 0 < nterms k. Proof. destruct k; cbn; lia. Qed.
Lemma nterms_12 k : nterms k = 1 \/ nterms k = 2. Proof. destruct k; cbn; lia. Qed.
Lemma zterms_elems {t} k c X iX Y iY (m : mem t) n : 0 <= n -> zterms k c X iX Y iY m n =
  flat_map (fun e => map (fun h => at_elem (zterm k c h) X iX Y iY m e) (zseq 0 (nterms k))) (zseq 0 n).
Proof.
  intros Hn. unfold zterms. pose proof (nterms_pos k) as NP.
  pose proof (groups_flat (fun s => zval k X iX Y iY m c (Elem s)) (nterms k) NP (Z.to_nat n) 0) as G.
  rewrite Z2Nat.id in G by lia. rewrite Z.mul_0_l in G. rewrite (Z.mul_comm (nterms k)), <- G.
  apply flat_map_ext_in'. intros e _. apply map_ext_in. intros h Hh. apply zseq_In in Hh. unfold zval.
  rewrite Z.add_comm, Z.mod_add, Z.div_add, Z.mod_small, Z.div_small by lia. reflexivity.
Qed.
Lemma zterms_length {t} k c X iX Y iY (m : mem t) n : length (zterms k c X iX Y iY m n) = Z.to_nat (nterms k * n).
Proof. unfold zterms. now rewrite map_length, zseq_length. Qed.
Lemma zterms_split {t} k c X iX Y iY (m : mem t) a b : 0 <= a -> 0 <= b ->
  zterms k c X iX Y iY m (a + b) =
  zterms k c X iX Y iY m a ++ zterms k c (X + a * (2 * iX)) iX (Y + a * (2 * iY)) iY m b.
Proof.
  intros Ha Hb. rewrite !zterms_elems by lia. rewrite zseq_app, flat_map_app by lia. f_equal.
  rewrite (zseq_shift 0 b a), flat_map_map'. apply flat_map_ext_in'. intros e _. apply map_ext. intros h.
  unfold at_elem. f_equal; f_equal; ring.
Qed.
Lemma zterms_ext {t} k c X iX Y iY (m m' : mem t) n : 0 <= n ->
  (forall i o, 0 <= i < n -> o = 0 \/ o = 1 -> m' (X + i * (2 * iX) + o) = m (X + i * (2 * iX) + o) /\
     m' (Y + i * (2 * iY) + o) = m (Y + i * (2 * iY) + o)) ->
  zterms k c X iX Y iY m' n = zterms k c X iX Y iY m n.
Proof.
  intros Hn H. rewrite !zterms_elems by lia. apply flat_map_ext_in'. intros i Hi. apply zseq_In in Hi. apply map_ext. intros h.
  destruct (H i 0 ltac:(lia) ltac:(auto)) as [A B]. rewrite !Z.add_0_r in A, B.
  destruct (H i 1 ltac:(lia) ltac:(auto)) as [C D]. unfold at_elem. now rewrite A, B, C, D.
Qed.
Lemma zval_none {t} k X iX Y iY (m : mem t) c h : is_finite (zval k X iX Y iY m c (Pad h)) = true /\
  toZ (zval k X iX Y iY m c (Pad h)) = 0 /\ fabs (zval k X iX Y iY m c (Pad h)) = fzero.
Proof. unfold zval, zterm. destruct k; destruct (c =? 0), (h =? 0); cbn; auto. Qed.
Lemma zwhole_wk {t} k c (xr xi yr yi : F t) :
  wk (map (fun h => zterm k c h xr xi yr yi) (zseq 0 (nterms k))) (zwhole k c xr xi yr yi).
Proof.
  unfold zwhole, zterm. destruct k; cbn [nterms];
    [change (zseq 0 1) with [0]|change (zseq 0 2) with [0; 1]|change (zseq 0 2) with [0; 1]]; cbn [map Z.eqb].
  - apply wk_one.
  - destruct (c =? 0).
    + apply (wk_merge [_] [_]); apply wk_one.
    + rewrite fsub_neg, fadd_comm. apply (wk_merge [_] [_]); apply wk_one.
  - destruct (c =? 0).
    + rewrite fsub_neg. apply (wk_merge [_] [_]); apply wk_one.
    + rewrite fadd_comm. apply (wk_merge [_] [_]); apply wk_one.
Qed.
Lemma whole_fold {t} k c X iX Y iY (m : mem t) n zs h : 0 <= n -> wk zs h ->
  wk (zterms k c X iX Y iY m n ++ zs)
     (fold_left fadd (map (fun j => at_elem (zwhole k c) X iX Y iY m j) (zseq 0 n)) h).
Proof.
  intros Hn H. rewrite zterms_elems by lia. revert zs h H. induction (zseq 0 n) as [|e l IH]; intros zs h H; [exact H|].
  cbn [map fold_left flat_map]. rewrite <- app_assoc.
  eapply wk_perm; [|apply (IH (map (fun h => at_elem (zterm k c h) X iX Y iY m e) (zseq 0 (nterms k)) ++ zs))].
  - rewrite !app_assoc. apply Permutation_app_tail. apply Permutation_app_comm.
  - rewrite fadd_comm. apply wk_merge; [|exact H]. unfold at_elem. apply zwhole_wk.
Qed.
(** What the scan finds. *)
Lemma zscan_terms {t} v k X iX Y iY (m : mem t) c n : legal_avec v -> 0 <= n ->
  let M := zscan (nterms k) v n (zval k X iX Y iY m c) in
  let xs := zterms k c X iX Y iY m n in
  (existsb f_isnan xs = false -> is_max M xs) /\ (f_isinf M = true -> exists x, In x xs /\ f_isinf x = true).
Proof.
  intros HL Hn M xs. pose proof (nterms_pos k) as NP. assert (V0 : forall h, fabs (zval k X iX Y iY m c (Pad h)) = fzero) by (intros h; apply zval_none). split.
  - intros NN. apply zscan_max; auto. intros i Hi. destruct (f_isnan _) eqn:E; auto. rewrite <- NN. symmetry.
    apply existsb_exists. eexists. split; [|exact E]. apply in_map_iff. exists i. split; auto. apply zseq_In. lia.
  - intros HI. destruct (zscan_pick (nterms k) v n (zval k X iX Y iY m c) NP HL Hn V0) as [E|(i & Hi & E)].
    + unfold M in HI. rewrite E in HI. discriminate.
    + eexists. split; [apply in_map_iff; exists i; split; [reflexivity|apply zseq_In; lia]|].
      unfold M in HI. rewrite E in HI. now destruct (zval k X iX Y iY m c (Elem i)).
Qed.

(** ** One component through one block *)
Section COMP.
  Context {t : ty} {fold p ip c ic : Z} (L : layout fold p ip c ic).
  Hypothesis Hf : 2 <= fold.
  Hypothesis Hm : fold <= jmax t + 1.
  Notation repm m us xs d := (rep t fold us xs d (P_of m p ip) (P_of m c ic)).
  Notation holdsm m us xs := (holds t fold us xs (P_of m p ip) (P_of m c ic)).
  Notation framem := (frame fold p ip c ic).
  Definition cst us zs d (m : mem t) : Prop :=
    if all_finite zs then repm m us zs d else m p = special zs \/ m p = B754_nan.
  Definition cout us zs (m : mem t) : Prop :=
    if all_finite zs then holdsm m us zs else m p = special zs \/ m p = B754_nan.
  (** Predicates that read the accumulator only. *)
  Definition local (Q : mem t -> Prop) : Prop :=
    forall m m', (forall a, in_acc fold p ip c ic a -> m' a = m a) -> Q m -> Q m'.
  Lemma in_p : in_acc fold p ip c ic p. Proof. exists 0. split; [lia|]. left. ring. Qed.
  Lemma local_rep us zs d : local (fun m => repm m us zs d).
  Proof.
    intros m m' H. apply rep_words_ext; auto. intros i Hi. unfold P_of. split; apply H; [now apply in_pri|now apply in_car].
  Qed.
  Lemma local_holds us zs : local (fun m => holdsm m us zs).
  Proof.
    intros m m' H. apply holds_words_ext; auto. intros i Hi. unfold P_of. split; apply H; [now apply in_pri|now apply in_car].
  Qed.
  Lemma local_p (R : F t -> Prop) : local (fun m => R (m p)).
  Proof. intros m m' H. rewrite H by apply in_p. auto. Qed.
  Lemma local_or A B : local A -> local B -> local (fun m => A m \/ B m).
  Proof. intros HA HB m m' H [X|X]; [left; eapply HA; eauto|right; eapply HB; eauto]. Qed.
  Lemma local_and (A : Prop) B : local B -> local (fun m => A /\ B m).
  Proof. intros HB m m' H [X Y]. split; auto. eapply HB; eauto. Qed.
  Lemma local_imp (A : Prop) B : local B -> local (fun m => A -> B m).
  Proof. intros HB m m' H X Y. eapply HB; eauto. Qed.
  Lemma local_cst us zs d : local (cst us zs d).
  Proof. unfold cst. destruct (all_finite zs); [apply local_rep|]. apply (local_p (fun h => h = _ \/ h = _)). Qed.
  Lemma local_cout us zs : local (cout us zs).
  Proof. unfold cout. destruct (all_finite zs); [apply local_holds|]. apply (local_p (fun h => h = _ \/ h = _)). Qed.
  Lemma cout_perm us (zs zs' : list (F t)) m : Permutation zs zs' -> cout us zs m -> cout us zs' m.
  Proof.
    intros P. unfold cout. rewrite <- (all_finite_perm _ _ P), <- (special_perm _ _ P).
    destruct (all_finite zs); auto. apply holds_perm; auto.
  Qed.
  Lemma nan_more (xs zs : list (F t)) : all_finite zs = false -> special zs = B754_nan -> special (xs ++ zs) = B754_nan.
  Proof.
    intros NF E. destruct (special_app xs zs) as (S1 & S2 & _). destruct (all_finite xs) eqn:FX.
    - now rewrite S2.
    - rewrite <- S1 by auto. rewrite E. apply fadd_nan_l.
  Qed.
  Lemma cst_head us zs d m : cst us zs d m -> 0 <= d <= endurance t ->
    if all_finite zs then is_finite (m p) = true else is_finite (m p) = false /\ wk zs (m p).
  Proof.
    intros H Hd. unfold cst in H. destruct (all_finite zs) eqn:FZ.
    - pose proof (rep_head (ip := ip) (c := c) (ic := ic) Hf m us zs d H Hd) as RH. rewrite FZ in RH.
      destruct (us ++ zs); [now rewrite RH|apply RH].
    - split; [destruct H as [-> | ->]; [apply special_fin|reflexivity]|]. unfold wk. tauto.
  Qed.

  (** Facts about the head word h that the block continues with. *)
  Definition hfacts (zs xs : list (F t)) (amax h : F t) : Prop :=
    (is_finite h = true -> all_finite zs = true /\ f_isinf amax = false) /\
    (is_finite h = false -> all_finite (xs ++ zs) = false /\ (h = special (xs ++ zs) \/ h = B754_nan)).
  Definition Bst us zs d (h : F t) (m : mem t) : Prop :=
    (is_finite h = false /\ m p = h) \/ (is_finite h = true /\ repm m us zs d).
  Lemma local_Bst us zs d h : local (Bst us zs d h).
  Proof.
    apply local_or; apply local_and; [apply (local_p (fun x => x = h))|apply local_rep].
  Qed.
  Lemma stageA us zs xs d amax n (f : Z -> mem t -> F t) (m : mem t) :
    cst us zs d m -> 0 <= d <= endurance t -> 0 <= n ->
    (f_isinf amax = true -> exists x, In x xs /\ f_isinf x = true) ->
    (forall j m', 0 <= j < n -> (forall a, a <> p -> m' a = m a) -> f j m' = f j m) ->
    (forall h, wk zs h -> wk (xs ++ zs) (fold_left fadd (map (fun j => f j m) (zseq 0 n)) h)) ->
    let m1 := if f_isinf amax || f_isinf (m p)
              then for_up 0 n (fun j m => upd m p (fadd (m p) (f j m))) m else m in
    hfacts zs xs amax (m1 p) /\ Bst us zs d (m1 p) m1 /\ framem m m1.
  Proof.
    intros H Hd Hn HI HF HW m1. pose proof (cst_head us zs d m H Hd) as HD. unfold m1. clear m1.
    assert (XI : f_isinf amax = true -> all_finite xs = false).
    { intros E. destruct (HI E) as (x & I & J). destruct (all_finite xs) eqn:FX; auto.
      unfold all_finite in FX. rewrite forallb_forall in FX. apply FX in I. destruct x; discriminate. }
    destruct (f_isinf amax || f_isinf (m p)) eqn:BI.
    - destruct (for_up_head m p n f Hn HF) as [H1 H2]. set (m1 := for_up 0 n _ m) in *. clearbody m1.
      assert (NF : all_finite (xs ++ zs) = false).
      { rewrite all_finite_app. apply orb_true_iff in BI. destruct BI as [BI|BI]; [now rewrite XI|].
        destruct (all_finite zs); [destruct (m p); discriminate|apply andb_false_r]. }
      assert (W : wk zs (m p)) by (destruct (all_finite zs) eqn:FZ; [left; exact FZ|apply HD]).
      pose proof (HW _ W) as W'. rewrite <- H1 in W'. unfold wk in W'. rewrite NF in W'.
      destruct W' as [?|W']; [discriminate|].
      assert (NH : is_finite (m1 p) = false) by (destruct W' as [-> | ->]; [apply special_fin|reflexivity]).
      split; [split; [congruence|auto]|]. split; [left; auto|]. intros a Ha. apply H2. intros ->. apply Ha, in_p.
    - apply orb_false_iff in BI. destruct BI as [B1 B2]. unfold cst in H. destruct (all_finite zs) eqn:FZ.
      + split; [split; [auto|congruence]|]. split; [right; auto|apply frame_refl].
      + destruct HD as [F1 _]. assert (E : m p = B754_nan) by (destruct (m p); try discriminate; reflexivity).
        split; [split; [congruence|]|]. { intros _. rewrite all_finite_app, FZ, andb_false_r. auto. }
        split; [left; auto|apply frame_refl].
  Qed.
  Lemma stageB us zs d h b m : Bst us zs d h m -> 0 <= d <= endurance t ->
    (is_finite h = true -> all_finite zs = true -> Z.of_nat (length zs) <= capacity t) ->
    let m1 := if b : bool then dmrenorm fold p ip c ic m else m in
    Bst us zs (if b then 0 else d) h m1 /\ framem m m1.
  Proof.
    intros H Hd HC m1. unfold m1. clear m1. destruct b; [|split; [exact H|apply frame_refl]].
    destruct H as [[F1 E]|[F1 R]].
    - assert (EM : dmrenorm fold p ip c ic m = m).
      { unfold dmrenorm. replace (ISNANINF (m p)) with true; [now rewrite orb_true_r|]. symmetry. now rewrite ISNANINF_fin, E, F1. }
      rewrite EM. split; [left; auto|apply frame_refl].
    - destruct (all_finite zs) eqn:FZ.
      + destruct (rep_renorm L Hf m us zs d R Hd) as [A B]; [auto|].
        split; [|exact B]. right. split; auto. apply holds_rep; auto.
      + destruct (rep_renorm L Hf m us zs d R Hd) as [A B]; [congruence|]. split; [|exact B]. right. split; auto.
        unfold rep. unfold holds in A. rewrite FZ in *. exact A.
  Qed.
  Definition Cst us zs d (U h : F t) (m : mem t) : Prop :=
    (is_finite h = false /\ m p = h) \/ (is_finite h = true /\ repm m (U :: us) zs d).
  Lemma local_Cst us zs d U h : local (Cst us zs d U h).
  Proof.
    apply local_or; apply local_and; [apply (local_p (fun x => x = h))|apply local_rep].
  Qed.
  Lemma stageC us zs d U h m : Bst us zs d h m -> 0 <= d <= endurance t ->
    let m1 := dmdupdate fold U p ip c ic m in
    Cst us zs d U h m1 /\ framem m m1.
  Proof.
    intros H Hd m1. destruct H as [[F1 E]|[F1 R]].
    - assert (EM : m1 = m).
      { apply upd_noop. left. now rewrite ISNANINF_fin, E, F1. }
      rewrite EM. split; [left; auto|apply frame_refl].
    - destruct (rep_update L Hf Hm m us zs d U R Hd) as [A B]. split; [right; auto|exact B].
  Qed.
  Definition Dst us zs xs d (h : F t) (m : mem t) : Prop :=
    (is_finite h = false /\ (f_isinf h = false -> m p = h)) \/ (is_finite h = true /\ cst us (xs ++ zs) d m).
  Lemma local_Dst us zs xs d h : local (Dst us zs xs d h).
  Proof.
    apply local_or; apply local_and; [apply local_imp, (local_p (fun x => x = h))|apply local_cst].
  Qed.
  Lemma all_finite_ex (xs : list (F t)) : all_finite xs = false -> exists x, In x xs /\ is_finite x = false.
  Proof.
    induction xs as [|x xs IH]; [discriminate|]. intros FX. rewrite all_finite_cons in FX. destruct (is_finite x) eqn:E.
    - destruct (IH FX) as (y & I & Fy). exists y. split; auto. now right.
    - exists x. split; auto. now left.
  Qed.
  Lemma stageD us zs xs d amax h nt v any0 es n (val : src -> F t) m :
    0 < nt -> legal_vec v -> 1 <= n ->
    Permutation (zelems es) (zseq 0 (nt * n)) -> Forall (fun e => 0 <= fst e < nt * pipe_width v) es ->
    xs = map (fun i => val (Elem i)) (zseq 0 (nt * n)) ->
    (forall h, is_finite (val (Pad h)) = true) -> (forall h, toZ (val (Pad h)) = 0) ->
    (existsb f_isnan xs = false -> is_max amax xs) ->
    hfacts zs xs amax h ->
    Cst us zs d amax h m -> 0 <= d -> d + nt * n <= endurance t -> (dmindex0 (m p) = true -> any0 = true) ->
    let m1 := comp_kernel (fold := fold) (p := p) (ip := ip) nt v any0 (map (fun e => (fst e, val (snd e))) es) m in
    Dst us zs xs (d + nt * n) h m1 /\ framem m m1.
  Proof.
    intros Hnt HV Hn K2 K3 EX F0 V0 SC HH H Hd HB HA m1. split; [|apply comp_kernel_frame; exact L].
    destruct H as [[F1 E]|[F1 R]].
    - left. split; auto. intros NI. assert (EN : h = B754_nan) by (destruct h; try discriminate; reflexivity).
      unfold m1. rewrite EN. apply (comp_kernel_nan (c := c) (ic := ic) L Hf) with (n := n); auto; [lia|]. left. congruence.
    - right. split; auto. destruct HH as [HH _]. destruct (HH F1) as [FZ NA]. unfold cst. rewrite all_finite_app, FZ, andb_true_r.
      destruct (all_finite xs) eqn:FX.
      + assert (NN : existsb f_isnan xs = false) by (apply all_finite_flags; auto).
        pose proof (max_index amax xs (SC NN) FX) as [MI1 MI2].
        destruct (comp_kernel_rep L Hf nt v any0 es m (amax :: us) zs d n val) as [K _]; auto; try lia.
        { discriminate. }
        { rewrite <- EX. exact FX. }
        { intros x Ix. rewrite <- EX in Ix. etransitivity; [|apply MI1; exact Ix]. apply lead_le. now left. }
        rewrite <- EX in K. apply (rep_drop (fold := fold) _ _ amax); auto.
        * destruct us; [|discriminate]. destruct xs; [|discriminate].
          symmetry in EX. apply map_eq_nil in EX. rewrite (zseq_cons 0) in EX by nia. discriminate.
        * rewrite !lead_app. lia.
      + assert (NN : existsb f_isnan xs = true).
        { destruct (existsb f_isnan xs) eqn:NN; auto. exfalso. specialize (SC eq_refl). destruct SC as (M1 & M2 & M3 & M4).
          destruct (all_finite_ex xs FX) as (x & I & Fx). specialize (M3 x I). unfold mag in M3 at 1. rewrite Fx in M3.
          destruct (is_finite amax) eqn:FA; [apply mag_fin in FA; lia|]. destruct amax; discriminate. }
        right. unfold m1. apply (comp_kernel_nan (c := c) (ic := ic) L Hf) with (n := n); auto; [lia|]. right.
        apply existsb_exists in NN. destruct NN as (x & I & Nx). rewrite EX in I. apply in_map_iff in I.
        destruct I as (j & <- & I). apply zseq_In in I. exists j. split; [lia|]. destruct (val (Elem j)); try discriminate. reflexivity.
  Qed.
  Lemma stageE us zs xs d amax h m : hfacts zs xs amax h -> Dst us zs xs d h m ->
    let U := if ISNANINF h then h else amax in
    let m1 := if f_isinf U then upd m p U else m in
    cst us (xs ++ zs) d m1 /\ framem m m1.
  Proof.
    intros [H1 H2] H U m1. split.
    2:{ unfold m1. destruct (f_isinf U); [|apply frame_refl]. intros a Ha. apply upd_other. intros ->. apply Ha, in_p. }
    destruct H as [[F1 E]|[F1 R]].
    - destruct (H2 F1) as [NF S]. unfold cst. rewrite NF. unfold m1, U. rewrite ISNANINF_fin, F1. cbn [negb].
      destruct (f_isinf h) eqn:HI; [rewrite upd_same|rewrite E by auto]; auto.
    - unfold m1, U. rewrite ISNANINF_fin, F1. cbn [negb]. destruct (H1 F1) as [_ ->]. exact R.
  Qed.
  (** The end of the loop. *)
  Lemma stageZ us zs d m : cst us zs d m -> 0 <= d <= endurance t ->
    (all_finite zs = true -> Z.of_nat (length zs) <= capacity t) ->
    let m1 := dmrenorm fold p ip c ic m in cout us zs m1 /\ framem m m1.
  Proof.
    intros H Hd HC m1. pose proof (cst_head us zs d m H Hd) as HD. unfold cst in H. unfold cout. destruct (all_finite zs) eqn:FZ.
    - destruct (rep_renorm L Hf m us zs d H Hd (fun _ => HC eq_refl)) as [A B]. auto.
    - assert (E : m1 = m).
      { unfold m1, dmrenorm. replace (ISNANINF (m p)) with true; [now rewrite orb_true_r|]. symmetry. rewrite ISNANINF_fin.
        destruct HD as [-> _]. reflexivity. }
      rewrite E. split; auto. apply frame_refl.
  Qed.
End COMP.
