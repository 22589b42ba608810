(** * The vector kernels: lanes and their consolidation *)
From Coq Require Import ZArith Bool List Lia Permutation.
From Flocq Require Import Core BinarySingleNaN.
From Verif Require Import Fp Mem Binned Spec FpProofs BitProofs CoreArith SpecProofs WordProofs MemProofs AccProofs SumProofs Gen GenProofs Blas.
Import ListNotations.
Open Scope Z_scope.

(** ** Addition commutes, so the kernel step is the scalar deposit *)
Lemma fadd_comm {t} (x y : F t) : fadd x y = fadd y x.
Proof.
  unfold fadd. destruct x as [sx|sx| |sx mx ex Hx], y as [sy|sy| |sy my ey Hy]; try reflexivity.
  - destruct sx, sy; reflexivity.
  - destruct sx, sy; reflexivity.
  - unfold Bplus. cbv zeta. rewrite (Z.min_comm ey ex). f_equal. unfold Fplus_naive. apply Z.add_comm.
Qed.
Lemma kdep_dep {t} (s : list (F t)) : forall x, kdep s x = dep_list s x.
Proof.
  induction s as [|s0 s IH]; intros x; [reflexivity|]. cbn [kdep dep_list]. destruct s as [|s1 s]; [reflexivity|].
  cbv zeta. rewrite (fadd_comm s0 (or1 x)), <- IH. reflexivity.
Qed.
Lemma kdep0_dep {t} (s : list (F t)) x :
  kdep0 (COMPRESSION t) (fmul (EXPANSION t) (mkf 1 (-1))) s x = dep0_list s x.
Proof.
  destruct s as [|s0 s]; [reflexivity|]. unfold kdep0, dep0_list. cbv zeta.
  rewrite (fadd_comm s0 (or1 _)), kdep_dep. reflexivity.
Qed.

(** ** Finite sums over index lists *)
Definition zsum {A} (f : A -> Z) (l : list A) : Z := fold_right Z.add 0 (map f l).
Lemma zsum_cons {A} (f : A -> Z) a l : zsum f (a :: l) = f a + zsum f l. Proof. reflexivity. Qed.
Lemma zsum_app {A} (f : A -> Z) l l' : zsum f (l ++ l') = zsum f l + zsum f l'.
Proof. induction l as [|a l IH]; cbn [app]; [reflexivity|]. rewrite !zsum_cons, IH. ring. Qed.
Lemma zsum_ext {A} (f g : A -> Z) l : (forall a, In a l -> f a = g a) -> zsum f l = zsum g l.
Proof.
  induction l as [|a l IH]; intros H; [reflexivity|]. rewrite !zsum_cons, IH, H; auto.
  - now left.
  - intros. apply H. now right.
Qed.
Lemma zsum_add {A} (f g : A -> Z) l : zsum (fun a => f a + g a) l = zsum f l + zsum g l.
Proof. induction l as [|a l IH]; [reflexivity|]. rewrite !zsum_cons, IH. ring. Qed.
Lemma zsum_0 {A} (l : list A) : zsum (fun _ => 0) l = 0.
Proof. induction l as [|a l IH]; [reflexivity|]. rewrite zsum_cons, IH. ring. Qed.
Lemma zsum_swap {A B} (f : A -> B -> Z) la lb :
  zsum (fun a => zsum (f a) lb) la = zsum (fun b => zsum (fun a => f a b) la) lb.
Proof.
  induction la as [|a la IH].
  - change (fun b => zsum (fun a => f a b) []) with (fun _ : B => 0). rewrite zsum_0. reflexivity.
  - rewrite zsum_cons, IH, <- zsum_add. apply zsum_ext. intros. now rewrite zsum_cons.
Qed.
Lemma zsum_map {A B} (f : B -> Z) (g : A -> B) l : zsum f (map g l) = zsum (fun a => f (g a)) l.
Proof. unfold zsum. now rewrite map_map. Qed.
Lemma zsum_flat {A B} (f : B -> Z) (g : A -> list B) l : zsum f (flat_map g l) = zsum (fun a => zsum f (g a)) l.
Proof. induction l as [|a l IH]; cbn [flat_map]; [reflexivity|]. rewrite zsum_app, zsum_cons, IH. reflexivity. Qed.
Lemma zsum_abs {A} (f : A -> Z) l : Z.abs (zsum f l) <= zsum (fun a => Z.abs (f a)) l.
Proof. induction l as [|a l IH]; [cbn; lia|]. rewrite !zsum_cons. lia. Qed.
Lemma zsum_nonneg {A} (f : A -> Z) l : (forall a, In a l -> 0 <= f a) -> 0 <= zsum f l.
Proof.
  induction l as [|a l IH]; intros H; [cbn; lia|]. rewrite zsum_cons.
  pose proof (H a (or_introl eq_refl)). assert (0 <= zsum f l) by (apply IH; intros; apply H; now right). lia.
Qed.
Lemma zsum_one {A} (f : A -> Z) l a : (forall b, In b l -> 0 <= f b) -> In a l -> f a <= zsum f l.
Proof.
  induction l as [|b l IH]; intros H; [intros []|]. rewrite zsum_cons.
  assert (0 <= zsum f l) by (apply zsum_nonneg; intros; apply H; now right).
  pose proof (H b (or_introl eq_refl)). intros [->|I]; [lia|].
  assert (f a <= zsum f l) by (apply IH; auto; intros; apply H; now right). lia.
Qed.
Lemma zsum_le {A} (f g : A -> Z) l : (forall a, In a l -> f a <= g a) -> zsum f l <= zsum g l.
Proof.
  induction l as [|a l IH]; intros H; [cbn; lia|]. rewrite !zsum_cons.
  pose proof (H a (or_introl eq_refl)). assert (zsum f l <= zsum g l) by (apply IH; intros; apply H; now right). lia.
Qed.
(** Row by row or column by column. *)
Lemma zsum_grid (f : Z -> Z) ts g : 0 < ts -> 0 <= g ->
  zsum (fun l => zsum (fun k => f (k * ts + l)) (zseq 0 g)) (zseq 0 ts) = zsum f (zseq 0 (g * ts)).
Proof.
  intros Ht Hg. rewrite zsum_swap.
  pose proof (groups_flat (fun x => x) ts Ht (Z.to_nat g) 0) as G. rewrite Z2Nat.id in G by lia.
  rewrite map_id in G. change (0 * ts) with 0 in G. rewrite <- G, zsum_flat.
  apply zsum_ext. intros k _. rewrite zsum_map. reflexivity.
Qed.

(** ** Consolidation *)
Lemma fold_priw {t A} j (S : A -> Z) (w : A -> F t) : 0 <= j -> forall l n0 r0,
  priw t j n0 r0 -> (forall a, In a l -> priw t j (S a) (w a)) ->
  Z.abs n0 + zsum (fun a => Z.abs (S a)) l < 2 ^ prec t ->
  priw t j (n0 + zsum S l) (fold_left (fun r a => fadd r (w a)) l r0).
Proof.
  intros Hj. induction l as [|a l IH]; intros n0 r0 H0 HS HB; cbn [fold_left].
  - cbn. rewrite Z.add_0_r. exact H0.
  - rewrite !zsum_cons in *. rewrite Z.add_assoc.
    assert (N : 0 <= zsum (fun a => Z.abs (S a)) l) by (apply zsum_nonneg; intros; lia).
    apply IH.
    + apply priw_add; auto; [apply HS; now left|lia].
    + intros. apply HS. now right.
    + lia.
Qed.
Lemma consolidate_priw {t} vector ts lanes j V (S : Z -> Z) (w : Z -> F t) pri :
  0 <= j -> 1 <= lanes -> (vector = true -> 1 <= ts /\ (ts | lanes)) ->
  priw t j (6 * quarter t + V) pri ->
  (forall l, 0 <= l < lanes -> priw t j (6 * quarter t + V + S l) (w l)) ->
  Z.abs V + zsum (fun l => Z.abs (S l)) (zseq 0 lanes) < 2 * quarter t ->
  priw t j (6 * quarter t + V + zsum S (zseq 0 lanes)) (consolidate vector ts lanes w pri).
Proof.
  intros Hj Hl Hv HP HW HB. pose proof (quarter8 t) as Q8. pose proof (quarter_pos t) as QP.
  assert (One : forall l, 0 <= l < lanes -> Z.abs (S l) <= zsum (fun l => Z.abs (S l)) (zseq 0 lanes)).
  { intros l H. apply (zsum_one (fun l => Z.abs (S l))); [intros; lia|]. apply zseq_In. lia. }
  assert (VB : Z.abs V < 2 * quarter t) by (specialize (One 0 ltac:(lia)); lia).
  set (n := 6 * quarter t + V) in *.
  assert (D : forall l, 0 <= l < lanes -> priw t j (S l) (fsub (w l) pri)).
  { intros l H. specialize (One l H). replace (S l) with (n + S l - n) at 1 by ring.
    apply priw_sub; auto. unfold n. lia. }
  unfold consolidate. destruct vector.
  - destruct (Hv eq_refl) as [Ht [g Hg]]. clear Hv.
    assert (Hgp : 0 < g) by nia. subst lanes. rewrite Z.div_mul by lia.
    set (r0 := fun l => if ts =? 1 then w l else fsub (w l) (if l =? 0 then fzero else pri)).
    set (n0 := fun l : Z => (if l =? 0 then n else 0) + S l).
    assert (R0 : forall l, 0 <= l < ts -> priw t j (n0 l) (r0 l)).
    { intros l H. unfold r0, n0. destruct (Z.eqb_spec ts 1).
      - assert (l = 0) by lia. subst l. cbn. apply HW. nia.
      - destruct (Z.eqb_spec l 0) as [->|].
        + specialize (HW 0 ltac:(nia)). specialize (One 0 ltac:(nia)).
          replace (n + S 0) with (n + S 0 - 0) by ring. apply priw_sub; auto.
          * split; reflexivity.
          * unfold n. lia.
        + rewrite Z.add_0_l. apply D. nia. }
    set (r := fun l => fold_left (fun r k => fadd r (fsub (w (k * ts + l)) pri)) (zseq 1 (g - 1)) (r0 l)).
    set (nr := fun l : Z => (if l =? 0 then n else 0) + zsum (fun k => S (k * ts + l)) (zseq 0 g)).
    set (T := fun l => zsum (fun k => Z.abs (S (k * ts + l))) (zseq 0 g)).
    assert (G : zsum T (zseq 0 ts) = zsum (fun l => Z.abs (S l)) (zseq 0 (g * ts))).
    { unfold T. apply (zsum_grid (fun l => Z.abs (S l))); lia. }
    assert (TP : forall l, 0 <= T l) by (intros; apply zsum_nonneg; intros; lia).
    assert (TL : forall l, 0 <= l < ts -> T l <= zsum T (zseq 0 ts)).
    { intros l H. apply zsum_one; auto. apply zseq_In. lia. }
    assert (R : forall l, 0 <= l < ts -> priw t j (nr l) (r l)).
    { intros l H. unfold r, nr. specialize (TL l H). rewrite G in TL. unfold T in TL.
      rewrite (zseq_cons 0 g) in TL |- * by lia. rewrite zsum_cons in TL |- *. change (0 * ts + l) with l in TL |- *. change (0 + 1) with 1 in TL |- *.
      rewrite Z.add_assoc. fold (n0 l).
      apply (fold_priw j (fun k => S (k * ts + l)) (fun k => fsub (w (k * ts + l)) pri)); auto.
      - intros k Hk. apply zseq_In in Hk. apply D. nia.
      - unfold n0. destruct (l =? 0); unfold n; lia. }
    replace (n + zsum S (zseq 0 (g * ts))) with (nr 0 + zsum nr (zseq 1 (ts - 1))).
    + apply (fold_priw j nr r); auto.
      * apply R. lia.
      * intros l Hl'. apply zseq_In in Hl'. apply R. lia.
      * rewrite <- G in HB. rewrite (zseq_cons 0 ts), zsum_cons in HB by lia. change (0 + 1) with 1 in HB.
        assert (A0 : Z.abs (nr 0) <= n + T 0).
        { unfold nr, T. rewrite Z.eqb_refl. pose proof (zsum_abs (fun k => S (k * ts + 0)) (zseq 0 g)) as Y. cbv beta in Y. unfold n. lia. }
        assert (A1 : zsum (fun a => Z.abs (nr a)) (zseq 1 (ts - 1)) <= zsum T (zseq 1 (ts - 1))).
        { apply zsum_le. intros l Hl'. apply zseq_In in Hl'. unfold nr, T. destruct (Z.eqb_spec l 0); [lia|].
          rewrite Z.add_0_l. apply zsum_abs. }
        unfold n in A0. lia.
    + rewrite <- (zsum_grid S ts g) by lia. rewrite (zseq_cons 0 ts), zsum_cons by lia. change (0 + 1) with 1.
      unfold nr at 1. rewrite Z.eqb_refl, <- Z.add_assoc. f_equal. f_equal.
      apply zsum_ext. intros l Hl'. apply zseq_In in Hl'. unfold nr. destruct (Z.eqb_spec l 0); [lia|]. reflexivity.
  - rewrite (zseq_cons 0 lanes), zsum_cons by lia. change (0 + 1) with 1. rewrite Z.add_assoc.
    rewrite (zseq_cons 0 lanes), zsum_cons in HB by lia. change (0 + 1) with 1 in HB.
    apply (fold_priw j S (fun l => fsub (w l) pri)); auto.
    + apply HW. lia.
    + intros l Hl'. apply zseq_In in Hl'. apply D. lia.
    + unfold n. assert (0 <= zsum (fun a => Z.abs (S a)) (zseq 1 (lanes - 1))) by (apply zsum_nonneg; intros; lia). lia.
Qed.

(** ** Running the lanes *)
Definition lane {t} (l : Z) (es : list (Z * F t)) : list (F t) := map snd (filter (fun e => l =? fst e) es).
Lemma run_lanes_lane {t} dep (es : list (Z * F t)) s l :
  run_lanes dep s es l = fold_left dep (lane l es) s.
Proof.
  unfold run_lanes, lane.
  enough (G : forall st : Z -> list (F t), fold_left (fun st e l => if l =? fst e then dep (st l) (snd e) else st l) es st l =
    fold_left dep (map snd (filter (fun e => l =? fst e) es)) (st l)) by apply G.
  induction es as [|[l' x] es IH]; intros st; [reflexivity|]. cbn [fold_left filter fst snd]. rewrite IH.
  destruct (l =? l'); reflexivity.
Qed.

(** Sums of magnitudes of the slices, a bound on every partial sum. *)
Definition mags {t} (xs : list (F t)) (j : Z) : Z := zsum (fun x => Z.abs (slice t (toZ x) j)) xs.
Lemma sums_zsum {t} (xs : list (F t)) j : sums xs j = zsum (fun x => slice t (toZ x) j) xs.
Proof. unfold sums, bin_sum, zsum. now rewrite map_map. Qed.
Lemma sums_mags {t} (xs : list (F t)) j : Z.abs (sums xs j) <= mags xs j.
Proof. rewrite sums_zsum. apply zsum_abs. Qed.
Lemma mags_nonneg {t} (xs : list (F t)) j : 0 <= mags xs j.
Proof. apply zsum_nonneg. intros; lia. Qed.
Lemma mags_bound {t} (xs : list (F t)) j : 0 <= j -> mags xs j <= Z.of_nat (length xs) * 2 ^ (width t - 1).
Proof.
  intros Hj. induction xs as [|x xs IH]; [cbn; lia|]. unfold mags in *. rewrite zsum_cons. cbn [length].
  pose proof (slice_bound t (toZ x) j Hj). pose proof (toZ_span t x). lia.
Qed.
(** Every element is in one lane. *)
Lemma lanes_all {t} (f : F t -> Z) (es : list (Z * F t)) lanes :
  Forall (fun e => 0 <= fst e < lanes) es ->
  zsum (fun l => zsum f (lane l es)) (zseq 0 lanes) = zsum f (map snd es).
Proof.
  induction 1 as [|[l x] es H F IH]; [apply zsum_0|]. cbn [fst map snd] in *. rewrite zsum_cons, <- IH.
  rewrite (zsum_ext _ (fun l' => (if l' =? l then f x else 0) + zsum f (lane l' es))).
  - rewrite zsum_add. f_equal. clear -H.
    replace lanes with (l + (1 + (lanes - l - 1))) by ring. rewrite zseq_app, zsum_app by lia.
    rewrite (zseq_cons (0 + l)), zsum_cons by lia.
    rewrite (zsum_ext _ (fun _ => 0)), zsum_0.
    + rewrite (zsum_ext _ (fun _ => 0)), zsum_0.
      * rewrite Z.add_0_l, Z.eqb_refl. ring.
      * intros a Ha. apply zseq_In in Ha. destruct (Z.eqb_spec a l); [lia|reflexivity].
    + intros a Ha. apply zseq_In in Ha. destruct (Z.eqb_spec a l); [lia|reflexivity].
  - intros l' _. unfold lane. cbn [filter fst]. destruct (Z.eqb_spec l' l); [|reflexivity].
    cbn [map snd]. now rewrite zsum_cons.
Qed.
Lemma lane_in {t} l (es : list (Z * F t)) x : In x (lane l es) -> In x (map snd es).
Proof.
  unfold lane. rewrite !in_map_iff. intros (e & E & I). apply filter_In in I. exists e. tauto.
Qed.
Lemma lane_mags {t} l (es : list (Z * F t)) j : mags (lane l es) j <= mags (map snd es) j.
Proof.
  unfold lane, mags. induction es as [|[l' x] es IH]; [cbn; lia|]. cbn [filter fst map snd].
  rewrite zsum_cons. destruct (l =? l'); cbn [map snd]; rewrite ?zsum_cons; lia.
Qed.

(** One deposit into the words of one lane, bins k.. *)
Definition dep_ok {t} (k : Z) (dep : list (F t) -> F t -> list (F t)) : Prop :=
  forall V s x, pws k V s -> is_finite x = true -> k <= bin_of t (toZ x) ->
    (forall i, 0 <= i < Z.of_nat (length s) ->
       - 2 * quarter t < V (k + i) + slice t (toZ x) (k + i) < 2 * quarter t) ->
    pws k (fun j => V j + slice t (toZ x) j) (dep s x).
Lemma dep_ok_pos {t} k : 0 < k -> @dep_ok t k kdep.
Proof.
  intros Hk V s x HP Fx Hb HB. rewrite kdep_dep. pose proof (toZ_span t x).
  apply dep_list_val; auto; try lia.
  rewrite remainder_below; auto. lia.
Qed.
Lemma dep_ok_0 {t} : @dep_ok t 0 (kdep0 (COMPRESSION t) (fmul (EXPANSION t) (mkf 1 (-1)))).
Proof. intros V s x HP Fx Hb HB. rewrite kdep0_dep. apply dep0_list_val; auto. Qed.
Lemma kdep_length {t} (s : list (F t)) : forall x, length (kdep s x) = length s.
Proof.
  induction s as [|s0 s IH]; intros x; [reflexivity|]. cbn [kdep]. destruct s; [reflexivity|]. cbv zeta.
  cbn [length] in *. now rewrite IH.
Qed.
Lemma kdep0_length {t} a b (s : list (F t)) x : length (kdep0 a b s x) = length s.
Proof. destruct s; [reflexivity|]. cbn [kdep0 length]. cbv zeta. cbn [length]. now rewrite kdep_length. Qed.

Lemma pws_ext {t} V V' : forall (s : list (F t)) k, (forall j, V j = V' j) -> pws k V s -> pws k V' s.
Proof. induction s as [|x s IH]; intros k H; [auto|]. cbn. rewrite H. intros [A B]. split; auto. Qed.
Lemma pws_nth {t} V : forall (s : list (F t)) k i, pws k V s -> 0 <= i < Z.of_nat (length s) ->
  priw t (k + i) (6 * quarter t + V (k + i)) (nth (Z.to_nat i) s fnan).
Proof.
  induction s as [|x s IH]; intros k i H Hi; [cbn in Hi; lia|]. destruct H as [H1 H2].
  destruct (Z.eq_dec i 0) as [->|]; [rewrite Z.add_0_r; exact H1|].
  replace (Z.to_nat i) with (S (Z.to_nat (i - 1))) by lia. cbn [nth].
  replace (k + i) with (k + 1 + (i - 1)) by ring. apply IH; auto. cbn [length] in Hi. lia.
Qed.

Section LANE.
  Context {t : ty} (k : Z) (dep : list (F t) -> F t -> list (F t)).
  Hypothesis Hk : 0 <= k.
  Hypothesis OK : dep_ok k dep.
  Hypothesis LEN : forall s x, length (dep s x) = length s.
  Lemma lane_length xs : forall s, length (fold_left dep xs s) = length s.
  Proof. induction xs as [|x xs IH]; intros s; [reflexivity|]. cbn. now rewrite IH, LEN. Qed.
  Lemma lane_val xs : forall V s, pws k V s -> Forall (fun x => is_finite x = true /\ k <= bin_of t (toZ x)) xs ->
    (forall i, 0 <= i < Z.of_nat (length s) -> Z.abs (V (k + i)) + mags xs (k + i) < 2 * quarter t) ->
    pws k (fun j => V j + sums xs j) (fold_left dep xs s).
  Proof.
    induction xs as [|x xs IH]; intros V s HP HF HB; cbn [fold_left].
    - eapply pws_ext; [|exact HP]. intros j. cbn. rewrite Z.add_0_r. reflexivity.
    - inversion HF as [|? ? [Fx Bx] HF']. subst.
      apply (pws_ext (fun j => (V j + slice t (toZ x) j) + sums xs j)); [intros j; cbv beta; change (sums (x :: xs) j) with (slice t (toZ x) j + sums xs j); ring|].
      apply IH; auto.
      + apply OK; auto. intros i Hi. specialize (HB i Hi). unfold mags in HB. rewrite zsum_cons in HB.
        pose proof (mags_nonneg xs (k + i)) as M. unfold mags in M. lia.
      + intros i Hi. rewrite LEN in Hi. specialize (HB i Hi). unfold mags in *. rewrite zsum_cons in HB. lia.
  Qed.
End LANE.

(** ** Writing the lanes back *)
Lemma store_lanes_val {t} vector ts lanes fold p ip st (m : mem t) :
  (forall i j, 0 <= i < fold -> 0 <= j < fold -> p + i * ip = p + j * ip -> i = j) ->
  let m' := store_lanes vector ts lanes fold p ip st m in
  (forall j, 0 <= j < fold -> m' (p + j * ip) =
     consolidate vector ts lanes (fun l => nth (Z.to_nat j) (st l) fnan) (m (p + j * ip))) /\
  (forall a, (forall j, 0 <= j < fold -> a <> p + j * ip) -> m' a = m a).
Proof.
  intros Inj m'. unfold m', store_lanes. destruct (Z_lt_dec fold 0).
  { rewrite for_up_empty by lia. split; [intros; lia|auto]. }
  apply (for_up_inv (fun n m' =>
    (forall j, 0 <= j < n -> m' (p + j * ip) =
       consolidate vector ts lanes (fun l => nth (Z.to_nat j) (st l) fnan) (m (p + j * ip))) /\
    (forall a, (forall j, 0 <= j < n -> a <> p + j * ip) -> m' a = m a))).
  - lia.
  - split; [intros; lia|auto].
  - intros k m1 Hn [H1 H2]. split.
    + intros j Hj. destruct (Z.eq_dec j k) as [->|].
      * rewrite upd_same, H2; [reflexivity|]. intros i Hi E. apply Inj in E; lia.
      * rewrite upd_other by (intros E; apply Inj in E; lia). apply H1. lia.
    + intros a Ha. rewrite upd_other by (apply Ha; lia). apply H2. intros j Hj. apply Ha. lia.
Qed.

(** ** The kernel on a represented accumulator *)
Lemma read_words {t} (m : mem t) p ip n : read m p ip n = words m p ip 0 (Z.to_nat n).
Proof.
  unfold read, zseq. rewrite map_map.
  enough (G : forall k i, map (fun x => m (p + (0 + Z.of_nat x) * ip)) (seq i k) = words m p ip (Z.of_nat i) k)
    by exact (G (Z.to_nat n) 0%nat).
  induction k as [|k IH]; intros i; [reflexivity|]. cbn [seq map words]. rewrite IH.
  f_equal. f_equal. lia.
Qed.
Lemma read_length {t} (m : mem t) p ip n : 0 <= n -> Z.of_nat (length (read m p ip n)) = n.
Proof. intros. rewrite read_words, words_length. lia. Qed.

Definition lane_shape (vector : bool) (ts lanes : Z) : Prop :=
  1 <= lanes /\ (vector = true -> 1 <= ts /\ (ts | lanes)).
Lemma legal_lanes v : legal_vec v -> lane_shape (simd v) (type_size v) (pipe_width v).
Proof.
  intros (Ht & (b & Hb & Ep) & Hp & _ & Hs). split; [lia|]. intros E. specialize (Hs E). split; [exact Hs|].
  destruct Ht as [Z0|(a & Ha & Et)]; [lia|]. rewrite Et, Ep in *.
  assert (a <= b) by (apply (Z.pow_le_mono_r_iff 2); lia).
  exists (2 ^ (b - a)). rewrite <- Z.pow_add_r by lia. f_equal. lia.
Qed.

Section KERNEL.
  Context {t : ty} {fold p ip c ic : Z} (L : layout fold p ip c ic).
  Hypothesis Hf : 1 <= fold.
  Notation accm m k V C := (acc t fold k V C (P_of m p ip) (P_of m c ic)).

  (** Deposits of the events, whatever their lanes. *)
  Lemma acc_lanes (vector : bool) (ts lanes : Z) dep (m : mem t) k V C (es : list (Z * F t)) :
    lane_shape vector ts lanes -> dep_ok k dep -> (forall s x, length (dep s x) = length s) ->
    accm m k V C ->
    Forall (fun e => 0 <= fst e < lanes) es ->
    Forall (fun x => is_finite x = true /\ k <= bin_of t (toZ x)) (map snd es) ->
    (forall i, 0 <= i < fold -> Z.abs (V (k + i)) + mags (map snd es) (k + i) < 2 * quarter t) ->
    let m' := store_lanes vector ts lanes fold p ip (run_lanes dep (read m p ip fold) es) m in
    accm m' k (fun j => V j + sums (map snd es) j) C /\
    (forall a, (forall j, 0 <= j < fold -> a <> p + j * ip) -> m' a = m a).
  Proof.
    intros [HL HV] OK LEN [Hk A] HE HX HB m'.
    destruct (store_lanes_val vector ts lanes fold p ip (run_lanes dep (read m p ip fold) es) m (lay_p _ _ _ _ _ L)) as [S1 S2].
    fold m' in S1, S2. split; [|exact S2]. split; [exact Hk|]. intros i Hi.
    destruct (A i Hi) as [A1 A2]. unfold P_of in *. split.
    2:{ rewrite S2; [exact A2|]. intros j Hj. lay_neq L. }
    rewrite S1 by exact Hi.
    assert (PW : pws k V (read m p ip fold)).
    { rewrite read_words. replace k with (k + 0) by ring. apply pws_words. intros j Hj. apply A. lia. }
    pose proof (HB i Hi) as HBi.
    replace (sums (map snd es) (k + i)) with (zsum (fun l => sums (lane l es) (k + i)) (zseq 0 lanes)).
    2:{ rewrite (zsum_ext _ (fun l => zsum (fun x => slice t (toZ x) (k + i)) (lane l es))) by (intros; apply sums_zsum).
        rewrite lanes_all by exact HE. symmetry. apply sums_zsum. }
    rewrite Z.add_assoc.
    apply consolidate_priw; auto; [lia| |].
    - intros l Hl. rewrite run_lanes_lane.
      pose proof (lane_val k dep OK LEN (lane l es) V (read m p ip fold) PW) as LV.
      assert (LL : Z.of_nat (length (read m p ip fold)) = fold) by (apply read_length; lia).
      rewrite LL in LV. rewrite <- Z.add_assoc.
      apply (pws_nth (fun j => V j + sums (lane l es) j)).
      + apply LV.
        * rewrite Forall_forall in *. intros x Hx. apply HX. eapply lane_in; eauto.
        * intros i' Hi'. pose proof (lane_mags l es (k + i')). specialize (HB i' Hi'). lia.
      + rewrite (lane_length dep LEN). lia.
    - assert (E : zsum (fun l => Z.abs (sums (lane l es) (k + i))) (zseq 0 lanes) <= mags (map snd es) (k + i)).
      { unfold mags. rewrite <- lanes_all with (lanes := lanes) by exact HE. apply zsum_le. intros l _. apply sums_mags. }
      lia.
  Qed.
End KERNEL.
