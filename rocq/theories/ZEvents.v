(** * The generated complex kernels: order of the summands, lanes, scan *)
From Coq Require Import ZArith Bool List Lia Permutation.
From Flocq Require Import Core BinarySingleNaN.
From Verif Require Import Fp Mem Binned Spec FpProofs BitProofs CoreArith SpecProofs WordProofs MemProofs AccProofs SumProofs Gen GenProofs Blas LaneProofs ReduceProofs DriverProofs BlasZ.
Import ListNotations.
Open Scope Z_scope.

(** ** Events *)
Definition expand (nt : Z) (l : list Z) : list Z := flat_map (fun e => map (fun h => e * nt + h) (zseq 0 nt)) l.
Lemma expand_seq nt lo n : 0 < nt -> 0 <= n -> expand nt (zseq lo n) = zseq (lo * nt) (n * nt).
Proof.
  intros Hn H. unfold expand. pose proof (groups_flat (fun x => x) nt Hn (Z.to_nat n) lo) as G.
  rewrite Z2Nat.id, map_id in G by lia. exact G.
Qed.
Lemma flat_swap {A B C} (g : A -> B -> C) E : forall H,
  Permutation (flat_map (fun h => map (g h) E) H) (flat_map (fun e => map (fun h => g h e) H) E).
Proof.
  induction H as [|h H IH]; cbn [flat_map].
  - induction E; cbn; auto.
  - rewrite IH. clear IH. induction E as [|e E IH]; [constructor|]. cbn [flat_map map app].
    constructor. rewrite <- IH. rewrite !app_assoc. apply Permutation_app_tail. apply Permutation_app_comm.
Qed.
Definition opt_list (o : src) : list Z := match o with Elem i => [i] | Pad _ => [] end.
Definition zelems (l : list (Z * src)) : list Z := flat_map (fun e => opt_list (snd e)) l.
Lemma zelems_app l l' : zelems (l ++ l') = zelems l ++ zelems l'.
Proof. apply flat_map_app. Qed.
Lemma zelems_snd l : zelems l = flat_map opt_list (map snd l).
Proof. unfold zelems. induction l as [|[a [b|b]] l IH]; cbn; auto; now f_equal. Qed.
Lemma flat_map_map' {A B C} (f : B -> list C) (g : A -> B) l : flat_map f (map g l) = flat_map (fun a => f (g a)) l.
Proof. induction l as [|a l IH]; cbn; auto. now rewrite IH. Qed.
Lemma flat_map_ext_in' {A B} (f g : A -> list B) l : (forall a, In a l -> f a = g a) -> flat_map f l = flat_map g l.
Proof.
  induction l as [|a l IH]; intros H; cbn; auto. rewrite IH, H; auto; [now left|]. intros; apply H; now right.
Qed.

Lemma summands_perm nt c : 0 < nt -> 0 < size c -> 0 <= cnt c <= size c ->
  Permutation (flat_map opt_list (map (summand nt c) (zseq 0 (nt * size c)))) (expand nt (covers c)).
Proof.
  intros Hn Hs Hc. pose proof (groups_flat (summand nt c) (size c) Hs (Z.to_nat nt) 0) as G.
  rewrite Z2Nat.id, Z.mul_0_l in G by lia. rewrite <- G. clear G.
  assert (E : flat_map opt_list (flat_map (fun k => map (fun l => summand nt c (k * size c + l)) (zseq 0 (size c))) (zseq 0 nt)) =
    flat_map (fun h => map (fun e => e * nt + h) (covers c)) (zseq 0 nt)).
  { rewrite (flat_map_concat_map _ (zseq 0 nt)).
    assert (FC : forall l : list (list (src)), flat_map opt_list (concat l) = concat (map (flat_map opt_list) l)).
    { induction l as [|a l IH]; cbn; auto. rewrite flat_map_app. now f_equal. }
    rewrite FC, map_map, <- flat_map_concat_map. apply flat_map_ext_in'. intros h Hh. apply zseq_In in Hh.
    rewrite flat_map_map'. unfold covers. rewrite <- (take_valid (start c) (size c) (cnt c)) by lia.
    rewrite (flat_map_concat_map (fun l => if l <? cnt c then _ else _)), concat_map, map_map, <- flat_map_concat_map.
    apply flat_map_ext_in'. intros l Hl. apply zseq_In in Hl. unfold summand.
    rewrite (Z.add_comm (h * size c)), Z.mod_add, Z.div_add, Z.mod_small, Z.div_small by lia.
    destruct (l <? cnt c); cbn; auto. f_equal. ring. }
  rewrite E.
  apply (flat_swap (fun h e => e * nt + h)).
Qed.

Lemma zdeposit_events_ok nt ts pipe mu c : 0 < nt -> (exists b, 0 <= b /\ pipe = 2 ^ b) -> Z.max ts 1 <= pipe -> (pipe | mu) ->
  0 < mu -> shape ts mu c ->
  Permutation (zelems (zdeposit_events nt pipe c)) (expand nt (covers c)) /\
  Forall (fun e => 0 <= fst e < nt * pipe) (zdeposit_events nt pipe c).
Proof.
  intros Hnt Hb Hp Hd Hmu S. destruct (divides_groups ts pipe mu c Hb Hp Hd S Hmu) as [G1 G2].
  unfold zdeposit_events. set (reg := nt * Z.min (size c) pipe) in *. set (g := Z.max (size c / pipe) 1) in *.
  assert (R0 : 0 < reg) by (unfold reg; nia). split.
  - rewrite zelems_snd. rewrite <- (summands_perm nt c) by (destruct S; lia).
    replace (map snd _) with (map (summand nt c) (zseq 0 (nt * size c))); [reflexivity|].
    pose proof (groups_flat (summand nt c) reg R0 (Z.to_nat g) 0) as GF.
    rewrite Z2Nat.id, Z.mul_0_l in GF by (unfold g; lia). replace (nt * size c) with (g * reg) by (unfold reg; rewrite Z.mul_shuffle3, G2; reflexivity).
    rewrite <- GF. rewrite !flat_map_concat_map, concat_map, map_map. f_equal. apply map_ext. intros k.
    rewrite map_map. reflexivity.
  - apply Forall_forall. intros e He. apply in_flat_map in He. destruct He as (k & _ & He).
    apply in_map_iff in He. destruct He as (l & <- & Hl). apply zseq_In in Hl. cbn [fst]. unfold reg in Hl. nia.
Qed.
Lemma zamax_events_ok nt lanes c : 0 < nt -> 0 < lanes -> 0 < cnt c <= size c ->
  Permutation (zelems (zamax_events nt lanes c)) (expand nt (covers c)) /\
  Forall (fun e => 0 <= fst e < lanes) (zamax_events nt lanes c).
Proof.
  intros Hn Hl Hc. unfold zamax_events. split.
  - rewrite zelems_snd, map_map. cbn [snd]. apply summands_perm; lia.
  - apply Forall_forall. intros e He. apply in_map_iff in He. destruct He as (l & <- & _). cbn [fst].
    apply Z.mod_pos_bound. lia.
Qed.
Lemma expand_app nt l l' : expand nt (l ++ l') = expand nt l ++ expand nt l'.
Proof. apply flat_map_app. Qed.

Theorem zkernel_events_ok nt v n : 0 < nt -> legal_vec v -> 0 <= n ->
  let '(es, p) := zkernel_events nt v n in
  p = n /\ Permutation (zelems es) (zseq 0 (nt * n)) /\ Forall (fun e => 0 <= fst e < nt * pipe_width v) es.
Proof.
  intros Hnt (Ht & Hb & Hp & Hu & _) Hn. unfold zkernel_events.
  pose proof Hb as (b & B0 & B1). pose proof (Z.pow_pos_nonneg 2 b ltac:(lia) B0) as PP. rewrite <- B1 in PP.
  assert (DV : (Z.max (type_size v) 1 | pipe_width v)).
  { destruct Ht as [E|(a & Ha & E)]; rewrite E in *.
    - exists (pipe_width v). lia.
    - pose proof (Z.pow_pos_nonneg 2 a ltac:(lia) Ha). rewrite Z.max_l in * by lia. rewrite B1 in *.
      assert (a <= b) by (apply (Z.pow_le_mono_r_iff 2); lia).
      exists (2 ^ (b - a)). rewrite <- Z.pow_add_r by lia. f_equal. lia. }
  assert (M0 : 0 < pipe_width v * unroll_width v) by nia.
  pose proof (unrolled_cover (type_size v) (pipe_width v * unroll_width v) n Ht M0) as U.
  destruct (run_unrolled _ _ _) as [cs p]. destruct U as (U1 & U2 & U3); auto.
  { apply Z.divide_mul_l. exact DV. }
  split; auto. rewrite Z.mul_comm. replace 0 with (0 * nt) at 1 by ring. rewrite <- expand_seq by lia. rewrite <- U2. clear U2.
  induction U3 as [|c cs S U3 IH]; [split; [constructor|constructor]|].
  destruct (zdeposit_events_ok nt (type_size v) (pipe_width v) (pipe_width v * unroll_width v) c Hnt Hb Hp) as [D1 D2]; auto.
  { apply Z.divide_factor_l. }
  destruct IH as [I1 I2]. cbn [flat_map]. split.
  - rewrite zelems_app, expand_app. now apply Permutation_app.
  - apply Forall_app. auto.
Qed.
Theorem zscan_events_ok nt v n : 0 < nt -> legal_avec v -> 0 <= n ->
  Permutation (zelems (zscan_events nt v n)) (zseq 0 (nt * n)) /\
  Forall (fun e => 0 <= fst e < Z.max (a_type_size v) 1) (zscan_events nt v n).
Proof.
  intros Hnt (Ht & Hu & Hd) Hn. unfold zscan_events.
  pose proof (unrolled_cover (a_type_size v) (a_unroll v) n Ht Hu Hd Hn) as U.
  destruct (run_unrolled _ _ _) as [cs p]. destruct U as (U1 & U2 & U3).
  rewrite Z.mul_comm. replace 0 with (0 * nt) at 1 by ring. rewrite <- expand_seq by lia.
  rewrite <- U2. clear U2. induction U3 as [|c cs S U3 IH]; [split; [constructor|constructor]|].
  destruct (zamax_events_ok nt (Z.max (a_type_size v) 1) c Hnt) as [D1 D2]; [lia|destruct S; lia|].
  destruct IH as [I1 I2]. cbn [flat_map]. split.
  - rewrite zelems_app, expand_app. now apply Permutation_app.
  - apply Forall_app. auto.
Qed.

(** ** The scan *)
Lemma zscan_max {t} nt v n (val : src -> F t) : 0 < nt -> legal_avec v -> 0 <= n ->
  (forall h, fabs (val (Pad h)) = fzero) -> (forall i, 0 <= i < nt * n -> f_isnan (val (Elem i)) = false) ->
  is_max (zscan nt v n val) (map (fun i => val (Elem i)) (zseq 0 (nt * n))).
Proof.
  intros Hnt HL Hn V0 VN. destruct (zscan_events_ok nt v n Hnt HL Hn) as [E1 E2]. unfold zscan.
  set (es := zscan_events nt v n) in *. clearbody es. set (lanes := Z.max (a_type_size v) 1) in *.
  assert (L1 : 1 <= lanes) by (unfold lanes; lia). clearbody lanes.
  assert (NV : forall h, f_isnan (val (Pad h)) = false) by (intros h; rewrite <- nan_fabs, V0; reflexivity).
  set (xs := fun l => map (fun e : Z * src => val (snd e)) (filter (fun e => l =? fst e) es)).
  assert (II : forall l i, In (l, Elem i) es -> In i (zseq 0 (nt * n))).
  { intros l i I. rewrite <- E1. unfold zelems. apply in_flat_map. exists (l, Elem i). split; auto. now left. }
  assert (NN : forall e, In e es -> f_isnan (val (snd e)) = false).
  { intros [l [i|h]] I; cbn; [|apply NV]. apply VN. apply II in I. apply zseq_In in I. lia. }
  set (st := fold_left _ es _).
  assert (ST : forall l, is_max (st l) (xs l)).
  { intros l. unfold st, xs. clear E1 E2 st xs II.
    enough (G : forall st0 pre, is_max (st0 l) pre -> is_max (fold_left (fun st e l =>
        if l =? fst e then fmax (st l) (fabs (val (snd e))) else st l) es st0 l)
        (pre ++ map (fun e : Z * src => val (snd e)) (filter (fun e => l =? fst e) es))).
    { apply (G (fun _ => fzero) []). apply is_max_nil. }
    induction es as [|[l' e] es IH]; intros st0 pre H; cbn [fold_left filter].
    - cbn. now rewrite app_nil_r.
    - cbn [fst snd]. destruct (Z.eqb_spec l l') as [->|Nl].
      + cbn [map snd].
        replace (pre ++ val e :: _) with ((pre ++ [val e]) ++ map (fun e : Z * src => val (snd e)) (filter (fun e => l' =? fst e) es))
          by (rewrite <- app_assoc; reflexivity).
        apply IH; [intros; apply NN; now right|].
        rewrite Z.eqb_refl. apply is_max_step; auto. apply (NN (l', e)). now left.
      + apply IH; [intros; apply NN; now right|]. destruct (Z.eqb_spec l l'); [congruence|]. exact H. }
  assert (M : is_max (fold_left (fun b l => fmax b (st l)) (zseq 1 (lanes - 1)) (st 0)) (flat_map xs (zseq 0 lanes))).
  { rewrite (zseq_cons 0) by lia. change (0 + 1) with 1. cbn [flat_map].
    generalize (zseq 1 (lanes - 1)). intros ls. generalize (ST 0). generalize (st 0) (xs 0).
    induction ls as [|l ls IH]; intros M pre H; cbn [fold_left flat_map]; [now rewrite app_nil_r|].
    rewrite app_assoc. apply IH. apply is_max_merge; auto. }
  set (r := fold_left _ _ _) in *. clearbody r. destruct M as (M1 & M2 & M3 & M4). repeat split; auto.
  - intros x Hx. apply in_map_iff in Hx. destruct Hx as (i & <- & Hi). apply M3.
    rewrite <- E1 in Hi. unfold zelems in Hi. apply in_flat_map in Hi. destruct Hi as ([l o] & I & J). cbn in J.
    destruct o as [k|h]; [|destruct J]. destruct J as [->|[]].
    rewrite Forall_forall in E2. pose proof (E2 _ I) as HL'. cbn in HL'.
    apply in_flat_map. exists l. split; [apply zseq_In; lia|]. unfold xs. apply in_map_iff.
    exists (l, Elem i). split; auto. apply filter_In. split; auto. cbn. apply Z.eqb_refl.
  - destruct M4 as [|(x & I & E)]; [auto|]. apply in_flat_map in I. destruct I as (l & _ & I).
    unfold xs in I. apply in_map_iff in I. destruct I as ([l' [i|h]] & <- & I); cbn in E.
    + right. exists (val (Elem i)). split; auto. apply in_map_iff. exists i. split; auto.
      apply filter_In in I. destruct I as [I _]. eapply II; eauto.
    + left. now rewrite E, V0.
Qed.
Lemma zscan_pick {t} nt v n (val : src -> F t) : 0 < nt -> legal_avec v -> 0 <= n -> (forall h, fabs (val (Pad h)) = fzero) ->
  zscan nt v n val = fzero \/ exists i, 0 <= i < nt * n /\ zscan nt v n val = fabs (val (Elem i)).
Proof.
  intros Hnt HL Hn V0. destruct (zscan_events_ok nt v n Hnt HL Hn) as [E1 E2]. unfold zscan.
  set (Q := fun r => r = fzero \/ exists i, 0 <= i < nt * n /\ r = fabs (val (Elem i))).
  set (es := zscan_events nt v n) in *. clearbody es.
  assert (EQ : forall e, In e es -> Q (fabs (val (snd e)))).
  { intros [l [i|h]] I; cbn; [|left; now rewrite V0]. right. exists i. split; auto.
    assert (I' : In i (zelems es)) by (unfold zelems; apply in_flat_map; exists (l, Elem i); split; auto; now left).
    rewrite E1 in I'. apply zseq_In in I'. lia. }
  assert (ST : forall l, Q (fold_left (fun st e l =>
      if l =? fst e then fmax (st l) (fabs (val (snd e))) else st l) es (fun _ => fzero) l)).
  { clear E1 E2. assert (Q0 : forall l : Z, Q ((fun _ => fzero) l)) by (intros; now left). revert Q0. generalize (fun _ : Z => @fzero t).
    induction es as [|e es IH]; intros st Q0 l; [apply Q0|]. cbn [fold_left]. apply IH.
    - intros; apply EQ; now right.
    - intros l'. cbv beta. destruct (l' =? fst e); [|apply Q0]. apply fmax_pick; [apply Q0|]. apply EQ. now left. }
  set (st := fold_left _ es _) in *. clearbody st.
  change (Q (fold_left (fun b l => fmax b (st l)) (zseq 1 (Z.max (a_type_size v) 1 - 1)) (st 0))).
  generalize (zseq 1 (Z.max (a_type_size v) 1 - 1)). intros ls. generalize (ST 0). generalize (st 0).
  induction ls as [|l ls IH]; intros b Hb; [exact Hb|]. cbn [fold_left]. apply IH. now apply fmax_pick.
Qed.
