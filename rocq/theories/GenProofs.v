(** * Proofs about the code generator *)
From Coq Require Import ZArith Bool List Lia.
From Verif Require Import Gen.
Import ListNotations.
Open Scope Z_scope.

(** ** zseq *)
Lemma zseq_nil lo n : n <= 0 -> zseq lo n = [].
Proof. intros H. unfold zseq. now replace (Z.to_nat n) with O by lia. Qed.
Lemma seq_shift_map k n : seq k n = map (fun i => (k + i)%nat) (seq 0 n).
Proof.
  revert k. induction n as [|n IH]; intros k; [reflexivity|]. cbn [seq map]. f_equal; [lia|].
  rewrite IH, (IH 1%nat), map_map. apply map_ext. intros. lia.
Qed.
Lemma zseq_app lo n m : 0 <= n -> 0 <= m -> zseq lo (n + m) = zseq lo n ++ zseq (lo + n) m.
Proof.
  intros Hn Hm. unfold zseq. rewrite Z2Nat.inj_add, seq_app, map_app by lia. f_equal.
  rewrite seq_shift_map, map_map. apply map_ext. intros. lia.
Qed.
Lemma zseq_cons lo n : 0 < n -> zseq lo n = lo :: zseq (lo + 1) (n - 1).
Proof.
  intros H. replace n with (1 + (n - 1)) at 1 by lia. rewrite zseq_app by lia. replace (zseq lo 1) with [lo]; [reflexivity|].
  unfold zseq. change (Z.to_nat 1) with 1%nat. cbn [seq map]. f_equal. lia.
Qed.
Lemma zseq_length lo n : length (zseq lo n) = Z.to_nat n.
Proof. unfold zseq. rewrite map_length, seq_length. reflexivity. Qed.
Lemma zseq_In lo n x : In x (zseq lo n) <-> lo <= x < lo + n.
Proof.
  unfold zseq. rewrite in_map_iff. split.
  - intros (k & <- & Hk). apply in_seq in Hk. lia.
  - intros H. exists (Z.to_nat (x - lo)). split; [lia|]. apply in_seq. lia.
Qed.
Lemma zseq_shift lo n d : zseq (lo + d) n = map (fun x => x + d) (zseq lo n).
Proof. unfold zseq. rewrite map_map. apply map_ext. intros. lia. Qed.

Lemma zseq_from0 lo n : zseq lo n = map (fun x => x + lo) (zseq 0 n).
Proof. rewrite <- zseq_shift. f_equal. Qed.

(** ** iterate_unrolled *)
Definition covers (c : call) : list Z := zseq (start c) (cnt c).
Definition vector_width (ts : Z) : Prop := ts = 0 \/ exists a, 0 <= a /\ ts = 2 ^ a.
(** Shape of a call: the main size, a smaller power of two, or a partial vector. *)
Definition shape (ts mu : Z) (c : call) : Prop :=
  0 < cnt c <= size c /\
  ((cnt c = size c /\ (size c = mu \/ exists k, 0 <= k /\ size c = 2 ^ k /\ size c <= mu /\ Z.max ts 1 <= size c))
   \/ (size c = ts /\ cnt c < ts)).

Lemma next_pow k : 0 <= k -> next_unroll (2 ^ k) = 2 ^ k / 2.
Proof. intros H. unfold next_unroll. rewrite Z.log2_pow2, Z.eqb_refl by lia. reflexivity. Qed.
Lemma half_pow k : 0 < k -> 2 ^ k / 2 = 2 ^ (k - 1).
Proof. intros H. replace k with (k - 1 + 1) at 1 by lia. rewrite Z.pow_add_r, Z.pow_1_r, Z.div_mul by lia. reflexivity. Qed.

Lemma rest_cover ts mu n : vector_width ts -> forall k : nat, forall fuel i,
  (k + 1 <= fuel)%nat -> 2 ^ Z.of_nat k <= mu -> (Z.max ts 1 <= mu) ->
  0 <= n - i < 2 * 2 ^ Z.of_nat k -> ts <= 2 * 2 ^ Z.of_nat k ->
  let '(cs, p) := run_stmts (gen_rest fuel ts (2 ^ Z.of_nat k)) ts n i i in
  p = n /\ flat_map covers cs = zseq i (n - i) /\ Forall (shape ts mu) cs.
Proof.
  intros Hts. induction k as [|k IH]; intros fuel i Hf Hmu Hmu' Hn Ht; (destruct fuel as [|fuel]; [lia|]).
  - cbn [gen_rest Z.of_nat]. change (2 ^ 0) with 1 in *.
    destruct (Z.ltb_spec 1 1); [lia|]. destruct (Z.ltb_spec 1 ts).
    + cbn [run_stmts]. destruct (Z.ltb_spec i n).
      * cbn [flat_map]. unfold covers at 1. cbn [start cnt]. rewrite app_nil_r.
        split; [lia|]. split; [reflexivity|]. constructor; [|constructor].
        unfold shape. cbn [cnt size]. split; [lia|]. right. lia.
      * rewrite zseq_nil by lia. split; [lia|]. split; [reflexivity|constructor].
    + cbn [run_stmts]. replace (gen_rest fuel ts (next_unroll 1)) with (@nil stmt).
      2:{ destruct fuel; reflexivity. }
      cbn [run_stmts]. destruct (Z.leb_spec (i + 1) n).
      * assert (n = i + 1) by lia. subst n. replace (i + 1 - i) with 1 by ring.
        cbn [flat_map]. unfold covers at 1. cbn [start cnt]. rewrite app_nil_r.
        split; [lia|]. split; [reflexivity|]. constructor; [|constructor].
        unfold shape. cbn [cnt size]. split; [lia|]. left. split; auto. right. exists 0. lia.
      * rewrite zseq_nil by lia. split; [lia|]. split; [reflexivity|constructor].
  - cbn [gen_rest]. set (u := 2 ^ Z.of_nat (S k)) in *.
    assert (U : u = 2 * 2 ^ Z.of_nat k).
    { unfold u. rewrite Nat2Z.inj_succ, Z.pow_succ_r by lia. reflexivity. }
    pose proof (Z.pow_pos_nonneg 2 (Z.of_nat k) ltac:(lia) ltac:(lia)) as P.
    destruct (Z.ltb_spec u 1); [lia|]. destruct (Z.ltb_spec u ts) as [L|L].
    + assert (TU : ts = 2 * u).
      { destruct Hts as [->|(a & Ha & ->)]; [lia|].
        assert (E : a = Z.of_nat (S k) + 1).
        { unfold u in *. assert (Z.of_nat (S k) < a) by (apply (Z.pow_lt_mono_r_iff 2); lia).
          assert (a <= Z.of_nat (S k) + 1).
          { apply (Z.pow_le_mono_r_iff 2); try lia. rewrite Z.pow_add_r, Z.pow_1_r by lia. lia. }
          lia. }
        rewrite E, Z.pow_add_r, Z.pow_1_r by lia. unfold u. lia. }
      cbn [run_stmts]. destruct (Z.ltb_spec i n).
      * cbn [flat_map]. unfold covers at 1. cbn [start cnt]. rewrite app_nil_r.
        split; [lia|]. split; [reflexivity|]. constructor; [|constructor].
        unfold shape. cbn [cnt size]. split; [lia|]. right. split; auto. lia.
      * rewrite zseq_nil by lia. split; [lia|]. split; [reflexivity|constructor].
    + assert (NX : next_unroll u = 2 ^ Z.of_nat k).
      { unfold u. rewrite next_pow, half_pow by lia. f_equal. lia. }
      rewrite NX. cbn [run_stmts]. destruct (Z.leb_spec (i + u) n).
      * specialize (IH fuel (i + u) ltac:(lia) ltac:(lia) Hmu' ltac:(lia) ltac:(lia)).
        destruct (run_stmts _ _ _ _ _) as [cs p]. destruct IH as (I1 & I2 & I3).
        split; auto. split.
        -- cbn [flat_map]. unfold covers at 1. cbn [start cnt]. rewrite I2, <- zseq_app by lia. f_equal. lia.
        -- constructor; auto. unfold shape. cbn [cnt size]. split; [lia|]. left. split; auto.
           right. exists (Z.of_nat (S k)). fold u. lia.
      * apply IH; auto; lia.
Qed.

Lemma for_cover mu n : 0 < mu -> forall fuel i, 0 <= n - i <= Z.of_nat fuel * mu ->
  let '(cs, i', p') := run_for fuel mu mu n i i in
  i' = p' /\ i <= i' /\ 0 <= n - i' < mu /\ flat_map covers cs = zseq i (i' - i) /\
  Forall (fun c => size c = mu /\ cnt c = mu) cs.
Proof.
  intros Hmu. induction fuel as [|fuel IH]; intros i H; cbn [run_for].
  - replace (i - i) with 0 by ring. repeat split; auto; lia.
  - destruct (Z.leb_spec (i + mu) n).
    + specialize (IH (i + mu) ltac:(nia)). destruct (run_for _ _ _ _ _ _) as [[cs i'] p'].
      destruct IH as (I1 & I2 & I3 & I4 & I5). split; auto. split; [lia|]. split; auto. split.
      * cbn [flat_map]. unfold covers at 1. cbn [start cnt]. rewrite I4, <- zseq_app by lia. f_equal. lia.
      * constructor; auto.
    + replace (i - i) with 0 by ring. repeat split; auto; lia.
Qed.

Lemma unrolled_cover ts mu n : vector_width ts -> 0 < mu -> (Z.max ts 1 | mu) -> 0 <= n ->
  let '(cs, p) := run_unrolled ts mu n in
  p = n /\ flat_map covers cs = zseq 0 n /\ Forall (shape ts mu) cs.
Proof.
  intros Hts Hmu [q Hq] Hn. unfold run_unrolled, iterate_unrolled.
  assert (M1 : 1 <= Z.max ts 1) by lia.
  assert (E : mu / Z.max ts 1 * Z.max ts 1 = mu) by (rewrite Hq, Z.div_mul by lia; reflexivity).
  rewrite E. destruct (Z.ltb_spec mu 1); [lia|]. cbn [run_stmts].
  pose proof (for_cover mu n Hmu (Z.to_nat n) 0 ltac:(nia)) as FC.
  destruct (run_for _ _ _ _ _ _) as [[cs i'] p']. destruct FC as (<- & F2 & F3 & F4 & F5).
  assert (F5' : Forall (shape ts mu) cs).
  { eapply Forall_impl; [|exact F5]. intros c [W C]. unfold shape. rewrite W, C. split; [lia|]. left. auto. }
  assert (TM : Z.max ts 1 <= mu) by (assert (0 < q) by nia; nia).
  set (l := Z.log2 mu). pose proof (Z.log2_spec mu ltac:(lia)) as LS. fold l in LS.
  pose proof (Z.log2_nonneg mu) as L0. fold l in L0. rewrite Z.pow_succ_r in LS by lia.
  assert (FL : (Z.to_nat l + 1 <= Z.to_nat mu)%nat).
  { pose proof (Z.pow_gt_lin_r 2 l ltac:(lia) L0). lia. }
  assert (K : let '(cs', p) := run_stmts (gen_rest (Z.to_nat mu) ts (next_unroll mu)) ts n i' i' in
    p = n /\ flat_map covers cs' = zseq i' (n - i') /\ Forall (shape ts mu) cs').
  { unfold next_unroll. fold l. destruct (Z.eqb_spec (2 ^ l) mu) as [Q|Q].
    - destruct (Z.eq_dec l 0) as [L|L].
      + rewrite L in Q. change (2 ^ 0) with 1 in Q. rewrite <- Q. cbn. assert (n - i' = 0) by lia.
        rewrite H0, zseq_nil by lia. split; [lia|]. split; [reflexivity|constructor].
      + assert (HQ : mu / 2 = 2 ^ (l - 1)) by (rewrite <- half_pow, Q by lia; reflexivity). rewrite HQ.
        assert (U : 2 ^ l = 2 * 2 ^ (l - 1)).
        { replace l with (Z.succ (l - 1)) at 1 by lia. rewrite Z.pow_succ_r by lia. reflexivity. }
        pose proof (rest_cover ts mu n Hts (Z.to_nat (l - 1)) (Z.to_nat mu) i') as R.
        rewrite Z2Nat.id in R by lia. exact (R ltac:(lia) ltac:(lia) ltac:(lia) ltac:(lia) ltac:(lia)).
    - pose proof (rest_cover ts mu n Hts (Z.to_nat l) (Z.to_nat mu) i') as R.
      rewrite Z2Nat.id in R by lia. exact (R ltac:(lia) ltac:(lia) ltac:(lia) ltac:(lia) ltac:(lia)). }
  destruct (run_stmts _ _ _ _ _) as [cs' p]. destruct K as (K1 & K2 & K3). split; auto. split.
  - rewrite flat_map_app, F4, K2. replace n with ((i' - 0) + (n - i')) at 2 by ring. rewrite zseq_app by lia. do 2 f_equal. lia.
  - apply Forall_app. auto.
Qed.

(** ** Events *)
Definition elems (l : list (Z * option Z)) : list Z :=
  flat_map (fun e => match snd e with Some i => [i] | None => [] end) l.
Lemma elems_app l l' : elems (l ++ l') = elems l ++ elems l'.
Proof. apply flat_map_app. Qed.

Definition legal_vec (v : vec) : Prop :=
  vector_width (type_size v) /\ (exists b, 0 <= b /\ pipe_width v = 2 ^ b) /\
  Z.max (type_size v) 1 <= pipe_width v /\ 1 <= unroll_width v /\ (simd v = true -> 1 <= type_size v).
Definition legal_avec (v : avec) : Prop :=
  vector_width (a_type_size v) /\ 0 < a_unroll v /\ (Z.max (a_type_size v) 1 | a_unroll v).

(** Groups of [reg] consecutive positions are all positions. *)
Lemma groups_flat {A} (f : Z -> A) reg : 0 < reg -> forall (g : nat) lo,
  flat_map (fun k => map (fun l => f (k * reg + l)) (zseq 0 reg)) (zseq lo (Z.of_nat g)) =
  map f (zseq (lo * reg) (Z.of_nat g * reg)).
Proof.
  intros Hr. induction g as [|g IH]; intros lo; [reflexivity|].
  rewrite (zseq_cons lo (Z.of_nat (S g))) by lia. cbn [flat_map].
  replace (Z.of_nat (S g) - 1) with (Z.of_nat g) by lia. rewrite IH.
  replace (Z.of_nat (S g) * reg) with (reg + Z.of_nat g * reg) by lia.
  rewrite zseq_app, map_app by lia. f_equal.
  - rewrite (zseq_from0 (lo * reg)), map_map. apply map_ext. intros. f_equal. ring.
  - f_equal. f_equal. ring.
Qed.

Lemma take_valid lo w c : 0 <= c <= w ->
  flat_map (fun l => if l <? c then [lo + l] else []) (zseq 0 w) = zseq lo c.
Proof.
  intros H. replace w with (c + (w - c)) by ring. rewrite zseq_app, flat_map_app by lia.
  replace (flat_map _ (zseq (0 + c) (w - c))) with (@nil Z).
  - rewrite app_nil_r. rewrite (zseq_from0 lo c).
    rewrite flat_map_concat_map.
    rewrite (map_ext_in _ (fun l => [l + lo])).
    + induction (zseq 0 c); cbn; [reflexivity|]. now f_equal.
    + intros x Hx. apply zseq_In in Hx. destruct (Z.ltb_spec x c); [|lia]. f_equal. ring.
  - symmetry. assert (G : forall l, (forall x, In x l -> c <= x) -> flat_map (fun l => if l <? c then [lo + l] else []) l = []).
    { induction l as [|x l IH]; intros Hl; [reflexivity|]. cbn [flat_map].
      destruct (Z.ltb_spec x c); [specialize (Hl x (or_introl eq_refl)); lia|]. apply IH. intros. apply Hl. now right. }
    apply G. intros x Hx. apply zseq_In in Hx. lia.
Qed.

Lemma divides_groups ts pipe mu c : (exists b, 0 <= b /\ pipe = 2 ^ b) -> Z.max ts 1 <= pipe -> (pipe | mu) ->
  shape ts mu c -> 0 < mu -> 0 < Z.min (size c) pipe /\
  Z.max (size c / pipe) 1 * Z.min (size c) pipe = size c.
Proof.
  intros (b & Hb & Ep) Hp Hd S Hmu. unfold shape in S. destruct S as [S1 S2].
  pose proof (Z.pow_pos_nonneg 2 b ltac:(lia) Hb). split; [lia|].
  destruct (Z_lt_dec (size c) pipe).
  - rewrite Z.div_small by lia. lia.
  - assert (D : (pipe | size c)).
    { destruct S2 as [[_ [->|(k & Hk & E & _)]]|[E _]]; auto.
      - rewrite E, Ep in *. assert (b <= k) by (apply (Z.pow_le_mono_r_iff 2); lia).
        exists (2 ^ (k - b)). rewrite <- Z.pow_add_r by lia. f_equal. lia.
      - assert (size c = pipe) by lia. exists 1. lia. }
    destruct D as [q Hq]. rewrite Hq, Z.div_mul by lia. assert (1 <= q) by nia. rewrite Z.max_l by lia.
    rewrite Z.min_r by nia. reflexivity.
Qed.

Lemma deposit_events_ok ts pipe mu c : (exists b, 0 <= b /\ pipe = 2 ^ b) -> Z.max ts 1 <= pipe -> (pipe | mu) ->
  0 < mu -> shape ts mu c ->
  elems (deposit_events pipe c) = covers c /\ Forall (fun e => 0 <= fst e < pipe) (deposit_events pipe c).
Proof.
  intros Hb Hp Hd Hmu S. destruct (divides_groups ts pipe mu c Hb Hp Hd S Hmu) as [G1 G2].
  unfold deposit_events. set (reg := Z.min (size c) pipe) in *. set (g := Z.max (size c / pipe) 1) in *. split.
  - unfold elems, covers. rewrite !flat_map_concat_map, concat_map, map_map.
    rewrite <- flat_map_concat_map.
    assert (E : forall k, concat (map (fun e : Z * option Z => match snd e with Some i => [i] | None => [] end)
       (map (fun l => (l, if k * reg + l <? cnt c then Some (start c + k * reg + l) else None)) (zseq 0 reg))) =
       concat (map (fun l => (fun y => if y <? cnt c then [start c + y] else []) (k * reg + l)) (zseq 0 reg))).
    { intros k. rewrite map_map. f_equal. apply map_ext. intros l. cbn [snd]. destruct (_ <? _); auto.
      f_equal. ring. }
    assert (E2 : concat (flat_map (fun k => map (fun e : Z * option Z => match snd e with Some i => [i] | None => [] end)
       (map (fun l => (l, if k * reg + l <? cnt c then Some (start c + k * reg + l) else None)) (zseq 0 reg))) (zseq 0 g)) =
       concat (flat_map (fun k => map (fun l => (fun y => if y <? cnt c then [start c + y] else []) (k * reg + l)) (zseq 0 reg)) (zseq 0 g))).
    { induction (zseq 0 g) as [|k l IH]; [reflexivity|]. cbn [flat_map]. rewrite !concat_app, IH, E. reflexivity. }
    rewrite E2. pose proof (groups_flat (fun y => if y <? cnt c then [start c + y] else []) reg G1 (Z.to_nat g) 0) as GF.
    rewrite Z2Nat.id in GF by lia. rewrite GF, Z.mul_0_l, G2, <- flat_map_concat_map.
    apply take_valid. destruct S. lia.
  - apply Forall_forall. intros e He. apply in_flat_map in He. destruct He as (k & _ & He).
    apply in_map_iff in He. destruct He as (l & <- & Hl). apply zseq_In in Hl. cbn [fst]. lia.
Qed.
Lemma amax_events_ok lanes c : 0 < lanes -> 0 <= cnt c <= size c ->
  elems (amax_events lanes c) = covers c /\ Forall (fun e => 0 <= fst e < lanes) (amax_events lanes c).
Proof.
  intros Hl Hc. unfold amax_events, elems, covers. split.
  - rewrite flat_map_concat_map, map_map, <- flat_map_concat_map, <- (take_valid (start c) (size c)) by lia.
    rewrite !flat_map_concat_map. f_equal. apply map_ext. intros l. cbn [snd]. now destruct (_ <? _).
  - apply Forall_forall. intros e He. apply in_map_iff in He. destruct He as (l & <- & _). cbn [fst].
    apply Z.mod_pos_bound. lia.
Qed.

Theorem kernel_events_ok v n : legal_vec v -> 0 <= n ->
  let '(es, p) := kernel_events v n in
  p = n /\ elems es = zseq 0 n /\ Forall (fun e => 0 <= fst e < pipe_width v) es.
Proof.
  intros (Ht & Hb & Hp & Hu & _) Hn. unfold kernel_events.
  pose proof Hb as (b & B0 & B1). pose proof (Z.pow_pos_nonneg 2 b ltac:(lia) B0) as PP. rewrite <- B1 in PP.
  assert (DV : (Z.max (type_size v) 1 | pipe_width v)).
  { destruct Ht as [E|(a & Ha & E)]; rewrite E in *.
    - exists (pipe_width v). lia.
    - pose proof (Z.pow_pos_nonneg 2 a ltac:(lia) Ha). rewrite Z.max_l in * by lia. rewrite B1 in *.
      assert (a <= b) by (apply (Z.pow_le_mono_r_iff 2); lia).
      exists (2 ^ (b - a)). rewrite <- Z.pow_add_r by lia. f_equal. lia. }
  assert (M0 : 0 < pipe_width v * unroll_width v) by nia.
  pose proof (unrolled_cover (type_size v) (pipe_width v * unroll_width v) n Ht M0) as U.
  destruct (run_unrolled _ _ _) as [cs p]. destruct U as (U1 & U2 & U3); auto.
  { apply Z.divide_mul_l. exact DV. }
  split; auto. rewrite <- U2. clear U2.
  induction U3 as [|c cs S U3 IH]; [split; [reflexivity|constructor]|].
  destruct (deposit_events_ok (type_size v) (pipe_width v) (pipe_width v * unroll_width v) c Hb Hp) as [D1 D2]; auto.
  { apply Z.divide_factor_l. }
  destruct IH as [I1 I2]. cbn [flat_map]. split.
  - rewrite elems_app, D1, I1. reflexivity.
  - apply Forall_app. auto.
Qed.
Theorem scan_events_ok v n : legal_avec v -> 0 <= n ->
  elems (scan_events v n) = zseq 0 n /\ Forall (fun e => 0 <= fst e < Z.max (a_type_size v) 1) (scan_events v n).
Proof.
  intros (Ht & Hu & Hd) Hn. unfold scan_events.
  pose proof (unrolled_cover (a_type_size v) (a_unroll v) n Ht Hu Hd Hn) as U.
  destruct (run_unrolled _ _ _) as [cs p]. destruct U as (U1 & U2 & U3).
  rewrite <- U2. clear U2. induction U3 as [|c cs S U3 IH]; [split; [reflexivity|constructor]|].
  destruct (amax_events_ok (Z.max (a_type_size v) 1) c) as [D1 D2]; [lia|destruct S; lia|].
  destruct IH as [I1 I2]. cbn [flat_map]. split.
  - rewrite elems_app, D1, I1. reflexivity.
  - apply Forall_app. auto.
Qed.

(** ** Parameters *)
Lemma clamp_range a b v : a <= b -> a <= clamp a b v <= b.
Proof.
  intros H. unfold clamp. destruct (Z.ltb_spec v a); cbv zeta.
  - destruct (Z.ltb_spec b a); lia.
  - destruct (Z.ltb_spec b v); lia.
Qed.
Lemma clamp_id a b v : a <= v <= b -> clamp a b v = v.
Proof. intros H. unfold clamp. destruct (Z.ltb_spec v a); [lia|]. destruct (Z.ltb_spec b v); lia. Qed.
Lemma clamp_cases a b v : clamp a b v = v \/ clamp a b v = a \/ clamp a b v = b.
Proof. unfold clamp. destruct (v <? a); destruct (b <? _); auto. Qed.
