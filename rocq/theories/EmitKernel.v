(** * The generated deposit kernels compute the kernel model *)
From Coq Require Import ZArith Bool List Lia.
From Flocq Require Import Core BinarySingleNaN.
From Verif Require Import Fp Mem Binned MemProofs ComplexProofs Gen GenProofs Blas BlasZ LaneProofs Emit EmitBits EmitExec EmitLevels EmitGroup EmitLoad EmitPrep EmitRun EmitStore.
Import ListNotations.
Open Scope Z_scope.

Lemma for_up_fold {T} (f : Z -> T -> T) n : forall s, for_up 0 n f s = fold_left (fun s j => f j s) (zseq 0 n) s.
Proof.
  unfold for_up. rewrite Z.sub_0_r. destruct (Z.le_gt_cases n 0) as [N|N]; intros s.
  { rewrite zseq_nil by lia. replace (Z.to_nat n) with 0%nat by lia. reflexivity. }
  rewrite <- (Z2Nat.id n) at 2 by lia. generalize 0 as lo. generalize (Z.to_nat n) as k. clear n N.
  intros k. revert s. induction k as [|k IH]; intros s lo; [reflexivity|].
  rewrite zseq_cons by lia. replace (Z.of_nat (S k) - 1) with (Z.of_nat k) by lia. cbn [loop fold_left]. apply IH.
Qed.

Lemma consolidate_ext {t} vector ts lanes (w w' : Z -> F t) pri : 0 < lanes -> (vector = true -> 0 < ts /\ (ts | lanes)) ->
  (forall l, 0 <= l < lanes -> w l = w' l) -> consolidate vector ts lanes w pri = consolidate vector ts lanes w' pri.
Proof.
  intros HL HV E. unfold consolidate. destruct vector.
  - destruct (HV eq_refl) as (HT & g & ->). rewrite Z.div_mul by lia. assert (0 < g) by nia. cbv zeta.
    assert (R : forall l, 0 <= l < ts ->
      fold_left (fun r k => fadd r (fsub (w (k * ts + l)) pri)) (zseq 1 (g - 1)) (if ts =? 1 then w l else fsub (w l) (if l =? 0 then fzero else pri)) =
      fold_left (fun r k => fadd r (fsub (w' (k * ts + l)) pri)) (zseq 1 (g - 1)) (if ts =? 1 then w' l else fsub (w' l) (if l =? 0 then fzero else pri))).
    { intros l Hl. rewrite (E l) by nia. apply fold_ext. intros b k Hk. apply zseq_In in Hk. rewrite E by nia. reflexivity. }
    rewrite R by lia. apply fold_ext. intros b l Hl. apply zseq_In in Hl. rewrite R by lia. reflexivity.
  - rewrite E by lia. apply fold_ext. intros b l Hl. apply zseq_In in Hl. rewrite E by lia. reflexivity.
Qed.

Lemma fold_interleave {S A} (f g : S -> A -> S) : (forall s a b, g (f s a) b = f (g s b) a) ->
  forall l s, fold_left (fun s a => g (f s a) a) l s = fold_left g l (fold_left f l s).
Proof.
  intros C. assert (G : forall l s a, fold_left f l (g s a) = g (fold_left f l s) a).
  { induction l as [|b l IH]; intros s a; [reflexivity|]. cbn [fold_left]. rewrite <- C. apply IH. }
  induction l as [|a l IH]; intros s; [reflexivity|]. cbn [fold_left]. rewrite IH, G. reflexivity.
Qed.

Section Whole.
  Context {t : ty}.
  Variables (v : isa) (cx : bool) (k : kclass t) (ex : bool) (fold pipe unroll : Z).
  Local Notation ts := (tsize v t cx).
  Local Notation bs := (bsize v t).
  Local Notation ds := (dsize cx).
  Local Notation nt := (nsum k cx).
  Hypothesis FIT : fits k cx = true.
  Hypothesis LEGAL : legal_vec (Vec (vector v) ts pipe unroll).
  Hypothesis Hf : (if ex then 2 else 1) <= fold.
  Local Notation W := (reg_width v cx k pipe).
  Variables (acc inc : Z).

  Lemma W_facts : 0 < W /\ nt * pipe * ds = W * bs /\ (v = SISD -> cx = true -> (2 | W)).
  Proof.
    split; [apply (W_pos v cx k pipe unroll LEGAL)|]. destruct (pipe_facts v cx pipe unroll LEGAL) as (D & _). split.
    - symmetry. apply (rw_mul v cx k pipe D).
    - intros E1 E2. unfold reg_width. rewrite E1, E2, sisd_bs, Z.div_1_r. cbn [dsize]. exists (pipe * (if two_vectors k then 2 else 1)). ring.
  Qed.
  Lemma lanes_facts : 0 < nt * pipe /\ (vector v = true -> 0 < ts /\ (ts | nt * pipe)).
  Proof.
    destruct (pipe_facts v cx pipe unroll LEGAL) as (D & P & _). pose proof (nsum_pos k cx). split; [nia|]. intros V.
    pose proof (bsize_vec v t cx V). pose proof (bsize_pos v t). pose proof (dsize_pos cx). assert (0 < ts) by nia. rewrite Z.max_l in D by lia.
    split; [assumption|]. apply Z.divide_mul_r. exact D.
  Qed.

  (** All words to the variables. *)
  Lemma propagate_all c (s : state t) : at_ c PAcc = acc ->
    let s' := runs c [ForJ 0 fold (fun j => propagate_into v cx (word_vars ex W j) PAcc j (Var inc))] s in
    snd s' = snd s /\
    (forall i l, 0 <= i < W -> 0 <= l < bs -> words ex W fold s' i l = read (snd s) (acc + (i * bs + l) mod ds) (ds * inc) fold) /\
    (forall r, (forall j i, r <> word ex W j i) -> fst s' r = fst s r).
  Proof.
    intros PA. cbv zeta. destruct W_facts as (W0 & _ & EV). unfold runs. cbn [fold_left run1]. rewrite Z.sub_0_r.
    assert (G : forall n : nat, let s' := fold_left (fun s j => execs c (propagate_into v cx (word_vars ex W j) PAcc j (Var inc)) s) (zseq 0 (Z.of_nat n)) s in
      snd s' = snd s /\
      (forall j i l, 0 <= j < Z.of_nat n -> 0 <= i < W -> 0 <= l < bs -> fst s' (word ex W j i) l = snd s (cell cx acc inc j ((i * bs + l) mod ds))) /\
      (forall r, (forall j i, r <> word ex W j i) -> fst s' r = fst s r)).
    { induction n as [|n IH]; cbv zeta. { change (zseq 0 (Z.of_nat 0)) with (@nil Z). cbn [fold_left]. split; [reflexivity|]. split; [lia|reflexivity]. }
      destruct IH as (I1 & I2 & I3). replace (Z.of_nat (S n)) with (Z.of_nat n + 1) by lia. rewrite zseq_app, fold_left_app by lia.
      rewrite Z.add_0_l, (zseq_cons (Z.of_nat n)), (zseq_nil _ (1 - 1)) by lia. cbn [fold_left]. set (s1 := fold_left _ (zseq 0 (Z.of_nat n)) s) in *. clearbody s1.
      rewrite word_vars_tab. destruct (propagate_ok v cx (word ex W (Z.of_nat n)) W acc inc (Z.of_nat n) c s1 PA EV) as (P1 & P2 & P3).
      { intros i i' Hi Hi' E. apply word_inj in E; lia. }
      set (s2 := execs c _ s1) in *. clearbody s2. split; [congruence|]. split.
      - intros j i l Hj Hi Hl. destruct (Z.eq_dec j (Z.of_nat n)) as [->|Nj].
        + rewrite P2, I1 by auto. reflexivity.
        + rewrite P3; [apply I2; auto; lia|]. intros i' Hi' E. apply word_inj in E; lia.
      - intros r Hr. rewrite P3, I3; auto. }
    specialize (G (Z.to_nat fold)). assert (0 <= fold) by (destruct ex; lia). rewrite Z2Nat.id in G by assumption. destruct G as (G1 & G2 & G3).
    split; [exact G1|]. split; [|exact G3]. intros i l Hi Hl. unfold words, read. apply map_ext_in. intros j Hj. apply zseq_In in Hj. rewrite G2 by lia. reflexivity.
  Qed.

  (** All words back to memory: [st q] gives the words of every lane of component q. *)
  Variable st : Z -> Z -> list (F t).
  Definition put (q : Z) (m : mem t) (j : Z) : mem t :=
    upd m (cell cx acc inc j q) (consolidate (vector v) ts (nt * pipe) (fun l => nth (Z.to_nat j) (st q l) fnan) (m (cell cx acc inc j q))).
  Definition put_all (m : mem t) (j : Z) : mem t := if cx then put 1 (put 0 m j) j else put 0 m j.

  Lemma cell_parity j j' : cx = true -> cell cx acc inc j 0 <> cell cx acc inc j' 1.
  Proof. intros E. unfold cell. rewrite E. cbn [dsize]. intros H. assert (E2 : 2 * (j * inc) = 1 + 2 * (j' * inc)) by lia. lia. Qed.
  Lemma put_comm m j j' : cx = true -> put 1 (put 0 m j) j' = put 0 (put 1 m j') j.
  Proof.
    intros E. unfold put. pose proof (cell_parity j j' E) as N. rewrite (upd_other m _ _ _ (not_eq_sym N)), (upd_other m _ _ _ N). apply upd_comm. exact N.
  Qed.

  Lemma consolidate_all c (s : state t) : at_ c PAcc = acc ->
    (forall j l q, 0 <= j < fold -> 0 <= l < nt * pipe -> 0 <= q < ds -> flat v (fst s) (word ex W j) (l * ds + q) = nth (Z.to_nat j) (st q l) fnan) ->
    snd (runs c [ForJ 0 fold (fun j => consolidate_into v cx j (Var inc) (word_vars ex W j))] s) = fold_left put_all (zseq 0 fold) (snd s).
  Proof.
    intros PA HS. destruct W_facts as (W0 & HL & EV). destruct lanes_facts as (L0 & LV). unfold runs. cbn [fold_left run1]. rewrite Z.sub_0_r.
    assert (G : forall n : nat, Z.of_nat n <= fold -> let s' := fold_left (fun s j => execs c (consolidate_into v cx j (Var inc) (word_vars ex W j)) s) (zseq 0 (Z.of_nat n)) s in
      snd s' = fold_left put_all (zseq 0 (Z.of_nat n)) (snd s) /\
      (forall j i, Z.of_nat n <= j -> 0 <= i < W -> fst s' (word ex W j i) = fst s (word ex W j i))).
    { induction n as [|n IH]; intros Hn; cbv zeta. { change (zseq 0 (Z.of_nat 0)) with (@nil Z). cbn [fold_left]. split; reflexivity. }
      destruct IH as (I1 & I2); [lia|]. replace (Z.of_nat (S n)) with (Z.of_nat n + 1) by lia. rewrite zseq_app, !fold_left_app by lia.
      rewrite Z.add_0_l, (zseq_cons (Z.of_nat n)), (zseq_nil _ (1 - 1)) by lia. cbn [fold_left]. rewrite <- I1. set (s1 := fold_left _ (zseq 0 (Z.of_nat n)) s) in *. clearbody s1.
      destruct (consolidate_ok v cx ex W (nt * pipe) acc inc (Z.of_nat n) c W0 HL EV PA s1) as (C1 & C2).
      set (s2 := execs c _ s1) in *. clearbody s2. split.
      - rewrite C1. unfold cons_mem, put_all.
        assert (CV : forall q, 0 <= q < ds -> cons_val v cx ex W (nt * pipe) acc inc (Z.of_nat n) s1 q =
          consolidate (vector v) ts (nt * pipe) (fun l => nth (Z.to_nat (Z.of_nat n)) (st q l) fnan) (snd s1 (cell cx acc inc (Z.of_nat n) q))).
        { intros q Hq. unfold cons_val. apply consolidate_ext; auto. intros l Hl. rewrite <- HS by lia. unfold flat.
          assert (B : 0 <= l * ds + q < W * bs) by (rewrite <- HL; nia). apply pos_bs in B. rewrite I2 by lia. reflexivity. }
        pose proof (dsize_pos cx) as DP. destruct (Bool.bool_dec cx true) as [E|E].
        + repeat match goal with |- context [if cx then ?A else ?B] => replace (if cx then A else B) with A by (rewrite E; reflexivity) end.
          assert (D2 : ds = 2) by (rewrite E; reflexivity). rewrite !CV by lia. unfold put. rewrite (upd_other (snd s1) _ _ (cell cx acc inc (Z.of_nat n) 1)); [reflexivity|].
          apply not_eq_sym. apply cell_parity. exact E.
        + apply Bool.not_true_is_false in E.
          repeat match goal with |- context [if cx then ?A else ?B] => replace (if cx then A else B) with B by (rewrite E; reflexivity) end.
          rewrite !CV by lia. reflexivity.
      - intros j i Hj Hi. rewrite C2; [apply I2; lia| |apply word_not_cons|apply word_not_cons]. intros i' Hi' E. apply word_inj in E; lia. }
    destruct (G (Z.to_nat fold)) as (G1 & _); [|rewrite Z2Nat.id in G1 by (destruct ex; lia); exact G1]. destruct ex; lia.
  Qed.

  (** The stores in the order of the kernel model. *)
  Lemma put_real m : cx = false -> fold_left put_all (zseq 0 fold) m = store_lanes (vector v) ts (nt * pipe) fold acc inc (st 0) m.
  Proof.
    intros E. unfold store_lanes. rewrite for_up_fold. apply fold_ext. intros m' j _. unfold put_all.
    match goal with |- context [if cx then ?A else ?B] => replace (if cx then A else B) with B by (rewrite E; reflexivity) end.
    unfold put. assert (EC : cell cx acc inc j 0 = acc + j * inc) by (unfold cell; rewrite E; cbn [dsize]; ring). rewrite EC. reflexivity.
  Qed.
  Lemma put_complex m : cx = true -> fold_left put_all (zseq 0 fold) m =
    store_lanes (vector v) ts (nt * pipe) fold (acc + 1) (2 * inc) (st 1) (store_lanes (vector v) ts (nt * pipe) fold (acc + 0) (2 * inc) (st 0) m).
  Proof.
    intros E. unfold store_lanes. rewrite !for_up_fold.
    transitivity (fold_left (put 1) (zseq 0 fold) (fold_left (put 0) (zseq 0 fold) m)).
    - rewrite <- fold_interleave by (intros; apply put_comm; exact E). apply fold_ext. intros m' j _. unfold put_all.
      match goal with |- context [if cx then ?A else ?B] => replace (if cx then A else B) with A by (rewrite E; reflexivity) end. reflexivity.
    - assert (EC : forall q j, cell cx acc inc j q = acc + q + j * (2 * inc)) by (intros; unfold cell; rewrite E; reflexivity).
      rewrite (fold_ext (put 0) (fun m j => upd m (acc + 0 + j * (2 * inc)) (consolidate (vector v) ts (nt * pipe) (fun l => nth (Z.to_nat j) (st 0 l) fnan) (m (acc + 0 + j * (2 * inc)))))).
      2:{ intros m' j _. unfold put. rewrite EC. reflexivity. }
      apply fold_ext. intros m' j _. unfold put. rewrite EC. reflexivity.
  Qed.
End Whole.

(** Real summands: one per element. *)
Definition opt (s : src) : option Z := match s with Elem s => Some s | Pad _ => None end.
Lemma real_events ts pipe mu c : (exists b, 0 <= b /\ pipe = 2 ^ b) -> Z.max ts 1 <= pipe -> (pipe | mu) -> 0 < mu -> shape ts mu c ->
  deposit_events pipe c = map (fun e => (fst e, opt (snd e))) (zdeposit_events 1 pipe c).
Proof.
  intros Hb Hp Hd Hm SH. destruct (divides_groups ts pipe mu c Hb Hp Hd SH Hm) as [G1 G2]. unfold deposit_events, zdeposit_events. cbv zeta.
  rewrite Z.mul_1_l. set (reg := Z.min _ _) in *. set (G := Z.max _ 1) in *. rewrite !flat_map_concat_map, concat_map, map_map. f_equal.
  apply map_ext_in. intros g Hg. apply zseq_In in Hg. rewrite map_map. apply map_ext_in. intros l Hl. apply zseq_In in Hl. cbn [fst snd]. f_equal.
  unfold summand. assert (B : 0 <= g * reg + l < size c) by nia. rewrite Z.mod_small, Z.div_small by exact B. destruct (_ <? _); [|reflexivity]. cbn [opt]. f_equal. ring.
Qed.

Theorem emitted_ok {t} v (cx : bool) (k : kclass t) (ex : bool) fold pipe unroll n X incX Y incY acc inc e m :
  fits k cx = true -> legal_vec (Vec (vector v) (tsize v t cx) pipe unroll) -> (if ex then 2 else 1) <= fold -> 0 <= n ->
  emitted v cx k ex fold pipe unroll n X incX Y incY acc inc e m =
  if cx then zkernel (nsum k cx) (Vec (vector v) (tsize v t cx) pipe unroll) fold n (zkval k X incX Y incY m) acc inc m
  else kernel (Vec (vector v) (tsize v t cx) pipe unroll) fold n (rkval k X incX Y incY m) acc inc m.
Proof.
  intros FIT LEGAL Hf Hn. unfold emitted. cbv zeta.
  set (c0 := Ctx (fun p => match p with PX => X | PY => Y | PAcc => acc end) n).
  set (e1 := match k with KSSq scl => _ | _ => e end).
  assert (INV0 : inv_ok k (e1, m)).
  { intros scl E l. subst k. unfold e1. cbn [fst]. rewrite set_same. destruct v; reflexivity. }
  clearbody e1.
  destruct (propagate_all v cx k ex fold pipe unroll LEGAL Hf acc inc c0 (e1, m) eq_refl) as (P1 & P2 & P3).
  set (s1 := runs c0 _ (e1, m)) in *. clearbody s1. cbn [fst snd] in P1, P2, P3.
  set (zr := dmindex0 (m acc)). set (zi := dmindex0 (m (acc + 1))). set (zero := if cx then zr || zi else zr).
  assert (NW : forall r, (exists j, r = RComp j \/ r = RExp j \/ r = RMask j) \/ r = RInv -> forall W j i, r <> word ex W j i).
  { intros r [(j' & [->|[->| ->]])| ->] W j i; unfold word; destruct ex; discriminate. }
  (* the constants *)
  assert (K : let s2 := if zero then execs c0 (constants v cx zr zi) s1 else s1 in
    snd s2 = m /\
    (forall i l, 0 <= i -> 0 <= l < bsize v t -> dep_of v cx zero s2 i l = gdep t cx zr zi ((i * bsize v t + l) mod dsize cx)) /\
    (forall r, (forall i, r <> RComp i /\ r <> RExp i /\ r <> RMask i) -> fst s2 r = fst s1 r)).
  { cbv zeta. destruct zero eqn:EZ.
    - destruct (constants_ok v cx zr zi c0 s1 EZ) as (A & B & C). split; [congruence|]. split; assumption.
    - split; [exact P1|]. split; [|reflexivity]. intros i l _ _. unfold dep_of, gdep. unfold zero in EZ. destruct cx.
      + rewrite EZ. reflexivity.
      + rewrite EZ. reflexivity. }
  cbv zeta in K. destruct K as (K1 & K2 & K3). set (s2 := if zero then _ else s1) in *. clearbody s2.
  (* the calls *)
  pose proof LEGAL as (Ht & Hb & Hp & Hu & _). cbn [type_size pipe_width unroll_width] in Ht, Hb, Hp, Hu.
  destruct (pipe_facts v cx pipe unroll LEGAL) as (DP & PP & _ & _).
  pose proof (unrolled_cover (tsize v t cx) (pipe * unroll) n Ht ltac:(nia) ltac:(apply Z.divide_mul_l; exact DP) Hn) as U.
  assert (KE : forall nt, zkernel_events nt (Vec (vector v) (tsize v t cx) pipe unroll) n = let '(cs, p) := run_unrolled (tsize v t cx) (pipe * unroll) n in (flat_map (zdeposit_events nt pipe) cs, p)) by reflexivity.
  assert (KR : kernel_events (Vec (vector v) (tsize v t cx) pipe unroll) n = let '(cs, p) := run_unrolled (tsize v t cx) (pipe * unroll) n in (flat_map (deposit_events pipe) cs, p)) by reflexivity.
  destruct (run_unrolled (tsize v t cx) (pipe * unroll) n) as [cs p]. destruct U as (_ & _ & SH).
  assert (INV : inv_ok k s2).
  { intros scl E l. rewrite K3, P3; [apply (INV0 scl E)|apply NW; auto|]. intros i. repeat split; discriminate. }
  destruct (run_bodies_ok v cx k ex fold pipe unroll FIT LEGAL Hf X incX Y incY acc zero cs SH s2 INV) as (R1 & R2 & _).
  set (s3 := fold_left _ cs s2) in *. clearbody s3. rewrite K1 in R1, R2.
  set (W := reg_width v cx k pipe) in *. set (nt := nsum k cx) in *.
  set (st := fun q => run_lanes (gdep t cx zr zi q) (read m (acc + q) (dsize cx * inc) fold) (map (fun ev => (fst ev, gkval cx k X incX Y incY m q (snd ev))) (flat_map (zdeposit_events nt pipe) cs))).
  destruct (W_facts v cx k pipe unroll LEGAL) as (W0 & HL & _). fold W in W0, HL. fold nt in HL.
  pose proof (dsize_pos cx) as DSP.
  assert (W12 : forall i l, words ex W fold s2 i l = words ex W fold s1 i l).
  { intros i l. unfold words. apply map_ext. intros j. rewrite K3; [reflexivity|]. intros i'. unfold word. destruct ex; repeat split; discriminate. }
  assert (ST : forall j l q, 0 <= j < fold -> 0 <= l < nt * pipe -> 0 <= q < dsize cx -> flat v (fst s3) (word ex W j) (l * dsize cx + q) = nth (Z.to_nat j) (st q l) fnan).
  { intros j l q Hj Hl Hq. assert (B : 0 <= l * dsize cx + q < W * bsize v t) by (rewrite <- HL; nia). apply pos_bs in B. destruct B as (B1 & B2 & B3).
    unfold flat. set (i := (l * dsize cx + q) / bsize v t) in *. set (kk := (l * dsize cx + q) mod bsize v t) in *.
    rewrite <- (words_nth ex W fold s3 i kk j Hj). f_equal. rewrite R2 by auto. rewrite K2 by lia.
    assert (E1 : (i * bsize v t + kk) mod dsize cx = q) by (rewrite <- B3, Z.add_comm, Z.mod_add, Z.mod_small by lia; reflexivity).
    assert (E2 : (i * bsize v t + kk) / dsize cx = l) by (rewrite <- B3, Z.add_comm, Z.div_add, Z.div_small by lia; lia).
    rewrite W12, P2 by auto. rewrite E1, E2. unfold st. rewrite run_lanes_lane, lane_map. reflexivity. }
  fold W. unfold W, nt in ST |- *. rewrite (consolidate_all v cx k ex fold pipe unroll LEGAL Hf acc inc st c0 s3 eq_refl ST). rewrite R1.
  destruct (Bool.bool_dec cx true) as [E|E].
  - rewrite put_complex by exact E. subst cx. unfold zkernel. rewrite KE. cbn [simd type_size pipe_width]. unfold st, nt. cbn [dsize gkval gdep Z.eqb]. rewrite Z.add_0_r. reflexivity.
  - apply Bool.not_true_is_false in E. rewrite put_real by exact E. subst cx. unfold kernel, deposit_lanes. rewrite KR. cbn [simd type_size pipe_width]. unfold st.
    assert (N1 : nsum k false = 1) by (unfold nsum; destruct (two_vectors k); reflexivity). unfold nt. rewrite N1, Z.mul_1_l, Z.add_0_r. cbn [dsize]. rewrite Z.mul_1_l.
    f_equal. f_equal. unfold gdep. fold zr. f_equal.
    assert (EV : flat_map (deposit_events pipe) cs = map (fun ev => (fst ev, opt (snd ev))) (flat_map (zdeposit_events 1 pipe) cs)).
    { rewrite !flat_map_concat_map, concat_map, map_map. f_equal. apply map_ext_in. intros c Hc. apply (real_events (tsize v t false) pipe (pipe * unroll)); auto; [apply Z.divide_factor_l|nia|].
      rewrite Forall_forall in SH. apply SH. exact Hc. }
    rewrite EV, map_map. cbn [fst snd]. reflexivity.
Qed.
