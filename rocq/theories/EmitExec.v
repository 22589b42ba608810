(** * Lists of statements and their execution *)
From Coq Require Import ZArith Bool List Lia.
From Flocq Require Import Core BinarySingleNaN.
From Verif Require Import Fp Mem Binned Gen GenProofs Emit EmitBits.
Import ListNotations.
Open Scope Z_scope.

(** ** Lists given by a function *)
Definition tab {A} (f : Z -> A) (n : Z) : list A := map f (zseq 0 n).
Lemma tab_nil {A} (f : Z -> A) n : n <= 0 -> tab f n = [].
Proof. intros H. unfold tab. rewrite zseq_nil by lia. reflexivity. Qed.
Lemma tab_ext {A} (f g : Z -> A) n : (forall i, 0 <= i < n -> f i = g i) -> tab f n = tab g n.
Proof. intros H. apply map_ext_in. intros i Hi. apply zseq_In in Hi. apply H. lia. Qed.
Lemma tab_cons {A} (f : Z -> A) n : 0 < n -> tab f n = f 0 :: tab (fun i => f (i + 1)) (n - 1).
Proof.
  intros H. unfold tab. rewrite zseq_cons by lia. cbn [map]. f_equal. rewrite (zseq_from0 (0 + 1)), map_map. reflexivity.
Qed.
Lemma tab_length {A} (f : Z -> A) n : length (tab f n) = Z.to_nat n.
Proof. unfold tab. rewrite map_length. apply zseq_length. Qed.
Lemma tab_map {A B} (g : A -> B) f n : map g (tab f n) = tab (fun i => g (f i)) n.
Proof. apply map_map. Qed.
Lemma tab_snoc {A} (f : Z -> A) n : 0 < n -> tab f n = tab f (n - 1) ++ [f (n - 1)].
Proof.
  intros H. unfold tab. replace n with (n - 1 + 1) at 1 by lia. rewrite zseq_app, map_app by lia.
  rewrite (zseq_cons (0 + (n - 1))) by lia. rewrite (zseq_nil _ (1 - 1)) by lia. reflexivity.
Qed.
Lemma from_tab {A} (f : Z -> A) k n : 0 <= k -> from k (tab f n) = tab (fun i => f (k + i)) (n - k).
Proof.
  intros K. unfold from. assert (E : k = Z.of_nat (Z.to_nat k)) by lia. revert E. generalize (Z.to_nat k) as c. intros c ->. clear K.
  revert f n. induction c as [|c IH]; intros f n.
  - cbn [skipn]. rewrite Z.sub_0_r. apply tab_ext. intros i _. reflexivity.
  - destruct (Z.le_gt_cases n 0); [rewrite !tab_nil by lia; reflexivity|].
    rewrite (tab_cons f) by lia. cbn [skipn]. rewrite IH. replace (n - 1 - Z.of_nat c) with (n - Z.of_nat (S c)) by lia.
    apply tab_ext. intros i _. f_equal. lia.
Qed.
Lemma upto_tab {A} (f : Z -> A) k n : upto k (tab f n) = tab f (Z.min k n).
Proof.
  destruct (Z.le_gt_cases k 0). { unfold upto. rewrite (tab_nil f (Z.min k n)) by lia. destruct k; try lia; reflexivity. }
  unfold upto. rewrite <- (Z2Nat.id k) at 2 by lia. generalize (Z.to_nat k) as c. clear. intros c.
  revert f n. induction c as [|c IH]; intros f n.
  - rewrite (tab_nil f (Z.min _ _)) by lia. reflexivity.
  - destruct (Z.le_gt_cases n 0); [rewrite !tab_nil by lia; reflexivity|].
    rewrite (tab_cons f n), (tab_cons f (Z.min _ _)) by lia. cbn [firstn]. rewrite IH. do 2 f_equal. lia.
Qed.
Lemma combine_tab {A B} (a : Z -> A) (b : Z -> B) n m : combine (tab a n) (tab b m) = tab (fun i => (a i, b i)) (Z.min n m).
Proof.
  destruct (Z.le_gt_cases n 0). { rewrite (tab_nil a), (tab_nil _ (Z.min _ _)) by lia. reflexivity. }
  rewrite <- (Z2Nat.id n) by lia. generalize (Z.to_nat n) as c. clear. intros c.
  revert a b m. induction c as [|c IH]; intros a b m.
  - rewrite (tab_nil a), (tab_nil _ (Z.min _ _)) by lia. reflexivity.
  - destruct (Z.le_gt_cases m 0); [rewrite (tab_nil b), (tab_nil _ (Z.min _ _)) by lia; destruct (tab a _); reflexivity|].
    rewrite (tab_cons a), (tab_cons b), (tab_cons _ (Z.min _ _)) by lia. cbn [combine].
    replace (Z.of_nat (S c) - 1) with (Z.of_nat c) by lia. rewrite IH. f_equal. f_equal. lia.
Qed.
Lemma zipw_tab {A B C} (g : A -> B -> C) (a : Z -> A) (b : Z -> B) n m : zipw g (tab a n) (tab b m) = tab (fun i => g (a i) (b i)) (Z.min n m).
Proof. unfold zipw. rewrite combine_tab, tab_map. reflexivity. Qed.
Lemma nth_tab {A} (f : Z -> A) i n d : 0 <= i < n -> nth (Z.to_nat i) (tab f n) d = f i.
Proof.
  intros H. unfold tab. rewrite (nth_indep _ d (f 0)) by (rewrite map_length, zseq_length; lia). rewrite map_nth.
  unfold zseq. rewrite (nth_indep _ 0 (0 + Z.of_nat 0)) by (rewrite map_length, seq_length; lia).
  rewrite (map_nth (fun k => 0 + Z.of_nat k)), seq_nth by lia. f_equal. lia.
Qed.
Lemma repeat_tab {A} (x : A) n : repeat x (Z.to_nat n) = tab (fun _ => x) n.
Proof.
  destruct (Z.le_gt_cases n 0). { rewrite tab_nil by lia. destruct n; try lia; reflexivity. }
  rewrite <- (Z2Nat.id n) at 2 by lia. generalize (Z.to_nat n) as c. clear. induction c as [|c IH]; [reflexivity|].
  rewrite tab_cons by lia. cbn [repeat]. f_equal. rewrite IH. f_equal. lia.
Qed.
Lemma app_tab {A} (f : Z -> A) n m : 0 <= n -> 0 <= m -> tab f n ++ tab (fun i => f (n + i)) m = tab f (n + m).
Proof.
  intros Hn Hm. unfold tab. rewrite zseq_app, map_app by lia. f_equal. rewrite (zseq_from0 (0 + n)), map_map.
  apply map_ext. intros i. f_equal. lia.
Qed.
Lemma cycle_app {A} (l : list A) k n : (0 < length l)%nat -> (n <= k)%nat -> firstn n (concat (repeat l k)) = firstn n (concat (repeat l n)).
Proof.
  intros L K. assert (E : k = (n + (k - n))%nat) by lia. rewrite E, repeat_app, concat_app, firstn_app.
  assert (LE : (n <= length (concat (repeat l n)))%nat).
  { clear -L. induction n as [|n IH]; cbn [repeat concat]; [lia|]. rewrite app_length. lia. }
  replace (n - length (concat (repeat l n)))%nat with 0%nat by lia. cbn [firstn]. apply app_nil_r.
Qed.
Lemma cycle_tab {A} (f : Z -> A) s n : 0 < s -> cycle (tab f s) (Z.to_nat n) = tab (fun i => f (i mod s)) n.
Proof.
  intros S. unfold cycle.
  destruct (Z.le_gt_cases n 0). { rewrite (tab_nil _ n) by lia. destruct n; try lia; reflexivity. }
  assert (G : forall c, concat (repeat (tab f s) c) = tab (fun i => f (i mod s)) (Z.of_nat c * s)).
  { induction c as [|c IH]; [reflexivity|]. cbn [repeat concat]. rewrite IH.
    replace (Z.of_nat (Datatypes.S c) * s) with (s + Z.of_nat c * s) by lia. rewrite <- app_tab by lia. f_equal.
    - apply tab_ext. intros i Hi. rewrite Z.mod_small by lia. reflexivity.
    - apply tab_ext. intros i Hi. f_equal. replace (s + i) with (i + 1 * s) by lia. rewrite Z.mod_add by lia. reflexivity. }
  rewrite G. change (firstn (Z.to_nat n)) with (@upto A n). rewrite upto_tab. f_equal. nia.
Qed.
Lemma evens_tab {A} (f : Z -> A) n : evens (tab f n) = tab (fun i => f (2 * i)) ((n + 1) / 2).
Proof.
  destruct (Z.le_gt_cases n 0). { rewrite !tab_nil; [reflexivity| |lia]. assert ((n + 1) / 2 < 1) by (apply Z.div_lt_upper_bound; lia). lia. }
  assert (N : n = Z.of_nat (Z.to_nat n)) by lia. revert N. generalize (Z.to_nat n) as c. intros c N. subst n. clear.
  revert f. induction c as [c IH] using lt_wf_ind. intros f. destruct c as [|[|c]].
  - reflexivity.
  - reflexivity.
  - rewrite (tab_cons f), (tab_cons (fun i => f (i + 1))) by lia. cbn [evens].
    replace (Z.of_nat (S (S c)) - 1 - 1) with (Z.of_nat c) by lia. rewrite IH by lia.
    replace ((Z.of_nat (S (S c)) + 1) / 2) with ((Z.of_nat c + 1) / 2 + 1).
    2:{ rewrite <- Z.div_add by lia. f_equal. lia. }
    rewrite (tab_cons (fun i => f (2 * i))) by (assert (0 <= (Z.of_nat c + 1) / 2) by (apply Z.div_pos; lia); lia).
    f_equal. rewrite Z.add_simpl_r. apply tab_ext. intros i _. f_equal. lia.
Qed.
Lemma tl_tab {A} (f : Z -> A) n : tl (tab f n) = tab (fun i => f (i + 1)) (n - 1).
Proof. destruct (Z.le_gt_cases n 0); [rewrite !tab_nil by lia; reflexivity|]. rewrite tab_cons by lia. reflexivity. Qed.
Lemma odds_tab {A} (f : Z -> A) n : odds (tab f n) = tab (fun i => f (2 * i + 1)) (n / 2).
Proof. unfold odds. rewrite tl_tab, evens_tab. f_equal. f_equal. lia. Qed.
Lemma twice_tab {A} (f : Z -> A) n : twice (tab f n) = tab (fun i => f (i / 2)) (2 * n).
Proof.
  destruct (Z.le_gt_cases n 0). { rewrite !tab_nil by lia. reflexivity. }
  assert (N : n = Z.of_nat (Z.to_nat n)) by lia. revert N. generalize (Z.to_nat n) as c. intros c N. subst n. clear.
  revert f. induction c as [|c IH]; intros f; [reflexivity|].
  rewrite (tab_cons f), (tab_cons _ (2 * Z.of_nat (S c))), (tab_cons _ (2 * Z.of_nat (S c) - 1)) by lia.
  cbn [twice flat_map app]. fold (@twice A). replace (Z.of_nat (S c) - 1) with (Z.of_nat c) by lia.
  change (flat_map (fun a => [a; a]) ?l) with (twice l). rewrite IH. do 2 f_equal.
  replace (2 * Z.of_nat (S c) - 1 - 1) with (2 * Z.of_nat c) by lia. apply tab_ext. intros i _. f_equal.
  rewrite <- Z.add_assoc. change (1 + 1) with (1 * 2). rewrite Z.div_add by lia. reflexivity.
Qed.
Lemma enum_tab {A B} (g : Z -> A -> B) (f : Z -> A) n : enum g (tab f n) = tab (fun i => g i (f i)) n.
Proof.
  unfold enum. rewrite tab_length. destruct (Z.le_gt_cases n 0). { rewrite !tab_nil by lia. destruct (zseq _ _); reflexivity. }
  rewrite Z2Nat.id by lia. replace (zseq 0 n) with (tab (fun i => i) n) by apply map_id.
  rewrite combine_tab, tab_map, Z.min_id. reflexivity.
Qed.
Lemma rev_tab {A} (f : Z -> A) n : rev (tab f n) = tab (fun i => f (n - 1 - i)) n.
Proof.
  destruct (Z.le_gt_cases n 0). { rewrite !tab_nil by lia. reflexivity. }
  assert (N : n = Z.of_nat (Z.to_nat n)) by lia. revert N. generalize (Z.to_nat n) as c. intros c N. subst n. clear.
  revert f. induction c as [|c IH]; intros f; [reflexivity|].
  rewrite (tab_snoc f), (tab_cons (fun i => f (Z.of_nat (S c) - 1 - i))) by lia. rewrite rev_app_distr. cbn [rev app].
  f_equal; [f_equal; lia|]. replace (Z.of_nat (S c) - 1) with (Z.of_nat c) by lia. rewrite IH. apply tab_ext. intros i _. f_equal. lia.
Qed.

(** ** Execution *)
Fixpoint reads_s {t} (s : sexpr t) : list cvar :=
  match s with
  | SLit _ | SMem _ _ => [] | SLane r _ => [r] | SAdd a b | SMax a b => reads_s a ++ reads_s b | SIf _ a => reads_s a
  end.
Fixpoint reads {t} (x : vexpr t) : list cvar :=
  match x with
  | VReg r => [r]
  | VScal s | VSet1 s => reads_s s
  | VLoadu _ _ | VLoad1 _ _ | VLoad1Pair _ _ => []
  | VSet l => flat_map reads_s l
  | VSetPairs l => flat_map (fun p => reads_s (fst p) ++ reads_s (snd p)) l
  | VAdd a b | VSub a b | VMul a b | VMax a b | VShufPd a b _ | VShufPs a b _ => reads a ++ reads b
  | VAbs a | VAnd a _ | VOr a _ | VXor a _ | VPermPd a _ | VPermPs a _ => reads a
  end.
Lemma eval_s_ext {t} c (m : mem t) e e' s : (forall r, In r (reads_s s) -> e' r = e r) -> eval_s c m e' s = eval_s c m e s.
Proof.
  induction s as [x|p i|r i|a IHa b IHb|a IHa b IHb|k a IHa]; cbn [reads_s eval_s]; intros H; auto.
  - rewrite H by (left; auto). reflexivity.
  - rewrite IHa, IHb; auto; intros; apply H, in_or_app; auto.
  - rewrite IHa, IHb; auto; intros; apply H, in_or_app; auto.
  - rewrite IHa; auto.
Qed.
Lemma eval_ext {t} c (m : mem t) e e' (x : vexpr t) : (forall r, In r (reads x) -> e' r = e r) -> forall l, eval c m e' x l = eval c m e x l.
Proof.
  induction x; cbn [reads eval]; intros H ln; auto;
    try (rewrite ?IHx1, ?IHx2, ?IHx; auto; intros; apply H, in_or_app; auto; fail);
    try (apply eval_s_ext; auto; fail).
  - rewrite H by (left; auto). reflexivity.
  - f_equal. apply map_ext_in. intros s Hs. apply eval_s_ext. intros r Hr. apply H. apply in_flat_map. eauto.
  - f_equal. apply map_ext_in. intros s Hs. apply eval_s_ext. intros r Hr. apply H. apply in_flat_map.
    exists s. split; auto. apply in_or_app. destruct (ln mod 2 =? 0); auto.
Qed.

Lemma set_same {t} (e : env t) r x : set_reg e r x r = x.
Proof. unfold set_reg. destruct (cvar_dec r r); congruence. Qed.
Lemma set_other {t} (e : env t) r x r' : r' <> r -> set_reg e r x r' = e r'.
Proof. intros H. unfold set_reg. destruct (cvar_dec r' r); congruence. Qed.

Lemma execs_app {t} c (a b : list (prim t)) s : execs c (a ++ b) s = execs c b (execs c a s).
Proof. apply fold_left_app. Qed.
Lemma runs_app {t} c (a b : list (instr t)) s : runs c (a ++ b) s = runs c b (runs c a s).
Proof. apply fold_left_app. Qed.
Lemma runs_do {t} c (a : list (prim t)) s : runs c (map Do a) s = execs c a s.
Proof. revert s. induction a as [|p a IH]; intros s; [reflexivity|]. cbn [map]. apply (IH (exec c s p)). Qed.

(** What a line of assignments d 0 = .., ..., d (n-1) = .. does: x i is the value given to d i. *)
Definition assigned {t} (d : Z -> cvar) (x : Z -> Z -> F t) (n : Z) (s s' : state t) : Prop :=
  snd s' = snd s /\ (forall i l, 0 <= i < n -> fst s' (d i) l = x i l) /\
  (forall r, (forall i, 0 <= i < n -> r <> d i) -> fst s' r = fst s r).
Lemma exec_tab {t} c (d : Z -> cvar) (ex : Z -> vexpr t) n s :
  (forall i i', 0 <= i < n -> 0 <= i' < n -> d i = d i' -> i = i') ->
  (forall i i', 0 <= i' < i -> i < n -> ~ In (d i') (reads (ex i))) ->
  assigned d (fun i => eval c (snd s) (fst s) (ex i)) n s (execs c (tab (fun i => Let (d i) (ex i)) n) s).
Proof.
  intros INJ RD. destruct (Z.le_gt_cases n 0) as [N|N].
  { rewrite tab_nil by lia. split; [reflexivity|]. split; [lia|]. reflexivity. }
  assert (E : n = Z.of_nat (Z.to_nat n)) by lia. revert E INJ RD. generalize (Z.to_nat n) as k. intros k E. subst n. clear N.
  induction k as [|k IH]; intros INJ RD. { split; [reflexivity|]. split; [lia|]. reflexivity. }
  rewrite tab_snoc, execs_app by lia. replace (Z.of_nat (S k) - 1) with (Z.of_nat k) in * by lia.
  destruct IH as (I1 & I2 & I3). { intros; apply INJ; auto; lia. } { intros; apply RD; auto; lia. }
  set (s1 := execs c _ s) in *. clearbody s1. destruct s1 as [e1 m1], s as [e m]. cbn [fst snd] in *. subst m1.
  unfold execs. cbn [fold_left exec]. split; [reflexivity|]. cbn [fst snd]. split.
  - intros i l Hi. destruct (Z.eq_dec i (Z.of_nat k)) as [->|Ni].
    + rewrite set_same. apply eval_ext. intros r Hr. apply I3. intros i' Hi' ->. apply (RD (Z.of_nat k) i'); auto; lia.
    + rewrite set_other; [apply I2; lia|]. intros D. apply INJ in D; lia.
  - intros r Hr. rewrite set_other by (apply Hr; lia). apply I3. intros i Hi. apply Hr. lia.
Qed.
(** The same value given to several variables. *)
Lemma exec_chain {t} c (d : Z -> cvar) (x : vexpr t) n s : (forall i, 0 <= i < n -> ~ In (d i) (reads x)) ->
  assigned d (fun _ => eval c (snd s) (fst s) x) n s (execs c (chain (tab d n) x) s).
Proof.
  intros RD. unfold chain. rewrite <- map_rev || idtac. rewrite map_rev, tab_map, rev_tab.
  (* the values do not depend on the order *)
  destruct (Z.le_gt_cases n 0) as [N|N].
  { rewrite tab_nil by lia. split; [reflexivity|]. split; [lia|]. reflexivity. }
  assert (G : forall k, 0 <= k <= n ->
    let s' := execs c (tab (fun i => Let (d (n - 1 - i)) x) k) s in
    snd s' = snd s /\ (forall i l, n - k <= i < n -> fst s' (d i) l = eval c (snd s) (fst s) x l) /\
    (forall r, (forall i, 0 <= i < n -> r <> d i) -> fst s' r = fst s r)).
  { intros k [K0 K1]. rewrite <- (Z2Nat.id k) in K1 |- * by lia. generalize dependent (Z.to_nat k). clear k K0. intros k.
    induction k as [|k IH]; intros K. { split; [reflexivity|]. split; [lia|]. reflexivity. }
    rewrite tab_snoc, execs_app by lia. replace (Z.of_nat (S k) - 1) with (Z.of_nat k) in * by lia.
    destruct IH as (I1 & I2 & I3); [lia|]. set (s1 := execs c _ s) in *. clearbody s1. destruct s1 as [e1 m1], s as [e m]. cbn [fst snd] in *. subst m1.
    assert (EX : forall l, eval c m e1 x l = eval c m e x l).
    { apply eval_ext. intros r Hr. apply I3. intros i Hi ->. apply (RD i); auto. }
    unfold execs. cbn [fold_left exec]. split; [reflexivity|]. cbn [fst snd]. split.
    - intros i l Hi. destruct (cvar_dec (d i) (d (n - 1 - Z.of_nat k))) as [D|D].
      + rewrite D, set_same. apply EX.
      + rewrite set_other by auto. apply I2. assert (i <> n - 1 - Z.of_nat k) by (intros ->; auto). lia.
    - intros r Hr. rewrite set_other by (apply Hr; lia). apply I3. auto. }
  destruct (G n ltac:(lia)) as (G1 & G2 & G3). split; [exact G1|]. split; [|exact G3]. intros i l Hi. apply G2. lia.
Qed.

(** add_blp_into. *)
Lemma exec_blp {t} c v (d : Z -> cvar) (sr bl : Z -> vexpr t) nd ns nb w s :
  w <= nd -> w <= ns -> w <= nb ->
  (forall i i', 0 <= i < w -> 0 <= i' < w -> d i = d i' -> i = i') ->
  (forall i i', 0 <= i' < i -> i < w -> ~ In (d i') (reads (sr i)) /\ ~ In (d i') (reads (bl i))) ->
  (forall i, 0 <= i < w -> d i <> RBlp /\ ~ In RBlp (reads (sr i)) /\ ~ In RBlp (reads (bl i))) ->
  let s' := execs c (add_blp_into v (tab d nd) (tab sr ns) (tab bl nb) w) s in
  snd s' = snd s /\
  (forall i l, 0 <= i < w -> fst s' (d i) l = fadd (eval c (snd s) (fst s) (sr i) l) (or1 (eval c (snd s) (fst s) (bl i) l))) /\
  (forall r, r <> RBlp -> (forall i, 0 <= i < w -> r <> d i) -> fst s' r = fst s r).
Proof.
  intros Hd Hs Hb INJ RD BL. cbv zeta. unfold add_blp_into.
  assert (G : forall k, 0 <= k <= w ->
    let s' := execs c (flat_map (fun i =>
      let d := nth (Z.to_nat i) (tab d nd) RBlp in
      let s := nth (Z.to_nat i) (tab sr ns) (VScal (SLit fnan)) in
      let b := nth (Z.to_nat i) (tab bl nb) (VScal (SLit fnan)) in
      match v with
      | SISD => [Let RBlp b; Let RBlp (VOr (VReg RBlp) (fun _ => 1)); Let d (VAdd s (VReg RBlp))]
      | _ => [Let d (VAdd s (VOr b (blp_mask t)))]
      end) (zseq 0 k)) s in
    snd s' = snd s /\
    (forall i l, 0 <= i < k -> fst s' (d i) l = fadd (eval c (snd s) (fst s) (sr i) l) (or1 (eval c (snd s) (fst s) (bl i) l))) /\
    (forall r, r <> RBlp -> (forall i, 0 <= i < k -> r <> d i) -> fst s' r = fst s r)).
  { intros k [K0 K1]. rewrite <- (Z2Nat.id k) in K1 |- * by lia. generalize dependent (Z.to_nat k). clear k K0. intros k.
    induction k as [|k IH]; intros K. { split; [reflexivity|]. split; [lia|]. reflexivity. }
    replace (Z.of_nat (S k)) with (Z.of_nat k + 1) in * by lia. rewrite zseq_app, flat_map_app, execs_app by lia.
    destruct IH as (I1 & I2 & I3); [lia|]. set (s1 := execs c (flat_map _ (zseq 0 (Z.of_nat k))) s) in *. clearbody s1.
    destruct s1 as [e1 m1], s as [e m]. cbn [fst snd] in *. subst m1.
    rewrite (zseq_cons (0 + Z.of_nat k)), (zseq_nil _ (1 - 1)) by lia. cbn [flat_map]. rewrite app_nil_r, Z.add_0_l.
    rewrite !nth_tab by lia. set (kk := Z.of_nat k) in *.
    destruct (BL kk ltac:(lia)) as (B1 & B2 & B3).
    assert (EX : forall e', (forall r, In r (reads (sr kk)) \/ In r (reads (bl kk)) -> e' r = e1 r) ->
      (forall l, eval c m e' (sr kk) l = eval c m e (sr kk) l) /\ (forall l, eval c m e' (bl kk) l = eval c m e (bl kk) l)).
    { intros e' He. split; apply eval_ext; intros r Hr; (rewrite He by auto; apply I3; [intros ->; auto|]; intros i Hi ->;
        destruct (RD kk i ltac:(lia) ltac:(lia)); auto). }
    assert (DI : forall i, 0 <= i < kk -> d i <> d kk) by (intros i Hi D; apply INJ in D; lia).
    assert (FIN : forall e' x, (forall l, x l = fadd (eval c m e (sr kk) l) (or1 (eval c m e (bl kk) l))) ->
       (forall r, r <> RBlp -> r <> d kk -> e' r = e1 r) ->
       let s' := (set_reg e' (d kk) x, m) in
       snd s' = m /\ (forall i l, 0 <= i < kk + 1 -> fst s' (d i) l = fadd (eval c m e (sr i) l) (or1 (eval c m e (bl i) l))) /\
       (forall r, r <> RBlp -> (forall i, 0 <= i < kk + 1 -> r <> d i) -> fst s' r = e r)).
    { intros e' x X E'. cbv zeta. cbn [fst snd]. split; [reflexivity|]. split.
      - intros i l Hi. destruct (Z.eq_dec i kk) as [->|Ni].
        + rewrite set_same. apply X.
        + rewrite set_other by (apply DI; lia). rewrite E'; [apply I2; lia| |apply DI; lia]. apply BL. lia.
      - intros r R1 R2. rewrite set_other by (apply R2; lia). rewrite E' by (auto; apply R2; lia). apply I3; auto. intros i Hi. apply R2. lia. }
    unfold execs. destruct v; cbn [fold_left exec].
    - apply FIN.
      + intros l. cbn [eval]. rewrite !set_same.
        match goal with |- fadd (eval c m ?e' _ _) _ = _ => destruct (EX e') as [X1 _]; [|rewrite X1] end.
        { intros r Hr. assert (r <> RBlp) by (intros ->; tauto). rewrite !set_other by auto. reflexivity. }
        f_equal. unfold or1. do 3 f_equal. apply EX. auto.
      + intros r R1 R2. rewrite !set_other by auto. reflexivity.
    - apply FIN; auto. intros l. cbn [eval]. rewrite or_blp. destruct (EX e1) as [X1 X2]; auto. rewrite X1, X2. reflexivity.
    - apply FIN; auto. intros l. cbn [eval]. rewrite or_blp. destruct (EX e1) as [X1 X2]; auto. rewrite X1, X2. reflexivity. }
  destruct (Z.le_gt_cases w 0) as [W|W]; [|apply G; lia].
  rewrite zseq_nil by lia. split; [reflexivity|]. split; [lia|]. reflexivity.
Qed.
