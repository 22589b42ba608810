(** * One group of the generated kernels, all words *)
From Coq Require Import ZArith Bool List Lia.
From Flocq Require Import Core BinarySingleNaN.
From Verif Require Import Fp Mem Binned Gen GenProofs Blas Emit EmitBits EmitExec EmitLevels.
Import ListNotations.
Open Scope Z_scope.

Lemma execs_flat {t A} c (f : A -> list (prim t)) l s : execs c (flat_map f l) s = fold_left (fun s a => execs c (f a) s) l s.
Proof. revert s. induction l as [|a l IH]; intros s; [reflexivity|]. cbn [flat_map fold_left]. rewrite execs_app. apply IH. Qed.

(** Value carried to word n by a deposit of x on words w lo, w (lo+1), ... *)
Fixpoint carry {t} (w : Z -> F t) (x : F t) (lo : Z) (n : nat) : F t :=
  match n with O => x | S n => lev_x (w (lo + Z.of_nat n)) (carry w x lo n) end.
Lemma carry_ext {t} (w w' : Z -> F t) x lo lo' n : (forall i, 0 <= i < Z.of_nat n -> w (lo + i) = w' (lo' + i)) -> carry w x lo n = carry w' x lo' n.
Proof. induction n as [|n IH]; intros H; [reflexivity|]. cbn [carry]. rewrite IH, H by (intros; try apply H; lia). reflexivity. Qed.
Lemma carry_shift {t} (w : Z -> F t) x lo n : carry w x lo (S n) = carry w (lev_x (w lo) x) (lo + 1) n.
Proof.
  induction n as [|n IH]. { cbn [carry]. rewrite Z.add_0_r. reflexivity. }
  cbn [carry] in IH |- *. rewrite IH. f_equal. f_equal. lia.
Qed.
Lemma kdep_nth {t} (s : list (F t)) : forall x n, (n < length s)%nat ->
  nth n (kdep s x) fnan = lev_w (nth n s fnan) (carry (fun j => nth (Z.to_nat j) s fnan) x 0 n).
Proof.
  induction s as [|a s IH]; intros x n H; [cbn in H; lia|].
  destruct n as [|n]. { destruct s; reflexivity. }
  destruct s as [|b s]; [cbn in H; lia|].
  change (kdep (a :: b :: s) x) with (lev_w a x :: kdep (b :: s) (lev_x a x)). cbn [nth]. change (nth n (b :: s) fnan) with (nth n (b :: s) fnan).
  rewrite IH by (cbn [length] in *; lia). rewrite carry_shift. f_equal. apply carry_ext. intros i Hi.
  replace (Z.to_nat (0 + 1 + i)) with (S (Z.to_nat (0 + i))) by lia. reflexivity.
Qed.

Lemma kdep_len {t} (s : list (F t)) : forall x, length (kdep s x) = length s.
Proof. induction s as [|a [|b s] IH]; intros x; [reflexivity|reflexivity|]. cbn [kdep length] in *. f_equal. apply IH. Qed.

Section Group.
  Context {t : ty}.
  Variables (v : isa) (c : ctx) (ex : bool).
  Variables (W reg xo nx : Z).
  Hypothesis HW : 0 <= reg <= W.
  Hypothesis HX : reg <= nx.
  Let x := tab (fun i => RX (xo + i)) nx.

  Lemma levels_ok (lev : Z -> list (prim t)) lo :
    (forall j s, level_effect W reg xo nx ex j (fun _ _ => lev_w) (fun _ _ => lev_x) s (execs c (lev j) s)) ->
    forall n s, let s' := fold_left (fun s j => execs c (lev j) s) (zseq lo (Z.of_nat n)) s in
    let w i l j := fst s (word ex W j i) l in
    snd s' = snd s /\
    (forall i l j, 0 <= i < reg -> lo <= j < lo + Z.of_nat n ->
       fst s' (word ex W j i) l = lev_w (w i l j) (carry (w i l) (fst s (RX (xo + i)) l) lo (Z.to_nat (j - lo)))) /\
    (forall i l, 0 <= i < reg -> fst s' (RX (xo + i)) l = carry (w i l) (fst s (RX (xo + i)) l) lo n) /\
    (forall r, ~ tmp r -> (forall j i, 0 <= i < reg -> lo <= j < lo + Z.of_nat n -> r <> word ex W j i) -> (forall i, 0 <= i < Z.min nx W -> r <> RX (xo + i)) -> fst s' r = fst s r).
  Proof.
    intros LV n s. induction n as [|n IH].
    { cbv zeta. change (zseq lo (Z.of_nat 0)) with (@nil Z). cbn [fold_left]. split; [reflexivity|]. split; [lia|]. split; [reflexivity|auto]. }
    cbv zeta in IH |- *. destruct IH as (I1 & I2 & I3 & I4).
    replace (Z.of_nat (S n)) with (Z.of_nat n + 1) by lia. rewrite zseq_app, fold_left_app by lia.
    rewrite (zseq_cons (lo + Z.of_nat n)), (zseq_nil _ (1 - 1)) by lia. cbn [fold_left].
    set (s1 := fold_left _ (zseq lo (Z.of_nat n)) s) in *. clearbody s1.
    destruct (LV (lo + Z.of_nat n) s1) as (L1 & L2 & L3 & L4). set (s2 := execs c (lev _) s1) in *. clearbody s2.
    assert (WW : forall i, 0 <= i < reg -> fst s1 (word ex W (lo + Z.of_nat n) i) = fst s (word ex W (lo + Z.of_nat n) i)).
    { intros i Hi. apply I4; [apply word_not_tmp| |].
      - intros j i' Hi' Hj E. apply word_inj in E; lia.
      - intros i' _. apply word_not_x. }
    split; [congruence|]. split; [|split].
    - intros i l j Hi Hj. destruct (Z.eq_dec j (lo + Z.of_nat n)) as [->|Nj].
      + rewrite L2, I3, WW by auto. do 2 f_equal. lia.
      + rewrite L4; [apply I2; lia|apply word_not_tmp| |intros; apply word_not_x].
        intros i' Hi' E. apply word_inj in E; lia.
    - intros i l Hi. rewrite L3, I3, WW by auto. reflexivity.
    - intros r T R1 R2. rewrite L4; auto.
      + apply I4; auto. intros j i Hi Hj. apply R1; lia.
      + intros i Hi. apply R1; lia.
  Qed.

  (** deposit.py: the statements of one group. *)
  Definition group (cx zero : bool) (fold : Z) : list (instr t) :=
    let lo := if zero then 1 else 0 in
    if ex then
      map Do ((if zero then first_exp v cx W reg x else []) ++
              flat_map (level_exp v W reg x) (zseq lo (fold - 1 - lo)) ++
              last_exp v W reg x (fold - 1))
    else
      map Do (if zero then first_buf v cx W reg x else []) ++
      [ForJ lo (fold - 1) (level_buf v W reg x)] ++
      map Do (last_buf v W reg x (Z.max lo (fold - 1))).

  Definition dep_of (cx zero : bool) (s : state t) (i l : Z) : list (F t) -> F t -> list (F t) :=
    if zero then
      if cx then kdep0z (compr v cx s i l) (expan v cx s i l) (maskv v cx s i l) else kdep0 (compr v cx s i l) (expan v cx s i l)
    else kdep.
  Definition words (fold : Z) (s : state t) (i l : Z) : list (F t) := map (fun j => fst s (word ex W j i) l) (zseq 0 fold).

  Lemma words_nth fold s i l j : 0 <= j < fold -> nth (Z.to_nat j) (words fold s i l) fnan = fst s (word ex W j i) l.
  Proof. intros H. apply (nth_tab (fun j => fst s (word ex W j i) l)). exact H. Qed.
  Lemma words_length fold s i l : length (words fold s i l) = Z.to_nat fold.
  Proof. unfold words. rewrite map_length. apply zseq_length. Qed.

  (** First word of process0. *)
  Lemma first_ok cx (s : state t) : level_effect W reg xo nx ex 0 (first_w v cx s) (first_x v cx s) s
    (execs c (if ex then first_exp v cx W reg x else first_buf v cx W reg x) s).
  Proof. destruct ex; [apply first_exp_ok|apply first_buf_ok]; auto. Qed.

  Lemma group_runs cx zero fold (s : state t) : (if ex then 2 else 1) <= fold ->
    runs c (group cx zero fold) s =
    let lo := if zero then 1 else 0 in
    let s := if zero then execs c (if ex then first_exp v cx W reg x else first_buf v cx W reg x) s else s in
    let s := fold_left (fun s j => execs c ((if ex then level_exp v W reg x else level_buf v W reg x) j) s) (zseq lo (fold - 1 - lo)) s in
    execs c (add_blp_into v (word_vars ex W (Z.max lo (fold - 1))) (rd (word_vars ex W (Z.max lo (fold - 1)))) (rd x) reg) s.
  Proof.
    intros Hf. unfold group. destruct ex.
    - rewrite runs_do, !execs_app, execs_flat. unfold last_exp, word_vars. rewrite Z.max_r by (destruct zero; lia).
      destruct zero; reflexivity.
    - rewrite !runs_app, !runs_do. unfold last_buf, word_vars. destruct zero; reflexivity.
  Qed.

  Lemma level_ok j (s : state t) : level_effect W reg xo nx ex j (fun _ _ => lev_w) (fun _ _ => lev_x) s
    (execs c ((if ex then level_exp v W reg x else level_buf v W reg x) j) s).
  Proof. destruct ex; [apply level_exp_ok|apply level_buf_ok]; auto. Qed.

  (** Levels lo .. fold-2 and the last word, from any state. *)
  Lemma tail_ok lo fold (s : state t) : 0 <= lo -> lo < fold ->
    let s' := execs c (add_blp_into v (word_vars ex W (fold - 1)) (rd (word_vars ex W (fold - 1))) (rd x) reg)
       (fold_left (fun s j => execs c ((if ex then level_exp v W reg x else level_buf v W reg x) j) s) (zseq lo (fold - 1 - lo)) s) in
    let w i l j := fst s (word ex W j i) l in
    snd s' = snd s /\
    (forall i l j, 0 <= i < reg -> lo <= j < fold ->
       fst s' (word ex W j i) l = lev_w (w i l j) (carry (w i l) (fst s (RX (xo + i)) l) lo (Z.to_nat (j - lo)))) /\
    (forall r, ~ tmp r -> (forall j i, 0 <= i < reg -> lo <= j < fold -> r <> word ex W j i) -> (forall i, 0 <= i < Z.min nx W -> r <> RX (xo + i)) -> fst s' r = fst s r).
  Proof.
    intros Hlo Hf. cbv zeta.
    destruct (levels_ok (if ex then level_exp v W reg x else level_buf v W reg x) lo level_ok (Z.to_nat (fold - 1 - lo)) s) as (I1 & I2 & I3 & I4).
    rewrite Z2Nat.id in I1, I2, I3, I4 by lia. set (s1 := fold_left _ _ s) in *. clearbody s1.
    destruct (last_ok v c W reg xo nx HW HX ex (fold - 1) s1) as (L1 & L2 & L3). fold x in L1, L2, L3.
    set (s2 := execs c (add_blp_into _ _ _ _ _) s1) in *. clearbody s2.
    split; [congruence|]. split.
    - intros i l j Hi Hj. destruct (Z.eq_dec j (fold - 1)) as [->|Nj].
      + rewrite L2, I3 by auto. rewrite I4; [do 2 f_equal; lia|apply word_not_tmp| |intros; apply word_not_x].
        intros j' i' Hi' Hj' E. apply word_inj in E; lia.
      + rewrite L3; [apply I2; lia|apply word_not_tmp|]. intros i' Hi' E. apply word_inj in E; lia.
    - intros r T R1 R2. rewrite L3 by (auto; intros; apply R1; lia). apply I4; auto. intros j i Hi Hj. apply R1; lia.
  Qed.

  Theorem group_ok cx zero fold (s : state t) : (if ex then 2 else 1) <= fold ->
    let s' := runs c (group cx zero fold) s in
    snd s' = snd s /\
    (forall i l, 0 <= i < reg -> words fold s' i l = dep_of cx zero s i l (words fold s i l) (fst s (RX (xo + i)) l)) /\
    (forall r, ~ tmp r -> (forall j i, 0 <= i < reg -> r <> word ex W j i) -> (forall i, 0 <= i < Z.min nx W -> r <> RX (xo + i)) -> fst s' r = fst s r).
  Proof.
    intros Hf. cbv zeta. rewrite group_runs by exact Hf. cbv zeta.
    assert (F1 : 1 <= fold) by (destruct ex; lia).
    destruct zero.
    - destruct (first_ok cx s) as (A1 & A2 & A3 & A4).
      set (s1 := execs c (if ex then _ else _) s) in *. clearbody s1.
      assert (WW : forall i j, 0 <= i < reg -> j <> 0 -> fst s1 (word ex W j i) = fst s (word ex W j i)).
      { intros i j Hi Hj. apply A4; [apply word_not_tmp| |intros; apply word_not_x]. intros i' Hi' E. apply word_inj in E; lia. }
      (* the words after the first one, of either kind *)
      assert (DEP : forall i l w0 s', words fold s i l = w0 :: s' ->
        dep_of cx true s i l (words fold s i l) (fst s (RX (xo + i)) l) =
        first_w v cx s i l w0 (fst s (RX (xo + i)) l) :: kdep s' (first_x v cx s i l w0 (fst s (RX (xo + i)) l))).
      { intros i l w0 s' E. rewrite E. unfold dep_of, first_x. destruct cx; reflexivity. }
      assert (WC : forall s i l, words fold s i l = fst s (word ex W 0 i) l :: map (fun j => fst s (word ex W j i) l) (zseq 1 (fold - 1))).
      { intros s0 i l. unfold words. rewrite zseq_cons by lia. reflexivity. }
      destruct (Z.eq_dec fold 1) as [E1|E1].
      + subst fold. rewrite (zseq_nil 1 (1 - 1 - 1)) by lia. cbn [fold_left]. rewrite Z.max_l by lia.
        destruct (last_ok v c W reg xo nx HW HX ex 1 s1) as (L1 & L2 & L3). fold x in L1, L2, L3.
        set (s2 := execs c (add_blp_into _ _ _ _ _) s1) in *. clearbody s2.
        split; [congruence|]. split.
        * intros i l Hi. rewrite (DEP i l _ _ (WC s i l)), (WC s2). change (zseq 1 (1 - 1)) with (@nil Z). cbn [map kdep]. f_equal.
          rewrite L3; [apply A2; auto|apply word_not_tmp|]. intros i' Hi' E. apply word_inj in E; lia.
        * intros r T R1 R2. rewrite L3 by auto. apply A4; auto.
      + rewrite Z.max_r by lia. destruct (tail_ok 1 fold s1 ltac:(lia) ltac:(lia)) as (T1 & T2 & T3).
        set (s2 := execs c (add_blp_into _ _ _ _ _) _) in *. clearbody s2.
        split; [congruence|]. split.
        * intros i l Hi. rewrite (DEP i l _ _ (WC s i l)), (WC s2). f_equal.
          { rewrite T3; [apply A2; auto|apply word_not_tmp| |intros; apply word_not_x]. intros j i' Hi' Hj E. apply word_inj in E; lia. }
          set (ws := map (fun j => fst s (word ex W j i) l) (zseq 1 (fold - 1))).
          assert (WT : forall s : state t, map (fun j => fst s (word ex W j i) l) (zseq 1 (fold - 1)) = tab (fun j => fst s (word ex W (j + 1) i) l) (fold - 1)).
          { intros s0. unfold tab. rewrite (zseq_from0 1), map_map. reflexivity. }
          apply (nth_ext _ _ fnan fnan).
          { rewrite kdep_len. unfold ws. rewrite !WT, !tab_length. reflexivity. }
          intros n Hn. rewrite WT, tab_length in Hn. rewrite kdep_nth by (unfold ws; rewrite WT, tab_length; exact Hn).
          rewrite WT. rewrite <- (Nat2Z.id n) at 1 2. unfold ws. rewrite !WT, !nth_tab by lia.
          rewrite T2 by lia. rewrite A3 by auto. rewrite !WW by (auto; lia). f_equal.
          replace (Z.to_nat (Z.of_nat n + 1 - 1)) with n by lia. apply carry_ext. intros k Hk. rewrite WW by lia. rewrite nth_tab by lia. f_equal. f_equal. lia.
        * intros r T R1 R2. rewrite T3 by (auto; intros; apply R1; lia). apply A4; auto.
    - rewrite Z.max_r by lia. destruct (tail_ok 0 fold s ltac:(lia) ltac:(lia)) as (T1 & T2 & T3).
      set (s2 := execs c (add_blp_into _ _ _ _ _) _) in *. clearbody s2.
      split; [congruence|]. split.
      + intros i l Hi. unfold dep_of. apply (nth_ext _ _ fnan fnan). { rewrite kdep_len, !words_length. reflexivity. }
        intros n Hn. rewrite words_length in Hn. rewrite kdep_nth by (rewrite words_length; exact Hn).
        rewrite <- (Nat2Z.id n) at 1 2. rewrite !words_nth by lia. rewrite T2 by lia. f_equal.
        rewrite Z.sub_0_r, Nat2Z.id. apply carry_ext. intros k Hk. rewrite words_nth by lia. reflexivity.
      + intros r T R1 R2. apply T3; auto.
  Qed.
End Group.
