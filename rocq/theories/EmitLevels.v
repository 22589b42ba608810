(** * One group of deposits of the generated kernels *)
From Coq Require Import ZArith Bool List Lia.
From Flocq Require Import Core BinarySingleNaN.
From Verif Require Import Fp Mem Binned Gen GenProofs Blas Emit EmitBits EmitExec.
Import ListNotations.
Open Scope Z_scope.

(** Variable holding word j of register i. *)
Definition word (ex : bool) (W j i : Z) : cvar := if ex then RS j i else RB (j * W + i).
Definition tmp (r : cvar) : Prop := match r with RQ _ | RT _ | RBlp => True | _ => False end.
Lemma word_inj ex W j i j' i' : 0 <= i < W -> 0 <= i' < W -> word ex W j i = word ex W j' i' -> j = j' /\ i = i'.
Proof.
  intros H H' E. destruct ex; cbn [word] in E; injection E; [auto|]. intros F.
  assert (j = j') by nia. subst j'. split; lia.
Qed.
Lemma word_not_tmp ex W j i : ~ tmp (word ex W j i).
Proof. destruct ex; cbn; auto. Qed.
Lemma word_not_x ex W j i k : word ex W j i <> RX k.
Proof. destruct ex; discriminate. Qed.
Lemma word_vars_tab ex W j : word_vars ex W j = tab (word ex W j) W.
Proof. destruct ex; reflexivity. Qed.

Ltac mins := repeat match goal with |- context [tab _ (Z.min ?a ?b)] =>
  first [rewrite (Z.min_l a b) by lia | rewrite (Z.min_r a b) by lia] end.
(** Side conditions of exec_tab and exec_blp: variables are different. *)
Ltac side := cbn [reads reads_s app In flat_map]; intros;
  repeat match goal with |- _ /\ _ => split end;
  intros; unfold not; intros;
  repeat match goal with H : _ \/ _ |- _ => destruct H | H : False |- _ => destruct H end;
  repeat match goal with H : @eq cvar _ _ |- _ => first [discriminate H | injection H; clear H; intros] end; try lia.
(** Execute the innermost line of the goal. *)
Ltac line M V Fr := match goal with
  | |- context [execs ?c (tab (fun i => Let (@?d i) (@?ex i)) ?n) ?s] => is_var s;
      let A := fresh in
      assert (A := exec_tab c d ex n s); cbn beta in A;
      destruct A as (M & V & Fr); [side|side|];
      let s1 := fresh "s" in set (s1 := execs c (tab (fun i => Let (d i) (ex i)) n) s) in *; clearbody s1; cbn beta in V, Fr; cbn [eval] in V
  end.

Ltac blp M V Fr := match goal with |- context [execs ?c (add_blp_into ?v (tab ?d ?nd) (tab ?sr ?ns) (tab ?bl ?nb) ?w) ?s] => is_var s;
      destruct (exec_blp c v d sr bl nd ns nb w s) as (M & V & Fr); [lia|lia|lia|side|side|side|];
      let s1 := fresh "s" in set (s1 := execs c (add_blp_into v (tab d nd) (tab sr ns) (tab bl nb) w) s) in *; clearbody s1; cbn [eval] in V end.

(** The first word, in bin 0. *)
Lemma suf_pos v cx : 0 < suf_width v cx. Proof. destruct v, cx; cbn; lia. Qed.
Definition compr {t} v cx (s : state t) (i l : Z) : F t := fst s (RComp (i mod suf_width v cx)) l.
Definition expan {t} v cx (s : state t) (i l : Z) : F t := fst s (RExp (i mod suf_width v cx)) l.
Definition maskv {t} v cx (s : state t) (i l : Z) : F t := fst s (RMask (i mod suf_width v cx)) l.
Definition first_w {t} v cx (s : state t) (i l : Z) (w x : F t) : F t := fadd w (or1 (fmul x (compr v cx s i l))).
Definition first_x {t} v (cx : bool) (s : state t) (i l : Z) (w x : F t) : F t :=
  let w' := first_w v cx s i l w x in
  if cx then fadd (fadd x (fmul (fsub w w') (expan v cx s i l))) (fmul (fsub w w') (maskv v cx s i l))
  else fadd (fadd x (fmul (fsub w w') (expan v cx s i l))) (fmul (fsub w w') (expan v cx s i l)).

Section Levels.
  Context {t : ty}.
  Variables (v : isa) (c : ctx).
  Variables (W reg xo nx : Z).
  Hypothesis HW : 0 <= reg <= W.
  Hypothesis HX : reg <= nx.
  Let x := tab (fun i => RX (xo + i)) nx.

  Definition lev_w (w x : F t) : F t := fadd w (or1 x).
  Definition lev_x (w x : F t) : F t := fadd x (fsub w (fadd w (or1 x))).

  (** Effect on word j and on the carried values. *)
  Definition level_effect (ex : bool) (j : Z) (fw fx : Z -> Z -> F t -> F t -> F t) (s s' : state t) : Prop :=
    snd s' = snd s /\
    (forall i l, 0 <= i < reg -> fst s' (word ex W j i) l = fw i l (fst s (word ex W j i) l) (fst s (RX (xo + i)) l)) /\
    (forall i l, 0 <= i < reg -> fst s' (RX (xo + i)) l = fx i l (fst s (word ex W j i) l) (fst s (RX (xo + i)) l)) /\
    (forall r, ~ tmp r -> (forall i, 0 <= i < reg -> r <> word ex W j i) -> (forall i, 0 <= i < Z.min nx W -> r <> RX (xo + i)) -> fst s' r = fst s r).

  Lemma level_exp_ok j s : level_effect true j (fun _ _ => lev_w) (fun _ _ => lev_x) s (execs c (level_exp v W reg x j) s).
  Proof.
    unfold level_exp, x, q_vars, s_vars, set_equal, rd, vsub, vadd.
    change (vars RQ W) with (tab RQ W). change (vars (RS j) W) with (tab (RS j) W).
    rewrite !upto_tab, !tab_map, !zipw_tab, !execs_app. mins.
    line M1 V1 F1.
    blp M2 V2 F2.
    line M3 V3 F3. line M4 V4 F4. clear x. unfold level_effect. cbn [word].
    split; [congruence|]. 
    assert (A : forall i l, 0 <= i < reg -> fst s1 (RS j i) l = lev_w (fst s (RS j i) l) (fst s (RX (xo + i)) l)).
    { intros i l Hi. rewrite V2 by auto. unfold lev_w. rewrite !F1 by (intros; discriminate). reflexivity. }
    assert (B : forall i, fst s2 (RX (xo + i)) = fst s (RX (xo + i))).
    { intros i. rewrite F3, F2, F1 by (intros; discriminate). reflexivity. }
    split; [|split].
    - intros i l Hi. rewrite F4, F3 by (intros; discriminate). apply A; auto.
    - intros i l Hi. rewrite V4, V3 by auto. rewrite B, A by auto. rewrite (F2 (RQ i)) by (intros; discriminate). rewrite V1 by auto. reflexivity.
    - intros r T R1 R2. rewrite F4, F3, F2, F1; auto; try (intros i Hi ->; exact (T I)); try (intros ->; exact (T I)).
      intros i Hi. apply R2. lia.
  Qed.

  Lemma level_buf_ok j s : level_effect false j (fun _ _ => lev_w) (fun _ _ => lev_x) s (execs c (level_buf v W reg x j) s).
  Proof.
    unfold level_buf, x, q_vars, t_vars, buffer_vars, set_equal, rd, vsub, vadd.
    change (vars RQ W) with (tab RQ W). change (vars RT W) with (tab RT W).
    change (vars (fun i => RB (j * W + i)) W) with (tab (fun i => RB (j * W + i)) W).
    rewrite !upto_tab, !tab_map, !zipw_tab, !execs_app. mins.
    line M1 V1 F1. blp M2 V2 F2. line M3 V3 F3. line M4 V4 F4. line M5 V5 F5. clear x. unfold level_effect. cbn [word].
    split; [congruence|].
    assert (A : forall i l, 0 <= i < reg -> fst s1 (RQ i) l = lev_w (fst s (RB (j * W + i)) l) (fst s (RX (xo + i)) l)).
    { intros i l Hi. rewrite V2 by auto. unfold lev_w. rewrite V1, !F1 by (auto; intros; discriminate). reflexivity. }
    split; [|split].
    - intros i l Hi. rewrite F5, F4, V3 by (auto; intros; discriminate). apply A; auto.
    - intros i l Hi. rewrite V5, V4 by auto. rewrite F4, F3, F2, F1 by (intros; discriminate).
      rewrite (F3 (RQ i)), (F3 (RT i)), A by (auto; intros; discriminate). rewrite (F2 (RT i)), V1 by (auto; intros; discriminate). reflexivity.
    - intros r T R1 R2. rewrite F5, F4, F3, F2, F1; auto; try (intros i Hi ->; exact (T I)); try (intros ->; exact (T I)).
      intros i Hi. apply R2. lia.
  Qed.

  Lemma first_exp_ok cx s : level_effect true 0 (first_w v cx s) (first_x v cx s) s (execs c (first_exp v cx W reg x) s).
  Proof.
    pose proof (suf_pos v cx) as SP.
    unfold first_exp, x, q_vars, s_vars, set_equal, vsub, vadd, vmul_cycle, vmul, comp_vars, exp_vars, mask_vars, rd. set (suf := suf_width v cx) in *.
    change (vars RQ W) with (tab RQ W). change (vars (RS 0) W) with (tab (RS 0) W).
    change (vars RComp suf) with (tab RComp suf). change (vars RExp suf) with (tab RExp suf). change (vars RMask suf) with (tab RMask suf).
    assert (SE : suf = suf_width v cx) by reflexivity. clearbody suf.
    unfold level_effect, first_x. cbn [word].
    destruct cx.
    - rewrite ?upto_tab, ?tab_map, ?zipw_tab, ?tab_length, ?cycle_tab, ?tab_map, ?zipw_tab, ?execs_app by exact SP. mins.
      line M1 V1 F1. blp M2 V2 F2. line M3 V3 F3. line M4 V4 F4. clear x.
      split; [congruence|].
      assert (A : forall i l, 0 <= i < reg -> fst s1 (RS 0 i) l = first_w v true s i l (fst s (RS 0 i) l) (fst s (RX (xo + i)) l)).
      { intros i l Hi. rewrite V2 by auto. unfold first_w, compr. rewrite <- SE. rewrite !F1 by (intros; discriminate). reflexivity. }
      split; [|split].
      + intros i l Hi. rewrite F4, F3 by (intros; discriminate). apply A; auto.
      + intros i l Hi. rewrite V4, V3 by auto. rewrite A by auto.
        rewrite !F3, !F2, (F1 (RX _)), (F1 (RExp _)), (F1 (RMask _)) by (intros; discriminate). rewrite V1 by auto. unfold expan, maskv. rewrite <- SE. reflexivity.
      + intros r T R1 R2. rewrite F4, F3, F2, F1; auto; try (intros i Hi ->; exact (T I)); try (intros ->; exact (T I)).
        intros i Hi. apply R2. lia.
    - rewrite ?upto_tab, ?tab_map, ?zipw_tab, ?tab_length, ?cycle_tab, ?tab_map, ?zipw_tab, ?execs_app by exact SP. mins.
      line M1 V1 F1. blp M2 V2 F2. line M3 V3 F3. line M4 V4 F4. clear x.
      split; [congruence|].
      assert (A : forall i l, 0 <= i < reg -> fst s1 (RS 0 i) l = first_w v false s i l (fst s (RS 0 i) l) (fst s (RX (xo + i)) l)).
      { intros i l Hi. rewrite V2 by auto. unfold first_w, compr. rewrite <- SE. rewrite !F1 by (intros; discriminate). reflexivity. }
      split; [|split].
      + intros i l Hi. rewrite F4, F3 by (intros; discriminate). apply A; auto.
      + intros i l Hi. rewrite V4, V3 by auto. rewrite A by auto.
        rewrite !F3, !F2, (F1 (RX _)), (F1 (RExp _)) by (intros; discriminate). rewrite V1 by auto. unfold expan, maskv. rewrite <- SE. reflexivity.
      + intros r T R1 R2. rewrite F4, F3, F2, F1; auto; try (intros i Hi ->; exact (T I)); try (intros ->; exact (T I)).
        intros i Hi. apply R2. lia.
  Qed.

  Lemma first_buf_ok cx s : level_effect false 0 (first_w v cx s) (first_x v cx s) s (execs c (first_buf v cx W reg x) s).
  Proof.
    pose proof (suf_pos v cx) as SP.
    unfold first_buf, x, q_vars, t_vars, buffer_vars, set_equal, vsub, vadd, vmul_cycle, vmul, comp_vars, exp_vars, mask_vars, rd. set (suf := suf_width v cx) in *.
    change (vars RQ W) with (tab RQ W). change (vars RT W) with (tab RT W).
    change (vars (fun i => RB (0 * W + i)) W) with (tab (fun i => RB (0 * W + i)) W).
    change (vars RComp suf) with (tab RComp suf). change (vars RExp suf) with (tab RExp suf). change (vars RMask suf) with (tab RMask suf).
    assert (SE : suf = suf_width v cx) by reflexivity. clearbody suf.
    unfold level_effect, first_x. cbn [word].
    destruct cx.
    - rewrite ?upto_tab, ?tab_map, ?zipw_tab, ?tab_length, ?cycle_tab, ?tab_map, ?zipw_tab, ?execs_app by exact SP. rewrite !Z.min_id. mins.
      replace (Z.min nx (Z.min (Z.min nx W) W)) with (Z.min nx W) by lia.
      line M1 V1 F1. blp M2 V2 F2. line M3 V3 F3. line M4 V4 F4. line M5 V5 F5. clear x.
      split; [congruence|].
      assert (A : forall i l, 0 <= i < reg -> fst s1 (RQ i) l = first_w v true s i l (fst s (RB (0 * W + i)) l) (fst s (RX (xo + i)) l)).
      { intros i l Hi. rewrite V2 by auto. unfold first_w, compr. rewrite <- SE. rewrite V1, !F1 by (auto; intros; discriminate). reflexivity. }
      split; [|split].
      + intros i l Hi. rewrite F5, F4, V3 by (auto; intros; discriminate). apply A; auto.
      + intros i l Hi. rewrite V5, V4 by (auto; lia).
        rewrite (F3 (RQ i)), A by (auto; intros; discriminate).
        rewrite (F4 (RX _)), (F4 (RExp _)), (F4 (RMask _)), !F3, !F2, (F1 (RX _)), (F1 (RExp _)), (F1 (RMask _)) by (intros; discriminate).
        rewrite V1 by auto. unfold expan, maskv. rewrite <- SE. reflexivity.
      + intros r T R1 R2. rewrite F5, F4, F3, F2, F1; auto; try (intros i Hi ->; exact (T I)); try (intros ->; exact (T I)).
    - rewrite ?upto_tab, ?tab_map, ?zipw_tab, ?tab_length, ?cycle_tab, ?tab_map, ?zipw_tab, ?execs_app by exact SP. mins.
      line M1 V1 F1. blp M2 V2 F2. line M3 V3 F3. line M4 V4 F4. line M5 V5 F5. clear x.
      split; [congruence|].
      assert (A : forall i l, 0 <= i < reg -> fst s1 (RQ i) l = first_w v false s i l (fst s (RB (0 * W + i)) l) (fst s (RX (xo + i)) l)).
      { intros i l Hi. rewrite V2 by auto. unfold first_w, compr. rewrite <- SE. rewrite V1, !F1 by (auto; intros; discriminate). reflexivity. }
      split; [|split].
      + intros i l Hi. rewrite F5, F4, V3 by (auto; intros; discriminate). apply A; auto.
      + intros i l Hi. rewrite V5, V4 by auto. rewrite (F3 (RQ i)), A by (auto; intros; discriminate).
        rewrite (F4 (RX _)), !F3, !F2, (F1 (RX _)), (F1 (RExp _)) by (intros; discriminate). rewrite V1 by auto. unfold expan, maskv. rewrite <- SE. reflexivity.
      + intros r T R1 R2. rewrite F5, F4, F3, F2, F1; auto; try (intros i Hi ->; exact (T I)); try (intros ->; exact (T I)).
        intros i Hi. apply R2. lia.
  Qed.

  (** The last word: the carried values are left alone. *)
  Lemma last_ok ex j s : let s' := execs c (add_blp_into v (word_vars ex W j) (rd (word_vars ex W j)) (rd x) reg) s in
    snd s' = snd s /\
    (forall i l, 0 <= i < reg -> fst s' (word ex W j i) l = lev_w (fst s (word ex W j i) l) (fst s (RX (xo + i)) l)) /\
    (forall r, ~ tmp r -> (forall i, 0 <= i < reg -> r <> word ex W j i) -> fst s' r = fst s r).
  Proof.
    rewrite word_vars_tab. unfold rd, x. rewrite !tab_map. cbv zeta.
    destruct (exec_blp c v (word ex W j) (fun i => VReg (word ex W j i)) (fun i => VReg (RX (xo + i))) W W nx reg s) as (M & V & Fr); try lia.
    - intros i i' Hi Hi' E. apply word_inj in E; lia.
    - intros i i' Hi Hi'. cbn [reads In]. split; intros [E|[]].
      + apply word_inj in E; lia.
      + symmetry in E. revert E. apply word_not_x.
    - intros i Hi. cbn [reads In]. destruct ex; repeat split; try discriminate; intros [E|[]]; discriminate E.
    - cbn [eval] in V. split; [exact M|]. split; [exact V|]. intros r T. apply Fr. intros ->. exact (T I).
  Qed.
End Levels.
