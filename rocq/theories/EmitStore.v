(** * Words to variables and back *)
From Coq Require Import ZArith Bool List Lia.
From Flocq Require Import Core BinarySingleNaN.
From Verif Require Import Fp Mem Binned MemProofs ComplexProofs Gen GenProofs Blas BlasZ LaneProofs Emit EmitBits EmitExec EmitLevels EmitGroup EmitLoad EmitPrep EmitRun.
Import ListNotations.
Open Scope Z_scope.

(** ** propagate_into *)
Definition cell (cx : bool) (acc inc j c : Z) : Z := acc + c + j * (dsize cx * inc).

Lemma index_cell cx acc inc j c : 0 <= c < dsize cx -> acc + index cx j (Var inc) c = cell cx acc inc j c.
Proof.
  intros H. unfold index, cell. cbn [incv]. destruct cx; cbn [dsize] in *.
  - rewrite Z.div_small, Z.mod_small by lia. ring.
  - assert (c = 0) by lia. subst c. ring.
Qed.

Lemma propagate_ok {t} v cx (d : Z -> cvar) n acc inc j c (s : state t) : at_ c PAcc = acc ->
  (v = SISD -> cx = true -> (2 | n)) -> (forall i i', 0 <= i < n -> 0 <= i' < n -> d i = d i' -> i = i') ->
  let s' := execs c (propagate_into v cx (tab d n) PAcc j (Var inc)) s in
  snd s' = snd s /\
  (forall i l, 0 <= i < n -> 0 <= l < bsize v t -> fst s' (d i) l = snd s (cell cx acc inc j ((i * bsize v t + l) mod dsize cx))) /\
  (forall r, (forall i, 0 <= i < n -> r <> d i) -> fst s' r = fst s r).
Proof.
  intros PA EV INJ. cbv zeta.
  assert (CH : forall x : vexpr t, reads x = [] ->
    (forall i l, 0 <= i < n -> 0 <= l < bsize v t -> eval c (snd s) (fst s) x l = snd s (cell cx acc inc j ((i * bsize v t + l) mod dsize cx))) ->
    let s' := execs c (chain (tab d n) x) s in
    snd s' = snd s /\
    (forall i l, 0 <= i < n -> 0 <= l < bsize v t -> fst s' (d i) l = snd s (cell cx acc inc j ((i * bsize v t + l) mod dsize cx))) /\
    (forall r, (forall i, 0 <= i < n -> r <> d i) -> fst s' r = fst s r)).
  { intros x R E. destruct (exec_chain c d x n s) as (M & V & Fr); [intros i Hi; rewrite R; intros []|]. cbv zeta.
    split; [exact M|]. split; [|exact Fr]. intros i l Hi Hl. rewrite V by auto. apply E; auto. }
  assert (C0 : forall i, acc + index false j (Var inc) 0 = cell false acc inc j (i mod 1)).
  { intros i. rewrite Z.mod_1_r. apply index_cell. cbn; lia. }
  assert (PAR : vector v = true -> forall i l, (i * bsize v t + l) mod 2 = l mod 2) by (intros; apply lane_parity; auto).
  destruct cx.
  - destruct v.
    + (* SISD complex *)
      assert (PI : propagate_into SISD true (tab d n) PAcc j (Var inc) = chain (evens (tab d n)) (VScal (t:=t) (SMem PAcc (index true j (Var inc) 0))) ++ chain (odds (tab d n)) (VScal (SMem PAcc (index true j (Var inc) 1)))) by (destruct t; reflexivity).
      rewrite PI, execs_app, evens_tab, odds_tab. clear PI. destruct (EV eq_refl eq_refl) as [q Eq].
      replace ((n + 1) / 2) with q by (subst n; apply (Z.div_unique _ 2 q 1); lia). replace (n / 2) with q by (subst n; rewrite Z.div_mul; lia).
      destruct (exec_chain c (fun i => d (2 * i)) (VScal (t:=t) (SMem PAcc (index true j (Var inc) 0))) q s) as (M & V & Fr); [intros i Hi []|].
      set (s1 := execs c _ s) in *. clearbody s1.
      destruct (exec_chain c (fun i => d (2 * i + 1)) (VScal (t:=t) (SMem PAcc (index true j (Var inc) 1))) q s1) as (M2 & V2 & Fr2); [intros i Hi []|].
      set (s2 := execs c _ s1) in *. clearbody s2. cbn [eval eval_s] in *. rewrite PA, index_cell in * by (cbn; lia). split; [congruence|]. split.
      * intros i l Hi Hl. rewrite sisd_bs in *. assert (l = 0) by lia. subst l. rewrite Z.mul_1_r, Z.add_0_r. cbn [dsize].
        pose proof (Z.div_mod i 2 ltac:(lia)) as DM. pose proof (Z.mod_pos_bound i 2 ltac:(lia)) as MB. set (h := i / 2) in *. set (r := i mod 2) in *. clearbody h r.
        assert (R : r = 0 \/ r = 1) by lia. destruct R as [-> | ->].
        -- rewrite Fr2; [|intros i' Hi' E; apply INJ in E; lia]. replace i with (2 * h) by lia. apply V. lia.
        -- replace i with (2 * h + 1) by lia. rewrite V2 by lia. rewrite M. reflexivity.
      * intros r Hr. rewrite Fr2, Fr; auto; intros i Hi; apply Hr; lia.
    + destruct t.
      * apply CH; [reflexivity|]. intros i l Hi Hl. cbn [eval]. rewrite PA, index_cell by (cbn; lia). rewrite PAR by reflexivity. unfold cell. cbn [dsize] in *.
        f_equal. change (bsize SSE Dbl) with 2 in Hl. rewrite Z.mod_small by lia. ring.
      * apply CH; [reflexivity|]. intros i l Hi Hl. cbn [eval]. rewrite PA, index_cell by (cbn; lia). rewrite PAR by reflexivity. unfold cell. cbn [dsize]. f_equal. ring.
    + apply CH; [destruct t; reflexivity|]. intros i l Hi Hl. destruct t; cbn [eval]; rewrite PA, index_cell by (cbn; lia); rewrite PAR by reflexivity; unfold cell; cbn [dsize]; f_equal; ring.
  - destruct v; apply CH; try reflexivity; intros i l Hi Hl; cbn [eval eval_s]; rewrite PA; f_equal; apply C0.
Qed.

(** ** The constants of bin 0 *)
Lemma one_reg {t} c (s : state t) r x : execs c [Let r x] s = (set_reg (fst s) r (eval c (snd s) (fst s) x), snd s).
Proof. destruct s. reflexivity. Qed.
Definition const_effect {t} (v : isa) (cx : bool) (R : Z -> cvar) (x : Z -> F t) (s s' : state t) : Prop :=
  snd s' = snd s /\
  (forall i l, 0 <= i -> 0 <= l < bsize v t -> fst s' (R (i mod suf_width v cx)) l = x ((i * bsize v t + l) mod dsize cx)) /\
  (forall r, (forall i, r <> R i) -> fst s' r = fst s r).
Lemma set_ri_ok {t} v c (R : Z -> cvar) (re im : F t) (s : state t) : R 0 <> R 1 ->
  const_effect v true R (fun q => if q =? 0 then re else im) s (execs c (set_cycle (vars R (suf_width v true)) (set_real_imag v re im)) s).
Proof.
  intros NE. unfold const_effect. destruct v.
  - change (set_cycle _ _) with [Let (R 0) (VScal (SLit re)); Let (R 1) (VScal (SLit im))]. destruct s as [e m]. unfold execs. cbn [fold_left exec fst snd].
    split; [reflexivity|]. split.
    + intros i l Hi Hl. rewrite sisd_bs in *. assert (l = 0) by lia. subst l. rewrite Z.mul_1_r, Z.add_0_r. cbn [dsize suf_width].
      pose proof (Z.mod_pos_bound i 2 ltac:(lia)) as MB. set (r := i mod 2) in *. clearbody r. assert (C : r = 0 \/ r = 1) by lia. destruct C as [-> | ->].
      * rewrite set_other, set_same by auto. reflexivity.
      * rewrite set_same. reflexivity.
    + intros r Hr. rewrite !set_other by auto. reflexivity.
  - set (x := match t with Dbl => VSet [SLit im; SLit re] | Flt => VSet [SLit im; SLit re; SLit im; SLit re] end : vexpr t).
    replace (set_cycle _ _) with [Let (R 0) x] by (unfold x; destruct t; reflexivity). rewrite one_reg. cbn [fst snd].
    split; [reflexivity|]. split; [|intros r Hr; rewrite set_other by auto; reflexivity].
    intros i l Hi Hl. cbn [suf_width]. rewrite Z.mod_1_r, set_same. cbn [dsize]. rewrite lane_parity by reflexivity.
    pose proof (bsize_8 _ _ _ Hl) as R8. apply range8 in R8. unfold x. destruct t;
      [change (bsize SSE Dbl) with 2 in Hl|change (bsize SSE Flt) with 4 in Hl]; decompose [or] R8; subst l; try lia; reflexivity.
  - set (x := match t with Dbl => VSet [SLit im; SLit re; SLit im; SLit re] | Flt => VSet [SLit im; SLit re; SLit im; SLit re; SLit im; SLit re; SLit im; SLit re] end : vexpr t).
    replace (set_cycle _ _) with [Let (R 0) x] by (unfold x; destruct t; reflexivity). rewrite one_reg. cbn [fst snd].
    split; [reflexivity|]. split; [|intros r Hr; rewrite set_other by auto; reflexivity].
    intros i l Hi Hl. cbn [suf_width]. rewrite Z.mod_1_r, set_same. cbn [dsize]. rewrite lane_parity by reflexivity.
    pose proof (bsize_8 _ _ _ Hl) as R8. apply range8 in R8. unfold x. destruct t;
      [change (bsize AVX Dbl) with 4 in Hl|change (bsize AVX Flt) with 8 in Hl]; decompose [or] R8; subst l; try lia; reflexivity.
Qed.
Lemma set_all_ok {t} v cx c (R : Z -> cvar) (x : F t) (s : state t) : R 0 <> R 1 ->
  const_effect v cx R (fun _ => x) s (execs c (set_cycle (vars R (suf_width v cx)) (vset v x)) s).
Proof.
  intros NE. unfold const_effect.
  destruct v, cx;
  try ( match goal with |- context [set_cycle ?a (vset ?v ?b)] => let q := eval cbv [vset] in (hd (VReg RInv) (vset v b)) in change (set_cycle a (vset v b)) with [Let (R 0) (hd (VReg RInv) (vset v b))] end;
    rewrite one_reg; cbn [fst snd suf_width dsize]; split; [reflexivity|]; split;
    [intros i l Hi Hl; rewrite Z.mod_1_r, set_same; reflexivity|intros r Hr; rewrite set_other by auto; reflexivity]).
  change (set_cycle _ _) with [Let (R 0) (VScal (SLit x)); Let (R 1) (VScal (SLit x))]. destruct s as [e m]. unfold execs. cbn [fold_left exec fst snd].
  split; [reflexivity|]. split.
  - intros i l Hi Hl. cbn [suf_width dsize].
    pose proof (Z.mod_pos_bound i 2 ltac:(lia)) as MB. set (r := i mod 2) in *. clearbody r. assert (C : r = 0 \/ r = 1) by lia. destruct C as [-> | ->].
    + rewrite set_other, set_same by auto. reflexivity.
    + rewrite set_same. reflexivity.
  - intros r Hr. rewrite !set_other by auto. reflexivity.
Qed.

(** What one deposit does, by component. *)
Definition gdep (t : ty) (cx zr zi : bool) (q : Z) : list (F t) -> F t -> list (F t) :=
  if cx then zdep (zr || zi) (if q =? 0 then zr else zi)
  else if zr then kdep0 (COMPRESSION t) (fmul (EXPANSION t) (mkf 1 (-1))) else kdep.

Lemma constants_ok {t} v (cx zr zi : bool) c (s : state t) : let zero := if cx then zr || zi else zr in zero = true ->
  let s' := execs c (constants v cx zr zi) s in
  snd s' = snd s /\
  (forall i l, 0 <= i -> 0 <= l < bsize v t -> dep_of v cx true s' i l = gdep t cx zr zi ((i * bsize v t + l) mod dsize cx)) /\
  (forall r, (forall i, r <> RComp i /\ r <> RExp i /\ r <> RMask i) -> fst s' r = fst s r).
Proof.
  intros zero HZ. cbv zeta. subst zero. unfold constants, comp_vars, exp_vars, mask_vars.
  set (comp := COMPRESSION t). set (half := fmul (EXPANSION t) (mkf 1 (-1))). 
  assert (N1 : RComp 0 <> RComp 1) by discriminate. assert (N2 : RExp 0 <> RExp 1) by discriminate. assert (N3 : RMask 0 <> RMask 1) by discriminate.
  destruct cx.
  - assert (THREE : forall (A B C : list (prim t)) (a b m : Z -> F t),
      (forall s : state t, const_effect v true RComp a s (execs c A s)) -> (forall s : state t, const_effect v true RExp b s (execs c B s)) -> (forall s : state t, const_effect v true RMask m s (execs c C s)) ->
      (forall q, 0 <= q < 2 -> kdep0z (a q) (b q) (m q) = gdep t true zr zi q) ->
      let s' := execs c (A ++ B ++ C) s in
      snd s' = snd s /\
      (forall i l, 0 <= i -> 0 <= l < bsize v t -> dep_of v true true s' i l = gdep t true zr zi ((i * bsize v t + l) mod dsize true)) /\
      (forall r, (forall i, r <> RComp i /\ r <> RExp i /\ r <> RMask i) -> fst s' r = fst s r)).
    { intros A B C a b m HA HB HC Q. cbv zeta. rewrite !execs_app.
      destruct (HA s) as (A1 & A2 & A3). set (s1 := execs c A s) in *. clearbody s1.
      destruct (HB s1) as (B1 & B2 & B3). set (s2 := execs c B s1) in *. clearbody s2.
      destruct (HC s2) as (C1 & C2 & C3). set (s3 := execs c C s2) in *. clearbody s3.
      split; [congruence|]. split.
      - intros i l Hi Hl. unfold dep_of, compr, expan, maskv. rewrite C2 by auto. rewrite !C3 by discriminate. rewrite B2, B3 by (auto; discriminate). rewrite A2 by auto.
        apply Q. cbn [dsize]. apply Z.mod_pos_bound. lia.
      - intros r Hr. rewrite C3, B3, A3; auto; intros i; apply Hr. }
    assert (QQ : forall q, 0 <= q < 2 -> q = 0 \/ q = 1) by (intros; lia).
    destruct zr.
    + destruct zi.
      * apply (THREE _ _ _ (fun _ => comp) (fun _ => half) (fun _ => half)); try (intros; apply set_all_ok; assumption).
        intros q Hq. apply QQ in Hq. destruct Hq as [-> | ->]; reflexivity.
      * apply (THREE _ _ _ (fun q => if q =? 0 then comp else one) (fun q => if q =? 0 then half else one) (fun q => if q =? 0 then half else fzero)); try (intros; apply set_ri_ok; assumption).
        intros q Hq. apply QQ in Hq. destruct Hq as [-> | ->]; reflexivity.
    + cbn [orb] in HZ. apply (THREE _ _ _ (fun q => if q =? 0 then one else comp) (fun q => if q =? 0 then one else half) (fun q => if q =? 0 then fzero else half)); try (intros; apply set_ri_ok; assumption).
      intros q Hq. apply QQ in Hq. rewrite HZ. destruct Hq as [-> | ->]; reflexivity.
  - rewrite execs_app. destruct (set_all_ok v false c RComp comp s N1) as (A1 & A2 & A3). set (s1 := execs c _ s) in *. clearbody s1.
    destruct (set_all_ok v false c RExp half s1 N2) as (B1 & B2 & B3). set (s2 := execs c _ s1) in *. clearbody s2.
    split; [congruence|]. split.
    + intros i l Hi Hl. unfold dep_of, compr, expan, gdep. rewrite B2, B3 by (auto; discriminate). rewrite A2 by auto. rewrite HZ. reflexivity.
    + intros r Hr. rewrite B3, A3; auto; intros i; apply Hr.
Qed.

(** ** consolidate_into *)
Lemma adds_ok {t} c d (l : list cvar) : d <> RCons -> (forall r, In r l -> r <> d) -> forall (s : state t),
  let s' := execs c (map (fun r => Let d (VAdd (VReg d) (VSub (VReg r) (VReg RCons)))) l) s in
  snd s' = snd s /\
  (forall k, fst s' d k = fold_left (fun a r => fadd a (fsub (fst s r k) (fst s RCons k))) l (fst s d k)) /\
  (forall r, r <> d -> fst s' r = fst s r).
Proof.
  intros ND. induction l as [|r l IH]; intros HL s; cbv zeta; cbn [map fold_left].
  { split; [reflexivity|]. split; reflexivity. }
  change (execs c (?a :: ?b) s) with (execs c b (execs c [a] s)). rewrite one_reg.
  destruct (IH ltac:(intros; apply HL; right; auto) (set_reg (fst s) d (eval c (snd s) (fst s) (VAdd (VReg d) (VSub (VReg r) (VReg RCons)))), snd s)) as (I1 & I2 & I3).
  set (s2 := execs c _ _) in *. clearbody s2. cbn [fst snd] in *. split; [exact I1|]. split.
  - intros k. rewrite I2, set_same. cbn [eval]. 
    assert (E : forall a, fold_left (fun a r0 => fadd a (fsub (set_reg (fst s) d (fun l0 => fadd (fst s d l0) (fsub (fst s r l0) (fst s RCons l0))) r0 k) (set_reg (fst s) d (fun l0 => fadd (fst s d l0) (fsub (fst s r l0) (fst s RCons l0))) RCons k))) l a =
      fold_left (fun a r => fadd a (fsub (fst s r k) (fst s RCons k))) l a); [|apply E].
    assert (HL' : forall r, In r l -> r <> d) by (intros; apply HL; right; auto). clear -HL' ND.
    induction l as [|r' l IH]; intros a; [reflexivity|]. cbn [fold_left]. rewrite IH by (intros; apply HL'; right; auto). f_equal.
    rewrite !set_other; auto. apply HL'. left. reflexivity.
  - intros r' Hr. rewrite I3, set_other by auto. reflexivity.
Qed.

Lemma fold_map {A B C} (f : C -> B -> C) (g : A -> B) l : forall a, fold_left f (map g l) a = fold_left (fun a x => f a (g x)) l a.
Proof. induction l as [|x l IH]; intros a; [reflexivity|]. apply IH. Qed.
Lemma fold_ext {A B} (f g : B -> A -> B) l : (forall b a, In a l -> f b a = g b a) -> forall b, fold_left f l b = fold_left g l b.
Proof.
  induction l as [|a l IH]; intros H b; [reflexivity|]. cbn [fold_left]. rewrite H by (left; reflexivity). apply IH. intros; apply H. right; auto.
Qed.
Lemma sum_lanes_val {t} c (m : mem t) e r g n : 0 < n ->
  eval_s c m e (sum_lanes r (map g (zseq 0 n))) = fold_left (fun a i => fadd a (e r (g i))) (zseq 1 (n - 1)) (e r (g 0)).
Proof.
  intros Hn. rewrite (zseq_cons 0) by lia. cbn [map sum_lanes]. rewrite fold_map. change (0 + 1) with 1. generalize (zseq 1 (n - 1)) as l.
  assert (G : forall l (s : sexpr t), eval_s c m e (fold_left (fun s i => SAdd s (SLane r (g i))) l s) = fold_left (fun a i => fadd a (e r (g i))) l (eval_s c m e s)).
  { induction l as [|x l IH]; intros s; [reflexivity|]. cbn [fold_left]. rewrite IH. reflexivity. }
  intros l. apply G.
Qed.

(** The values subtracted from the first register (with one element per register there is no such line). *)
Definition common {t} (v : isa) (cx : bool) (a b z : sexpr t) : vexpr t :=
  match v, cx, t with
  | SSE, false, Flt => VSet [a; a; a; z]
  | SSE, false, Dbl => VSet [a; z]
  | SSE, true, Flt => VSet [b; a; z; z]
  | _, false, Flt => VSet [a; a; a; a; a; a; a; z]
  | _, false, Dbl => VSet [a; a; a; z]
  | _, true, Flt => VSet [b; a; b; a; b; a; z; z]
  | _, true, Dbl => VSet [b; a; z; z]
  end.
Lemma common_val {t} v cx (a b z : sexpr t) c m e k : vector v = true -> tsize v t cx =? 1 = false -> 0 <= k < bsize v t ->
  eval c m e (common v cx a b z) k = if k <? dsize cx then eval_s c m e z else if k mod dsize cx =? 0 then eval_s c m e a else eval_s c m e b.
Proof.
  intros V T Hk. pose proof (bsize_8 _ _ _ Hk) as R8. apply range8 in R8.
  destruct v, t, cx; try discriminate V; try discriminate T;
    match type of Hk with 0 <= _ < ?b => let x := eval cbv in b in change b with x in Hk end;
    decompose [or] R8; subst k; try lia; reflexivity.
Qed.
Lemma consolidate_split {t} v cx j inc (src : list cvar) : vector v = true ->
  let a := SMem (t:=t) PAcc (index cx j inc 0) in
  let b := SMem (t:=t) PAcc (index cx j inc 1) in
  let s0 := nth 0 src RCons in
  consolidate_into v cx j inc src =
    ((if tsize v t cx =? 1 then [] else [Let s0 (VSub (VReg s0) (common v cx a b (SLit fzero)))]) ++
     (if 1 <? Z.of_nat (length src) then propagate_into v cx [RCons] PAcc j inc ++
        map (fun r => Let s0 (VAdd (VReg s0) (VSub (VReg r) (VReg RCons)))) (from 1 src) else []) ++
     [Let RConsBuf (VReg s0)]) ++
    (if cx then
       [Store PAcc (index cx j inc 0) (sum_lanes RConsBuf (map (fun i => 2 * i) (zseq 0 (tsize v t cx))));
        Store PAcc (index cx j inc 1) (sum_lanes RConsBuf (map (fun i => 2 * i + 1) (zseq 0 (tsize v t cx))))]
     else [Store PAcc (index cx j inc 0) (sum_lanes RConsBuf (zseq 0 (bsize v t)))]).
Proof.
  intros V. cbv zeta. rewrite <- !app_assoc.
  destruct v; [discriminate V| |]; destruct cx, t; unfold consolidate_into; reflexivity.
Qed.

Section Consolidate.
  Context {t : ty}.
  Variables (v : isa) (cx ex : bool) (W L acc inc j : Z) (c : ctx).
  Hypothesis HW : 0 < W.
  Hypothesis HL : L * dsize cx = W * bsize v t.
  Hypothesis EV : v = SISD -> cx = true -> (2 | W).
  Hypothesis PA : at_ c PAcc = acc.
  Local Notation ds := (dsize cx).
  Local Notation bs := (bsize v t).
  Local Notation ts := (tsize v t cx).

  Definition cons_val (s : state t) (q : Z) : F t :=
    consolidate (vector v) ts L (fun l => flat v (fst s) (word ex W j) (l * ds + q)) (snd s (cell cx acc inc j q)).
  Definition cons_mem (s : state t) : mem t :=
    if cx then upd (upd (snd s) (cell cx acc inc j 0) (cons_val s 0)) (cell cx acc inc j 1) (cons_val s 1)
    else upd (snd s) (cell cx acc inc j 0) (cons_val s 0).
  Definition cons_effect (s s' : state t) : Prop :=
    snd s' = cons_mem s /\
    (forall r, (forall i, 0 <= i < W -> r <> word ex W j i) -> r <> RCons -> r <> RConsBuf -> fst s' r = fst s r).

  Lemma word_not_cons i : word ex W j i <> RCons /\ word ex W j i <> RConsBuf.
  Proof. unfold word. destruct ex; split; discriminate. Qed.

  (** The first register, from which the common summand is subtracted in all lanes but the first. *)
  Definition first_lane (s : state t) (k : Z) : F t :=
    if ts =? 1 then fst s (word ex W j 0) k
    else fsub (fst s (word ex W j 0) k) (if k <? ds then fzero else snd s (cell cx acc inc j (k mod ds))).
  Definition reg_sum (s : state t) (k : Z) : F t :=
    fold_left (fun a i => fadd a (fsub (fst s (word ex W j i) k) (snd s (cell cx acc inc j (k mod ds))))) (zseq 1 (W - 1)) (first_lane s k).

  Lemma vector_val (s : state t) q : vector v = true -> 0 <= q < ds ->
    fold_left (fun a l => fadd a (reg_sum s (l * ds + q))) (zseq 1 (ts - 1)) (reg_sum s q) = cons_val s q.
  Proof.
    intros V Hq. unfold cons_val, consolidate. rewrite V. cbv zeta.
    pose proof (bsize_vec v t cx V) as BV. pose proof (dsize_pos cx) as DP. pose proof (bsize_pos v t) as BP.
    assert (TP : 0 < ts) by nia. assert (EL : L = W * ts) by nia. assert (EW : L / ts = W) by (rewrite EL; apply Z.div_mul; lia).
    rewrite EW.
    assert (R : forall l, 0 <= l < ts -> reg_sum s (l * ds + q) =
      fold_left (fun r k => fadd r (fsub (flat v (fst s) (word ex W j) ((k * ts + l) * ds + q)) (snd s (cell cx acc inc j q)))) (zseq 1 (W - 1))
        (if ts =? 1 then flat v (fst s) (word ex W j) (l * ds + q) else fsub (flat v (fst s) (word ex W j) (l * ds + q)) (if l =? 0 then fzero else snd s (cell cx acc inc j q)))).
    { intros l Hl. unfold reg_sum.
      assert (M : (l * ds + q) mod ds = q) by (rewrite Z.add_comm, Z.mod_add, Z.mod_small by lia; reflexivity). rewrite M.
      assert (B : 0 <= l * ds + q < bs) by nia.
      rewrite (fold_ext _ (fun r k => fadd r (fsub (flat v (fst s) (word ex W j) ((k * ts + l) * ds + q)) (snd s (cell cx acc inc j q)))) (zseq 1 (W - 1))).
      - f_equal. unfold first_lane. rewrite M. 
        assert (FL : flat v (fst s) (word ex W j) (l * ds + q) = fst s (word ex W j 0) (l * ds + q)) by (rewrite <- (flat_at v (fst s) (word ex W j) 0) by exact B; f_equal; ring).
        rewrite FL.
        destruct (ts =? 1); [reflexivity|]. destruct (Z.ltb_spec (l * ds + q) ds), (Z.eqb_spec l 0); try reflexivity; nia.
      - intros b k _. f_equal. f_equal. replace ((k * ts + l) * ds + q) with (k * bs + (l * ds + q)) by (rewrite BV; ring). rewrite flat_at by exact B. reflexivity. }
    symmetry. rewrite <- (R 0) by lia. rewrite (fold_ext _ (fun a l => fadd a (reg_sum s (l * ds + q))) (zseq 1 (ts - 1))).
    2:{ intros b l Hl. apply zseq_In in Hl. rewrite R by lia. reflexivity. }
    f_equal.
  Qed.

  Lemma word0 : nth 0 (word_vars ex W j) RCons = word ex W j 0.
  Proof. rewrite word_vars_tab. apply (nth_tab (word ex W j) 0). lia. Qed.

  (** Vector code: all but the stores. *)
  Lemma vector_regs (s : state t) (pre : list (prim t)) : vector v = true ->
    (let s1 := execs c pre s in snd s1 = snd s /\ (forall k, 0 <= k < bs -> fst s1 (word ex W j 0) k = first_lane s k) /\ (forall r, r <> word ex W j 0 -> fst s1 r = fst s r)) ->
    let src := word_vars ex W j in
    let s2 := execs c (pre ++ (if 1 <? Z.of_nat (length src) then propagate_into v cx [RCons] PAcc j (Var inc) ++
        map (fun r => Let (word ex W j 0) (VAdd (VReg (word ex W j 0)) (VSub (VReg r) (VReg RCons)))) (from 1 src) else []) ++ [Let RConsBuf (VReg (word ex W j 0))]) s in
    snd s2 = snd s /\ (forall k, 0 <= k < bs -> fst s2 RConsBuf k = reg_sum s k) /\
    (forall r, (forall i, 0 <= i < W -> r <> word ex W j i) -> r <> RCons -> r <> RConsBuf -> fst s2 r = fst s r).
  Proof.
    intros V (A1 & A2 & A3). cbv zeta. rewrite !execs_app. set (s1 := execs c pre s) in *. clearbody s1.
    rewrite word_vars_tab, tab_length, Z2Nat.id by lia. rewrite one_reg. cbn [fst snd].
    assert (MID : let s2 := execs c (if 1 <? W then propagate_into v cx [RCons] PAcc j (Var inc) ++
        map (fun r => Let (word ex W j 0) (VAdd (VReg (word ex W j 0)) (VSub (VReg r) (VReg RCons)))) (from 1 (tab (word ex W j) W)) else []) s1 in
      snd s2 = snd s /\ (forall k, 0 <= k < bs -> fst s2 (word ex W j 0) k = reg_sum s k) /\ (forall r, r <> word ex W j 0 -> r <> RCons -> fst s2 r = fst s r)).
    { cbv zeta. destruct (Z.ltb_spec 1 W) as [W1|W1].
      - rewrite execs_app, from_tab by lia.
        destruct (propagate_ok v cx (fun _ => RCons) 1 acc inc j c s1 PA) as (P1 & P2 & P3). { intros ->. discriminate V. } { lia. }
        change (tab (fun _ : Z => RCons) 1) with [RCons] in P1, P2, P3.
        set (s2 := execs c (propagate_into _ _ _ _ _ _) s1) in *. clearbody s2.
        destruct (adds_ok (t:=t) c (word ex W j 0) (tab (fun i => word ex W j (1 + i)) (W - 1)) (proj1 (word_not_cons 0))) with (s := s2) as (Q1 & Q2 & Q3).
        { intros r I. apply in_map_iff in I. destruct I as (i & <- & I). apply zseq_In in I. intros E. apply word_inj in E; lia. }
        set (s3 := execs c _ s2) in *. clearbody s3. split; [congruence|]. split.
        + intros k Hk. rewrite Q2. unfold tab. rewrite fold_map. unfold reg_sum. rewrite (zseq_from0 1), fold_map.
          rewrite (P3 (word ex W j 0)) by (intros i Hi; apply word_not_cons). rewrite A2 by exact Hk. apply fold_ext. intros b i Hi. apply zseq_In in Hi.
          rewrite (P2 0) by lia. rewrite A1, Z.mul_0_l, Z.add_0_l. rewrite (P3 (word ex W j (1 + i))) by (intros i' _; apply word_not_cons).
          rewrite A3 by (intros E; apply word_inj in E; lia). rewrite (Z.add_comm i 1). reflexivity.
        + intros r R1 R2. rewrite Q3, P3, A3; auto.
      - change (execs c [] s1) with s1. split; [exact A1|]. split; [|intros; apply A3; auto].
        intros k Hk. unfold reg_sum. rewrite zseq_nil by lia. apply A2. exact Hk. }
    destruct MID as (M1 & M2 & M3). set (s2 := execs c (if 1 <? W then _ else _) s1) in *. clearbody s2.
    split; [exact M1|]. split.
    - intros k Hk. rewrite set_same. cbn [eval]. apply M2; auto.
    - intros r R1 R2 R3. rewrite set_other by auto. apply M3; auto. apply R1. lia.
  Qed.

  Lemma vector_consolidate (s : state t) : vector v = true -> cons_effect s (execs c (consolidate_into v cx j (Var inc) (word_vars ex W j)) s).
  Proof.
    intros V. pose proof (bsize_vec v t cx V) as BV. pose proof (dsize_pos cx) as DP. pose proof (bsize_pos v t) as BP. assert (TP : 0 < ts) by nia.
    rewrite consolidate_split by exact V. cbv zeta. rewrite word0, execs_app.
    destruct (vector_regs s (if ts =? 1 then [] else [Let (word ex W j 0) (VSub (VReg (word ex W j 0)) (common v cx (SMem PAcc (index cx j (Var inc) 0)) (SMem PAcc (index cx j (Var inc) 1)) (SLit fzero)))]) V) as (R1 & R2 & R3).
    { cbv zeta. destruct (ts =? 1) eqn:T1.
      - change (execs c [] s) with s. split; [reflexivity|]. split; [|reflexivity]. intros k Hk. unfold first_lane. rewrite T1. reflexivity.
      - rewrite one_reg. cbn [fst snd]. split; [reflexivity|]. split; [|intros r Hr; apply set_other; auto].
        intros k Hk. rewrite set_same. cbn [eval]. unfold first_lane. rewrite T1, common_val by auto. f_equal.
        destruct (Z.ltb_spec k ds); [reflexivity|]. cbn [eval_s]. rewrite PA.
        pose proof (Z.mod_pos_bound k ds DP) as MB. destruct (Z.eqb_spec (k mod ds) 0) as [E|E].
        + rewrite E, index_cell by lia. reflexivity.
        + assert (E1 : k mod ds = 1) by (destruct cx; cbn [dsize] in *; lia). rewrite E1, index_cell by lia. reflexivity. }
    set (s2 := execs c (_ ++ _) s) in *. clearbody s2. unfold cons_effect, cons_mem.
    assert (VV : forall q, 0 <= q < ds -> forall m, eval_s c m (fst s2) (sum_lanes RConsBuf (map (fun i => i * ds + q) (zseq 0 ts))) = cons_val s q).
    { intros q Hq m. rewrite sum_lanes_val by exact TP. rewrite <- vector_val by auto.
      rewrite Z.mul_0_l, Z.add_0_l, R2 by nia. apply fold_ext. intros b0 i Hi. apply zseq_In in Hi. rewrite R2 by nia. reflexivity. }
    assert (C : cx = true \/ cx = false) by (destruct cx; auto). destruct s2 as [e2 m2]. cbn [fst snd] in *. subst m2. destruct C as [C|C].
    - repeat match goal with |- context [if cx then ?A else ?B] => replace (if cx then A else B) with A by (rewrite C; reflexivity) end.
      unfold execs. cbn [fold_left exec fst snd]. rewrite PA, !index_cell by (rewrite C; cbn; lia).
      assert (D2 : ds = 2) by (rewrite C; reflexivity).
      rewrite (map_ext (fun i => 2 * i) (fun i => i * ds + 0)) by (intros; rewrite D2; ring). rewrite (map_ext (fun i => 2 * i + 1) (fun i => i * ds + 1)) by (intros; rewrite D2; ring).
      rewrite !VV by lia. split; [reflexivity|]. exact R3.
    - repeat match goal with |- context [if cx then ?A else ?B] => replace (if cx then A else B) with B by (rewrite C; reflexivity) end.
      unfold execs. cbn [fold_left exec fst snd]. rewrite PA, !index_cell by (rewrite C; cbn; lia).
      assert (D1 : ds = 1) by (rewrite C; reflexivity).
      rewrite <- (map_id (zseq 0 bs)), (map_ext (fun i => i) (fun i => i * ds + 0)) by (intros; rewrite D1; ring). replace bs with ts by (rewrite BV, D1; ring).
      rewrite !VV by lia. split; [reflexivity|]. exact R3.
  Qed.

  Lemma sisd_consolidate (s : state t) : v = SISD -> cons_effect s (execs c (consolidate_into v cx j (Var inc) (word_vars ex W j)) s).
  Proof.
    intros V. assert (BS : bs = 1) by (rewrite V; apply sisd_bs).
    assert (FL : forall e f, flat (t:=t) v e (word ex W j) f = e (word ex W j f) 0).
    { intros e f. unfold flat. rewrite BS, Z.div_1_r, Z.mod_1_r. reflexivity. }
    assert (N : forall i, word ex W j i <> RCons) by (intros; apply word_not_cons).
    assert (SCAL : forall q (s : state t), 0 <= q < ds -> execs c [Let RCons (VScal (SMem PAcc (index cx j (Var inc) q)))] s = (set_reg (fst s) RCons (fun _ => snd s (cell cx acc inc j q)), snd s)).
    { intros q s0 Hq. rewrite one_reg. cbn [eval eval_s]. rewrite PA, index_cell by exact Hq. reflexivity. }
    assert (VAL : forall q, 0 <= q < ds -> cons_val s q = fold_left (fun a l => fadd a (fsub (fst s (word ex W j (l * ds + q)) 0) (snd s (cell cx acc inc j q)))) (zseq 1 (L - 1)) (fst s (word ex W j q) 0)).
    { intros q Hq. unfold cons_val, consolidate. replace (vector v) with false by (rewrite V; reflexivity). rewrite FL. rewrite Z.mul_0_l, Z.add_0_l. apply fold_ext. intros b l Hl. rewrite FL. reflexivity. }
    (* the additions for one part, from any state with the same words *)
    assert (ADD : forall q (s1 : state t) n, 0 <= q < ds -> q < W -> ds * (n + 1) + q <= W + ds - 1 -> snd s1 = snd s -> fst s1 RCons = (fun _ => snd s (cell cx acc inc j q)) \/ n <= 0 ->
      (forall i, 0 <= i < W -> (exists l, i = l * ds + q) -> fst s1 (word ex W j i) = fst s (word ex W j i)) ->
      let s2 := execs c (map (fun r => Let (word ex W j q) (VAdd (VReg (word ex W j q)) (VSub (VReg r) (VReg RCons)))) (tab (fun i => word ex W j ((1 + i) * ds + q)) n)) s1 in
      snd s2 = snd s /\ fst s2 (word ex W j q) 0 = fold_left (fun a l => fadd a (fsub (fst s (word ex W j (l * ds + q)) 0) (snd s (cell cx acc inc j q)))) (zseq 1 n) (fst s (word ex W j q) 0) /\
      (forall r, r <> word ex W j q -> fst s2 r = fst s1 r)).
    { intros q s1 n Hq HqW Hn M RC WD. cbv zeta. pose proof (dsize_pos cx) as DP.
      destruct (adds_ok (t:=t) c (word ex W j q) (tab (fun i => word ex W j ((1 + i) * ds + q)) n) (N q)) with (s := s1) as (Q1 & Q2 & Q3).
      { intros r I. apply in_map_iff in I. destruct I as (i & <- & I). apply zseq_In in I. intros E. apply word_inj in E; nia. }
      split; [congruence|]. split; [|exact Q3]. rewrite Q2. unfold tab. rewrite fold_map, (zseq_from0 1), fold_map.
      rewrite WD by (try (exists 0; ring); lia). apply fold_ext. intros b i Hi. apply zseq_In in Hi.
      rewrite WD; [|nia|exists (1 + i); ring]. destruct RC as [-> |]; [|lia]. rewrite (Z.add_comm i 1). reflexivity. }
    unfold cons_effect, cons_mem.
    assert (C : cx = true \/ cx = false) by (destruct cx; auto). destruct C as [C|C].
    - assert (D2 : ds = 2) by (rewrite C; reflexivity). destruct (EV V C) as [q Eq]. assert (EL : L = q) by nia.
      repeat match goal with |- context [if cx then ?A else ?B] => replace (if cx then A else B) with A by (rewrite C; reflexivity) end.
      assert (CI : consolidate_into (t:=t) v cx j (Var inc) (word_vars ex W j) =
        (if 2 <? W then [Let RCons (VScal (SMem PAcc (index cx j (Var inc) 0)))] else []) ++
        map (fun r => Let (word ex W j 0) (VAdd (VReg (word ex W j 0)) (VSub (VReg r) (VReg RCons)))) (tab (fun i => word ex W j ((1 + i) * ds + 0)) (L - 1)) ++
        (if 2 <? W then [Let RCons (VScal (SMem PAcc (index cx j (Var inc) 1)))] else []) ++
        map (fun r => Let (word ex W j 1) (VAdd (VReg (word ex W j 1)) (VSub (VReg r) (VReg RCons)))) (tab (fun i => word ex W j ((1 + i) * ds + 1)) (L - 1)) ++
        [Store PAcc (index cx j (Var inc) 0) (SLane (word ex W j 0) 0); Store PAcc (index cx j (Var inc) 1) (SLane (word ex W j 1) 0)]).
      { rewrite word_vars_tab. rewrite V, C. unfold consolidate_into. rewrite tab_length, Z2Nat.id by lia.
        change 1%nat with (Z.to_nat 1). change 0%nat with (Z.to_nat 0). rewrite !nth_tab by lia. rewrite !from_tab, !evens_tab by lia.
        replace ((W - 2 + 1) / 2) with (L - 1) by (apply (Z.div_unique _ 2 (L - 1) 1); lia).
        replace ((W - 3 + 1) / 2) with (L - 1) by (apply (Z.div_unique _ 2 (L - 1) 0); lia).
        rewrite (tab_ext (fun i => word ex W j (2 + 2 * i)) (fun i => word ex W j ((1 + i) * dsize true + 0))) by (intros i Hi; f_equal; cbn [dsize]; ring).
        rewrite (tab_ext (fun i => word ex W j (3 + 2 * i)) (fun i => word ex W j ((1 + i) * dsize true + 1))) by (intros i Hi; f_equal; cbn [dsize]; ring). reflexivity. }
      rewrite CI. clear CI. rewrite !execs_app.
      assert (LD : forall q (s1 : state t), 0 <= q < ds -> snd s1 = snd s -> let s2 := execs c (if 2 <? W then [Let RCons (VScal (SMem PAcc (index cx j (Var inc) q)))] else []) s1 in
        snd s2 = snd s /\ (fst s2 RCons = (fun _ => snd s (cell cx acc inc j q)) \/ L - 1 <= 0) /\ (forall r, r <> RCons -> fst s2 r = fst s1 r)).
      { intros q' s1 Hq M. cbv zeta. destruct (Z.ltb_spec 2 W).
        - rewrite SCAL by exact Hq. cbn [fst snd]. rewrite M. split; [reflexivity|]. split; [left; apply set_same|]. intros r Hr. apply set_other; auto.
        - change (execs c [] s1) with s1. split; [exact M|]. split; [right; lia|reflexivity]. }
      destruct (LD 0 s ltac:(lia) eq_refl) as (A1 & A2 & A3). set (s1 := execs c (if 2 <? W then _ else _) s) in *. clearbody s1.
      destruct (ADD 0 s1 (L - 1)) as (B1 & B2 & B3); [lia|lia|nia|exact A1|exact A2|intros; apply A3; auto|]. set (s2 := execs c _ s1) in *. clearbody s2.
      destruct (LD 1 s2 ltac:(lia) B1) as (A1' & A2' & A3'). set (s3 := execs c (if 2 <? W then _ else _) s2) in *. clearbody s3.
      destruct (ADD 1 s3 (L - 1)) as (B1' & B2' & B3'); [lia|lia|nia|exact A1'|exact A2'| |].
      { intros i Hi (l & El). rewrite A3', B3, A3; auto. intros E. apply word_inj in E; lia. }
      set (s4 := execs c _ s3) in *. clearbody s4. destruct s4 as [e4 m4]. cbn [fst snd] in *. subst m4. unfold execs. cbn [fold_left exec fst snd eval_s].
      rewrite PA, !index_cell by lia. rewrite B2', (B3' (word ex W j 0)), A3', B2 by (auto; intros E; apply word_inj in E; lia). rewrite <- !VAL by lia. split; [reflexivity|].
      intros r R1 R2 R3. rewrite B3', A3', B3, A3; auto; apply R1; lia.
    - assert (D1 : ds = 1) by (rewrite C; reflexivity). assert (EL : L = W) by nia.
      repeat match goal with |- context [if cx then ?A else ?B] => replace (if cx then A else B) with B by (rewrite C; reflexivity) end.
      assert (CI : consolidate_into (t:=t) v cx j (Var inc) (word_vars ex W j) =
        (if 1 <? W then [Let RCons (VScal (SMem PAcc (index cx j (Var inc) 0)))] else []) ++
        map (fun r => Let (word ex W j 0) (VAdd (VReg (word ex W j 0)) (VSub (VReg r) (VReg RCons)))) (tab (fun i => word ex W j ((1 + i) * ds + 0)) (L - 1)) ++
        [Store PAcc (index cx j (Var inc) 0) (SLane (word ex W j 0) 0)]).
      { rewrite word_vars_tab. rewrite V, C. unfold consolidate_into. rewrite tab_length, Z2Nat.id by lia.
        change 0%nat with (Z.to_nat 0). rewrite !nth_tab by lia. rewrite !from_tab by lia. rewrite EL.
        rewrite (tab_ext (fun i => word ex W j (1 + i)) (fun i => word ex W j ((1 + i) * dsize false + 0))) by (intros i Hi; f_equal; cbn [dsize]; ring). reflexivity. }
      rewrite CI. clear CI. rewrite !execs_app.
      assert (LD : let s2 := execs c (if 1 <? W then [Let RCons (VScal (SMem PAcc (index cx j (Var inc) 0)))] else []) s in
        snd s2 = snd s /\ (fst s2 RCons = (fun _ => snd s (cell cx acc inc j 0)) \/ L - 1 <= 0) /\ (forall r, r <> RCons -> fst s2 r = fst s r)).
      { cbv zeta. destruct (Z.ltb_spec 1 W).
        - rewrite SCAL by lia. cbn [fst snd]. split; [reflexivity|]. split; [left; apply set_same|]. intros r Hr. apply set_other; auto.
        - change (execs c [] s) with s. split; [reflexivity|]. split; [right; lia|reflexivity]. }
      destruct LD as (A1 & A2 & A3). set (s1 := execs c (if 1 <? W then _ else _) s) in *. clearbody s1.
      destruct (ADD 0 s1 (L - 1)) as (B1 & B2 & B3); [lia|lia|nia|exact A1|exact A2|intros; apply A3; auto|]. set (s2 := execs c _ s1) in *. clearbody s2.
      destruct s2 as [e4 m4]. cbn [fst snd] in *. subst m4. unfold execs. cbn [fold_left exec fst snd eval_s].
      rewrite PA, !index_cell by lia. rewrite B2. rewrite <- !VAL by lia. split; [reflexivity|].
      intros r R1 R2 R3. rewrite B3, A3; auto; apply R1; lia.
  Qed.

  Lemma consolidate_ok (s : state t) : cons_effect s (execs c (consolidate_into v cx j (Var inc) (word_vars ex W j)) s).
  Proof.
    assert (C : v = SISD \/ vector v = true) by (destruct v; auto). destruct C; [apply sisd_consolidate|apply vector_consolidate]; auto.
  Qed.
End Consolidate.
