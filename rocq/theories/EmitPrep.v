(** * What the preprocessing lines of the generated kernels compute *)
From Coq Require Import ZArith Bool List Lia.
From Flocq Require Import Core BinarySingleNaN.
From Verif Require Import Fp Mem Binned Gen GenProofs Blas Emit EmitBits EmitExec EmitLevels EmitLoad.
Import ListNotations.
Open Scope Z_scope.

(** ** Operations on every position *)
Definition abs_e {t} (v : isa) (E : Z -> vexpr t) (i : Z) : vexpr t := match v with SISD => VAbs (E i) | _ => VAnd (E i) (abs_mask t) end.
Lemma vabs_tab {t} v (E : Z -> vexpr t) n : vabs v (tab E n) = tab (abs_e v E) n.
Proof. unfold vabs, abs_e. destruct v; apply tab_map. Qed.
Lemma abs_val {t} v (E : Z -> vexpr t) i c m e l : eval c m e (abs_e v E i) l = fabs (eval c m e (E i) l).
Proof. unfold abs_e. destruct v; cbn [eval]; [reflexivity| |]; apply and_abs. Qed.
Lemma abs_reads {t} v (E : Z -> vexpr t) i : reads (abs_e v E i) = reads (E i).
Proof. destruct v; reflexivity. Qed.

Definition conj_e {t} (v : isa) (E : Z -> vexpr t) (i : Z) : vexpr t :=
  match v with SISD => if i mod 2 =? 0 then E i else VMul (E i) (VScal (SLit minus1)) | _ => VXor (E i) (conj_mask v t) end.
Definition nconj_e {t} (v : isa) (E : Z -> vexpr t) (i : Z) : vexpr t :=
  match v with SISD => if i mod 2 =? 1 then E i else VMul (E i) (VScal (SLit minus1)) | _ => VXor (E i) (nconj_mask v t) end.
Lemma vconj_tab {t} v (E : Z -> vexpr t) n : vconj v (tab E n) = tab (conj_e v E) n.
Proof. unfold vconj, conj_e. destruct v; [apply enum_tab|apply tab_map|apply tab_map]. Qed.
Lemma vnconj_tab {t} v (E : Z -> vexpr t) n : vnconj v (tab E n) = tab (nconj_e v E) n.
Proof. unfold vnconj, nconj_e. destruct v; [apply enum_tab|apply tab_map|apply tab_map]. Qed.
Lemma conj_reads {t} v (E : Z -> vexpr t) i : reads (conj_e v E i) = reads (E i).
Proof. unfold conj_e. destruct v; [|reflexivity|reflexivity]. destruct (_ =? _); [reflexivity|]. cbn. apply app_nil_r. Qed.
Lemma nconj_reads {t} v (E : Z -> vexpr t) i : reads (nconj_e v E i) = reads (E i).
Proof. unfold nconj_e. destruct v; [|reflexivity|reflexivity]. destruct (_ =? _); [reflexivity|]. cbn. apply app_nil_r. Qed.
Lemma lane_parity v t i l : vector v = true -> (i * bsize v t + l) mod 2 = l mod 2.
Proof. intros V. rewrite (bsize_2 v t V). replace (i * (2 * (bsize v t / 2)) + l) with (l + i * (bsize v t / 2) * 2) by ring. apply Z.mod_add. lia. Qed.
Lemma sisd_bs t : bsize SISD t = 1. Proof. destruct t; reflexivity. Qed.
Lemma conj_val {t} v (E : Z -> vexpr t) i c m e l : 0 <= l < bsize v t ->
  eval c m e (conj_e v E i) l = if (i * bsize v t + l) mod 2 =? 0 then eval c m e (E i) l else fneg (eval c m e (E i) l).
Proof.
  intros H. destruct (vector v) eqn:V.
  - rewrite lane_parity by auto. assert (C : conj_e v E i = VXor (E i) (conj_mask v t)) by (destruct v; [discriminate V|reflexivity|reflexivity]).
    rewrite C. cbn [eval]. rewrite conj_mask_eq by auto. destruct (l mod 2 =? 0); [apply xor_0|apply xor_sign].
  - destruct v; try discriminate V. rewrite sisd_bs in *. replace (i * 1 + l) with i by lia. unfold conj_e.
    destruct (i mod 2 =? 0); [reflexivity|]. cbn [eval eval_s]. apply fmul_minus1.
Qed.
Lemma nconj_val {t} v (E : Z -> vexpr t) i c m e l : 0 <= l < bsize v t ->
  eval c m e (nconj_e v E i) l = if (i * bsize v t + l) mod 2 =? 1 then eval c m e (E i) l else fneg (eval c m e (E i) l).
Proof.
  intros H. destruct (vector v) eqn:V.
  - rewrite lane_parity by auto. assert (C : nconj_e v E i = VXor (E i) (nconj_mask v t)) by (destruct v; [discriminate V|reflexivity|reflexivity]).
    rewrite C. cbn [eval]. rewrite nconj_mask_eq by auto. destruct (l mod 2 =? 1); [apply xor_0|apply xor_sign].
  - destruct v; try discriminate V. rewrite sisd_bs in *. replace (i * 1 + l) with i by lia. unfold nconj_e.
    destruct (i mod 2 =? 1); [reflexivity|]. cbn [eval eval_s]. apply fmul_minus1.
Qed.

(** Permutations of the positions of a row: SISD moves variables, the others move lanes. *)
Definition even_e {t} (v : isa) (R : Z -> cvar) (i : Z) : vexpr t :=
  match v, t with
  | SISD, _ => VReg (R (2 * (i / 2)))
  | SSE, Dbl => VShufPd (VReg (R i)) (VReg (R i)) 0 | SSE, Flt => VShufPs (VReg (R i)) (VReg (R i)) 160
  | AVX, Dbl => VPermPd (VReg (R i)) 0 | AVX, Flt => VPermPs (VReg (R i)) 160
  end.
Definition odd_e {t} (v : isa) (R : Z -> cvar) (i : Z) : vexpr t :=
  match v, t with
  | SISD, _ => VReg (R (2 * (i / 2) + 1))
  | SSE, Dbl => VShufPd (VReg (R i)) (VReg (R i)) 3 | SSE, Flt => VShufPs (VReg (R i)) (VReg (R i)) 245
  | AVX, Dbl => VPermPd (VReg (R i)) 15 | AVX, Flt => VPermPs (VReg (R i)) 245
  end.
Definition swap_e {t} (v : isa) (R : Z -> cvar) (i : Z) : vexpr t :=
  match v, t with
  | SISD, _ => VReg (R ((i + 1) mod 2 + 2 * (i / 2)))
  | SSE, Dbl => VShufPd (VReg (R i)) (VReg (R i)) 1 | SSE, Flt => VShufPs (VReg (R i)) (VReg (R i)) 177
  | AVX, Dbl => VPermPd (VReg (R i)) 5 | AVX, Flt => VPermPs (VReg (R i)) 177
  end.
Lemma even_tab {t} v (R : Z -> cvar) n : (v = SISD -> (2 | n)) -> rep_evens v (rd (tab R n)) = tab (even_e (t:=t) v R) n.
Proof.
  intros D. unfold rep_evens, rd, even_e. destruct v; [destruct (D eq_refl) as [q ->]|destruct t; rewrite !tab_map; reflexivity|destruct t; rewrite !tab_map; reflexivity].
  rewrite tab_map, evens_tab, twice_tab. replace (q * 2 + 1) with (1 + q * 2) by lia. rewrite Z.div_add, Z.mul_comm by lia. reflexivity.
Qed.
Lemma odd_tab {t} v (R : Z -> cvar) n : (v = SISD -> (2 | n)) -> rep_odds v (rd (tab R n)) = tab (odd_e (t:=t) v R) n.
Proof.
  intros D. unfold rep_odds, rd, odd_e. destruct v; [destruct (D eq_refl) as [q ->]|destruct t; rewrite !tab_map; reflexivity|destruct t; rewrite !tab_map; reflexivity].
  rewrite tab_map, odds_tab, twice_tab, Z.div_mul, Z.mul_comm by lia. reflexivity.
Qed.
Lemma swap_tab {t} v (R : Z -> cvar) n : (v = SISD -> (2 | n)) -> swap_pairwise v (rd (tab R n)) = tab (swap_e (t:=t) v R) n.
Proof.
  intros D. unfold swap_pairwise, rd, swap_e. destruct v; [destruct (D eq_refl) as [q ->]|destruct t; rewrite !tab_map; reflexivity|destruct t; rewrite !tab_map; reflexivity].
  rewrite tab_map. change (map ?f (zseq 0 (Z.of_nat (length (tab ?g ?k))))) with (tab f (Z.of_nat (length (tab g k)))). rewrite tab_length.
  destruct (Z.le_gt_cases (q * 2) 0) as [H|H]. { rewrite !tab_nil by lia. reflexivity. }
  rewrite Z2Nat.id by lia. apply tab_ext. intros i Hi. rewrite nth_tab; [reflexivity|].
  pose proof (Z.mod_pos_bound (i + 1) 2 ltac:(lia)). pose proof (Z.div_mod i 2 ltac:(lia)). pose proof (Z.mod_pos_bound i 2 ltac:(lia)).
  assert (i / 2 < q) by (apply Z.div_lt_upper_bound; lia). assert (0 <= i / 2) by (apply Z.div_pos; lia). lia.
Qed.
(** Which position each permutation reads. *)
Definition swapped (f : Z) : Z := (f + 1) mod 2 + 2 * (f / 2).
Ltac perm := let H := fresh in let V := fresh in
  match goal with |- context [flat ?v ?e ?R] => intros H; destruct (vector v) eqn:V end.
Lemma half_split v t i l : vector v = true -> (i * bsize v t + l) / 2 = i * (bsize v t / 2) + l / 2.
Proof. intros V. rewrite (bsize_2 v t V) at 1. replace (i * (2 * (bsize v t / 2)) + l) with (l + i * (bsize v t / 2) * 2) by ring. rewrite Z.div_add by lia. lia. Qed.
Ltac lanes v t R8 l := destruct v, t; try discriminate;
    repeat match goal with H : context [bsize ?a ?b] |- _ => let x := eval vm_compute in (bsize a b) in change (bsize a b) with x in H end;
    destruct (range8 l R8) as [-> |[-> |[-> |[-> |[-> |[-> |[-> | ->]]]]]]]; try lia; reflexivity.
Lemma even_val {t} v (R : Z -> cvar) i c m (e : env t) l : 0 <= l < bsize v t ->
  eval c m e (even_e v R i) l = flat v e R (2 * ((i * bsize v t + l) / 2)).
Proof.
  intros H. destruct (vector v) eqn:V.
  - rewrite half_split by auto. replace (2 * _) with (i * bsize v t + 2 * (l / 2)) by (rewrite (bsize_2 v t V) at 1; ring).
    assert (R8 := bsize_8 _ _ _ H). pose proof (bsize_2 v t V).
    rewrite flat_at by (pose proof (Z.div_mod l 2 ltac:(lia)); pose proof (Z.mod_pos_bound l 2 ltac:(lia)); lia).
    clear H0. lanes v t R8 l.
  - destruct v; try discriminate V. unfold flat. rewrite sisd_bs in *. rewrite Z.div_1_r, Z.mod_1_r. assert (l = 0) by lia. subst l.
    rewrite Z.mul_1_r, Z.add_0_r. destruct t; reflexivity.
Qed.
Lemma odd_val {t} v (R : Z -> cvar) i c m (e : env t) l : 0 <= l < bsize v t ->
  eval c m e (odd_e v R i) l = flat v e R (2 * ((i * bsize v t + l) / 2) + 1).
Proof.
  intros H. destruct (vector v) eqn:V.
  - rewrite half_split by auto. replace (2 * _ + 1) with (i * bsize v t + (2 * (l / 2) + 1)) by (rewrite (bsize_2 v t V) at 1; ring).
    assert (R8 := bsize_8 _ _ _ H). pose proof (bsize_2 v t V).
    rewrite flat_at by (pose proof (Z.div_mod l 2 ltac:(lia)); pose proof (Z.mod_pos_bound l 2 ltac:(lia)); lia).
    clear H0. lanes v t R8 l.
  - destruct v; try discriminate V. unfold flat. rewrite sisd_bs in *. rewrite Z.div_1_r, Z.mod_1_r. assert (l = 0) by lia. subst l.
    rewrite Z.mul_1_r, Z.add_0_r. destruct t; reflexivity.
Qed.
Lemma swap_val {t} v (R : Z -> cvar) i c m (e : env t) l : 0 <= l < bsize v t ->
  eval c m e (swap_e v R i) l = flat v e R (swapped (i * bsize v t + l)).
Proof.
  intros H. unfold swapped. destruct (vector v) eqn:V.
  - rewrite half_split by auto. rewrite <- Z.add_assoc, lane_parity by auto.
    replace (_ + 2 * _) with (i * bsize v t + ((l + 1) mod 2 + 2 * (l / 2))) by (rewrite (bsize_2 v t V) at 1; ring).
    assert (R8 := bsize_8 _ _ _ H). pose proof (bsize_2 v t V).
    rewrite flat_at by (pose proof (Z.div_mod l 2 ltac:(lia)); pose proof (Z.mod_pos_bound l 2 ltac:(lia)); pose proof (Z.mod_pos_bound (l + 1) 2 ltac:(lia)); lia).
    clear H0. lanes v t R8 l.
  - destruct v; try discriminate V. unfold flat. rewrite sisd_bs in *. rewrite Z.div_1_r, Z.mod_1_r. assert (l = 0) by lia. subst l.
    rewrite Z.mul_1_r, Z.add_0_r. destruct t; reflexivity.
Qed.
Lemma even_reads {t} v (R : Z -> cvar) i r : In r (reads (even_e (t:=t) v R i)) -> exists j, r = R j.
Proof. destruct v, t; cbn; intuition eauto. Qed.
Lemma odd_reads {t} v (R : Z -> cvar) i r : In r (reads (odd_e (t:=t) v R i)) -> exists j, r = R j.
Proof. destruct v, t; cbn; intuition eauto. Qed.
Lemma swap_reads {t} v (R : Z -> cvar) i h r : (v = SISD -> (2 | h)) -> 0 <= i < h -> In r (reads (swap_e (t:=t) v R i)) -> exists j, r = R j /\ 0 <= j < h.
Proof.
  intros D Hi H. destruct v.
  - assert (E : r = R ((i + 1) mod 2 + 2 * (i / 2))) by (destruct t; cbn in H; intuition). eexists. split; [exact E|].
    destruct (D eq_refl) as [q ->]. pose proof (Z.mod_pos_bound (i + 1) 2 ltac:(lia)).
    assert (i / 2 < q) by (apply Z.div_lt_upper_bound; lia). assert (0 <= i / 2) by (apply Z.div_pos; lia). lia.
  - exists i. split; [|exact Hi]. destruct t; cbn in H; intuition.
  - exists i. split; [|exact Hi]. destruct t; cbn in H; intuition.
Qed.

(** ** The lines *)
(** A run of the body on n loaded elements, of which [left] exist. *)
Definition wf_load (v : isa) (t : ty) (cx : bool) (n : Z) (part : bool) (left : Z) : Prop :=
  0 < n /\ (Z.max (tsize v t cx) 1 | n) /\
  if part then n = tsize v t cx /\ 2 <= tsize v t cx /\ 1 <= left < tsize v t cx else left = n.

Definition ld_e {t} (v : isa) (cx part : bool) (p : ptr) (inc : incr) (i : Z) : vexpr t :=
  if part then part_e v cx p inc else load_e v cx p inc i.
(** The value at position f of the loaded vector. *)
Definition lv {t} (cx : bool) (c : ctx) (m : mem t) (p : ptr) (inc : incr) (f : Z) : F t :=
  if f / dsize cx <? left c then m (at_ c p + index cx 0 inc f) else fzero.
Lemma ld_tab {t} v cx n part lf p inc : wf_load v t cx n part lf ->
  (if part then load_partial v cx p 0 inc else load v cx p 0 inc n) = tab (ld_e (t:=t) v cx part p inc) (n * dsize cx / bsize v t).
Proof.
  intros (N & D & P). unfold ld_e. destruct part.
  - destruct P as (-> & T2 & _). rewrite part_width, part_tab by exact T2. reflexivity.
  - apply load_tab. exact D.
Qed.
Lemma ld_reads {t} v cx n part lf p inc i : wf_load v t cx n part lf -> reads (ld_e (t:=t) v cx part p inc i) = [].
Proof.
  intros (N & D & P). unfold ld_e. destruct part; [|apply load_reads]. apply part_reads. tauto.
Qed.
Lemma ld_val {t} v cx n part p inc i c (m : mem t) e l : wf_load v t cx n part (left c) ->
  0 <= i < n * dsize cx / bsize v t -> 0 <= l < bsize v t ->
  eval c m e (ld_e v cx part p inc i) l = lv cx c m p inc (i * bsize v t + l).
Proof.
  intros WF Hi Hl. pose proof (width_mul v t cx n ltac:(apply WF)) as WM. destruct WF as (N & D & P). unfold ld_e, lv. destruct part.
  - destruct P as (-> & T2 & T3). rewrite part_width in Hi by exact T2. assert (i = 0) by lia. subst i.
    rewrite Z.mul_0_l, Z.add_0_l. apply part_val; auto.
  - rewrite load_val by auto. destruct (Z.ltb_spec ((i * bsize v t + l) / dsize cx) (left c)) as [|G]; [reflexivity|].
    exfalso. rewrite P in G. assert ((i * bsize v t + l) / dsize cx < n); [|lia].
    apply Z.div_lt_upper_bound; [apply dsize_pos|]. nia.
Qed.

(** The summand at position f after preprocessing. *)
Definition pval {t} (k : kclass t) (cx : bool) (n : Z) (x y : Z -> F t) (inv : F t) (f : Z) : F t :=
  match k with
  | KSum => x f
  | KASum => fabs (x f)
  | KSSq _ => fmul (fmul (x f) inv) (fmul (x f) inv)
  | KDot => fmul (x f) (y f)
  | KDotC => if f <? n * dsize cx
      then (let p := fmul (x f) (y (2 * (f / 2))) in if f mod 2 =? 0 then p else fneg p)
      else let f := f - n * dsize cx in fmul (x (swapped f)) (y (2 * (f / 2) + 1))
  | KDotU => if f <? n * dsize cx
      then fmul (x f) (y (2 * (f / 2)))
      else let f := f - n * dsize cx in let p := fmul (x (swapped f)) (y (2 * (f / 2) + 1)) in if f mod 2 =? 1 then p else fneg p
  end.

Lemma flat_div {t} v (e : env t) R f : flat v e R f = e (R (f / bsize v t)) (f mod bsize v t). Proof. reflexivity. Qed.
Lemma pos_bs v t f w : 0 <= f < w * bsize v t -> 0 <= f / bsize v t < w /\ 0 <= f mod bsize v t < bsize v t /\ f = f / bsize v t * bsize v t + f mod bsize v t.
Proof.
  intros H. pose proof (bsize_pos v t) as B. pose proof (Z.mod_pos_bound f (bsize v t) B). pose proof (Z.div_mod f (bsize v t) ltac:(lia)).
  split; [|lia]. split; [apply Z.div_pos; lia|]. apply Z.div_lt_upper_bound; lia.
Qed.
Ltac tabs := unfold set_equal, rd, vmul, vadd; rewrite ?upto_tab, ?tab_map, ?zipw_tab.

Definition prep_effect {t} (v : isa) (k : kclass t) (cx : bool) (n : Z) (c : ctx) (ix iy : incr) (w : Z) (s s' : state t) : Prop :=
  snd s' = snd s /\
  (forall f, 0 <= f < w * bsize v t -> flat v (fst s') RX f =
     pval k cx n (lv cx c (snd s) PX ix) (lv cx c (snd s) PY iy) (fst s RInv (f mod bsize v t)) f) /\
  (forall r, (forall i, r <> RX i) -> (forall i, r <> RY i) -> fst s' r = fst s r).
Section Prep.
  Context {t : ty}.
  Variables (v : isa) (cx : bool) (n : Z) (part : bool) (c : ctx).
  Hypothesis WF : wf_load v t cx n part (left c).
  Local Notation bs := (bsize v t).
  Local Notation h := (n * dsize cx / bsize v t).

  Lemma prep_h : 0 < h /\ h * bs = n * dsize cx.
  Proof. destruct WF as (N & D & _). split; [apply width_pos; auto|apply width_mul; auto]. Qed.

  (** A loaded row, with an operation E' applied to the loads. *)
  Lemma load_line (R : Z -> cvar) (G : Z -> vexpr t) lw (s : state t) : (forall i i', R i = R i' -> i = i') -> h <= lw ->
    (forall i j, ~ In (R j) (reads (G i))) ->
    let s' := execs c (set_equal (tab R lw) (tab G h)) s in
    snd s' = snd s /\ (forall i l, 0 <= i < h -> fst s' (R i) l = eval c (snd s) (fst s) (G i) l) /\
    (forall r, (forall i, r <> R i) -> fst s' r = fst s r).
  Proof.
    intros INJ Hw RD. cbv zeta. unfold set_equal. rewrite zipw_tab, Z.min_r by lia.
    destruct (exec_tab c R G h s) as (M & V & Fr).
    - intros i i' _ _. apply INJ.
    - intros i i' _ _. apply RD.
    - split; [exact M|]. split; [exact V|]. intros r Hr. apply Fr. auto.
  Qed.

  Lemma flat_of (e : env t) R w (g : Z -> F t) : (forall i l, 0 <= i < w -> 0 <= l < bs -> e (R i) l = g (i * bs + l)) ->
    forall f, 0 <= f < w * bs -> flat v e R f = g f.
  Proof. intros H f Hf. destruct (pos_bs v t f w Hf) as (A & B & C). rewrite flat_div, H, <- C by auto. reflexivity. Qed.

  (** The lines making the products of two complex vectors; A and B wrap the products. *)
  Lemma cross_ok (A B : Z -> vexpr t) (a b : Z -> F t -> F t) h (s : state t) : 0 < h -> (v = SISD -> (2 | h)) ->
    (forall i r, In r (reads (A i)) -> r = RX i \/ exists j, r = RY j) ->
    (forall i r, 0 <= i < h -> In r (reads (B i)) -> (exists j, r = RX j /\ 0 <= j < h) \/ exists j, r = RY j) ->
    (forall m e i l, 0 <= l < bs -> eval c m e (A i) l = a (i * bs + l) (fmul (e (RX i) l) (flat v e RY (2 * ((i * bs + l) / 2))))) ->
    (forall m e i l, 0 <= l < bs -> eval c m e (B i) l = b (i * bs + l) (fmul (flat v e RX (swapped (i * bs + l))) (flat v e RY (2 * ((i * bs + l) / 2) + 1)))) ->
    let s' := execs c (tab (fun i => Let (RX i) (A i)) h) (execs c (tab (fun i => Let (RX (h + i)) (B i)) h) s) in
    snd s' = snd s /\
    (forall f, 0 <= f < h * bs -> flat v (fst s') RX f = a f (fmul (flat v (fst s) RX f) (flat v (fst s) RY (2 * (f / 2))))) /\
    (forall f, h * bs <= f < 2 * h * bs -> flat v (fst s') RX f =
       let f := f - h * bs in b f (fmul (flat v (fst s) RX (swapped f)) (flat v (fst s) RY (2 * (f / 2) + 1)))) /\
    (forall r, (forall i, r <> RX i) -> fst s' r = fst s r).
  Proof.
    intros Hh H2 RA RB VA VB. cbv zeta.
    destruct (exec_tab c (fun i => RX (h + i)) B h s) as (M & V & Fr).
    { intros i i' _ _ E. injection E. lia. }
    { intros i i' Hi Hi' I. destruct (RB i _ ltac:(lia) I) as [(j & E & J)|(j & E)]; [injection E; lia|discriminate E]. }
    set (s1 := execs c _ s) in *. clearbody s1.
    destruct (exec_tab c RX A h s1) as (M2 & V2 & Fr2).
    { intros i i' _ _ E. injection E. auto. }
    { intros i i' Hi Hi' I. destruct (RA i _ I) as [E|(j & E)]; [injection E; lia|discriminate E]. }
    set (s2 := execs c _ s1) in *. clearbody s2.
    assert (Y1 : forall f, flat v (fst s1) RY f = flat v (fst s) RY f) by (intros f; unfold flat; rewrite Fr by (intros; discriminate); reflexivity).
    split; [congruence|]. split; [|split].
    - intros f Hf. destruct (pos_bs v t f h Hf) as (P1 & P2 & P3). rewrite flat_div, V2 by auto. rewrite VA, <- P3 by auto.
      rewrite Y1. f_equal. f_equal. rewrite Fr; [reflexivity|]. intros j Hj E. injection E. lia.
    - intros f Hf. assert (Hf' : 0 <= f - h * bs < h * bs) by lia. destruct (pos_bs v t _ h Hf') as (P1 & P2 & P3).
      assert (E : f = (h + (f - h * bs) / bs) * bs + (f - h * bs) mod bs) by lia.
      rewrite E at 1. rewrite flat_at by auto. rewrite Fr2 by (intros j Hj Q; injection Q; lia). rewrite V by auto. rewrite VB, <- P3 by auto. reflexivity.
    - intros r Hr. rewrite Fr2, Fr; auto.
  Qed.
  Lemma swapped_bound f w : (2 | w) -> 0 <= f < w -> 0 <= swapped f < w.
  Proof.
    intros [q ->] H. unfold swapped. pose proof (Z.mod_pos_bound (f + 1) 2 ltac:(lia)).
    assert (f / 2 < q) by (apply Z.div_lt_upper_bound; lia). assert (0 <= f / 2) by (apply Z.div_pos; lia). lia.
  Qed.
  Lemma pair_bound f w : (2 | w) -> 0 <= f < w -> 0 <= 2 * (f / 2) /\ 2 * (f / 2) + 1 < w.
  Proof. intros [q ->] H. assert (f / 2 < q) by (apply Z.div_lt_upper_bound; lia). assert (0 <= f / 2) by (apply Z.div_pos; lia). lia. Qed.

  Theorem preprocess_ok k lw ix iy (s : state t) : fits k cx = true -> reg_width v cx k n <= lw ->
    (v = SISD -> cx && two_vectors k = true -> (4 | lw)) ->
    prep_effect v k cx n c ix iy (reg_width v cx k n) s (execs c (preprocess v cx k lw n ix iy part) s).
  Proof.
    intros FIT Hlw EV. destruct prep_h as [H0 HB]. pose proof (bsize_pos v t) as BP.
    unfold preprocess, prep_effect. cbv zeta. rewrite !(ld_tab v cx n part (left c) _ _ WF).
    change (x_vars lw) with (tab RX lw). unfold y_vars. change (vars RY ?a) with (tab RY a).
    assert (XI : forall i i', RX i = RX i' -> i = i') by (intros i i' E; injection E; auto).
    assert (YI : forall i i', RY i = RY i' -> i = i') by (intros i i' E; injection E; auto).
    assert (LX : forall e p inc i l, 0 <= i < h -> 0 <= l < bs -> eval c (snd s) e (ld_e v cx part p inc i) l = lv cx c (snd s) p inc (i * bs + l)).
    { intros. apply (ld_val v cx n); auto. }
    assert (LR : forall p inc i r, ~ In r (reads (ld_e (t:=t) v cx part p inc i))) by (intros; rewrite (ld_reads v cx n part (left c)) by auto; intros []).
    destruct k; cbn [fits two_vectors] in *; unfold reg_width in *; cbn [two_vectors] in *; rewrite ?Z.mul_1_r in *.
    - destruct (load_line RX (ld_e v cx part PX ix) lw s XI Hlw ltac:(intros; apply LR)) as (M & V & Fr).
      set (s1 := execs c _ s) in *. clearbody s1. split; [exact M|]. split; [|intros; apply Fr; auto].
      intros f Hf. unfold pval. revert f Hf. apply flat_of. intros i l Hi Hl. rewrite V by auto. apply LX; auto.
    - rewrite vabs_tab. destruct (load_line RX (abs_e v (ld_e v cx part PX ix)) lw s XI Hlw ltac:(intros; rewrite abs_reads; apply LR)) as (M & V & Fr).
      set (s1 := execs c _ s) in *. clearbody s1. split; [exact M|]. split; [|intros; apply Fr; auto].
      intros f Hf. unfold pval. revert f Hf. apply (flat_of _ _ _ (fun f => fabs (lv cx c (snd s) PX ix f))). intros i l Hi Hl. rewrite V, abs_val by auto. f_equal. apply LX; auto.
    - assert (CX : cx = false) by (destruct cx; [discriminate FIT|reflexivity]).
      assert (D1 : h * dsize cx = h) by (rewrite CX at 2; apply Z.mul_1_r). rewrite D1 in *.
      replace (if cx then lw / 2 else lw) with lw by (rewrite CX; reflexivity). rewrite !execs_app.
      destruct (load_line RX (ld_e v cx part PX ix) lw s XI Hlw ltac:(intros; apply LR)) as (M & V & Fr).
      set (s1 := execs c _ s) in *. clearbody s1.
      destruct (load_line RY (ld_e v cx part PY iy) lw s1 YI Hlw ltac:(intros; apply LR)) as (M2 & V2 & Fr2).
      set (s2 := execs c _ s1) in *. clearbody s2.
      tabs. replace (Z.min lw (Z.min lw (Z.min h lw))) with h by lia.
      destruct (exec_tab c RX (fun i => VMul (VReg (RX i)) (VReg (RY i))) h s2) as (M3 & V3 & F3); [side|side|].
      set (s3 := execs c _ s2) in *. clearbody s3. split; [congruence|]. split.
      + intros f Hf. unfold pval. revert f Hf. apply (flat_of _ _ _ (fun f => fmul (lv cx c (snd s) PX ix f) (lv cx c (snd s) PY iy f))).
        intros i l Hi Hl. rewrite V3 by auto. cbn [eval]. rewrite Fr2 by (intros; discriminate). rewrite V, V2, M by auto. f_equal; apply LX; auto.
      + intros r R1 R2. rewrite F3, Fr2, Fr; auto.
    - (* KDotC *)
      assert (D2 : dsize cx = 2) by (destruct cx; [reflexivity|discriminate FIT]).
      assert (D3 : h * dsize cx = h * 2) by (rewrite D2 at 2; reflexivity). rewrite D3 in *.
      replace (if cx then lw / 2 else lw) with (lw / 2) by (destruct cx; [reflexivity|discriminate FIT]). rewrite !execs_app.
      assert (ML : h * 2 / 2 = h) by (apply Z.div_mul; lia). rewrite ML.
      assert (LW2 : h <= lw / 2) by (rewrite <- ML; apply Z.div_le_mono; lia).
      destruct (load_line RX (ld_e v cx part PX ix) lw s XI ltac:(lia) ltac:(intros; apply LR)) as (M & V & Fr).
      set (s1 := execs c _ s) in *. clearbody s1.
      destruct (load_line RY (ld_e v cx part PY iy) (lw / 2) s1 YI ltac:(lia) ltac:(intros; apply LR)) as (M2 & V2 & Fr2).
      set (s2 := execs c _ s1) in *. clearbody s2.
      assert (EV' : v = SISD -> (4 | lw)) by (intros E; apply EV; [exact E|destruct cx; [reflexivity|discriminate FIT]]).
      assert (E2 : v = SISD -> (2 | lw)) by (intros E; destruct (EV' E) as [q ->]; exists (q * 2); ring).
      assert (E3 : v = SISD -> (2 | lw / 2)).
      { intros E. destruct (EV' E) as [q ->]. exists q. replace (q * 4) with (q * 2 * 2) by ring. apply Z.div_mul. lia. }
      assert (E4 : v = SISD -> (2 | h)) by (intros E; exists n; rewrite D2, E, sisd_bs, Z.div_1_r; reflexivity).
      rewrite swap_tab, odd_tab, even_tab by auto.
      tabs. rewrite vconj_tab. rewrite !from_tab by lia. tabs.
      replace (Z.min (Z.min h lw) (Z.min lw (lw / 2))) with h by lia.
      replace (Z.min (Z.min (h * 2) lw - h) (Z.min lw (lw / 2))) with h by lia.
      match goal with |- context [execs c (tab (fun i => Let (RX i) (@?A i)) h) (execs c (tab (fun j => Let (RX (h + j)) (@?B j)) h) s2)] =>
        destruct (cross_ok A B
          (fun f p => if f mod 2 =? 0 then p else fneg p)
          (fun _ p => p) h s2 H0 E4) as (C1 & C2 & C3 & C4) end.
      { intros i r Hr. rewrite conj_reads in Hr. cbn [reads app In] in Hr. destruct Hr as [<-|Hr]; [auto|]. apply even_reads in Hr. auto. }
      { intros i r Hi Hr.  cbn [reads] in Hr. apply in_app_or in Hr. destruct Hr as [Hr|Hr]; [left; eapply swap_reads; eauto|right; eapply odd_reads; eauto]. }
      { intros m e i l Hl. rewrite conj_val by auto. cbn [eval]. rewrite even_val by auto. reflexivity. }
      { intros m e i l Hl.  cbn [eval]. rewrite swap_val, odd_val by auto. reflexivity. }
      set (s3 := execs c _ s2) in *. set (s4 := execs c _ s3) in *. clearbody s4.
      assert (FX : forall f, 0 <= f < h * bs -> flat v (fst s2) RX f = lv cx c (snd s) PX ix f).
      { apply flat_of. intros i l Hi Hl. rewrite Fr2, V by (auto; intros; discriminate). apply LX; auto. }
      assert (FY : forall f, 0 <= f < h * bs -> flat v (fst s2) RY f = lv cx c (snd s) PY iy f).
      { apply flat_of. intros i l Hi Hl. rewrite V2, M by auto. apply LX; auto. }
      assert (EB : (2 | h * bs)) by (rewrite HB, D2; exists n; reflexivity).
      split; [congruence|]. split; [|intros r R1 R2; rewrite C4, Fr2, Fr; auto].
      intros f Hf. unfold pval. rewrite <- HB. destruct (Z.ltb_spec f (h * bs)) as [L|L].
      + rewrite C2 by lia. pose proof (pair_bound f _ EB ltac:(lia)). rewrite FX, FY by lia. reflexivity.
      + assert (L2 : 0 <= f - h * bs < h * bs) by lia. rewrite C3 by lia. cbv zeta.
        pose proof (pair_bound _ _ EB L2). pose proof (swapped_bound _ _ EB L2). rewrite FX, FY by lia. reflexivity.
    - (* KDotU *)
      assert (D2 : dsize cx = 2) by (destruct cx; [reflexivity|discriminate FIT]).
      assert (D3 : h * dsize cx = h * 2) by (rewrite D2 at 2; reflexivity). rewrite D3 in *.
      replace (if cx then lw / 2 else lw) with (lw / 2) by (destruct cx; [reflexivity|discriminate FIT]). rewrite !execs_app.
      assert (ML : h * 2 / 2 = h) by (apply Z.div_mul; lia). rewrite ML.
      assert (LW2 : h <= lw / 2) by (rewrite <- ML; apply Z.div_le_mono; lia).
      destruct (load_line RX (ld_e v cx part PX ix) lw s XI ltac:(lia) ltac:(intros; apply LR)) as (M & V & Fr).
      set (s1 := execs c _ s) in *. clearbody s1.
      destruct (load_line RY (ld_e v cx part PY iy) (lw / 2) s1 YI ltac:(lia) ltac:(intros; apply LR)) as (M2 & V2 & Fr2).
      set (s2 := execs c _ s1) in *. clearbody s2.
      assert (EV' : v = SISD -> (4 | lw)) by (intros E; apply EV; [exact E|destruct cx; [reflexivity|discriminate FIT]]).
      assert (E2 : v = SISD -> (2 | lw)) by (intros E; destruct (EV' E) as [q ->]; exists (q * 2); ring).
      assert (E3 : v = SISD -> (2 | lw / 2)).
      { intros E. destruct (EV' E) as [q ->]. exists q. replace (q * 4) with (q * 2 * 2) by ring. apply Z.div_mul. lia. }
      assert (E4 : v = SISD -> (2 | h)) by (intros E; exists n; rewrite D2, E, sisd_bs, Z.div_1_r; reflexivity).
      rewrite swap_tab, odd_tab, even_tab by auto.
      tabs. rewrite vnconj_tab. rewrite !from_tab by lia. tabs.
      replace (Z.min (Z.min h lw) (Z.min lw (lw / 2))) with h by lia.
      replace (Z.min (Z.min (h * 2) lw - h) (Z.min lw (lw / 2))) with h by lia.
      match goal with |- context [execs c (tab (fun i => Let (RX i) (@?A i)) h) (execs c (tab (fun j => Let (RX (h + j)) (@?B j)) h) s2)] =>
        destruct (cross_ok A B
          (fun _ p => p)
          (fun f p => if f mod 2 =? 1 then p else fneg p) h s2 H0 E4) as (C1 & C2 & C3 & C4) end.
      { intros i r Hr.  cbn [reads app In] in Hr. destruct Hr as [<-|Hr]; [auto|]. apply even_reads in Hr. auto. }
      { intros i r Hi Hr. rewrite nconj_reads in Hr. cbn [reads] in Hr. apply in_app_or in Hr. destruct Hr as [Hr|Hr]; [left; eapply swap_reads; eauto|right; eapply odd_reads; eauto]. }
      { intros m e i l Hl.  cbn [eval]. rewrite even_val by auto. reflexivity. }
      { intros m e i l Hl. rewrite nconj_val by auto. cbn [eval]. rewrite swap_val, odd_val by auto. reflexivity. }
      set (s3 := execs c _ s2) in *. set (s4 := execs c _ s3) in *. clearbody s4.
      assert (FX : forall f, 0 <= f < h * bs -> flat v (fst s2) RX f = lv cx c (snd s) PX ix f).
      { apply flat_of. intros i l Hi Hl. rewrite Fr2, V by (auto; intros; discriminate). apply LX; auto. }
      assert (FY : forall f, 0 <= f < h * bs -> flat v (fst s2) RY f = lv cx c (snd s) PY iy f).
      { apply flat_of. intros i l Hi Hl. rewrite V2, M by auto. apply LX; auto. }
      assert (EB : (2 | h * bs)) by (rewrite HB, D2; exists n; reflexivity).
      split; [congruence|]. split; [|intros r R1 R2; rewrite C4, Fr2, Fr; auto].
      intros f Hf. unfold pval. rewrite <- HB. destruct (Z.ltb_spec f (h * bs)) as [L|L].
      + rewrite C2 by lia. pose proof (pair_bound f _ EB ltac:(lia)). rewrite FX, FY by lia. reflexivity.
      + assert (L2 : 0 <= f - h * bs < h * bs) by lia. rewrite C3 by lia. cbv zeta.
        pose proof (pair_bound _ _ EB L2). pose proof (swapped_bound _ _ EB L2). rewrite FX, FY by lia. reflexivity.
    - rewrite !execs_app. unfold vmul. rewrite !repeat_tab, !zipw_tab, !Z.min_id.
      destruct (load_line RX (fun i => VMul (ld_e v cx part PX ix i) (VReg RInv)) lw s XI Hlw) as (M & V & Fr).
      { intros i j. cbn [reads]. intros I. apply in_app_or in I. destruct I as [I|[E|[]]]; [revert I; apply LR|discriminate E]. }
      set (s1 := execs c _ s) in *. clearbody s1. tabs. replace (Z.min lw (Z.min lw (Z.min h lw))) with h by lia.
      destruct (exec_tab c RX (fun i => VMul (VReg (RX i)) (VReg (RX i))) h s1) as (M3 & V3 & F3); [side|side|].
      set (s3 := execs c _ s1) in *. clearbody s3. split; [congruence|]. split.
      + intros f Hf. destruct (pos_bs v t f h Hf) as (P1 & P2 & P3). unfold pval. rewrite flat_div, V3 by auto. cbn [eval].
        rewrite V by auto. cbn [eval]. rewrite LX, <- P3 by auto. reflexivity.
      + intros r R1 R2. rewrite F3, Fr; auto.
  Qed.
End Prep.
