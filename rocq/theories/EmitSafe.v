(** * Proofs about the accesses of the emitted code *)
From Coq Require Import ZArith List Bool Lia.
From Verif Require Import Fp Mem Binned Gen GenProofs Blas Emit EmitRun EmitBlas EmitAccess.
Import ListNotations.
Open Scope Z_scope.

(** ** The steps are the run *)
Lemma runs_prims {t} c (is : list (instr t)) s : runs c is s = fold_left (exec c) (prims is) s.
Proof.
  revert s. induction is as [|i is IH]; intros s; [reflexivity|]. cbn [runs fold_left prims flat_map].
  change (fold_left (run1 c) is (run1 c s i)) with (runs c is (run1 c s i)). rewrite IH, fold_left_app. f_equal.
  destruct i as [p|lo hi b]; [reflexivity|]. cbn [run1]. revert s. induction (zseq lo (hi - lo)) as [|j l IL]; intros s; [reflexivity|].
  cbn [fold_left flat_map]. rewrite IL, fold_left_app. reflexivity.
Qed.
Lemma steps_pair {t} c (ps : list (prim t)) s : fold_left step (map (pair c) ps) s = fold_left (exec c) ps s.
Proof. revert s. induction ps as [|p ps IH]; intros s; [reflexivity|]. cbn [map fold_left]. rewrite IH. reflexivity. Qed.
Lemma steps_flat {t A} (f : A -> ctx) (g : A -> list (prim t)) (l : list A) s :
  fold_left step (flat_map (fun c => map (pair (f c)) (g c)) l) s = fold_left (fun s c => fold_left (exec (f c)) (g c) s) l s.
Proof. revert s. induction l as [|a l IH]; intros s; [reflexivity|]. cbn [flat_map fold_left]. rewrite fold_left_app, steps_pair, IH. reflexivity. Qed.

Lemma emitted_is_steps {t} v cx (k : kclass t) expanded fold pipe unroll n X incX Y incY acc incacc e (m : mem t) :
  fst (emitted v cx k expanded fold pipe unroll n X incX Y incY acc incacc e m) =
  snd (fold_left step (emitted_steps v cx k expanded fold pipe unroll n X incX Y incY acc incacc (dmindex0 (m acc)) (dmindex0 (m (acc + 1)))) (e, m)).
Proof.
  unfold emitted, emitted_steps. destruct (run_unrolled (tsize v t cx) (pipe * unroll) n) as [cs p]. cbn [fst].
  rewrite !fold_left_app, !steps_pair, steps_flat, !fold_left_app, !runs_prims. f_equal. f_equal.
  set (c0 := Ctx _ n). set (zero := if cx then _ else _).
  assert (E : forall s, fold_left (run_body v cx k expanded zero fold pipe unroll X incX Y incY acc) cs s =
    fold_left (fun s c => fold_left (exec (body_ctx cx X incX Y incY acc c)) (prims (body v cx k expanded zero fold pipe unroll
      (branch_inc incX) (branch_inc incY) (size c) (negb (cnt c =? size c)))) s) cs s).
  { induction cs as [|c cs IH]; intros s; [reflexivity|]. cbn [fold_left]. rewrite IH. unfold run_body. rewrite runs_prims. reflexivity. }
  rewrite E. f_equal. destruct k; (destruct zero; reflexivity).
Qed.
Lemma scan_is_steps {t} v cx two unroll n X incX Y incY acc e (m : mem t) :
  emitted_scan v cx two unroll n X incX Y incY acc e m =
  snd (fold_left step (scan_steps v cx two unroll n X incX Y incY acc) (e, m)).
Proof.
  unfold emitted_scan, scan_steps. destruct (run_unrolled (tsize v t cx) unroll n) as [cs p]. cbn [fst].
  rewrite !fold_left_app, !steps_pair, steps_flat. reflexivity.
Qed.

(** ** Accesses, abstractly *)
Lemma ty_case {A} (P : A -> Prop) (t : ty) a b : P a -> P b -> P (match t with Dbl => a | Flt => b end).
Proof. destruct t; auto. Qed.
Section Good.
  Context {t : ty}.
  Variable v : isa.
  Variable c : ctx.
  Variable L : Z -> Prop.
  Variable S : Z -> Prop.
  Variable D : cvar * option Z -> Prop.

  Definition goodS (s : sexpr t) : Prop := Forall L (loads_s c s) /\ Forall D (names_s s).
  Definition goodV (x : vexpr t) : Prop := Forall L (loads_v v c x) /\ Forall D (names_v x).
  Definition goodP (p : prim t) : Prop := Forall L (loads v c p) /\ Forall S (stores c p) /\ Forall D (names p).
  Definition okr (r : cvar) : Prop := D (r, None).

  Lemma good_let r x : okr r -> goodV x -> goodP (Let r x).
  Proof. intros A [B C]. split; [exact B|]. split; [constructor|]. constructor; [exact A|exact C]. Qed.
  Lemma good_reg r : okr r -> goodV (VReg r).
  Proof. intros A. split; [constructor|]. constructor; [exact A|constructor]. Qed.
  Lemma good_rd l : Forall okr l -> Forall goodV (rd l).
  Proof. intros H. apply Forall_map. revert H. apply Forall_impl. exact good_reg. Qed.
  Lemma forall_combine {A B} (P : A -> Prop) (Q : B -> Prop) l l' : Forall P l -> Forall Q l' -> Forall (fun p => P (fst p) /\ Q (snd p)) (combine l l').
  Proof.
    intros HP. revert l'. induction HP as [|a l Pa Pl IH]; intros l' HQ; [constructor|]. destruct HQ as [|b l' Qb Ql]; [constructor|].
    constructor; [split; assumption|]. apply IH; assumption.
  Qed.
  Lemma good_set_equal l xs : Forall okr l -> Forall goodV xs -> Forall goodP (set_equal l xs).
  Proof.
    intros A B. unfold set_equal, zipw. apply Forall_map. pose proof (forall_combine _ _ _ _ A B) as H. revert H. apply Forall_impl.
    intros [r x] [P Q]. apply good_let; assumption.
  Qed.
  Lemma good_zip (f : vexpr t -> vexpr t -> vexpr t) (F : forall a b, goodV a -> goodV b -> goodV (f a b)) l l' :
    Forall goodV l -> Forall goodV l' -> Forall goodV (zipw f l l').
  Proof. intros A B. unfold zipw. apply Forall_map. pose proof (forall_combine _ _ _ _ A B) as H. revert H. apply Forall_impl. intros [x y] [P Q]. apply F; assumption. Qed.
  Lemma good_bin (f : vexpr t -> vexpr t -> vexpr t) :
    (forall a b, loads_v v c (f a b) = loads_v v c a ++ loads_v v c b) -> (forall a b, names_v (f a b) = names_v a ++ names_v b) ->
    forall a b, goodV a -> goodV b -> goodV (f a b).
  Proof. intros E1 E2 a b [A1 A2] [B1 B2]. split; rewrite ?E1, ?E2; apply Forall_app; split; assumption. Qed.
  Lemma good_vadd l l' : Forall goodV l -> Forall goodV l' -> Forall goodV (vadd l l').
  Proof. apply good_zip. apply good_bin; reflexivity. Qed.
  Lemma good_vsub l l' : Forall goodV l -> Forall goodV l' -> Forall goodV (vsub l l').
  Proof. apply good_zip. apply good_bin; reflexivity. Qed.
  Lemma good_vmul l l' : Forall goodV l -> Forall goodV l' -> Forall goodV (vmul l l').
  Proof. apply good_zip. apply good_bin; reflexivity. Qed.
  Lemma good_vmax l l' : Forall goodV l -> Forall goodV l' -> Forall goodV (vmax l l').
  Proof. apply good_zip. apply good_bin; reflexivity. Qed.
  Lemma good_map (f : vexpr t -> vexpr t) : (forall a, goodV a -> goodV (f a)) -> forall l, Forall goodV l -> Forall goodV (map f l).
  Proof. intros F l H. apply Forall_map. revert H. apply Forall_impl. exact F. Qed.
  Lemma good_lit x : goodV (VScal (SLit x)).
  Proof. split; constructor. Qed.
  Lemma good_vabs l : Forall goodV l -> Forall goodV (vabs v l).
  Proof. unfold vabs. destruct v; apply good_map; intros a H; exact H. Qed.
  Lemma forall_firstn {A} (P : A -> Prop) n l : Forall P l -> Forall P (firstn n l).
  Proof. intros H. rewrite <- (firstn_skipn n l) in H. apply Forall_app in H. apply H. Qed.
  Lemma forall_skipn {A} (P : A -> Prop) n l : Forall P l -> Forall P (skipn n l).
  Proof. intros H. rewrite <- (firstn_skipn n l) in H. apply Forall_app in H. apply H. Qed.
  Lemma forall_upto {A} (P : A -> Prop) n l : Forall P l -> Forall P (upto n l).
  Proof. apply forall_firstn. Qed.
  Lemma forall_from {A} (P : A -> Prop) n l : Forall P l -> Forall P (from n l).
  Proof. apply forall_skipn. Qed.
  Lemma forall_cycle {A} (P : A -> Prop) n l : Forall P l -> Forall P (cycle l n).
  Proof. intros H. apply forall_firstn. apply Forall_concat. apply Forall_forall. intros x I. apply repeat_spec in I. subst x. exact H. Qed.
  Lemma forall_evens {A} (P : A -> Prop) (l : list A) : Forall P l -> Forall P (evens l).
  Proof.
    assert (H : forall n l, (length l <= n)%nat -> Forall P l -> Forall P (evens l)).
    { induction n as [|n IH]; intros [|a [|b r]] Hl H; cbn [length evens] in *; try lia; try assumption.
      inversion H; subst. constructor; [assumption|]. apply IH; [lia|]. inversion H3; assumption. }
    apply (H (length l)); lia.
  Qed.
  Lemma forall_odds {A} (P : A -> Prop) (l : list A) : Forall P l -> Forall P (odds l).
  Proof. intros H. apply forall_evens. destruct H; [constructor|assumption]. Qed.
  Lemma forall_twice {A} (P : A -> Prop) (l : list A) : Forall P l -> Forall P (twice l).
  Proof. intros H. induction H; [constructor|]. constructor; [assumption|]. constructor; assumption. Qed.
  Lemma good_enum (f : Z -> vexpr t -> vexpr t) : (forall i a, goodV a -> goodV (f i a)) -> forall l, Forall goodV l -> Forall goodV (enum f l).
  Proof.
    intros F l H. unfold enum. apply Forall_map. apply Forall_forall. intros [i a] I. apply F. apply in_combine_r in I.
    rewrite Forall_forall in H. apply H. exact I.
  Qed.
  Lemma good_neg a : goodV a -> goodV (VMul a (VScal (SLit minus1))).
  Proof. intros H. apply (good_bin VMul); try reflexivity; [exact H|apply good_lit]. Qed.
  Lemma good_vconj l : Forall goodV l -> Forall goodV (vconj v l).
  Proof. unfold vconj. destruct v; [apply good_enum; intros i a H; destruct (_ =? _); [exact H|apply good_neg; exact H]|apply good_map; intros a H; exact H..]. Qed.
  Lemma good_vnconj l : Forall goodV l -> Forall goodV (vnconj v l).
  Proof. unfold vnconj. destruct v; [apply good_enum; intros i a H; destruct (_ =? _); [exact H|apply good_neg; exact H]|apply good_map; intros a H; exact H..]. Qed.
  Lemma good_dup (f : vexpr t -> vexpr t -> vexpr t) : (forall a b, goodV a -> goodV b -> goodV (f a b)) -> forall l, Forall goodV l -> Forall goodV (map (fun a => f a a) l).
  Proof. intros F. apply good_map. intros a H. apply F; exact H. Qed.
  Lemma good_rep_evens l : Forall goodV l -> Forall goodV (rep_evens v l).
  Proof.
    intros H. unfold rep_evens. destruct v; [|apply (ty_case (Forall goodV)); apply good_map; try exact H; intros a [A B]; try (split; assumption); split; apply Forall_app; split; assumption..].
    apply forall_twice. apply forall_evens. exact H.
  Qed.
  Lemma good_rep_odds l : Forall goodV l -> Forall goodV (rep_odds v l).
  Proof.
    intros H. unfold rep_odds. destruct v; [|apply (ty_case (Forall goodV)); apply good_map; try exact H; intros a [A B]; try (split; assumption); split; apply Forall_app; split; assumption..].
    apply forall_twice. apply forall_odds. exact H.
  Qed.
  Lemma good_nth l i : Forall goodV l -> goodV (nth i l (VScal (SLit fnan))).
  Proof.
    intros H. destruct (nth_in_or_default i l (VScal (SLit fnan))) as [I|E].
    - rewrite Forall_forall in H. apply H. exact I.
    - rewrite E. apply good_lit.
  Qed.
  Lemma good_swap l : Forall goodV l -> Forall goodV (swap_pairwise v l).
  Proof.
    intros H. unfold swap_pairwise. destruct v; [|apply (ty_case (Forall goodV)); apply good_map; try exact H; intros a [A B]; try (split; assumption); split; apply Forall_app; split; assumption..].
    apply Forall_map. apply Forall_forall. intros i _. apply good_nth. exact H.
  Qed.
  Lemma good_repeat r n : okr r -> Forall goodV (repeat (VReg r) n).
  Proof. intros H. apply Forall_forall. intros x I. apply repeat_spec in I. subst x. apply good_reg. exact H. Qed.
  Lemma okr_vars f n : (forall i, 0 <= i < n -> okr (f i)) -> Forall okr (vars f n).
  Proof. intros H. unfold vars. apply Forall_map. apply Forall_forall. intros i I. apply zseq_In in I. apply H. lia. Qed.

  Hypothesis blp_ok : v = SISD -> okr RBlp.
  Lemma good_add_blp dst src blp width : width <= Z.of_nat (length dst) -> Forall okr dst -> Forall goodV src -> Forall goodV blp ->
    Forall goodP (add_blp_into v dst src blp width).
  Proof.
    intros Hw A B C. unfold add_blp_into. apply Forall_flat_map. apply Forall_forall. intros i I. apply zseq_In in I.
    assert (Hd : okr (nth (Z.to_nat i) dst RBlp)) by (rewrite Forall_forall in A; apply A; apply nth_In; lia).
    pose proof (good_nth src (Z.to_nat i) B) as Hs. pose proof (good_nth blp (Z.to_nat i) C) as Hb.
    destruct v.
    - specialize (blp_ok eq_refl). repeat constructor; try assumption; try apply Hb; try apply Hs.
      + cbn. rewrite app_nil_r. apply Hs.
      + cbn. apply Forall_app. split; [apply Hs|]. repeat constructor. assumption.
    - constructor; [|constructor]. apply good_let; [exact Hd|]. apply (good_bin VAdd); try reflexivity; assumption.
    - constructor; [|constructor]. apply good_let; [exact Hd|]. apply (good_bin VAdd); try reflexivity; assumption.
  Qed.
  Lemma good_chain l x : Forall okr l -> goodV x -> Forall goodP (chain l x).
  Proof. intros A B. unfold chain. apply Forall_map. apply Forall_rev in A. revert A. apply Forall_impl. intros r R. apply good_let; assumption. Qed.
  Lemma good_mem p i : L (at_ c p + i) -> goodS (SMem p i).
  Proof. intros H. split; [|constructor]. constructor; [exact H|constructor]. Qed.
  Lemma good_set l : Forall goodS l -> goodV (VSet l).
  Proof. intros H. split; apply Forall_flat_map; revert H; apply Forall_impl; intros s [A B]; assumption. Qed.
  Lemma good_if k s : (k < left c -> Forall L (loads_s c s)) -> Forall D (names_s s) -> goodS (SIf k s).
  Proof. intros H N. split; [|exact N]. cbn [loads_s]. destruct (Z.ltb_spec k (left c)); [apply H; assumption|constructor]. Qed.
  Lemma good_z : goodS (SLit fzero).
  Proof. split; constructor. Qed.
End Good.

(** ** Loads *)
Lemma bsize_tsize v t cx : vector v = true -> bsize v t = tsize v t cx * dsize cx /\ 1 <= tsize v t cx.
Proof. destruct v, t, cx; intros H; try discriminate H; split; try reflexivity; vm_compute; discriminate. Qed.
Lemma dsize_pos cx : 1 <= dsize cx.
Proof. destruct cx; cbn; lia. Qed.
Lemma index_cell cx inc q : exists i p, index cx 0 inc q = i * (incv inc * dsize cx) + p /\ 0 <= p < dsize cx /\ q = i * dsize cx + p.
Proof.
  destruct cx; unfold index; cbn [dsize].
  - exists (q / 2), (q mod 2). pose proof (Z.div_mod q 2). pose proof (Z.mod_pos_bound q 2). split; [ring|]. lia.
  - exists q, 0. split; [ring|]. lia.
Qed.
Lemma index_in cx inc n (P : Z -> Prop) a :
  (forall i p, 0 <= i < n -> 0 <= p < dsize cx -> P (a + i * (incv inc * dsize cx) + p)) ->
  forall q, 0 <= q < n * dsize cx -> P (a + index cx 0 inc q).
Proof.
  intros H q Hq. destruct (index_cell cx inc q) as (i & p & -> & Hp & E). rewrite Z.add_assoc. apply H; [|exact Hp]. subst q. nia.
Qed.
Lemma good_load t v cx (c : ctx) (L : Z -> Prop) (D : cvar * option Z -> Prop) p inc n :
  (forall i k, 0 <= i < n -> 0 <= k < dsize cx -> L (at_ c p + i * (incv inc * dsize cx) + k)) ->
  (Z.max (tsize v t cx) 1 | n) -> 0 < n -> Forall (goodV (t := t) v c L D) (load v cx p 0 inc n).
Proof.
  intros H DV Hn. pose proof (index_in cx inc n L (at_ c p) H) as HI. unfold load.
  destruct (vector v) eqn:V.
  2: { destruct v; try discriminate V. apply Forall_map. apply Forall_forall. intros i I. apply zseq_In in I. split; [|constructor].
       constructor; [|constructor]. apply HI. lia. }
  destruct (bsize_tsize v t cx V) as [EB T1]. pose proof (dsize_pos cx) as DS.
  rewrite Z.max_l in DV by lia. destruct DV as [g Hg].
  assert (G : forall i k, 0 <= i < n / tsize v t cx -> 0 <= k < bsize v t -> 0 <= i * bsize v t + k < n * dsize cx).
  { intros i k Hi Hk. rewrite Hg, Z.div_mul in Hi by lia. rewrite EB in *. rewrite Hg. nia. }
  assert (SM : forall i k, 0 <= i < n / tsize v t cx -> 0 <= k < bsize v t -> goodS (t := t) c L D (SMem p (index cx 0 inc (i * bsize v t + k)))).
  { intros i k Hi Hk. apply good_mem. apply HI. apply G; assumption. }
  assert (LU : forall i, contiguous inc (tsize v t cx) = true -> 0 <= i < n / tsize v t cx ->
    goodV (t := t) v c L D (VLoadu p (index cx 0 inc (i * bsize v t)))).
  { intros i CT Hi. split; [|constructor]. apply Forall_forall. intros a I. cbn [loads_v] in I. apply zseq_In in I.
    set (l := a - (at_ c p + index cx 0 inc (i * bsize v t))).
    assert (Hl : 0 <= l < bsize v t) by (unfold l; lia).
    replace a with (at_ c p + index cx 0 inc (i * bsize v t + l)); [apply HI; apply G; assumption|].
    replace a with (at_ c p + (index cx 0 inc (i * bsize v t) + l)) by (unfold l; lia). f_equal.
    destruct inc as [|z]; cbn [contiguous] in CT.
    - unfold index. destruct cx; cbn [incv]; [|lia].
      pose proof (Z.div_mod (i * bsize v t) 2). pose proof (Z.div_mod (i * bsize v t + l) 2). lia.
    - apply Z.eqb_eq in CT. rewrite CT in EB. destruct cx; cbn [dsize] in EB.
      + unfold index. rewrite EB in *. replace (i * (1 * 2) + l) with (l + i * 2) by ring. replace (i * (1 * 2)) with (0 + i * 2) by ring.
        rewrite !Z.div_add, !Z.mod_add, (Z.div_small l), (Z.mod_small l) by lia. cbn [Z.div Z.modulo]. change (0 / 2) with 0. change (0 mod 2) with 0. ring.
      + exfalso. destruct v, t; discriminate. }
  destruct v; try discriminate V; apply Forall_map; apply Forall_forall; intros i I; apply zseq_In in I; assert (Hi : 0 <= i < n / _) by (split; [apply I|apply I]);
    (destruct (contiguous inc _) eqn:CT; [apply LU; [first [exact CT | reflexivity]|lia]|]); destruct t; apply good_set; repeat (constructor; [apply SM; [lia|split; [lia|reflexivity]]|]); constructor.
Qed.
Lemma good_load_partial t v cx (c : ctx) (L : Z -> Prop) (D : cvar * option Z -> Prop) p inc n :
  (forall i k, 0 <= i < n -> 0 <= k < dsize cx -> L (at_ c p + i * (incv inc * dsize cx) + k)) ->
  left c = n -> 0 < n < tsize v t cx -> Forall (goodV (t := t) v c L D) (load_partial v cx p 0 inc).
Proof.
  intros H HL Hn. pose proof (index_in cx inc n L (at_ c p) H) as HI.
  assert (X0 : forall q, 0 <= q < n * dsize cx -> goodS (t := t) c L D (SMem p (index cx 0 inc q))) by (intros q Hq; apply good_mem; apply HI; exact Hq).
  assert (XI : forall q, cx = false -> 0 <= q -> goodS (t := t) c L D (SIf q (SMem p (index cx 0 inc q)))).
  { intros q E Hq. apply good_if; [|constructor]. intros Hq'. constructor; [|constructor]. apply HI. rewrite E. cbn [dsize]. lia. }
  assert (Z0 : goodS (t := t) c L D (SLit fzero)) by apply good_z.
  pose proof (dsize_pos cx) as DS.
  unfold load_partial. destruct v, cx, t; cbn [dsize] in *; try (constructor; [|constructor]); try (apply Forall_nil).
  all: try (apply good_set; repeat (apply Forall_cons; [first [apply Z0 | apply XI; [reflexivity|lia] | apply X0; lia]|]); apply Forall_nil).
  (* AVX, complex float *)
  assert (E : forall k, 0 <= k < n -> Forall L [at_ c p + 2 * index_elem 0 inc k] /\ Forall L [at_ c p + (2 * index_elem 0 inc k + 1)]).
  { intros k Hk. pose proof (H k 0 Hk ltac:(lia)) as H0. pose proof (H k 1 Hk ltac:(lia)) as H1. unfold index_elem.
    split; (constructor; [|constructor]).
    - replace (at_ c p + 2 * (incv inc * (0 + k))) with (at_ c p + k * (incv inc * 2) + 0) by ring. exact H0.
    - replace (at_ c p + (2 * (incv inc * (0 + k)) + 1)) with (at_ c p + k * (incv inc * 2) + 1) by ring. exact H1. }
  split; [|repeat constructor].
  cbn [loads_v flat_map fst snd loads_s app]. rewrite HL.
  assert (E' : forall k, 0 <= k < n -> L (at_ c p + 2 * index_elem 0 inc k) /\ L (at_ c p + (2 * index_elem 0 inc k + 1))).
  { intros k Hk. destruct (E k Hk) as [A B]. split; [exact (Forall_inv A)|exact (Forall_inv B)]. }
  destruct (E' 0 ltac:(lia)) as [E0 E0'].
  destruct (Z.ltb_spec 2 n) as [H2|H2]; destruct (Z.ltb_spec 1 n) as [H1|H1]; try lia; cbn [app];
    repeat (constructor; [first [assumption | apply E'; lia]|]); constructor.
Qed.

(** ** The deposit kernels *)
Lemma good_preprocess t v cx (k : kclass t) (c : ctx) (L S : Z -> Prop) (D : cvar * option Z -> Prop) lw ix iy n (part : bool) cnt :
  Forall (okr D) (x_vars lw) -> (two_vectors k = true -> Forall (okr D) (y_vars cx lw)) -> (forall scl, k = KSSq scl -> okr D RInv) ->
  (forall i p, 0 <= i < cnt -> 0 <= p < dsize cx -> L (at_ c PX + i * (incv ix * dsize cx) + p)) ->
  (two_vectors k = true -> forall i p, 0 <= i < cnt -> 0 <= p < dsize cx -> L (at_ c PY + i * (incv iy * dsize cx) + p)) ->
  (if part then left c = cnt /\ 0 < cnt < tsize v t cx else cnt = n /\ 0 < n /\ (Z.max (tsize v t cx) 1 | n)) ->
  Forall (goodP v c L S D) (preprocess v cx k lw n ix iy part).
Proof.
  intros OX OY OI HX HY HP.
  assert (GX : Forall (goodV (t := t) v c L D) (if part then load_partial v cx PX 0 ix else load v cx PX 0 ix n)).
  { destruct part; [destruct HP; apply (good_load_partial t v cx c L D PX ix cnt); assumption|].
    destruct HP as (-> & P & Q). apply good_load; assumption. }
  assert (GY : two_vectors k = true -> Forall (goodV (t := t) v c L D) (if part then load_partial v cx PY 0 iy else load v cx PY 0 iy n)).
  { intros T. specialize (HY T). destruct part; [destruct HP; apply (good_load_partial t v cx c L D PY iy cnt); assumption|].
    destruct HP as (-> & P & Q). apply good_load; assumption. }
  pose proof (good_rd (t := t) v c L D _ OX) as RX.
  unfold preprocess.
  destruct k; cbn [two_vectors] in *; try (specialize (OY eq_refl); specialize (GY eq_refl); pose proof (good_rd (t := t) v c L D _ OY) as RY);
    repeat (apply Forall_app; split);
    repeat first [assumption | apply good_set_equal | apply good_vabs | apply good_vconj | apply good_vnconj | apply good_vmul | apply good_swap
      | apply good_rep_evens | apply good_rep_odds | apply good_rd | apply forall_upto | apply forall_from | apply good_repeat].
  apply (OI scl). reflexivity.
Qed.
Lemma vars_length f n : length (vars f n) = Z.to_nat n.
Proof. unfold vars. rewrite map_length, zseq_length. reflexivity. Qed.
Lemma prims_app {t} (a b : list (instr t)) : prims (a ++ b) = prims a ++ prims b.
Proof. unfold prims. apply flat_map_app. Qed.
Lemma prims_do {t} (l : list (prim t)) : prims (map Do l) = l.
Proof. induction l as [|p l IH]; [reflexivity|]. cbn [map prims flat_map app]. f_equal. exact IH. Qed.
Lemma good_process t v cx (c : ctx) (L S : Z -> Prop) (D : cvar * option Z -> Prop) expanded zero fold lw W reg unroll :
  (v = SISD -> okr D RBlp) -> 1 <= fold -> reg <= W -> 0 <= W ->
  Forall (okr D) (x_vars lw) -> Forall (okr D) (q_vars W) ->
  (if (expanded : bool) then 2 <= fold /\ forall j, 0 <= j < fold -> Forall (okr D) (s_vars W j)
   else Forall (okr D) (t_vars W) /\ forall j, 0 <= j < Z.max fold 2 -> Forall (okr D) (buffer_vars W j)) ->
  Forall (okr D) (comp_vars v cx) -> Forall (okr D) (exp_vars v cx) -> (cx = true -> Forall (okr D) (mask_vars v cx)) ->
  Forall (goodP (t := t) v c L S D) (prims (process v cx expanded zero fold lw W reg unroll)).
Proof.
  intros HB Hf HR HW OX OQ OS OC OE OM. unfold process.
  set (G := fun i : Z => _). assert (E : prims (flat_map G (zseq 0 (Z.max unroll 1))) = flat_map (fun i => prims (G i)) (zseq 0 (Z.max unroll 1))).
  { induction (zseq 0 (Z.max unroll 1)) as [|i l IH]; [reflexivity|]. cbn [flat_map]. rewrite prims_app, IH. reflexivity. }
  rewrite E. clear E. apply Forall_flat_map. apply Forall_forall. intros i _. unfold G. clear G.
  assert (HX : Forall (okr D) (from (i * reg) (x_vars lw))) by (apply forall_from; exact OX).
  set (x := from (i * reg) (x_vars lw)) in *. clearbody x.
  pose proof (good_rd (t := t) v c L D _ HX) as RX. pose proof (good_rd (t := t) v c L D _ OQ) as RQ.
  assert (LQ : reg <= Z.of_nat (length (q_vars W))) by (unfold q_vars; rewrite vars_length; lia).
  assert (CY : forall l (a : list (vexpr t)), Forall (okr D) l -> Forall (goodV v c L D) a -> Forall (goodV v c L D) (vmul_cycle a l)).
  { intros l a A B. unfold vmul_cycle. apply good_vmul; [exact B|]. apply good_rd. apply forall_cycle. exact A. }
  destruct expanded.
  - destruct OS as (F2 & OS). rewrite prims_do.
    assert (ES : forall j, 0 <= j < fold -> Forall (goodP (t := t) v c L S D) (level_exp v W reg x j)).
    { intros j Hj. specialize (OS j Hj). pose proof (good_rd (t := t) v c L D _ OS) as RS. unfold level_exp.
      assert (reg <= Z.of_nat (length (s_vars W j))) by (unfold s_vars; rewrite vars_length; lia).
      repeat (apply Forall_app; split); repeat first [assumption | apply good_set_equal | apply good_add_blp | apply good_vsub | apply good_vadd | apply good_rd | apply forall_upto]. }
    apply Forall_app; split; [|apply Forall_app; split].
    + destruct zero; [|constructor]. unfold first_exp. specialize (OS 0 ltac:(lia)). pose proof (good_rd (t := t) v c L D _ OS) as RS.
      assert (reg <= Z.of_nat (length (s_vars W 0))) by (unfold s_vars; rewrite vars_length; lia).
      destruct cx; try (specialize (OM eq_refl)); repeat (apply Forall_app; split);
        repeat first [assumption | apply good_set_equal | apply good_add_blp | apply good_vsub | apply good_vadd | apply CY | apply good_rd | apply forall_upto].
    + apply Forall_flat_map. apply Forall_forall. intros j I. apply zseq_In in I. apply ES. destruct zero; lia.
    + unfold last_exp. specialize (OS (fold - 1) ltac:(lia)).
      assert (reg <= Z.of_nat (length (s_vars W (fold - 1)))) by (unfold s_vars; rewrite vars_length; lia).
      apply good_add_blp; repeat first [assumption | apply good_rd].
  - destruct OS as (OT & OB). pose proof (good_rd (t := t) v c L D _ OT) as RT. rewrite !prims_app, !prims_do.
    assert (ES : forall j, 0 <= j < fold -> Forall (goodP (t := t) v c L S D) (level_buf v W reg x j)).
    { intros j Hj. specialize (OB j ltac:(lia)). pose proof (good_rd (t := t) v c L D _ OB) as RB. unfold level_buf.
      repeat (apply Forall_app; split); repeat first [assumption | apply good_set_equal | apply good_add_blp | apply good_vsub | apply good_vadd | apply good_rd | apply forall_upto]. }
    apply Forall_app; split; [|apply Forall_app; split].
    + destruct zero; [|constructor]. unfold first_buf. specialize (OB 0 ltac:(lia)). pose proof (good_rd (t := t) v c L D _ OB) as RB.
      destruct cx; try (specialize (OM eq_refl)); repeat (apply Forall_app; split);
        repeat first [assumption | apply good_set_equal | apply good_add_blp | apply good_vsub | apply good_vadd | apply CY | apply good_rd | apply forall_upto].
    + cbn [prims flat_map]. rewrite app_nil_r. apply Forall_flat_map. apply Forall_forall. intros j I. apply zseq_In in I. apply ES. destruct zero; lia.
    + unfold last_buf. assert (HJ : 0 <= Z.max (if zero then 1 else 0) (fold - 1) < Z.max fold 2) by (destruct zero; lia).
      set (j := Z.max (if zero then 1 else 0) (fold - 1)) in *. clearbody j. specialize (OB j HJ).
      assert (reg <= Z.of_nat (length (buffer_vars W j))) by (unfold buffer_vars; rewrite vars_length; lia).
      apply good_add_blp; repeat first [assumption | apply good_rd].
Qed.
Lemma index_word cx j inc p : 0 <= p < dsize cx -> index cx j (Var inc) p = j * (inc * dsize cx) + p.
Proof.
  intros H. unfold index. destruct cx; cbn [dsize incv] in *.
  - rewrite Z.div_small, Z.mod_small by lia. ring.
  - replace p with 0 by lia. ring.
Qed.
Lemma good_propagate t v cx (c : ctx) (L S : Z -> Prop) (D : cvar * option Z -> Prop) dst j inc :
  Forall (okr D) dst -> (forall p, 0 <= p < dsize cx -> L (at_ c PAcc + (j * (inc * dsize cx) + p))) ->
  Forall (goodP (t := t) v c L S D) (propagate_into v cx dst PAcc j (Var inc)).
Proof.
  intros OD HL.
  assert (H0 : L (at_ c PAcc + index cx j (Var inc) 0)) by (rewrite index_word by (destruct cx; cbn; lia); apply HL; destruct cx; cbn; lia).
  assert (H1 : cx = true -> L (at_ c PAcc + index cx j (Var inc) 1) /\ L (at_ c PAcc + index cx j (Var inc) 0 + 1)).
  { intros ->. rewrite !index_word by (cbn; lia). rewrite Z.add_0_r, <- Z.add_assoc. split; apply HL; cbn; lia. }
  unfold propagate_into. destruct v, cx, t; try specialize (H1 eq_refl);
    try (apply Forall_app; split); apply good_chain; try (apply forall_evens; exact OD); try (apply forall_odds; exact OD); try exact OD;
    (split; [|constructor]); cbn [loads_v loads_s]; change (zseq (at_ c PAcc + index true j (Var inc) 0) (bsize SSE Dbl)) with
      [at_ c PAcc + index true j (Var inc) 0 + 0; at_ c PAcc + index true j (Var inc) 0 + 1]; rewrite ?Z.add_0_r; repeat constructor; try assumption; try apply H1.
Qed.
Lemma good_constants t v cx (c : ctx) (L S : Z -> Prop) (D : cvar * option Z -> Prop) zr zi :
  Forall (okr D) (comp_vars v cx) -> Forall (okr D) (exp_vars v cx) -> (cx = true -> Forall (okr D) (mask_vars v cx)) ->
  Forall (goodP (t := t) v c L S D) (constants v cx zr zi).
Proof.
  intros OC OE OM.
  assert (V : forall x : F t, Forall (goodV v c L D) (vset v x)) by (intros x; unfold vset; destruct v; (constructor; [split; constructor|constructor])).
  assert (R : forall x y : F t, Forall (goodV v c L D) (set_real_imag v x y)) by (intros x y; unfold set_real_imag; destruct v, t; repeat (constructor; [split; repeat constructor|]); constructor).
  assert (Y : forall l (xs : list (vexpr t)), Forall (okr D) l -> Forall (goodV v c L D) xs -> Forall (goodP v c L S D) (set_cycle l xs)).
  { intros l xs A B. apply good_set_equal; [exact A|]. apply forall_cycle. exact B. }
  unfold constants. destruct cx; [specialize (OM eq_refl); destruct zr; [destruct zi|]|]; repeat (apply Forall_app; split); apply Y; auto.
Qed.
Lemma good_sum_lanes t (c : ctx) (L : Z -> Prop) (D : cvar * option Z -> Prop) r l : l <> [] -> (forall i, In i l -> D (r, Some i)) ->
  goodS (t := t) c L D (sum_lanes r l).
Proof.
  destruct l as [|a l]; [contradiction|]. intros _ H. cbn [sum_lanes].
  assert (G : goodS (t := t) c L D (SLane r a)) by (split; [constructor|]; constructor; [apply H; left; reflexivity|constructor]).
  assert (Hl : forall i, In i l -> D (r, Some i)) by (intros i I; apply H; right; exact I). clear H. revert G. generalize (SLane (t := t) r a).
  induction l as [|b l IH]; intros s G; [exact G|]. cbn [fold_left]. apply IH; [intros i I; apply Hl; right; exact I|].
  destruct G as [A B]. split; cbn [loads_s names_s]; apply Forall_app; split; try assumption; [constructor|].
  constructor; [apply Hl; left; reflexivity|constructor].
Qed.
Lemma good_consolidate t v cx (c : ctx) (L S : Z -> Prop) (D : cvar * option Z -> Prop) src j inc :
  Forall (okr D) src -> dsize cx <= Z.of_nat (length src) * bsize v t -> (vector v = true -> src <> []) -> okr D RCons ->
  (vector v = true -> okr D RConsBuf /\ forall i, 0 <= i < bsize v t -> D (RConsBuf, Some i)) ->
  (v = SISD -> forall r, In r src -> D (r, Some 0)) ->
  (forall p, 0 <= p < dsize cx -> L (at_ c PAcc + (j * (inc * dsize cx) + p)) /\ S (at_ c PAcc + (j * (inc * dsize cx) + p))) ->
  Forall (goodP (t := t) v c L S D) (consolidate_into v cx j (Var inc) src).
Proof.
  intros OS LN NE OC OB O1 HL.
  assert (HM : forall p, 0 <= p < dsize cx -> goodS (t := t) c L D (SMem PAcc (index cx j (Var inc) p))).
  { intros p Hp. apply good_mem. rewrite index_word by exact Hp. apply HL. exact Hp. }
  assert (HS : forall p, 0 <= p < dsize cx -> Forall S [at_ c PAcc + index cx j (Var inc) p]).
  { intros p Hp. constructor; [|constructor]. rewrite index_word by exact Hp. apply HL. exact Hp. }
  assert (ADD : forall d l, okr D d -> Forall (okr D) l -> Forall (goodP (t := t) v c L S D) (map (fun s => Let d (VAdd (VReg d) (VSub (VReg s) (VReg RCons)))) l)).
  { intros d l Hd Hl. apply Forall_map. revert Hl. apply Forall_impl. intros s Hs. apply good_let; [exact Hd|].
    apply (good_bin v c L D VAdd); try reflexivity; [apply good_reg; exact Hd|]. apply (good_bin v c L D VSub); try reflexivity; apply good_reg; assumption. }
  assert (IN : forall i, (i < length src)%nat -> In (nth i src RCons) src) by (intros i Hi; apply nth_In; exact Hi).
  assert (OK : forall i, (i < length src)%nat -> okr D (nth i src RCons)) by (intros i Hi; rewrite Forall_forall in OS; apply OS; apply IN; exact Hi).
  destruct (vector v) eqn:V.
  - specialize (NE eq_refl). specialize (OB eq_refl). destruct OB as (OB & OL).
    assert (L0 : (0 < length src)%nat) by (destruct src; [contradiction|cbn; lia]).
    specialize (OK 0%nat L0).
    assert (Z0 : goodS (t := t) c L D (SLit fzero)) by apply good_z.
    assert (P1 : Forall (goodP (t := t) v c L S D) (propagate_into v cx [RCons] PAcc j (Var inc))).
    { apply good_propagate; [constructor; [exact OC|constructor]|]. intros p Hp. apply HL. exact Hp. }
    assert (P2 : Forall (goodP (t := t) v c L S D) (if 1 <? Z.of_nat (length src) then propagate_into v cx [RCons] PAcc j (Var inc) ++
      map (fun s => Let (nth 0 src RCons) (VAdd (VReg (nth 0 src RCons)) (VSub (VReg s) (VReg RCons)))) (from 1 src) else [])).
    { destruct (1 <? _); [|constructor]. apply Forall_app. split; [exact P1|]. apply ADD; [exact OK|]. apply forall_from. exact OS. }
    assert (P3 : goodP (t := t) v c L S D (Let RConsBuf (VReg (nth 0 src RCons)))) by (apply good_let; [exact OB|apply good_reg; exact OK]).
    assert (ST : forall p l, 0 <= p < dsize cx -> l <> [] -> (forall i, In i l -> 0 <= i < bsize v t) ->
      goodP (t := t) v c L S D (Store PAcc (index cx j (Var inc) p) (sum_lanes RConsBuf l))).
    { intros p l Hp Hl Hi. destruct (good_sum_lanes t c L D RConsBuf l Hl) as [A B]; [intros i I; apply OL; apply Hi; exact I|].
      split; [exact A|]. split; [apply HS; exact Hp|exact B]. }
    pose proof (bsize_tsize v t cx V) as [EB T1].
    assert (S1 : forall a b, cx = true -> b = 0 \/ b = 1 -> a = map (fun i => 2 * i + b) (zseq 0 (tsize v t cx)) -> a <> [] /\ forall i, In i a -> 0 <= i < bsize v t).
    { intros a b C Hb ->. split; [intros E; apply (f_equal (@length Z)) in E; rewrite map_length, zseq_length in E; cbn [length] in E; lia|].
      intros i I. apply in_map_iff in I. destruct I as (q & <- & I). apply zseq_In in I. rewrite EB, C. rewrite C in I. cbn [dsize]. lia. }
    assert (S2 : cx = false -> zseq 0 (bsize v t) <> [] /\ forall i, In i (zseq 0 (bsize v t)) -> 0 <= i < bsize v t).
    { intros C. split; [intros E; apply (f_equal (@length Z)) in E; rewrite zseq_length in E; cbn [length] in E; rewrite C in EB; cbn [dsize] in EB; rewrite C in T1; lia|].
      intros i I. apply zseq_In in I. lia. }
    destruct v; try discriminate V.
    all: unfold consolidate_into; destruct cx.
    all: apply Forall_app; split; [|apply Forall_app; split; [exact P2|apply Forall_app; split; [constructor; [exact P3|constructor]|]]].
    all: try (destruct t; try (apply Forall_nil); (constructor; [|constructor]); (apply good_let; [exact OK|]); (apply (good_bin _ c L D VSub); try reflexivity; [apply good_reg; exact OK|]);
      apply good_set; repeat (constructor; [first [exact Z0 | apply HM; cbn [dsize]; lia]|]); constructor).
    all: match goal with
         | |- Forall _ [_; _] => constructor; [apply ST; [cbn [dsize]; lia| |]; apply (S1 _ 0); auto; apply map_ext; intros; ring|
             constructor; [apply ST; [cbn [dsize]; lia| |]; apply (S1 _ 1); auto|constructor]]
         | |- _ => constructor; [apply ST; [cbn [dsize]; lia| |]; apply S2; reflexivity|constructor]
         end.
  - destruct v; try discriminate V. assert (B1 : bsize SISD t = 1) by (destruct t; reflexivity). rewrite B1, Z.mul_1_r in LN. specialize (O1 eq_refl).
    assert (ST : forall p i, 0 <= p < dsize cx -> (i < length src)%nat -> goodP (t := t) SISD c L S D (Store PAcc (index cx j (Var inc) p) (SLane (nth i src RCons) 0))).
    { intros p i Hp Hi. split; [constructor|]. split; [apply HS; exact Hp|]. constructor; [|constructor]. apply O1. apply IN. exact Hi. }
    assert (CM : forall p, 0 <= p < dsize cx -> goodP (t := t) SISD c L S D (Let RCons (VScal (SMem PAcc (index cx j (Var inc) p))))).
    { intros p Hp. apply good_let; [exact OC|]. exact (HM p Hp). }
    unfold consolidate_into. destruct cx; cbn [dsize] in *.
    + apply Forall_app; split; [destruct (2 <? _); [constructor; [apply CM; lia|constructor]|constructor]|].
      apply Forall_app; split; [apply ADD; [apply OK; lia|apply forall_evens; apply forall_from; exact OS]|].
      apply Forall_app; split; [destruct (2 <? _); [constructor; [apply CM; lia|constructor]|constructor]|].
      apply Forall_app; split; [apply ADD; [apply OK; lia|apply forall_evens; apply forall_from; exact OS]|].
      constructor; [apply ST; lia|]. constructor; [apply ST; lia|constructor].
    + apply Forall_app; split; [destruct (1 <? _); [constructor; [apply CM; lia|constructor]|constructor]|].
      apply Forall_app; split; [apply ADD; [apply OK; lia|apply forall_from; exact OS]|].
      constructor; [apply ST; lia|constructor].
Qed.

Lemma calls_inside ts mu n : vector_width ts -> 0 < mu -> (Z.max ts 1 | mu) -> 0 <= n ->
  Forall (fun c => shape ts mu c /\ 0 <= start c /\ start c + cnt c <= n) (fst (run_unrolled ts mu n)).
Proof.
  intros Ht Hm Hd Hn. pose proof (unrolled_cover ts mu n Ht Hm Hd Hn) as H. destruct (run_unrolled ts mu n) as [cs p]. destruct H as (_ & C & F).
  cbn [fst]. apply Forall_forall. intros c I. rewrite Forall_forall in F. pose proof (F c I) as SH. split; [exact SH|].
  assert (G : forall i, In i (covers c) -> 0 <= i < n) by (intros i J; apply (zseq_In 0 n); rewrite <- C; apply in_flat_map; exists c; split; assumption).
  destruct SH as [[C1 C2] _]. pose proof (G (start c)) as G1. pose proof (G (start c + cnt c - 1)) as G2. unfold covers in *. rewrite zseq_In in G1, G2. lia.
Qed.
Lemma branch_incv z : incv (branch_inc z) = z.
Proof. unfold branch_inc. destruct (Z.eqb_spec z 1); cbn [incv]; auto. Qed.

Theorem emitted_access t v cx (k : kclass t) (expanded : bool) fold pipe unroll n X incX Y incY acc incacc zr zi :
  fits k cx = true -> legal_vec (Vec (vector v) (tsize v t cx) pipe unroll) -> (if expanded then 2 else 1) <= fold <= MAXFOLD t -> 0 <= n ->
  forall c p, In (c, p) (emitted_steps v cx k expanded fold pipe unroll n X incX Y incY acc incacc zr zi) ->
  goodP v c (fun a => element_cell cx X incX n a \/ (two_vectors k = true /\ element_cell cx Y incY n a) \/ word_cell cx acc incacc fold a)
    (word_cell cx acc incacc fold) (declared v cx k expanded fold pipe unroll) p.
Proof.
  intros FIT LV Hf Hn c p.
  set (L := fun a => element_cell cx X incX n a \/ _). set (S := word_cell cx acc incacc fold). set (D := declared v cx k expanded fold pipe unroll).
  destruct (pipe_facts v cx pipe unroll LV) as (DP & P0 & U1 & TP).
  pose proof (W_pos v cx k pipe unroll LV) as WP.
  assert (F2 : 2 <= MAXFOLD t) by (destruct t; vm_compute; discriminate).
  set (W := reg_width v cx k pipe) in *.
  assert (OX : Forall (okr D) (x_vars (W * unroll))) by (apply okr_vars; intros i Hi; exact Hi).
  assert (OY : two_vectors k = true -> Forall (okr D) (y_vars cx (W * unroll))).
  { intros T. apply okr_vars. intros i Hi. split; [exact T|]. exact Hi. }
  assert (OQ : Forall (okr D) (q_vars W)) by (apply okr_vars; intros i Hi; exact Hi).
  assert (OW : forall j, 0 <= j < Z.max fold 2 -> (expanded = true -> j < fold) -> Forall (okr D) (word_vars expanded W j)).
  { intros j Hj He. unfold word_vars. destruct expanded; apply okr_vars; intros i Hi; unfold okr, D, declared.
    - repeat split; try lia. left; reflexivity.
    - repeat split; try nia. left; reflexivity. }
  assert (OS : if expanded then 2 <= fold /\ forall j, 0 <= j < fold -> Forall (okr D) (s_vars W j)
               else Forall (okr D) (t_vars W) /\ forall j, 0 <= j < Z.max fold 2 -> Forall (okr D) (buffer_vars W j)).
  { destruct expanded.
    - split; [lia|]. intros j Hj. apply (OW j); [lia|]. intros _. lia.
    - split; [apply okr_vars; intros i Hi; split; [reflexivity|exact Hi]|]. intros j Hj. apply (OW j); [lia|discriminate]. }
  assert (OC : Forall (okr D) (comp_vars v cx)) by (apply okr_vars; intros i Hi; exact Hi).
  assert (OE : Forall (okr D) (exp_vars v cx)) by (apply okr_vars; intros i Hi; exact Hi).
  assert (OM : cx = true -> Forall (okr D) (mask_vars v cx)) by (intros C; apply okr_vars; intros i Hi; split; [exact C|exact Hi]).
  assert (HW : forall j q, 0 <= j < fold -> 0 <= q < dsize cx -> S (acc + (j * (incacc * dsize cx) + q))).
  { intros j q Hj Hq. exists j, q. split; [exact Hj|]. split; [exact Hq|]. ring. }
  intros I. unfold emitted_steps in I. cbv zeta in I. set (c0 := Ctx _ n) in I. set (zero := if cx then _ else _) in I.
  apply in_app_iff in I. destruct I as [I|I]; [|apply in_app_iff in I; destruct I as [I|I]].
  - apply in_map_iff in I. destruct I as (p' & E & I). inversion E; subst c p'. clear E. revert p I.
    apply Forall_forall. apply Forall_app; split; [|apply Forall_app; split].
    + destruct k as [| | | | |scl]; try constructor; [|constructor]. apply good_let; [exists scl; reflexivity|]. unfold vset. destruct v; split; constructor.
    + cbn [prims flat_map]. rewrite app_nil_r. apply Forall_flat_map. apply Forall_forall. intros j J. apply zseq_In in J.
      apply good_propagate; [apply OW; [lia|intros _; lia]|]. intros q Hq. right. right. apply HW; [lia|exact Hq].
    + destruct zero; [|constructor]. apply good_constants; assumption.
  - apply in_flat_map in I. destruct I as (cl & Ic & I). apply in_map_iff in I. destruct I as (p' & E & I). inversion E; subst p'. clear E. revert p I.
    apply Forall_forall.
    assert (SH : shape (tsize v t cx) (pipe * unroll) cl /\ 0 <= start cl /\ start cl + cnt cl <= n).
    { pose proof (calls_inside (tsize v t cx) (pipe * unroll) n (tsize_width v t cx) ltac:(nia) (Z.divide_mul_l _ _ _ DP) Hn) as F.
      rewrite Forall_forall in F. apply F. exact Ic. }
    clear Ic. destruct SH as (SH & S0 & SN). destruct (shape_facts v cx pipe unroll LV cl SH) as (DV & SZ & _).
    destruct SH as [CN SH].
    assert (HX : forall i q, 0 <= i < cnt cl -> 0 <= q < dsize cx -> L (X + start cl * (incX * dsize cx) + i * (incX * dsize cx) + q)).
    { intros i q Hi Hq. left. exists (start cl + i), q. split; [lia|]. split; [exact Hq|]. ring. }
    assert (HY : two_vectors k = true -> forall i q, 0 <= i < cnt cl -> 0 <= q < dsize cx -> L (Y + start cl * (incY * dsize cx) + i * (incY * dsize cx) + q)).
    { intros T i q Hi Hq. right. left. split; [exact T|]. exists (start cl + i), q. split; [lia|]. split; [exact Hq|]. ring. }
    assert (OB : v = SISD -> okr D RBlp) by (intros E; exact E).
    unfold body. fold W.
    destruct (Z.eqb_spec (cnt cl) (size cl)) as [EQ|NE]; cbn [negb]; rewrite prims_app, prims_do; apply Forall_app; split.
    + apply (good_preprocess t v cx k _ L S D _ _ _ _ false (cnt cl)); auto.
      * intros scl E. exists scl. exact E.
      * cbn [at_ body_ctx]. rewrite branch_incv. exact HX.
      * cbn [at_ body_ctx]. rewrite branch_incv. exact HY.
      * split; [exact EQ|]. split; [lia|exact DV].
    + apply good_process; auto; try lia.
      destruct expanded; lia. apply (rw_le v cx k _ pipe). lia.
    + apply (good_preprocess t v cx k _ L S D _ _ _ _ true (cnt cl)); auto.
      * intros scl E. exists scl. exact E.
      * cbn [at_ body_ctx]. rewrite branch_incv. exact HX.
      * cbn [at_ body_ctx]. rewrite branch_incv. exact HY.
      * split; [reflexivity|]. destruct SH as [[SE _]|[SE SL]]; lia.
    + apply good_process; auto; try lia.
      destruct expanded; lia. apply (rw_le v cx k _ pipe). destruct SH as [[SE _]|[SE SL]]; lia.
  - apply in_map_iff in I. destruct I as (p' & E & I). inversion E; subst c p'. clear E. revert p I.
    apply Forall_forall. cbn [prims flat_map]. rewrite app_nil_r. apply Forall_flat_map. apply Forall_forall. intros j J. apply zseq_In in J.
    assert (LW : length (word_vars expanded W j) = Z.to_nat W) by (unfold word_vars, s_vars, buffer_vars; destruct expanded; apply vars_length).
    fold W. apply good_consolidate.
    + apply OW; [lia|intros _; lia].
    + rewrite LW, Z2Nat.id by lia. unfold W. rewrite (rw_mul v cx k pipe DP). pose proof (nsum_pos k cx). pose proof (dsize_pos cx).
      assert (1 <= nsum k cx * pipe) by (clear - H P0; nia). set (q := nsum k cx * pipe) in *. clearbody q. clear - H0 H1. nia.
    + intros _ E. rewrite E in LW. cbn [length] in LW. lia.
    + exact Logic.I.
    + intros V. split; [exact V|]. intros i Hi. split; [exact V|exact Hi].
    + intros E r Hr. assert (HR : okr D r) by (specialize (OW j ltac:(lia) ltac:(intros _; lia)); rewrite Forall_forall in OW; apply OW; exact Hr).
      unfold word_vars, s_vars, buffer_vars, vars in Hr. unfold okr, D, declared in HR |- *.
      destruct expanded; apply in_map_iff in Hr; destruct Hr as (i & <- & _); intuition auto.
    + intros q Hq. split; [right; right|]; apply HW; try lia; exact Hq.
Qed.

(** ** The scans *)
Theorem scan_access t v (cx two : bool) unroll n X incX Y incY acc :
  legal_avec (AVec (tsize v t cx) unroll) -> 0 <= n ->
  forall c p, In (c, p) (scan_steps (t := t) v cx two unroll n X incX Y incY acc) ->
  goodP v c (fun a => element_cell cx X incX n a \/ (two = true /\ element_cell cx Y incY n a))
    (fun a => acc <= a < acc + dsize cx) (scan_declared (t := t) v cx two unroll) p.
Proof.
  intros (TW & U0 & DU) Hn c p. cbn [a_type_size a_unroll] in *.
  set (L := fun a => element_cell cx X incX n a \/ _). set (S := fun a => acc <= a < acc + dsize cx). set (D := scan_declared v cx two unroll).
  set (W := areg_width (t := t) v cx two unroll).
  assert (OX : Forall (okr D) (ax_vars W)) by (apply okr_vars; intros i Hi; exact Hi).
  assert (OY : two = true -> Forall (okr D) (ay_vars cx W)).
  { intros T. apply okr_vars. intros i Hi. split; [exact T|]. exact Hi. }
  assert (OM : Forall (okr D) (m_vars v cx)) by (apply okr_vars; intros i Hi; split; [exact Hi|left; reflexivity]).
  intros I. unfold scan_steps in I. cbv zeta in I. set (c0 := Ctx _ n) in I. set (all1 := _ && _) in I.
  set (ix := if all1 then One else Var incX) in I. set (iy := if all1 then One else Var incY) in I.
  assert (EX : incv ix = incX).
  { unfold ix, all1. destruct (Z.eqb_spec incX 1); cbn [andb]; [|reflexivity]. destruct (_ || _); cbn [incv]; auto. }
  assert (EY : two = true -> incv iy = incY).
  { intros T. unfold iy, all1. rewrite T. cbn [negb orb]. destruct (incX =? 1), (Z.eqb_spec incY 1); cbn [andb incv]; auto. }
  apply in_app_iff in I. destruct I as [I|I]; [|apply in_app_iff in I; destruct I as [I|I]].
  - apply in_map_iff in I. destruct I as (p' & E & I). inversion E; subst c p'. clear E. revert p I. apply Forall_forall.
    apply good_set_equal; [exact OM|]. apply Forall_forall. intros x J. apply repeat_spec in J. subst x. unfold vzero. destruct v; split; constructor.
  - apply in_flat_map in I. destruct I as (cl & Ic & I). apply in_map_iff in I. destruct I as (p' & E & I). inversion E; subst p'. clear E. revert p I.
    apply Forall_forall.
    assert (SH : shape (tsize v t cx) unroll cl /\ 0 <= start cl /\ start cl + cnt cl <= n).
    { pose proof (calls_inside (tsize v t cx) unroll n TW U0 DU Hn) as F. rewrite Forall_forall in F. apply F. exact Ic. }
    clear Ic. destruct SH as (SH & S0 & SN). destruct SH as [CN SH].
    assert (DV : (Z.max (tsize v t cx) 1 | size cl)).
    { destruct SH as [[_ [->|(q & Hq & E & _ & T)]]|[-> HL]].
      - exact DU.
      - apply width_divides; [exact TW| |lia]. exists q. auto.
      - rewrite Z.max_l by lia. apply Z.divide_refl. }
    set (cc := body_ctx cx X incX Y incY acc cl).
    assert (HX : forall i q, 0 <= i < cnt cl -> 0 <= q < dsize cx -> L (at_ cc PX + i * (incv ix * dsize cx) + q)).
    { intros i q Hi Hq. left. exists (start cl + i), q. split; [lia|]. split; [exact Hq|]. cbn [cc at_ body_ctx]. rewrite EX. ring. }
    assert (HY : two = true -> forall i q, 0 <= i < cnt cl -> 0 <= q < dsize cx -> L (at_ cc PY + i * (incv iy * dsize cx) + q)).
    { intros T i q Hi Hq. right. split; [exact T|]. exists (start cl + i), q. split; [lia|]. split; [exact Hq|]. cbn [cc at_ body_ctx]. rewrite (EY T). ring. }
    set (part := negb (cnt cl =? size cl)).
    assert (HP : if part then left cc = cnt cl /\ 0 < cnt cl < tsize v t cx else cnt cl = size cl).
    { unfold part. destruct (Z.eqb_spec (cnt cl) (size cl)); cbn [negb]; [assumption|]. split; [reflexivity|]. destruct SH as [[SE _]|[SE SL]]; lia. }
    set (n' := if part then tsize v t cx else size cl).
    assert (GX : Forall (goodV (t := t) v cc L D) (if part then load_partial v cx PX 0 ix else load v cx PX 0 ix n')).
    { unfold n'. destruct part; [destruct HP; apply (good_load_partial t v cx cc L D PX ix (cnt cl)); assumption|].
      apply good_load; [rewrite <- HP; exact HX|exact DV|lia]. }
    assert (GY : two = true -> Forall (goodV (t := t) v cc L D) (if part then load_partial v cx PY 0 iy else load v cx PY 0 iy n')).
    { intros T. specialize (HY T). unfold n'. destruct part; [destruct HP; apply (good_load_partial t v cx cc L D PY iy (cnt cl)); assumption|].
      apply good_load; [rewrite <- HP; exact HY|exact DV|lia]. }
    pose proof (good_rd (t := t) v cc L D _ OX) as RX.
    unfold abody. fold n' W. apply Forall_app. split.
    + unfold apreprocess. destruct two; [specialize (OY eq_refl); specialize (GY eq_refl); pose proof (good_rd (t := t) v cc L D _ OY) as RY; destruct cx|];
      repeat (apply Forall_app; split);
      repeat first [assumption | apply good_set_equal | apply good_vabs | apply good_vmul | apply good_swap
        | apply good_rep_evens | apply good_rep_odds | apply good_rd | apply forall_upto | apply forall_from].
    + unfold aprocess. apply good_set_equal; [apply forall_cycle; exact OM|]. apply good_vmax; apply good_rd; [apply forall_cycle; exact OM|]. apply forall_upto. exact OX.
  - apply in_map_iff in I. destruct I as (p' & E & I). inversion E; subst c p'. clear E. revert p I. apply Forall_forall.
    assert (ST : forall i, 0 <= i < dsize cx -> Forall S [at_ c0 PAcc + index cx 0 One i]).
    { intros i Hi. constructor; [|constructor]. cbn [c0 at_]. unfold index, S. destruct cx; cbn [dsize incv] in *; [|lia].
      pose proof (Z.div_mod i 2). pose proof (Z.mod_pos_bound i 2). rewrite Z.div_small by lia. lia. }
    pose proof (dsize_pos cx) as DS.
    unfold max_into. destruct (vector v) eqn:V.
    + destruct (bsize_tsize v t cx V) as [EB T1].
      assert (LN : forall i, 0 <= i < bsize v t -> D (RMaxBuf, Some i)) by (intros i Hi; split; assumption).
      assert (G : Forall (goodP (t := t) v c0 L S D) ([Let RMaxBuf (VReg (nth 0 (m_vars v cx) RCons))] ++
        map (fun i => LetLane RMaxBuf (i mod dsize cx) (SMax (SLane RMaxBuf (i mod dsize cx)) (SLane RMaxBuf i))) (zseq (dsize cx) (bsize v t - dsize cx)) ++
        map (fun i => Store PAcc (index cx 0 One i) (SLane RMaxBuf i)) (zseq 0 (dsize cx)))).
      { apply Forall_app; split; [|apply Forall_app; split].
        - constructor; [|constructor]. apply good_let; [exact V|]. apply good_reg. destruct v; try discriminate V; (split; [cbn; lia|left; reflexivity]).
        - apply Forall_map. apply Forall_forall. intros i J. apply zseq_In in J. pose proof (Z.mod_pos_bound i (dsize cx) ltac:(lia)).
          split; [constructor|]. split; [constructor|]. cbn [names names_s app]. do 3 (apply Forall_cons; [apply LN; nia|]). constructor.
        - apply Forall_map. apply Forall_forall. intros i J. apply zseq_In in J. split; [constructor|]. split; [apply ST; lia|]. constructor; [|constructor].
          apply LN. nia. }
      destruct v; try discriminate V; exact G.
    + destruct v; try discriminate V. apply Forall_map. apply Forall_forall. intros i J. apply zseq_In in J. split; [constructor|]. split; [apply ST; lia|].
      constructor; [|constructor]. unfold m_vars, vars, suf_width.
      assert (NI : nth (Z.to_nat i) (map RM (zseq 0 (dsize cx))) RCons = RM i).
      { destruct cx; cbn [dsize] in *; [assert (C : i = 0 \/ i = 1) by lia; destruct C; subst i; reflexivity|]. assert (C : i = 0) by lia. subst i. reflexivity. }
      rewrite NI. split; [cbn [suf_width]; lia|right; reflexivity].
Qed.
