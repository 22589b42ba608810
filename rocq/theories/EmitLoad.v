(** * Loads and products of the generated kernels *)
From Coq Require Import ZArith Bool List Lia.
From Flocq Require Import Core BinarySingleNaN.
From Verif Require Import Fp Mem Binned Gen GenProofs Blas Emit EmitBits EmitExec EmitLevels.
Import ListNotations.
Open Scope Z_scope.

(** ** Widths *)
Lemma bsize_pos v t : 0 < bsize v t. Proof. destruct v, t; reflexivity. Qed.
Lemma dsize_pos cx : 0 < dsize cx. Proof. destruct cx; reflexivity. Qed.
Lemma bsize_vec v t cx : vector v = true -> bsize v t = tsize v t cx * dsize cx.
Proof. destruct v, t, cx; intros H; try discriminate H; reflexivity. Qed.
Lemma bsize_2 v t : vector v = true -> bsize v t = 2 * (bsize v t / 2).
Proof. destruct v, t; intros H; try discriminate H; reflexivity. Qed.
Lemma bsize_8 v t l : 0 <= l < bsize v t -> 0 <= l < 8.
Proof. destruct v, t; intros H; cbn in H; lia. Qed.
(** Values held by the variables for n elements. *)
Lemma width_mul v t cx n : (Z.max (tsize v t cx) 1 | n) -> n * dsize cx / bsize v t * bsize v t = n * dsize cx.
Proof.
  intros [q ->]. destruct v, t, cx; cbn [dsize]; change (bsize SISD _) with 1 || idtac;
    repeat match goal with |- context [bsize ?a ?b] => let x := eval vm_compute in (bsize a b) in change (bsize a b) with x end;
    repeat match goal with |- context [tsize ?a ?b ?c] => let x := eval vm_compute in (tsize a b c) in change (tsize a b c) with x end;
    cbn [Z.max]; cbn; try (rewrite ?Z.mul_1_r, ?Z.div_1_r; lia);
    (rewrite Z.mul_comm; symmetry; apply Z.div_exact; [lia|]);
    match goal with |- (q * ?a * ?b) mod ?d = 0 => let ab := eval vm_compute in (a * b / d) in
      replace (q * a * b) with ((q * ab) * d) by lia; apply Z.mod_mul; lia
    | |- (q * ?a) mod ?d = 0 => let ab := eval vm_compute in (a / d) in
      replace (q * a) with ((q * ab) * d) by lia; apply Z.mod_mul; lia end.
Qed.
Lemma width_pos v t cx n : 0 < n -> (Z.max (tsize v t cx) 1 | n) -> 0 < n * dsize cx / bsize v t.
Proof. intros N H. pose proof (width_mul v t cx n H). pose proof (bsize_pos v t). pose proof (dsize_pos cx). nia. Qed.

(** Position f of a row of variables. *)
Definition flat {t} (v : isa) (e : env t) (R : Z -> cvar) (f : Z) : F t := e (R (f / bsize v t)) (f mod bsize v t).
Lemma flat_at {t} v (e : env t) R i l : 0 <= l < bsize v t -> flat v e R (i * bsize v t + l) = e (R i) l.
Proof.
  intros H. unfold flat. rewrite Z.add_comm, Z.div_add, Z.mod_add by lia.
  rewrite Z.div_small, Z.mod_small by lia. reflexivity.
Qed.

(** ** Loads *)
Section Load.
  Context {t : ty}.
  Variables (v : isa) (cx : bool).
  Local Notation bs := (bsize v t).
  Local Notation ds := (dsize cx).
  Local Notation ts := (tsize v t cx).

  Definition load_e (p : ptr) (inc : incr) (i : Z) : vexpr t :=
    match v with
    | SISD => VScal (SMem p (index cx 0 inc i))
    | _ =>
      let x k := SMem p (index cx 0 inc (i * bsize v t + k)) in
      if contiguous inc (tsize v t cx) then VLoadu p (index cx 0 inc (i * bsize v t))
      else match v, t with
           | SSE, Flt => VSet [x 3; x 2; x 1; x 0]
           | SSE, Dbl => VSet [x 1; x 0]
           | _, Flt => VSet [x 7; x 6; x 5; x 4; x 3; x 2; x 1; x 0]
           | _, Dbl => VSet [x 3; x 2; x 1; x 0]
           end
    end.
  Lemma load_tab p inc n : (Z.max ts 1 | n) -> load v cx p 0 inc n = tab (load_e p inc) (n * ds / bs).
  Proof.
    intros H. unfold load, load_e.
    destruct v eqn:V; fold (@tab (vexpr t)); [change (bsize SISD t) with (wordbits t / wordbits t); rewrite Z.div_same by (destruct t; discriminate); rewrite Z.div_1_r; reflexivity| |];
    (rewrite (bsize_vec _ t cx) by reflexivity; rewrite Z.div_mul_cancel_r by (destruct cx, t; cbn; lia); reflexivity).
  Qed.
  Lemma load_reads p inc i : reads (load_e p inc i) = [].
  Proof. unfold load_e. destruct v; [reflexivity| |]; (destruct (contiguous _ _); [reflexivity|]; destruct t; reflexivity). Qed.
  Lemma index_elems inc f : index cx 0 inc f = f / ds * (incv inc * ds) + f mod ds.
  Proof. unfold index. destruct cx; cbn [dsize]; [rewrite Z.add_0_l; ring|]. rewrite Z.div_1_r, Z.mod_1_r. lia. Qed.
End Load.

Lemma load_val {t} v cx p inc i c (m : mem t) e l : 0 <= l < bsize v t ->
  eval c m e (load_e v cx p inc i) l = m (at_ c p + index cx 0 inc (i * bsize v t + l)).
Proof.
  intros H. unfold load_e. destruct (vector v) eqn:V.
  2:{ destruct v; try discriminate V. cbn [eval eval_s]. assert (E : bsize SISD t = 1) by (destruct t; reflexivity). rewrite E in *. do 2 f_equal. f_equal. lia. }
  assert (G : forall (A B : vexpr t), match v with SISD => A | _ => B end = B) by (destruct v; [discriminate V|reflexivity|reflexivity]).
  rewrite G. clear G. cbv zeta.
  destruct (contiguous inc (tsize v t cx)) eqn:C.
  - cbn [eval]. f_equal. rewrite <- Z.add_assoc. f_equal. unfold index. destruct cx; [|destruct inc; cbn [incv contiguous] in *].
    + pose proof (bsize_2 v t V) as B2. set (h := bsize v t / 2) in *. rewrite B2.
      replace (i * (2 * h)) with (i * h * 2) by ring. rewrite Z.mod_mul, Z.div_mul by lia.
      destruct inc; cbn [incv contiguous] in *.
      * pose proof (Z.div_mod (i * h * 2 + l) 2 ltac:(lia)). lia.
      * destruct v, t; try discriminate V; try discriminate C. change (bsize SSE Dbl) with 2 in *.
        rewrite Z.add_comm, (Z.add_comm (i * h * 2)), Z.div_add, Z.mod_add, Z.div_small, Z.mod_small by lia. ring.
    + lia.
    + destruct v, t; discriminate.
  - pose proof (bsize_8 v t l H) as R.
    destruct v, t; try discriminate V; change (bsize SSE Dbl) with 2 in * || change (bsize SSE Flt) with 4 in * || change (bsize AVX Dbl) with 4 in * || change (bsize AVX Flt) with 8 in *;
    destruct (range8 l R) as [-> |[-> |[-> |[-> |[-> |[-> |[-> | ->]]]]]]]; try lia; reflexivity.
Qed.

Definition part_e {t} v cx p inc : vexpr t := hd (VReg RCons) (load_partial v cx p 0 inc).
Lemma part_tab {t} v cx p inc : 2 <= tsize v t cx -> load_partial (t:=t) v cx p 0 inc = tab (fun _ => part_e v cx p inc) 1.
Proof. destruct v, t, cx; intros H; try (vm_compute in H; congruence); reflexivity. Qed.
Lemma part_reads {t} v cx p inc : 2 <= tsize v t cx -> reads (part_e (t:=t) v cx p inc) = [].
Proof. destruct v, t, cx; intros H; try (vm_compute in H; congruence); reflexivity. Qed.
Lemma part_width v t cx : 2 <= tsize v t cx -> tsize v t cx * dsize cx / bsize v t = 1.
Proof. destruct v, t, cx; intros H; try (vm_compute in H; congruence); reflexivity. Qed.
Lemma part_val {t} v cx p inc c (m : mem t) e l : 2 <= tsize v t cx -> 1 <= left c < tsize v t cx -> 0 <= l < bsize v t ->
  eval c m e (part_e v cx p inc) l = if l / dsize cx <? left c then m (at_ c p + index cx 0 inc l) else fzero.
Proof.
  intros H H1 R. assert (R8 := bsize_8 _ _ _ R).
  assert (IE : forall k, index_elem 0 inc k = incv inc * k) by (intros; unfold index_elem; f_equal; lia).
  destruct v, t, cx; try (vm_compute in H; congruence);
    repeat match goal with H : context [bsize ?a ?b] |- _ => let x := eval vm_compute in (bsize a b) in change (bsize a b) with x in H end;
    repeat match goal with H : context [tsize ?a ?b ?c] |- _ => let x := eval vm_compute in (tsize a b c) in change (tsize a b c) with x in H end;
    cbn [dsize]; destruct (range8 l R8) as [-> |[-> |[-> |[-> |[-> |[-> |[-> | ->]]]]]]]; try lia;
    repeat match goal with |- context [?a / ?b <? left c] => let x := eval vm_compute in (a / b) in change (a / b) with x end;
    unfold part_e; cbn -[Z.mul Z.add index Z.ltb index_elem];
    repeat match goal with |- context [Zpos ?a / ?b] => let x := eval vm_compute in (Zpos a / b) in change (Zpos a / b) with x end;
    repeat match goal with |- context [Zpos ?a mod ?b] => let x := eval vm_compute in (Zpos a mod b) in change (Zpos a mod b) with x end;
    try change (0 / 2) with 0; try change (0 mod 2) with 0;
    repeat match goal with |- context [Z.to_nat (Zpos ?a)] => let x := eval vm_compute in (Z.to_nat (Zpos a)) in change (Z.to_nat (Zpos a)) with x end;
    cbn -[Z.mul Z.add index Z.ltb index_elem]; rewrite ?IE;
    repeat match goal with |- context [?k <? left c] => destruct (Z.ltb_spec k (left c)) end; try lia; try reflexivity;
    unfold index; f_equal; f_equal;
    repeat match goal with |- context [Zpos ?a / ?b] => let x := eval vm_compute in (Zpos a / b) in change (Zpos a / b) with x end;
    repeat match goal with |- context [Zpos ?a mod ?b] => let x := eval vm_compute in (Zpos a mod b) in change (Zpos a mod b) with x end;
    try change (0 / 2) with 0; try change (0 mod 2) with 0; ring.
Qed.
