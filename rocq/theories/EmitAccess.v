(** * The accesses of the emitted code

    What each statement of Emit reads and writes, as lists of addresses and variables, and the sequence of statements
    a run executes.  The semantics of Emit gives the values; here nothing depends on values, except that the
    statements executed depend on the tests [dmindex0] of the first words. *)
From Coq Require Import ZArith List Bool.
From Verif Require Import Fp Mem Binned Gen Blas Emit EmitBlas.
Import ListNotations.
Open Scope Z_scope.

Section Access.
  Context {t : ty}.
  Variable v : isa.

  (** Cells read by an expression; [(n - i) > k ? e : 0] reads e only if the test holds. *)
  Fixpoint loads_s (c : ctx) (s : sexpr t) : list Z :=
    match s with
    | SMem p i => [at_ c p + i]
    | SAdd a b | SMax a b => loads_s c a ++ loads_s c b
    | SIf k a => if k <? left c then loads_s c a else []
    | SLit _ | SLane _ _ => []
    end.
  (** An unaligned load reads a whole register. *)
  Fixpoint loads_v (c : ctx) (x : vexpr t) : list Z :=
    match x with
    | VReg _ => []
    | VScal s | VSet1 s => loads_s c s
    | VLoadu p i => zseq (at_ c p + i) (bsize v t)
    | VLoad1 p i => [at_ c p + i]
    | VLoad1Pair p i => [at_ c p + i; at_ c p + i + 1]
    | VSet l => flat_map (loads_s c) l
    | VSetPairs l => flat_map (fun s => loads_s c (fst s) ++ loads_s c (snd s)) l
    | VAdd a b | VSub a b | VMul a b | VMax a b | VShufPd a b _ | VShufPs a b _ => loads_v c a ++ loads_v c b
    | VAbs a | VAnd a _ | VOr a _ | VXor a _ | VPermPd a _ | VPermPs a _ => loads_v c a
    end.
  Definition loads (c : ctx) (p : prim t) : list Z :=
    match p with Let _ x => loads_v c x | LetLane _ _ s | Store _ _ s => loads_s c s end.
  Definition stores (c : ctx) (p : prim t) : list Z :=
    match p with Store q i _ => [at_ c q + i] | _ => [] end.

  (** Local variables (with the element, for arrays) named by a statement; None: the variable as a whole. *)
  Fixpoint names_s (s : sexpr t) : list (cvar * option Z) :=
    match s with
    | SLane r i => [(r, Some i)]
    | SAdd a b | SMax a b => names_s a ++ names_s b
    | SIf _ a => names_s a
    | SLit _ | SMem _ _ => []
    end.
  Fixpoint names_v (x : vexpr t) : list (cvar * option Z) :=
    match x with
    | VReg r => [(r, None)]
    | VScal s | VSet1 s => names_s s
    | VLoadu _ _ | VLoad1 _ _ | VLoad1Pair _ _ => []
    | VSet l => flat_map names_s l
    | VSetPairs l => flat_map (fun s => names_s (fst s) ++ names_s (snd s)) l
    | VAdd a b | VSub a b | VMul a b | VMax a b | VShufPd a b _ | VShufPs a b _ => names_v a ++ names_v b
    | VAbs a | VAnd a _ | VOr a _ | VXor a _ | VPermPd a _ | VPermPs a _ => names_v a
    end.
  Definition names (p : prim t) : list (cvar * option Z) :=
    match p with
    | Let r x => (r, None) :: names_v x
    | LetLane r i s => (r, Some i) :: names_s s
    | Store _ _ s => names_s s
    end.

  (** The loops over j unrolled. *)
  Definition prims (is : list (instr t)) : list (prim t) :=
    flat_map (fun i => match i with Do p => [p] | ForJ lo hi body => flat_map body (zseq lo (hi - lo)) end) is.
  Definition step (s : state t) (cp : ctx * prim t) : state t := exec (fst cp) s (snd cp).

  Section Deposit.
    Variable cx : bool.
    Variable k : kclass t.
    (** The statements executed by [emitted], in order; zr, zi: the tests on the first words. *)
    Definition emitted_steps (expanded : bool) (fold pipe unroll n X incX Y incY acc incacc : Z) (zr zi : bool) : list (ctx * prim t) :=
      let W := reg_width v cx k pipe in
      let c0 := Ctx (fun p => match p with PX => X | PY => Y | PAcc => acc end) n in
      let zero := if cx then zr || zi else zr in
      map (pair c0)
        (match k with KSSq scl => [Let RInv (hd (VReg RInv) (vset v (fdiv one scl)))] | _ => [] end ++
         prims [ForJ 0 fold (fun j => propagate_into v cx (word_vars expanded W j) PAcc j (Var incacc))] ++
         (if zero then constants v cx zr zi else [])) ++
      flat_map (fun c => map (pair (body_ctx cx X incX Y incY acc c))
          (prims (body v cx k expanded zero fold pipe unroll (branch_inc incX) (branch_inc incY) (size c) (negb (cnt c =? size c)))))
        (fst (run_unrolled (tsize v t cx) (pipe * unroll) n)) ++
      map (pair c0) (prims [ForJ 0 fold (fun j => consolidate_into v cx j (Var incacc) (word_vars expanded W j))]).
    (** The declarations written by deposit.py:110-149 (write_fold), depositM.py:49-55, depositSSq.py:14-18 and the
        include_..._vars methods of vectorizations.py. *)
    Definition declared (expanded : bool) (fold pipe unroll : Z) (r : cvar * option Z) : Prop :=
      let W := reg_width v cx k pipe in
      match r with
      | (RX i, None) => 0 <= i < W * unroll
      | (RY i, None) => two_vectors k = true /\ 0 <= i < (if cx then W * unroll / 2 else W * unroll)
      | (RQ i, None) => 0 <= i < W
      | (RT i, None) => expanded = false /\ 0 <= i < W
      | (RB i, l) => expanded = false /\ 0 <= i < W * MAXFOLD t /\ (l = None \/ v = SISD)
      | (RS j i, l) => expanded = true /\ 0 <= j < fold /\ 0 <= i < W /\ (l = None \/ v = SISD)
      | (RComp i, None) | (RExp i, None) => 0 <= i < suf_width v cx
      | (RMask i, None) => cx = true /\ 0 <= i < suf_width v cx
      | (RInv, None) => exists scl, k = KSSq scl
      | (RBlp, None) => v = SISD
      | (RCons, None) => True
      | (RConsBuf, None) => vector v = true
      | (RConsBuf, Some i) => vector v = true /\ 0 <= i < bsize v t
      | _ => False
      end.
  End Deposit.

  Section Scan.
    Variable cx two : bool.
    (** The statements executed by [emitted_scan]. *)
    Definition scan_steps (unroll n X incX Y incY acc : Z) : list (ctx * prim t) :=
      let c0 := Ctx (fun p => match p with PX => X | PY => Y | PAcc => acc end) n in
      let all1 := (incX =? 1) && (negb two || (incY =? 1)) in
      let ix := if all1 then One else Var incX in
      let iy := if all1 then One else Var incY in
      map (pair c0) (set_equal (m_vars v cx) (repeat (vzero v) (length (m_vars v cx)))) ++
      flat_map (fun c => map (pair (body_ctx cx X incX Y incY acc c))
          (abody v cx two unroll ix iy (size c) (negb (cnt c =? size c))))
        (fst (run_unrolled (tsize v t cx) unroll n)) ++
      map (pair c0) (max_into v cx 0 One (m_vars v cx)).
    (** amax.py:53-58, amaxm.py:20-30 and include_max_vars. *)
    Definition scan_declared (unroll : Z) (r : cvar * option Z) : Prop :=
      let W := areg_width (t := t) v cx two unroll in
      match r with
      | (RX i, None) => 0 <= i < W
      | (RY i, None) => two = true /\ 0 <= i < (if cx then W / 2 else W)
      | (RM i, l) => 0 <= i < suf_width v cx /\ (l = None \/ v = SISD)
      | (RMaxBuf, None) => vector v = true
      | (RMaxBuf, Some i) => vector v = true /\ 0 <= i < bsize v t
      | _ => False
      end.
  End Scan.
End Access.

(** The cells of n elements (complex: two cells each) at stride inc, and of the words of an accumulator. *)
Definition element_cell (cx : bool) (X inc n a : Z) : Prop :=
  exists i c, 0 <= i < n /\ 0 <= c < dsize cx /\ a = X + i * (inc * dsize cx) + c.
Definition word_cell (cx : bool) (acc inc fold a : Z) : Prop :=
  exists j c, 0 <= j < fold /\ 0 <= c < dsize cx /\ a = acc + j * (inc * dsize cx) + c.
(** The statements of the deposit code of a build. *)
Definition deposit_steps {t} (b : build) (cx : bool) (k : kclass t) (fold n X incX Y incY acc incacc : Z) (zr zi : bool) : list (ctx * prim t) :=
  let expanded := (2 <=? fold) && (fold <=? b_max b) && b_expand b fold in
  let w := b_width b (if expanded then fold else 0) in
  emitted_steps (b_isa b) cx k expanded fold (fst w) (snd w) n X incX Y incY acc incacc zr zi.
