(** * Model of the statements written by the code generator

    gen/vectorizations.py (classes SISD, SSE, AVX), gen/dataTypes.py, gen/utils.py,
    binned/deposit.py, binnedBLAS/deposit{Sum,ASum,M,Dot,DotC,DotU,SSq}.py, binnedBLAS/amax.py and
    amaxm.py: the lists of C statements the Python program writes, for every instruction set, data
    type and tuning, and a semantics for these statements.  Text is replaced by syntax trees; the
    loop skeleton is the one of Gen.v. *)
From Coq Require Import ZArith List Bool.
From Flocq Require Import Core BinarySingleNaN.
From Verif Require Import Fp Mem Binned Gen.
Import ListNotations.
Open Scope Z_scope.

(** ** Instruction sets and their widths *)

Inductive isa := SISD | SSE | AVX.
(** dataTypes.py: base_size of real and complex types. *)
Definition dsize (cx : bool) : Z := if cx then 2 else 1.
(** vectorizations.py:133,305,554: bit_size of a variable. *)
Definition vbits (v : isa) (t : ty) : Z := match v with SISD => wordbits t | SSE => 128 | AVX => 256 end.
(** Lines 136,308,557: base_size, base values per variable. *)
Definition bsize (v : isa) (t : ty) : Z := vbits v t / wordbits t.
(** Lines 137,309,558: type_size, elements per variable (0 for SISD complex). *)
Definition tsize (v : isa) (t : ty) (cx : bool) : Z := vbits v t / (wordbits t * dsize cx).
(** Lines 139,285: suf_width. *)
Definition suf_width (v : isa) (cx : bool) : Z := match v with SISD => dsize cx | _ => 1 end.
Definition vector (v : isa) : bool := match v with SISD => false | _ => true end.

(** ** Syntax *)

(** C variables of a generated function: X_i, Y_i (loaded values), q_i, s_i and s_buffer[k]
    (buffered variant), s_j_i (expanded variant), compression_i, expansion_i, expansion_mask_i, m_i,
    scale_mask_inv, blp_tmp, cons_tmp, cons_buffer_tmp, max_buffer_tmp. *)
Inductive cvar :=
| RX (i : Z) | RY (i : Z) | RQ (i : Z) | RT (i : Z) | RB (k : Z) | RS (j i : Z)
| RComp (i : Z) | RExp (i : Z) | RMask (i : Z) | RM (i : Z) | RInv | RBlp | RCons | RConsBuf | RMaxBuf.
Definition cvar_dec (a b : cvar) : {a = b} + {a <> b}.
Proof. decide equality; apply Z.eq_dec. Defined.
(** C pointers: the two vectors, and the accumulator (or the amax result). *)
Inductive ptr := PX | PY | PAcc.

(** Scalar expressions; [SIf k e] is [(n - i) > k ? e : 0]. *)
Inductive sexpr (t : ty) :=
| SLit (x : F t)                (** literal *)
| SMem (p : ptr) (i : Z)        (** p[i] *)
| SLane (r : cvar) (i : Z)       (** r[i], r a local array *)
| SAdd (a b : sexpr t)          (** a + b *)
| SMax (a b : sexpr t)          (** (a > b ? a : b) *)
| SIf (k : Z) (e : sexpr t).
Arguments SLit {t}. Arguments SMem {t}. Arguments SLane {t}. Arguments SAdd {t}. Arguments SMax {t}. Arguments SIf {t}.

(** Vector expressions (plain C expressions for SISD).  Bit masks are given lane by lane. *)
Inductive vexpr (t : ty) :=
| VReg (r : cvar)
| VScal (s : sexpr t)                  (** a scalar, SISD *)
| VLoadu (p : ptr) (i : Z)             (** _mm_loadu_p*(p + i), _mm256_loadu_p* *)
| VLoad1 (p : ptr) (i : Z)             (** _mm_load1_p*(p + i), _mm256_broadcast_s* *)
| VLoad1Pair (p : ptr) (i : Z)         (** the two values at p + i repeated: (__m128)_mm_load1_pd((double* )..),
                                           (__m256)_mm256_broadcast_sd((double* )..), _mm256_broadcast_pd *)
| VSet (l : list (sexpr t))            (** _mm_set_p*(l), _mm256_set_p*(l): the last argument is lane 0 *)
| VSetPairs (l : list (sexpr t * sexpr t)) (** (__m256)_mm256_set_pd(l), each argument two floats read as one double *)
| VSet1 (s : sexpr t)                  (** _mm_set1_p*, _mm256_set1_p* *)
| VAdd (a b : vexpr t) | VSub (a b : vexpr t) | VMul (a b : vexpr t) | VMax (a b : vexpr t)
| VAbs (a : vexpr t)                   (** fabs, fabsf *)
| VAnd (a : vexpr t) (mask : Z -> Z) | VOr (a : vexpr t) (mask : Z -> Z) | VXor (a : vexpr t) (mask : Z -> Z)
| VShufPd (a b : vexpr t) (imm : Z) | VShufPs (a b : vexpr t) (imm : Z)    (** _mm_shuffle_pd, _mm_shuffle_ps *)
| VPermPd (a : vexpr t) (imm : Z) | VPermPs (a : vexpr t) (imm : Z).       (** _mm256_permute_pd, _mm256_permute_ps *)
Arguments VReg {t}. Arguments VScal {t}. Arguments VLoadu {t}. Arguments VLoad1 {t}. Arguments VLoad1Pair {t}.
Arguments VSet {t}. Arguments VSetPairs {t}. Arguments VSet1 {t}.
Arguments VAdd {t}. Arguments VSub {t}. Arguments VMul {t}. Arguments VMax {t}. Arguments VAbs {t}.
Arguments VAnd {t}. Arguments VOr {t}. Arguments VXor {t}.
Arguments VShufPd {t}. Arguments VShufPs {t}. Arguments VPermPd {t}. Arguments VPermPs {t}.

(** Statements.  [ForJ lo hi body] is [for(j = lo; j < hi; j++){body}]. *)
Inductive prim (t : ty) :=
| Let (r : cvar) (e : vexpr t)              (** r = e; *)
| LetLane (r : cvar) (i : Z) (s : sexpr t)  (** r[i] = s; *)
| Store (p : ptr) (i : Z) (s : sexpr t).   (** p[i] = s; *)
Arguments Let {t}. Arguments LetLane {t}. Arguments Store {t}.
Inductive instr (t : ty) :=
| Do (p : prim t)
| ForJ (lo hi : Z) (body : Z -> list (prim t)).
Arguments Do {t}. Arguments ForJ {t}.

(** ** Semantics *)

(** Variables hold one value per lane. *)
Definition env (t : ty) := cvar -> Z -> F t.
Definition set_reg {t} (e : env t) (r : cvar) (x : Z -> F t) : env t := fun r' => if cvar_dec r' r then x else e r'.
(** Where the pointers are, and the value of (n - i). *)
Record ctx := Ctx { at_ : ptr -> Z; left : Z }.

Fixpoint eval_s {t} (c : ctx) (m : mem t) (e : env t) (s : sexpr t) : F t :=
  match s with
  | SLit x => x
  | SMem p i => m (at_ c p + i)
  | SLane r i => e r i
  | SAdd a b => fadd (eval_s c m e a) (eval_s c m e b)
  | SMax a b => let a := eval_s c m e a in let b := eval_s c m e b in if flt b a then a else b
  | SIf k a => if k <? left c then eval_s c m e a else fzero
  end.
(** Bits [2k, 2k+1] of an immediate operand. *)
Definition imm2 (imm k : Z) : Z := Z.land (Z.shiftr imm (2 * k)) 3.
Definition imm1 (imm k : Z) : Z := Z.land (Z.shiftr imm k) 1.
Fixpoint eval {t} (c : ctx) (m : mem t) (e : env t) (x : vexpr t) : Z -> F t :=
  match x with
  | VReg r => e r
  | VScal s => fun _ => eval_s c m e s
  | VLoadu p i => fun l => m (at_ c p + i + l)
  | VLoad1 p i => fun _ => m (at_ c p + i)
  | VLoad1Pair p i => fun l => m (at_ c p + i + l mod 2)
  | VSet a => fun l => nth (length a - 1 - Z.to_nat l) (map (eval_s c m e) a) fnan
  | VSetPairs a => fun l =>
      nth (length a - 1 - Z.to_nat (l / 2)) (map (fun s => eval_s c m e (if l mod 2 =? 0 then fst s else snd s)) a) fnan
  | VSet1 s => fun _ => eval_s c m e s
  | VAdd a b => fun l => fadd (eval c m e a l) (eval c m e b l)
  | VSub a b => fun l => fsub (eval c m e a l) (eval c m e b l)
  | VMul a b => fun l => fmul (eval c m e a l) (eval c m e b l)
  | VMax a b => fun l => let a := eval c m e a l in let b := eval c m e b l in if flt b a then a else b
  | VAbs a => fun l => fabs (eval c m e a l)
  | VAnd a k => fun l => of_bits (Z.land (bits (eval c m e a l)) (k l))
  | VOr a k => fun l => of_bits (Z.lor (bits (eval c m e a l)) (k l))
  | VXor a k => fun l => of_bits (Z.lxor (bits (eval c m e a l)) (k l))
  | VShufPd a b i => fun l => if l =? 0 then eval c m e a (imm1 i 0) else eval c m e b (imm1 i 1)
  | VShufPs a b i => fun l => if l <? 2 then eval c m e a (imm2 i l) else eval c m e b (imm2 i l)
  | VPermPd a i => fun l => eval c m e a (2 * (l / 2) + imm1 i l)
  | VPermPs a i => fun l => eval c m e a (4 * (l / 4) + imm2 i (l mod 4))
  end.

Definition state (t : ty) := (env t * mem t)%type.
Definition exec {t} (c : ctx) (s : state t) (p : prim t) : state t :=
  let (e, m) := s in
  match p with
  | Let r x => (set_reg e r (eval c m e x), m)
  | LetLane r i x => (set_reg e r (fun l => if l =? i then eval_s c m e x else e r l), m)
  | Store p i x => (e, upd m (at_ c p + i) (eval_s c m e x))
  end.
Definition execs {t} (c : ctx) (ps : list (prim t)) (s : state t) : state t := fold_left (exec c) ps s.
Definition run1 {t} (c : ctx) (s : state t) (i : instr t) : state t :=
  match i with
  | Do p => exec c s p
  | ForJ lo hi body => fold_left (fun s j => execs c (body j) s) (zseq lo (hi - lo)) s
  end.
Definition runs {t} (c : ctx) (is : list (instr t)) (s : state t) : state t := fold_left (run1 c) is s.

(** ** Python lists *)

(** l[k:], l[:k], zip. *)
Definition from {A} (k : Z) (l : list A) : list A := skipn (Z.to_nat k) l.
Definition upto {A} (k : Z) (l : list A) : list A := firstn (Z.to_nat k) l.
Definition zipw {A B C} (f : A -> B -> C) (a : list A) (b : list B) : list C := map (fun p => f (fst p) (snd p)) (combine a b).
(** The first n values of itertools.cycle(l), zipped with a list of n elements. *)
Definition cycle {A} (l : list A) (n : nat) : list A := firstn n (concat (repeat l n)).
(** vectorizations.py:243-244,505-508... and so on: range(n). *)
Definition vars (f : Z -> cvar) (n : Z) : list cvar := map f (zseq 0 n).
(** utils.py:66-68 set_equal. *)
Definition set_equal {t} (a : list cvar) (b : list (vexpr t)) : list (prim t) := zipw Let a b.

(** ** vectorizations.py *)

(** An increment argument: the literal 1 or the C variable (with its value). *)
Inductive incr := One | Var (z : Z).
Definition incv (i : incr) : Z := match i with One => 1 | Var z => z end.
(** dataTypes.py:29-33 index, for base_index True and False. *)
Definition index (cx : bool) (offset : Z) (inc : incr) (i : Z) : Z :=
  if cx then 2 * incv inc * (offset + i / 2) + i mod 2 else incv inc * (offset + i).
Definition index_elem (offset : Z) (inc : incr) (i : Z) : Z := incv inc * (offset + i).

Definition one {t} : F t := mkf 1 0.
Definition minus1 {t} : F t := mkf (-1) 0.
(** Lines 311-327 (SSE), 562-585 (AVX) include_abs_vars: -1 xor 1 xor all ones. *)
Definition abs_mask (t : ty) (l : Z) : Z :=
  Z.lxor (Z.lxor (bits (minus1 : F t)) (bits (one : F t))) (2 ^ wordbits t - 1).
(** Lines 329-345, 587-603 include_blp_vars: 1.0 xor (1.0 + (DBL_EPSILON * 1.0001)); 1.0001 is the double
    4504049987333233 * 2^-52.  In the float kernels the sum is a double converted to float. *)
Definition blp_mask (t : ty) (l : Z) : Z :=
  let sum eps : F Dbl := fadd one (fmul eps (mkf 4504049987333233 (-52))) in
  match t with
  | Dbl => Z.lxor (bits (one : F Dbl)) (bits (sum (mkf 1 (-52))))
  | Flt => Z.lxor (bits (one : F Flt)) (bits (d2f (sum (mkf 1 (-23)))))
  end.
(** Lines 347-381, 605-639: conj_mask is set(-1, 0, ...) xor set(1, 0, ...), nconj_mask
    set(0, -1, ...) xor set(0, 1, ...); the last argument is lane 0. *)
Definition set_mask (t : ty) (a b : list Z) (l : Z) : Z :=
  let at_lane (k : list Z) := nth (length k - 1 - Z.to_nat l) k 0 in
  Z.lxor (bits (ofZ (at_lane a) : F t)) (bits (ofZ (at_lane b) : F t)).
Definition conj_mask (v : isa) (t : ty) : Z -> Z :=
  match v, t with
  | SSE, Dbl => set_mask t [-1; 0] [1; 0]
  | SSE, Flt | AVX, Dbl => set_mask t [-1; 0; -1; 0] [1; 0; 1; 0]
  | _, _ => set_mask t [-1; 0; -1; 0; -1; 0; -1; 0] [1; 0; 1; 0; 1; 0; 1; 0]
  end.
Definition nconj_mask (v : isa) (t : ty) : Z -> Z :=
  match v, t with
  | SSE, Dbl => set_mask t [0; -1] [0; 1]
  | SSE, Flt | AVX, Dbl => set_mask t [0; -1; 0; -1] [0; 1; 0; 1]
  | _, _ => set_mask t [0; -1; 0; -1; 0; -1; 0; -1] [0; 1; 0; 1; 0; 1; 0; 1]
  end.

(** sub, add, mul, max: lines 225-244, 477-494, 742-759. *)
Definition vsub {t} := zipw (@VSub t).
Definition vadd {t} := zipw (@VAdd t).
Definition vmul {t} := zipw (@VMul t).
Definition vmax {t} := zipw (@VMax t).
Definition rd {t} (l : list cvar) : list (vexpr t) := map VReg l.
(** abs: lines 231-235, 483-485, 748-750. *)
Definition vabs {t} (v : isa) (l : list (vexpr t)) : list (vexpr t) :=
  match v with SISD => map VAbs l | _ => map (fun a => VAnd a (abs_mask t)) l end.
(** conj: lines 258-262, 496-501, 761-766; nconj: 264-268, 503-508, 768-773 (complex types). *)
Definition enum {A B} (f : Z -> A -> B) (l : list A) : list B :=
  map (fun p => f (fst p) (snd p)) (combine (zseq 0 (Z.of_nat (length l))) l).
Definition vconj {t} (v : isa) (l : list (vexpr t)) : list (vexpr t) :=
  match v with
  | SISD => enum (fun i a => if i mod 2 =? 0 then a else VMul a (VScal (SLit minus1))) l
  | _ => map (fun a => VXor a (conj_mask v t)) l
  end.
Definition vnconj {t} (v : isa) (l : list (vexpr t)) : list (vexpr t) :=
  match v with
  | SISD => enum (fun i a => if i mod 2 =? 1 then a else VMul a (VScal (SLit minus1))) l
  | _ => map (fun a => VXor a (nconj_mask v t)) l
  end.
(** l[::2] and l[1::2]. *)
Fixpoint evens {A} (l : list A) : list A := match l with a :: _ :: l => a :: evens l | [a] => [a] | [] => [] end.
Definition odds {A} (l : list A) : list A := evens (tl l).
Definition twice {A} (l : list A) : list A := flat_map (fun a => [a; a]) l.
(** rep_evens: lines 246-247, 521-525, 786-790. *)
Definition rep_evens {t} (v : isa) (l : list (vexpr t)) : list (vexpr t) :=
  match v, t with
  | SISD, _ => twice (evens l)
  | SSE, Dbl => map (fun a => VShufPd a a 0) l
  | SSE, Flt => map (fun a => VShufPs a a 160) l
  | AVX, Dbl => map (fun a => VPermPd a 0) l
  | AVX, Flt => map (fun a => VPermPs a 160) l
  end.
(** rep_odds: lines 249-250, 527-531, 792-796. *)
Definition rep_odds {t} (v : isa) (l : list (vexpr t)) : list (vexpr t) :=
  match v, t with
  | SISD, _ => twice (odds l)
  | SSE, Dbl => map (fun a => VShufPd a a 3) l
  | SSE, Flt => map (fun a => VShufPs a a 245) l
  | AVX, Dbl => map (fun a => VPermPd a 15) l
  | AVX, Flt => map (fun a => VPermPs a 245) l
  end.
(** swap_pairwise: lines 252-254, 533-537, 798-802. *)
Definition swap_pairwise {t} (v : isa) (l : list (vexpr t)) : list (vexpr t) :=
  match v, t with
  | SISD, _ => map (fun i => nth (Z.to_nat ((i + 1) mod 2 + 2 * (i / 2))) l (VScal (SLit fnan))) (zseq 0 (Z.of_nat (length l)))
  | SSE, Dbl => map (fun a => VShufPd a a 1) l
  | SSE, Flt => map (fun a => VShufPs a a 177) l
  | AVX, Dbl => map (fun a => VPermPd a 5) l
  | AVX, Flt => map (fun a => VPermPs a 177) l
  end.
(** set: lines 218-219, 510-511, 775-776; set_real_imag: 221-223, 513-519, 778-784. *)
Definition vset {t} (v : isa) (x : F t) : list (vexpr t) :=
  match v with SISD => [VScal (SLit x)] | _ => [VSet1 (SLit x)] end.
Definition set_real_imag {t} (v : isa) (re im : F t) : list (vexpr t) :=
  let re := SLit re in let im := SLit im in
  match v, t with
  | SISD, _ => [VScal re; VScal im]
  | SSE, Dbl => [VSet [im; re]]
  | SSE, Flt | AVX, Dbl => [VSet [im; re; im; re]]
  | AVX, Flt => [VSet [im; re; im; re; im; re; im; re]]
  end.
(** zero: lines 138, 310, 559. *)
Definition vzero {t} (v : isa) : vexpr t := match v with SISD => VScal (SLit fzero) | _ => VSet1 (SLit fzero) end.

(** add_blp_into: lines 193-204, 433-440, 697-703.  [mask] of SISD is the statement blp_tmp.l |= 1. *)
Definition add_blp_into {t} (v : isa) (dst : list cvar) (src blp : list (vexpr t)) (width : Z) : list (prim t) :=
  flat_map (fun i =>
    let d := nth (Z.to_nat i) dst RBlp in
    let s := nth (Z.to_nat i) src (VScal (SLit fnan)) in
    let b := nth (Z.to_nat i) blp (VScal (SLit fnan)) in
    match v with
    | SISD => [Let RBlp b; Let RBlp (VOr (VReg RBlp) (fun _ => 1)); Let d (VAdd s (VReg RBlp))]
    | _ => [Let d (VAdd s (VOr b (blp_mask t)))]
    end) (zseq 0 width).

(** load: lines 206-213, 442-461, 705-724 (the aligned loads are never asked for). *)
Definition contiguous (inc : incr) (ts : Z) : bool := match inc with One => true | Var _ => ts =? 1 end.
Definition load {t} (v : isa) (cx : bool) (p : ptr) (offset : Z) (inc : incr) (n : Z) : list (vexpr t) :=
  match v with
  | SISD => map (fun i => VScal (SMem p (index cx offset inc i))) (zseq 0 (n * dsize cx))
  | _ => map (fun i =>
      let x k := SMem p (index cx offset inc (i * bsize v t + k)) in
      if contiguous inc (tsize v t cx) then VLoadu p (index cx offset inc (i * bsize v t))
      else match v, t with
           | SSE, Flt => VSet [x 3; x 2; x 1; x 0]
           | SSE, Dbl => VSet [x 1; x 0]
           | _, Flt => VSet [x 7; x 6; x 5; x 4; x 3; x 2; x 1; x 0]
           | _, Dbl => VSet [x 3; x 2; x 1; x 0]
           end) (zseq 0 (n / tsize v t cx))
  end.
(** load_partial: lines 463-475, 726-740.  (None for the combinations with type_size 1 or less, where
    the generator writes no partial load.) *)
Definition load_partial {t} (v : isa) (cx : bool) (p : ptr) (offset : Z) (inc : incr) : list (vexpr t) :=
  let x k := SMem p (index cx offset inc k) in
  let z := SLit fzero in
  (* ((double* )p)[i], two floats *)
  let d k := (SMem p (2 * index_elem offset inc k), SMem p (2 * index_elem offset inc k + 1)) in
  let dif k b := (SIf k (fst (d b)), SIf k (snd (d b))) in
  match v, cx, t with
  | SSE, true, Flt => [VSet [z; z; x 1; x 0]]
  | SSE, false, Dbl => [VSet [z; x 0]]
  | SSE, false, Flt => [VSet [z; SIf 2 (x 2); SIf 1 (x 1); x 0]]
  | AVX, true, Dbl => [VSet [z; z; x 1; x 0]]
  | AVX, true, Flt => [VSetPairs [(z, z); dif 2 2; dif 1 1; d 0]]
  | AVX, false, Dbl => [VSet [z; SIf 2 (x 2); SIf 1 (x 1); x 0]]
  | AVX, false, Flt => [VSet [z; SIf 6 (x 6); SIf 5 (x 5); SIf 4 (x 4); SIf 3 (x 3); SIf 2 (x 2); SIf 1 (x 1); x 0]]
  | _, _, _ => []
  end.

(** propagate_into: lines 180-191, 423-431, 687-695.  [a = b = e] assigns from the right. *)
Definition chain {t} (dst : list cvar) (e : vexpr t) : list (prim t) := map (fun d => Let d e) (rev dst).
Definition propagate_into {t} (v : isa) (cx : bool) (dst : list cvar) (p : ptr) (offset : Z) (inc : incr) : list (prim t) :=
  let x k := VScal (SMem p (index cx offset inc k)) in
  match v, cx, t with
  | SISD, true, _ => chain (evens dst) (x 0) ++ chain (odds dst) (x 1)
  | SISD, false, _ => chain dst (x 0)
  | SSE, true, Flt | AVX, true, _ => chain dst (VLoad1Pair p (index cx offset inc 0))
  | SSE, true, Dbl => chain dst (VLoadu p (index cx offset inc 0))
  | _, false, _ => chain dst (VLoad1 p (index cx offset inc 0))
  end.

(** a + b + c ... of the lanes of a local array. *)
Definition sum_lanes {t} (r : cvar) (l : list Z) : sexpr t :=
  match l with [] => SLit fnan | a :: l => fold_left (fun s i => SAdd s (SLane r i)) l (SLane r a) end.
(** consolidate_into: lines 143-166 (SISD), 385-407 (SSE), 641-671 (AVX); destination and common summand are
    the same word in every use (deposit.py:169,174). *)
Definition consolidate_into {t} (v : isa) (cx : bool) (offset : Z) (inc : incr) (src : list cvar) : list (prim t) :=
  let a := SMem PAcc (index cx offset inc 0) in
  let b := SMem PAcc (index cx offset inc 1) in
  let z := SLit fzero in
  let s0 := nth 0 src RCons in
  let s1 := nth 1 src RCons in
  (* d = d + (s - cons_tmp); for every s of l *)
  let adds d l := map (fun s => Let d (VAdd (VReg d) (VSub (VReg s) (VReg RCons)))) l in
  match v, cx with
  | SISD, true =>
      (if 2 <? Z.of_nat (length src) then [Let RCons (VScal a)] else []) ++ adds s0 (evens (from 2 src)) ++
      (if 2 <? Z.of_nat (length src) then [Let RCons (VScal b)] else []) ++ adds s1 (evens (from 3 src)) ++
      [Store PAcc (index cx offset inc 0) (SLane s0 0); Store PAcc (index cx offset inc 1) (SLane s1 0)]
  | SISD, false =>
      (if 1 <? Z.of_nat (length src) then [Let RCons (VScal a)] else []) ++ adds s0 (from 1 src) ++
      [Store PAcc (index cx offset inc 0) (SLane s0 0)]
  | _, _ =>
      match v, cx, t with
      | SSE, false, Flt => [Let s0 (VSub (VReg s0) (VSet [a; a; a; z]))]
      | SSE, false, Dbl => [Let s0 (VSub (VReg s0) (VSet [a; z]))]
      | SSE, true, Flt => [Let s0 (VSub (VReg s0) (VSet [b; a; z; z]))]
      | SSE, true, Dbl => []
      | _, false, Flt => [Let s0 (VSub (VReg s0) (VSet [a; a; a; a; a; a; a; z]))]
      | _, false, Dbl => [Let s0 (VSub (VReg s0) (VSet [a; a; a; z]))]
      | _, true, Flt => [Let s0 (VSub (VReg s0) (VSet [b; a; b; a; b; a; z; z]))]
      | _, true, Dbl => [Let s0 (VSub (VReg s0) (VSet [b; a; z; z]))]
      end ++
      (if 1 <? Z.of_nat (length src) then propagate_into v cx [RCons] PAcc offset inc ++ adds s0 (from 1 src) else []) ++
      [Let RConsBuf (VReg s0)] ++
      (if cx then
         [Store PAcc (index cx offset inc 0) (sum_lanes RConsBuf (map (fun i => 2 * i) (zseq 0 (tsize v t cx))));
          Store PAcc (index cx offset inc 1) (sum_lanes RConsBuf (map (fun i => 2 * i + 1) (zseq 0 (tsize v t cx))))]
       else [Store PAcc (index cx offset inc 0) (sum_lanes RConsBuf (zseq 0 (bsize v t)))])
  end.

(** max_into: lines 168-178, 409-421, 673-685 (src_vars has base_size variables for SISD, one otherwise). *)
Definition max_into {t} (v : isa) (cx : bool) (offset : Z) (inc : incr) (src : list cvar) : list (prim t) :=
  match v with
  | SISD => map (fun i => Store PAcc (index cx offset inc i) (SLane (nth (Z.to_nat i) src RCons) 0)) (zseq 0 (dsize cx))
  | _ =>
      [Let RMaxBuf (VReg (nth 0 src RCons))] ++
      map (fun i => LetLane RMaxBuf (i mod dsize cx) (SMax (SLane RMaxBuf (i mod dsize cx)) (SLane RMaxBuf i)))
        (zseq (dsize cx) (bsize v t - dsize cx)) ++
      map (fun i => Store PAcc (index cx offset inc i) (SLane RMaxBuf i)) (zseq 0 (dsize cx))
  end.

(** ** The deposit kernels *)

(** The subclasses of Deposit; KSSq carries the value of the argument scale. *)
Inductive kclass (t : ty) := KSum | KASum | KDot | KDotC | KDotU | KSSq (scl : F t).
Arguments KSum {t}. Arguments KASum {t}. Arguments KDot {t}. Arguments KDotC {t}. Arguments KDotU {t}. Arguments KSSq {t}.
(** Subclasses of DepositM read two vectors. *)
Definition two_vectors {t} (k : kclass t) : bool := match k with KDot | KDotC | KDotU => true | _ => false end.
(** depositDot.py:13, depositDotC.py:13, depositDotU.py:13 (the assertions). *)
Definition fits {t} (k : kclass t) (cx : bool) : bool :=
  match k with KDot => negb cx | KDotC | KDotU => cx | _ => true end.

Section Kernel.
  Context {t : ty}.
  Variable v : isa.
  Variable cx : bool.
  Variable k : kclass t.

  (** compute_reg_width: deposit.py:342-343, depositM.py:57-58. *)
  Definition reg_width (pipe : Z) : Z := pipe * dsize cx / bsize v t * (if two_vectors k then dsize cx else 1).
  (** define_load_vars: deposit.py:335-337, depositM.py:49-55, for max_reg_width * max_unroll_width registers. *)
  Definition x_vars (lw : Z) : list cvar := vars RX lw.
  Definition y_vars (lw : Z) : list cvar := vars RY (if cx then lw / 2 else lw).

  (** Preprocess: deposit.py:261-265, depositASum.py:17-21, depositSSq.py:20-30, depositDot.py:20-28,
      depositDotC.py:18-26, depositDotU.py:18-26.  lw: registers declared; n: elements to load;
      part: load (n - i) of them. *)
  Definition preprocess (lw n : Z) (ix iy : incr) (part : bool) : list (prim t) :=
    let x := x_vars lw in
    let y := y_vars lw in
    let w := reg_width n in
    let loadx := if part then load_partial v cx PX 0 ix else load v cx PX 0 ix n in
    let loady := if part then load_partial v cx PY 0 iy else load v cx PY 0 iy n in
    match k with
    | KSum => set_equal x loadx
    | KASum => set_equal x (vabs v loadx)
    | KSSq _ => set_equal x (vmul loadx (repeat (VReg RInv) (Z.to_nat w))) ++
                set_equal x (vmul (rd x) (rd (upto w x)))
    | KDot => set_equal x loadx ++ set_equal y loady ++ set_equal x (vmul (rd x) (rd (upto w y)))
    | KDotC => set_equal x loadx ++ set_equal y loady ++
        set_equal (from (w / 2) (upto w x)) (vmul (swap_pairwise v (rd x)) (rep_odds v (rd y))) ++
        set_equal (upto (w / 2) x) (vconj v (vmul (rd x) (rep_evens v (rd y))))
    | KDotU => set_equal x loadx ++ set_equal y loady ++
        set_equal (from (w / 2) (upto w x)) (vnconj v (vmul (swap_pairwise v (rd x)) (rep_odds v (rd y)))) ++
        set_equal (upto (w / 2) x) (vmul (rd x) (rep_evens v (rd y)))
    end.

  (** deposit.py:267-326.  [exp]: the expanded variant (fold is a constant), otherwise the buffered
      one (fold is the C variable, the words are in s_buffer).  W: max_reg_width. *)
  Definition s_vars (W j : Z) : list cvar := vars (RS j) W.
  Definition t_vars (W : Z) : list cvar := vars RT W.
  Definition q_vars (W : Z) : list cvar := vars RQ W.
  Definition buffer_vars (W j : Z) : list cvar := vars (fun i => RB (j * W + i)) W.
  Definition comp_vars := vars RComp (suf_width v cx).
  Definition exp_vars := vars RExp (suf_width v cx).
  Definition mask_vars := vars RMask (suf_width v cx).
  (** zip with itertools.cycle(c). *)
  Definition vmul_cycle (a : list (vexpr t)) (c : list cvar) : list (vexpr t) := vmul a (rd (cycle c (length a))).

  (** Lines 270-276, 304-311: one turn of the loop over j, buffered variant; x = load_vars[0][i * reg_width:]. *)
  Definition level_buf (W reg : Z) (x : list cvar) (j : Z) : list (prim t) :=
    let q := q_vars W in
    let s := t_vars W in
    let b := buffer_vars W j in
    set_equal s (rd (upto reg b)) ++
    add_blp_into v q (rd s) (rd x) reg ++
    set_equal b (rd (upto reg q)) ++
    set_equal q (vsub (rd s) (rd (upto reg q))) ++
    set_equal x (vadd (rd x) (rd (upto reg q))).
  (** Lines 282-286, 321-325: expanded variant. *)
  Definition level_exp (W reg : Z) (x : list cvar) (j : Z) : list (prim t) :=
    let q := q_vars W in
    let s := s_vars W j in
    set_equal q (rd (upto reg s)) ++
    add_blp_into v s (rd s) (rd x) reg ++
    set_equal q (vsub (rd q) (rd (upto reg s))) ++
    set_equal x (vadd (rd x) (rd (upto reg q))).
  (** Lines 278, 287, 312, 326: the last word.  In the buffered variant j is the value of the C variable after
      the loop. *)
  Definition last_buf (W reg : Z) (x : list cvar) (j : Z) : list (prim t) :=
    add_blp_into v (buffer_vars W j) (rd (buffer_vars W j)) (rd x) reg.
  Definition last_exp (W reg : Z) (x : list cvar) (j : Z) : list (prim t) :=
    add_blp_into v (s_vars W j) (rd (s_vars W j)) (rd x) reg.
  (** Lines 292-300: first word in bin 0, buffered variant (buffer0_vars is buffer_vars with j = 0). *)
  Definition first_buf (W reg : Z) (x : list cvar) : list (prim t) :=
    let q := q_vars W in
    let s := t_vars W in
    let b := buffer_vars W 0 in
    set_equal s (rd (upto reg b)) ++
    add_blp_into v q (rd s) (vmul_cycle (rd x) comp_vars) reg ++
    set_equal b (rd (upto reg q)) ++
    (if cx then
       set_equal q (vsub (rd s) (rd (upto reg q))) ++
       set_equal x (vadd (vadd (rd x) (vmul_cycle (rd q) exp_vars)) (vmul_cycle (rd q) mask_vars))
     else
       set_equal q (vmul_cycle (vsub (rd s) (rd (upto reg q))) exp_vars) ++
       set_equal x (vadd (vadd (rd x) (rd (upto reg q))) (rd (upto reg q)))).
  (** Lines 313-320: expanded variant. *)
  Definition first_exp (W reg : Z) (x : list cvar) : list (prim t) :=
    let q := q_vars W in
    let s := s_vars W 0 in
    set_equal q (rd (upto reg s)) ++
    add_blp_into v s (rd s) (vmul_cycle (rd x) comp_vars) reg ++
    (if cx then
       set_equal q (vsub (rd q) (rd (upto reg s))) ++
       set_equal x (vadd (vadd (rd x) (vmul_cycle (rd (upto reg q)) exp_vars)) (vmul_cycle (rd (upto reg q)) mask_vars))
     else
       set_equal q (vmul_cycle (vsub (rd q) (rd (upto reg s))) exp_vars) ++
       set_equal x (vadd (vadd (rd x) (rd (upto reg q))) (rd (upto reg q)))).

  (** Lines 267-287 process (zero = false), 289-326 process0 (zero = true); lw: registers declared. *)
  Definition process (expanded zero : bool) (fold lw W reg unroll : Z) : list (instr t) :=
    flat_map (fun i =>
      let x := from (i * reg) (x_vars lw) in
      let lo := if zero then 1 else 0 in
      if expanded then
        map Do ((if zero then first_exp W reg x else []) ++
                flat_map (level_exp W reg x) (zseq lo (fold - 1 - lo)) ++
                last_exp W reg x (fold - 1))
      else
        map Do (if zero then first_buf W reg x else []) ++
        [ForJ lo (fold - 1) (level_buf W reg x)] ++
        map Do (last_buf W reg x (Z.max lo (fold - 1))))
    (zseq 0 (Z.max unroll 1)).

  (** Lines 190-212: body and body0, for n elements (or the remaining ones). *)
  Definition body (expanded zero : bool) (fold pipe unroll : Z) (ix iy : incr) (n : Z) (part : bool) : list (instr t) :=
    let W := reg_width pipe in
    let lw := W * unroll in
    if part then
      map Do (preprocess lw (tsize v t cx) ix iy true) ++ process expanded zero fold lw W (reg_width (tsize v t cx)) 1
    else
      map Do (preprocess lw n ix iy false) ++ process expanded zero fold lw W (reg_width (Z.min n pipe)) (n / pipe).

  (** Lines 214-238, 249-251: the constants used when a part is in bin 0 ([zr], [zi]: the tests on the two
      parts). *)
  Definition set_cycle (a : list cvar) (b : list (vexpr t)) : list (prim t) := set_equal a (cycle b (length a)).
  Definition constants (zr zi : bool) : list (prim t) :=
    let comp := COMPRESSION t in
    let half := fmul (EXPANSION t) (mkf 1 (-1)) in
    if cx then
      if zr then
        if zi then set_cycle comp_vars (vset v comp) ++ set_cycle exp_vars (vset v half) ++ set_cycle mask_vars (vset v half)
        else set_cycle comp_vars (set_real_imag v comp one) ++ set_cycle exp_vars (set_real_imag v half one) ++
             set_cycle mask_vars (set_real_imag v half fzero)
      else set_cycle comp_vars (set_real_imag v one comp) ++ set_cycle exp_vars (set_real_imag v one half) ++
           set_cycle mask_vars (set_real_imag v fzero half)
    else set_cycle comp_vars (vset v comp) ++ set_cycle exp_vars (vset v half).

  (** Lines 176-188, depositM.py:15-44: the branch taken for increment z, and the increment the
      generator passes on. *)
  Definition branch_inc (z : Z) : incr := if z =? 1 then One else Var z.

  (** The context of a run of the body: the pointers have moved by [start] elements
      (dataTypes.py:43-44 data_increment); [cnt] is (n - i) in the partial run. *)
  Definition body_ctx (X incX Y incY acc : Z) (c : call) : ctx :=
    Ctx (fun p => match p with PX => X + start c * (incX * dsize cx) | PY => Y + start c * (incY * dsize cx) | PAcc => acc end)
        (cnt c).
  (** A run of the body is the partial one when it has fewer elements than it loads. *)
  Definition run_body (expanded zero : bool) (fold pipe unroll X incX Y incY acc : Z) (s : state t) (c : call) : state t :=
    runs (body_ctx X incX Y incY acc c)
      (body expanded zero fold pipe unroll (branch_inc incX) (branch_inc incY) (size c) (negb (cnt c =? size c))) s.

  (** Lines 110-258 write_fold, write_core: the code for one fold, run with arbitrary contents [e] of
      the local variables.  Result: memory and the distance by which the vector pointers moved.
      The words are propagated to the variables, the body runs for every part of the vector, the variables are
      consolidated. *)
  Definition word_vars (expanded : bool) (W j : Z) : list cvar := if expanded then s_vars W j else buffer_vars W j.
  Definition emitted (expanded : bool) (fold pipe unroll n X incX Y incY acc incacc : Z) (e : env t) (m : mem t) : mem t * Z :=
    let W := reg_width pipe in
    let c0 := Ctx (fun p => match p with PX => X | PY => Y | PAcc => acc end) n in
    let e := match k with KSSq scl => set_reg e RInv (eval c0 m e (hd (VReg RInv) (vset v (fdiv one scl)))) | _ => e end in
    let s := runs c0 [ForJ 0 fold (fun j => propagate_into v cx (word_vars expanded W j) PAcc j (Var incacc))] (e, m) in
    let zr := dmindex0 (m acc) in
    let zi := dmindex0 (m (acc + 1)) in
    let zero := if cx then zr || zi else zr in
    let s := if zero then execs c0 (constants zr zi) s else s in
    let '(cs, p) := run_unrolled (tsize v t cx) (pipe * unroll) n in
    let s := fold_left (run_body expanded zero fold pipe unroll X incX Y incY acc) cs s in
    let s := runs c0 [ForJ 0 fold (fun j => consolidate_into v cx j (Var incacc) (word_vars expanded W j))] s in
    (snd s, p).

  (** Lines 78-108 write_vec: [expand f] and [width f] are the tuning arguments for fold f (0: the default
      case); max_expand is config.py's max_expand_fold. *)
  Definition emitted_switch (max_expand : Z) (expand : Z -> bool) (width : Z -> Z * Z)
      (fold n X incX Y incY acc incacc : Z) (e : env t) (m : mem t) : mem t * Z :=
    if (2 <=? fold) && (fold <=? max_expand) && expand fold
    then emitted true fold (fst (width fold)) (snd (width fold)) n X incX Y incY acc incacc e m
    else emitted false fold (fst (width 0)) (snd (width 0)) n X incX Y incY acc incacc e m.
End Kernel.

(** ** The scans: amax.py:42-98, amaxm.py:20-52 *)
Section Scan.
  Context {t : ty}.
  Variable v : isa.
  Variable cx : bool.
  (** Two vectors (amaxm) or one (amax). *)
  Variable two : bool.

  (** amax.py:97-98, amaxm.py:32-33. *)
  Definition areg_width (unroll : Z) : Z := unroll * dsize cx / bsize v t * (if two then dsize cx else 1).
  Definition ax_vars (lw : Z) : list cvar := vars RX lw.
  Definition ay_vars (lw : Z) : list cvar := vars RY (if cx then lw / 2 else lw).
  (** amax.py:79-83, amaxm.py:35-50. *)
  Definition apreprocess (lw n : Z) (ix iy : incr) (part : bool) : list (prim t) :=
    let x := ax_vars lw in
    let y := ay_vars lw in
    let w := areg_width n in
    let loadx := if part then load_partial v cx PX 0 ix else load v cx PX 0 ix n in
    let loady := if part then load_partial v cx PY 0 iy else load v cx PY 0 iy n in
    if two then
      set_equal x loadx ++ set_equal y loady ++
      (if cx then
         set_equal (from (w / 2) (upto w x)) (vabs v (vmul (swap_pairwise v (rd x)) (rep_odds v (rd y)))) ++
         set_equal (upto (w / 2) x) (vabs v (vmul (rd x) (rep_evens v (rd y))))
       else set_equal x (vabs v (vmul (rd x) (rd (upto w y)))))
    else set_equal x (vabs v loadx).
  (** amax.py:85-86. *)
  Definition m_vars := vars RM (suf_width v cx).
  Definition aprocess (lw reg : Z) : list (prim t) :=
    let x := upto reg (ax_vars lw) in
    set_equal (cycle m_vars (length x)) (vmax (rd (cycle m_vars (length x))) (rd x)).
  (** amax.py:66-77. *)
  Definition abody (unroll : Z) (ix iy : incr) (n : Z) (part : bool) : list (prim t) :=
    let lw := areg_width unroll in
    let n := if part then tsize v t cx else n in
    apreprocess lw n ix iy part ++ aprocess lw (areg_width n).
  (** amax.py:42-64: the contiguous branch is taken when all increments are 1. *)
  Definition emitted_scan (unroll n X incX Y incY acc : Z) (e : env t) (m : mem t) : mem t :=
    let c0 := Ctx (fun p => match p with PX => X | PY => Y | PAcc => acc end) n in
    let all1 := (incX =? 1) && (negb two || (incY =? 1)) in
    let ix := if all1 then One else Var incX in
    let iy := if all1 then One else Var incY in
    let s := execs c0 (set_equal m_vars (repeat (vzero v) (length m_vars))) (e, m) in
    let '(cs, _) := run_unrolled (tsize v t cx) unroll n in
    let s := fold_left (fun s c => execs (body_ctx cx X incX Y incY acc c)
                                     (abody unroll ix iy (size c) (negb (cnt c =? size c))) s) cs s in
    snd (execs c0 (max_into v cx 0 One m_vars) s).
End Scan.
