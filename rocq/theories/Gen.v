(** * Model of the Python code generator: /repo/src/gen and the vector kernels it writes

    The generator writes unrolled C loops.  The model keeps the emitted statements
    ([stmt]) and runs them; a run is the list of calls of the loop body. *)
From Coq Require Import ZArith List Bool.
Import ListNotations.
Open Scope Z_scope.

(** lo, lo+1, ..., lo+n-1. *)
Definition zseq (lo n : Z) : list Z := map (fun k => lo + Z.of_nat k) (seq 0 (Z.to_nat n)).

(** ** gen/vectorizations.py:90-118 iterate_unrolled *)

(** Statements written by the generator, for a body handling [width] elements. *)
Inductive stmt :=
| ForLoop (step width : Z)  (** for(i = 0; i + step <= n; i += step, p += step) body(width) *)
| IfFull (width : Z)        (** if(i + width <= n) { body(width); i += width, p += width; } *)
| IfPartial.                (** if(i < n) { body("(n - i)"); p += (n - i); } *)

(** Lines 114-117: the next unrolling depth.  [math.log(unroll, 2) % 1 != 0] is
    modelled exactly (the depths are at most 512, where the float logarithm of a power of
    two is an integer). *)
Definition next_unroll (u : Z) : Z :=
  if 2 ^ Z.log2 u =? u then u / 2 else 2 ^ Z.log2 u.
(** Lines 93,101-118, for all but the first turn of the [while] ([min_unroll] is 1 in
    every use). *)
Fixpoint gen_rest (fuel : nat) (type_size unroll : Z) : list stmt :=
  match fuel with
  | O => []
  | S fuel' =>
      if unroll <? 1 then []
      else if unroll <? type_size then [IfPartial]
      else IfFull unroll :: gen_rest fuel' type_size (next_unroll unroll)
  end.
(** Lines 91-100: the first turn writes the main loop. *)
Definition iterate_unrolled (type_size max_unroll : Z) : list stmt :=
  let unroll := max_unroll / Z.max type_size 1 * Z.max type_size 1 in
  if unroll <? 1 then []
  else ForLoop max_unroll unroll :: gen_rest (Z.to_nat unroll) type_size (next_unroll unroll).

(** One run of the body: first element (position of the source pointers, in
    elements), number of elements loaded, number of them that exist ([cnt] < [size]
    only for the partial load, which fills the others with zero:
    vectorizations.py:463-475, 726-740). *)
Record call := Call { start : Z; size : Z; cnt : Z }.

(** Execution of the statements; [i] is the C counter, [p] the pointer position.
    Result: the calls and the final pointer position. *)
Fixpoint run_for (fuel : nat) (step w n i p : Z) : list call * Z * Z :=
  match fuel with
  | O => ([], i, p)
  | S fuel' =>
      if i + step <=? n then
        let '(cs, i', p') := run_for fuel' step w n (i + step) (p + step) in
        (Call p w w :: cs, i', p')
      else ([], i, p)
  end.
Fixpoint run_stmts (ss : list stmt) (type_size n i p : Z) : list call * Z :=
  match ss with
  | [] => ([], p)
  | ForLoop step w :: ss =>
      let '(cs, i, p) := run_for (Z.to_nat n) step w n 0 p in
      let '(cs', p) := run_stmts ss type_size n i p in (cs ++ cs', p)
  | IfFull w :: ss =>
      if i + w <=? n then
        let '(cs, p') := run_stmts ss type_size n (i + w) (p + w) in (Call p w w :: cs, p')
      else run_stmts ss type_size n i p
  | IfPartial :: ss =>
      if i <? n then
        let '(cs, p') := run_stmts ss type_size n i (p + (n - i)) in
        (Call p type_size (n - i) :: cs, p')
      else run_stmts ss type_size n i p
  end.
Definition run_unrolled (type_size max_unroll n : Z) : list call * Z :=
  run_stmts (iterate_unrolled type_size max_unroll) type_size n 0 0.

(** ** Element order of the kernels *)

(** binned/deposit.py:190-212 (body), 267-326 (process): a call handles
    [max (size // max_pipe_width) 1] groups of [min size max_pipe_width] elements; the
    k-th element of a group goes to lane k.  [None] is a padding zero.  (Within a group
    the C code interleaves the lanes, which use distinct variables; the model runs them
    one after the other.) *)
Definition deposit_events (pipe : Z) (c : call) : list (Z * option Z) :=
  let reg := Z.min (size c) pipe in
  flat_map (fun g => map (fun l =>
      (l, if g * reg + l <? cnt c then Some (start c + g * reg + l) else None)) (zseq 0 reg))
    (zseq 0 (Z.max (size c / pipe) 1)).
(** binnedBLAS/amax.py:66-87: element k of a call is compared with lane k mod lanes. *)
Definition amax_events (lanes : Z) (c : call) : list (Z * option Z) :=
  map (fun l => (l mod lanes, if l <? cnt c then Some (start c + l) else None)) (zseq 0 (size c)).

(** Tuning of one deposit kernel: vector instructions or plain C, vector width in
    elements (0 for SISD complex, as in vectorizations.py:136), pipe and unroll widths. *)
Record vec := Vec { simd : bool; type_size : Z; pipe_width : Z; unroll_width : Z }.
(** Events of a deposit kernel on n elements and the distance the pointers move
    (deposit.py:241,245,253,257). *)
Definition kernel_events (v : vec) (n : Z) : list (Z * option Z) * Z :=
  let '(cs, p) := run_unrolled (type_size v) (pipe_width v * unroll_width v) n in
  (flat_map (deposit_events (pipe_width v)) cs, p).
(** Tuning of the amax scan. *)
Record avec := AVec { a_type_size : Z; a_unroll : Z }.
Definition scan_events (v : avec) (n : Z) : list (Z * option Z) :=
  let '(cs, _) := run_unrolled (a_type_size v) (a_unroll v) n in
  flat_map (amax_events (Z.max (a_type_size v) 1)) cs.

(** ** gen/generate.py:39-143: tuning parameters *)

(** Python's [round] on value/float(step): nearest integer, ties to even.  The float
    quotient is modelled exactly. *)
Definition py_round_div (a b : Z) : Z :=
  let q := a / b in
  let r := a mod b in
  if 2 * r <? b then q
  else if b <? 2 * r then q + 1
  else if Z.even q then q else q + 1.
Definition bit_length (v : Z) : Z := if v =? 0 then 0 else Z.log2 (Z.abs v) + 1.
(** Lines 99-104,130-135. *)
Definition clamp (minimum maximum v : Z) : Z :=
  let v := if v <? minimum then minimum else v in
  if maximum <? v then maximum else v.
(** IntegerParameter.parse_value, lines 94-105. *)
Definition int_parse (minimum maximum step v : Z) : Z :=
  let v := if v mod step =? 0 then v else py_round_div v step * step in
  clamp minimum maximum v.
(** PowerOfTwoParameter.parse_value, lines 125-136 ([2**(bit_length-1)] of 0 is 0.5 in
    Python, never equal to an integer). *)
Definition pow_parse (minimum maximum v : Z) : Z :=
  let v := if (negb (v =? 0)) && (v =? 2 ^ (bit_length v - 1)) then v else 2 ^ bit_length v in
  clamp minimum maximum v.
