(** * Vocabulary for the statements about the emitted code *)
From Coq Require Import ZArith Bool List.
From Verif Require Import Fp Binned Gen Params Emit EmitBlas.
Open Scope Z_scope.

(** Numbers (complex numbers if cx) in one 64 / 32 bit word, 128 bit or 256 bit register, at least one. *)
Definition numbers (v : isa) (t : ty) (cx : bool) : Z :=
  match v, t, cx with
  | SISD, _, _ => 1
  | SSE, Dbl, false => 2 | SSE, Dbl, true => 1 | SSE, Flt, false => 4 | SSE, Flt, true => 2
  | AVX, Dbl, false => 4 | AVX, Dbl, true => 2 | AVX, Flt, false => 8 | AVX, Flt, true => 4
  end.
(** Arguments the generator accepts: block size in 1..ENDURANCE, the scan unrolled by whole registers, the pipe
    widths powers of two holding whole registers, the unroll widths at least 1. *)
Definition legal_build (t : ty) (cx : bool) (b : build) : Prop :=
  1 <= b_block b <= ENDURANCE t /\
  (0 < b_scan b /\ (numbers (b_isa b) t cx | b_scan b)) /\
  forall f, (exists a, 0 <= a /\ fst (b_width b f) = 2 ^ a) /\ numbers (b_isa b) t cx <= fst (b_width b f) /\ 1 <= snd (b_width b f).
(** The build made from an argument file with arbitrary values: vectorizations.py:822-834,
    blockSize.py, amax.py:25-34, deposit.py:54-68,85-95 with generate.py's parsers. *)
Definition file_build (t : ty) (cx : bool) (v : isa) (block scan max : Z) (expand : Z -> bool) (pipe unroll : Z -> Z) : build :=
  Build v (read_block (ENDURANCE t) block) (a_unroll (read_avec (tsize v t cx) scan)) max expand
    (fun f => let d := read_vec (vector v) (tsize v t cx) (pipe f) (unroll f) in (pipe_width d, unroll_width d)).
(** Compile-time choice of the code, vectorizations.py:822-834: __AVX__, reproBLAS_no__AVX__, __SSE2__, reproBLAS_no__SSE2__. *)
Definition compiled_isa (avx no_avx sse no_sse : bool) : isa :=
  if avx && negb no_avx then AVX else if sse && negb no_sse then SSE else SISD.
