# Formal model of ReproBLAS in Rocq (Coq 8.16.1)

## What is modelled

The unit of modelling is the C function.  The precision is a parameter `t : ty`
(`Dbl` | `Flt`), so one Gallina definition models a `d..` function and its `s..`
twin (the two source files are textually identical up to constants; where they
differ, e.g. `ddmconv` / `ssmconv`, both are modelled).

| layer | Coq file | models |
|---|---|---|
| floats | `Fp.v` | C `double`/`float`: Flocq `BinarySingleNaN.binary_float`, round-to-nearest-even arithmetic, bit patterns (`union long_double`), `EXP`, `ISNANINF`, `ldexp`, comparisons |
| memory | `Mem.v` | a flat memory `Z -> F t` of cells, C `for` loops |
| core | `Binned.v` | `src/binned/*.c` (every function that computes; printing is in `Print.v`; malloc wrappers excluded) |
| spec | `Spec.v`, `Client.v`, `BlasSpec.v`, `GemvSpec.v`, `MpiSpec.v`, `SsqSpec.v` | vocabulary of the statements: integer-only specification (slices, bin sums, canonical words), client programs (lists of adds, trees, histories), vector pieces, matrix addresses and products |
| proofs (core) | `FpProofs` `BitProofs` `CoreArith` `SpecProofs` `WordProofs` `MemProofs` `AccProofs` `SumProofs` `History` `ConvProofs` `ClientProofs` `StrideProofs` `ComplexProofs` | lemmas only |
| statements | `PropsSum` `PropsAcc` `PropsMem` `PropsComplex` `PropsGen` `PropsBlas` `PropsGemv` `PropsMpi` `PropsSsq` `PropsMaddsq` `PropsScale` `PropsBounds` `PropsConv` `PropsBound` `PropsBlasZ` `PropsGemvZ` `PropsGemmZ` `PropsBlasDZ` `PropsRescaleZ` `PropsRegistry` `PropsApi` `PropsDefault` `PropsAccuracy` `PropsNrm` `PropsExamples` `PropsThreads` `PropsEmit` `PropsSafe` `PropsEmitGemv` `PropsCluster` | the theorems listed in MANIFEST.json, each followed by `Print Assumptions`, and `Cxx_case` examples meeting their hypotheses |
| examples | `Examples.v` | `examples/sum_sine.c`, `examples/MPI_sum_sine.c`: shuffle, distribution, binned sums (not: the plain and double-double sums, timing, printing) |
| generator | `Gen.v`, `Params.v` (+ `GenProofs`, `ParamsProofs`) | `src/gen`: vectorised loop generation (addresses, masks, lanes) and tuned parameters |
| emitted code | `Emit.v` (+ `EmitBits` `EmitExec` `EmitLevels` `EmitGroup` `EmitLoad` `EmitPrep` `EmitRun` `EmitStore` `EmitKernel` `EmitScan`), `EmitBlas.v` `EmitGemv.v` (+ `EmitDriver`; vocabulary `EmitSpec`), `EmitAccess.v` (+ `EmitSafe`: cells and variables touched) | the instructions written by `src/gen/vectorizations.py`, `src/binned/deposit.py`, `src/binnedBLAS/deposit*.py`, `amax.py`, `amaxm.py` for SISD, SSE and AVX as a syntax of C statements and intrinsics with a semantics on registers of lanes; the reductions calling that code |
| BLAS 1 | `Blas.v` (+ `LaneProofs`, `ReduceProofs`, `DriverProofs`) | `src/binnedBLAS/dmdsum dmdasum dmddot damax damaxm` (block loop, scan, lanes, special values), `dbd*` wrappers, `reproBLAS/rdsum rdasum rddot` and float twins |
| BLAS 1, complex | `BlasZ.v` (+ `ZEvents`, `ZKernel`, `ZDriver`, `ZLoop`; vocabulary `BlasZSpec`) | `zmzsum zmzdotc zmzdotu`, `zamax zamaxm`, `zbz*` wrappers, `reproBLAS/rzsum rzdotc rzdotu` and float twins |
| sums of squares | `Ssq.v` (+ `ScaleProofs`, `RescaleProofs`, `SsqProofs`, `MaddsqProofs`) | `dmdssq`, `dbdssq`, `rdnrm2` and float twins |
| complex norms | `BlasDZ.v` (+ `RescaleZ`, `DZLoop`, `DZAsum`, `DZSsq`; vocabulary `BlasDZSpec`) | `dmzasum`, `dmzssq`, `dbzasum`, `dbzssq`, `rdzasum`, `rdznrm2` and float twins |
| BLAS 2, 3 | `Gemv.v` (+ `GemvProofs`) | `dbdgemv`, `dbdgemm`, `rdgemv`, `rdgemm` and float twins |
| BLAS 2, 3, complex | `GemvZ.v` (+ `GemvZProofs`; vocabulary `GemvZSpec`) | `zbzgemv`, `zbzgemm`, `rzgemv`, `rzgemm` and float twins, all storage orders and flags |
| conversion error | (lemmas) `SumError` `ConvTerms` `ConvFloat` `ConvSpec` `RoundTrip` `BoundProofs` | rounding error analysis of `ddmconv`/`ssmconv`, of the round trip, and of `dbbound`/`sbbound` |
| MPI | `Mpi.v`, `Registry.v` | `src/binnedMPI` reduction operators; the functions handing out datatypes and operators (static tables, failing MPI calls) |
| default API | `Defaults.v` | the wrappers of `src/reproBLAS` without a fold argument |
| accuracy | `AccReal.v` (lemmas and vocabulary) | error of a sum in real arithmetic |

## Specification style

All finite floats are integer multiples of 2^emin.  `Spec.v` defines, purely on
`Z`, the *slice* of a number X in absolute bin j (round half away from zero of
the remainder left by the earlier bins), the bin sums of a multiset, the index of
a multiset (minimum), and the canonical pair of words (primary, carry) of
position i.  The central theorems say that the memory left by any history of
library calls is exactly the canonical one for the multiset of inputs; order,
tree, block, lane, stride and split independence are corollaries.

## Proof plan per property

* C01-C04, C06-C08: refinement of `dmdupdate`, `dmddeposit`, `dmrenorm`,
  `dmdmadd` to the integer spec; loop invariants pointwise over memory; float
  steps by Flocq's `Bplus_correct` and exactness lemmas.
* C05: integer inequality on remainders, by induction on bins.
* C09, C10: evaluation of bit patterns in terms of `mag`.
* C11, C12: abstract value extended with +Inf, -Inf, NaN; conversion is a
  function of the canonical words.
* C13, C14: corollaries + negate refinement.
* C15-C17: frame conditions are part of every refinement lemma, with arbitrary
  strides; complex = stride 2.
* C18-C22: block loop and lane kernels refine repeated deposits.
* C23-C25, C40, C47: index arithmetic of the blocked loops: multiset of products
  deposited into each output.
* C26, C41: induction on the sequence of operator calls a reduction makes over memory.
* C27-C31, C34, C40, C47: believed FALSE of the code as written; stated and refuted by a
  concrete execution of the model (`_refuted`), with the true restricted
  statement proved next to it where there is one.
* C32, C33, C35, C37-C39: direct.
* C36: `ddmconv` adds words whose partial sums are all representable when the input is one float.
* C44: the terms added by `ddmconv` decrease geometrically (bins are W bits apart), so the
  rounding error of the sum is dominated by its first terms; the scaled prefix never overflows.
* C45: the truncation error (C05) and the conversion error (C44), each against the floating-point
  evaluation of the corresponding half of the bound.
* C46, C29: every stage of the complex block loop acts on each part as a real stage does; both parts
  are carried through the loop with a frame (`ZLoop.both`).
* C42: the scale 2^(W z) divides exactly, squares of scaled elements shift by whole
  bins when the scale changes (slices of the rounded squares commute with the shift as
  long as the last bin is above the underflow range), block loop invariant.
* C48-C50: the temporary complex accumulator of `dmzasum`/`dmzssq` and the result are carried through the
  block loop together (finite / infinite / NaN states); at the end each part is merged as in C07, C43.
* C51: the early exit of `zmdrescale` tests the wrong cell; believed FALSE, refuted, and compared with
  the real routine where no word becomes zero.
* C43: the rescaled operand is the accumulator of the data scaled by the larger scale;
  then the ordinary merge.  Induction on the merge tree.

* C52: invariant of the static tables over the history of requests; MPI is a list of creations, any call may fail.
* C53: the wrappers call the modelled routines with fold 3; corollaries of C20-C25, C42, C46-C49.
* C54: both sides are conversions of the accumulator of the same multiset of terms.
* C56: the scaled sum of squares (C42/C43) is within the truncation error of (norm/scale)^2, then conversion, square root and rescaling, each rounding bounded in `R`.
* C58: a call depends on and changes only the accumulators it names (C15); induction over the schedule, projecting on one thread.  Granularity: one library call is one step.
* C57: `Examples.v` models both programs; loop invariants on accumulators plus C20, C26; the shuffle is shown to be a permutation by a loop invariant.
* C55: the truncation error (C05), the conversion error (C44) and the rounding of each product, added up in `R`.
* C59, C60: `Emit.v` transcribes the generator's methods; each returns the list of C statements (assignments of intrinsics to variables, stores) it writes. The statements are executed lane by lane. Proof: loads, preprocessing, the deposit of one group of registers and the consolidation each refine the event model (`Blas.kernel`, `BlasZ.zkernel`, `scan`, `zscan`); induction over the calls of the unrolled loop.
* C61: the loops of the reductions with the emitted code equal the modelled reductions; C20, C21, C29, C42, C46, C48, C49 then apply.
* C62: `EmitAccess.v` lists the cells each emitted statement loads and stores and the variables it names, and the declarations the generator writes; the run is a sequence of such statements, and every statement of every body satisfies the bounds (structural, then the coverage of the unrolled loop).
* C63, C64: `EmitGemv.v` has the loops of `Gemv.v`, `GemvZ.v` with the dot product as a parameter; with the modelled one they are those loops (by computation), with the emitted one equal to them (extensionality, C61); then C25, C40, C47.
* C65: each local accumulator is normalised with its data (C61, C20), then C26.
* C66: `Print.v` models the values handed to printf. The words are canonical, UFP is a power of two, every
  operation of a line is exact except the last addition; outside the range of float UFP gives 0 or infinity.
* C67: merging r into itself is shown equal, word for word, to merging a copy kept in spare cells (`self_sim`), then
  the merge theorem applies; the vector versions are loops over C03's merge lemma with a frame.
* C68: `Flush.v` is the deposit over a record of operations; `flushing` allows every operation to read denormal operands
  as zero and to deliver zero for results up to the smallest normal number. Simulation word by word: what is left of X is
  the same in both runs or tiny in both, and a tiny rest has slice 0 in every bin of the accumulator.
* C69, C70: slices are odd (`slice_opp`), hence slice sums; the value of an accumulator is the sum of its slice sums times
  their units (`value_sums`); C69 then follows from the accuracy of the conversion (value 0 gives exactly 0), C70 from the
  list of rounded additions the conversion performs (`conv_real`), exact when the value is small. Witness by computation.
* C71: `slice_shift` (slices of X * 2^(width*s) are those of X, s bins earlier), then the terms of the conversion scale
  (`terms_shift`) and rounding commutes with scaling up multiples of 2^emin (`RN_up`).
* C72: arithmetic on the capacity; the loops do nothing when N <= 0.
* C73: every term and partial sum of the conversion is a multiple of a power of two and small enough to be exact,
  because nothing is left below the last bin (Exact.v); integer products are exact, so gemv/gemm follow from C25.
* C74: the words of an accumulator are a function of the leading bin and the slice sums, neither of which sees a zero;
  one computation over all folds shows that the accumulator of a single zero converts to +0.
* C75: the bins of an accumulator hold exactly the data minus what is left below the last bin; rounding to nearest keeps
  that nonnegative for nonnegative data and positive for the leading element; C45/C56's relative errors are below one.
* C76: Ints.v lists every int expression the loops evaluate (data-dependent branches are parameters); PropsIdx.v bounds
  each list by induction over the loops.
* C77: multiplication commutes bit for bit, so the lists of products are equal (or permuted, or negated); C21, C25 and C29
  reduce the routines to these lists.
* C78: Tuner.v models the tuner's effect on the argument file as a history of written files; invariant: every parameter
  present and a fixed point of its parser; C20 then gives equal sums for any two builds.
* C79: by induction over blocks and deposits with the invariant rep (pending deposits counted) of SumProofs for each part;
  the words are determined by the data and the bin of the largest bound (holds_same).
* C80: the specification of an accumulator's words mentions the fold only as the number of bins (holds_smaller); conversion,
  copy and merge are proved for separate primary and carry vectors (ConvProofs, MemProofs, SumProofs).
* C81: both sides hold the same multiset of products (gemm_holds, gemv_holds of PropsGemv.v, composed).
* C82: histories are an inductive relation `steps` over states (memory, place, count, copy); invariant: accumulator and copy hold the counted prefixes (PropsCrash.v).
* C83: both results are conversions of the same multiset of products (C25), a permutation of the inner index permutes the products (PropsShuffle.v).
* C84: each part holds its products (gemm_holds), the reduction holds their union (reduce_holds of PropsMpi.v), a permutation of the whole product's (PropsDist.v).
* C85: both calls convert an accumulator of the same multiset of products; for x with itself the imaginary terms cancel in pairs, so every slice sum is 0 (PropsZReal.v).
* C86: each part is the conversion of a sequential sum of integers (C46, C29), exact by C73 (PropsZReal.v).
* C87: as C81 with the complex invariants of C40 and C47 (zgemv_holds, zgemm_holds) and zbzbadd's merge (C17) (PropsSplitZ.v).
* C88: the multiset of terms of an entry is invariant under the reindexing; values by C40/C47 (sum_value) (PropsShuffleZ.v).
* C89: each process's entry holds the terms of its part (C47); the MPI reduction is C41_float; the terms of all parts are a
  permutation of those of the whole (PropsDistZ.v).
* C90: each part is the conversion of the sum of its list (C46, C29, C48); the error of such a list is C55's argument on a list of
  pairs (PropsAccuracyZ.v).
* C91: the scaled state of C42 depends on its list only through magnitudes (largest element; squares of quotients); C49 reduces
  complex norms to real ones; a turned element has the same two magnitudes and squares (PropsMag.v).
* C92: an entry's terms (C47, C40) with alpha = 1 are the list of C29's inner product, up to the order of the imaginary terms; C90's
  error lemma and C86's integer lemma apply to the same list (PropsZMat.v).
* C93: an entry is the sum of its products and the started accumulator (C25, C40, C47), a list of rounded products of pairs; C90's error
  lemma applies, and the standard rounding model bounds the effect of scaling by alpha first (PropsUpdate.v).
* C94: the standard model of rounding for the four products and two sums of a complex multiplication, summed over an entry, on top of
  C93 (PropsUpdateZ.v).
* C95: a rounded product of scaled operands is the scaled rounded product when it does not underflow (Flocq's rounding to a fixed
  exponent range), then C71's shift of bins on the results of C18/C24 (PropsScaleMat.v).
* C96: C95's scaling of rounded products on the four products of each complex multiplication and the two real sums of C29 and C92
  (PropsScaleMatZ.v).
* C97: dscale of the scaled maximum is the scaled dscale, so the scaled squares are the same floats and C42 gives the same accumulator;
  then the last multiplication by a power of two (PropsScaleNrm.v).
* C98: each of the three is the conversion of a sum of known terms (C46, C48, rdasum's value), and conversion of scaled terms is C95's
  lemma (PropsScaleSum.v).
* C99: C71, C95, C97 and C98 at the default fold, with the literal sizes 6 and 12 of the automatic accumulators (PropsScaleDef.v).

## Trusted base

* Coq 8.16.1 kernel (and its `vm_compute`), Flocq 4.1.0 and the standard library.
* Axioms: only those of the standard library's real numbers as used by Flocq
  (`ClassicalDedekindReals.sig_forall_dec`, `sig_not_dec`,
  `FunctionalExtensionality.functional_extensionality_dep`, `Classical_Prop.classic`);
  `Print Assumptions` after every theorem in `Props*.v` shows exactly which.
* Modelling assumptions: IEEE-754 binary64/binary32 arithmetic with
  round-to-nearest-even and no extended intermediate precision, FMA
  contraction, flush-to-zero or reassociation by the compiler; one NaN (payload
  and sign of NaN are not observed); C `int` is unbounded `Z`
  (C76 bounds the values in the drivers and real matrix products); memory cells hold
  one real each and pointers are integers; `malloc` never fails.
* Not modelled: decimal formatting (%g), timing/benchmark/test code, MPI runtime, OpenTuner itself,
  the text level of the code generator (names, indentation, declarations of variables).
* Semantics of the SSE2/AVX intrinsics used (`add`, `sub`, `mul`, `max`, `and`, `or`, `xor`, `set`, `set1`, `loadu`,
  `load1`, `broadcast`, `shuffle`, `permute`) as written in `Emit.eval`: trusted to be Intel's; bit operations act on the
  bit pattern of a lane with one NaN.  A variable assigned in `emitted` keeps its value until assigned again
  (no aliasing between the arrays that hold registers and the memory of the vectors and accumulators).
