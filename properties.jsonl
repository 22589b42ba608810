{"id": "C01", "title": "Sequential binned summation is order independent, bit for bit", "statement": "Starting from a zeroed binned accumulator of fold K, adding finite numbers one at a time with binned_dbdadd / binned_sbsadd leaves exactly the same K primary and K carry words whatever order the numbers are added in.", "quantifier": "every fold 2..MAXFOLD, every list of finite doubles/floats (incl. zeros, subnormals, values of top index) no longer than the documented capacity, every permutation of it", "why_tests_cant": "there are 2^64 values per summand and N! orders; a test samples a handful of both", "anchors": ["src/binned/dmdadd.c:binned_dmdadd", "src/binned/dmdupdate.c:binned_dmdupdate", "src/binned/dmddeposit.c:binned_dmddeposit", "src/binned/dmrenorm.c:binned_dmrenorm", "src/binned/dbdadd.c:binned_dbdadd", "src/binned/smsadd.c:binned_smsadd"]}
{"id": "C02", "title": "Reduction-tree independence of binned merging", "statement": "If data are split arbitrarily into parts, each part is accumulated by any mix of binned_dbdadd and binned_dbdbadd, and the partial accumulators are merged with binned_dbdbadd in any tree shape and operand order, the final accumulator holds exactly the same words; in particular it equals the sequential one.", "quantifier": "every binary reduction tree over every multiset of finite inputs within capacity, every fold 2..MAXFOLD", "why_tests_cant": "the number of trees and splits is exponential and depends on run-time process counts", "anchors": ["src/binned/dmdmadd.c:binned_dmdmadd", "src/binned/dbdbadd.c:binned_dbdbadd", "src/binned/smsmadd.c:binned_smsmadd"]}
{"id": "C03", "title": "Binned merge is commutative and associative on accumulators", "statement": "For accumulators produced by the library from finite data, X+Y and Y+X leave the same words in the destination, and (X+Y)+Z equals X+(Y+Z).", "quantifier": "all triples of reachable finite accumulators of equal fold within capacity", "why_tests_cant": "space of accumulator pairs is astronomically large; ordinary floating point addition is not associative so sampling gives no assurance", "anchors": ["src/binned/dmdmadd.c:binned_dmdmadd"]}
{"id": "C04", "title": "Value of the accumulator: every slice is kept", "statement": "After summing finite data the word pair in position i represents exactly the sum over the inputs of the integer slice of each input falling into the absolute bin (index + i): no slice is lost, rounded or misplaced.", "quantifier": "all finite inputs, all folds, all positions", "why_tests_cant": "an exact statement about every rounding in the deposit loop; a test can only spot check", "anchors": ["src/binned/dmddeposit.c:binned_dmddeposit", "src/binned/dmdupdate.c:binned_dmdupdate"]}
{"id": "C05", "title": "Accuracy of the accumulator (truncation error bound)", "statement": "The exact value represented by the accumulator differs from the exact sum of the N inputs by at most N times half a unit of its last bin, i.e. it never loses more than the bits below the K bins starting at the index of the largest input.", "quantifier": "all finite input lists within capacity, all folds 2..MAXFOLD", "why_tests_cant": "worst case bound over all inputs", "anchors": ["src/binned/dmddeposit.c:binned_dmddeposit", "src/binned/dbbound.c:binned_dbbound"]}
{"id": "C06", "title": "Deposit endurance", "statement": "After a renormalisation and an update to an index not exceeding that of any deposited value, any sequence of at most ENDURANCE (2^11 double, 2^9 float) deposits without renormalisation, followed by one renormalisation, gives the same words as renormalising after every deposit.", "quantifier": "all sequences of at most ENDURANCE finite deposits, from every reachable accumulator state", "why_tests_cant": "failure needs an adversarial run of extreme slices; a random test stays near the centre of the bin", "anchors": ["src/binned/dmddeposit.c:binned_dmddeposit", "src/binned/dmrenorm.c:binned_dmrenorm", "include/binned.h:binned_DBENDURANCE"]}
{"id": "C07", "title": "Renormalisation is value preserving, canonical and idempotent", "statement": "binned_dbrenorm does not change the value represented, leaves every primary in [1.5,1.75) units of its bin, and a second call changes nothing. Two normalised accumulators with equal index and equal value in each bin have equal words.", "quantifier": "all accumulator states whose primaries lie in the binade of their bin and whose carries are within capacity", "why_tests_cant": "bit manipulation on 2^52 mantissas per bin", "anchors": ["src/binned/dmrenorm.c:binned_dmrenorm", "src/binned/smrenorm.c:binned_smrenorm"]}
{"id": "C08", "title": "Update makes room without changing the kept bins", "statement": "binned_dbdupdate(X) raises the accumulator to at least the index of X by shifting bins towards the end, filling the new leading positions with empty bins; contents of every retained bin are unchanged, an update with a smaller X is a no-op, update is idempotent, and on a zero accumulator it installs K empty bins.", "quantifier": "all accumulators, all X finite", "why_tests_cant": "in-place shift loops over arbitrary shift distances and folds", "anchors": ["src/binned/dmdupdate.c:binned_dmdupdate"]}
{"id": "C09", "title": "Index functions agree and classify magnitudes", "statement": "binned_dindex(X)=j for finite X exactly when |X| lies in bin j, i.e. j=min(floor((emax-e)/W),MAXINDEX) with 2^(e-1)<=|X|<2^e (zero has MAXINDEX); it is antitone in |X|, always within 0..MAXINDEX, and binned_dmindex of a fresh or normalised accumulator created for index j is j.", "quantifier": "all 2^64 / 2^32 finite values", "why_tests_cant": "exhaustive over doubles impossible", "anchors": ["src/binned/dindex.c:binned_dindex", "src/binned/sindex.c:binned_sindex", "src/binned/dmindex.c:binned_dmindex", "src/binned/dmbins.c:binned_dmbins"]}
{"id": "C10", "title": "Bin table", "statement": "The table returned by binned_dmbins contains at absolute position j the value 1.5*2^(emax+p-W-jW) for 1<=j<=MAXINDEX, 1.5*2^(emax-1) at 0, and repeats the last bin up to MAXINDEX+MAXFOLD-1, so every (index,fold) pair the library can form stays inside the table.", "quantifier": "all indices 0..MAXINDEX, folds 1..MAXFOLD", "why_tests_cant": "finite but checked only implicitly by tests; combined with index range of every input it is universally quantified", "anchors": ["src/binned/dmbins.c:binned_dmbins", "src/binned/smbins.c:binned_smbins"]}
{"id": "C11", "title": "Infinities and NaN propagate reproducibly through scalar adds", "statement": "When the data contain Inf or NaN, the result of converting the accumulator after any order of binned_dbdadd (and any merge tree) is: NaN if some input is NaN or both +Inf and -Inf occur, otherwise the infinity that occurs.", "quantifier": "all input lists containing at least one non finite value, all orders and merge trees", "why_tests_cant": "depends on interplay of special values at every position of every order", "anchors": ["src/binned/dmddeposit.c:binned_dmddeposit", "src/binned/dmdmadd.c:binned_dmdmadd", "src/binned/ddmconv.c:binned_ddmconv"]}
{"id": "C12", "title": "Converting back is a function of the represented data only", "statement": "binned_ddbconv of any two accumulators built from the same multiset of inputs (any order, any tree, any non-finite values included) return the same double.", "quantifier": "all input multisets within capacity and all construction histories", "why_tests_cant": "history-quantified", "anchors": ["src/binned/ddmconv.c:binned_ddmconv", "src/binned/ssmconv.c:binned_ssmconv"]}
{"id": "C13", "title": "Zero accumulators and zero summands are neutral", "statement": "Merging a zeroed accumulator into Y or Y into a zeroed accumulator gives Y; adding 0.0 or -0.0 to a nonzero accumulator changes nothing; converting a zero accumulator, or one that only received zeros, gives 0.", "quantifier": "all accumulators, both signed zeros", "why_tests_cant": "quantified over all states", "anchors": ["src/binned/dmdmadd.c:binned_dmdmadd", "src/binned/dmdadd.c:binned_dmdadd", "src/binned/ddmconv.c:binned_ddmconv"]}
{"id": "C14", "title": "Set, zero and negate", "statement": "binned_dbdbset copies an accumulator exactly; dbsetzero gives the neutral accumulator; dbnegate negates the represented value of every bin, and adding X then its negation gives the value zero in every bin.", "quantifier": "all reachable accumulators", "why_tests_cant": "state quantified", "anchors": ["src/binned/dmdmset.c:binned_dmdmset", "src/binned/dmsetzero.c:binned_dmsetzero", "src/binned/dmnegate.c:binned_dmnegate"]}
{"id": "C15", "title": "Strided (manually specified) accumulators behave like contiguous ones and touch nothing else", "statement": "Every dm/sm routine, given primary and carry vectors with arbitrary non-overlapping strides, computes in those cells exactly what it would compute on a contiguous accumulator and writes no other memory cell.", "quantifier": "all base addresses and strides such that the 2K cells are distinct, all memories", "why_tests_cant": "address arithmetic over unbounded strides and aliasing layouts", "anchors": ["src/binned/dmdupdate.c:binned_dmdupdate", "src/binned/dmddeposit.c:binned_dmddeposit", "src/binned/dmrenorm.c:binned_dmrenorm", "src/binned/dmdmadd.c:binned_dmdmadd"]}
{"id": "C16", "title": "Complex accumulators are two independent real accumulators", "statement": "zmzadd / zmzmadd / zmrenorm / zmnegate / zmzupdate / zmzdeposit act on the real and imaginary parts exactly as the real routine would act on each part, including when only one part is at index 0 or is not finite.", "quantifier": "all complex inputs and accumulators, all strides", "why_tests_cant": "the two-lane deposit has its own loop and guard conditions; needs all combinations of special states", "anchors": ["src/binned/zmzdeposit.c:binned_zmzdeposit", "src/binned/zmzadd.c:binned_zmzadd", "src/binned/zmzmadd.c:binned_zmzmadd", "src/binned/zmrenorm.c:binned_zmrenorm"]}
{"id": "C17", "title": "Reproducible complex summation", "statement": "Complex binned sums (zbzadd, zbzbadd) are bitwise order and tree independent for finite data.", "quantifier": "all permutations/trees of all finite complex inputs within capacity", "why_tests_cant": "as C01", "anchors": ["src/binned/zmzadd.c:binned_zmzadd", "src/binned/zmzmadd.c:binned_zmzmadd"]}
{"id": "C18", "title": "Vector sum equals scalar accumulation, for every block size and stride", "statement": "binnedBLAS_dbdsum / sbssum over N finite elements leaves the same words as adding the elements one at a time with dbdadd, whatever the tuned block size (1..ENDURANCE), stride and initial accumulator.", "quantifier": "all N, finite data, incX, block sizes up to the endurance, initial accumulators, folds 2..MAXFOLD", "why_tests_cant": "block size is a tuning parameter changed per machine", "anchors": ["src/binnedBLAS/dmdsum.ccog:binnedBLAS_dmdsum", "src/binnedBLAS/smssum.ccog:binnedBLAS_smssum", "src/binned/deposit.py:Deposit"]}
{"id": "C19", "title": "SIMD lane-count independence of the deposit kernel", "statement": "Splitting a block of deposits over any number of vector lanes (each lane starting from the primary, lanes recombined by subtracting the primary from all lanes but the first and adding) gives the same primaries as a sequential deposit.", "quantifier": "all lane counts, all unrollings, all assignments of elements to lanes, all zero paddings, all finite data of at most ENDURANCE elements", "why_tests_cant": "machine dependent code path: tests only execute the build host's vector ISA", "anchors": ["src/binned/deposit.py:Deposit", "src/gen/vectorizations.py"]}
{"id": "C20", "title": "Reproducible summation API is order independent", "statement": "reproBLAS_rdsum / dsum (and float) return the same number for every permutation of finite data, for every block size and every vector width.", "quantifier": "all finite vectors within capacity, permutations, block sizes, lane counts", "why_tests_cant": "the library's headline claim", "anchors": ["src/reproBLAS/rdsum.c:reproBLAS_rdsum", "src/reproBLAS/dsum.c"]}
{"id": "C21", "title": "Absolute sum and dot product are reproducible", "statement": "dbdasum and dbddot results depend only on the multiset of |x_i|, of (rounded) products x_i*y_i, not on order, blocking or lanes, as long as those terms are finite.", "quantifier": "all finite vectors (pairs) whose products are finite, all permutations applied to both vectors, all block sizes", "why_tests_cant": "as C20", "anchors": ["src/binnedBLAS/dmdasum.ccog:binnedBLAS_dmdasum", "src/binnedBLAS/dmddot.ccog:binnedBLAS_dmddot"]}
{"id": "C22", "title": "Splitting a vector between calls/processes does not matter", "statement": "Summing a vector in pieces with several dbdsum calls into one accumulator, or into separate accumulators merged with dbdbadd, equals one call over the whole vector.", "quantifier": "all split points, all piece orders", "why_tests_cant": "depends on the number of processes", "anchors": ["src/binnedBLAS/dmdsum.ccog:binnedBLAS_dmdsum", "src/binned/dmdmadd.c:binned_dmdmadd"]}
{"id": "C23", "title": "Matrix-vector product is independent of blocking and equals row-wise dot products", "statement": "binnedBLAS_dbdgemv adds to Y_i exactly the deposits of A_ij*(alpha*X_j) for all j; result independent of the Y/X/transposition block sizes, of row or column major storage; entries of Y outside the strided output are unchanged.", "quantifier": "all M,N, block sizes >=1, lda, incX, incY, all finite data", "why_tests_cant": "six nested blocked loops with partial edge blocks", "anchors": ["src/binnedBLAS/dbdgemv.ccog:binnedBLAS_dbdgemv"]}
{"id": "C24", "title": "Matrix-matrix product is independent of blocking", "statement": "binnedBLAS_dbdgemm adds to C_ij exactly the deposits of (alpha*A_ik)*B_kj for every k, whatever the block sizes, order and transposition flags.", "quantifier": "all M,N,K, block sizes >=1, leading dimensions, finite data", "why_tests_cant": "nested blocked loops", "anchors": ["src/binnedBLAS/dbdgemm.ccog:binnedBLAS_dbdgemm"]}
{"id": "C25", "title": "gemv/gemm beta handling", "statement": "reproBLAS_rdgemv starts the accumulation from beta*Y (0 when beta==0, even if Y holds NaN) and writes back the conversion of the accumulator for each of the output entries.", "quantifier": "all beta, Y, dimensions", "why_tests_cant": "universally quantified over matrices", "anchors": ["src/reproBLAS/rdgemv.c:reproBLAS_rdgemv"]}
{"id": "C26", "title": "MPI reduction operator is order and grouping independent", "statement": "binnedMPI_DBDBADD applied by any MPI reduction schedule (any tree over ranks, either operand order) to per-rank accumulators gives the same words for every element of the reduced array.", "quantifier": "all rank counts, trees, vector lengths", "why_tests_cant": "MPI implementations choose the tree at run time", "anchors": ["src/binnedMPI/DBDBADD.ccog:binnedMPI_DBDBADD", "src/binned/dbdbaddv.c:binned_dbdbaddv"]}
{"id": "C27", "title": "MPI sum-of-squares reduction carries the scale", "statement": "The user-defined MPI operator for scaled sums of squares must update the scale stored with the destination so that scale^2*value is the sum of both operands' scale^2*value.", "quantifier": "all pairs of scaled accumulators", "why_tests_cant": "needs operands with different scales in a particular operand order", "anchors": ["src/binnedMPI/DBDBADDSQ.ccog:dbdbaddsqv", "src/binned/dmdmaddsq.c:binned_dmdmaddsq"]}
{"id": "C28", "title": "Infinity handling of the vector sum is order independent", "statement": "dbdsum over data containing infinities returns the same converted value for every order (as the scalar adds do).", "quantifier": "all vectors containing at least one Inf", "why_tests_cant": "needs finite overflow next to an Inf in one block", "anchors": ["src/binnedBLAS/dmdsum.ccog:binnedBLAS_dmdsum"]}
{"id": "C29", "title": "Complex dot product respects the endurance", "statement": "zbzdotu/zbzdotc (and float) results are independent of order and blocking for all finite vectors: number of deposits between renormalisations never exceeds ENDURANCE.", "quantifier": "all complex vectors, all lengths, all legal tuned block sizes", "why_tests_cant": "needs thousands of extreme same-signed slices", "anchors": ["src/binnedBLAS/zmzdotu.ccog:binnedBLAS_zmzdotu", "src/binnedBLAS/zmzdotc.ccog:binnedBLAS_zmzdotc", "src/binnedBLAS/cmcdotu.ccog"]}
{"id": "C30", "title": "Complex conversion honours the carry stride", "statement": "zzmconv_sub with primary stride incpri and carry stride inccar converts exactly the accumulator that zmzadd with the same strides produced.", "quantifier": "all strides", "why_tests_cant": "library callers only use stride 1", "anchors": ["src/binned/zzmconv_sub.c:binned_zzmconv_sub"]}
{"id": "C31", "title": "Fold-1 accumulators stay inside their storage", "statement": "No routine called with fold K reads or writes outside the 2K words of the accumulator.", "quantifier": "all folds >= 1, all states incl. index 0", "why_tests_cant": "memory-safety over all states", "anchors": ["src/binned/dmddeposit.c:binned_dmddeposit", "src/binned/ddmconv.c:binned_ddmconv"]}
{"id": "C32", "title": "Scale factors", "statement": "binned_dscale(X) is a power of two whose exponent is a multiple of the bin width (so that rescaling moves whole bins), and brackets |X| for normal X.", "quantifier": "all X", "why_tests_cant": "2^64 values", "anchors": ["src/binned/dscale.c:binned_dscale", "src/binned/sscale.c:binned_sscale"]}
{"id": "C33", "title": "Rescaling moves an accumulator by whole bins exactly", "statement": "binned_dmdrescale from scale s to scale X divides the represented value by (X/s)^2 exactly, as long as no bin reaches the clamp and (X/s)^2 is representable, so combining sums of squares with different scales is reproducible.", "quantifier": "all accumulators and scale pairs (powers of 2^W) within range", "why_tests_cant": "state quantified", "anchors": ["src/binned/dmdrescale.c:binned_dmdrescale", "src/binned/dmdmaddsq.c:binned_dmdmaddsq"]}
{"id": "C34", "title": "Unit in the first place", "statement": "binned_ufp(X) returns the largest power of two not exceeding |X| for every finite nonzero X.", "quantifier": "all doubles", "why_tests_cant": "2^64 inputs", "anchors": ["src/binned/ufp.c:binned_ufp", "src/common/common.h:UFP"]}
{"id": "C35", "title": "Layout and size functions", "statement": "An accumulator of fold K occupies dbnum(K)=2K words (4K complex), primary vector first, carry at offset K (2K); arrays of accumulators indexed with stride inc*dbnum do not overlap.", "quantifier": "all folds, array lengths and strides", "why_tests_cant": "address arithmetic for all sizes", "anchors": ["src/binned/dbnum.c:binned_dbnum", "src/binned/dbsize.c:binned_dbsize", "src/binned/dbdbaddv.c:binned_dbdbaddv"]}
{"id": "C36", "title": "Conversion from a double is exact up to the fold and round trips", "statement": "binned_dbdconv(X) builds the accumulator of the one-element multiset {X}; converting it back returns X whenever the K bins cover X's significand.", "quantifier": "all finite X, folds 2..MAXFOLD", "why_tests_cant": "2^64 inputs", "anchors": ["src/binned/dmdconv.c:binned_dmdconv", "src/binned/ddmconv.c:binned_ddmconv"]}
{"id": "C37", "title": "Code generator: unrolled loops cover every element exactly once", "statement": "For every N, unroll depths and vector widths the generated main loop, halving remainder loops and padded tail process each element index exactly once.", "quantifier": "all N>=0, all power-of-two unrolls and widths", "why_tests_cant": "N unbounded", "anchors": ["src/gen/generate.py", "src/gen/vectorizations.py:iterate_unrolled"]}
{"id": "C38", "title": "Code generator: tuning parameters stay legal", "statement": "IntegerParameter/PowerOfTwoParameter.parse_value always return a value inside [minimum,maximum] (of the required form), and parameter space encode/decode are inverse.", "quantifier": "all parameter specifications and requested values", "why_tests_cant": "unbounded domain", "anchors": ["src/gen/generate.py:IntegerParameter", "src/gen/generate.py:PowerOfTwoParameter", "src/gen/generate.py:ParameterSpace"]}
{"id": "C39", "title": "Maximum-magnitude scan", "statement": "damax returns an upper bound on every |x_i| (attained) for NaN-free data, independent of order; the NaN behaviour of the scan never lets a NaN element be forgotten.", "quantifier": "all vectors", "why_tests_cant": "NaN position dependent", "anchors": ["src/binnedBLAS/damax.ccog:binnedBLAS_damax"]}
{"id": "C40", "title": "Complex matrix-vector products equal one complex add per product", "statement": "For every storage order, transposition flag (including conjugate transpose), M, N, alpha, strides and tuning, binnedBLAS_zbzgemv / cbcgemv leaves in each part of accumulator i the words of adding the four real products of op(A)_ij * (alpha * x_j) for all j, the sum running over all columns of op(A); it reads only A and x and writes only the accumulators. reproBLAS_rzgemv / rcgemv returns, part by part, the reproducible sum of those products and beta * y_i.", "quantifier": "all M,N, orders, flags, data (NaN and infinities part by part), strides, block sizes", "why_tests_cant": "needs M != N in one path out of six; block sizes, special values and data are unbounded", "anchors": ["src/binnedBLAS/zbzgemv.ccog:binnedBLAS_zbzgemv", "src/reproBLAS/rzgemv.c:reproBLAS_rzgemv"]}
{"id": "C41", "title": "MPI reduction of complex accumulators", "statement": "binnedMPI_ZBZBADD / binnedMPI_CBCBADD applied by any reduction schedule to per-rank complex accumulators leave the accumulator (both parts) of all the data of all ranks.", "quantifier": "all schedules, data, folds, array lengths", "why_tests_cant": "schedules and buffer lengths are unbounded", "anchors": ["src/binnedMPI/ZBZBADD.ccog:binnedMPI_zbzbadd", "src/binnedMPI/CBCBADD.ccog:binnedMPI_cbcbadd"]}
{"id": "C42", "title": "Scaled sums of squares and Euclidean norms are reproducible", "statement": "dbdssq (sbsssq) returns a scale that depends only on the largest magnitude and leaves the words of one binned add per square of x_i/scale; no scaled square overflows; order, blocking, lanes, and splitting into several calls (with rescaling in between) do not change scale or words, for folds up to 22 (float: 6). rdnrm2 (rsnrm2) is independent of the order of any data, NaN or +Inf for data that is not finite.", "quantifier": "all vectors, orders, tunings, splits; folds 2..22 (2..6)", "why_tests_cant": "unbounded data and orders; rescaling happens at data dependent points", "anchors": ["src/binnedBLAS/dmdssq.ccog:binnedBLAS_dmdssq", "src/reproBLAS/rdnrm2.c:reproBLAS_rdnrm2", "src/reproBLAS/rsnrm2.c:reproBLAS_rsnrm2"]}
{"id": "C43", "title": "Scaled sums of squares can be merged in any way", "statement": "binned_dbdbaddsq / binned_dmdmaddsq merge two scaled accumulators into the scaled accumulator (scale of the larger maximum, words of the union) of both data sets; any tree of partial sums of squares, merged in any order and either way round, gives the scale and words of one call over all the data, so the distributed norm equals rdnrm2. A NaN in either operand gives NaN, an infinity (without NaN) gives +Inf.", "quantifier": "all trees, pieces, orders, operand positions, folds 2..22 (float 2..6)", "why_tests_cant": "rescaling depends on the data and on the merge order; trees are unbounded", "anchors": ["src/binned/dmdmaddsq.c:binned_dmdmaddsq", "src/binned/dbdbaddsq.c:binned_dbdbaddsq", "src/binned/dmdrescale.c:binned_dmdrescale"]}
{"id": "C44", "title": "Conversion back to a float is accurate and never overflows on the way", "statement": "binned_ddbconv / binned_ssbconv of an accumulator returns a finite float within 4.1*2^-53 (float 1.001*2^-24) relative of the value the accumulator holds whenever that value fits the format, even if partial sums of its words would overflow; so the final sum (and rdsum/rssum) is within a stated bound of the exact sum.", "quantifier": "all data, folds, accumulators reachable by adding", "why_tests_cant": "rounding errors in all combinations of words, overflow only near the top of the range", "anchors": ["src/binned/ddmconv.c:binned_ddmconv", "src/binned/ssmconv.c:binned_ssmconv", "src/reproBLAS/rdsum.c:reproBLAS_rdsum"]}
{"id": "C45", "title": "binned_dbbound / binned_sbbound are error bounds", "statement": "For N finite summands, X their largest magnitude and S the sum computed with a binned accumulator of the given fold, |S - exact sum| <= binned_dbbound(fold, N, X, S) (float: binned_sbbound), as computed in floating point.", "quantifier": "all data, N, folds", "why_tests_cant": "a bound on rounding and truncation errors over all data; the bound itself is computed with rounding", "anchors": ["src/binned/dbbound.c:binned_dbbound", "src/binned/sbbound.c:binned_sbbound"]}
{"id": "C46", "title": "Complex vector sums equal one complex add per element, part by part", "statement": "binnedBLAS_zbzsum / cbcsum leaves, in each part (real, imaginary) whose data are finite, the words of one zbzadd per element, whatever block size, lanes and stride, and whatever the other part contains (infinities, NaN, zeros); nothing but the accumulator is written. reproBLAS_rzsum converts each finite part to the real sum of that part, in any order.", "quantifier": "all N, data, strides, block sizes, kernels, initial accumulators, folds 2..MAXFOLD", "why_tests_cant": "interaction of the two interleaved parts in one kernel (index-0 scaling, special values) over all lengths and data", "anchors": ["src/binnedBLAS/zmzsum.ccog:binnedBLAS_zmzsum", "src/binnedBLAS/zamax_sub.ccog:binnedBLAS_zamax_sub", "src/binned/deposit.py:Deposit", "src/reproBLAS/rzsum_sub.c:reproBLAS_rzsum_sub"]}
{"id": "C47", "title": "Complex matrix-matrix products equal one complex add per product", "statement": "For every storage order, pair of transposition flags, M, N, K, alpha, leading dimensions and tuning, binnedBLAS_zbzgemm / cbcgemm leaves in each part of accumulator (i,j) the words of adding the four real products of (alpha * op(A)_ik) * op(B)_kj for all k; it writes only the accumulators. reproBLAS_rzgemm / rcgemm returns, part by part, the reproducible sum of those products and beta * c_ij.", "quantifier": "all M,N,K, orders, flags, data, strides, block sizes", "why_tests_cant": "eighteen paths with different conjugation and scaling code; data unbounded", "anchors": ["src/binnedBLAS/zbzgemm.ccog:binnedBLAS_zbzgemm", "src/reproBLAS/rzgemm.c:reproBLAS_rzgemm"]}
{"id": "C48", "title": "Absolute sums of complex vectors equal one add per component magnitude", "statement": "binnedBLAS_dbzasum / sbcasum adds the magnitudes of all real and imaginary parts: the words of the real accumulator are those of one dbdadd per magnitude, whatever block size, lanes, stride and order of the components; only the accumulator and the temporary block it allocates are written. reproBLAS_rdzasum / rscasum returns the converted sum of the magnitudes in any order, NaN if some component is NaN, else +Inf if some component is infinite.", "quantifier": "all N, data (finite or not), orders, strides, block sizes, kernels, initial accumulators, folds 2..MAXFOLD", "why_tests_cant": "two-stage accumulation with data dependent branches (infinities, NaN in the temporary) over all lengths and data", "anchors": ["src/binnedBLAS/dmzasum.ccog:binnedBLAS_dmzasum", "src/binnedBLAS/smcasum.ccog:binnedBLAS_smcasum", "src/reproBLAS/rdzasum.c:reproBLAS_rdzasum"]}
{"id": "C49", "title": "Complex sums of squares and norms equal the real ones of the components", "statement": "binnedBLAS_dbzssq / sbcssq from a fresh accumulator returns dscale of the largest component magnitude and leaves the words of one dbdadd per scaled square; called on the scaled accumulator of earlier finite data it leaves the scaled accumulator of all the data. The result is the same for any order of the components, stride, addresses, block size, lanes, and the same as binnedBLAS_dbdssq on a real vector with those components. reproBLAS_rdznrm2 / rscnrm2 equals rdnrm2 of the components (infinities and NaNs included: NaN if there is a NaN, else +Inf).", "quantifier": "all N, data, orders, strides, tunings, folds 2..22 (float 2..6)", "why_tests_cant": "rescaling of a temporary complex accumulator at data dependent points, then a merge with two different scales", "anchors": ["src/binnedBLAS/dmzssq.ccog:binnedBLAS_dmzssq", "src/binnedBLAS/smcssq.ccog:binnedBLAS_smcssq", "src/reproBLAS/rdznrm2.c:reproBLAS_rdznrm2", "src/binned/zmdrescale.c:binned_zmdrescale"]}
{"id": "C50", "title": "Complex sums of squares added to earlier data handle infinities and NaN", "statement": "binnedBLAS_dbzssq / sbcssq called on the scaled accumulator of earlier finite data with new data that contain a NaN leaves NaN; with infinities but no NaN it leaves +Inf; independently of the block size.", "quantifier": "all data, tunings, earlier data", "why_tests_cant": "depends on where in the block structure the infinity falls and on the ratio of the scales", "anchors": ["src/binnedBLAS/dmzssq.ccog:binnedBLAS_dmzssq", "src/binned/dmdmaddsq.c:binned_dmdmaddsq"]}
{"id": "C51", "title": "Rescaling a complex scaled accumulator rescales both parts", "statement": "binned_zmdrescale / cmsrescale leaves in each part what binned_dmdrescale / smsrescale leaves when called on that part.", "quantifier": "all complex accumulators, scales, folds", "why_tests_cant": "early exit depends on words becoming zero and on the contents of the other part", "anchors": ["src/binned/zmdrescale.c:binned_zmdrescale", "src/binned/cmsrescale.c:binned_cmsrescale"]}
{"id": "C52", "title": "MPI datatype and operator getters hand out one correct, committed handle per fold", "statement": "For every sequence of calls of binnedMPI_DOUBLE_BINNED, DOUBLE_BINNED_SCALED, DOUBLE_COMPLEX_BINNED, DBDBADD, DBDBADDSQ, ZBZBADD and the float twins (folds the switch supports), and whichever MPI calls fail: a returned datatype handle is a committed contiguous type of exactly the number of reals an accumulator of that fold has, a returned operator handle is the commutative operator of that fold, two requests get the same handle exactly when they are the same request, nothing is created twice, and the process aborts only if an MPI call failed.", "quantifier": "all request sequences, all failure patterns, all folds 2..MAXINDEX", "why_tests_cant": "the state is a per-process cache that evolves over the whole history of calls", "anchors": ["src/binnedMPI/DOUBLE_BINNED.c:binnedMPI_DOUBLE_BINNED", "src/binnedMPI/DBDBADD.ccog:binnedMPI_DBDBADD", "src/binnedMPI/DBDBADDSQ.ccog:binnedMPI_DBDBADDSQ", "src/binnedMPI/ZBZBADD.ccog:binnedMPI_ZBZBADD"]}
{"id": "C53", "title": "The default-fold API is reproducible", "statement": "reproBLAS_dsum, dasum, ddot, dnrm2, zsum, zdotc, zdotu, dzasum, dznrm2, dgemv, dgemm (and float twins), which take no fold, return bit-identical results for any two calls whose inputs hold the same terms in any order, at any addresses and strides, with any tuning of the library.", "quantifier": "all N, finite data, orders, strides, addresses, tunings", "why_tests_cant": "needs equality over all orders and tunings", "anchors": ["src/reproBLAS/dsum.c:reproBLAS_dsum", "src/reproBLAS/dgemv.c:reproBLAS_dgemv", "src/reproBLAS/dgemm.c:reproBLAS_dgemm", "src/reproBLAS/zdotc.c:reproBLAS_zdotc", "src/reproBLAS/dnrm2.c:reproBLAS_dnrm2"]}
{"id": "C54", "title": "Different routines computing the same quantity agree bit for bit", "statement": "With alpha = 1 and beta = 0 each element of rdgemv and rdgemm is bit-identical to rddot of the corresponding row and column (any orders, strides and tunings); rdasum equals rdsum of the magnitudes; rddot with a vector of ones equals rdsum; each part of rzsum equals rdsum of that part; rdzasum equals rdasum of the components.", "quantifier": "all sizes, data, strides, layouts, tunings, folds", "why_tests_cant": "relates executions of different code paths on unbounded data", "anchors": ["src/reproBLAS/rdgemv.c:reproBLAS_rdgemv", "src/reproBLAS/rdgemm.c:reproBLAS_rdgemm", "src/reproBLAS/rddot.c:reproBLAS_rddot", "src/reproBLAS/rdasum.c:reproBLAS_rdasum", "src/reproBLAS/rzsum_sub.c:reproBLAS_rzsum_sub", "src/reproBLAS/rdzasum.c:reproBLAS_rdzasum"]}
{"id": "C55", "title": "Accuracy of the results in real arithmetic", "statement": "The value returned by rdsum / rssum differs from the exact real sum S by at most (about 4.1 ulps relative, float 1) * |S| plus N * 2^(-W(fold-1)) * max|x|; rdasum is relatively accurate (5 * 2^-53 with the default fold and N <= 2^26); rddot and each element of rdgemv, rdgemm (alpha = 1, beta = 0) additionally carry only the rounding of each product; no overflow occurs as long as the exact value and the error bound fit.", "quantifier": "all N up to the capacity, all finite data whose largest magnitude is above the clamped range, folds, strides, tunings", "why_tests_cant": "real-number error bound over all inputs", "anchors": ["src/reproBLAS/rdsum.c:reproBLAS_rdsum", "src/reproBLAS/rdasum.c:reproBLAS_rdasum", "src/reproBLAS/rddot.c:reproBLAS_rddot", "src/reproBLAS/rdgemv.c:reproBLAS_rdgemv", "src/reproBLAS/rdgemm.c:reproBLAS_rdgemm", "src/binned/ddmconv.c:binned_ddmconv"]}
{"id": "C56", "title": "Accuracy of the Euclidean norm", "statement": "The value returned by rdnrm2 / rsnrm2 / rdznrm2 differs from the exact Euclidean norm L by at most a few ulps of L (plus half the smallest subnormal), with no spurious overflow or underflow whatever the scale of the data: the squares may all overflow or all underflow in working precision.", "quantifier": "all N with N * 2^(-W(fold-1)) <= 1/8, all finite vectors whose norm fits, folds 2..ssq fold - 1, strides, tunings", "why_tests_cant": "real-number error bound over all inputs including those whose squares overflow or underflow", "anchors": ["src/reproBLAS/rdnrm2.c:reproBLAS_rdnrm2", "src/reproBLAS/rsnrm2.c:reproBLAS_rsnrm2", "src/reproBLAS/rdznrm2.c:reproBLAS_rdznrm2", "src/binnedBLAS/dmdssq.ccog:binnedBLAS_dmdssq"]}
{"id": "C57", "title": "The example programs print reproducible sums", "statement": "examples/sum_sine: the shuffle is a permutation of the data and every pair (sum, sum of shuffled) printed by the four binned methods (merging converted elements, depositing, binnedBLAS_dbdsum, reproBLAS_dsum) consists of one and the same number. examples/MPI_sum_sine: whatever the number of processes and the order of operator calls in MPI_Reduce, both printed sums equal reproBLAS_dsum of the whole array.", "quantifier": "all n, data, random numbers, tunings (per process), numbers of processes, reduction trees", "why_tests_cant": "quantifies over schedules, process counts and random sequences", "anchors": ["examples/sum_sine.c:main", "examples/MPI_sum_sine.c:main"]}
{"id": "C58", "title": "Concurrent use of different accumulators", "statement": "Threads that write only accumulators they own (and read only those and accumulators nobody writes) may run concurrently: after any interleaving of their library calls every accumulator has the words its owner running alone would have left, and the whole memory is the same for any two interleavings. A parallel sum (each thread adds its share to its own accumulator, then the accumulators are merged in any order) has the words and the value of the sequential sum.", "quantifier": "all numbers of threads, programs, interleavings, merge orders, distributions of the data, strides, folds", "why_tests_cant": "quantifies over all schedules of all programs", "anchors": ["src/binned/dmdadd.c:binned_dmdadd", "src/binned/dmdmadd.c:binned_dmdmadd", "src/binned/dmsetzero.c:binned_dmsetzero", "src/binned/dmddeposit.c:binned_dmddeposit"]}
{"id": "C59", "title": "The emitted deposit code deposits every element as a scalar deposit would", "statement": "The code the generator writes for the deposit of a block (plain C, SSE2 or AVX; real or complex; sum, absolute sum, dot product, conjugated dot product, scaled squares; expanded fold or loop over the fold; any accepted pipe and unroll widths) leaves in the accumulator exactly the words that one scalar deposit per summand leaves, advances the pointers by n elements, writes nothing else, and does not depend on the contents of the registers or local arrays when it starts.  In particular masks, broadcasts, shuffles, partial loads, the or with 1 ulp, the bin 0 constants and the consolidation of the lanes are right.", "quantifier": "all instruction sets, types, kernels, folds, pipe and unroll widths, n, strides, addresses, memory and register contents", "why_tests_cant": "generated code for unboundedly many tunings, on all data; a test sees one instruction set and one tuning", "anchors": ["src/binned/deposit.py:Deposit.write_fold", "src/binned/deposit.py:Deposit.write_core", "src/gen/vectorizations.py:SSE", "src/gen/vectorizations.py:AVX", "src/binnedBLAS/depositDotC.py:DepositDotC"]}
{"id": "C60", "title": "The emitted scans return the largest magnitude", "statement": "The code emitted for damax, damaxm, zamax_sub, zamaxm_sub (float twins) returns, for every instruction set and unrolling, the largest magnitude of the elements or products (of each part for complex data), 0 for no data; it does not depend on register contents at its start; on data with NaN it returns what the scan model returns.", "quantifier": "all instruction sets, types, unroll widths, n, strides, addresses, memory and register contents", "why_tests_cant": "generated code for unboundedly many tunings, on all data", "anchors": ["src/binnedBLAS/amax.py:AMax", "src/binnedBLAS/amaxm.py:AMaxM", "src/gen/vectorizations.py:SSE.max_into"]}
{"id": "C61", "title": "The library gives the same bits whatever instruction set and tuning it was built for", "statement": "rdsum, rdasum, rddot, rdnrm2, rzsum, rzdotc, rzdotu, rdzasum, rdznrm2 (float twins) compiled with the emitted plain C, SSE2 or AVX code and any argument file return bit-identical results for any two builds and any order of the data (complex dot products: blocks of at most half the endurance, see C29); rdsum returns the bits of one scalar add per element.", "quantifier": "all pairs of builds (instruction set, block size, expand flags, pipe and unroll widths for each fold), all data, orders, strides, addresses, register contents", "why_tests_cant": "quantifies over all pairs of builds and all data", "anchors": ["src/gen/vectorizations.py:iterate_all_vectorizations", "src/binned/deposit.py:Deposit.write_vec", "src/reproBLAS/rdsum.c:reproBLAS_rdsum", "src/reproBLAS/rddot.c:reproBLAS_rddot", "src/binnedBLAS/zmzdotc.ccog:binnedBLAS_zmzdotc"]}
{"id": "C62", "title": "The emitted code touches only its operands", "statement": "The code emitted for a deposit of n elements (any instruction set, type, kernel, fold, tuning) reads memory only at the n elements of its vectors (also in the partial loads at the end, where a full vector load would run over) and at the words of the accumulator, writes memory only at the words of the accumulator, and names only variables it declares, array elements within the declared size. The scans read only the vectors and write only the result cells.", "quantifier": "all instruction sets, types, kernels, folds up to the maximum, pipe and unroll widths, n, strides (also negative and zero), addresses", "why_tests_cant": "absence of out-of-bounds accesses in generated code for unboundedly many tunings and lengths", "anchors": ["src/gen/vectorizations.py:load", "src/gen/vectorizations.py:load_partial", "src/gen/vectorizations.py:consolidate_into", "src/binned/deposit.py:Deposit.declare_vars", "src/binnedBLAS/amax.py:AMax"]}
{"id": "C63", "title": "Real matrix products do not depend on the build", "statement": "rdgemv and rdgemm (float twins) linked with the emitted plain C, SSE2 or AVX code give, for any two builds and argument files, storage orders, transposition flags, strides and addresses, bit-identical outputs whenever each row of op(A) paired with x (with each column of op(B)) holds the same pairs of numbers in any order and the y (C) entries agree or beta is 0; they are the modelled routines, so the statements about those hold of the compiled library.", "quantifier": "all pairs of builds and block sizes, M, N, K, folds, alpha, beta, data with finite products, storage orders, flags, strides, register contents", "why_tests_cant": "quantifies over all pairs of builds and all data", "anchors": ["src/reproBLAS/rdgemv.c:reproBLAS_rdgemv", "src/reproBLAS/rdgemm.c:reproBLAS_rdgemm", "src/binnedBLAS/dbdgemv.ccog:binnedBLAS_dbdgemv", "src/binnedBLAS/dbdgemm.ccog:binnedBLAS_dbdgemm"]}
{"id": "C64", "title": "Complex matrix products do not depend on the build", "statement": "rzgemv and rzgemm (float twins) linked with the emitted code give bit-identical outputs for any two builds and argument files on the same numbers. False for the column major conjugate transpose with M < N, where the result depends on the block size in the argument file; proved outside the exceptions of the column major conjugate transpose, of alpha in column major transposed products, and of blocks above half the endurance.", "quantifier": "all pairs of builds and block sizes, M, N, K, folds, alpha, beta, finite data, storage orders, flags, strides, register contents", "why_tests_cant": "quantifies over all pairs of builds and all data", "anchors": ["src/reproBLAS/rzgemv.c:reproBLAS_rzgemv", "src/reproBLAS/rzgemm.c:reproBLAS_rzgemm", "src/binnedBLAS/zbzgemv.ccog:binnedBLAS_zbzgemv", "src/binnedBLAS/zbzgemm.ccog:binnedBLAS_zbzgemm"]}
{"id": "C65", "title": "Processes on different machines obtain the sum of one machine", "statement": "Every process of a cluster reduces its vectors (sum, absolute sum or dot product) with the library built for its own instruction set and tuning; the accumulators are combined by the MPI operator in any order and tree. The words and the value are those a single process with yet another build computes from all the numbers in any arrangement.", "quantifier": "all numbers of processes, builds, distributions of the data, reduction trees and orders, folds, lengths of the MPI buffer, register contents", "why_tests_cant": "quantifies over schedules, process counts and pairs of builds", "anchors": ["src/binnedMPI/DBDBADD.ccog:binnedMPI_dbdbadd", "src/binnedBLAS/dbdsum.c:binnedBLAS_dbdsum", "src/binnedBLAS/dbddot.c:binnedBLAS_dbddot", "src/binnedBLAS/dbdasum.c:binnedBLAS_dbdasum"]}
{"id": "C66", "title": "Printing shows the contents of the accumulator", "statement": "binned_dbprint, binned_sbprint, binned_zbprint and binned_cbprint (and the routines on separate vectors) print one line per level; the line of a level shows the exponent of its bin, the parts of the slice sum in the primary and in the carry, and the slice sum itself. False of double accumulators whose bins lie outside the range of float (the unit in the first place goes through float: undefined conversion to int, infinite totals), of empty accumulators, and of the scale of bin 0; strides of the complex routine count words.", "quantifier": "every accumulator of at most CAPACITY finite summands, every fold, stride and level", "why_tests_cant": "tests print a few accumulators of ordinary magnitude and nobody compares the text", "anchors": ["src/binned/dmprint.c", "src/binned/smprint.c", "src/binned/zmprint.c", "src/binned/cmprint.c", "src/binned/dbprint.c", "src/binned/zbprint.c", "src/common/common.h:UFP"]}
{"id": "C67", "title": "Merging an accumulator into itself, and vectors of accumulators", "statement": "Merging an accumulator into itself counts every value twice (real and complex), copying it onto itself changes nothing, and the vector merge adds element i of X into element i of Y for every pair of strides, including negative ones, a broadcast (stride 0 in X), a reduction (stride 0 in Y) and Y merged with itself; no other memory changes.", "quantifier": "every fold, both precisions, all contents up to the capacity, all vector lengths and strides", "why_tests_cant": "self-aliasing and unusual strides are not exercised by the tests, and the claim is about every content", "anchors": ["src/binned/dmdmadd.c", "src/binned/dbdbaddv.c", "src/binned/zbzbaddv.c", "src/binned/zmzmadd.c", "src/binned/dmdmset.c"]}
{"id": "C68", "title": "The denormal test is sound", "statement": "If the denormal test of an accumulator answers 0, depositing up to the endurance number of values leaves the same words whether the processor honours denormal numbers, reads them as zeros, flushes denormal results to zero, or any mixture of these; and the test answers 0 exactly when the accumulator ends at bin 48 (double) or 16 (single) or earlier, one bin less when it starts in bin 0.", "quantifier": "every accumulator content, fold, sequence of finite deposits, and every arithmetic that flushes denormals in any pattern", "why_tests_cant": "the mode bits and denormal inputs are not tested, and the claim ranges over all contents and flushing behaviours", "anchors": ["src/binned/dmdenorm.c", "src/binned/smdenorm.c", "src/binned/zmdenorm.c", "src/binned/cmdenorm.c", "src/binned/dmddeposit.c", "src/binned/deposit.py:set_daz_ftz", "src/gen/vectorizations.py:set_SIMD_daz_ftz"]}
{"id": "C69", "title": "Cancellation is exact", "statement": "If the data consist of pairs x, -x in any order, the reproducible sum is exactly zero and every bin of the accumulator is empty, however large, small or badly scaled the data.", "quantifier": "every multiset of finite values closed under negation, every order, stride, tuning and fold from 2", "why_tests_cant": "quantifies over all data; ordinary summation loops do not have the property and rounding hides failures on small samples", "anchors": ["src/reproBLAS/rdsum.c:reproBLAS_rdsum", "src/binned/dmdconv.c", "src/binned/ddmconv.c:binned_ddmconv"]}
{"id": "C70", "title": "The sum of negated data", "statement": "Negating all the data negates the contents of every bin and the returned sum. The first half is true; the second is false in general (the conversion rounds terms that are not symmetric), the two results being within two conversion errors; it is true when the sum is below 2^53 (1 - 2^-10) units of the last bin, in particular for up to 2^14 single precision summands with folds 2 and 3.", "quantifier": "all finite data, orders, strides, tunings, folds", "why_tests_cant": "the sign asymmetry needs three bins in a particular state; tests compare against bounds only", "anchors": ["src/binned/ddmconv.c:binned_ddmconv", "src/binned/ssmconv.c:binned_ssmconv", "src/reproBLAS/rdsum.c:reproBLAS_rdsum"]}
{"id": "C71", "title": "Scaling the data by whole bins scales the sum", "statement": "Multiplying all the data by 2^(width*s) (width 40 in double, 13 in single precision) moves every bin by s places with the same content and multiplies the returned sum by the same factor, bit for bit, as long as the last bins exist and the sum does not overflow. It fails for other powers of two.", "quantifier": "all finite data, shifts s, orders, strides, tunings, folds", "why_tests_cant": "an equivariance over all inputs", "anchors": ["src/binned/dindex.c:binned_dindex", "src/binned/dmbins.c:binned_dmbins", "src/binned/ddmconv.c:binned_ddmconv", "src/binned/dmdupdate.c:binned_dmdupdate"]}
{"id": "C72", "title": "Every length a C int can hold", "statement": "Sum, absolute sum, dot product and norm are reproducible for every int length without any further limit: no int exceeds the capacity of an accumulator of either precision, and a length that is not positive means an empty vector (result zero, nothing read). The two products per element of a single precision complex dot product, and two full-length calls into one single precision accumulator, can exceed it.", "quantifier": "all 2^32 lengths, all data, orders, strides, tunings, folds", "why_tests_cant": "vectors of 2^31 elements are not tested; the claim is about every length", "anchors": ["include/binned.h:binned_DBCAPACITY", "include/binned.h:binned_SBCAPACITY", "src/reproBLAS/rdsum.c:reproBLAS_rdsum", "src/reproBLAS/rddot.c:reproBLAS_rddot", "src/reproBLAS/rdnrm2.c:reproBLAS_rdnrm2"]}
{"id": "C73", "title": "Integer data give exact integer results", "statement": "When the data are integers (or multiples of any common power of two not below the last bin's unit) whose magnitudes sum to at most 2^53 (2^24 in single precision), the sum, absolute sum, dot product, matrix-vector and matrix-matrix products return the exact integer result, for every fold from 2, order, transposition, stride and tuning. Single precision sums that need up to 53 bits are correctly rounded when the fold covers them.", "quantifier": "all integer data in range, all orders, strides, tunings, folds, matrix orders and transpositions, alpha, beta", "why_tests_cant": "exactness is a statement over all inputs in range; the multi-term conversion at the end could round on rare bit patterns only", "anchors": ["src/reproBLAS/rdsum.c:reproBLAS_rdsum", "src/reproBLAS/rdasum.c", "src/reproBLAS/rddot.c:reproBLAS_rddot", "src/reproBLAS/rdgemv.c:reproBLAS_rdgemv", "src/reproBLAS/rdgemm.c:reproBLAS_rdgemm", "src/binned/ddmconv.c:binned_ddmconv", "src/binned/ssmconv.c:binned_ssmconv"]}
{"id": "C74", "title": "Zeros among the data change nothing", "statement": "Inserting, removing or moving zeros of either sign (so also padding a vector to another length, or a matrix with zero rows and columns) leaves the returned sum, absolute sum, dot product, norm, complex sum and every entry of a matrix product bit-identical, and the accumulators word-identical; data of zeros only give +0, as no data does.", "quantifier": "all finite data, any number and position of zeros, orders, strides, tunings, folds", "why_tests_cant": "zero changes block boundaries, lane assignment and the first index; only a proof covers every placement", "anchors": ["src/binned/dmdupdate.c:binned_dmdupdate", "src/binned/dindex.c:binned_dindex", "src/reproBLAS/rdsum.c:reproBLAS_rdsum", "src/reproBLAS/rdasum.c", "src/reproBLAS/rddot.c:reproBLAS_rddot", "src/reproBLAS/rdnrm2.c:reproBLAS_rdnrm2", "src/reproBLAS/rdgemm.c:reproBLAS_rdgemm"]}
{"id": "C75", "title": "Nonnegative data give positive results, zero data zero", "statement": "The sum of finite nonnegative data (and an inner product whose products are nonnegative, and the absolute sum of any data) is finite and strictly positive as soon as one element is not zero, provided the leading element lies at least fold - 1 bins above the smallest one and the total does not overflow; the norm is strictly positive as soon as one element is nonzero, however tiny; data of zeros only give +0 in all of them; and flipping the signs of any elements changes no bit of the absolute sum. Without the proviso the absolute sum of nonzero data can be 0, while the norm is not.", "quantifier": "all finite data, lengths up to the capacity, strides, tunings, folds", "why_tests_cant": "definiteness is claimed for every vector; rounding of each bin is to nearest, so individual bins of nonnegative data may be negative", "anchors": ["src/reproBLAS/rdsum.c:reproBLAS_rdsum", "src/reproBLAS/rdasum.c", "src/reproBLAS/rddot.c:reproBLAS_rddot", "src/reproBLAS/rdnrm2.c:reproBLAS_rdnrm2", "src/binned/ddmconv.c:binned_ddmconv"]}
{"id": "C76", "title": "Index arithmetic stays within a C int", "statement": "The reductions on any vector of up to INT_MAX elements with strides up to 2^19 evaluate no int expression (counter, limit, increment, subscript) outside the range of int, whatever the tuning file holds; the scans do so for lengths up to INT_MAX less one unrolled step; the matrix-vector and matrix-matrix products do so whenever the operands are addressable with int subscripts, the dimensions leave room for one block, and the number of outputs times the accumulator size fits. The last two limits are needed: a scan of INT_MAX elements overflows, and so does the accumulator subscript of an 18920 by 18920 outer product whose operands are small.", "quantifier": "all lengths, strides, unrollings, blockings, transpositions, orders and data-dependent branches", "why_tests_cant": "overflow needs gigabyte operands and is undefined behaviour, so a test that runs into it need not notice", "anchors": ["src/binnedBLAS/dmdsum.ccog:binnedBLAS_dmdsum", "src/binnedBLAS/damax.ccog", "src/binnedBLAS/dbdgemv.ccog:binnedBLAS_dbdgemv", "src/binnedBLAS/dbdgemm.ccog:binnedBLAS_dbdgemm", "src/reproBLAS/rdgemm.c:reproBLAS_rdgemm", "cog/vectorizations.py"]}
{"id": "C77", "title": "Inner products are symmetric, transposed products agree", "statement": "Exchanging the two vectors of a dot product changes no bit of the result or of the accumulator; the unconjugated complex dot product is symmetric too (blocks within half the endurance, as in C29), and the conjugated one keeps its real part while its imaginary part is the sum of the negated terms (not always the exact negative). With alpha = 1 and any beta, computing the transpose of a matrix product by exchanging the transposed operands, in any storage orders and transposition flags, and computing a matrix-vector product as a matrix-matrix product with one column, give the same bits. With another alpha neither holds, since alpha is multiplied into A in one and into x in the other.", "quantifier": "all finite data, strides, tunings, blockings, orders, transposition flags, folds", "why_tests_cant": "the two calls use different blocks, loops and buffers; equality for every operand needs a proof", "anchors": ["src/binnedBLAS/dmddot.ccog:binnedBLAS_dmddot", "src/binnedBLAS/zmzdotu.ccog", "src/reproBLAS/rddot.c:reproBLAS_rddot", "src/reproBLAS/rdgemm.c:reproBLAS_rdgemm", "src/reproBLAS/rdgemv.c:reproBLAS_rdgemv"]}
{"id": "C78", "title": "Tuning writes only files the build accepts, and changes no result", "statement": "Whatever configurations the search proposes or finally calls best, and wherever tuning is interrupted, tuning never fails on a lookup; every argument file it writes holds a value for every parameter, which the build uses exactly as written; parameters the tuned benchmarks do not search (other benchmarks, other instruction sets) keep their values; after a run each parameter has the best value of the last benchmark that chose one (integers times their step), else its old one; and libraries built with any two of the files written return bit-identical sums.", "quantifier": "all parameter spaces, argument files, proposals in range, numbers of trials and runs, interruption points", "why_tests_cant": "the search is random and its history unbounded", "anchors": ["tune/ReproBLASOpenTuner.py:run", "tune/ReproBLASOpenTuner.py:ReproBLASTuner.manipulator", "src/gen/generate.py:ParameterSpace.get_value", "src/gen/generate.py:serialize_arguments", "src/gen/default_args.py"]}
{"id": "C79", "title": "Accumulating by hand: update, deposits, renormalisation", "statement": "The loop the documentation describes (update the accumulator with a bound on the next at most ENDURANCE values, deposit each of them, renormalise, and repeat with other bounds) leaves, in a fresh accumulator whose bounds do not exceed the largest value, the very words one add per value leaves, in any order; with larger bounds the words depend only on the data and the largest bound; started from an accumulator it continues it; nothing else is written. The same holds for complex accumulators, part by part, with a complex bound or one real bound for both parts. A value beyond its bound can be lost.", "quantifier": "all finite data, block divisions, bounds, orders, folds at least 2 and up to CAPACITY values, real and complex", "why_tests_cant": "the number of blocks and deposits and the choice of bounds is unlimited", "anchors": ["include/binned.h:binned_dbddeposit", "src/binned/dbdupdate.c:binned_dbdupdate", "src/binned/dbddeposit.c:binned_dbddeposit", "src/binned/dbrenorm.c:binned_dbrenorm", "src/binned/zbdupdate.c:binned_zbdupdate", "src/binned/zbzupdate.c:binned_zbzupdate", "src/binned/zbzdeposit.c:binned_zbzdeposit", "src/binned/zbrenorm.c:binned_zbrenorm"]}
{"id": "C80", "title": "A smaller fold keeps the leading bins of a larger one", "statement": "For the same data, in any order, the first primary and carry words of an accumulator of a larger fold are exactly the words of the accumulator of a smaller fold. So the manually specified routines may be called on a larger accumulator with a smaller fold (carry vector at its own place): converting gives what the smaller fold would have given, for any data, real or complex; setting and merging produce the smaller accumulator of the data; a sum computed once with a large fold yields the results of all smaller folds. The contiguous routines may not be used so: they look for the carries elsewhere.", "quantifier": "all data (finite data for words), orders, pairs of folds at least 2, addresses, tunings", "why_tests_cant": "every pair of folds and every input would have to be compared", "anchors": ["src/binned/dmdmset.c:binned_dmdmset", "src/binned/dmdmadd.c:binned_dmdmadd", "src/binned/ddmconv.c:binned_ddmconv", "src/binned/zzmconv_sub.c:binned_zzmconv_sub", "src/binned/dmddeposit.c:binned_dmddeposit"]}
{"id": "C81", "title": "The inner dimension of a matrix product can be split", "statement": "Multiplying the first K1 columns of op(A) with the first K1 rows of op(B) into binned accumulators and then the remaining columns and rows into the same accumulators leaves the words one multiplication leaves; so does multiplying the second part elsewhere into empty accumulators and merging them afterwards. The same for matrix-vector products. Each call may use its own tuning, block sizes and buffers.", "quantifier": "all finite data, dimensions, splits, storage orders, transposition flags, strides, tunings, block sizes, folds and accumulators already holding data", "why_tests_cant": "the split changes every block boundary of the computation; equality must hold for every split", "anchors": ["src/binnedBLAS/dbdgemm.ccog:binnedBLAS_dbdgemm", "src/binnedBLAS/dbdgemv.ccog:binnedBLAS_dbdgemv", "src/binned/dbdbadd.c:binned_dbdbadd"]}
{"id": "C82", "title": "Checkpoints and restarts", "statement": "A program that accumulates its data one value at a time (binned_dbdadd) or by blocks (binnedBLAS_dbdsum, any strides and any tuning), now and then copies the 2*fold words of the accumulator elsewhere, and after a crash puts the last copy back (at any address, in a memory otherwise arbitrary) and resumes from the element at which it was taken, ends with the words and the conversion of an uninterrupted sum of the same values in any order, no matter when and how often it crashed. At any moment, the accumulator and the copy have the words of the sum of the elements counted. Copying the primary words only is not enough.", "quantifier": "every history of adds, block sums, foreign writes outside the accumulator, copies and crashes; every finite data within the capacity, fold from 2 to the maximum, precision", "why_tests_cant": "Crash points and the number of restarts are unbounded; a test picks a few.", "anchors": ["src/binned/dmdupdate.c:binned_dmdupdate", "src/binned/dbdbset.c:binned_dbdbset", "src/binnedBLAS/dbdsum.c:binnedBLAS_dbdsum"]}
{"id": "C83", "title": "Permuted matrices give permuted products; blocks can be computed alone", "statement": "Let one call of reproBLAS_rdgemm multiply matrices of one size and another call (other storage order, flags, strides, tuning, blocks, other numbers of rows and columns) multiply matrices with the same inner dimension, the inner index permuted. Whenever a row of the first op(A) is a row of the second, a column of op(B) a column of the second and the old values agree, the two results agree bit for bit. So permuting rows, columns or the inner dimension changes no bit of the (permuted) result, equal rows give equal rows, and any block of the result can be computed alone. The same for reproBLAS_rdgemv.", "quantifier": "all matrices without overflowing products, dimensions, permutations of the inner dimension, storage orders, flags, strides, tunings, blocks, alpha, beta, fold from 2 to the maximum", "why_tests_cant": "Permutations, sizes and data are unbounded.", "anchors": ["src/reproBLAS/rdgemm.c:reproBLAS_rdgemm", "src/reproBLAS/rdgemv.c:reproBLAS_rdgemv", "src/binnedBLAS/dbdgemm.ccog:binnedBLAS_dbdgemm"]}
{"id": "C84", "title": "Matrix products distributed over processes", "statement": "When the inner dimension of a matrix product is distributed over any number of processes in any way (blocks, cyclic, uneven), each multiplies its part into empty binned accumulators with its own storage order, tuning and blocks, and the binned matrices are combined by the MPI operator in any order and any tree, every entry has the words and the converted value of a single process multiplying the whole matrices.", "quantifier": "all matrices without overflowing products, dimensions, numbers of processes, distributions, reduction trees (per entry), tunings, blocks, strides, flags, fold from 2 to the maximum, inner dimension up to the capacity", "why_tests_cant": "The number of processes, the distributions and the reduction trees are unbounded.", "anchors": ["src/binnedBLAS/dbdgemm.ccog:binnedBLAS_dbdgemm", "src/binnedMPI/DBDBADD.ccog:DBDBADD", "src/binned/dbdbadd.c:binned_dbdbadd"]}
{"id": "C85", "title": "Complex inner products in terms of real ones", "statement": "For contiguous complex vectors, the real part of reproBLAS_rzdotc is bit for bit reproBLAS_rddot of the 2N components, the imaginary part of reproBLAS_rzdotu is reproBLAS_rddot with the components of the second vector exchanged, and the inner product (any stride) of a vector with itself has imaginary part zero.", "quantifier": "all complex vectors without overflowing products, strides, tunings (blocks of at most half the endurance, see C29), fold from 2 to the maximum", "why_tests_cant": "Data and lengths are unbounded; the two sides take different code paths and block sizes.", "anchors": ["src/binnedBLAS/zmzdotc.ccog:binnedBLAS_zmzdotc", "src/binnedBLAS/zmzdotu.ccog:binnedBLAS_zmzdotu", "src/reproBLAS/rzdotc_sub.c:reproBLAS_rzdotc_sub", "src/reproBLAS/rddot.c:reproBLAS_rddot"]}
{"id": "C86", "title": "Complex integer data give exact results", "statement": "When the real and imaginary parts of the data are integers and the sums of the magnitudes of the terms of each part do not exceed 2^53 (2^24 for float), reproBLAS_rzsum, reproBLAS_rzdotc and reproBLAS_rzdotu (and the float versions) return exactly the integer sums.", "quantifier": "all integer data within the bound, lengths within the capacity, strides, tunings (for the dot products blocks of at most half the endurance, see C29), fold from 2 to the maximum", "why_tests_cant": "Exactness for every data set within the bound cannot be sampled.", "anchors": ["src/reproBLAS/rzsum_sub.c:reproBLAS_rzsum_sub", "src/reproBLAS/rzdotc_sub.c:reproBLAS_rzdotc_sub", "src/reproBLAS/rzdotu_sub.c:reproBLAS_rzdotu_sub"]}
{"id": "C87", "title": "Complex matrix products by parts", "statement": "For the calls in which binnedBLAS_zbzgemm is right (C47: row major, or A not transposed, or alpha = 1; dot products of at most half the endurance, C29), multiplying the first K1 columns of op(A) with the first rows of op(B) and then the others into the same accumulators leaves the words (real and imaginary) of one call, whatever the split, the blocks and the tunings of the three calls; two processes with a part each, merged by binned_zbzbadd, likewise. The same for binnedBLAS_zbzgemv (outside of the exception of C40).", "quantifier": "all complex matrices without overflowing products, splits, alpha, storage orders, flags, blocks, tunings, strides, fold from 2 to the maximum, contents of the accumulators, within the capacity", "why_tests_cant": "the split changes every block boundary of the computation; equality must hold for every split", "anchors": ["src/binnedBLAS/zbzgemm.ccog:binnedBLAS_zbzgemm", "src/binnedBLAS/zbzgemv.ccog:binnedBLAS_zbzgemv", "src/binned/zbzbadd.c:binned_zbzbadd"]}
{"id": "C88", "title": "Permuted complex matrices; conjugate transposes", "statement": "For the calls in which reproBLAS_rzgemm is right (C47, C29): when a row of one op(A) is a row of another, a column of one op(B) a column of the other, up to a common permutation of the inner dimension, and the old values agree, the results agree bit for bit, whatever the storage orders, flags, sizes, blocks and tunings. Elements are compared after conjugation, so a matrix given with the conjugate transpose flag and its conjugate transpose stored in memory give the same bits. The same for reproBLAS_rzgemv (C40).", "quantifier": "all complex matrices without overflowing products, dimensions, permutations of the inner dimension, storage orders, flags, strides, tunings, blocks, alpha, beta, fold from 2 to the maximum", "why_tests_cant": "Permutations, sizes and data are unbounded; the flags select different code paths.", "anchors": ["src/reproBLAS/rzgemm.c:reproBLAS_rzgemm", "src/reproBLAS/rzgemv.c:reproBLAS_rzgemv", "src/binnedBLAS/zbzgemm.ccog:binnedBLAS_zbzgemm"]}
{"id": "C89", "title": "Complex matrix products distributed over processes", "statement": "In single precision, when the inner dimension of a complex matrix product is distributed over any number of processes in any way, each multiplies its part into empty binned accumulators (calls outside of the exceptions of C47 and C29) and the binned matrices are combined by the MPI operator CBCBADD in any order and any tree, every entry has the words and the converted value of a single process. (In double precision the operator is wrong, see C41.)", "quantifier": "all complex float matrices without overflowing products, dimensions, numbers of processes, distributions, reduction trees (per entry), tunings, blocks, strides, flags, alpha, fold from 2 to the maximum, twice the inner dimension within the capacity", "why_tests_cant": "The number of processes, the distributions and the reduction trees are unbounded.", "anchors": ["src/binnedBLAS/cbcgemm.ccog:binnedBLAS_cbcgemm", "src/binnedMPI/CBCBADD.ccog:CBCBADD", "src/binned/cbcbadd.c:binned_cbcbadd"]}
{"id": "C90", "title": "Complex results are accurate in each part", "statement": "Each part of rzsum, rzdotc and rzdotu is finite and within a few units of the last place of the exact sum of that part's terms, plus a bound proportional to the number of terms, the largest term and 2^(-W*(fold-1)), plus (inner products) one rounding of each real product; rdzasum has a small relative error. The imaginary part's error does not depend on the size of the real part's terms.", "quantifier": "every format, fold, tuning, length, stride, and all finite data whose largest term is not tiny and whose exact sums are in range", "why_tests_cant": "the error bound is over all real-number inputs; tests sample a few vectors", "anchors": ["src/reproBLAS/rzsum_sub.c:reproBLAS_rzsum_sub", "src/reproBLAS/rzdotc_sub.c:reproBLAS_rzdotc_sub", "src/reproBLAS/rzdotu_sub.c:reproBLAS_rzdotu_sub", "src/reproBLAS/rdzasum.c:reproBLAS_rdzasum", "src/binned/ddbconv.c:binned_ddbconv"]}
{"id": "C91", "title": "Norms depend on magnitudes only; quarter turns and conjugation", "statement": "reproBLAS_rdnrm2 and rdznrm2 are bit-identical for any two vectors with the same component magnitudes in any order (infinities and NaN included). Multiplying each element of a complex vector by 1, -1, I or -I or conjugating it, each element its own way, changes no bit of the norm, of the absolute sum, or of the real part of the inner product of the vector with itself.", "quantifier": "all vectors, lengths, strides, tunings, folds; for the inner product finite products and blocks of at most half the endurance (C29)", "why_tests_cant": "Signs and turns can be chosen element by element: 8^N variants of each vector.", "anchors": ["src/binnedBLAS/dmdssq.ccog:binnedBLAS_dmdssq", "src/reproBLAS/rdnrm2.c:reproBLAS_rdnrm2", "src/reproBLAS/rdznrm2.c:reproBLAS_rdznrm2", "src/reproBLAS/rdzasum.c:reproBLAS_rdzasum", "src/reproBLAS/rzdotc_sub.c:reproBLAS_rzdotc_sub"]}
{"id": "C92", "title": "Entries of complex matrix products are inner products", "statement": "With alpha = 1 and beta = 0 each element of reproBLAS_rzgemv and rzgemm is bit-identical to reproBLAS_rzdotu of the stored row and column (or vector), and with one conjugate-transposed operand to reproBLAS_rzdotc with the conjugated operand's vector first. Both parts of each element are accurate, and exact for integer parts whose sums of products fit the significand.", "quantifier": "all matrices, shapes, orders, transpositions, strides, block sizes, tunings and folds; finite products; the calls C40 and C47 do not refute", "why_tests_cant": "Shapes and data are unbounded; each order and flag takes its own code path.", "anchors": ["src/reproBLAS/rzgemm.c:reproBLAS_rzgemm", "src/reproBLAS/rzgemv.c:reproBLAS_rzgemv", "src/binnedBLAS/zbzgemm.ccog:binnedBLAS_zbzgemm", "src/binnedBLAS/zbzgemv.ccog:binnedBLAS_zbzgemv", "src/reproBLAS/rzdotu_sub.c:reproBLAS_rzdotu_sub"]}
{"id": "C93", "title": "Accuracy of matrix products with any alpha and beta", "statement": "Each element of reproBLAS_rdgemm, rdgemv, rzgemm and rzgemv, for every alpha and beta, is within the library's error bound (C55 with one rounding per product, C90 for the complex parts) of the exact sum of its terms: the products of the scaled entries and, unless beta = 0, beta times the old element; no term of the old element enters when beta = 0 and no product when alpha = 0. For the real routines that sum differs from alpha*op(A)op(B)+beta*C, taken exactly, by at most the rounding of the scaled entries.", "quantifier": "all matrices, shapes, orders, transpositions, strides, block sizes, tunings and folds; finite products and finite beta*c; for complex types the calls C40 and C47 do not refute", "why_tests_cant": "An error bound for every input of every size is a statement about reals; tests check samples against a reference that rounds as well.", "anchors": ["src/reproBLAS/rdgemm.c:reproBLAS_rdgemm", "src/reproBLAS/rdgemv.c:reproBLAS_rdgemv", "src/reproBLAS/rzgemm.c:reproBLAS_rzgemm", "src/reproBLAS/rzgemv.c:reproBLAS_rzgemv"]}
{"id": "C94", "title": "Complex matrix products relative to the exact result", "statement": "For every complex alpha and beta the sum of terms that C93 bounds each part of an element of reproBLAS_rzgemm and rzgemv by differs from that part of alpha*op(A)op(B)+beta*C, taken exactly, by at most (2+u)u|alpha||a_ik|+4*2^(emin-1) times |b_kj| for each product and the same for beta*c (magnitudes as sums of both parts): the rounding of the complex scalings and nothing else.", "quantifier": "all complex alpha, beta, matrices, shapes, orders, transpositions, strides, block sizes, tunings and folds; finite products; the calls C40 and C47 do not refute", "why_tests_cant": "A bound relative to the exact complex result for all inputs and sizes cannot be tested.", "anchors": ["src/reproBLAS/rzgemm.c:reproBLAS_rzgemm", "src/reproBLAS/rzgemv.c:reproBLAS_rzgemv", "src/binnedBLAS/zbzgemm.ccog:binnedBLAS_zbzgemm", "src/binnedBLAS/zbzgemv.ccog:binnedBLAS_zbzgemv"]}
{"id": "C95", "title": "Scaling vectors, rows and columns by whole bins scales inner and matrix products, bit for bit", "statement": "Multiplying X by 2^(W s) and Y by 2^(W s'), with W the bin width, multiplies reproBLAS_rddot by 2^(W (s+s')) exactly; in reproBLAS_rdgemm (alpha 1, beta 0) multiplying row i of op(A) by 2^(W s_i) and column j of op(B) by 2^(W s'_j), each row and column by its own power, multiplies element (i,j) by 2^(W (s_i+s'_j)) exactly, and likewise row i of op(A) and the vector in reproBLAS_rdgemv, whatever the orders, transpositions, strides, leading dimensions, block sizes and tunings of the two calls.", "quantifier": "all vectors, matrices, shapes, layouts, scales, folds, tunings; finite products, none of them underflowing before scaling, and the scaled sum within the range of the format", "why_tests_cant": "Equality of two results for all inputs, layouts and scales is not a finite set of cases.", "anchors": ["src/reproBLAS/rddot.c:reproBLAS_rddot", "src/reproBLAS/rdgemv.c:reproBLAS_rdgemv", "src/reproBLAS/rdgemm.c:reproBLAS_rdgemm", "src/binned/ddbconv.c:binned_ddbconv"]}
{"id": "C96", "title": "Scaling by whole bins scales complex inner and matrix products, bit for bit", "statement": "Multiplying both parts of X by 2^(W s) and of Y by 2^(W s'), with W the bin width, multiplies both parts of reproBLAS_rzdotu and rzdotc by 2^(W (s+s')) exactly; in reproBLAS_rzgemm and rzgemv (alpha 1, beta 0) scaling each row i of op(A) by its own 2^(W s_i) and each column j of op(B) (or the vector) by its own 2^(W s'_j) multiplies both parts of element (i,j) by 2^(W (s_i+s'_j)) exactly, whatever the orders, transpositions, strides, block sizes and tunings of the two calls.", "quantifier": "all complex vectors, matrices, shapes, layouts, scales, folds, tunings; finite products, none of them underflowing before scaling, the scaled sums within range, blocks of at most half the endurance; the calls C40 and C47 do not refute", "why_tests_cant": "Equality of two results for all inputs, layouts and scales is not a finite set of cases.", "anchors": ["src/reproBLAS/rzdotu_sub.c:reproBLAS_rzdotu_sub", "src/reproBLAS/rzdotc_sub.c:reproBLAS_rzdotc_sub", "src/reproBLAS/rzgemm.c:reproBLAS_rzgemm", "src/reproBLAS/rzgemv.c:reproBLAS_rzgemv"]}
{"id": "C97", "title": "Scaling a vector by whole bins scales its Euclidean norm, bit for bit", "statement": "Multiplying every element by 2^(W s), with W the bin width, multiplies reproBLAS_rdnrm2 (rsnrm2) and, for both parts of complex elements, reproBLAS_rdznrm2 (rscnrm2) by 2^(W s) exactly, whatever the orders of the elements, strides, block sizes and tunings of the two calls: the library's scale moves with the data and the scaled squares are the same numbers.", "quantifier": "all finite vectors, orders, strides, tunings, folds within ssq_fold and s >= 0, where the largest magnitude is at least 2^(W-2) times the least normal number and does not move across 1, the first norm is normal and the second does not overflow", "why_tests_cant": "Equality of two results for all inputs and scales is not a finite set of cases.", "anchors": ["src/reproBLAS/rdnrm2.c:reproBLAS_rdnrm2", "src/reproBLAS/rdznrm2.c:reproBLAS_rdznrm2", "src/binned/dscale.c:binned_dscale", "src/binnedBLAS/dmdssq.ccog:binnedBLAS_dmdssq"]}
{"id": "C98", "title": "Scaling by whole bins scales absolute sums and complex sums, bit for bit", "statement": "Multiplying every element by 2^(W s), with W the bin width, multiplies reproBLAS_rdasum (rsasum) and reproBLAS_rdzasum (rscasum) by 2^(W s) exactly. For reproBLAS_rzsum (rcsum) the real and imaginary parts may be scaled by different numbers of bins, and each part of the result scales by its own. Orders, strides, block sizes and tunings of the two calls may differ.", "quantifier": "all finite vectors, strides, tunings, folds from 2 to MAXFOLD and nonnegative numbers of bins, where the leading fold bins of the unscaled data exist and the scaled sum does not overflow", "why_tests_cant": "Equality of two results for all inputs and scales is not a finite set of cases.", "anchors": ["src/reproBLAS/rdasum.c:reproBLAS_rdasum", "src/reproBLAS/rdzasum.c:reproBLAS_rdzasum", "src/reproBLAS/rzsum_sub.c:reproBLAS_rzsum_sub"]}
{"id": "C99", "title": "The default-fold routines scale with their data", "statement": "Without choosing a fold, a user who multiplies the data by 2^(W s), W the bin width, gets the result multiplied by 2^(W s), bit for bit: reproBLAS_dsum, dasum, dnrm2, dzasum and the two parts of zsum (single precision likewise); in reproBLAS_ddot each vector may be scaled by its own number of bins.", "quantifier": "all finite vectors, strides, tunings and nonnegative numbers of bins, where the three leading bins of the unscaled data exist, nothing underflows in the products and the scaled result does not overflow", "why_tests_cant": "Equality of two results for all inputs and scales is not a finite set of cases.", "anchors": ["src/reproBLAS/dsum.c:reproBLAS_dsum", "src/reproBLAS/dasum.c:reproBLAS_dasum", "src/reproBLAS/ddot.c:reproBLAS_ddot", "src/reproBLAS/dnrm2.c:reproBLAS_dnrm2", "src/reproBLAS/zsum_sub.c:reproBLAS_zsum_sub", "src/reproBLAS/dzasum.c:reproBLAS_dzasum"]}
