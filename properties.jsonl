{"id": "C01", "title": "Integer plaintext encode/decode round trip", "statement": "For every integer plaintext type and every ring at least as wide as that type, encoding a plaintext integer into the ring and decoding it again with the matching plaintext type returns the same integer; a ring narrower than the type is rejected.", "quantifier": "every integer value of every integer plaintext type (I8..I64, U8..U64, I1), every field (FM32/FM64/FM128)", "why_tests_cant": "2^64 values per type and field; tests sample a handful", "anchors": ["src/libspu/core/encoding.cc:encodeToRing", "src/libspu/core/encoding.cc:decodeFromRing"]}
{"id": "C02", "title": "Floating point encode: saturation and error bound", "statement": "Encoding a float into a fixed-point ring element maps NaN to 0, clamps values at or beyond +-2^(k-2-fxp) to the documented largest / smallest code, and otherwise yields a code whose decoded value differs from the input by less than one fixed-point unit and never exceeds it in magnitude. Every code produced lies in [-2^(k-2), 2^(k-2)).", "quantifier": "every finite dyadic input, the infinities and NaN; every field width k and every number of fraction bits fxp <= k-2", "why_tests_cant": "the float inputs and (k,fxp) settings cannot be enumerated", "anchors": ["src/libspu/core/encoding.cc:encodeToRing", "src/libspu/core/encoding.cc:decodeFromRing"]}
{"id": "C03", "title": "Row-major index arithmetic is a bijection", "statement": "flattenIndex and unflattenIndex are mutually inverse between multi-dimensional indices inside a shape and [0,numel), and repeatedly bumping an index from zero visits all indices exactly once in row-major order and then reports exhaustion.", "quantifier": "every shape (any rank, any sizes) and every index inside it", "why_tests_cant": "unbounded ranks and sizes", "anchors": ["src/libspu/core/shape.h:flattenIndex", "src/libspu/core/shape.h:unflattenIndex", "src/libspu/core/ndarray_ref.h:bumpIndices", "src/libspu/core/shape.cc"]}
{"id": "C04", "title": "Strided views denote the array operation they are named after", "statement": "transpose, reverse, slice and broadcast of an array return, at every index, the element the mathematical operation prescribes, for an array that is itself an arbitrary strided view (results of earlier view operations), without copying.", "quantifier": "every rank, shape, stride vector, offset and buffer; every valid axis permutation, axis set, start/end/stride triple and broadcast shape; every index", "why_tests_cant": "combinations of view operations are unbounded", "anchors": ["src/libspu/core/ndarray_ref.cc:NdArrayRef::slice", "src/libspu/core/ndarray_ref.cc:NdArrayRef::transpose", "src/libspu/core/ndarray_ref.cc:NdArrayRef::reverse", "src/libspu/core/ndarray_ref.cc:NdArrayRef::broadcast_to"]}
{"id": "C05", "title": "Reshape preserves the row-major element sequence", "statement": "Reshaping any strided view to any shape with the same number of elements yields an array whose row-major element sequence is that of the input, whether the no-copy path or the copying path is taken; a different number of elements is rejected.", "quantifier": "every pair of shapes with equal numel, every stride vector and offset of the input", "why_tests_cant": "the no-copy stride algorithm branches on unboundedly many shape factorisations", "anchors": ["src/libspu/core/ndarray_ref.cc:NdArrayRef::reshape", "src/libspu/core/ndarray_ref.cc:attempt_nocopy_reshape"]}
{"id": "C06", "title": "Fast linear indexing agrees with strided indexing", "statement": "Whenever an array view uses the fast linear element access, reading the i-th element gives the same buffer element as the strided address of the i-th row-major index; iterating over a view visits exactly those addresses in that order.", "quantifier": "every shape, stride vector and offset, every element position", "why_tests_cant": "shapes and strides are unbounded", "anchors": ["src/libspu/core/ndarray_ref.cc:can_use_fast_indexing", "src/libspu/core/ndarray_ref.h:NdArrayRef::at", "src/libspu/core/ndarray_ref.cc:NdArrayRef::Iterator::operator++"]}
{"id": "C07", "title": "Broadcasting a unit dimension repeats that element", "statement": "Broadcasting a view along a dimension of size 1 repeats the single element along the broadcast dimension, also when the view was produced by slicing.", "quantifier": "every view reachable through slice / reshape / transpose / reverse followed by a broadcast", "why_tests_cant": "depends on the history of view operations", "anchors": ["src/libspu/core/ndarray_ref.cc:NdArrayRef::slice", "src/libspu/core/ndarray_ref.cc:NdArrayRef::broadcast_to"]}
{"id": "C08", "title": "Pad, concatenate and slice update place every element", "statement": "Padding an array (edge padding of either sign and interior padding), concatenating arrays along an axis, and updating a slice produce, at every index, exactly the source element mapped there or else the padding / original element.", "quantifier": "every shape, every padding configuration with a non-empty result, every axis, every start index", "why_tests_cant": "unbounded configurations", "anchors": ["src/libspu/core/ndarray_ref.cc:NdArrayRef::pad", "src/libspu/core/ndarray_ref.cc:NdArrayRef::concatenate", "src/libspu/core/ndarray_ref.cc:NdArrayRef::update_slice", "src/libspu/core/ndarray_ref.cc:NdArrayRef::expand"]}
{"id": "C09", "title": "Secret sharing round trip (semi2k)", "statement": "For any number of parties, converting a public or privately owned value to additive or boolean shares and opening it gives back the value, for every value of the correlated randomness; the same holds for shares produced by the I/O client and recombined.", "quantifier": "every number of parties >= 1, every ring width, every value, every random tape", "why_tests_cant": "all random tapes and all world sizes cannot be run", "anchors": ["src/libspu/mpc/semi2k/arithmetic.cc:P2A", "src/libspu/mpc/semi2k/arithmetic.cc:A2P", "src/libspu/mpc/semi2k/arithmetic.cc:V2A", "src/libspu/mpc/semi2k/io.cc", "src/libspu/mpc/semi2k/boolean.cc:P2B"]}
{"id": "C10", "title": "Linear operations on shares commute with opening (semi2k)", "statement": "Adding shares, adding a public value, negating, multiplying by a public value, left-shifting, and xoring / and-ing with public values all open to the same operation on the plaintexts modulo 2^k (or bitwise).", "quantifier": "every number of parties, width, share vectors and public operands", "why_tests_cant": "exhaustive share vectors cannot be run", "anchors": ["src/libspu/mpc/semi2k/arithmetic.cc:AddAA", "src/libspu/mpc/semi2k/arithmetic.cc:AddAP", "src/libspu/mpc/semi2k/arithmetic.cc:NegateA", "src/libspu/mpc/semi2k/arithmetic.cc:MulAP", "src/libspu/mpc/semi2k/arithmetic.cc:LShiftA", "src/libspu/mpc/semi2k/boolean.cc"]}
{"id": "C11", "title": "Beaver multiplication, squaring and matrix multiplication (semi2k)", "statement": "Multiplying, squaring and matrix-multiplying shared values opens to the exact product modulo 2^k whenever the correlated randomness is a valid triple, for every choice of masks, and also when an operand's masked difference is taken from the cache of an earlier multiplication.", "quantifier": "every number of parties, width, plaintexts, sharings, masks and cache contents; all matrix sizes", "why_tests_cant": "all share and mask values and cache histories cannot be enumerated", "anchors": ["src/libspu/mpc/semi2k/arithmetic.cc:MulAA", "src/libspu/mpc/semi2k/arithmetic.cc:SquareA", "src/libspu/mpc/semi2k/arithmetic.cc:MatMulAA", "src/libspu/mpc/semi2k/arithmetic.cc:MulOpen"]}
{"id": "C12", "title": "Trusted-dealer adjustment makes valid correlated randomness", "statement": "For every primitive (mul, square, dot, and, trunc, trunc-with-probability, random bit, equality, permutation pair) the dealer's adjustment, computed by replaying each party's pseudorandom stream, makes the parties' shares a valid correlation of that kind, for every number of parties and every stream.", "quantifier": "every number of parties, every pseudorandom stream, every size", "why_tests_cant": "quantifies over all PRG outputs", "anchors": ["src/libspu/mpc/semi2k/beaver/beaver_impl/trusted_party/trusted_party.cc", "src/libspu/mpc/semi2k/beaver/beaver_impl/beaver_tfp.cc"]}
{"id": "C13", "title": "Dealer randomness is never reused", "statement": "Two correlated-randomness requests of one execution never draw their masks from overlapping positions of a party's pseudorandom stream, unless the caller explicitly asked to replay a cached mask.", "quantifier": "every sequence of requests of any kinds and sizes, with and without cache descriptors", "why_tests_cant": "reuse depends on the whole request history; outputs stay functionally correct so tests do not notice", "anchors": ["src/libspu/mpc/semi2k/beaver/beaver_impl/beaver_tfp.cc:BeaverTfpUnsafe::Dot", "src/libspu/mpc/semi2k/beaver/beaver_impl/beaver_tfp.cc:BeaverTfpUnsafe::Mul", "src/libspu/mpc/semi2k/beaver/beaver_impl/beaver_ttp.cc"]}
{"id": "C14", "title": "Dealer-server streamed replies are reassembled for every fragmentation", "statement": "The client of the beaver server reconstructs exactly the byte arrays the server produced, however the transport splits the stream into parts.", "quantifier": "every payload, every split of the stream into parts", "why_tests_cant": "all fragmentations of the stream cannot be forced in a test", "anchors": ["src/libspu/mpc/semi2k/beaver/beaver_impl/beaver_ttp.cc:RpcCall", "src/libspu/mpc/semi2k/beaver/beaver_impl/ttp_server/beaver_server.cc"]}
{"id": "C15", "title": "Zero-sharing correlated randomness stays synchronised", "statement": "In every history of pseudorandom-secret-sharing draws executed by all parties, the pairwise streams stay aligned (each party's second stream equals its neighbour's first), so the generated additive (xor) shares of zero open to zero; the same holds after forking the state.", "quantifier": "every number of parties, every sequence of draws and forks, every seed assignment", "why_tests_cant": "quantifies over all histories", "anchors": ["src/libspu/mpc/common/prg_state.cc", "src/libspu/mpc/common/prg_state.h"]}
{"id": "C16", "title": "Local probabilistic truncation error (semi2k, 2 parties)", "statement": "Truncating a shared value by d bits opens to floor(x/2^d) or floor(x/2^d)+1 (as a signed value) whenever the first share does not cause a wrap; the number of first shares for which the result is anything else is at most |x| out of 2^k.", "quantifier": "every plaintext with |x| < 2^(k-1), every share, every d", "why_tests_cant": "failure probability is about 2^-k|x|; tests never hit it", "anchors": ["src/libspu/mpc/semi2k/arithmetic.cc:TruncA"]}
{"id": "C17", "title": "Dealer-aided truncation error (semi2k)", "statement": "Truncation with correlated randomness opens to floor(x/2^d) or floor(x/2^d)+1 for every mask, for every number of parties, under the documented input range.", "quantifier": "every number of parties, plaintext in range, mask value, d", "why_tests_cant": "all masks cannot be run", "anchors": ["src/libspu/mpc/semi2k/arithmetic.cc:TruncAPr", "src/libspu/mpc/semi2k/arithmetic.cc:TruncAPr2"]}
{"id": "C18", "title": "Arithmetic/boolean share conversion is exact", "statement": "Converting arithmetic shares to boolean shares and back preserves the plaintext for every number of parties and all randomness; the boolean share's declared bit count always covers the plaintext.", "quantifier": "every number of parties, width, plaintext, sharing, random bits", "why_tests_cant": "share and random-bit space cannot be enumerated", "anchors": ["src/libspu/mpc/semi2k/conversion.cc:A2B", "src/libspu/mpc/semi2k/conversion.cc:B2A_Randbit", "src/libspu/mpc/semi2k/conversion.cc:B2A_Disassemble"]}
{"id": "C19", "title": "Parallel-prefix adders add", "statement": "The Kogge-Stone and Sklansky parallel-prefix circuits compute x+y modulo 2^nbits for every input, and the carry-out circuit computes the carry of the addition for every bit count (not only powers of two).", "quantifier": "every width, every pair of inputs, every number of valid bits", "why_tests_cant": "2^128 input pairs and beyond", "anchors": ["src/libspu/mpc/utils/circuits.h:kogge_stone", "src/libspu/mpc/utils/circuits.h:sklansky", "src/libspu/mpc/utils/circuits.h:carry_out"]}
{"id": "C20", "title": "Bit interleave and deinterleave are inverse permutations of bit positions", "statement": "Deinterleaving gathers even-position bits into the low half and odd-position bits into the high half of a power-of-two word, interleaving is its inverse, for every word and every supported level.", "quantifier": "every word of every supported width", "why_tests_cant": "2^64 / 2^128 words", "anchors": ["src/libspu/core/bit_utils.h:BitIntl", "src/libspu/core/bit_utils.h:BitDeintl", "src/libspu/mpc/utils/circuits.h:odd_even_split"]}
{"id": "C21", "title": "Secure MSB and equality-to-zero", "statement": "The two-party MSB extraction opens to the sign bit of the plaintext, and the equality-to-zero kernel opens to 1 exactly when the plaintext is zero, for every sharing.", "quantifier": "every width, plaintext and sharing, number of parties", "why_tests_cant": "edge cases depend on share values, not plaintexts", "anchors": ["src/libspu/mpc/semi2k/conversion.cc:MsbA2B", "src/libspu/mpc/semi2k/conversion.cc:EqualAA", "src/libspu/mpc/semi2k/conversion.cc:eqz"]}
{"id": "C22", "title": "Secure permutation of shared vectors (semi2k)", "statement": "Permuting or inversely permuting a shared vector by a shared permutation given as per-party permutations opens to the plaintext vector permuted accordingly, and permuting then inversely permuting is the identity, for every number of parties and every randomness.", "quantifier": "every number of parties, vector, permutation, randomness", "why_tests_cant": "n! permutations times all randomness", "anchors": ["src/libspu/mpc/semi2k/permute.cc:PermAM", "src/libspu/mpc/semi2k/permute.cc:InvPermAM", "src/libspu/mpc/semi2k/permute.cc:SecureInvPerm"]}
{"id": "C23", "title": "Permutation utilities obey the permutation laws", "statement": "applyPerm, applyInvPerm and genInversePerm satisfy: applying and then inversely applying is the identity, the inverse of the inverse is the original, and the sort-generating permutation is a stable ascending sort.", "quantifier": "every length, permutation and vector", "why_tests_cant": "n! permutations", "anchors": ["src/libspu/mpc/utils/permute.cc"]}
{"id": "C24", "title": "Waksman network realises every permutation", "statement": "The switch bits generated for a permutation, when the network of the same size is evaluated with them, permute every input vector exactly by that permutation.", "quantifier": "every size >= 2, every permutation, every vector", "why_tests_cant": "n! permutations for each n; the routing is recursive", "anchors": ["src/libspu/mpc/utils/waksman_net.h", "src/libspu/mpc/utils/waksman_net.cc"]}
{"id": "C25", "title": "Replicated sharing is consistent and opens correctly (aby3)", "statement": "Every aby3 kernel that creates or transforms shares keeps the replicated invariant (each party's second component equals the next party's first), and opening gives the plaintext; any two parties' components determine the value.", "quantifier": "every plaintext, random tape, width", "why_tests_cant": "all tapes cannot be run", "anchors": ["src/libspu/mpc/aby3/arithmetic.cc", "src/libspu/mpc/aby3/boolean.cc", "src/libspu/mpc/aby3/io.cc", "src/libspu/mpc/aby3/value.cc"]}
{"id": "C26", "title": "Multiplication and AND (aby3)", "statement": "Multiplying two replicated-shared values (elementwise or as matrices) opens to the product modulo 2^k, and-ing boolean shares opens to the bitwise and, for every sharing and every zero-share.", "quantifier": "every sharing, width, randomness, matrix size", "why_tests_cant": "share space cannot be enumerated", "anchors": ["src/libspu/mpc/aby3/arithmetic.cc:MulAA", "src/libspu/mpc/aby3/arithmetic.cc:MatMulAA", "src/libspu/mpc/aby3/boolean.cc:AndBB"]}
{"id": "C27", "title": "Conversions, MSB and bit multiplication (aby3)", "statement": "A2B, B2A (both the adder and the oblivious-transfer variants), MSB, equality-to-zero and arithmetic-times-bit multiplication open to the conversion, sign bit, zero test and product of the plaintexts.", "quantifier": "every sharing, width, number of bits, randomness", "why_tests_cant": "share space cannot be enumerated", "anchors": ["src/libspu/mpc/aby3/conversion.cc", "src/libspu/mpc/aby3/arithmetic.cc:MulA1B", "src/libspu/mpc/aby3/ot.cc"]}
{"id": "C28", "title": "Truncation error (aby3)", "statement": "The aby3 truncation kernels open to floor(x/2^d) up to an error of one unit whenever the mask does not wrap, resp. for every mask when the input is in the documented range.", "quantifier": "every plaintext in range, sharing, mask, d", "why_tests_cant": "the mask space cannot be enumerated", "anchors": ["src/libspu/mpc/aby3/arithmetic.cc:TruncA", "src/libspu/mpc/aby3/arithmetic.cc:TruncAPr"]}
{"id": "C29", "title": "Cleartext kernels: stable sorting permutations and group marks", "statement": "On public/private data the inverse permutation generated for a key vector, when applied, sorts the keys stably in the requested direction; key merging preserves the lexicographic order of several keys; group marks flag exactly the first / last element of each run of equal keys.", "quantifier": "every length and key vectors, both directions", "why_tests_cant": "all key vectors cannot be enumerated", "anchors": ["src/libspu/mpc/common/pv2k.cc:GenInvPermP", "src/libspu/mpc/common/pv2k.cc:MergeKeysP", "src/libspu/mpc/common/pv2k.cc:GroupMark"]}
{"id": "C30", "title": "Mersenne prime field arithmetic", "statement": "Addition, subtraction, multiplication, exponentiation and inversion on Mersenne-prime field elements on representatives 0..p agree with arithmetic modulo p and return values in 0..p (canonical, below p, except that negating 0 gives p); x * inverse(x) = 1 for every x not divisible by p, and the three moduli are prime.", "quantifier": "every pair of field elements, for each supported exponent", "why_tests_cant": "2^127 elements", "anchors": ["src/libspu/mpc/utils/gfmp.h"]}
{"id": "C31", "title": "Result of an operation does not depend on visibility", "statement": "Ring-level addition, multiplication, negation, xor, and, equality, comparison, selection and sign give the same plaintext result whether each operand is public, private (of any owner) or secret.", "quantifier": "every combination of visibilities and owners, every operand value", "why_tests_cant": "all value/visibility combinations", "anchors": ["src/libspu/kernel/hal/ring.cc"]}
{"id": "C32", "title": "Blocked matrix multiplication equals matrix multiplication", "statement": "Splitting a matrix product into tiles along m, n and k and accumulating gives exactly the untiled product modulo 2^k, for any tile sizes; tensordot contracts the requested axes.", "quantifier": "every matrix size and memory limit", "why_tests_cant": "unbounded sizes", "anchors": ["src/libspu/kernel/hal/ring.cc:_mmul", "src/libspu/kernel/hal/ring.cc:_tensordot"]}
{"id": "C33", "title": "Sorting network sorts", "statement": "The odd-even merge sorting network applied to vectors of any length (not only powers of two) outputs the sorted permutation of its input under any comparator that is a total preorder, in either direction, and moves payload columns along with their keys.", "quantifier": "every length and every key/payload assignment", "why_tests_cant": "the 0-1 principle needs 2^n inputs for each n", "anchors": ["src/libspu/kernel/hal/permute.cc:odd_even_merge_sort"]}
{"id": "C34", "title": "Quicksort and top-k selection terminate and are correct for every tie-breaking tape", "statement": "Sorting by partition with revealed comparisons returns a sorted permutation, and top-k selection places the k extreme elements first, for every input and every sequence of random tie-breaking bits, whatever the small-array threshold.", "quantifier": "every input vector, comparator, random tape, threshold and k range", "why_tests_cant": "random tapes and adversarial inputs unbounded", "anchors": ["src/libspu/kernel/hal/permute.cc:QuickMergesort", "src/libspu/kernel/hal/permute.cc:Partition", "src/libspu/kernel/hal/permute.cc:QuickSelectTopk"]}
{"id": "C35", "title": "Radix sort is a stable sort for every shuffle", "statement": "The permutation built from the bit vectors of secret keys sorts rows lexicographically by the keys in the requested direction (signed integers by sign, unsigned by magnitude), is stable, and does not depend on the random shuffles used to reveal intermediate permutations.", "quantifier": "every key vectors, widths, directions, shuffles", "why_tests_cant": "unbounded vectors and shuffles", "anchors": ["src/libspu/kernel/hal/permute.cc:_gen_inv_perm_by_bv", "src/libspu/kernel/hal/permute.cc:_gen_bv_vector", "src/libspu/kernel/hal/permute.cc:gen_inv_perm"]}
{"id": "C36", "title": "Associative scan equals the sequential prefix fold", "statement": "The logarithmic-depth scan returns at position i the fold of the first i+1 elements with the given operator, for every associative operator and every length; the associated reduction returns the fold of the whole vector for every associative operator that commutes (not for one that does not).", "quantifier": "every length, vector and associative operator", "why_tests_cant": "unbounded lengths and operators", "anchors": ["src/libspu/kernel/hal/utils.h:associative_scan", "src/libspu/kernel/hal/utils.h:associative_reduce"]}
{"id": "C37", "title": "Tree reduction equals the fold", "statement": "Reducing an axis by repeated halving equals folding the elements with the operator, for every associative commutative operator and every length, including odd lengths and an initial value.", "quantifier": "every length, vector and operator", "why_tests_cant": "unbounded", "anchors": ["src/libspu/kernel/hlo/reduce.cc:TreeReduce", "src/libspu/kernel/hlo/reduce.cc:Reduce"]}
{"id": "C38", "title": "Group-by aggregation sums each group", "statement": "Group-by sum of a payload by (private) keys returns, in its first rows, each distinct key combination once with the modular sum of its payload entries.", "quantifier": "every keys / payload vectors", "why_tests_cant": "unbounded", "anchors": ["src/libspu/kernel/hal/group_by_agg.cc:private_groupby_sum_1d"]}
{"id": "C39", "title": "Fixed-point to integer conversions, floor, ceil, rounding", "statement": "Casting fixed-point to integer truncates toward zero, floor and ceil give the mathematical floor and ceiling, the two rounding modes give the nearest whole number (ties away from zero, ties to even), integer to fixed-point and back is the identity, within the representable range and for every supported number of fraction bits.", "quantifier": "every representable value and every fraction-bit setting", "why_tests_cant": "all values / settings", "anchors": ["src/libspu/kernel/hal/type_cast.cc:fxp2int", "src/libspu/kernel/hal/type_cast.cc:int2fxp", "src/libspu/kernel/hal/fxp_base.cc:f_floor", "src/libspu/kernel/hal/fxp_base.cc:f_ceil"]}
{"id": "C40", "title": "Integer power", "statement": "Raising an integer to an integer power, each public, private or secret, returns x^y modulo 2^k for exponents from 0 up to the bit width k of the ring (exclusive); for a negative exponent it returns the reciprocal power when x is 1 or -1 and zero otherwise.", "quantifier": "every base, every exponent in [0,k) or negative, every visibility", "why_tests_cant": "2^128 pairs", "anchors": ["src/libspu/kernel/hal/polymorphic.cc:power"]}
{"id": "C41", "title": "Secret control flow equals public control flow", "statement": "Selecting with a secret predicate (if/else, case with a secret branch index, while on a revealed predicate) returns the same values as executing only the selected branch, including out-of-range branch indices which select the last branch.", "quantifier": "every predicate / index value, every number of branches, all branch results", "why_tests_cant": "unbounded values", "anchors": ["src/libspu/kernel/hlo/control_flow.cc"]}
{"id": "C42", "title": "Dynamic slice clamps and reads inside the operand", "statement": "Dynamic slice and dynamic update slice with public, secret or mixed start indices clamp each start to [0, dim - size] and read / write exactly that window.", "quantifier": "every shape, size, start index values and visibilities", "why_tests_cant": "mixed-visibility out-of-range starts are not covered and values are unbounded", "anchors": ["src/libspu/kernel/hlo/indexing.cc:DynamicSlice", "src/libspu/kernel/hlo/indexing.cc:SecretDynamicSlice", "src/libspu/kernel/hlo/indexing.cc:DynamicUpdateSlice"]}
{"id": "C43", "title": "Value serialisation round trip for every chunking and arrival order", "statement": "Serialising a value into chunks of any maximum size and parsing the chunks in any order yields a value with the same type, shape and bytes; malformed chunk sets (missing, overlapping, oversized) are rejected without touching memory outside the value's buffer.", "quantifier": "every value, chunk size, chunk order, and every malformed chunk list", "why_tests_cant": "all chunk orders and adversarial inputs", "anchors": ["src/libspu/core/value.cc:Value::toProto", "src/libspu/core/value.cc:Value::fromProto"]}
{"id": "C44", "title": "Parallel block execution equals sequential execution", "statement": "Executing a block's operations with any number of worker threads and any interleaving terminates without deadlock and leaves every value equal to that of sequential execution, provided operations are pure functions of their operands and captured values; operations with side effects keep program order as far as the later one has an operand and the earlier one a result (without these the order is not kept).", "quantifier": "every program block, worker count and schedule", "why_tests_cant": "schedules cannot be enumerated or forced", "anchors": ["src/libspu/device/executor.cc:BlockParallelRunner", "src/libspu/device/executor.cc:runBlock"]}
{"id": "C45", "title": "Collectives deliver the right data to everybody", "statement": "All-reduce gives every party the same fold of all parties' inputs, reduce / gather / broadcast / rotate deliver the documented parts, for any number of parties and any arrival order of messages.", "quantifier": "every number of parties, inputs and delivery order", "why_tests_cant": "arrival orders cannot be enumerated", "anchors": ["src/libspu/mpc/common/communicator.cc"]}
{"id": "C46", "title": "Colocated I/O synchronisation agrees on one symbol table", "statement": "After synchronisation every party holds the same set of variables, each holding the value set by its owner; a name set by two parties is rejected by all of them.", "quantifier": "every number of parties, every set of host variables", "why_tests_cant": "unbounded", "anchors": ["src/libspu/device/io.cc:ColocatedIo::sync"]}
{"id": "C47", "title": "Type strings round trip", "statement": "Printing a value's type and parsing the string back yields an equal type, for every type and every attribute.", "quantifier": "every type kind, field, nbits, owner, exponent", "why_tests_cant": "unbounded attributes", "anchors": ["src/libspu/core/type.cc", "src/libspu/core/type.h"]}
{"id": "C48", "title": "Tiled kernel execution equals untiled execution", "statement": "Running an elementwise kernel tile by tile (any tile size, threads in any order) and merging the results equals running it once on the whole array.", "quantifier": "every shape and tile size, every number of operands", "why_tests_cant": "unbounded", "anchors": ["src/libspu/mpc/kernel.cc", "src/libspu/mpc/utils/tiling_util.h", "src/libspu/core/vectorize.h"]}
{"id": "C49", "title": "Packed vectorised execution equals separate execution", "statement": "Packing several arrays into one, applying an elementwise function once and unpacking gives the same results as applying the function to each array; vectorised reduction equals reduction of the list.", "quantifier": "every list of arrays of any shapes, every elementwise function", "why_tests_cant": "unbounded", "anchors": ["src/libspu/core/vectorize.h:vmap", "src/libspu/core/vectorize.h:vreduce", "src/libspu/core/ndarray_ref.cc:pack", "src/libspu/core/ndarray_ref.cc:unpack"]}
{"id": "C50", "title": "Ring operations implement arithmetic modulo 2^k", "statement": "Ring add, sub, negate, multiply, matrix multiply, shifts (logical, arithmetic), bit reversal, bit mask, sum and equality on unsigned machine words of width k give the result modulo 2^k that integer arithmetic prescribes.", "quantifier": "every width, operands, shift amounts in range", "why_tests_cant": "2^256 operand pairs", "anchors": ["src/libspu/mpc/utils/ring_ops.cc"]}
{"id": "C51", "title": "Secret-amount shifts equal public shifts", "statement": "Shifting by a secret amount yields the same value as shifting by that public amount, for left, logical right and arithmetic right shifts.", "quantifier": "every value and amount in [0,width)", "why_tests_cant": "all pairs", "anchors": ["src/libspu/kernel/hlo/shift.cc"]}
{"id": "C52", "title": "Public and private truncation rounds to nearest", "statement": "Truncating a public or private ring element by b bits yields the integer nearest to x / 2^b (halves rounded towards +infinity) for the signed reading of x, so the rescaling error of public fixed-point products is at most half a unit.", "quantifier": "every width, every bit count 0 < b < width, every element", "why_tests_cant": "2^128 elements and every bit count", "anchors": ["src/libspu/mpc/common/pv2k.cc:rounded_arshift", "src/libspu/mpc/common/pv2k.cc:TruncP", "src/libspu/mpc/common/pv2k.cc:TruncV"]}
{"id": "C53", "title": "Group-by average divides each group's sum by its size", "statement": "Group-by average returns, in its first rows, each distinct key combination once, and for each payload the quotient of the group's modular sum by the fixed-point encoding of the group's size; when the rest is dropped, exactly as many rows are returned as there are distinct key combinations.", "quantifier": "every keys / payload vectors, any quotient function, both modes", "why_tests_cant": "unbounded", "anchors": ["src/libspu/kernel/hal/group_by_agg.cc:private_groupby_avg_1d"]}
{"id": "C54", "title": "Correlated randomness obtained from the beaver server is valid", "statement": "When the parties use a beaver server (TTP), every multiplication triple, square pair, matrix triple, AND triple, truncation pair, probabilistic truncation triple, shared bit, permutation pair and conversion pair they obtain satisfies its relation on all its elements, whichever party adjusts, however many chunks the server cuts the request into and however the transport fragments the reply; all parties stay at the same position of their random streams; a truncated or failed reply raises an exception instead of yielding invalid randomness.", "quantifier": "every number of parties, seeds, adjusting rank, ring width, request size, fragmentation of the reply", "why_tests_cant": "requests above 32 MiB, all fragmentations of the stream and all generator outputs are out of reach of tests", "anchors": ["src/libspu/mpc/semi2k/beaver/beaver_impl/beaver_ttp.cc", "src/libspu/mpc/semi2k/beaver/beaver_impl/ttp_server/beaver_server.cc", "src/libspu/mpc/semi2k/beaver/beaver_impl/trusted_party/trusted_party.cc"]}
{"id": "C55", "title": "SecureNN kernels compute on the secrets", "statement": "Under the three-party SecureNN protocol, sharing, opening, addition, negation, multiplication, matrix products, shifts, probabilistic truncation, bitwise AND and boolean-to-arithmetic conversion of secrets (inputs, constants, random secrets or results of other operations) give results that open to the ring result of the operation on the opened inputs, and the parties' common random streams never get out of step.", "quantifier": "every field, shape, value, share and random stream", "why_tests_cant": "2^128 values and all streams", "anchors": ["src/libspu/mpc/securenn/arithmetic.cc", "src/libspu/mpc/securenn/boolean.cc:AndBB", "src/libspu/mpc/securenn/conversion.cc:B2A_Randbit", "src/libspu/mpc/securenn/io.cc"]}
{"id": "C56", "title": "SecureNN comparison returns the sign of the secret", "statement": "Under the three-party SecureNN protocol the most significant bit of a shared secret (used by every comparison) is the sign of the secret: share conversion to the odd modulus and the private comparison are exact for every value, share and random mask, however the loop over the elements is split over threads.", "quantifier": "every field, value, share, mask and interleaving", "why_tests_cant": "the failing masks have probability 2^-k and interleavings are nondeterministic", "anchors": ["src/libspu/mpc/securenn/arithmetic.cc:ShareConvert", "src/libspu/mpc/securenn/arithmetic.cc:Msb", "src/libspu/mpc/securenn/conversion.cc:Msb_a2b"]}
{"id": "C57", "title": "Fixed-point products are exact up to one unit in the last place", "statement": "Multiplying or squaring fixed-point numbers of any visibility, whose product's word stays below 2^(k-2) in magnitude, yields a number within 2^-f of the exact product, for every party, whatever shares, randomness and sign hint.", "quantifier": "every field, fraction width, visibility, share, mask and pair of operands in range", "why_tests_cant": "2^128 operands times all masks; truncation errors depend on the masks", "anchors": ["src/libspu/kernel/hal/fxp_base.cc:f_mul", "src/libspu/kernel/hal/fxp_base.cc:f_square", "src/libspu/kernel/hal/ring.cc:_trunc", "src/libspu/mpc/semi2k/arithmetic.cc:TruncAPr"]}
{"id": "C58", "title": "Secret reciprocal and division meet an explicit error bound", "statement": "For private or secret fixed-point operands, reciprocal and division return z with |b z - 1| (or |b z - a|) bounded by the Goldschmidt error 2^-(7*2^(n-1)) of n iterations plus a few units in the last place, for every nonzero denominator and every quotient that is representable.", "quantifier": "every field, fraction width, iteration count, visibility, share, mask, numerator and denominator", "why_tests_cant": "error accumulates over data-dependent truncations; extreme denominators and masks are not reached by random tests", "anchors": ["src/libspu/kernel/hal/fxp_base.cc:div_goldschmidt_general", "src/libspu/kernel/hal/fxp_base.cc:reciprocal_goldschmidt", "src/libspu/kernel/hal/fxp_base.cc:reciprocal_goldschmidt_normalized_approx"]}
{"id": "C59", "title": "Integer division truncates toward zero", "statement": "Dividing private or secret integers returns the quotient rounded toward zero, exactly, for every dividend and every non-zero divisor of the data type.", "quantifier": "every field, fraction width, iteration count, visibility, share, mask, dividend and divisor", "why_tests_cant": "the quotient comes from an approximate fixed-point division corrected by one step; the approximation error depends on operands and masks", "anchors": ["src/libspu/kernel/hal/polymorphic.cc:idiv", "src/libspu/kernel/hal/fxp_base.cc:div_goldschmidt_general"]}
{"id": "C60", "title": "Remainder is the dividend less the truncated quotient times the divisor", "statement": "For private or secret operands, integer remainder is exactly the remainder of truncated division (sign of the dividend, magnitude below the divisor); fixed-point remainder is the dividend less a whole multiple of the divisor with the multiple rounded toward zero.", "quantifier": "every field, fraction width, visibility, share, mask, dividend and divisor", "why_tests_cant": "errors of the approximate quotient near whole numbers depend on operands and masks", "anchors": ["src/libspu/kernel/hlo/basic_binary.cc:Remainder"]}
{"id": "C61", "title": "Two-dimensional convolution equals the direct sum over windows and channels", "statement": "Convolution of a batch of images with a set of filters, operands of any visibility and share type, returns at every output position the sum over the window and the input channels of image times filter, in the ring, with the number of output rows and columns at which the window fits.", "quantifier": "every field, number of parties, image, filter, stride, visibility, share, correlated randomness", "why_tests_cant": "the windows are gathered through slices, concatenation and reshapes into one matrix product; index mistakes show only at particular combinations of sizes and strides", "anchors": ["src/libspu/kernel/hlo/convolution.cc:Convolution2D", "src/libspu/kernel/hal/shape_ops.cc:concatenate"]}
{"id": "C62", "title": "Batched matrix products are computed batch by batch", "statement": "DotGeneral of a batch of matrices with a batch of matrices returns for every batch index the product of the two matrices of that index.", "quantifier": "every field, number of parties, batch size, matrix size, visibility, share, correlated randomness", "why_tests_cant": "all shapes and all shares cannot be enumerated; empty and unequal batches are easily missed", "anchors": ["src/libspu/kernel/hlo/basic_binary.cc:DotGeneral"]}
{"id": "C63", "title": "Three-party operations do not depend on visibility or share type", "statement": "Under aby3, addition, subtraction, multiplication, bitwise operations, negation, equality, comparison, selection, clamp, conversion of share type, if/else, case, dynamic slice and dynamic update slice return the plaintext result, whatever the visibilities of the operands (public, private, secret), the share type of the secret ones (arithmetic, or boolean of any width) and the randomness.", "quantifier": "every field, operand, visibility, share, share type, random draw", "why_tests_cant": "a test uses one visibility per operand and one random tape; the share types produced by earlier operations depend on the whole program", "anchors": ["src/libspu/mpc/aby3/protocol.cc:regAby3Protocol", "src/libspu/kernel/hal/ring.cc:_add", "src/libspu/kernel/hal/ring.cc:_mul", "src/libspu/kernel/hal/ring.cc:_less", "src/libspu/mpc/api.cc:add_ss", "src/libspu/kernel/hlo/control_flow.cc:Case"]}
{"id": "C64", "title": "Three-party shifts and everything built on them do not depend on visibility or share type", "statement": "Under aby3, sign bit, sign, shifts by public and secret amounts, parity, prefix-or, population count, conversions between integer and fixed point, floor, ceil, rounding and power return the plaintext result, whatever the visibilities and share types of the operands and the randomness.", "quantifier": "every field, operand, visibility, share, share type, random draw", "why_tests_cant": "boolean shares carry a data-dependent number of bits; the shift kernels behave differently for narrow ones", "anchors": ["src/libspu/mpc/aby3/boolean.cc:RShiftB", "src/libspu/mpc/aby3/boolean.cc:ARShiftB", "src/libspu/mpc/aby3/boolean.cc:LShiftB", "src/libspu/kernel/hal/prot_wrapper.cc:_msb_s", "src/libspu/kernel/hal/ring.cc:_popcount"]}
{"id": "C65", "title": "Reduction over any set of axes combines exactly the elements of each slice", "statement": "Reduce over any list of axes with an associative and commutative elementwise reducer returns the operand's shape with those axes of length one, and each result element is the combination of exactly the operand elements that agree with it on the other axes, with the initial value unless it is to be ignored.", "quantifier": "every shape, list of axes, reducer, operands, initial value", "why_tests_cant": "the axes are moved by a transpose, flattened and halved repeatedly; a wrong permutation shows only at particular shapes and axis sets", "anchors": ["src/libspu/kernel/hlo/reduce.cc:Reduce", "src/libspu/kernel/hlo/reduce.cc:TreeReduce"]}
{"id": "C66", "title": "Windowed reduction combines exactly the padded elements under each window", "statement": "ReduceWindow with an associative and commutative elementwise reducer returns at every window position the combination of the elements of the padded and base-dilated operand that lie under the strided and dilated window, with the initial value unless it is to be ignored.", "quantifier": "every shape, window, stride, window and base dilation, padding, reducer, operands, initial value", "why_tests_cant": "two code paths, chosen by the dilations, gather the windows by slices and concatenation; all combinations of sizes cannot be enumerated", "anchors": ["src/libspu/kernel/hlo/reduce.cc:ReduceWindow", "src/libspu/kernel/hlo/reduce.cc:ReduceWindowImpl", "src/libspu/kernel/hlo/reduce.cc:ReduceWindowWithoutDilation", "src/libspu/kernel/hlo/utils.cc:expandWindow", "src/libspu/core/shape.h:bumpIndices"]}
{"id": "C67", "title": "Arithmetic on authenticated shares keeps value and MAC in step", "statement": "With the spdz2k protocol, when all parties follow it, sharing a public or private value or an input, negation, addition, multiplication, matrix product, left shift and truncation yield shares whose plaintext is the result modulo 2^k (for truncation within one unit below the floor, provided the masked difference does not overflow) and whose MAC is valid, and revealing to all, to one party or to the outside returns the plaintext.", "quantifier": "every ring size and statistical parameter, number of parties, operands, shares, dealer randomness, coins", "why_tests_cant": "all shares, keys and correlated randomness cannot be enumerated; a MAC out of step shows only when a later check fails", "anchors": ["src/libspu/mpc/spdz2k/arithmetic.cc:MulAA", "src/libspu/mpc/spdz2k/arithmetic.cc:A2P", "src/libspu/mpc/spdz2k/arithmetic.cc:A2V", "src/libspu/mpc/spdz2k/arithmetic.cc:TruncA", "src/libspu/mpc/spdz2k/arithmetic.cc:GetMacShare", "src/libspu/mpc/spdz2k/beaver/trusted_party.cc:adjustAuthMul", "src/libspu/mpc/spdz2k/io.cc:toShares"]}
{"id": "C68", "title": "Tampered openings are caught by the MAC check", "statement": "With the spdz2k protocol, if deviating parties add any error to the opened values and any error, chosen after the coins are known, to the check responses, a reveal, multiplication or truncation returns a wrong result for at most (s+5)/4 * 2^s of the 2^(2s) pairs of coin and key, that is with probability at most (s+5)/4 * 2^-s.", "quantifier": "every ring size, statistical parameter, number of parties, number of elements, operands, shares, dealer randomness, errors and response strategies", "why_tests_cant": "the statement is about the probability over keys and coins of an arbitrary attack; tests run honest parties", "anchors": ["src/libspu/mpc/spdz2k/beaver/beaver_tfp.cc:BatchMacCheck", "src/libspu/mpc/spdz2k/beaver/beaver_tfp.cc:BatchOpen", "src/libspu/mpc/spdz2k/arithmetic.cc:MulAA", "src/libspu/mpc/spdz2k/arithmetic.cc:MatMulAA", "src/libspu/mpc/spdz2k/arithmetic.cc:A2P"]}
{"id": "C69", "title": "Gather reads the addressed windows", "statement": "Gather returns an array of the result shape whose element at every index is the operand element at the start index of its batch, clamped so that the slice lies inside the operand, plus the offset given by its offset dimensions.", "quantifier": "every operand shape, start indices, slice sizes, index vector dimension, offset, collapsed and mapped dimensions that fit together", "why_tests_cant": "dimension lists are remapped through several index vectors and loops; wrong maps show only for particular combinations of dimensions and empty arrays", "anchors": ["src/libspu/kernel/hlo/indexing.cc:Gather", "src/libspu/kernel/hlo/utils.h:forEachIndex"]}
{"id": "C70", "title": "Filtering by a mask and linear gather and scatter address exactly the given positions", "statement": "FilterByMask returns the elements at which the mask is set, in order; LinearGather returns the elements at the given positions; LinearScatterInPlace overwrites exactly the given positions and leaves the others unchanged. Positions inside the array are required: one outside is read out of bounds.", "quantifier": "every array, mask, list of positions", "why_tests_cant": "all masks and position lists cannot be enumerated", "anchors": ["src/libspu/kernel/hlo/indexing.cc:FilterByMask", "src/libspu/kernel/hlo/indexing.cc:LinearGather", "src/libspu/kernel/hlo/indexing.cc:LinearScatterInPlace"]}
{"id": "C71", "title": "Select-and-scatter adds every source to a best cell of its window", "statement": "SelectAndScatter selects in every window a cell that no other cell of the window is preferred to, and every cell of the result is the combination of the initial value and the sources of exactly the windows that selected it; MaxPoolScatter does the same for given marked positions.", "quantifier": "every base shape, window, stride, padding, selection function, scatter function, operands, initial value", "why_tests_cant": "the scatter is computed by padding and reducing one array per window position; overlapping windows, ties, padding and initial values are rarely combined in tests", "anchors": ["src/libspu/kernel/hlo/select_and_scatter.cc:SelectAndScatter", "src/libspu/kernel/hlo/select_and_scatter.cc:ScatterWindow", "src/libspu/kernel/hlo/select_and_scatter.cc:MaxPoolScatter"]}
{"id": "C72", "title": "Arg-max over windows marks one largest cell per window", "statement": "ArgMax returns for every window position the largest of the cells under the window and a mask with exactly one mark, at a position of the window that holds that cell.", "quantifier": "every shape, window, stride, dilation, padding, operand", "why_tests_cant": "windows of two by two take a separate path of strided slices and products of masks; index mistakes show only for particular strides, ties and positions", "anchors": ["src/libspu/kernel/hlo/reduce.cc:ArgMax", "src/libspu/kernel/hlo/reduce.cc:ArgMax1x2x2x1NoPaddingWithoutDilation", "src/libspu/kernel/hlo/reduce.cc:ReduceWindowWithoutDilation"]}
{"id": "C73", "title": "Oblivious reads return the addressed row", "statement": "With three parties, building a one-hot vector from a shared index and reading a secret or public array with it gives a sharing of the row at the index plus the offset, cyclically, and reading at increasing offsets gives the consecutive rows of a slice; the one-hot vector is one at the index, reduced to the bits the array length needs, and zero elsewhere. This holds whatever the block cipher, the keys, the seeds and the random draws are.", "quantifier": "every ring size, array length, index, offset, array contents, sharing, cipher, key, seed and random draw", "why_tests_cant": "the vector comes out of a tree of pseudorandom keys whose corrections must cancel off the path to the index; all lengths, indices, keys and draws cannot be enumerated", "anchors": ["src/libspu/mpc/aby3/oram.cc:OramOneHotAA", "src/libspu/mpc/aby3/oram.cc:OramOneHotAP", "src/libspu/mpc/aby3/oram.cc:OramReadOA", "src/libspu/mpc/aby3/oram.cc:OramReadOP", "src/libspu/mpc/aby3/oram.cc:OramDpf::gen", "src/libspu/mpc/aby3/oram.cc:OramContext::onehotB2A", "src/libspu/kernel/hlo/indexing.cc:SecretDynamicSliceOramImpl"]}
{"id": "C74", "title": "Three-party shuffles permute and unshuffles undo them", "statement": "With three parties, shuffling a shared array with a shared random permutation gives a valid sharing of the array permuted by one permutation of the positions, the same for every array shuffled with it and for all random draws; unshuffling applies its inverse, so each undoes the other. A public permutation is applied likewise. Every message a party receives is uniform over the masks it does not hold, whatever the array.", "quantifier": "every ring size, array length, contents, sharing, permutations, random draws and order of the loop iterations", "why_tests_cant": "the three permutations and masks have to line up across the parties and directions; all lengths, permutations and draws cannot be enumerated, and uniformity is a statement about all draws", "anchors": ["src/libspu/mpc/aby3/permute.cc:RandPermM", "src/libspu/mpc/aby3/permute.cc:PermAM", "src/libspu/mpc/aby3/permute.cc:PermAP", "src/libspu/mpc/aby3/permute.cc:InvPermAM", "src/libspu/mpc/aby3/permute.cc:InvPermAP"]}
{"id": "C75", "title": "The shared block cipher equals the plaintext cipher, and equal results mean equal inputs", "statement": "Encrypting a boolean-shared block with the parties' private keys gives a sharing of the LowMC encryption of the block under the exclusive or of the keys, whatever the sharing and the Beaver triples; decryption undoes encryption; two inputs have equal encryptions exactly when they are equal. Several short inputs are joined to one block from which they can be read off.", "quantifier": "every block size, number of boxes and rounds, matrices, constants, keys, number of parties, sharing, triples, input", "why_tests_cant": "bit matrices, three-bit boxes and packed products have to agree between the plaintext and the shared version for all keys and sharings; that no two inputs collide is a statement about all pairs of inputs and all matrices drawn from the seed", "anchors": ["src/libspu/mpc/semi2k/lowmc.cc:LowMcB::encrypt", "src/libspu/mpc/semi2k/lowmc.cc:Sbox", "src/libspu/mpc/semi2k/lowmc.cc:concate_bits", "src/libspu/mpc/semi2k/lowmc.cc:MultiKeyLowMcB::proc", "src/libspu/mpc/utils/lowmc.cc:LowMC::encrypt", "src/libspu/mpc/utils/lowmc.cc:LowMC::decrypt", "src/libspu/mpc/utils/lowmc_utils.cc:dot_product_gf2", "src/libspu/mpc/utils/lowmc_utils.cc:generate_round_keys"]}
{"id": "C76", "title": "The two-party exponential through a prime field computes the product of the parties' powers", "statement": "The product of a value of each of two parties is shared exactly, in the ring and modulo the prime; shares modulo the prime of a number below half the prime become ring shares of the number shifted right, less than two units too small and one too large; the experimental exponential opens to 2^e times the parties' rounded powers of the fractions, within the same error, e the sum of the integer parts of the scaled shares, whenever the signed shares have opposite signs and the product stays below half the prime.", "quantifier": "every ring size, input, sharing, dealer's pair, offset, number of fraction bits and rounded fraction", "why_tests_cant": "shares are converted between three moduli (2^k, p-1, p); a wrong wrap correction shows only for particular shares, and all sharings cannot be enumerated", "anchors": ["src/libspu/mpc/semi2k/exp.cc:ExpA::proc", "src/libspu/mpc/semi2k/prime_utils.cc:ProbConvRing2k", "src/libspu/mpc/semi2k/prime_utils.cc:MulPriv", "src/libspu/mpc/semi2k/prime_utils.cc:MulPrivModMP", "src/libspu/mpc/semi2k/prime_utils.cc:WrapBitModMP", "src/libspu/mpc/semi2k/prime_utils.cc:ConvMP"]}
