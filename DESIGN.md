# Formal model of secretflow/spu: design

The sources in `/repo` are read as text; the model is written in Coq 8.16.1.
This file says, per property of `properties.jsonl`, what is modelled, how it is
proved, and what the trusted base is.

## Layout of `rocq/theories`

For every topic `T`:

* `T_model.v`  - executable Gallina transcription of the code, each definition
  citing file and lines of `/repo`.  No proofs.
* `T_spec.v`   - the small independent specification the theorems speak about
  (where the specification is not already a standard-library notion).
* `T_proof.v`  - lemmas.
* `T_props.v`  - only the property theorems (`exact lemma`), an `Example` with a
  concrete non-trivial instance beside each of them, and `Print Assumptions`.

`Base.v` holds general lemmas (modular arithmetic, bits, lists, sums,
permutations).

## Modelling conventions

* A ring element of width `k` is a `Z` in `[0,2^k)`; every operation writes its
  `mod 2^k` explicitly.  Signed readings go through `sgn k`.
* A vector / tensor is a `list Z` (row-major) unless the property is about
  strides, in which case buffer, shape, strides and offset are explicit.
* A protocol kernel is modelled as a function from the list of all parties'
  local states and a random tape to the list of all parties' outputs.  Messages
  are the list positions read by other parties.  Randomness is a universally
  quantified argument, never an axiom.  PRG streams are arbitrary functions
  `seed -> counter -> Z` taken as arguments.
* C++ undefined behaviour, `SPU_ENFORCE` failures and exceptions are distinct
  outcomes (`Ub`, `Err`) and never silently mapped to a normal value.
* Where the code violates the property, the theorem is named `..._refuted` and
  exhibits the witness; the correct restricted statement is proved next to it.

## Which code is modelled where

| files | source under `/repo/src/libspu` | properties |
|---|---|---|
| Enc | `core/encoding` | C01 C02 |
| Nd, Ndm (Ndr, Ndv) | `core/shape`, `core/ndarray_ref`, `core/pforeach`-free views and copies, pack/unpack of `core/vectorize.h` | C03-C08 C49 |
| Ring | `mpc/utils/ring_ops` | C50 |
| Semi, Party, Share_spec | `mpc/semi2k/{arithmetic,boolean,io}` | C09 C10 C11 C16 C17 |
| Beaver (Beaverc), Trunc | `mpc/semi2k/beaver` TFP provider, trusted party, cache | C11 C12 C13 |
| Ttp (Ttps) | `mpc/semi2k/beaver/beaver_impl/beaver_ttp.cc`, `ttp_server/beaver_server.cc`: the reply stream | C14 |
| Ttpp (Ttpc, Ttpf) | `beaver_ttp.cc` operations, `beaver_server.cc` AdjustImpl / AdjustAndSend, `trusted_party.cc` | C54 |
| Prg | `mpc/common/prg_state` | C15 |
| Conv | `mpc/semi2k/conversion` | C18 C21 |
| Circ (Circc, Circr) | `core/bit_utils.h`, `mpc/utils/circuits.h`, `mpc/ab_api.cc` | C19 C20 |
| Perm | `mpc/utils/permute`, `mpc/semi2k/permute` | C22 C23 |
| Wak (Wake, Wakn) | `mpc/utils/waksman_net`, `mpc/cheetah/permute.cc` | C24 |
| Aby (Abyb, Abyc, Abyt) | `mpc/aby3` | C25-C28 |
| Fxp (Fxpn, Fxps) | `kernel/hal/fxp_base.cc` multiplication, squaring, reciprocal, division; `_trunc`, `_bitrev`; semi2k `BitrevB` and the choice of truncation kernel.  Not: cleartext double computation of all-public operands, polynomials | C57 C58 |
| Idiv | `kernel/hal/polymorphic.cc` idiv, greater, less_equal, greater_equal; `kernel/hlo/basic_binary.cc` Remainder of two integers or two fixed-point numbers.  Not: both operands public (double) | C59 C60 |
| Cnv | `kernel/hlo/convolution.cc` Convolution2D; `kernel/hlo/basic_binary.cc` DotGeneral; `kernel/hal/shape_ops.cc` slice, concatenate on elements; `kernel/hal/utils.cc` unsqueeze.  Not: the truncation of fixed-point results (C57), concatenation of arrays of different storage types | C61 C62 |
| Snn (Snc, Snw) | `mpc/securenn/{arithmetic,boolean,conversion,io}.cc` without Msb_opt | C55 C56 |
| Pv (Pva, Pvg, Pvm, Pvs) | `mpc/common/pv2k.cc`, `kernel/hal/permute.cc` (sort of keys of any visibility) | C29 C35 C52 |
| Gfmp, Pock | `mpc/utils/gfmp.h`, `gfmp_ops.cc`; primality of the moduli by Pocklington certificates | C30 |
| Disp, Disps, Dispd | `kernel/hal/{ring,prot_wrapper}.cc`, `mpc/api.cc`, semi2k kernels as a protocol | C31 |
| Abyp | `mpc/aby3/protocol.cc` regAby3Protocol: the aby3 kernels (C25-C27) as a protocol record for the Disp, Hlo and Dyn models | C63 C64 |
| Mm (Mmm, Mmt) | `_mmul` tiling, `_tensordot` in `kernel/hal/ring.cc` | C32 |
| Sort (Sortc, Sortn, Sortq, Sortr) | `kernel/hal/permute.cc` networks, quicksort, top-k | C33 C34 |
| Radix (Radixk, Radixs) | `kernel/hal/permute.cc` radix sort | C35 |
| Redn, Rednw | `kernel/hlo/reduce.cc` Reduce, ReduceWindow (without the mask operand), `kernel/hlo/utils.cc` expandWindow, `core/shape.h` bumpIndices | C65 C66 |
| Scan, Fold, Vred | `kernel/hal/utils.h`, `kernel/hlo/reduce.cc`, vreduce | C36 C37 C49 |
| Group (Groups) | `kernel/hal/group_by_agg.cc` | C38 |
| Hlo (Hlor), Hloc | `kernel/hal/{type_cast,fxp_base,integer,polymorphic}.cc`, `kernel/hlo/{basic_unary,shift,control_flow}.cc` | C39 C40 C41 C51 |
| Dyn (Dynu, Dynw) | `kernel/hlo/indexing.cc` | C42 |
| Gath, Gathm | `kernel/hlo/indexing.cc` Gather (public indices, real operands), FilterByMask, LinearGather, LinearScatterInPlace (one type), `kernel/hlo/utils.h` forEachIndex | C69 C70 |
| Sas, Sasw, Sass | `kernel/hlo/select_and_scatter.cc` | C71 |
| Amax | `kernel/hlo/reduce.cc` ArgMax, ArgMax1x2x2x1NoPaddingWithoutDilation, ReduceWindowWithoutDilation with a mask | C72 |
| Val | `core/value.cc` | C43 |
| Exec (Execs, Exect) | `device/executor.cc` | C44 |
| Comm | `mpc/common/communicator` | C45 |
| Spdz, Spdzc, Spdzh | `mpc/spdz2k/arithmetic.cc` (arithmetic shares), `mpc/spdz2k/io.cc` (secrets), `mpc/spdz2k/beaver/{beaver_tfp,trusted_party}.cc` | C67 C68 |
| Oram (Oramg) | `mpc/aby3/oram.{h,cc}`, one axis of `kernel/hlo/indexing.cc` SecretDynamicSliceOramImpl | C73 |
| Shuf | `mpc/aby3/permute.cc` (utils/permute.cc in Perm) | C74 |
| Lowmc | `mpc/utils/lowmc_utils.cc` (dot_product_gf2, generate_round_keys), `mpc/utils/lowmc.cc` (encrypt, decrypt, Substitution), `mpc/semi2k/lowmc.cc`; not the generation of the matrices | C75 |
| Pexp | `mpc/semi2k/exp.cc`, `mpc/semi2k/prime_utils.cc`, `MulPriv` of the dealer modulo the prime; the doubles are integer arguments | C76 |
| Sync (Syncs) | `device/io.cc`, `device/symbol_table.cc` | C46 |
| Ty | `core/type`, `core/type_util`, `type.{h,cc}` of every protocol | C47 |
| Tile | `mpc/utils/tiling_util.h` | C48 |

Names in parentheses are the further proof files of a topic.

Not modelled: the compiler (`libspu/compiler`, `dialect`), the
OT-extension and homomorphic parts of cheetah, boolean shares and the OT-based dealer of spdz2k, swift beyond its
type strings, transcendental functions and their
approximation error (`kernel/hal/fxp_approx.cc`), the Python
bindings, logging and tracing, brpc, protobuf byte encodings, int64 overflow of
shapes and offsets, memory exhaustion.  Each model file says at its head and at
each definition what is simplified.

One idealisation recurs: `add_aa(_2a(x), _2a(y))`-style calls evaluate their
arguments from left to right in the model.  C++ leaves the order open, and both
arguments may communicate; two parties whose compilers choose different orders
would exchange messages in different orders.

## Model and proof per property

| id | modelled | proof idea |
|---|---|---|
| C01 | encodeToRing / decodeFromRing integer branches, DT_I1 | case analysis on the cast `mod 2^k`, sign extension lemmas |
| C02 | float branch on dyadic numbers, NaN, infinities | exact integer arithmetic on `m*2^e` |
| C03 | flattenIndex, unflattenIndex, bumpIndices | induction over the shape |
| C04 | NdArrayRef slice / transpose / reverse / broadcast_to as (shape,strides,offset) transformers | address = offset + sum idx*stride, linear algebra over lists |
| C05 | reshape with attempt_nocopy_reshape (loops with fuel) and clone | invariant of the two-pointer loop |
| C06 | can_use_fast_indexing, at(flat), Iterator++ | induction over shape; iterator = row-major enumeration |
| C07 | slice then broadcast_to | refuted by a concrete strided slice; proved when the unit stride is 0 |
| C08 | pad, expand, concatenate, update_slice | per-index semantics; expand on empty shape refuted (runs past the buffer) |
| C09 | semi2k P2A/V2A/A2P/A2V, P2B/B2P, io toShares/fromShares for n parties | telescoping sum of PRSS differences |
| C10 | semi2k linear kernels | sums mod 2^k, xor folds |
| C11 | semi2k MulAA/SquareA/MatMulAA/MulA1B/MulVVS with MulOpen and cache | ring identity over sums; cache as state machine with invariant |
| C12 | trusted_party adjust functions | ring identities |
| C13 | counters of BeaverTfp/BeaverTtp request by request | interval disjointness by induction; Dot with fresh replay descriptor refuted |
| C14 | beaver server chunking and client reassembly | refuted for the multi-chunk two-buffer case, proved for the rest |
| C15 | PrgState counters, forks | invariant over histories |
| C16 | TruncA two-party branch | integer case analysis + counting lemma |
| C17 | TruncAPr, TruncAPr2 | integer case analysis on carries |
| C18 | semi2k A2B, B2A variants | adders + random bits identities |
| C19 | kogge_stone, sklansky, carry_out as bit-level circuits | generate/propagate segment semantics, induction on levels |
| C20 | BitIntl/BitDeintl with their masks | linear bit maps: finite sweep of bit positions lifted to all words |
| C21 | MsbA2B, eqz | carry of low bits, AND-tree |
| C22 | PermAM, InvPermAM, SecureInvPerm | induction over the parties |
| C23 | applyPerm, applyInvPerm, genInversePerm, genPermBySort | list/permutation lemmas |
| C24 | Waksman routing and evaluation | induction on size, two-colouring invariant of the looping algorithm |
| C25-C28 | aby3 kernels | three-party ring identities |
| C29 | pv2k sort/merge/group mark kernels | stable sort uniqueness |
| C30 | gfmp.h | modular arithmetic, Fermat / extended Euclid |
| C31 | hal/ring.cc dispatch | case analysis over visibilities against a per-kernel contract |
| C32 | `_mmul` tiling, `_tensordot` | sum splitting |
| C33 | odd_even_merge_sort | 0-1 principle, truncation of the power-of-two network |
| C34 | Partition / QuickMergesort / QuickSelectTopk | loop invariants with arbitrary tapes |
| C35 | radix sort by bit vectors | stable counting step, composition |
| C36 | associative_scan / associative_reduce | strong induction on length |
| C37 | TreeReduce / Reduce | commutative monoid folds |
| C38 | private_groupby_sum_1d | runs of a sorted list, prefix sums |
| C39 | fxp2int, int2fxp, floor, ceil | integer division lemmas; `1 << fxp_bits` as an `int` is UB for >= 31 |
| C40 | integer power | square-and-multiply invariant; refuted for large exponents |
| C41 | IfElse, Case, While | case analysis, mask sums |
| C42 | DynamicSlice etc. | clamp lemmas; mixed visibility refuted |
| C43 | toProto / fromProto | chunk algebra; memory safety refuted |
| C44 | BlockParallelRunner as a labelled transition system | invariant over all schedules + progress; zero-operand ops refuted |
| C45 | communicator collectives | message lists, any delivery order |
| C46 | ColocatedIo::sync | all-to-all exchange |
| C47 | type printing/parsing | string lemmas |
| C48 | tiled kernels | list concatenation |
| C49 | vmap / vreduce, pack / unpack | list concatenation |
| C50 | ring_ops | modular lemmas, Z.testbit |
| C51 | hlo shift with secret amount | sum of one-hot masks |
| C52 | pv2k rounded arithmetic right shift | integer division |
| C53 | group-by average on the sums of C38 | runs of a sorted list |
| C54 | correlated randomness through the beaver server | the operands of a chunk are the operands of the request shifted by the elements already answered (invariant over the chunk loop), then C14 and the relations of the first-party provider moved to any adjusting rank; refuted for TruncPr of more than one chunk |
| C55 | SecureNN kernels, arrays over generator streams | invariants "P2 holds zero" and "neighbours' streams agree", preserved by every kernel; bilinear forms for both products |
| C56 | SecureNN ShareConvert / Msb | the running sum of the private comparison is zero exactly at the highest differing bit (induction from the top bit), wrap counts modulo 2^k - 1; refuted for the masks, range and thread interleavings named below.  The final A2B takes any valid AND triples instead of threading the generator state through the adder |
| C57 | fixed-point products | generic over a protocol whose truncation errs by 0 or 1 (Fxp_spec.trunc_ok), instantiated with semi2k TruncAPr / TruncAPr2 |
| C58 | Goldschmidt reciprocal, division | the normalising factor is 2^(2f-1-m) for the highest bit m (prefix-or, bit reversal, mask); bounds on the error term and on the residual c r + U e - U^2 are invariants of the iteration with truncated products (Fxpn_proof), then transferred to the operands |
| C59 | integer division | the approximate quotient is off by at most one under the stated accuracy condition; one comparison up and one down repair it; signs are split off and put back |
| C60 | remainder | subtraction of the product; floor of a non-negative and ceiling of a negative quotient are its truncation |
| C61 | convolution | every window is a slice; the stack of windows reshapes to the six-dimensional array whose tensor product with the filters (C32) is the direct sum |
| C62 | batched products | every batch is a slice; concatenation of the products along the first axis |
| C63 | hal, control flow and dynamic slices over aby3 | the contract `proto_ok` is parametrised by a mode (Disp_spec): `shiftless` leaves out the boolean shift kernels; the aby3 kernels satisfy it, so the lemmas of C31, C41, C42 that do not shift boolean shares apply |
| C64 | shifts and what is built on them over aby3 | mode `lenient`: a kernel that throws or has undefined behaviour satisfies the contract vacuously, so the lemmas say that every completed run is right |
| C65 | Reduce over axes | the row of an output element is a permutation of the elements agreeing with it (NoDup and membership); C37 for each row |
| C66 | ReduceWindow | `bump` enumerates row-major indices; padding read from the result side; each window a strided slice; both paths |
| C67 | spdz2k, honest runs | a share is a pair of sharings, of v and of v times the key modulo 2^K; every kernel maps congruences of totals to congruences of totals; the plaintext is v modulo 2^k |
| C68 | spdz2k, deviations | the sum of the responses is the added response minus key times combined error; per coin the passing keys lie in one class modulo 2^(s-u), u from the 2-adic valuation of the combined error; the coins with a given valuation lie in one class; double counting |
| C69 C70 | Gather, masks, positions | the nested index loops visit every result index once; each write stores the operand element at clamped start plus offset; loop invariant on the window and start buffers |
| C71 | select and scatter | tree reduction with any function: a relation closed under concatenation and permutation; the part of one window position holds the source of the only window that can reach a cell; exchange of sums over windows and positions |
| C72 | arg-max over windows | the tree reduction of C71 with the order "no cell above"; the fast path through what each strided slice reads, then cases on three comparisons |
| C73 | oblivious reads of aby3 | off the path to the index both parties hold equal keys and flags, on it their flags differ (invariant per tree layer); the opened correction word is the difference on the side left (masked products bit by bit); the conversion cancels because the flag difference is its own inverse |
| C74 | three-party shuffle | loops with distinct targets write every cell once (as C23); the element at the permuted position of the two masked halves sums to the input element; the received vectors are affine in the masks the receiver lacks, with invertible coefficient |
| C75 | LowMC cipher | the parity fold gives every bit of a matrix product, so products are linear and commute with xor sharing; the boxes bit by bit against the formula, in the table, packed and shared versions; rounds by induction; joined inputs bit by bit |
| C76 | exponential through a prime field | congruences of the masked products; the wrap bit by cases on the halves; floor inequalities for the shift; Fermat (C30) for exponents modulo p - 1 |

Not expressible here: wall-clock performance, cryptographic
indistinguishability of the PRG, memory behaviour of third-party libraries.

## Findings

Claims that are false of the code as written, each with a machine-checked
witness.  `Ub` is C++ undefined behaviour, `Err` a thrown exception.

| theorem | what the code does |
|---|---|
| C02_fxp_bits_too_large_refuted | `1 << fxp_bits` with fxp_bits >= ring width is undefined |
| C04_reverse_duplicate_axis_refuted | `reverse` does not check for repeated axes and moves the offset twice |
| C07_strided_slice_broadcast_refuted | broadcasting a strided slice of one element reads dropped elements |
| C08_pad_empty_result_refuted | pad to an empty result writes outside the allocation |
| C08_scatter_broadcast_refuted | `linear_scatter` writes through a broadcast view |
| C13_dot_mask_reuse_refuted, C13_dot_same_masks_refuted | `Dot` with a fresh descriptor draws both masks, the product mask and the next request's mask from one counter |
| C14_two_arrays_refuted | a TruncPr reply of more than one chunk (32 MiB per array) is interleaved by the server and not by the client: wrong correlated randomness |
| C14_over_read_refuted | `copy_to_buffer` bounds a copy by the whole piece instead of what is left of it and reads behind the part |
| C54_truncpr_refuted | a TruncPr request of two chunks over a lossless transport gives a wrong triple without any error |
| C15_unmatched_refuted | PRSS streams separate when parties draw unmatched halves |
| C18_b2a_adder_narrow_refuted | B2A by adder rejects shares with fewer declared bits |
| C23_not_a_permutation_refuted | applyInvPerm / applyPerm outside permutations: uninitialised results, reads past the end |
| C24_single_refuted | cheetah's permutation refuses vectors of one element; the routing alone underflows |
| C25_bool_shift_refuted, C25_narrow_shift_refuted | aby3 boolean shifts of narrow shares: undefined or refused |
| C27_roles_refuted, C28_roles_refuted | the two top values of the public 64-bit pivot give two parties one role |
| C28_trunc_sign_refuted | truncation with a negative sign hint is off by 2^(k-d) at zero |
| C29_empty_refuted, C29_unsigned_refuted | empty key columns are indexed out of bounds; unsigned keys are ordered as signed |
| C30_neg_canonical_refuted, C30_mul_words_refuted | `add_inv(0)` is p; `mul_mod` needs reduced operands |
| C31_less_overflow_refuted, C31_popcount_bits_refuted | `less` overflows on far-apart operands; popcount of 7 bits of a secret is refused |
| C32_tensordot_huge_refuted, C32_tensordot_mismatch_refuted | 32-bit row product; axes of different sizes contracted |
| C35_owners_refuted, C35_mergeable_keys_refuted, C35_narrow_signed_key_refuted | private keys of two owners grouped; narrow signed keys mis-sorted |
| C36_reduce_noncommutative_refuted, C37_noncommutative_refuted, C49_vreduce_noncommutative_refuted | reductions need commutativity, not only associativity |
| C37_empty_axis_refuted | an empty reduced axis is refused |
| C39_fxp_to_int_31_refuted, C39_round_* | `1 << fxp_bits` as an int; rounding at the lowest number, one fraction bit, narrow shares |
| C40_large_exponent_refuted | only the low bits of the exponent count |
| C41_private_condition_refuted, C41_scalar_condition_refuted | if/else refuses private conditions and secret scalar conditions for arrays |
| C42_mixed_negative_refuted, C42_mixed_window_refuted, C42_private_update_refuted | public negative start next to a secret one; private first start |
| C43_oversized_refuted, C43_chunk_size_refuted, C43_complex_order_refuted | oversized chunk copied before any check; chunk count overflow; unordered complex chunks |
| C44_capture_without_operand_refuted, C44_effect_without_result_refuted, C44_effect_without_operand_refuted | the parallel executor starts operations too early |
| C45_allreduce_sizes_refuted | allReduce reads past shorter messages |
| C47_*_refuted | type strings that do not parse back to the type; undefined shift on a malformed string |
| C48_view_result_refuted, C49_unpack_of_view_refuted | raw copies of kernel results ignore strides |
| C50_neg_min_refuted, C50_bitrev_top_refuted, C50_all_equal_overflow_refuted | signed overflow and full-width shifts in ring_ops |
| C51_narrow_logical_refuted, C51_wide_type_refuted | logical shift of narrow types; loop over type width beyond the ring |
| C52_zero_bits_refuted | public truncation by 0 bits shifts by 2^64-1 |
| C55_mul_random_refuted | SecureNN RandA gives P2 a share, MulAA / MatMulAA / ShareConvert / Msb ignore it: the product of a random secret with a secret is wrong |
| C56_range_refuted | SecureNN's default Msb returns bit k-2, so values of magnitude 2^(k-2) and above get the wrong sign |
| C56_conv_zero_refuted, C56_conv_eta_refuted, C56_msb_mask_refuted | SecureNN's comparison is wrong for masks of probability about 2^-k per element (noticeable in FM32): r0+r1 = 0, P0's share of eta' equal to 1, masked value 2^k-1 |
| C56_threads_refuted | the accumulator of SecureNN's private comparison is declared outside the parallel loop: with more than 50000 elements two threads corrupt it |
| C57_mul_range_refuted | a product between 2^(k-2) and 2^(k-1) in magnitude is truncated to a number of the wrong sign for some masks |
| C58_div_large_refuted | dividing by a number of 2^f or more (256 in FM32, 2^18 in FM64) gives 0 whatever the numerator: the bit reversal covers 2f bits only |
| C58_reciprocal_small_refuted | with more fraction bits than a third of the width, 1/x of tiny x overflows although the result is representable (FM64, 22 bits, x = 2^-22) |
| C59_div_inexact_refuted | integer division is repaired by one unit only: 20000000 / 1 is wrong in FM64 with the default 18 fraction bits and 2 steps |
| C59_div_large_refuted | an integer divisor of 2^f or more (2^18 in FM64) yields 0, 1 or -1: 2^30 / 2^19 = 1 |
| C59_div_wide_refuted | secret integer division has undefined behaviour with 31 fraction bits or more (FM128 default 40): `1 << fxp_bits` in int |
| C60_fxp_remainder_refuted | fixed-point 6 rem 3 = 3: the approximate quotient lies just below 2 |
| C62_empty_batch_refuted | DotGeneral of an empty batch throws (concatenate of no arrays) instead of returning an empty array |
| C62_batch_mismatch_refuted | DotGeneral ignores the surplus batches of a longer right operand without an error |
| C64_narrow_refuted | aby3: the sign bit and the logical right shift of a boolean share stored in fewer bits than the shift amount have undefined behaviour, its arithmetic shift throws |
| C65_empty_axis, C66_empty_result | an empty reduced axis, or a windowed reduction with an empty result, is refused although the result is determined |
| C69_gather_no_indices_refuted | Gather with an empty array of start indices reads and writes out of bounds (forEachIndex always visits once) |
| C69_gather_no_elements_refuted | Gather from an operand without elements returns the operand's shape instead of the result shape |
| C71_padding_refuted, C71_accepts_only_tiled | SelectAndScatter refuses padding and windows that leave an edge uncovered |
| C71_initial_value_refuted | SelectAndScatter combines a non-neutral initial value a wrong number of times |
| C71_first_of_equals_refuted | SelectAndScatter may select a later one of several equal cells |
| C72_dilation_refuted, C72_stride_refuted | ArgMax over 1x2x2x1 windows ignores dilations and the strides along the first and last axis |
| C72_padding | ArgMax refuses padding (the padding value is empty) |
| C66_ignore_init_refuted | ReduceWindow with a dilation combines the initial value although told to ignore it |
| C75_equality_refuted | the cipher behind the shared pseudo-random function draws its linear layers without the rank check (LowMcB::encrypt leaves need_decrypt false), and a random square bit matrix is singular with probability about 0.71: then different inputs have equal results, i.e. an equality join on them can match different keys (with small probability for random keys) |
| C76_exponent_refuted | the experimental exponential converts the exponent wrongly for every sharing whose integer parts do not sum past 2^s (rare for small inputs, but the result is then arbitrary modulo the prime) |
* spdz2k `A2P`, `A2V` and `TruncA` read the MAC with `getMacShare` instead of
  `GetMacShare`: revealing an input on which nothing was computed fails the MAC
  check (C67_reveal_input_refuted, C67_reveal_input_fails).
* spdz2k `MatMulAA` opens `x - a` and `y - b` without any MAC check; a party that
  adds to an opening gets a wrong product with a valid MAC (C68_matmul_refuted).
* spdz2k `AuthArrayRef` authenticates whatever the shares add up to, so a party
  can shift another party's private input (C68_input_shifted).
* spdz2k `RandA` shifts the runtime-ring word, not the data-ring value, by two
  bits; the random value is not in the range its comment asks for
  (C67_rand_range_refuted).

Seen while reading, not the subject of a theorem: `bitDecompose` writes a
`vector<bool>` from a parallel loop in aby3 `B2AByOT`; `rng_uniform` ignores its
shape argument; `deducePadShape` subtracts interior padding for empty
dimensions; `and_sv`/`xor_sv` hand an arithmetic share to `and_bv`/`xor_bv`; `LShiftB`/`RShiftB` take
`*max_element` of an empty list; exceptions in executor worker threads
terminate the process; a `Case` with no branch, or with branches of different
result counts, indexes out of bounds; a server error with an empty message would
be read as success by the beaver client; a beaver server chunked reply is
refused for zero elements.

## Trusted base

* Coq 8.16.1 kernel (and `vm_compute`).
* What `Print Assumptions` lists for each theorem; it is printed by every
  `_props.v` file.  All theorems are "Closed under the global context".
  The files load parts of mathcomp or the SSReflect plugin's library nowhere by
  name; `coqchk` nevertheless reports seven `Coq.ssr.ssrunder.Under_rel.*`
  declarations of the standard library, loaded transitively and used by no theorem.
* The faithfulness of the transcription: the C++ is not executed here.
* External functions (PRG streams, shuffles, comparators, the bodies of regions,
  floating-point tile sizes) are universally quantified arguments, under the
  hypotheses written in each theorem.

## Wrong programs

`seeded/LOG.jsonl` lists the edits of the model tried against the theorems, the
theorems that then failed, and what was tightened.
