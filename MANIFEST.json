{
 "claims": [
  {
   "property": "C01",
   "status": "proved",
   "theorems": [
    "C01_int_roundtrip",
    "C01_narrow_ring_rejected",
    "C01_tables"
   ],
   "note": ""
  },
  {
   "property": "C02",
   "status": "proved",
   "theorems": [
    "C02_special",
    "C02_finite",
    "C02_fxp_bits_too_large_refuted"
   ],
   "note": "Rounding of decode for |code| >= 2^53 not modelled; refuted theorem shows fxp >= k is UB."
  },
  {
   "property": "C03",
   "status": "proved",
   "theorems": [
    "C03_flatten_unflatten",
    "C03_unflatten_flatten",
    "C03_rank",
    "C03_bump_visits_all"
   ],
   "note": "int64 overflow of sizes not modelled"
  },
  {
   "property": "C04",
   "status": "proved",
   "theorems": [
    "C04_slice",
    "C04_slice_total",
    "C04_transpose",
    "C04_transpose_total",
    "C04_reverse",
    "C04_reverse_total",
    "C04_reverse_duplicate_axis_refuted",
    "C04_broadcast",
    "C04_broadcast_total"
   ],
   "note": "axis lists with duplicates are excluded for reverse (refuted there); broadcast requires unit dims with stride 0 (see C07)"
  },
  {
   "property": "C05",
   "status": "proved",
   "theorems": [
    "C05_reshape",
    "C05_reject"
   ],
   "note": "both the no-copy and the copying path"
  },
  {
   "property": "C06",
   "status": "proved",
   "theorems": [
    "C06_flat_access",
    "C06_iteration",
    "C06_fast_reshape_is_a_view"
   ],
   "note": ""
  },
  {
   "property": "C07",
   "status": "partial",
   "theorems": [
    "C07_fresh",
    "C07_preserved_partial",
    "C04_broadcast",
    "C07_strided_slice_broadcast_refuted"
   ],
   "note": "false of the code for a strided slice that leaves one element (refuted with a witness); proved for fresh arrays, transpose, reverse, reshape and unit-step slices"
  },
  {
   "property": "C08",
   "status": "proved",
   "theorems": [
    "C08_pad",
    "C08_pad_empty_result_refuted",
    "C08_concatenate",
    "C08_concatenate_covers",
    "C08_update_slice",
    "C08_compact_no_overlap",
    "C08_linear_gather",
    "C08_linear_scatter",
    "C08_scatter_broadcast_refuted"
   ],
   "note": "pad: non-empty result, interior padding >= 0; update_slice: destination view without overlapping elements"
  },
  {
   "property": "C09",
   "status": "proved",
   "theorems": [
    "C09_private_to_arith",
    "C09_public_to_arith",
    "C09_open",
    "C09_public_to_bool",
    "C09_bool_nbits",
    "C09_io_roundtrip",
    "C09_io_recombine"
   ],
   "note": "any number of parties; PRSS alignment itself is C15"
  },
  {
   "property": "C10",
   "status": "proved",
   "theorems": [
    "C10_add",
    "C10_negate_mul_shift",
    "C10_matmul_public",
    "C10_bool",
    "C10_bool_shift"
   ],
   "note": "additive and boolean linear kernels, public matmul, shifts"
  },
  {
   "property": "C11",
   "status": "proved",
   "theorems": [
    "C11_cache",
    "C11_mul",
    "C11_square",
    "C11_matmul",
    "C11_mul_by_bit",
    "C11_mul_private_private",
    "C11_and"
   ],
   "note": "mul, square, matmul, and, a*b1, private*private for every valid triple; and for every history of cached products (plain and transposed hits). Buffers are assumed not to be overwritten while cached"
  },
  {
   "property": "C12",
   "status": "proved",
   "theorems": [
    "C12_dealer",
    "C12_accepted"
   ],
   "note": "every request kind except PermPair over streams outside the TFP provider; refinement of the parties to one shared counter, arbitrary request history incl. replayed descriptors"
  },
  {
   "property": "C13",
   "status": "partial",
   "theorems": [
    "C13_no_reuse_partial",
    "C13_dot_mask_reuse_refuted",
    "C13_dot_same_masks_refuted"
   ],
   "note": "disjoint stream intervals for every program that never hands Dot an unfilled descriptor; the unrestricted statement is refuted (Dot does not advance the counter). TTP provider not modelled here"
  },
  {
   "property": "C14",
   "status": "partial",
   "theorems": [
    "C14_reply",
    "C14_sound",
    "C14_whole",
    "C14_arrays_partial",
    "C14_client",
    "C14_client_extra",
    "C14_words",
    "C14_two_arrays_refuted",
    "C14_over_read_refuted"
   ],
   "note": "The streamed replies of the beaver server and the ProgressiveReader of the client (flags, pieces, error messages, several buffers), for every payload and every split of the stream into parts: single-array replies of any size cut into chunks (C14_reply, C14_whole), several arrays of one chunk (C14_arrays_partial), the client alone on any pieces (C14_client); a cut stream, a failed transfer, a server error or bytes behind the end are errors, never other data (C14_sound, C14_client_extra). Partial because the claim is false for TruncPr requests of more than one chunk (32 MiB per array): the server interleaves the two arrays chunk by chunk while the client fills them one after the other (C14_two_arrays_refuted), and copy_to_buffer reads behind the part when a piece crosses the end of a buffer (C14_over_read_refuted). brpc, encryption of seeds and request messages are not modelled."
  },
  {
   "property": "C15",
   "status": "proved",
   "theorems": [
    "C15_init",
    "C15_streams_aligned",
    "C15_zero_share",
    "C15_same_program",
    "C15_both_matched",
    "C15_unmatched_refuted"
   ],
   "note": "PRSS / public PRG state: seed exchange with the next party, the three counters, fill_prss/fill_publ and fork as a step machine per party; the pairwise streams stay aligned under any interleaving of matched draws; the unmatched case is refuted by a witness. AES itself is a parameter (any function of seed and counter)."
  },
  {
   "property": "C16",
   "status": "proved",
   "theorems": [
    "C16_trunc",
    "C16_trunc_failures",
    "C16_trunc_many",
    "C16_trunc_many_failures"
   ],
   "note": "two-party local truncation and the many-party pair-based variant; failures counted over all first shares / masks"
  },
  {
   "property": "C17",
   "status": "proved",
   "theorems": [
    "C17_truncpr",
    "C17_truncpr2"
   ],
   "note": "TruncAPr for every mask and number of parties; TruncAPr2 (two parties), d >= 1"
  },
  {
   "property": "C18",
   "status": "proved",
   "theorems": [
    "C18_a2b",
    "C18_b2a_randbit",
    "C18_b2a_disassemble",
    "C18_b2a_adder",
    "C18_b2a_adder_narrow_refuted",
    "C18_roundtrip"
   ],
   "note": "A2B, B2A_Randbit, B2A_Disassemble and the unregistered adder B2A for any number of parties; the adder B2A rejects narrow shares (refuted theorem)."
  },
  {
   "property": "C19",
   "status": "proved",
   "theorems": [
    "C19_kogge_stone",
    "C19_sklansky",
    "C19_carry_out",
    "C19_words_implement",
    "C19_share_adder",
    "C19_share_carry"
   ],
   "note": "Generic over the representation of words; instantiated with plain words and with semi2k boolean shares. Inputs have nbits valid bits, as the circuits require."
  },
  {
   "property": "C20",
   "status": "proved",
   "theorems": [
    "C20_deinterleave",
    "C20_interleave",
    "C20_inverse",
    "C20_odd_even_split",
    "C20_shares"
   ],
   "note": "bit_utils.h, circuits.h odd_even_split and the kernels on shares."
  },
  {
   "property": "C21",
   "status": "proved",
   "theorems": [
    "C21_msb",
    "C21_eqz",
    "C21_equal",
    "C21_opened"
   ],
   "note": "Dealer triples are assumed well formed (C12 proves the dealer adjusts them)."
  },
  {
   "property": "C22",
   "status": "proved",
   "theorems": [
    "C22_perm_am",
    "C22_perm_am_total",
    "C22_inv_perm_am",
    "C22_roundtrip",
    "C22_public",
    "C22_private"
   ],
   "note": "SecureInvPerm, PermAM, InvPermAM, PermAP, InvPermAP and InvPermAV of semi2k for any number of parties, any order of the parallel loops and any good PermPair answers (C12 proves the provider gives them). RandPermM (drawing the components) is external randomness."
  },
  {
   "property": "C23",
   "status": "proved",
   "theorems": [
    "C23_apply",
    "C23_roundtrip",
    "C23_inverse",
    "C23_sort",
    "C23_not_a_permutation_refuted"
   ],
   "note": "applyPerm/applyInvPerm (both overloads), genInversePerm and genPermBySort; std::stable_sort is modelled by insertion sort and proved to give the unique stable ascending order. genRandomPerm (yacl ReplayShuffle) is external. ring2pv's cast is not modelled. Outside permutations: uninitialised elements / out-of-bounds reads (C23_not_a_permutation_refuted)."
  },
  {
   "property": "C24",
   "status": "proved",
   "theorems": [
    "C24_routing",
    "C24_evaluate",
    "C24_inv_perm_av",
    "C24_perm_am",
    "C24_inv_perm_am",
    "C24_roundtrip",
    "C24_single_refuted"
   ],
   "note": "Routing, topology and evaluation of the AS-Waksman network, for every size >= 2 and every permutation; the network evaluated on additive shares (cheetah SecureInvPerm, PermAM, InvPermAM, InvPermAV) with any correct multiplication. Vectors of one element are refused by the code (C24_single_refuted)."
  },
  {
   "property": "C25",
   "status": "proved",
   "theorems": [
    "C25_arith_share",
    "C25_arith_open",
    "C25_arith_linear",
    "C25_arith_random",
    "C25_two_parties",
    "C25_one_party",
    "C25_bool_share",
    "C25_bool_bit_secret",
    "C25_bool_random",
    "C25_bool_open",
    "C25_bool_xor",
    "C25_bool_cast",
    "C25_bool_shift",
    "C25_bool_shift_refuted",
    "C25_narrow_shift_refuted",
    "C25_bool_bitrev",
    "C25_bool_intl"
   ],
   "note": "Every arithmetic and boolean share kernel of aby3 plus io.cc sharing/opening: the result is a well-formed replicated sharing of the right plaintext with the declared bit count; two parties determine the value, one party's pair is compatible with every value. LShiftB of a zero-bit share by >= 32 in a wider field is undefined behaviour (C25_bool_shift_refuted). The debug option that masks P2A is not modelled."
  },
  {
   "property": "C26",
   "status": "proved",
   "theorems": [
    "C26_mul",
    "C26_matmul",
    "C26_matmul_public",
    "C26_and"
   ],
   "note": "MulAA, MatMulAA, MatMulAP, AndBB for all sharings and all PRSS draws; the CPU path of MatMulAA."
  },
  {
   "property": "C27",
   "status": "proved",
   "theorems": [
    "C27_a2b",
    "C27_msb",
    "C27_b2a_adder",
    "C27_b2a_ot",
    "C27_b2a",
    "C27_mul_bit",
    "C27_equal",
    "C27_equal_public",
    "C27_roles_refuted"
   ],
   "note": "A2B, MsbA2B, B2A (adder, OT and the selector), MulA1B, EqualAA/EqualAP at all three ring sizes. The role assignment from the public 64-bit draw breaks for the two top draws: the kernel throws (C27_roles_refuted); the theorems exclude those two draws."
  },
  {
   "property": "C28",
   "status": "proved",
   "theorems": [
    "C28_trunc_apr2",
    "C28_trunc_sign",
    "C28_trunc_sign_refuted",
    "C28_trunc_apr",
    "C28_trunc_a",
    "C28_roles_refuted"
   ],
   "note": "TruncAPr2 (registered), TruncPrWithMsbKnown, TruncAPr and TruncA, d >= 1 (d >= 0 for the last two). Excluded: the two top role draws (C28_roles_refuted) and x = 0 with a Negative hint (C28_trunc_sign_refuted)."
  },
  {
   "property": "C29",
   "status": "proved",
   "theorems": [
    "C29_sorting_permutation",
    "C29_merge_keys",
    "C29_group_marks",
    "C29_empty_refuted",
    "C29_unsigned_refuted"
   ],
   "note": "One key column each for the permutation; several columns for merging and marks. Keys are compared as signed numbers whatever their type (C29_unsigned_refuted); an empty column is undefined behaviour (C29_empty_refuted)."
  },
  {
   "property": "C30",
   "status": "proved",
   "theorems": [
    "C30_prime",
    "C30_mul",
    "C30_wide_product",
    "C30_add",
    "C30_sub",
    "C30_neg",
    "C30_reduce",
    "C30_exp",
    "C30_inverse",
    "C30_div",
    "C30_fermat",
    "C30_neg_canonical_refuted",
    "C30_inverse_zero",
    "C30_mul_words_refuted"
   ],
   "note": "All three fields (2^31-1, 2^61-1, 2^127-1, proved prime with a Pocklington certificate), all elements, all word exponents; the recursion of extend_gcd and the loop of exp_mod are shown to end. Findings: add_inv(0) is p, not 0 (C30_neg_canonical_refuted); mul_mod on unreduced words is wrong (C30_mul_words_refuted)."
  },
  {
   "property": "C31",
   "status": "proved",
   "theorems": [
    "C31_add_sub",
    "C31_mul_square",
    "C31_bitwise",
    "C31_negate_msb",
    "C31_shift",
    "C31_equal",
    "C31_less",
    "C31_less_any",
    "C31_mux",
    "C31_clamp",
    "C31_prefer",
    "C31_bit_parity",
    "C31_prefix_or",
    "C31_eqz",
    "C31_popcount",
    "C31_less_overflow_refuted",
    "C31_popcount_bits_refuted"
   ],
   "note": "semi2k, any number of parties, FM32/64/128: every visibility and share type of each operand, every call number and tape. less/clamp as signed comparison under the no-overflow condition (C31_less_overflow_refuted otherwise; C31_less_any gives the unconditional word). Also square, or, not, shifts, prefer_a/b, bit_parity, prefix_or, eqz, popcount; popcount of 7 bits of a secret is refused (C31_popcount_bits_refuted)."
  },
  {
   "property": "C32",
   "status": "proved",
   "theorems": [
    "C32_mmul",
    "C32_shapes",
    "C32_tensordot",
    "C32_coords",
    "C32_tensordot_huge_refuted",
    "C32_tensordot_mismatch_refuted"
   ],
   "note": "Operands of any visibility and share type, matrices or vectors, any tile sizes (the floating-point part of the tile computation is arbitrary), any memory layout of the tiles, any previous content of the result buffer: the result is the product modulo 2^k. Tensordot contracts the requested axes when each group of axes has fewer than 2^31 elements; larger arrays are refused (32-bit product), and axes of different sizes are contracted when their products agree (both refuted theorems)."
  },
  {
   "property": "C33",
   "status": "proved",
   "theorems": [
    "C33_network",
    "C33_comparator",
    "C33_sort_by_keys"
   ],
   "note": "Network of any length, any total preorder and comparator (ties answered arbitrarily); payload moves with keys because rows are permuted as wholes; the lexicographic comparators of simple_sort1d are shown to decide the key order given hal::less/equal on elements."
  },
  {
   "property": "C34",
   "status": "proved",
   "theorems": [
    "C34_quicksort",
    "C34_quicksort_by_keys",
    "C34_topk",
    "C34_topk_comparator"
   ],
   "note": "Every shuffle, tape, threshold, depth limit; the empty array with a threshold below -1 is excluded (the code would then index -1). Top-k theorem covers the secret path (QuickSelectTopk); the public path uses std::nth_element (not modelled)."
  },
  {
   "property": "C35",
   "status": "proved",
   "theorems": [
    "C35_mixed_keys",
    "C35_mixed_permutation",
    "C35_merge_private_keys",
    "C35_owners_refuted",
    "C35_radix_sort",
    "C35_full_width",
    "C35_shuffle_independent",
    "C35_inverse_permutation",
    "C35_narrow_signed_key_refuted",
    "C35_mergeable_keys_refuted"
   ],
   "note": "Secret keys (C35_radix_sort) and keys of any visibility with merged public/private keys (C35_mixed_keys). The sharing layer is abstracted by C22 (one permutation per random shared permutation). Findings: a signed key held as a boolean share of fewer bits is ordered by its top bit as a sign (C35_narrow_signed_key_refuted); private keys of different owners before a secret key are grouped for merging, which then throws (C35_mergeable_keys_refuted, C35_owners_refuted)."
  },
  {
   "property": "C36",
   "status": "proved",
   "theorems": [
    "C36_scan",
    "C36_reduce",
    "C36_reduce_noncommutative_refuted"
   ],
   "note": "Scan: every associative operator on ring words, every length. Reduction: associative and commutative operators; with associativity alone it is false (C36_reduce_noncommutative_refuted)."
  },
  {
   "property": "C37",
   "status": "proved",
   "theorems": [
    "C37_tree_reduce",
    "C37_reduce",
    "C37_noncommutative_refuted",
    "C37_empty_axis_refuted"
   ],
   "note": "One row along the reduced axis, tuples of operands as one element type; the flattening of several reduced axes (transpose + reshape, C04/C06) is not composed here. Non-commutative operators and an empty axis are refuted."
  },
  {
   "property": "C38",
   "status": "proved",
   "theorems": [
    "C38_groupby_sum"
   ],
   "note": "Keys all public or all private of one owner (what hlo::GroupByAgg enforces), payloads of any one visibility; keys compared as signed numbers (unsigned keys need the top bit clear)."
  },
  {
   "property": "C39",
   "status": "proved",
   "theorems": [
    "C39_int_to_fxp",
    "C39_fxp_to_int",
    "C39_int_roundtrip",
    "C39_floor",
    "C39_ceil",
    "C39_round_away",
    "C39_round_even",
    "C39_fxp_to_int_31_refuted",
    "C39_round_away_lowest_refuted",
    "C39_round_even_one_bit_refuted",
    "C39_round_even_narrow_refuted"
   ],
   "note": "any visibility, semi2k, any number of parties, FM32/64/128; cast to integer needs fewer than 31 fraction bits (undefined behaviour otherwise: C39_fxp_to_int_31_refuted); also both rounding modes; refuted: rounding away at the lowest value, ties-to-even with one fraction bit or with a boolean share narrower than the fraction"
  },
  {
   "property": "C40",
   "status": "proved",
   "theorems": [
    "C40_power",
    "C40_negative_exponent",
    "C40_power_of_one",
    "C40_large_exponent_refuted"
   ],
   "note": "any visibility of base and exponent; exponents in [0,k), all negative exponents, and all exponents for 1 and -1; exponents from k on are refuted (0^32 = 1 in FM32)"
  },
  {
   "property": "C41",
   "status": "proved",
   "theorems": [
    "C41_if_else_secret",
    "C41_if_else_scalar",
    "C41_if_else_public",
    "C41_case",
    "C41_case_public",
    "C41_while",
    "C41_private_condition_refuted",
    "C41_scalar_condition_refuted"
   ],
   "note": "branches and bodies are arbitrary computations returning lists of arrays; secret if/else elementwise and for scalars, public if/else, case with an index of any visibility incl. out of range, while with a public condition whose plaintext run ends; refuted: if/else refuses a private condition and a secret scalar condition for array results"
  },
  {
   "property": "C42",
   "status": "proved",
   "theorems": [
    "C42_dynamic_slice",
    "C42_dynamic_update_slice",
    "C42_inside",
    "C42_mixed_negative_refuted",
    "C42_mixed_window_refuted",
    "C42_private_update_refuted"
   ],
   "note": "semi2k, any number of parties, elements and starts of any visibility: dynamic slice returns exactly the window at the starts clamped to [0, dim - size], dynamic update slice overwrites exactly that window. Three exceptions are proved as refuted cases: a negative public start beside a secret one is not raised to 0 (reads before the buffer, or another window); an update whose first start is private is refused. The oblivious-RAM kernels of aby3 are not modelled."
  },
  {
   "property": "C43",
   "status": "proved",
   "theorems": [
    "C43_round_trip",
    "C43_accepted",
    "C43_safe",
    "C43_oversized_refuted",
    "C43_chunk_size_refuted",
    "C43_complex_order_refuted"
   ],
   "note": "round trip for any layout, chunk size and chunk order (per part for complex values); accepted chunk lists are exactly the tilings of the buffer; refuted: a chunk exceeding the buffer is copied before the check (memory outside the buffer is written), chunk size near 2^64 loses the content, chunks of real and imaginary part can be exchanged"
  },
  {
   "property": "C44",
   "status": "proved",
   "theorems": [
    "C44_parallel_equals_sequential",
    "C44_no_deadlock",
    "C44_terminates",
    "C44_can_finish",
    "C44_at_most_once",
    "C44_side_effect_order",
    "C44_capture_without_operand_refuted",
    "C44_effect_without_result_refuted",
    "C44_effect_without_operand_refuted"
   ],
   "note": "Thread-level model of BlockParallelRunner: FIFO queue, event mutex, condition variable with spurious wake-ups, one step per symbol-table access. Same results and values as runBlock, every kernel exactly once, no deadlock, every schedule bounded. Assumes kernels are functions of the values they look up, SSA form, and an operand on operations whose regions capture values; refuted without that, and side-effect order refuted for operations without results or operands."
  },
  {
   "property": "C45",
   "status": "proved",
   "theorems": [
    "C45_finishes",
    "C45_allreduce_add",
    "C45_allreduce_xor",
    "C45_allreduce_meaning",
    "C45_reduce_add",
    "C45_rotate",
    "C45_gather",
    "C45_broadcast",
    "C45_rounds",
    "C45_allreduce_sizes_refuted"
   ],
   "note": "Parties are programs of sends and receives; the network delivers messages in any order, keyed by their position in the channel. Every schedule of allReduce (both overloads), reduce, gather, broadcast and rotate is bounded, never stuck and ends with the documented result; the same holds of any sequence of rounds. There is no scatter in communicator.cc. allReduce on arrays of different sizes reads out of bounds (C45_allreduce_sizes_refuted). yacl's collectives are modelled as direct sends and receives."
  },
  {
   "property": "C46",
   "status": "proved",
   "theorems": [
    "C46_sync",
    "C46_same_names",
    "C46_duplicate",
    "C46_semi2k"
   ],
   "note": "Any number of parties, host variables and hash-map iteration orders; every party ends with the same names, each bound to its share of the value the owner set, no unread message; a name set by two parties is an error at every party. Instance: semi2k shares of public, private and secret variables recombine to the words the owner set. Messages carry records, not protobuf bytes; the serialisation of values is that of C43."
  },
  {
   "property": "C47",
   "status": "proved",
   "theorems": [
    "C47_round_trip",
    "C47_equal",
    "C47_injective",
    "C47_size",
    "C47_oshr_refuted",
    "C47_spdz_bshr_refuted",
    "C47_spdz_mac_refuted",
    "C47_cheetah_pshr_refuted",
    "C47_gfmp_shift_refuted",
    "C47_total"
   ],
   "note": "all type classes of all protocols; exceptions proved as findings: aby3 OShr/OPShr share an id, spdz2k BShr loses k (size 0), spdz2k AShr loses its mac flag, cheetah PShr is not registered, Gfmp exponent >= 128 shifts out of range"
  },
  {
   "property": "C48",
   "status": "proved",
   "theorems": [
    "C48_tiled",
    "C48_equal",
    "C48_order",
    "C48_plan",
    "C48_view_result_refuted"
   ],
   "note": "for every number of parties, operands and shapes, any execution order of the tasks; the kernel is abstract (elementwise, dense result); the result of a kernel returning a strided view would be copied wrongly (C48_view_result_refuted), no tiled kernel returns one"
  },
  {
   "property": "C49",
   "status": "proved",
   "theorems": [
    "C49_vmap",
    "C49_vmap_binary",
    "C49_unpack_of_view_refuted",
    "C49_vreduce",
    "C49_vreduce_noncommutative_refuted"
   ],
   "note": "for operations returning a compact array; vreduce for associative commutative operators; the two refuted theorems show both conditions are needed"
  },
  {
   "property": "C50",
   "status": "proved",
   "theorems": [
    "C50_add_sub_mul",
    "C50_mul_scalar",
    "C50_word_unique",
    "C50_neg",
    "C50_neg_defined",
    "C50_neg_min_refuted",
    "C50_not",
    "C50_and_xor_equal",
    "C50_shifts",
    "C50_bitrev",
    "C50_bitrev_defined",
    "C50_bitrev_top_refuted",
    "C50_bitmask",
    "C50_sum",
    "C50_mmul",
    "C50_all_equal",
    "C50_all_equal_overflow_refuted",
    "C50_splits",
    "C50_select"
   ],
   "note": "for all widths k; refuted theorems: negation of 2^(k-1), bit reversal with end = width and all_equal difference overflow are undefined behaviour in C++"
  },
  {
   "property": "C51",
   "status": "proved",
   "theorems": [
    "C51_shift_left",
    "C51_shift_right_logical",
    "C51_shift_right_arithmetic",
    "C51_shift_far",
    "C51_narrow_logical_refuted",
    "C51_wide_type_refuted"
   ],
   "note": "any visibility of value and amount, all three kinds; amounts below the width of the data type, which must not exceed the ring (C51_wide_type_refuted); a non-public amount beyond the width gives zero; logical right shift of a negative integer narrower than the ring is refuted"
  },
  {
   "property": "C52",
   "status": "proved",
   "theorems": [
    "C52_truncation_rounds",
    "C52_zero_bits_refuted"
   ],
   "note": "bits = 0 makes the second shift undefined (C52_zero_bits_refuted)."
  },
  {
   "property": "C53",
   "status": "proved",
   "theorems": [
    "C53_groupby_avg"
   ],
   "note": "The product with the approximate reciprocal and the dtype casts are an arbitrary function of the two words."
  },
  {
   "property": "C54",
   "status": "partial",
   "theorems": [
    "C54_mul",
    "C54_mul_priv",
    "C54_square",
    "C54_dot",
    "C54_and",
    "C54_trunc",
    "C54_randbit",
    "C54_eqz",
    "C54_perm",
    "C54_truncpr_partial",
    "C54_truncpr_refuted",
    "C54_faulty"
   ],
   "note": "All operations of BeaverTtp (Mul, MulPriv, Square, Dot, And, Trunc, TruncPr, RandBit, PermPair, Eqz) with the server's AdjustImpl / AdjustAndSend, the streamed reply and the client's reassembly: for every number of parties, seeds, adjusting rank, field, size > 0, fragmentation of the reply and any generator whose stream continues after whole blocks, the parties obtain valid correlated randomness and keep equal stream positions; over a transport that loses data a party gets an exception or the same result (C54_faulty). Partial: TruncPr is valid up to one chunk only (C54_truncpr_partial) and false beyond (C54_truncpr_refuted). Requests carry no replay descriptors; encryption of the seeds, protobuf and brpc are not modelled."
  },
  {
   "property": "C55",
   "status": "partial",
   "theorems": [
    "C55_p2a",
    "C55_v2a",
    "C55_open",
    "C55_io",
    "C55_io_shares",
    "C55_add",
    "C55_add_public",
    "C55_negate",
    "C55_mul_public",
    "C55_lshift",
    "C55_matmul_public",
    "C55_mul",
    "C55_matmul",
    "C55_matmul_simple",
    "C55_truncate",
    "C55_and",
    "C55_mul_random",
    "C55_b2a",
    "C55_mul_random_refuted"
   ],
   "note": "V2A, P2A, A2P, A2V, io, AddAA, AddAP, NegateA, MulAP, MatMulAP, LShiftA, MulAA, MatMulAA, MatMulAA_simple, TruncAPr (error 0 or 1, |x| < 2^(k-2)), AndBB and B2A_Randbit of SecureNN, for every field, shape and generator stream, on secrets of which P2 holds a zero share; every kernel preserves that and the agreement of the generators. Partial: RandA gives P2 a non-zero share, so the product with a random secret is wrong (C55_mul_random says what it opens to, C55_mul_random_refuted). NegateA of the share 2^(k-1) is signed overflow (see C50)."
  },
  {
   "property": "C56",
   "status": "partial",
   "theorems": [
    "C56_share_convert",
    "C56_msb",
    "C56_sign",
    "C56_unsafe_rare",
    "C56_msb_a2b",
    "C56_range_refuted",
    "C56_conv_zero_refuted",
    "C56_conv_eta_refuted",
    "C56_msb_mask_refuted",
    "C56_threads_sequential",
    "C56_threads_refuted"
   ],
   "note": "ShareConvert, Msb and Msb_a2b with the private comparison modulo 131, at every width from 15 to 128, for every element, share and stream: under stated conditions on the random words (C56_msb, C56_msb_a2b) the result is a sharing of bit k-2, which is the sign for |x| <= 2^(k-2) (C56_sign); at most one mask per value is unsafe in Msb (C56_unsafe_rare). Partial: the claim is false outside that range (C56_range_refuted), when r0+r1 = 0 (C56_conv_zero_refuted), when the inverted comparison meets P0's share 1 (C56_conv_eta_refuted), when the masked value is 2^k-1 (C56_msb_mask_refuted), and when the element loop is split over threads that share w_total (C56_threads_refuted; C56_threads_sequential is the good case). The final A2B is the model of semi2k at three parties with arbitrary valid triples. Msb_opt (not compiled in) is not modelled."
  },
  {
   "property": "C57",
   "status": "proved",
   "theorems": [
    "C57_mul",
    "C57_square",
    "C57_mul_range_refuted"
   ],
   "note": "semi2k with two or more parties, FM32/64/128, 1 to k-2 fraction bits, operands of any visibility and share type, any sign hint, any valid correlated randomness; the bound 2^(k-2) on the product is needed (C57_mul_range_refuted).  trunc_allow_msb_error (TruncA) is covered by C17 only."
  },
  {
   "property": "C58",
   "status": "partial",
   "theorems": [
    "C58_reciprocal",
    "C58_reciprocal_default",
    "C58_reciprocal_zero",
    "C58_div",
    "C58_div_hints",
    "C58_div_large",
    "C58_div_large_refuted",
    "C58_reciprocal_small_refuted"
   ],
   "note": "reciprocal_goldschmidt, reciprocal_goldschmidt_positive, div_goldschmidt_general and its normalisation, semi2k with two or more parties, any visibility except all-public (computed in double, not modelled), any number n of iterations with 16(3n+1) <= 2^f, 8 <= f, 2f+4 <= k: the reciprocal for every nonzero number with 5*2^(3f) <= 2^(k-1)|b|, which with the default settings is every nonzero number except -2^(k-1) (C58_reciprocal_default); division for denominators below 2^f and quotients the truncations can carry (C58_div, C58_div_hints); 0 for a zero denominator (C58_reciprocal_zero). Partial: the claim is false for denominators of 2^f and more, where every quotient comes out as 0 (C58_div_large, C58_div_large_refuted), and for tiny numbers with many fraction bits, where the last product overflows (C58_reciprocal_small_refuted)."
  },
  {
   "property": "C59",
   "status": "partial",
   "theorems": [
    "C59_div",
    "C59_div_default",
    "C59_div_large",
    "C59_div_zero",
    "C59_div_inexact_refuted",
    "C59_div_large_refuted",
    "C59_div_wide_refuted"
   ],
   "note": "semi2k with two or more parties, operands of any visibility except both public (computed in double, not modelled), 8 <= f < 31, 2f+4 <= k: exact whenever |divisor| < 2^f and the error of the approximate quotient is below one (C59_div; C59_div_default instantiates the defaults of FM32 and FM64). For larger divisors the answer is 0, 1 or -1 (C59_div_large), for a zero divisor 1 or -1 (C59_div_zero). The full statement is false: C59_div_inexact_refuted (20000000 / 1), C59_div_large_refuted (2^30 / 2^19), C59_div_wide_refuted (no answer at all from 31 fraction bits on, the FM128 default being 40)."
  },
  {
   "property": "C60",
   "status": "partial",
   "theorems": [
    "C60_remainder",
    "C60_fxp_remainder_partial",
    "C60_fxp_remainder_refuted"
   ],
   "note": "Integers: exact wherever the division is (C60_remainder). Fixed point: the dividend less a whole multiple q of the divisor, q being the whole part of a quotient within the bound of C58 (C60_fxp_remainder_partial); since that quotient may lie just below a whole number, 6 rem 3 can be 3 (C60_fxp_remainder_refuted)."
  },
  {
   "property": "C61",
   "status": "proved",
   "theorems": [
    "C61_conv2d",
    "C61_no_window"
   ],
   "note": "semi2k, any number of parties, ring level (integer data types; fixed-point results are truncated afterwards, C57): any storage types of image and filters, positive strides, windows that fit, matrix sizes below 2^31 as in C32. A window larger than the image is refused (C61_no_window). Padding and dilation are applied by the caller (C08)."
  },
  {
   "property": "C62",
   "status": "proved",
   "theorems": [
    "C62_dot_general",
    "C62_empty_batch_refuted",
    "C62_batch_mismatch_refuted"
   ],
   "note": "semi2k, any number of parties, ring level: one product per index of the first axis for every positive batch size. Outside: an empty batch is refused instead of giving an empty result (C62_empty_batch_refuted), surplus batches of the right operand are silently ignored (C62_batch_mismatch_refuted)."
  },
  {
   "property": "C63",
   "status": "proved",
   "theorems": [
    "C63_add_sub",
    "C63_mul_square",
    "C63_bitwise",
    "C63_negate",
    "C63_equal",
    "C63_less",
    "C63_less_any",
    "C63_mux",
    "C63_clamp",
    "C63_prefer",
    "C63_if_else_secret",
    "C63_case",
    "C63_dynamic_slice",
    "C63_dynamic_update_slice"
   ],
   "note": "aby3, FM32/FM64/FM128, every tape whose role draws do not overflow (the others fail, C27_roles_refuted). The word-level lemmas are those of C31, C41 and C42; they hold of every protocol whose kernels satisfy the contract proto_ok, and aby_ok shows that the aby3 kernels do, boolean shifts excepted. Comparison needs the difference to fit, as in C31."
  },
  {
   "property": "C64",
   "status": "partial",
   "theorems": [
    "C64_msb_sign",
    "C64_shift",
    "C64_bit_parity",
    "C64_prefix_or",
    "C64_eqz",
    "C64_popcount",
    "C64_casts",
    "C64_floor",
    "C64_ceil",
    "C64_round_away",
    "C64_power",
    "C64_shift_by",
    "C64_narrow_refuted"
   ],
   "note": "Every run that completes returns the plaintext result. Missing: that every run completes, which is false: the sign bit and the logical right shift of a boolean share narrower than the shift have undefined behaviour and its arithmetic shift throws (C64_narrow_refuted)."
  },
  {
   "property": "C65",
   "status": "proved",
   "theorems": [
    "C65_reduce",
    "C65_empty_axis"
   ],
   "note": "Any element type (with several operands, tuples of elements), any shape, any list of axes inside the shape (repetitions allowed) of positive length, any associative and commutative reducer. Outside: an empty reduced axis with a non-empty result is refused even though an initial value is given (C65_empty_axis); an axis outside the shape writes out of bounds (C65_outside)."
  },
  {
   "property": "C66",
   "status": "partial",
   "theorems": [
    "C66_reduce_window",
    "C66_padding_exists",
    "C66_empty_result",
    "C66_ignore_init_refuted"
   ],
   "note": "Any shape, window, stride, dilations and non-negative paddings whose windows fit, either code path, windows below 2^31 elements. Missing, because false: with any dilation the request to ignore the initial value is itself ignored (C66_ignore_init_refuted); an empty result is refused (C66_empty_result). Negative padding and the window-mask operand are not modelled."
  },
  {
   "property": "C67",
   "status": "partial",
   "theorems": [
    "C67_key",
    "C67_coin",
    "C67_bit",
    "C67_public",
    "C67_private",
    "C67_input",
    "C67_negate",
    "C67_add",
    "C67_add_public",
    "C67_mul_public",
    "C67_lshift",
    "C67_matmul_public",
    "C67_mul",
    "C67_matmul",
    "C67_trunc",
    "C67_reveal",
    "C67_reveal_private",
    "C67_output",
    "C67_reveal_input_fails",
    "C67_rand_range_refuted",
    "C67_reveal_input_refuted"
   ],
   "note": "Trusted-first-party dealer, arithmetic shares, any k, s with k+s at most the ring width, any number of parties and elements. Missing, because false: an input revealed before any arithmetic has no MAC and the reveal throws for almost all keys and coins (C67_reveal_input_fails, C67_reveal_input_refuted); RandA is not in the range its comment states (C67_rand_range_refuted). Not modelled: boolean shares, conversions, the OT-based dealer."
  },
  {
   "property": "C68",
   "status": "partial",
   "theorems": [
    "C68_check",
    "C68_reveal",
    "C68_reveal_private",
    "C68_mul",
    "C68_mul_high_errors",
    "C68_trunc",
    "C68_matmul_shifted",
    "C68_input_shifted",
    "C68_matmul_refuted"
   ],
   "note": "Errors added to openings (the same for all receivers) and to the sum of the check responses, the latter any function of the coin; reveal to all, reveal to one, multiplication and truncation. Errors above the k low bits may pass but change no plaintext. The count 7 of 16 of the example attains the bound. Missing, because false: MatMulAA checks nothing (C68_matmul_shifted, C68_matmul_refuted) and a private input can be shifted before it is authenticated (C68_input_shifted). Not modelled: sending different values to different parties, breaking the commitments, dealer misbehaviour."
  },
  {
   "property": "C69",
   "status": "partial",
   "theorems": [
    "C69_gather_partial",
    "C69_gather_no_indices_refuted",
    "C69_gather_empty_result",
    "C69_gather_no_elements_refuted"
   ],
   "note": "Real operands with public indices, any shapes and configuration that fit, start indices of any value. Missing, because false: an empty array of start indices reads and writes out of bounds (C69_gather_no_indices_refuted), and a result without elements is never produced (C69_gather_empty_result; an operand without elements is returned with its own shape, C69_gather_no_elements_refuted). Not modelled: secret indices."
  },
  {
   "property": "C70",
   "status": "proved",
   "theorems": [
    "C70_filter_by_mask",
    "C70_linear_gather",
    "C70_linear_gather_out_of_range",
    "C70_linear_scatter"
   ],
   "note": "Any array and mask or list of positions. LinearScatterInPlace for operands of one type; repeated positions: the last write stays."
  },
  {
   "property": "C71",
   "status": "partial",
   "theorems": [
    "C71_select_and_scatter_partial",
    "C71_accepts_only_tiled",
    "C71_max_pool_scatter",
    "C71_padding_refuted",
    "C71_initial_value_refuted",
    "C71_first_of_equals_refuted"
   ],
   "note": "Any associative and commutative scatter function with the initial value as its neutral element and any selection function whose preference is transitive; windows that cover the base exactly, no padding. Missing, because false: any padding or uncovered edge is refused (C71_accepts_only_tiled, C71_padding_refuted); an initial value that is not neutral is not combined once with every cell (C71_initial_value_refuted); among equal cells the first need not be selected (C71_first_of_equals_refuted)."
  },
  {
   "property": "C72",
   "status": "partial",
   "theorems": [
    "C72_argmax_partial",
    "C72_dilation_refuted",
    "C72_stride_refuted",
    "C72_padding"
   ],
   "note": "Both code paths, any comparison that is a strict weak order (hal::less on representable differences), no padding, no dilation, windows below 2^31 elements; for windows 1x2x2x1 strides of one along the first and last axis. Missing, because false: windows 1x2x2x1 ignore dilations and the strides along the first and last axis (C72_dilation_refuted, C72_stride_refuted); padding is refused (C72_padding), and so are dilations of other windows."
  },
  {
   "property": "C73",
   "status": "proved",
   "theorems": [
    "C73_point_function",
    "C73_onehot",
    "C73_read",
    "C73_read_public",
    "C73_slice"
   ],
   "note": "Both kinds of database. The cipher is an arbitrary function; that the two parties' draws from a shared generator agree is C15. That the messages hide the index rests on the cipher and is not stated. The recursion of SecretDynamicSliceOramImpl over several axes is not modelled: one axis with the inner ones collapsed."
  },
  {
   "property": "C74",
   "status": "proved",
   "theorems": [
    "C74_rand_perm",
    "C74_shuffle",
    "C74_unshuffle",
    "C74_roundtrip",
    "C74_aligned",
    "C74_hiding",
    "C74_public"
   ],
   "note": "C74_rand_perm, C74_shuffle, C74_unshuffle, C74_roundtrip, C74_aligned, C74_hiding and C74_public. That ReplayShuffle returns a permutation, the same for equal seed and counter, is the external assumption on the generator (hypothesis of C74_rand_perm; counters in step: C15). Hiding is per received pair of vectors: for every input each pair comes from exactly one choice of the masks the receiver lacks."
  },
  {
   "property": "C75",
   "status": "partial",
   "theorems": [
    "C75_product",
    "C75_substitution",
    "C75_shared",
    "C75_decrypt",
    "C75_equality",
    "C75_equality_refuted",
    "C75_concat",
    "C75_remap"
   ],
   "note": "C75_product, C75_substitution, C75_shared, C75_decrypt, C75_equality, C75_concat and C75_remap. Missing: equal results mean equal inputs only when the drawn linear layers are invertible (C75_equality, C75_decrypt); the kernel draws them without the rank check, and C75_equality_refuted gives colliding blocks whenever the first layer is singular. The generation of matrices from the seed (fill_matrixes, rank_of_matrix, invert_matrix) is not modelled: they are arguments. The and-gates are those of C11 with good triples (C12)."
  },
  {
   "property": "C76",
   "status": "partial",
   "theorems": [
    "C76_product",
    "C76_product_field",
    "C76_dealer",
    "C76_to_ring",
    "C76_exponent",
    "C76_scaled",
    "C76_exp_partial",
    "C76_exponent_refuted"
   ],
   "note": "C76_product, C76_product_field, C76_to_ring, C76_exponent, C76_scaled, C76_dealer and C76_exp_partial. Missing: the doubles (rounded scale and powers of the fractions) are integer arguments, so the distance to the real exponential is not bounded; signed shares of equal signs and products of half the prime or more are excluded by hypothesis, and C76_exponent_refuted shows the exponent wrong for every sharing whose sum does not pass 2^s. The dealer's pairs are right by C76_dealer (modulo the prime, draws below the prime) and C12 (in the ring)."
  }
 ]
}