{
 "claims": [
  {
   "property": "C01",
   "status": "proved",
   "theorems": [
    "C01_gcd"
   ],
   "note": ""
  },
  {
   "property": "C02",
   "status": "proved",
   "theorems": [
    "C02_gcd_ex",
    "C02_gcd_ex_bounds"
   ],
   "note": ""
  },
  {
   "property": "C03",
   "status": "proved",
   "theorems": [
    "C03_lcm",
    "C03_lcm_zero_zero",
    "C03_gcd_max"
   ],
   "note": "lcm(0,0) divides by zero: shown as undefined behaviour"
  },
  {
   "property": "C04",
   "status": "proved",
   "theorems": [
    "C04_powT",
    "C04_powT_negative"
   ],
   "note": ""
  },
  {
   "property": "C05",
   "status": "proved",
   "theorems": [
    "C05_sqrtT",
    "C05_is_square",
    "C05_isqrt",
    "C05_isqrtc",
    "C05_isqrt_int32_overflow_refuted"
   ],
   "note": "exact for |x| < (2^31-1)^2; signed overflow at the last root is the finding"
  },
  {
   "property": "C06",
   "status": "proved",
   "theorems": [
    "C06_cbrtT",
    "C06_icbrt",
    "C06_icbrtc"
   ],
   "note": ""
  },
  {
   "property": "C07",
   "status": "proved",
   "theorems": [
    "C07_div_floor",
    "C07_div_ceil",
    "C07_div_round",
    "C07_div_by_zero",
    "C07_multiple",
    "C07_multiple_negative_refuted"
   ],
   "note": "multiple() is only >= b for positive a"
  },
  {
   "property": "C08",
   "status": "proved",
   "theorems": [
    "C08_digits",
    "C08_integer_string"
   ],
   "note": ""
  },
  {
   "property": "C09",
   "status": "proved",
   "theorems": [
    "C09_gray_code"
   ],
   "note": "all word widths 2^k"
  },
  {
   "property": "C10",
   "status": "proved",
   "theorems": [
    "C10_highest_bit",
    "C10_lowest_bit",
    "C10_zero_and_total",
    "C10_popcount_and_pow2"
   ],
   "note": "8/16/32/64-bit unsigned words; signed instantiations only for non-negative values"
  },
  {
   "property": "C11",
   "status": "proved",
   "theorems": [
    "C11_bit_reverse"
   ],
   "note": ""
  },
  {
   "property": "C12",
   "status": "proved",
   "theorems": [
    "C12_next_combination",
    "C12_zero_is_undefined"
   ],
   "note": ""
  },
  {
   "property": "C13",
   "status": "proved",
   "theorems": [
    "C13_unsigned",
    "C13_signed",
    "C13_signed_add_exact",
    "C13_normalize",
    "C13_signed_refuted",
    "C13_normalize_refuted"
   ],
   "note": "8/16/32/64-bit words; signed 32/64-bit addition needs x+y to fit the type (refuted otherwise)"
  },
  {
   "property": "C14",
   "status": "proved",
   "theorems": [
    "C14_inv",
    "C14_div"
   ],
   "note": "inverse over exact integers, division with each machine modulo_mul overload"
  },
  {
   "property": "C15",
   "status": "proved",
   "theorems": [
    "C15_chinese_remainder",
    "C15_chinese_remainder_list",
    "C15_unsigned_refuted",
    "C15_accumulate_refuted"
   ],
   "note": "exact integers; unsigned instantiation of the compatibility test is refuted"
  },
  {
   "property": "C16",
   "status": "proved",
   "theorems": [
    "C16_garner",
    "C16_unordered_refuted"
   ],
   "note": "non-decreasing moduli; refuted when a larger modulus precedes a smaller one"
  },
  {
   "property": "C17",
   "status": "proved",
   "theorems": [
    "C17_jacobi",
    "C17_every_odd",
    "C17_prime",
    "C17_zero",
    "C17_negative_refuted"
   ],
   "note": "the algorithm computes the product of the Legendre symbols; quadratic reciprocity and the supplement for 2 are proved (Gauss, Eisenstein)."
  },
  {
   "property": "C18",
   "status": "proved",
   "theorems": [
    "C18_cipolla",
    "C18_hensel",
    "C18_hensel_p2",
    "C18_sqrt_mod",
    "C18_negative_refuted"
   ],
   "note": "square roots modulo primes, prime powers and factored numbers; the prime is any prime, the search for a non-residue is proved to terminate. unordered_set is a list without repetitions (order not modelled)."
  },
  {
   "property": "C19",
   "status": "proved",
   "theorems": [
    "C19_primes",
    "C19_flags_only",
    "C19_primeb",
    "C19_primes_below",
    "C19_in_place",
    "C19_size_refuted",
    "C19_empty_refuted",
    "C19_prime_pi",
    "C19_prime_pi_small_refuted",
    "C19_prime_pi_size_refuted"
   ],
   "note": "The sieve for every n, with and without the prime list, and with the flags sharing the bytes of the prime array; sizes that the documentation allows but the final p[m] = 0 overruns are refuted; prime_pi for n >= 3 with the terminating 0."
  },
  {
   "property": "C20",
   "status": "proved",
   "theorems": [
    "C20_euler_phi",
    "C20_moebius_mu",
    "C20_prime_nu",
    "C20_divisor_sigma0",
    "C20_divisor_sigma1",
    "C20_moebius_empty_refuted"
   ],
   "note": "Every table entry below n is the totient, Moebius value, number of distinct primes, number and sum of divisors; the divisor tables leave index 0 as it was; moebius_mu needs n >= 1."
  },
  {
   "property": "C21",
   "status": "proved",
   "theorems": [
    "C21_smallest_factor",
    "C21_smallest_empty_refuted",
    "C21_factor",
    "C21_factor_one_refuted",
    "C21_factor_integer",
    "C21_factor_integer_to_map",
    "C21_factor_product",
    "C21_factor_then_integer",
    "C21_smallest_then_integer_refuted",
    "C21_zero_refuted",
    "C21_product_zero_refuted"
   ],
   "note": "Smallest and biggest factor tables; the three factorisation routines for any table of prime factors; empty tables, zeros among the integers and use of the smallest factor table are refuted."
  },
  {
   "property": "C22",
   "status": "proved",
   "theorems": [
    "C22_divisors",
    "C22_divisors_sorted",
    "C22_divisors_of",
    "C22_sigma0",
    "C22_euler_phi",
    "C22_carmichael",
    "C22_carmichael_least",
    "C22_signed_divisors",
    "C22_prime_factors",
    "C22_digits",
    "C22_from_digits",
    "C22_digits_unique",
    "C22_string",
    "C22_string_zero_refuted",
    "C22_string_base_refuted",
    "C22_digits_base_one_refuted"
   ],
   "note": "Every factorisation into distinct primes, every bound; the Carmichael value is characterised by its multiples being exactly the universal exponents (primitive roots are not assumed: the polynomial root bound is proved). std::sort is any function returning a sorted permutation. Digits over exact integers, base >= 2."
  },
  {
   "property": "C23",
   "status": "proved",
   "theorems": [
    "C23_segment_tree",
    "C23_segment_tree_sized"
   ],
   "note": "every history of set/write/rebuild operations and range queries"
  },
  {
   "property": "C24",
   "status": "proved",
   "theorems": [
    "C24_lazy_segment_tree"
   ],
   "note": "any functors meeting the contract record; every history of update/get/restore"
  },
  {
   "property": "C25",
   "status": "proved",
   "theorems": [
    "C25_binary_heap"
   ],
   "note": "every history of push/pop/size on every constructed heap"
  },
  {
   "property": "C26",
   "status": "proved",
   "theorems": [
    "C26_disjoint_set"
   ],
   "note": "every history of find/unite/count/add_count calls including index growth"
  },
  {
   "property": "C27",
   "status": "proved",
   "theorems": [
    "C27_fenwick_tree"
   ],
   "note": "any commutative monoid, any add/reset history"
  },
  {
   "property": "C28",
   "status": "proved",
   "theorems": [
    "C28_init",
    "C28_lookup",
    "C28_size_kth",
    "C28_iterator",
    "C28_iterator_end",
    "C28_insert",
    "C28_insert_before",
    "C28_erase_key",
    "C28_erase_iterator",
    "C28_erase_range",
    "C28_copy",
    "C28_destroy",
    "C28_compare",
    "C28_history",
    "C28_clear_refuted",
    "C28_eq_counts_refuted"
   ],
   "note": "At heap level, for every tree shape: parent links, sizes, iterators, other trees on the same heap, and the memory in use. clear() leaks all nodes but the root, and corrupts an empty tree (refuted); == ignores multiplicities (refuted)."
  },
  {
   "property": "C29",
   "status": "proved",
   "theorems": [
    "C29_insert",
    "C29_insert_before",
    "C29_erase_key",
    "C29_erase_iterator",
    "C29_erase_range",
    "C29_copy",
    "C29_history",
    "C29_empty_range_refuted",
    "C29_reinsert_refuted",
    "C29_partial_erase_refuted"
   ],
   "note": "At heap level; random numbers are universally quantified and non-negative, as those of rand(). Heap order fails after inserting an existing key (modes IGNORE, COUNT) and after erasing some copies (mode COUNT), both refuted."
  },
  {
   "property": "C30",
   "status": "proved",
   "theorems": [
    "C30_construct",
    "C30_read",
    "C30_insert",
    "C30_push_back",
    "C30_insert_at",
    "C30_erase",
    "C30_erase_at",
    "C30_erase_range",
    "C30_erase_range_at",
    "C30_assign",
    "C30_iterator",
    "C30_compare",
    "C30_copy",
    "C30_history"
   ],
   "note": "At heap level; random numbers are universally quantified and non-negative. Ranges need 0 <= b <= e. clear() is that of the tree, see C28_clear_refuted."
  },
  {
   "property": "C31",
   "status": "proved",
   "theorems": [
    "C31_new",
    "C31_sequence_unique",
    "C31_from_range",
    "C31_resize",
    "C31_reserve",
    "C31_get",
    "C31_set",
    "C31_proxy",
    "C31_push_back",
    "C31_pop_back",
    "C31_range",
    "C31_two_ranges",
    "C31_logic",
    "C31_compare",
    "C31_operators",
    "C31_hamming_distance",
    "C31_to_string",
    "C31_reverse",
    "C31_rotate_left",
    "C31_rotate_right",
    "C31_swap"
   ],
   "note": "Every operation of bit_vector except shifts (C32), for all word sizes and lengths; compare, hamming_distance, reverse, rotate and swap for the four word widths the bit tables exist for."
  },
  {
   "property": "C32",
   "status": "proved",
   "theorems": [
    "C32_shift_right",
    "C32_shift_left",
    "C32_shift_left_refuted",
    "C32_stale_bits_refuted",
    "C32_long_shift_refuted"
   ],
   "note": ">>= for all shifts up to the width of the words. <<= is proved under the exact no-overwrite condition and refuted outside it (three words, shift 1); stale bits beyond the size and shifts beyond the words are refuted too."
  },
  {
   "property": "C33",
   "status": "proved",
   "theorems": [
    "C33_fresh_cells",
    "C33_progress",
    "C33_refusal_harmless",
    "C33_clear_refuted",
    "C33_copy_refuted"
   ],
   "note": "Every history of allocate/deallocate by a client that frees only live cells, for every outcome of malloc. clear() does not restore the capacity and the implicit copy shares the pool (refuted)."
  },
  {
   "property": "C34",
   "status": "proved",
   "theorems": [
    "C34_lohi_map",
    "C34_sqrt_map",
    "C34_sqrt_map_reset",
    "C34_distinct_entries",
    "C34_lohi_at_refuted",
    "C34_stale_value_refuted",
    "C34_reset_stale_refuted"
   ],
   "note": "Histories of insert, assignment, erase and m[k] as value, except reading an absent key that was erased before, which shows the erased value (refuted). lohi_map::at does not throw for absent small keys (refuted)."
  },
  {
   "property": "C35",
   "status": "proved",
   "theorems": [
    "C35_deg",
    "C35_add",
    "C35_sub",
    "C35_neg",
    "C35_scalar",
    "C35_scalar_div",
    "C35_mul",
    "C35_eval",
    "C35_eval_mul",
    "C35_derivative",
    "C35_integral",
    "C35_cmp",
    "C35_noncommutative_refuted"
   ],
   "note": "any commutative ring, all aliasings of the instances"
  },
  {
   "property": "C36",
   "status": "proved",
   "theorems": [
    "C36_mul_any_threshold",
    "C36_karatsuba_is_schoolbook"
   ],
   "note": "on a flat coefficient memory, any threshold"
  },
  {
   "property": "C37",
   "status": "proved",
   "theorems": [
    "C37_division",
    "C37_unique",
    "C37_long_hensel_agree"
   ],
   "note": "any invertible leading coefficient; the float test choosing the algorithm is arbitrary"
  },
  {
   "property": "C38",
   "status": "proved",
   "theorems": [
    "C38_inverse"
   ],
   "note": "non-trivial commutative ring, invertible constant term, L >= 1"
  },
  {
   "property": "C39",
   "status": "proved",
   "theorems": [
    "C39_mul",
    "C39_assoc",
    "C39_identity",
    "C39_pow",
    "C39_pow_add",
    "C39_transpose",
    "C39_transpose_mul",
    "C39_linear",
    "C39_scalar_div",
    "C39_submatrix"
   ],
   "note": "All commutative rings and all non-empty dimensions (the code reads a[0][0])."
  },
  {
   "property": "C40",
   "status": "proved",
   "theorems": [
    "C40_det",
    "C40_inverse",
    "C40_full_rank",
    "C40_negative_pow",
    "C40_division",
    "C40_rank_refuted"
   ],
   "note": "Over every field (ring_theory, 1 <> 0, division inverts), det is the Laplace expansion of DetSpec. rank() of a singular matrix is refuted (C40_rank_refuted)."
  },
  {
   "property": "C41",
   "status": "proved",
   "theorems": [
    "C41_construct",
    "C41_arithmetic",
    "C41_comparison",
    "C41_zero_over_zero_refuted"
   ],
   "note": "exact integers"
  },
  {
   "property": "C42",
   "status": "proved",
   "theorems": [
    "C42_ring",
    "C42_sqrt",
    "C42_compare",
    "C42_norm",
    "C42_div_mul",
    "C42_mul_div",
    "C42_div_mod"
   ],
   "note": "All commutative rings T and all D; both operands have the same D."
  },
  {
   "property": "C43",
   "status": "proved",
   "theorems": [
    "C43_nim_product",
    "C43_field_laws",
    "C43_inverse",
    "C43_div",
    "C43_sqrt",
    "C43_lift",
    "C43_add"
   ],
   "note": "For every word size 2^K and every table a program can hold. The product is characterised by Conway's least-excluded definition, which is shown to have exactly one solution."
  },
  {
   "property": "C44",
   "status": "proved",
   "theorems": [
    "C44_denotation",
    "C44_to_line",
    "C44_from_line",
    "C44_round_trip",
    "C44_equality",
    "C44_product",
    "C44_inverse",
    "C44_quotient",
    "C44_power",
    "C44_transpositions",
    "C44_cycles_to_transpositions",
    "C44_root",
    "C44_product_refuted",
    "C44_equality_refuted"
   ],
   "note": "Documented product order refuted: (p1 * p2)(x) = p2(p1(x)). operator== compares cycle lists, so equal permutations may compare unequal (refuted). That root reports failure for a forced parity only when no such root exists, and that it uses the fewest transpositions, is not proved."
  },
  {
   "property": "C45",
   "status": "proved",
   "theorems": [
    "C45_binary_search",
    "C45_empty_range",
    "C45_bounds"
   ],
   "note": "integer positions; binary_search_num with eps = 1"
  },
  {
   "property": "C46",
   "status": "proved",
   "theorems": [
    "C46_kmp_search",
    "C46_empty_pattern"
   ],
   "note": "every callback, also stateful"
  },
  {
   "property": "C47",
   "status": "proved",
   "theorems": [
    "C47_run_length",
    "C47_compare",
    "C47_take_filter_transform_contains"
   ],
   "note": "std::sort itself is trusted"
  },
  {
   "property": "C48",
   "status": "proved",
   "theorems": [
    "C48_cumulative1",
    "C48_cumulativeK",
    "C48_operators",
    "C48_compare",
    "C48_less",
    "C48_overflow_refuted",
    "C48_negative_refuted",
    "C48_assign_refuted"
   ],
   "note": "int32 moduli 2 <= M <= 2^30, nonnegative characters, assign on an empty object."
  },
  {
   "property": "C49",
   "status": "proved",
   "theorems": [
    "C49_convert",
    "C49_evaluate",
    "C49_convert_and_evaluate",
    "C49_unambiguous",
    "C49_every_sequence",
    "C49_parentheses",
    "C49_prefix_refuted",
    "C49_no_arguments_refuted"
   ],
   "note": "For every operator table, expression lists of any size and depth, prefix, postfix and binary operators, parentheses, calls with at least one argument. A prefix operator weaker than the operator before it gives a wrong result, and calls without arguments get one (refuted)."
  },
  {
   "property": "C50",
   "status": "proved",
   "theorems": [
    "C50_buffered_reader",
    "C50_read_all",
    "C50_string_reader",
    "C50_large_read_refuted",
    "C50_skip_refuted",
    "C50_eof_refuted"
   ],
   "note": "All histories and all honest chunk schedules; requests up to the buffer size are exact, larger ones may come back short."
  },
  {
   "property": "C51",
   "status": "proved",
   "theorems": [
    "C51_buffered_writer",
    "C51_never_ahead",
    "C51_string_writer",
    "C51_capacity_refuted"
   ],
   "note": "write_char, write, flush, reserve, sprintf + advance."
  },
  {
   "property": "C52",
   "status": "proved",
   "theorems": [
    "C52_write",
    "C52_read",
    "C52_round_trip",
    "C52_read_string",
    "C52_read_line",
    "C52_min_refuted",
    "C52_len_refuted"
   ],
   "note": "Through the buffered layers, signed types of at most 64 bits."
  },
  {
   "property": "C53",
   "status": "proved",
   "theorems": [
    "C53_exactly_once",
    "C53_exclusive",
    "C53_no_deadlock",
    "C53_terminates",
    "C53_completes",
    "C53_sum",
    "C53_range",
    "C53_range_width",
    "C53_range_overflow_refuted",
    "C53_range_sum",
    "C53_create_worker_refuted"
   ],
   "note": "Sequentially consistent interleavings of mutex operations and calls of the provided objects; any number of threads."
  },
  {
   "property": "C54",
   "status": "proved",
   "theorems": [
    "C54_or_and",
    "C54_xor",
    "C54_max",
    "C54_transforms",
    "C54_slow",
    "C54_slow_ops",
    "C54_slow_max_cyclic"
   ],
   "note": "All commutative rings; arrays may alias; xor needs division by n to undo multiplication by n."
  },
  {
   "property": "C55",
   "status": "proved",
   "theorems": [
    "C55_subset_sum",
    "C55_inverse",
    "C55_subset_convolution",
    "C55_slow"
   ],
   "note": "All commutative rings; fast_subset_convolution for log_n <= 31 (uint32_t)."
  },
  {
   "property": "C56",
   "status": "proved",
   "theorems": [
    "C56_sum_ratio"
   ],
   "note": ""
  },
  {
   "property": "C57",
   "status": "proved",
   "theorems": [
    "C57_sum_sqrt",
    "C57_sum_sqrt2m",
    "C57_sum_sqrt2",
    "C57_root"
   ],
   "note": "the isqrt result is the exact root (C05)"
  },
  {
   "property": "C58",
   "status": "proved",
   "theorems": [
    "C58_power_sums",
    "C58_prime_pi_sqrt",
    "C58_prime_sum_sqrt",
    "C58_prime_pi",
    "C58_prime_sum",
    "C58_prime_pi13_sqrt",
    "C58_prime_pi1",
    "C58_prime_pi3",
    "C58_zero_refuted"
   ],
   "note": "For every n, every power, every commutative ring; the integer square root and the sums of all powers enter as hypotheses met by sqrtT (C05) and sum_pow (C72). prime_power_sum_sqrt(z, 0) divides by zero (refuted)."
  },
  {
   "property": "C59",
   "status": "proved",
   "theorems": [
    "C59_range_powers_factorials",
    "C59_inv_factorials",
    "C59_inverses",
    "C59_invert",
    "C59_invert_field",
    "C59_signs",
    "C59_accumulate",
    "C59_differentiate",
    "C59_differentiate_accumulate",
    "C59_factorial",
    "C59_power",
    "C59_inv_factorials_refuted",
    "C59_inverses_empty_refuted"
   ],
   "note": "any commutative ring; a supplied k >= n is refuted"
  },
  {
   "property": "C60",
   "status": "proved",
   "theorems": [
    "C60_linear_recurrence",
    "C60_next",
    "C60_roundtrip",
    "C60_fibonacci",
    "C60_lucas_l",
    "C60_lucas_u",
    "C60_lucas_v"
   ],
   "note": "For every commutative coefficient ring with 1 <> 0 and every commutative algebra of sequence values, every non-empty coefficient list and every n >= 0. berlekamp_massey and bernoulli_b are not part of this claim."
  },
  {
   "property": "C61",
   "status": "proved",
   "theorems": [
    "C61_stirling_s1",
    "C61_stirling_s2",
    "C61_stirling_s2_term"
   ],
   "note": "tables over any commutative ring; single term over exact integers"
  },
  {
   "property": "C62",
   "status": "proved",
   "theorems": [
    "C62_integer_to_range",
    "C62_biggest_multiple",
    "C62_unbiased",
    "C62_uniform_next"
   ],
   "note": "every generator; unsigned words of any width"
  },
  {
   "property": "C63",
   "status": "proved",
   "theorems": [
    "C63_continued_fraction",
    "C63_convergents",
    "C63_semi_convergents",
    "C63_last_convergent",
    "C63_negative_refuted"
   ],
   "note": "leading quotients >= -1; refuted below"
  },
  {
   "property": "C64",
   "status": "proved",
   "theorems": [
    "C64_farey_neighbour"
   ],
   "note": ""
  },
  {
   "property": "C65",
   "status": "proved",
   "theorems": [
    "C65_repeating_decimal",
    "C65_repeating_decimal_shortest",
    "C65_rational_digits"
   ],
   "note": ""
  },
  {
   "property": "C66",
   "status": "proved",
   "theorems": [
    "C66_next_partition",
    "C66_nth_permutation",
    "C66_perms_meaning"
   ],
   "note": ""
  },
  {
   "property": "C67",
   "status": "proved",
   "theorems": [
    "C67_factorial_prime_exponent",
    "C67_binomial_prime_exponent",
    "C67_multinomial_prime_exponent"
   ],
   "note": ""
  },
  {
   "property": "C68",
   "status": "proved",
   "theorems": [
    "C68_reduce",
    "C68_reduce_fold",
    "C68_mex",
    "C68_mex_duplicates_refuted"
   ],
   "note": "mex for strictly increasing containers; refuted with duplicates"
  },
  {
   "property": "C69",
   "status": "proved",
   "theorems": [
    "C69_table",
    "C69_apply",
    "C69_product",
    "C69_inverse",
    "C69_quotient",
    "C69_normalize",
    "C69_named",
    "C69_infinity_equal_refuted",
    "C69_minus_infinity_refuted",
    "C69_inverse_product_refuted"
   ],
   "note": "For every field with an involution; points are compared as points of the projective line. == tells infinities apart, unary minus loses infinity, and t * t.inverse() is not the identity matrix for conjugating t (refuted)."
  },
  {
   "property": "C70",
   "status": "proved",
   "theorems": [
    "C70_add_node",
    "C70_add_edge",
    "C70_add_edge2",
    "C70_num_edges",
    "C70_delete_edge",
    "C70_delete_node",
    "C70_deduplicate",
    "C70_contract",
    "C70_names",
    "C70_contract_undirected_refuted",
    "C70_contract_self_refuted"
   ],
   "note": "For every graph with weighted edges and every sorting function. After contract the two directions of an undirected edge can carry different weights, and contract(u, u) is undefined (refuted)."
  },
  {
   "property": "C71",
   "status": "proved",
   "theorems": [
    "C71_bit_editing",
    "C71_sign_mag"
   ],
   "note": ""
  },
  {
   "property": "C72",
   "status": "proved",
   "theorems": [
    "C72_sum",
    "C72_sum_pow"
   ],
   "note": ""
  },
  {
   "property": "C73",
   "status": "proved",
   "theorems": [
    "C73_modulo_power",
    "C73_modT"
   ],
   "note": ""
  },
  {
   "property": "C74",
   "status": "proved",
   "theorems": [
    "C74_multinomial"
   ],
   "note": ""
  },
  {
   "property": "C75",
   "status": "proved",
   "theorems": [
    "C75_bitwise",
    "C75_closed",
    "C75_ring"
   ],
   "note": "All word widths."
  },
  {
   "property": "C76",
   "status": "proved",
   "theorems": [
    "C76_order_g",
    "C76_order",
    "C76_order_totient",
    "C76_non_unit_refuted"
   ],
   "note": ""
  },
  {
   "property": "C77",
   "status": "proved",
   "theorems": [
    "C77_primitive_root",
    "C77_primitive_root_of_unity"
   ],
   "note": "including the classification of the moduli that have a primitive root."
  },
  {
   "property": "C78",
   "status": "proved",
   "theorems": [
    "C78_kth_roots_of_unity",
    "C78_kth_roots",
    "C78_not_cyclic_refuted"
   ],
   "note": ""
  },
  {
   "property": "C79",
   "status": "proved",
   "theorems": [
    "C79_brute_force",
    "C79_baby_giant",
    "C79_shanks",
    "C79_oddp",
    "C79_discrete_log",
    "C79_discrete_log_g",
    "C79_order_pp_g",
    "C79_baby_giant_g",
    "C79_no_solution_refuted"
   ],
   "note": ""
  },
  {
   "property": "C80",
   "status": "proved",
   "theorems": [
    "C80_p2",
    "C80_pp"
   ],
   "note": ""
  },
  {
   "property": "C81",
   "status": "proved",
   "theorems": [
    "C81_fft",
    "C81_fft_not_power",
    "C81_fft_inverse",
    "C81_fft_rec"
   ],
   "note": ""
  },
  {
   "property": "C82",
   "status": "proved",
   "theorems": [
    "C82_fft_cyclic_convolution",
    "C82_convolution",
    "C82_cyclic_convolution",
    "C82_root_wrapper",
    "C82_documented_order_refuted"
   ],
   "note": "exact arithmetic only: floating-point rounding of complex roots is not modelled"
  },
  {
   "property": "C83",
   "status": "proved",
   "theorems": [
    "C83_miller_rabin_with",
    "C83_prime_accepted",
    "C83_miller_rabin",
    "C83_miller_rabin_exact"
   ],
   "note": "exactness of the base tables above 2046 rests on published searches and is not claimed"
  },
  {
   "property": "C84",
   "status": "proved",
   "theorems": [
    "C84_pollard_rho",
    "C84_pollard_rho_repeated",
    "C84_factor_integer",
    "C84_factor_integer_primes",
    "C84_factor_integer_exact",
    "C84_zero"
   ],
   "note": ""
  },
  {
   "property": "C85",
   "status": "proved",
   "theorems": [
    "C85_factor_integer_slow",
    "C85_factor_out",
    "C85_factor_out_zero_refuted",
    "C85_from_factorization",
    "C85_round_trip"
   ],
   "note": ""
  },
  {
   "property": "C86",
   "status": "proved",
   "theorems": [
    "C86_from_primes",
    "C86_from_primes_once"
   ],
   "note": ""
  },
  {
   "property": "C87",
   "status": "proved",
   "theorems": [
    "C87_fraction_reduce",
    "C87_integer"
   ],
   "note": ""
  },
  {
   "property": "C88",
   "status": "proved",
   "theorems": [
    "C88_convolution",
    "C88_division",
    "C88_division_unique",
    "C88_inverse",
    "C88_moebius_transform",
    "C88_algebra"
   ],
   "note": ""
  },
  {
   "property": "C89",
   "status": "proved",
   "theorems": [
    "C89_convolution",
    "C89_multiplicative",
    "C89_division",
    "C89_quotient",
    "C89_inverse",
    "C89_moebius_transform",
    "C89_divisor_sigma",
    "C89_calc",
    "C89_g1_refuted"
   ],
   "note": "g(1) = 1 is needed; the header only asks for an invertible g(1)"
  },
  {
   "property": "C90",
   "status": "proved",
   "theorems": [
    "C90_convolution",
    "C90_division",
    "C90_inverse",
    "C90_moebius_transform",
    "C90_calc",
    "C90_g1_refuted"
   ],
   "note": "g(1) = 1 is needed; the header only asks for an invertible g(1)"
  },
  {
   "property": "C91",
   "status": "proved",
   "theorems": [
    "C91_sieve_m",
    "C91_sieve_m1",
    "C91_unique",
    "C91_sieve_m_multiplicative",
    "C91_sieve_m_multiplicative_inv",
    "C91_summatory",
    "C91_one_entry_refuted",
    "C91_stale_zero_refuted"
   ],
   "note": ""
  },
  {
   "property": "C92",
   "status": "proved",
   "theorems": [
    "C92_sieve_sqfree_count",
    "C92_squarefree"
   ],
   "note": ""
  },
  {
   "property": "C93",
   "status": "proved",
   "theorems": [
    "C93_sum_m",
    "C93_sum_m1",
    "C93_map_table",
    "C93_sqrt_map_table"
   ],
   "note": ""
  },
  {
   "property": "C94",
   "status": "proved",
   "theorems": [
    "C94_mertens",
    "C94_mertens_odd",
    "C94_mertens_even",
    "C94_mertens_even_int_refuted",
    "C94_sieve_mertens",
    "C94_sieve_mertens_odd",
    "C94_sieve_mertens_even",
    "C94_sieve_mertens_even_odd"
   ],
   "note": "the versions over a table of prime counts are not covered"
  },
  {
   "property": "C95",
   "status": "proved",
   "theorems": [
    "C95_sqfree_count",
    "C95_square_times_squarefree"
   ],
   "note": ""
  },
  {
   "property": "C96",
   "status": "proved",
   "theorems": [
    "C96_sum_phi",
    "C96_make_sqrt_map",
    "C96_zero_refuted"
   ],
   "note": ""
  },
  {
   "property": "C97",
   "status": "proved",
   "theorems": [
    "C97_coprime_sum"
   ],
   "note": ""
  },
  {
   "property": "C98",
   "status": "proved",
   "theorems": [
    "C98_sum_multiplicative_34_map",
    "C98_sum_multiplicative_34"
   ],
   "note": ""
  },
  {
   "property": "C99",
   "status": "proved",
   "theorems": [
    "C99_traverse_rough_numbers",
    "C99_calc_F_k"
   ],
   "note": ""
  },
  {
   "property": "C100",
   "status": "proved",
   "theorems": [
    "C100_sum_multiplicative",
    "C100_one",
    "C100_no_primes_refuted",
    "C100_small_refuted"
   ],
   "note": "the prime between the cube root and the square root is a hypothesis"
  },
  {
   "property": "C101",
   "status": "proved",
   "theorems": [
    "C101_history",
    "C101_from_values",
    "C101_link_non_root_refuted"
   ],
   "note": ""
  },
  {
   "property": "C102",
   "status": "proved",
   "theorems": [
    "C102_traverse"
   ],
   "note": ""
  },
  {
   "property": "C103",
   "status": "proved",
   "theorems": [
    "C103_documented_bound",
    "C103_segmented_q",
    "C103_short_range_refuted",
    "C103_short_range_overwrites_refuted"
   ],
   "note": ""
  },
  {
   "property": "C104",
   "status": "proved",
   "theorems": [
    "C104_segmented_phi",
    "C104_segmented_mu",
    "C104_empty_range_refuted"
   ],
   "note": ""
  },
  {
   "property": "C105",
   "status": "proved",
   "theorems": [
    "C105_pythagorean_triples",
    "C105_fixed_leg"
   ],
   "note": ""
  },
  {
   "property": "C106",
   "status": "proved",
   "theorems": [
    "C106_eisenstein60",
    "C106_strict_unless_equilateral",
    "C106_strict_order_refuted"
   ],
   "note": ""
  },
  {
   "property": "C107",
   "status": "proved",
   "theorems": [
    "C107_eisenstein120"
   ],
   "note": ""
  },
  {
   "property": "C108",
   "status": "proved",
   "theorems": [
    "C108_almost_pythagorean"
   ],
   "note": ""
  },
  {
   "property": "C109",
   "status": "proved",
   "theorems": [
    "C109_tree",
    "C109_limit_refuted"
   ],
   "note": ""
  },
  {
   "property": "C110",
   "status": "proved",
   "theorems": [
    "C110_expansion"
   ],
   "note": ""
  },
  {
   "property": "C111",
   "status": "proved",
   "theorems": [
    "C111_pell1",
    "C111_list"
   ],
   "note": ""
  },
  {
   "property": "C112",
   "status": "proved",
   "theorems": [
    "C112_pellS"
   ],
   "note": ""
  },
  {
   "property": "C113",
   "status": "proved",
   "theorems": [
    "C113_class",
    "C113_sound",
    "C113_list_sound",
    "C113_classes_refuted",
    "C113_list_refuted"
   ],
   "note": ""
  },
  {
   "property": "C114",
   "status": "proved",
   "theorems": [
    "C114_xorshift64",
    "C114_step"
   ],
   "note": ""
  },
  {
   "property": "C115",
   "status": "proved",
   "theorems": [
    "C115_xorshift1024",
    "C115_reversible",
    "C115_periodic",
    "C115_alive",
    "C115_seed"
   ],
   "note": ""
  },
  {
   "property": "C116",
   "status": "proved",
   "theorems": [
    "C116_stream",
    "C116_array",
    "C116_empty_refuted",
    "C116_alive",
    "C116_tempering"
   ],
   "note": "randInt(n) is shown to return whenever a suitable draw comes; that one comes is not claimed"
  },
  {
   "property": "C117",
   "status": "proved",
   "theorems": [
    "C117_cornacchia",
    "C117_total"
   ],
   "note": "the square root of integers is a parameter with its specification, proved in C57"
  },
  {
   "property": "C118",
   "status": "proved",
   "theorems": [
    "C118_prime",
    "C118_table"
   ],
   "note": ""
  },
  {
   "property": "C119",
   "status": "proved",
   "theorems": [
    "C119_list"
   ],
   "note": "std::set and std::unordered_map are modelled by sorted and association lists"
  },
  {
   "property": "C120",
   "status": "proved",
   "theorems": [
    "C120_count"
   ],
   "note": ""
  },
  {
   "property": "C121",
   "status": "proved",
   "theorems": [
    "C121_mul_fft_crt"
   ],
   "note": "polynom_mod.h: _mul_fft_crt with convert_hi/lo, the two transforms, _crt in uint64 and the recombination by 2^16; the transforms run over residues modulo the two primes with the 5 and 3 generators checked by the kernel"
  },
  {
   "property": "C122",
   "status": "proved",
   "theorems": [
    "C122_skipped_slow",
    "C122_skipped_table",
    "C122_skipped_fast"
   ],
   "note": "integers are exact; the table is any one made by the modelled factorials_mod_pp_skipped"
  },
  {
   "property": "C123",
   "status": "proved",
   "theorems": [
    "C123_reduced_slow",
    "C123_reduced_2",
    "C123_reduced_fast"
   ],
   "note": "integers are exact"
  },
  {
   "property": "C124",
   "status": "proved",
   "theorems": [
    "C124_binomial_slow",
    "C124_binomial_2",
    "C124_binomial_fast"
   ],
   "note": "integers are exact"
  },
  {
   "property": "C125",
   "status": "proved",
   "theorems": [
    "C125_series_ring",
    "C125_series_division",
    "C125_series_calculus",
    "C125_series_substitutions",
    "C125_shift_refuted",
    "C125_empty_mul_refuted"
   ],
   "note": "all series operators over any commutative ring; the two boundary cases outside the property are recorded as refuted"
  },
  {
   "property": "C126",
   "status": "proved",
   "theorems": [
    "C126_exp",
    "C126_ln"
   ],
   "note": "Newton iteration of exp through uniqueness of the solution of y' = s' y; ln as the inverse of exp"
  },
  {
   "property": "C127",
   "status": "proved",
   "theorems": [
    "C127_pow",
    "C127_pow_negative",
    "C127_pow_negative_refuted",
    "C127_pow_zero_refuted",
    "C127_pow_vanishing_refuted",
    "C127_pow_int_refuted"
   ],
   "note": "powers below and from the threshold; the four cases in which the code does not give the power are proved as refutations"
  },
  {
   "property": "C128",
   "status": "proved",
   "theorems": [
    "C128_composition",
    "C128_reversion",
    "C128_no_reversion",
    "C128_empty_composition_refuted"
   ],
   "note": "Brent-Kung composition; Newton iteration of the reversion through the Taylor expansion and the chain rule"
  },
  {
   "property": "C129",
   "status": "proved",
   "theorems": [
    "C129_generating_functions",
    "C129_named_series"
   ],
   "note": "conversion between ordinary and exponential generating functions"
  },
  {
   "property": "C130",
   "status": "proved",
   "theorems": [
    "C130_history",
    "C130_order",
    "C130_pi_two_refuted",
    "C130_factor_one_refuted",
    "C130_pi_past_end_refuted"
   ],
   "note": "For sz >= 40 the floating-point estimate of the number of primes is an input assumed large enough; below 40 the code estimate is proved to suffice."
  },
  {
   "property": "C131",
   "status": "proved",
   "theorems": [
    "C131_tables",
    "C131_empty_refuted",
    "C131_bin_range_refuted"
   ],
   "note": "Over every commutative ring in which division of 1 by (sz-1)! inverts it."
  },
  {
   "property": "C132",
   "status": "proved",
   "theorems": [
    "C132_history",
    "C132_phi",
    "C132_primes_to_root_refuted",
    "C132_key_refuted"
   ],
   "note": "cbrtT(m) is an input assumed to be the integer cube root; arithmetic is unbounded except for the 64-bit memo key."
  },
  {
   "property": "C133",
   "status": "proved",
   "theorems": [
    "C133_bernoulli",
    "C133_unique"
   ],
   "note": ""
  },
  {
   "property": "C134",
   "status": "proved",
   "theorems": [
    "C134_sum_pow",
    "C134_history",
    "C134_growth_refuted"
   ],
   "note": "Negative p and N are not considered. One ring per static vector: a run-time modulus that changes between calls is not modelled."
  },
  {
   "property": "C135",
   "status": "proved",
   "theorems": [
    "C135_polynom_sum"
   ],
   "note": ""
  },
  {
   "property": "C136",
   "status": "proved",
   "theorems": [
    "C136_powers",
    "C136_triangular",
    "C136_tetrahedral",
    "C136_pyramidal",
    "C136_octahedral",
    "C136_dodecahedral",
    "C136_icosahedral"
   ],
   "note": "Natural arguments; over every commutative ring whose division by 2, 3, 6 undoes multiplication (integers, rationals, odd moduli)."
  },
  {
   "property": "C137",
   "status": "proved",
   "theorems": [
    "C137_sigma0",
    "C137_sigma1",
    "C137_sigma2"
   ],
   "note": "The integer square root is an input: the value does not depend on its being exact."
  },
  {
   "property": "C138",
   "status": "proved",
   "theorems": [
    "C138_sum_powx",
    "C138_invertible",
    "C138_integers",
    "C138_one_refuted"
   ],
   "note": "Polynomial arithmetic inside is that of coefficient sequences; the polynom class itself is C72-C77."
  },
  {
   "property": "C139",
   "status": "proved",
   "theorems": [
    "C139_closure",
    "C139_acyclic",
    "C139_self_refuted"
   ],
   "note": ""
  },
  {
   "property": "C140",
   "status": "proved",
   "theorems": [
    "C140_reduction",
    "C140_cyclic_refuted"
   ],
   "note": ""
  },
  {
   "property": "C141",
   "status": "proved",
   "theorems": [
    "C141_floyd_warshall",
    "C141_bound",
    "C141_inf_refuted"
   ],
   "note": ""
  },
  {
   "property": "C142",
   "status": "proved",
   "theorems": [
    "C142_dijkstra"
   ],
   "note": "std::set is modelled as the list of its elements; weights are unbounded integers."
  },
  {
   "property": "C143",
   "status": "proved",
   "theorems": [
    "C143_edges",
    "C143_tree_refuted"
   ],
   "note": "The documented claim (a minimum spanning tree) is false; the theorem states what does hold."
  },
  {
   "property": "C144",
   "status": "proved",
   "theorems": [
    "C144_in_degrees",
    "C144_topological_sort",
    "C144_any_graph",
    "C144_detects_cycles_refuted"
   ],
   "note": ""
  },
  {
   "property": "C145",
   "status": "proved",
   "theorems": [
    "C145_parents"
   ],
   "note": ""
  },
  {
   "property": "C146",
   "status": "proved",
   "theorems": [
    "C146_tarjan_scc"
   ],
   "note": ""
  },
  {
   "property": "C147",
   "status": "proved",
   "theorems": [
    "C147_sat2",
    "C147_vector"
   ],
   "note": ""
  },
  {
   "property": "C148",
   "status": "proved",
   "theorems": [
    "C148_algebra",
    "C148_product",
    "C148_wedge",
    "C148_dot",
    "C148_join",
    "C148_sum",
    "C148_difference",
    "C148_unary",
    "C148_reverse_of_product",
    "C148_mixed_difference_refuted"
   ],
   "note": ""
  },
  {
   "property": "C149",
   "status": "proved",
   "theorems": [
    "C149_inverse",
    "C149_norm",
    "C149_line_inverse_refuted"
   ],
   "note": ""
  },
  {
   "property": "C150",
   "status": "proved",
   "theorems": [
    "C150_sandwich",
    "C150_composition",
    "C150_rotation",
    "C150_translation",
    "C150_reflection",
    "C150_incidence",
    "C150_general_sandwich_refuted",
    "C150_line_through_scaled_point_refuted"
   ],
   "note": ""
  },
  {
   "property": "C151",
   "status": "proved",
   "theorems": [
    "C151_algebra",
    "C151_elements",
    "C151_products",
    "C151_sums",
    "C151_reversion",
    "C151_norm",
    "C151_rotate",
    "C151_reflect",
    "C151_inverses",
    "C151_multivector_inverse",
    "C151_make_rotor",
    "C151_own_part_refuted",
    "C151_opposite_refuted"
   ],
   "note": ""
  },
  {
   "property": "C152",
   "status": "proved",
   "theorems": [
    "C152_first_minimum",
    "C152_block_size_irrelevant",
    "C152_size_is_padded",
    "C152_size_refuted",
    "C152_log2"
   ],
   "note": ""
  },
  {
   "property": "C153",
   "status": "proved",
   "theorems": [
    "C153_histories",
    "C153_memory",
    "C153_add",
    "C153_erase"
   ],
   "note": ""
  },
  {
   "property": "C154",
   "status": "proved",
   "theorems": [
    "C154_count_matches",
    "C154_state",
    "C154_empty_word_twice"
   ],
   "note": ""
  },
  {
   "property": "C155",
   "status": "proved",
   "theorems": [
    "C155_totals",
    "C155_nodes",
    "C155_add",
    "C155_propagate"
   ],
   "note": ""
  },
  {
   "property": "C156",
   "status": "proved",
   "theorems": [
    "C156_max_cost",
    "C156_min_cost"
   ],
   "note": ""
  },
  {
   "property": "C157",
   "status": "proved",
   "theorems": [
    "C157_max_flow",
    "C157_same_node",
    "C157_blocking_refuted"
   ],
   "note": ""
  },
  {
   "property": "C158",
   "status": "proved",
   "theorems": [
    "C158_bipartite_matching",
    "C158_repeated_edge_refuted"
   ],
   "note": ""
  },
  {
   "property": "C159",
   "status": "proved",
   "theorems": [
    "C159_lca",
    "C159_distance",
    "C159_no_node"
   ],
   "note": ""
  },
  {
   "property": "C160",
   "status": "proved",
   "theorems": [
    "C160_layout",
    "C160_kth_parent",
    "C160_few_chains",
    "C160_walk",
    "C160_keeps_edges_refuted"
   ],
   "note": ""
  },
  {
   "property": "C161",
   "status": "proved",
   "theorems": [
    "C161_zero",
    "C161_value_refuted"
   ],
   "note": "exact rational arithmetic; rounding is not modelled; the form for a value y other than 0 is refuted"
  },
  {
   "property": "C162",
   "status": "proved",
   "theorems": [
    "C162_tree",
    "C162_cycle",
    "C162_complete"
   ],
   "note": "the closed forms only; the recursive chromatic_polynomial for arbitrary graphs is not part of the property"
  },
  {
   "property": "C163",
   "status": "partial",
   "theorems": [
    "C163_lcp_partial",
    "C163_compare_partial"
   ],
   "note": "proved for every array of the suffixes in increasing order; missing: that the construction of that array (SA-IS) sorts the suffixes"
  },
  {
   "property": "C164",
   "status": "proved",
   "theorems": [
    "C164_compare",
    "C164_add_sub",
    "C164_of_int",
    "C164_mul_full",
    "C164_mul",
    "C164_post_increment_refuted",
    "C164_division_refuted"
   ],
   "note": "for words of every width from 8 bits and every depth of nesting: comparisons, carries, sums, differences, negation, increments and the Karatsuba product; refuted: the postfix increment changes the variable and gives the old value; refuted: division. The shifts, bit operations and conversions to strings are not modelled; the word intrinsics (add with carry, full product of two words) are modelled by their meaning."
  },
  {
   "property": "C165",
   "status": "proved",
   "theorems": [
    "C165_order",
    "C165_order_2d_3d",
    "C165_elements",
    "C165_scalar_alias",
    "C165_scalar_alias_refuted",
    "C165_plane",
    "C165_space"
   ],
   "note": "over the integers, with truncating / and %; refuted: the compound operators with a scalar use the value the scalar had before the call, when the scalar is an element of the vector. Not modelled: the payload, the tolerance EPS, near, unit and abs1."
  },
  {
   "property": "C166",
   "status": "proved",
   "theorems": [
    "C166_total",
    "C166_fields",
    "C166_blanks",
    "C166_termination_refuted"
   ],
   "note": "for characters of any type and any predicate of white space; refuted: reading ends for every pair of token types. The stream is a list of characters with the state bit that get, unget and ws leave; the skipws flag, tokens of integers and unbox_tokens are not modelled."
  },
  {
   "property": "C167",
   "status": "partial",
   "theorems": [
    "C167_cut_edges_partial",
    "C167_cut_vertices_partial",
    "C167_components_partial",
    "C167_bridges_partial"
   ],
   "note": "for any decomposition given to them, cut_edges is the set of edges on no chain, cut_vertices the set of nodes of degree at least 2 that are an end of a cut edge or the head of a later block, and biconnected_components the vertices of each block, without those of earlier blocks other than its head; if the blocks are ear decompositions, every bridge is among the cut edges. Missing: that chain_decomposition gives ear decompositions that cover every edge that is not a bridge, and the articulation points and biconnected components; chain_decomposition and block_cut_tree are not modelled."
  }
 ]
}