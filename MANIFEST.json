{
 "claims": [
  {
   "property": "C01",
   "status": "proved",
   "theorems": [
    "C01_add_assign_exact",
    "C01_add_assign_move_exact",
    "C01_plus_exact",
    "C01_add_machine_exact",
    "C01_increment_exact"
   ],
   "note": "All + and += overloads, ++, --, += machine integer; distinct operands (aliasing is C14)."
  },
  {
   "property": "C02",
   "status": "proved",
   "theorems": [
    "C02_sub_assign_exact",
    "C02_sub_machine_exact",
    "C02_minus_exact"
   ],
   "note": "-=, - with const right operand, -= machine integer."
  },
  {
   "property": "C03",
   "status": "partial",
   "theorems": [
    "C03_subtract_from_exact_partial",
    "C03_subtract_from_move_exact_partial",
    "C03_sub_assign_move_exact_partial",
    "C03_subtract_from_refuted",
    "C03_minus_move_refuted"
   ],
   "note": "False as stated: borrow not propagated past an all-ones digit when x<0 and *this is at least two digits longer (witness in C03_subtract_from_refuted). Proved outside that case."
  },
  {
   "property": "C04",
   "status": "proved",
   "theorems": [
    "C04_negate_exact",
    "C04_complement_exact"
   ],
   "note": "negate and complement."
  },
  {
   "property": "C05",
   "status": "partial",
   "theorems": [
    "C05_mul_exact",
    "C05_mul_digit_exact_partial",
    "C05_mul_int_exact_partial",
    "C05_mul_digit_zero_refuted"
   ],
   "note": "a*b proved. a*=d exact in value, but multi-digit nonnegative times machine zero is not in shortest form (C05_mul_digit_zero_refuted)."
  },
  {
   "property": "C06",
   "status": "partial",
   "theorems": [
    "C06_reduce_mod_partial",
    "C06_bad_division",
    "C06_reduce_mod_refuted",
    "C06_division_by_zero",
    "C06_quotient_remainder_partial"
   ],
   "note": "Proved outside bad_division (positive dividend, negative divisor of the same length, smaller in absolute value); inside it the remainder has the wrong sign (C06_bad_division, C06_reduce_mod_refuted). Zero divisor throws."
  },
  {
   "property": "C07",
   "status": "proved",
   "theorems": [
    "C07_comparison",
    "C07_sign_tests",
    "C07_eq_int",
    "C07_shortest_form_unique"
   ],
   "note": "<, ==, sign tests, comparison with int."
  },
  {
   "property": "C08",
   "status": "proved",
   "theorems": [
    "C08_construct",
    "C08_int_val",
    "C08_long_val",
    "C08_short_val"
   ],
   "note": "Constructors from int, 64-bit signed and unsigned; int_val, uint_val, long_val, ulong_val, convert<short>."
  },
  {
   "property": "C09",
   "status": "proved",
   "theorems": [
    "C09_and_bits",
    "C09_or_bits",
    "C09_xor_bits",
    "C09_andnot_bits",
    "C09_subset_bits"
   ],
   "note": "&=, |=, ^=, bitwise_subtract, bitwise_subset bit by bit; non-destructive & | bitwise_subtract agree. operator^ returns a dangling reference and is not modelled."
  },
  {
   "property": "C10",
   "status": "proved",
   "theorems": [
    "C10_index_of_set_bit",
    "C10_bit_length"
   ],
   "note": "index_of_set_bit and bit_length for both signs."
  },
  {
   "property": "C11",
   "status": "proved",
   "theorems": [
    "C11_print_exact",
    "C11_round_trip"
   ],
   "note": "Digits printed, sign, no leading zero, and reading them back."
  },
  {
   "property": "C12",
   "status": "partial",
   "theorems": [
    "C12_any_conversion",
    "C12_char_val_partial",
    "C12_hexadecimal_refuted"
   ],
   "note": "Exact for any conversion function and base below 2^32; the library's char_val is right for bases up to ten only (C12_hexadecimal_refuted)."
  },
  {
   "property": "C13",
   "status": "partial",
   "theorems": [
    "C13_gcd_exact",
    "C13_lcm_partial",
    "C13_lcm_sign_refuted",
    "C13_lcm_zero_refuted"
   ],
   "note": "gcd proved, including termination. lcm has the sign of the product (C13_lcm_sign_refuted) and lcm(0,0) divides by zero (C13_lcm_zero_refuted)."
  },
  {
   "property": "C14",
   "status": "partial",
   "theorems": [
    "C14_add_self_refuted",
    "C14_sub_self",
    "C14_add_self_partial"
   ],
   "note": "a-=a proved. a+=a depends on an evaluation order that C++ leaves open: right for one order, for the other right only when the sum needs no new digit (C14_add_self_refuted)."
  },
  {
   "property": "C15",
   "status": "proved",
   "theorems": [
    "C15_power_exact"
   ],
   "note": "power(e) for all e."
  },
  {
   "property": "C16",
   "status": "partial",
   "theorems": [
    "C16_from_fraction",
    "C16_from_fraction_zero",
    "C16_less",
    "C16_equal",
    "C16_equal_int",
    "C16_add_int",
    "C16_add",
    "C16_opp",
    "C16_sub_int_partial",
    "C16_int_sub",
    "C16_subtract_from_partial",
    "C16_sub_partial",
    "C16_sub_refuted",
    "C16_mul_int",
    "C16_mul",
    "C16_invert",
    "C16_div_int",
    "C16_int_div",
    "C16_div",
    "C16_zero_divisor",
    "C16_floor",
    "C16_ceil",
    "C16_frac",
    "C16_quotient_int_partial",
    "C16_mod_int_partial",
    "C16_quotient_partial",
    "C16_mod_partial",
    "C16_quotient_refuted",
    "C16_power"
   ],
   "note": "All big_rat operations; subtraction and quotients are restricted by the defects of C03 and C06 (C16_sub_refuted, C16_quotient_refuted)."
  },
  {
   "property": "C17",
   "status": "proved",
   "theorems": [
    "C17_divide",
    "C17_remainder",
    "C17_division_identity"
   ],
   "note": "divide exact for all arguments; remainder exact modulo 2^64 in its signed result type, hence exact for b<=2^63."
  },
  {
   "property": "C18",
   "status": "partial",
   "theorems": [
    "C18_unsigned_gcd",
    "C18_gcd_signed",
    "C18_lcm",
    "C18_lcm_comment_refuted"
   ],
   "note": "gcd and lcm proved; the comment's literal claim gcd==mult_a%b is refuted (C18_lcm_comment_refuted), the congruence is proved."
  },
  {
   "property": "C19",
   "status": "partial",
   "theorems": [
    "C19_normalize",
    "C19_add",
    "C19_sub",
    "C19_mul_partial",
    "C19_mul_refuted",
    "C19_div",
    "C19_mod",
    "C19_mul_int",
    "C19_div_int",
    "C19_mod_int",
    "C19_mod1",
    "C19_floor",
    "C19_ceil",
    "C19_quotient",
    "C19_add_int",
    "C19_sub_int",
    "C19_neg",
    "C19_inverse",
    "C19_power",
    "C19_power_negative",
    "C19_compare"
   ],
   "note": "All operations of Rational<long long>. operator* is wrong for a negative numerator sharing a factor with the other denominator (C19_mul_refuted); proved otherwise."
  },
  {
   "property": "C20",
   "status": "proved",
   "theorems": [
    "C20_modAdd",
    "C20_modProd",
    "C20_power",
    "C20_signs"
   ],
   "note": "modAdd, modProd, power, exp_minus_1, exp_i."
  },
  {
   "property": "C21",
   "status": "proved",
   "theorems": [
    "C21_bitCount",
    "C21_firstBit",
    "C21_lastBit",
    "C21_bigint_word_ops"
   ],
   "note": "bitCount, firstBit, lastBit; also identified with the word operations used in the big-integer model."
  },
  {
   "property": "C22",
   "status": "proved",
   "theorems": [
    "C22_make",
    "C22_of_list",
    "C22_step",
    "C22_history",
    "C22_and_flag"
   ],
   "note": "Every single operation and arbitrary histories; the class invariant (unused bits clear) is preserved."
  },
  {
   "property": "C23",
   "status": "partial",
   "theorems": [
    "C23_size",
    "C23_position",
    "C23_n_th",
    "C23_front",
    "C23_empty",
    "C23_full",
    "C23_back_up_partial",
    "C23_back_up_refuted",
    "C23_last_partial",
    "C23_contains",
    "C23_disjoint",
    "C23_equal",
    "C23_equal_capacity_refuted"
   ],
   "note": "All queries proved; back_up (and last) for capacities up to 2^32, refuted beyond (result passes through unsigned int). == ignores the capacity."
  },
  {
   "property": "C24",
   "status": "proved",
   "theorems": [
    "C24_next",
    "C24_traversal"
   ],
   "note": "Traversal visits the members of the initial set in increasing order for any body that changes visited positions only."
  },
  {
   "property": "C25",
   "status": "partial",
   "theorems": [
    "C25_shift_up_partial",
    "C25_shift_up_refuted",
    "C25_shift_down_partial",
    "C25_shift_down_refuted"
   ],
   "note": "<<= right on membership but leaves unused bits set (C25_shift_up_refuted); >>= shifts the top word the wrong way (C25_shift_down_refuted), proved where that does not matter."
  },
  {
   "property": "C26",
   "status": "proved",
   "theorems": [
    "C26_setRange",
    "C26_range",
    "C26_round_trip"
   ],
   "note": "Fields within one word, as the source requires."
  },
  {
   "property": "C27",
   "status": "partial",
   "theorems": [
    "C27_xor1",
    "C27_or1",
    "C27_and1",
    "C27_andnot1",
    "C27_shl1",
    "C27_shr1",
    "C27_flip1",
    "C27_reset1",
    "C27_set1",
    "C27_set_to1",
    "C27_fill1",
    "C27_complement1",
    "C27_truncate1",
    "C27_test1",
    "C27_eq1",
    "C27_none1",
    "C27_any1",
    "C27_meets1",
    "C27_contains1",
    "C27_count1",
    "C27_position1",
    "C27_scalar1",
    "C27_firstBit1",
    "C27_lastBit1",
    "C27_n_th_bit1",
    "C27_slice1",
    "C27_unslice1",
    "C27_slice_unslice1",
    "C27_of_ulong1",
    "C27_of_vector1",
    "C27_xor2",
    "C27_or2",
    "C27_and2",
    "C27_andnot2",
    "C27_shl2",
    "C27_shr2",
    "C27_flip2",
    "C27_reset2",
    "C27_set2",
    "C27_set_to2",
    "C27_fill2_partial",
    "C27_fill2_exact",
    "C27_fill2_refuted",
    "C27_complement2",
    "C27_truncate2",
    "C27_test2",
    "C27_eq2",
    "C27_lt2",
    "C27_none2",
    "C27_any2",
    "C27_meets2",
    "C27_contains2",
    "C27_count2",
    "C27_position2_partial",
    "C27_position2_refuted",
    "C27_scalar2",
    "C27_firstBit2",
    "C27_lastBit2",
    "C27_firstBit_empty_refuted",
    "C27_n_th_bit2",
    "C27_slice2",
    "C27_unslice2",
    "C27_slice_unslice2",
    "C27_of_ulong2",
    "C27_to_ulong2",
    "C27_of_vector2"
   ],
   "note": "One- and two-chunk sets. fill on two chunks loses members (C27_fill2_refuted), position on two chunks ignores the high chunk for 32<j<64 (C27_position2_refuted), firstBit of the empty two-chunk set is 96 (C27_firstBit_empty_refuted); everything else proved in full."
  },
  {
   "property": "C28",
   "status": "proved",
   "theorems": [
    "C28_identity",
    "C28_inverse",
    "C28_compose",
    "C28_group_laws",
    "C28_is_identity",
    "C28_is_negative",
    "C28_sign_homomorphism",
    "C28_fixed_points"
   ],
   "note": "Sign: parity of the number of inversions; homomorphism under compose."
  },
  {
   "property": "C29",
   "status": "proved",
   "theorems": [
    "C29_permute",
    "C29_pull_back",
    "C29_permute_pull_back",
    "C29_pull_back_permute",
    "C29_permute_action",
    "C29_renumbering",
    "C29_renumber",
    "C29_renumber_except",
    "C29_renumbering_map",
    "C29_pull_back_bits",
    "C29_permute_bits"
   ],
   "note": "In-place cycle algorithm, pull_back, renumber(ing), bit set and bitmap versions."
  },
  {
   "property": "C30",
   "status": "proved",
   "theorems": [
    "C30_standardization",
    "C30_sorts",
    "C30_standardization_by"
   ],
   "note": "Counting version with stops, and the version with a comparison (std::stable_sort modelled by stable insertion)."
  },
  {
   "property": "C31",
   "status": "proved",
   "theorems": [
    "C31_determined",
    "C31_coef",
    "C31_constant",
    "C31_monomial",
    "C31_shift",
    "C31_plus_assign",
    "C31_minus_assign",
    "C31_subtract_from",
    "C31_scale",
    "C31_divide",
    "C31_mult",
    "C31_plus",
    "C31_minus",
    "C31_negate"
   ],
   "note": "Coefficients are integers without overflow; arguments aliasing the object included."
  },
  {
   "property": "C32",
   "status": "proved",
   "theorems": [
    "C32_quotient_unique",
    "C32_up_remainder",
    "C32_factor_by_1_plus_q",
    "C32_factor_by_1_plus_q_to_the",
    "C32_factor_exact",
    "C32_factor_out_of_range"
   ],
   "note": "factor_by_1_plus_q_to_the needs 1<=k<=d+1; beyond that it writes before the vector (C32_factor_out_of_range)."
  },
  {
   "property": "C33",
   "status": "proved",
   "theorems": [
    "C33_safe_add",
    "C33_safe_multiply",
    "C33_safeAdd_mult",
    "C33_safeAdd",
    "C33_safeSubtract_mult",
    "C33_safeSubtract",
    "C33_safeDivide",
    "C33_safe_quotient_by_1_plus_q"
   ],
   "note": "Every unsigned width; arguments aliasing the object included; safeSubtract, safeDivide and safe_quotient under their preconditions."
  },
  {
   "property": "C34",
   "status": "proved",
   "theorems": [
    "C34_construct",
    "C34_find",
    "C34_match",
    "C34_history",
    "C34_numbering_faithful"
   ],
   "note": "Any entry type with decidable equality, any hash function with values below the modulus, any width of the number type; fewer than 2^w-1 distinct entries."
  },
  {
   "property": "C35",
   "status": "partial",
   "theorems": [
    "C35_match_not_empty_partial",
    "C35_last_number",
    "C35_throws",
    "C35_never_returns_empty_refuted"
   ],
   "note": "False by one: the test in match (hashtable_def.h:90) lets through the entry whose number is the reserved value empty; it is stored but never found. Holds below that."
  },
  {
   "property": "C36",
   "status": "proved",
   "theorems": [
    "C36_strong_components",
    "C36_edges_lead_down",
    "C36_induced_graph"
   ],
   "note": "Explicit-stack Tarjan traversal as written; the number of vertices must be below 2^32-1 (Vertex is unsigned int)."
  },
  {
   "property": "C37",
   "status": "proved",
   "theorems": [
    "C37_orbits"
   ],
   "note": "Generators given by any functions that permute [0,n); std::map and bitmap modelled as lists."
  },
  {
   "property": "C38",
   "status": "proved",
   "theorems": [
    "C38_from_function",
    "C38_from_classes",
    "C38_class_size",
    "C38_class_sizes",
    "C38_iterator"
   ],
   "note": "Both Partition constructors, class sizes and the whole iteration; iterator theorem for partitions without empty classes."
  },
  {
   "property": "C39",
   "status": "partial",
   "theorems": [
    "C39_from_hasse",
    "C39_extend",
    "C39_from_links",
    "C39_sorted_links",
    "C39_new_max",
    "C39_partial_order",
    "C39_dual",
    "C39_dual_empty_refuted",
    "C39_equal",
    "C39_resize",
    "C39_n_comparable",
    "C39_n_comparable_from_Hasse"
   ],
   "note": "Refuted for the dual of the empty poset (size()-1 wraps to 2^32-1); proved otherwise. The precondition of extend is the weaker one documented in poset.h."
  },
  {
   "property": "C40",
   "status": "proved",
   "theorems": [
    "C40_maxima",
    "C40_minima",
    "C40_above_below",
    "C40_covers",
    "C40_hasse_diagram",
    "C40_hasse_diagram_to",
    "C40_hasse_round_trip"
   ],
   "note": "Hasse diagram also shown to give the poset back."
  },
  {
   "property": "C41",
   "status": "proved",
   "theorems": [
    "C41_make",
    "C41_closure",
    "C41_cliques",
    "C41_empty"
   ],
   "note": "In-place closure with merging of cliques as written, bitmaps as boolean lists (agreement with the words is in SetProofs.v)."
  },
  {
   "property": "C42",
   "status": "partial",
   "theorems": [
    "C42_reversed_before_closure",
    "C42_reversed_after_closure_partial",
    "C42_reversed_exact",
    "C42_reversed_refuted"
   ],
   "note": "False after closure when two elements are related both ways; exact behaviour stated in C42_reversed_exact."
  },
  {
   "property": "C43",
   "status": "proved",
   "theorems": [
    "C43_gcd",
    "C43_gcd_value",
    "C43_gcd_divisor"
   ],
   "note": "Unless a value overflows the entry type. Determinant as an explicit sum over permutations (MatDet.v)."
  },
  {
   "property": "C44",
   "status": "partial",
   "theorems": [
    "C44_column_echelon",
    "C44_column_echelon_long_long_refuted"
   ],
   "note": "Proved for entry types no wider than int; for long long entries the gcd passes through an int (C44_column_echelon_long_long_refuted). Includes equality of spans."
  },
  {
   "property": "C45",
   "status": "proved",
   "theorems": [
    "C45_diagonalise"
   ],
   "note": "All integer matrices; overflow of the entry type is reported as failure."
  },
  {
   "property": "C46",
   "status": "partial",
   "theorems": [
    "C46_determinants_partial",
    "C46_row_determinant_refuted"
   ],
   "note": "False: the sign of the row operations is overwritten at each pivot (matreduc.cpp:172). Column matrix always has determinant 1, row matrix for rank at most 1."
  },
  {
   "property": "C47",
   "status": "proved",
   "theorems": [
    "C47_has_solution",
    "C47_find_solution"
   ],
   "note": "has_solution decides and find_solution finds; failure only if there is no solution or on overflow."
  },
  {
   "property": "C48",
   "status": "proved",
   "theorems": [
    "C48_echelon_solve",
    "C48_inverse",
    "C48_inverse_Z"
   ],
   "note": "The denominator is the least possible; inverse throws if it does not fit an int; also echelon_solve gives the generator of all solutions."
  },
  {
   "property": "C49",
   "status": "proved",
   "theorems": [
    "C49_adapted_basis",
    "C49_Smith_basis"
   ],
   "note": "Smith_basis for entries of at most 32 bits."
  },
  {
   "property": "C50",
   "status": "proved",
   "theorems": [
    "C50_upper",
    "C50_lower",
    "C50_not_square",
    "C50_not_unitriangular"
   ],
   "note": "Over any commutative ring, two-sided inverse; exceptions for non-square and non-unitriangular matrices. Entries on the other side of the diagonal are never read, and the theorems assume them zero."
  },
  {
   "property": "C51",
   "status": "partial",
   "theorems": [
    "C51_primes",
    "C51_table",
    "C51_of_number",
    "C51_message",
    "C51_unrepresentable_refuted",
    "C51_zero_refuted",
    "C51_mul",
    "C51_div",
    "C51_two_shift",
    "C51_eq",
    "C51_toUlong",
    "C51_smooth",
    "C51_mul_overflow_refuted",
    "C51_factorial",
    "C51_factorial_message"
   ],
   "note": "Proved for representable numbers. A number with a prime factor beyond the table only prints a message, 0 loops for ever, and exponents wrap beyond 127: refuted with witnesses."
  },
  {
   "property": "C52",
   "status": "partial",
   "theorems": [
    "C52_multiplicity",
    "C52_tally",
    "C52_tally_many",
    "C52_tally_many_new_refuted",
    "C52_sum",
    "C52_sum_read_refuted",
    "C52_size",
    "C52_size_refuted",
    "C52_advance",
    "C52_advance_end",
    "C52_advance_zero_refuted",
    "C52_lower",
    "C52_derived",
    "C52_write_bytes",
    "C52_read_bytes",
    "C52_read_bytes_order_refuted",
    "C52_file",
    "C52_file_widths"
   ],
   "note": "Refuted parts: tally(i,m) may report a new index as not new; sum() is lost by reading; size() of an empty table or with index 2^64-1; counting with multiplicity 0 breaks advance; read_bytes depends on an unspecified evaluation order."
  },
  {
   "property": "C53",
   "status": "proved",
   "theorems": [
    "C53_coefficients",
    "C53_ring"
   ],
   "note": "No int overflow."
  },
  {
   "property": "C54",
   "status": "proved",
   "theorems": [
    "C54_compare",
    "C54_compare_strict_total",
    "C54_equal",
    "C54_less",
    "C54_entry_differs",
    "C54_multi_term"
   ],
   "note": ""
  },
  {
   "property": "C55",
   "status": "partial",
   "theorems": [
    "C55_throw_keeps_invariant_refuted"
   ],
   "note": "False: the vector is resized before the top coefficient is computed, so an overflow there leaves zero leading coefficients (safeAdd lines 403-404)."
  },
  {
   "property": "C56",
   "status": "proved",
   "theorems": [
    "C56_reverse_edges",
    "C56_reverse_numbering",
    "C56_unoriented_components"
   ],
   "note": "to_unoriented_components needs increasing edge lists; an example shows it is wrong otherwise."
  },
  {
   "property": "C57",
   "status": "partial",
   "theorems": [
    "C57_row",
    "C57_column",
    "C57_partial_row",
    "C57_partial_column",
    "C57_set_row",
    "C57_set_column",
    "C57_of_columns",
    "C57_rows",
    "C57_columns",
    "C57_row_matrix",
    "C57_column_matrix",
    "C57_block",
    "C57_get_block",
    "C57_set_block",
    "C57_transposed_block",
    "C57_transposed",
    "C57_transpose",
    "C57_swapRows",
    "C57_swapColumns",
    "C57_add_row_partial",
    "C57_add_row_large",
    "C57_add_column_partial",
    "C57_eraseRow_partial",
    "C57_eraseColumn",
    "C57_pull_back_columns",
    "C57_conjugate",
    "C57_inv_conjugate",
    "C57_add_row_refuted"
   ],
   "note": "add_row, add_column and eraseRow compute sizes in 32 bits: refuted for 2^32 entries or more, proved below."
  },
  {
   "property": "C58",
   "status": "proved",
   "theorems": [
    "C58_vector_operations",
    "C58_matrix_sums",
    "C58_identity",
    "C58_products",
    "C58_row_column_operations",
    "C58_apply_on_range",
    "C58_integers"
   ],
   "note": "Generic in the entry type; instance for signed integers of any width with overflow as failure."
  },
  {
   "property": "C59",
   "status": "proved",
   "theorems": [
    "C59_exact_division",
    "C59_division",
    "C59_remainder",
    "C59_matrix_division",
    "C59_divisible"
   ],
   "note": ""
  },
  {
   "property": "C60",
   "status": "proved",
   "theorems": [
    "C60_column_clear",
    "C60_row_clear"
   ],
   "note": ""
  },
  {
   "property": "C61",
   "status": "proved",
   "theorems": [
    "C61_weyl_size_simple",
    "C61_weyl_size",
    "C61_weyl_size_toUlong"
   ],
   "note": "Specification: product of degrees of basic invariants, written separately."
  },
  {
   "property": "C62",
   "status": "proved",
   "theorems": [
    "C62_add",
    "C62_and",
    "C62_isZero",
    "C62_unit",
    "C62_set",
    "C62_flip",
    "C62_dot",
    "C62_pushBack",
    "C62_resize",
    "C62_mod2",
    "C62_ints",
    "C62_lift",
    "C62_slice",
    "C62_unslice",
    "C62_combination",
    "C62_set_combination",
    "C62_matrix_mod2",
    "C62_identity",
    "C62_initBasis",
    "C62_entry",
    "C62_set_entry",
    "C62_row",
    "C62_apply",
    "C62_right_act",
    "C62_matrix_add",
    "C62_matrix_mul",
    "C62_transpose",
    "C62_addToColumn",
    "C62_addColumn",
    "C62_matrix_resize"
   ],
   "note": ""
  },
  {
   "property": "C63",
   "status": "proved",
   "theorems": [
    "C63_Gauss_Jordan",
    "C63_canonical"
   ],
   "note": ""
  },
  {
   "property": "C64",
   "status": "proved",
   "theorems": [
    "C64_combination_exists",
    "C64_solvable",
    "C64_solvable_none",
    "C64_make_equation"
   ],
   "note": ""
  },
  {
   "property": "C65",
   "status": "proved",
   "theorems": [
    "C65_kernel",
    "C65_image"
   ],
   "note": ""
  },
  {
   "property": "C66",
   "status": "proved",
   "theorems": [
    "C66_section",
    "C66_left_inverse",
    "C66_right_inverse"
   ],
   "note": ""
  },
  {
   "property": "C67",
   "status": "proved",
   "theorems": [
    "C67_of_list",
    "C67_of_matrix",
    "C67_zero",
    "C67_canonical",
    "C67_representative",
    "C67_representative_class",
    "C67_contains",
    "C67_contains_all",
    "C67_toBasis",
    "C67_fromBasis",
    "C67_basis_perp",
    "C67_apply"
   ],
   "note": ""
  },
  {
   "property": "C68",
   "status": "proved",
   "theorems": [
    "C68_of_lists",
    "C68_zero",
    "C68_basis",
    "C68_size",
    "C68_toBasis",
    "C68_toBasis_class",
    "C68_toBasis_add",
    "C68_to_from",
    "C68_from_to",
    "C68_apply",
    "C68_significantBits",
    "C68_subquotientMap"
   ],
   "note": ""
  },
  {
   "property": "C69",
   "status": "partial",
   "theorems": [
    "C69_empty",
    "C69_extend",
    "C69_rank",
    "C69_a_solution",
    "C69_reduce",
    "C69_solution_basis",
    "C69_add",
    "C69_add_refuted",
    "C69_reachable"
   ],
   "note": "add is refuted: it reports inconsistency (and records it) for every equation that does not follow from the previous ones, because eq.lhs is tested before it is filled. The other functions are proved for every state in echelon form."
  },
  {
   "property": "C70",
   "status": "proved",
   "theorems": [
    "C70_construct",
    "C70_element",
    "C70_word_problem",
    "C70_faithful",
    "C70_generator"
   ],
   "note": ""
  },
  {
   "property": "C71",
   "status": "proved",
   "theorems": [
    "C71_mult_gen",
    "C71_mult_word",
    "C71_mult",
    "C71_left_mult",
    "C71_left_mult_gen",
    "C71_left_mult_word",
    "C71_conjugate",
    "C71_inverse"
   ],
   "note": ""
  },
  {
   "property": "C72",
   "status": "proved",
   "theorems": [
    "C72_word",
    "C72_length",
    "C72_mult_gen_change",
    "C72_left_mult_gen_change",
    "C72_length_change",
    "C72_has_descent",
    "C72_left_length_change",
    "C72_leftDescent"
   ],
   "note": ""
  },
  {
   "property": "C73",
   "status": "proved",
   "theorems": [
    "C73_longest",
    "C73_involution",
    "C73_complement",
    "C73_Chevalley_dual",
    "C73_Chevalley_twist"
   ],
   "note": ""
  },
  {
   "property": "C74",
   "status": "proved",
   "theorems": [
    "C74_order",
    "C74_to_big_int",
    "C74_to_WeylElt"
   ],
   "note": ""
  },
  {
   "property": "C75",
   "status": "proved",
   "theorems": [
    "C75_commutes",
    "C75_translation",
    "C75_translation_automorphism"
   ],
   "note": ""
  },
  {
   "property": "C76",
   "status": "proved",
   "theorems": [
    "C76_conjugacy_class"
   ],
   "note": ""
  },
  {
   "property": "C77",
   "status": "proved",
   "theorems": [
    "C77_descent_root",
    "C77_root_sign",
    "C77_root_action"
   ],
   "note": "the root action is defined from the Cartan matrix alone (TwistSpec.v)"
  },
  {
   "property": "C78",
   "status": "proved",
   "theorems": [
    "C78_twisted",
    "C78_dual_twist",
    "C78_twisted_conjugate",
    "C78_conjugate_word",
    "C78_inverse_conjugate",
    "C78_conjugate_by",
    "C78_conjugate_involution"
   ],
   "note": "a Twist is modelled by its entries below the rank"
  },
  {
   "property": "C79",
   "status": "proved",
   "theorems": [
    "C79_twisted_commutation",
    "C79_alternative"
   ],
   "note": ""
  },
  {
   "property": "C80",
   "status": "proved",
   "theorems": [
    "C80_involution_expr",
    "C80_length",
    "C80_minimal",
    "C80_canonical"
   ],
   "note": "loops take fuel; the length of any word for the element is enough"
  },
  {
   "property": "C81",
   "status": "proved",
   "theorems": [
    "C81_orbits",
    "C81_extended_expr"
   ],
   "note": "the example C81_ex shows a step of type three that lowers the length by 6 and whose letter is not complemented"
  },
  {
   "property": "C82",
   "status": "proved",
   "theorems": [
    "C82_twisted_class"
   ],
   "note": ""
  },
  {
   "property": "C83",
   "status": "proved",
   "theorems": [
    "C83_normalize",
    "C83_normal_form_unique",
    "C83_make",
    "C83_zero",
    "C83_of_rational",
    "C83_add",
    "C83_sub",
    "C83_negate_add",
    "C83_negate",
    "C83_mul_n",
    "C83_div_n",
    "C83_mod_n",
    "C83_mul_r",
    "C83_div_r",
    "C83_times_r",
    "C83_over_r"
   ],
   "note": "Rational vectors over 64-bit integers against the rationals of the standard library."
  },
  {
   "property": "C84",
   "status": "proved",
   "theorems": [
    "C84_equal",
    "C84_less",
    "C84_order",
    "C84_is_zero"
   ],
   "note": "Comparison decides equality and the lexicographic order of the rational entries."
  },
  {
   "property": "C85",
   "status": "proved",
   "theorems": [
    "C85_add_vec",
    "C85_sub_vec",
    "C85_subtract_from",
    "C85_dot",
    "C85_dot_Q",
    "C85_integer_diff",
    "C85_matrix",
    "C85_right",
    "C85_symmetrise",
    "C85_symmetrise_right"
   ],
   "note": "Products and differences with integer vectors and matrices."
  },
  {
   "property": "C86",
   "status": "proved",
   "theorems": [
    "C86_kernel",
    "C86_eigen_lattice",
    "C86_perp",
    "C86_row_saturate"
   ],
   "note": "Lattice bases from the echelon form, the diagonal form and the adapted basis."
  },
  {
   "property": "C87",
   "status": "proved",
   "theorems": [
    "C87_baseChange",
    "C87_inverseBaseChange"
   ],
   "note": "Coordinates via the inverse matrix and its least denominator."
  },
  {
   "property": "C88",
   "status": "proved",
   "theorems": [
    "C88_entry",
    "C88_simple_entry",
    "C88_simple_matrix",
    "C88_matrix",
    "C88_check_rank",
    "C88_dual_type"
   ],
   "note": "All entries by cases on the letter; matrices by loop invariants."
  },
  {
   "property": "C89",
   "status": "partial",
   "theorems": [
    "C89_determinant",
    "C89_determinant_exact",
    "C89_simple_determinant",
    "C89_determinant_refuted",
    "C89_torus_refuted"
   ],
   "note": "Determinants by development along the end of the diagram. Two claims suggested by the source text are refuted: exactness at rank 32, and the value for torus factors."
  },
  {
   "property": "C90",
   "status": "partial",
   "theorems": [
    "C90_involution",
    "C90_involution_laws",
    "C90_simple_involution",
    "C90_dual_letters",
    "C90_dual_layout",
    "C90_dual_layout_refuted"
   ],
   "note": "Block by block, with the position and sign of each entry. Minus the longest element is given by its known permutation of the nodes. The dual layout of types f4 and g2 is refuted; they do not occur as result of the classification (C91)."
  },
  {
   "property": "C91",
   "status": "proved",
   "theorems": [
    "C91_type",
    "C91_type_only"
   ],
   "note": "Full proof of the classification loop: components, extremities, forks, labelled edges, traversal."
  },
  {
   "property": "C92",
   "status": "proved",
   "theorems": [
    "C92_recognised",
    "C92_not_square",
    "C92_unique"
   ],
   "note": "Each refusal is traced to a reason that no diagram of finite type has; uniqueness by comparing invariants of the components."
  },
  {
   "property": "C93",
   "status": "proved",
   "theorems": [
    "C93_entries",
    "C93_components",
    "C93_permute"
   ],
   "note": "Adjacency sets and labelled edges determine the matrix."
  },
  {
   "property": "C94",
   "status": "proved",
   "theorems": [
    "C94_succeeds",
    "C94_sound",
    "C94_complete",
    "C94_positions",
    "C94_bytes"
   ],
   "note": "The constructor builds levels by simple reflections; completeness rests on the proof that every positive root is reached upwards from a simple root."
  },
  {
   "property": "C95",
   "status": "proved",
   "theorems": [
    "C95_order",
    "C95_level"
   ],
   "note": "Equivalence: a has a smaller number than b if and only if its vector is earlier."
  },
  {
   "property": "C96",
   "status": "proved",
   "theorems": [
    "C96_reflected",
    "C96_simple_reflected",
    "C96_permuted",
    "C96_bracket",
    "C96_orthogonal",
    "C96_Cartan"
   ],
   "note": "Tables proved against the linear reflections."
  },
  {
   "property": "C97",
   "status": "proved",
   "theorems": [
    "C97_sum",
    "C97_walls"
   ],
   "note": "Bottom tables proved for all numbers, including negative ones."
  },
  {
   "property": "C98",
   "status": "proved",
   "theorems": [
    "C98_descent_sets",
    "C98_is_descent",
    "C98_high",
    "C98_high_short"
   ],
   "note": "is_descent uses heights of roots and coroots at once."
  },
  {
   "property": "C99",
   "status": "proved",
   "theorems": [
    "C99_dual",
    "C99_numbers"
   ],
   "note": "By uniqueness of a root system with given matrix and order."
  },
  {
   "property": "C100",
   "status": "proved",
   "theorems": [
    "C100_extend",
    "C100_twist"
   ],
   "note": "Reflections in images commute with the linear map."
  },
  {
   "property": "C101",
   "status": "proved",
   "theorems": [
    "C101_word"
   ],
   "note": "The word is w i w^-1."
  },
  {
   "property": "C102",
   "status": "partial",
   "theorems": [
    "C102_lookup_refuted",
    "C102_lookup_opposite",
    "C102_lookup_absent",
    "C102_add_opposite",
    "C102_add_refuted"
   ],
   "note": "The intended claim is refuted by a root of G2; the actual behaviour is proved for all root systems."
  },
  {
   "property": "C103",
   "status": "proved",
   "theorems": [
    "C103_basis",
    "C103_generate",
    "C103_pos_simples"
   ],
   "note": "Uses that every root that is not simple has a simple root of smaller number with positive pairing."
  },
  {
   "property": "C104",
   "status": "proved",
   "theorems": [
    "C104_Cartan",
    "C104_constructor",
    "C104_pairing",
    "C104_rho"
   ],
   "note": "A value outside the range of the entry type counts as an error."
  },
  {
   "property": "C105",
   "status": "proved",
   "theorems": [
    "C105_reflect",
    "C105_simple_reflect",
    "C105_matrices",
    "C105_pre_matrices",
    "C105_matrix"
   ],
   "note": ""
  },
  {
   "property": "C106",
   "status": "proved",
   "theorems": [
    "C106_act",
    "C106_inverse",
    "C106_adjoint",
    "C106_shifted",
    "C106_matrix"
   ],
   "note": ""
  },
  {
   "property": "C107",
   "status": "partial",
   "theorems": [
    "C107_dominant",
    "C107_codominant",
    "C107_to_dominant",
    "C107_to_codominant",
    "C107_narrow_refuted"
   ],
   "note": "C107_narrow_refuted: the result type of Vector::dot is that of its argument, so the 64-bit instances compare a pairing reduced to 32 bits; all other theorems are for the exact pairing."
  },
  {
   "property": "C109",
   "status": "proved",
   "theorems": [
    "C109_inverse_matrix",
    "C109_reflection_word",
    "C109_rho"
   ],
   "note": ""
  },
  {
   "property": "C108",
   "status": "partial",
   "theorems": [
    "C108_dominant",
    "C108_codominant",
    "C108_make_refuted"
   ],
   "note": "C108_make_refuted: in rootdata.h the functions make_dominant(g,v) and make_codominant(g,v) do not use g."
  },
  {
   "property": "C110",
   "status": "proved",
   "theorems": [
    "C110_dual",
    "C110_back",
    "C110_sub"
   ],
   "note": ""
  },
  {
   "property": "C111",
   "status": "proved",
   "theorems": [
    "C111_type"
   ],
   "note": "The comment before the constructor says that the matrix of simple roots is part of the identity; it is that of the simple coroots."
  },
  {
   "property": "C112",
   "status": "proved",
   "theorems": [
    "C112_derived",
    "C112_coderived"
   ],
   "note": ""
  },
  {
   "property": "C113",
   "status": "proved",
   "theorems": [
    "C113_quotient"
   ],
   "note": ""
  },
  {
   "property": "C114",
   "status": "partial",
   "theorems": [
    "C114_fundamental",
    "C114_short_refuted"
   ],
   "note": "C114_short_refuted: for type E8.A8.A6.A4.A3 (rank 29) every integral multiple of the inverse Cartan matrix has an entry over 32767."
  },
  {
   "property": "C115",
   "status": "proved",
   "theorems": [
    "C115_radicals",
    "C115_status"
   ],
   "note": ""
  },
  {
   "property": "C116",
   "status": "proved",
   "theorems": [
    "C116_permutation"
   ],
   "note": ""
  },
  {
   "property": "C117",
   "status": "proved",
   "theorems": [
    "C117_orthogonal",
    "C117_components"
   ],
   "note": ""
  },
  {
   "property": "C118",
   "status": "proved",
   "theorems": [
    "C118_conjugate",
    "C118_long_root",
    "C118_long_coroot"
   ],
   "note": ""
  },
  {
   "property": "C119",
   "status": "proved",
   "theorems": [
    "C119_negative"
   ],
   "note": ""
  },
  {
   "property": "C120",
   "status": "proved",
   "theorems": [
    "C120_positive"
   ],
   "note": ""
  },
  {
   "property": "C121",
   "status": "proved",
   "theorems": [
    "C121_distinguished"
   ],
   "note": ""
  },
  {
   "property": "C122",
   "status": "proved",
   "theorems": [
    "C122_weights",
    "C122_coweights"
   ],
   "note": ""
  },
  {
   "property": "C123",
   "status": "partial",
   "theorems": [
    "C123_weights",
    "C123_coweights",
    "C123_dominant",
    "C123_codominant",
    "C123_orbit_refuted",
    "C123_coorbit_refuted"
   ],
   "note": "The claim for vectors that are not dominant is refuted: make_dominant and make_codominant with generators do not use the generators (C108)."
  },
  {
   "property": "C124",
   "status": "proved",
   "theorems": [
    "C124_distinguished",
    "C124_dual"
   ],
   "note": ""
  },
  {
   "property": "C125",
   "status": "proved",
   "theorems": [
    "C125_rho",
    "C125_moved",
    "C125_sums"
   ],
   "note": ""
  },
  {
   "property": "C126",
   "status": "proved",
   "theorems": [
    "C126_product",
    "C126_orthogonal"
   ],
   "note": ""
  },
  {
   "property": "C127",
   "status": "proved",
   "theorems": [
    "C127_coroots",
    "C127_simples",
    "C127_predatum",
    "C127_simple"
   ],
   "note": "Success of integrality_datum is C132."
  },
  {
   "property": "C128",
   "status": "proved",
   "theorems": [
    "C128_points"
   ],
   "note": ""
  },
  {
   "property": "C129",
   "status": "proved",
   "theorems": [
    "C129_orbits",
    "C129_orbits_in",
    "C129_folded",
    "C129_Cartan"
   ],
   "note": "Success of cofold is C133."
  },
  {
   "property": "C130",
   "status": "proved",
   "theorems": [
    "C130_classification",
    "C130_recognised"
   ],
   "note": "The classification is proved by attaching one more node to every connected diagram of finite type, with the finitely many cases that are not plainly impossible decided by computation (ClsTable.v)."
  },
  {
   "property": "C131",
   "status": "proved",
   "theorems": [
    "C131_simples",
    "C131_type",
    "C131_datum"
   ],
   "note": "Unless a value does not fit."
  },
  {
   "property": "C132",
   "status": "proved",
   "theorems": [
    "C132_integral"
   ],
   "note": "Unless a value does not fit."
  },
  {
   "property": "C133",
   "status": "proved",
   "theorems": [
    "C133_fold",
    "C133_computed"
   ],
   "note": "Unless a value does not fit."
  },
  {
   "property": "C134",
   "status": "proved",
   "theorems": [
    "C134_roots",
    "C134_lattice"
   ],
   "note": "involution_data and the functions giving codecs are not modelled."
  },
  {
   "property": "C135",
   "status": "proved",
   "theorems": [
    "C135_words"
   ],
   "note": ""
  },
  {
   "property": "C136",
   "status": "partial",
   "theorems": [
    "C136_integral",
    "C136_singular",
    "C136_sets",
    "C136_predatum",
    "C136_numbering_refuted"
   ],
   "note": "Refuted part: the datum made from pre_root_datum does not number the roots as the subsystem does; for GSp(4) as a subsystem of itself roots 6 and 7 are interchanged (C136_numbering_refuted). pre_root_datum is not called in the sources."
  },
  {
   "property": "C137",
   "status": "proved",
   "theorems": [
    "C137_images",
    "C137_moved"
   ],
   "note": "A Weyl group element is represented by a word."
  },
  {
   "property": "C138",
   "status": "proved",
   "theorems": [
    "C138_one",
    "C138_exp_pi",
    "C138_exp_2pi",
    "C138_reduce",
    "C138_equal",
    "C138_log_pi",
    "C138_log_2pi"
   ],
   "note": "Input and output of torus elements and the hash table entries (y_entry) are not modelled."
  },
  {
   "property": "C139",
   "status": "proved",
   "theorems": [
    "C139_add",
    "C139_sub",
    "C139_add_part",
    "C139_add_sub"
   ],
   "note": ""
  },
  {
   "property": "C140",
   "status": "partial",
   "theorems": [
    "C140_eval_at",
    "C140_eval_bits",
    "C140_negative_at",
    "C140_central",
    "C140_central_refuted"
   ],
   "note": "Refuted part: is_central accumulates products of type long long in a variable of type int; for denominator 2^32+1 a non-central element is called central (C140_central_refuted)."
  },
  {
   "property": "C141",
   "status": "proved",
   "theorems": [
    "C141_act_by",
    "C141_reflect",
    "C141_simple_reflect",
    "C141_act_reduce",
    "C141_left_symmetrise",
    "C141_right_symmetrise",
    "C141_imaginary_cross"
   ],
   "note": ""
  },
  {
   "property": "C142",
   "status": "partial",
   "theorems": [
    "C142_stable_log",
    "C142_stable_refuted"
   ],
   "note": "Refuted part: for the involution -1 in rank 1 the element of order 2 is fixed, but has no fixed logarithm, and the result is not a logarithm (C142_stable_refuted)."
  },
  {
   "property": "C143",
   "status": "proved",
   "theorems": [
    "C143_exists",
    "C143_unique",
    "C143_classify"
   ],
   "note": ""
  },
  {
   "property": "C144",
   "status": "proved",
   "theorems": [
    "C144_dualPi0",
    "C144_dimension"
   ],
   "note": ""
  },
  {
   "property": "C145",
   "status": "proved",
   "theorems": [
    "C145_make",
    "C145_ranks",
    "C145_compact"
   ],
   "note": ""
  },
  {
   "property": "C146",
   "status": "proved",
   "theorems": [
    "C146_dual",
    "C146_dual_type",
    "C146_componentMap"
   ],
   "note": ""
  },
  {
   "property": "C147",
   "status": "proved",
   "theorems": [
    "C147_matrix",
    "C147_subsystem",
    "C147_involutive",
    "C147_images"
   ],
   "note": "constructors from a matrix, with a set of positive roots, and from images of simple roots; build is the last one after TwistedWeylGroup::simple_images"
  },
  {
   "property": "C148",
   "status": "proved",
   "theorems": [
    "C148_cross",
    "C148_negative"
   ],
   "note": "C148_negative states what happens when the simple root is imaginary or real, a case in which add_cross returns before calling cross_act"
  },
  {
   "property": "C149",
   "status": "proved",
   "theorems": [
    "C149_factors",
    "C149_two",
    "C149_record"
   ],
   "note": "involutions.cpp:184-225 from the matrix of the involution on; the other fields of the record (lengths, id) are C147-C148 and C131"
  },
  {
   "property": "C150",
   "status": "proved",
   "theorems": [
    "C150_representative",
    "C150_same"
   ],
   "note": "failures only by overflow"
  },
  {
   "property": "C151",
   "status": "proved",
   "theorems": [
    "C151_pack",
    "C151_pack_same",
    "C151_lift",
    "C151_lift_pack",
    "C151_unlift_lift",
    "C151_unlift",
    "C151_act"
   ],
   "note": "number of coordinates at most the size of a bit vector"
  },
  {
   "property": "C152",
   "status": "proved",
   "theorems": [
    "C152_real_unique",
    "C152_same"
   ],
   "note": "failures only by overflow of 64 bits"
  },
  {
   "property": "C153",
   "status": "proved",
   "theorems": [
    "C153_cross"
   ],
   "note": "the root beta is the image of the simple root by the conjugate, which C148 gives from the stored permutation"
  },
  {
   "property": "C154",
   "status": "proved",
   "theorems": [
    "C154_projector",
    "C154_pack",
    "C154_pack_same",
    "C154_equiv"
   ],
   "note": "for x_equiv the numerators of the difference over the common denominator are assumed to fit in 64 bits"
  },
  {
   "property": "C155",
   "status": "proved",
   "theorems": [
    "C155_fiber_denom",
    "C155_reflection",
    "C155_cross"
   ],
   "note": "tits.cpp:834-838, the table torus_simple_reflection, and the update in add_cross"
  },
  {
   "property": "C156",
   "status": "proved",
   "theorems": [
    "C156_locate"
   ],
   "note": "the loop is bounded by the number of orbits"
  },
  {
   "property": "C157",
   "status": "proved",
   "theorems": [
    "C157_root_datum",
    "C157_adjoint",
    "C157_reflect",
    "C157_across",
    "C157_involution"
   ],
   "note": "the Weyl group and twist are arguments (C70-C82); the void method twist(TorusPart x) of tits.h:540 changes a copy only and so does nothing, it is not modelled"
  },
  {
   "property": "C158",
   "status": "proved",
   "theorems": [
    "C158_total",
    "C158_equal",
    "C158_value",
    "C158_normal",
    "C158_shortest",
    "C158_inverse"
   ],
   "note": "the presentation is in TgSpec.v"
  },
  {
   "property": "C159",
   "status": "proved",
   "theorems": [
    "C159_identity",
    "C159_of_torus",
    "C159_of_weyl",
    "C159_right",
    "C159_right_part",
    "C159_left_add",
    "C159_right_add",
    "C159_sigma_mult",
    "C159_sigma_inv_mult",
    "C159_mult_sigma",
    "C159_mult_sigma_inv",
    "C159_product",
    "C159_conjugate",
    "C159_inv_conjugate",
    "C159_twisted",
    "C159_inverse_twisted"
   ],
   "note": "left and right torus parts, tits.h:344-357"
  },
  {
   "property": "C160",
   "status": "proved",
   "theorems": [
    "C160_twisted",
    "C160_valid",
    "C160_strict",
    "C160_cross",
    "C160_cross_word"
   ],
   "note": "is_valid compares with a static identity element of the first group used; values of different groups compare by bits, so this has no effect"
  },
  {
   "property": "C161",
   "status": "proved",
   "theorems": [
    "C161_grading",
    "C161_compact",
    "C161_imaginary",
    "C161_Cayley",
    "C161_back",
    "C161_inverse_Cayley"
   ],
   "note": "the class of a basis for the adjustment is an argument"
  },
  {
   "property": "C162",
   "status": "proved",
   "theorems": [
    "C162_make",
    "C162_involution",
    "C162_action",
    "C162_same",
    "C162_twisted",
    "C162_dual_twisted",
    "C162_theta",
    "C162_square"
   ],
   "note": "the fields alpha_v, half_rho_v and square_class_gen are left out; the Weyl group and twist are arguments (C70-C82)"
  },
  {
   "property": "C163",
   "status": "proved",
   "theorems": [
    "C163_valid",
    "C163_same",
    "C163_involution",
    "C163_square_fixed",
    "C163_twisted",
    "C163_twisted_valid",
    "C163_dual_twisted"
   ],
   "note": "twisted and dual_twisted of elements are proved to give the stated vectors and words"
  },
  {
   "property": "C164",
   "status": "partial",
   "theorems": [
    "C164_types",
    "C164_cross",
    "C164_twice",
    "C164_left",
    "C164_right",
    "C164_descents",
    "C164_narrow_refuted"
   ],
   "note": "C164_narrow_refuted: imaginary_cross_act multiplies an int vector by a long long numerator converted to int"
  },
  {
   "property": "C165",
   "status": "partial",
   "theorems": [
    "C165_compact",
    "C165_Cayley",
    "C165_inverse",
    "C165_back",
    "C165_narrow_refuted"
   ],
   "note": "C165_inverse needs the sum of |root entries| times the size of the numerators to be below 2^31; C165_narrow_refuted shows that it is needed: the scalar product is converted to int"
  },
  {
   "property": "C166",
   "status": "proved",
   "theorems": [
    "C166_square_classes",
    "C166_classes",
    "C166_compact"
   ],
   "note": "the conversion inside eigen_lattice is assumed to keep values, as in C86; the only failure is overflow of the matrix entries"
  },
  {
   "property": "C167",
   "status": "proved",
   "theorems": [
    "C167_on_basis",
    "C167_unique"
   ],
   "note": "the conversion inside inverse is assumed to keep values, as in C48"
  },
  {
   "property": "C168",
   "status": "proved",
   "theorems": [
    "C168_basis",
    "C168_torus",
    "C168_simply_connected"
   ],
   "note": "an exception is possible only when the least denominator of the basis of coroots and radical does not fit in an int"
  },
  {
   "property": "C169",
   "status": "partial",
   "theorems": [
    "C169_long",
    "C169_mixed_refuted"
   ],
   "note": "the restriction to positive roots is necessary (C169_mixed_refuted)"
  },
  {
   "property": "C170",
   "status": "proved",
   "theorems": [
    "C170_selection",
    "C170_noncompact"
   ],
   "note": "for sets of noncompact roots that are not a grading the selection is still described"
  },
  {
   "property": "C171",
   "status": "partial",
   "theorems": [
    "C171_set",
    "C171_new",
    "C171_set_imaginary",
    "C171_overwrite_refuted",
    "C171_tests",
    "C171_eq"
   ],
   "note": "C171_overwrite_refuted: set only adds bits"
  },
  {
   "property": "C172",
   "status": "proved",
   "theorems": [
    "C172_compare",
    "C172_order"
   ],
   "note": ""
  },
  {
   "property": "C173",
   "status": "proved",
   "theorems": [
    "C173_grading"
   ],
   "note": "imaginary is required of the simple root reached for the moved element"
  },
  {
   "property": "C174",
   "status": "proved",
   "theorems": [
    "C174_formula",
    "C174_simple"
   ],
   "note": "agreement with TitsCoset::grading at other roots is C175"
  },
  {
   "property": "C175",
   "status": "proved",
   "theorems": [
    "C175_agree",
    "C175_simple_imaginary"
   ],
   "note": "complex means that the twisted conjugation changes the length by 2"
  },
  {
   "property": "C176",
   "status": "proved",
   "theorems": [
    "C176_compact",
    "C176_imaginary",
    "C176_value",
    "C176_simple_imaginary"
   ],
   "note": "the fixed bound on entries met on the way is a hypothesis, as in C164; overflow is the only failure; the value is stated for positive roots"
  },
  {
   "property": "C177",
   "status": "partial",
   "theorems": [
    "C177_sub",
    "C177_weaker",
    "C177_parent_refuted"
   ],
   "note": "C177_parent_refuted: the comment 'weaker condition' fails for a subsystem of the datum of the group itself, since coroots are tested there in place of roots; C177_weaker is the form that holds. The method does not test that the Weyl group part is a twisted involution. The theorems take the matrix columns as a hypothesis on the subsystem object, and allow the outcome Overflow."
  }
 ]
}