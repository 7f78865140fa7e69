{
 "claims": [
  {
   "property": "C01",
   "status": "proved",
   "theorems": [
    "C01_hash_injective",
    "C01_hash_is_shortlex_order",
    "C01_hash_never_zero",
    "C01_hash_one_iff_identity",
    "C01_hash_range",
    "C01_hash_surjective",
    "C01_hash_single_operator",
    "C01_advertised_length",
    "C01_advertised_length_safe",
    "C01_advertised_length_overclaims_iff",
    "C01_advertised_length_refuted"
   ],
   "note": "Injectivity, order, density and reserved values under the exact bound 1+r+...+r^L < 2^64. The advertised length bound is exact for every radix 2..32767 except 2,4,16,256, for which it is refuted with a collision."
  },
  {
   "property": "C02",
   "status": "proved",
   "theorems": [
    "C02_substring_hashes"
   ],
   "note": "All words, all radices, wrap-around included."
  },
  {
   "property": "C03",
   "status": "proved",
   "theorems": [
    "C03_product",
    "C03_conjugate",
    "C03_negate",
    "C03_difference",
    "C03_negative",
    "C03_imaginary",
    "C03_are_negatives",
    "C03_faithful",
    "C03_all_units",
    "C03_compare_up_to_sign"
   ],
   "note": "All phases, against Gaussian integers."
  },
  {
   "property": "C04",
   "status": "proved",
   "theorems": [
    "C04_application",
    "C04_constructor",
    "C04_chains_finite",
    "C04_same_word_refuted",
    "C04_imaginary_rule_refuted"
   ],
   "note": "All rules the constructor makes from two different words, all words, all positions; unbounded termination. The clause about same-word rules is false of the code and refuted (X -> -X accepted and loops forever; X -> iX silently dropped)."
  },
  {
   "property": "C05",
   "status": "proved",
   "theorems": [
    "C05_iteration_sound",
    "C05_search_sound",
    "C05_canonical_form_sound",
    "C05_multiply_sound",
    "C05_reduce_sequence_sound",
    "C05_signed_identity_refuted",
    "C05_minus_zero_refuted"
   ],
   "note": "Both strategies, canonical form, product and sequence reduction, in every monoid with zero and phases satisfying the rules; words up to the exactly hashable length. Refuted: a signed identity loses its sign; minus zero."
  },
  {
   "property": "C06",
   "status": "proved",
   "theorems": [
    "C06_iteration_terminates",
    "C06_search_terminates",
    "C06_iteration_irreducible",
    "C06_search_irreducible",
    "C06_canonical_form_terminates",
    "C06_canonical_form_irreducible",
    "C06_canonical_form_idempotent",
    "C06_can_reduce_exact",
    "C06_get_if_canonical_exact"
   ],
   "note": "Termination, irreducibility, idempotence and exactness of can_reduce/get_if_canonical for all rulebooks without empty left sides."
  },
  {
   "property": "C07",
   "status": "proved",
   "theorems": [
    "C07_add_rules",
    "C07_add_rules_terminates",
    "C07_context_construction",
    "C07_reduce_ruleset",
    "C07_reduce_ruleset_terminates",
    "C07_completion_step",
    "C07_completion_step_terminates",
    "C07_completion",
    "C07_negative_identity_refuted"
   ],
   "note": "Adding rules, context construction, ruleset reduction, a completion step and whole completion runs; the last three for the two phase classes (no phases; or phases +-1 without identity sides). Outside them refuted (XX -> -1). Whole-run theorem assumes left sides stay within half the hashable length."
  },
  {
   "property": "C08",
   "status": "proved",
   "theorems": [
    "C08_complete_decides_equality",
    "C08_completion_decides_equality",
    "C08_unique_normal_forms",
    "C08_self_overlap_refuted",
    "C08_containment_refuted"
   ],
   "note": "For interreduced books whose self-overlaps and non-longest overlaps are joinable, in the two phase classes; both restrictions shown necessary by refutations."
  },
  {
   "property": "C09",
   "status": "proved",
   "theorems": [
    "C09_word_conjugation",
    "C09_word_conjugation_involutive",
    "C09_conjugate_sound",
    "C09_conjugate_phase",
    "C09_conjugate_involutive",
    "C09_conjugate_antimultiplicative",
    "C09_phase_refuted",
    "C09_pauli_conjugate_is_adjoint",
    "C09_pauli_conjugate_involutive",
    "C09_pauli_conjugate_product",
    "C09_locality_involutive",
    "C09_locality_antimultiplicative",
    "C09_locality_adjoint",
    "C09_locality_phase"
   ],
   "note": "Algebraic (complete contexts), locality and Pauli contexts. Phase handling of non-self-adjoint algebraic contexts is false of the code and refuted (C09_phase_refuted)."
  },
  {
   "property": "C10",
   "status": "proved",
   "theorems": [
    "C10_simplification_sound",
    "C10_sequence_sound",
    "C10_product_sound",
    "C10_sigma"
   ],
   "note": "Simplification and multiplication denote the product of Pauli matrices on any number of qubits; sequence objects additionally need exact 64-bit hashes (always up to 12 qubits)."
  },
  {
   "property": "C11",
   "status": "proved",
   "theorems": [
    "C11_canonical_shape",
    "C11_canonical_unique",
    "C11_simplification_decides_equality",
    "C11_sequence_equality",
    "C11_long_words_refuted",
    "C11_multiply_is_simplification",
    "C11_multiply_associative",
    "C11_multiply_identity",
    "C11_multiply_zero",
    "C11_zero_product_refuted",
    "C11_get_if_canonical"
   ],
   "note": "Canonical shape, uniqueness, merge = simplification, associativity, identity. Two refuted corner cases: hash overflow for long words (F9), 0*(-I) not equal to 0 (F10)."
  },
  {
   "property": "C12",
   "status": "proved",
   "theorems": [
    "C12_commutator_anticommutator",
    "C12_zero_or_product"
   ],
   "note": "2*commutator = AB-BA and 2*anticommutator = AB+BA as operators; exactly one of them is zero and the other the product."
  },
  {
   "property": "C13",
   "status": "proved",
   "theorems": [
    "C13_simplification_sound",
    "C13_simplify_in_range",
    "C13_simplify_out_of_range",
    "C13_sequence_sound",
    "C13_sequence_wf",
    "C13_product_sound",
    "C13_product_total",
    "C13_product_associative"
   ],
   "note": "All scenarios, words and algebras; sequences and products up to the length for which hashes are exact. In the C++ the error for out-of-range operators is thrown inside a noexcept constructor (DESIGN F11); the model returns Err."
  },
  {
   "property": "C14",
   "status": "proved",
   "theorems": [
    "C14_unique_forms",
    "C14_zero_exactly",
    "C14_equal_in_every_algebra",
    "C14_zero_in_every_algebra",
    "C14_canonical_iff_fixed",
    "C14_result_canonical",
    "C14_sequence_equality",
    "C14_canonical_test"
   ],
   "note": "Both as chains of relation applications and semantically (equal in every algebra). Exact characterisation of canonical words."
  },
  {
   "property": "C15",
   "status": "proved",
   "theorems": [
    "C15_numbers_in_range",
    "C15_numbers_injective",
    "C15_numbers_surjective",
    "C15_operator_count",
    "C15_triple_of_number",
    "C15_table_size",
    "C15_party_of_number",
    "C15_measurement_of_number",
    "C15_number_of_outcome",
    "C15_party_operator",
    "C15_party_operator_of_triple",
    "C15_mutually_exclusive",
    "C15_measurement_round_trip",
    "C15_measurement_inverse"
   ],
   "note": "All scenarios; tables, accessors and both directions of the measurement numbering."
  },
  {
   "property": "C16",
   "status": "proved",
   "theorems": [
    "C16_generic",
    "C16_algebraic",
    "C16_locality_generic",
    "C16_identity_first",
    "C16_levels_nest",
    "C16_conjugate",
    "C16_description_unique"
   ],
   "note": "Any context whose canonical test decides a property; instantiated to algebraic contexts (irreducible words) and locality contexts; all levels, all operator counts."
  },
  {
   "property": "C17",
   "status": "proved",
   "theorems": [
    "C17_dictionary",
    "C17_identity_first",
    "C17_levels_nest",
    "C17_covers_products",
    "C17_conjugate",
    "C17_hash_order_refuted"
   ],
   "note": "All scenarios and levels, with no bound; hashes wrap as in the code. The order is not the hash order of the generic list (C17_hash_order_refuted)."
  },
  {
   "property": "C18",
   "status": "partial",
   "theorems": [
    "C18_all_words",
    "C18_open_chain",
    "C18_ring",
    "C18_ring_once_partial",
    "C18_ring_once_refuted",
    "C18_lattice_pairs",
    "C18_open_lattice_partial",
    "C18_square_torus_partial",
    "C18_corner_missing_refuted",
    "C18_corner_twice_refuted",
    "C18_oblong_torus_refuted",
    "C18_eight_by_eight_refuted",
    "C18_lattice_limits",
    "C18_torus_needs_symmetry",
    "C18_open_fill",
    "C18_ring_fill",
    "C18_torus_fill",
    "C18_oblong_fill_refuted",
    "C18_long_ring_refuted"
   ],
   "note": "All words, open chains, lattice and torus pairs: exactly the described words, each once. Rings: exactly the described words, each once unless windows close the ring (refuted otherwise). Open lattices and square tori up to four letters: exactly the described words except one corner shape (missing, and another one twice: refuted). Missing: oblong tori beyond pairs (refuted), 8x8 torus and rings beyond 32 qubits (undefined behaviour)."
  },
  {
   "property": "C19",
   "status": "proved",
   "theorems": [
    "C19_parallel_equals_sequential",
    "C19_parallel_hermitian",
    "C19_moment_matrix",
    "C19_moment_matrix_aliased",
    "C19_locality_words",
    "C19_pauli_words",
    "C19_algebraic_words",
    "C19_localizing_matrix",
    "C19_localizing_word_locality",
    "C19_localizing_word_pauli",
    "C19_localizing_refuted",
    "C19_commutator_matrix",
    "C19_anticommutator_matrix",
    "C19_no_data_race"
   ],
   "note": "All schedules, any number of workers, generic and Hermitian mode, with and without aliases; instances for moment, localizing and Pauli (anti)commutator matrices. The localizing word test is too weak in algebraic contexts (C19_localizing_refuted). The number of threads is a parameter (std::thread::hardware_concurrency is not modelled)."
  },
  {
   "property": "C20",
   "status": "proved",
   "theorems": [
    "C20_never_stuck",
    "C20_runs_bounded",
    "C20_exception_no_matrix",
    "C20_exception_with_aliases_refuted"
   ],
   "note": "Deadlock-freedom and termination for every schedule and exception pattern without aliases, and with aliases when nothing throws; with aliases and a partial exception every run hangs (C20_exception_with_aliases_refuted). Exceptions in the second (aliasing) phase are not modelled."
  },
  {
   "property": "C21",
   "status": "proved",
   "theorems": [
    "C21_entries",
    "C21_localizing_entries",
    "C21_entries_mean",
    "C21_first_row_locality",
    "C21_first_row_pauli",
    "C21_entries_return",
    "C21_moment_hermitian",
    "C21_localizing_hermitian",
    "C21_check",
    "C21_check_accepts"
   ],
   "note": "For locality, Pauli and complete algebraic contexts; the Hermiticity check for any context with an involutive conjugation."
  },
  {
   "property": "C22",
   "status": "proved",
   "theorems": [
    "C22_locality_context",
    "C22_pauli_context",
    "C22_algebraic_context",
    "C22_locality_unsigned",
    "C22_pauli_unsigned",
    "C22_shape",
    "C22_meaning_kept",
    "C22_lookup_exact",
    "C22_lookup_kept",
    "C22_to_symbol",
    "C22_registration_total",
    "C22_registered",
    "C22_where_finds",
    "C22_again",
    "C22_shared_identifier",
    "C22_lookup_value",
    "C22_hash_lookup_value",
    "C22_registered_value",
    "C22_signed_conjugate_refuted",
    "C22_where_exact",
    "C22_create",
    "C22_fill_counts",
    "C22_dictionary_index",
    "C22_fill_then_index"
   ],
   "note": "Histories include exceptions. The value theorem needs that conjugation never gives minus another word (true in locality and Pauli contexts); without it the code is wrong (C22_signed_conjugate_refuted). Hash collisions excluded by the length bound (C01). The dictionary index is proved for contexts without aliases."
  },
  {
   "property": "C23",
   "status": "proved",
   "theorems": [
    "C23_numbering",
    "C23_bijection",
    "C23_stable",
    "C23_update",
    "C23_after_exception_refuted",
    "C23_short_bitset_refuted"
   ],
   "note": "Exact for every session without exceptions; refuted after an exception in a Hermiticity update, and the short-bitset case is undefined behaviour (two _refuted theorems)."
  },
  {
   "property": "C24",
   "status": "proved",
   "theorems": [
    "C24_flags",
    "C24_flags_mean",
    "C24_fill_refuted",
    "C24_phase_refuted"
   ],
   "note": "Proved for sessions without nontrivially-phased self-conjugate words in fills and merges; the two excluded routes are refuted with concrete witnesses."
  },
  {
   "property": "C25",
   "status": "proved",
   "theorems": [
    "C25_construct",
    "C25_orders",
    "C25_keys",
    "C25_unique",
    "C25_tables",
    "C25_null_symbol_refuted",
    "C25_fixed",
    "C25_equality",
    "C25_fix_flags",
    "C25_from_map_refuted",
    "C25_degree",
    "C25_degree_by_hash",
    "C25_degree_by_hash_refuted",
    "C25_presort"
   ],
   "note": "Exact coefficients (an arbitrary real field), any term ordering; the zero tolerance of the code is not modelled. Uniqueness needs that every symbol can be nonzero (proved for tables made by registration; refuted otherwise)."
  },
  {
   "property": "C26",
   "status": "proved",
   "theorems": [
    "C26_sum",
    "C26_sum_terms",
    "C26_sum_zero_refuted",
    "C26_sum_values",
    "C26_scale",
    "C26_monomial",
    "C26_group"
   ],
   "note": "Exact coefficients. Sums with an explicitly zero monomial keep it (refuted)."
  },
  {
   "property": "C27",
   "status": "proved",
   "theorems": [
    "C27_conjugate",
    "C27_laws",
    "C27_hermitian",
    "C27_is_conjugate",
    "C27_is_conjugate_refuted"
   ],
   "note": "Hermiticity tests exact; the conjugacy test is exact for Hermitian and anti-Hermitian symbols and refuted for others."
  },
  {
   "property": "C28",
   "status": "proved",
   "theorems": [
    "C28_parts",
    "C28_sum"
   ],
   "note": "Exact coefficients."
  },
  {
   "property": "C29",
   "status": "partial",
   "theorems": [
    "C29_real_part",
    "C29_imaginary_part_partial",
    "C29_imaginary_part_refuted",
    "C29_complex",
    "C29_combined_refuted",
    "C29_throws",
    "C29_columns",
    "C29_rows",
    "C29_import",
    "C29_round_trip",
    "C29_complex_round_trip_refuted",
    "C29_mask",
    "C29_mask_monomial_refuted",
    "C29_mask_monomial_partial"
   ],
   "note": "Real and complex export, import, round trip for real coefficients, columns, rows and masks proved; the code's imaginary-part export is wrong for complex coefficients (refuted; proved for real ones), so the full statement does not hold of the code."
  },
  {
   "property": "C30",
   "status": "proved",
   "theorems": [
    "C30_equations",
    "C30_complete",
    "C30_contradiction",
    "C30_terminates",
    "C30_decides",
    "C30_form",
    "C30_consistent",
    "C30_unique",
    "C30_flags",
    "C30_combine",
    "C30_combine_exception",
    "C30_real_map",
    "C30_complex_map",
    "C30_lock",
    "C30_expansion",
    "C30_retry_refuted"
   ],
   "note": "Exact numbers; the comparison of terms keeps X and X* together and puts the identity first. Equivalence, decision, termination, solved form, uniqueness, combination and exception safety are proved; completing again after an exception is refuted (C30_retry_refuted). Direct injection of rules is modelled but not part of the histories."
  },
  {
   "property": "C31",
   "status": "proved",
   "theorems": [
    "C31_reduce",
    "C31_decides",
    "C31_monomial",
    "C31_compare"
   ],
   "note": "Value, normal form, idempotence and completeness of reduction, the single-term variants and comparison of rulebooks."
  },
  {
   "property": "C32",
   "status": "partial",
   "theorems": [
    "C32_construct",
    "C32_construct_refuted",
    "C32_hash",
    "C32_unhash",
    "C32_roundtrip",
    "C32_roundtrip_back",
    "C32_order",
    "C32_cyclic",
    "C32_cyclic_refuted",
    "C32_row",
    "C32_col",
    "C32_row_refuted",
    "C32_column",
    "C32_alias"
   ],
   "note": "Hashing, unhashing, order, cyclic, row and column shifts, column extraction and aliases are proved for every size with columns of at most 32 sites; refuted in general: one-slide shifts beyond the chain (F44), chains longer than 32 qubits (F45), two-slide lattices whose column height divides 32 (F46)."
  },
  {
   "property": "C33",
   "status": "partial",
   "theorems": [
    "C33_chain_translate",
    "C33_chain_decides",
    "C33_chain_is_canonical",
    "C33_chain_minimal",
    "C33_lattice_translate",
    "C33_lattice_decides",
    "C33_lattice_is_canonical",
    "C33_lattice_minimal",
    "C33_lattice_refuted",
    "C33_chain_offset",
    "C33_lattice_offset",
    "C33_offset_refuted",
    "C33_sequence_hash",
    "C33_sequence_hash_refuted"
   ],
   "note": "Orbit properties proved for all chains and for lattices whose row rotation is right (rows_ok); refuted for tall three-slide lattices (F47), negative offsets (F48) and the hash of sequences of more than 16 operators (F49)."
  },
  {
   "property": "C34",
   "status": "proved",
   "theorems": [
    "C34_chain_canonical",
    "C34_chain_decides",
    "C34_chain_is_canonical",
    "C34_chain_supremum",
    "C34_chain_supremum_polynomial",
    "C34_chain_offset",
    "C34_lattice_canonical",
    "C34_lattice_decides",
    "C34_lattice_is_canonical",
    "C34_lattice_supremum",
    "C34_lattice_offset"
   ],
   "note": "Chains and lattices with open boundaries, all sizes; narrowing of operator numbers to 16 bits is not modelled."
  },
  {
   "property": "C35",
   "status": "proved",
   "theorems": [
    "C35_bitset_is_finite_set",
    "C35_bitset_queries",
    "C35_bitset_equality",
    "C35_bitset_small_subset",
    "C35_empty_complement_refuted"
   ],
   "note": "Every chain of operations on a bitset of any size equals the same chain on finite sets; queries, equality and subset reads follow. Size 0 with initial value true, and complement at size 0, write outside the storage (refuted)."
  },
  {
   "property": "C36",
   "status": "proved",
   "theorems": [
    "C36_find_is_map_lookup",
    "C36_add_if_new_result",
    "C36_find_node",
    "C36_hint",
    "C36_iteration"
   ],
   "note": "Insertion, lookup, hints and iteration of the index tree equal a map from index paths to values, for any sequence of insertions."
  },
  {
   "property": "C37",
   "status": "proved",
   "theorems": [
    "C37_small_vector_is_list",
    "C37_small_vector_reads",
    "C37_emplace_own_element",
    "C37_emplace_own_element_refuted"
   ],
   "note": "Every chain of operations equals the same chain on lists, across the switch from the stack to the heap. Emplacing a copy of the vector's own element into a full heap vector reads freed memory (refuted); harmless otherwise."
  },
  {
   "property": "C38",
   "status": "proved",
   "theorems": [
    "C38_key_stays_valid",
    "C38_released_key_is_dead",
    "C38_keys_distinct",
    "C38_get_exact",
    "C38_foreign_signature",
    "C38_iteration",
    "C38_threads",
    "C38_threads_never_stuck",
    "C38_created_once",
    "C38_clear_refuted",
    "C38_wrap_refuted"
   ],
   "note": "All histories of one thread (up to 2^32 stores between clears), and every interleaving of memory actions of any number of threads under the shared mutex. clear() lets an old key yield another object, and after 2^32 stores a store silently does nothing (both refuted). Stored pointers are taken to be non-null."
  },
  {
   "property": "C39",
   "status": "proved",
   "theorems": [
    "C39_round_trip",
    "C39_to_utf8",
    "C39_to_utf16",
    "C39_utf8_in_bounds",
    "C39_utf16_in_bounds",
    "C39_delete_refuted",
    "C39_plane16_refuted"
   ],
   "note": "All texts of scalar values below plane 16; no write out of bounds for any input. U+007F gains a trailing zero and plane 16 is converted wrongly (both refuted)."
  },
  {
   "property": "C40",
   "status": "proved",
   "theorems": [
    "C40_combinations",
    "C40_multisets",
    "C40_partitions",
    "C40_ordered_permutations",
    "C40_triangular_unique",
    "C40_triangular_duplicates",
    "C40_triangular_empty_word",
    "C40_multipartitions",
    "C40_count",
    "C40_count_wrap_refuted",
    "C40_count_undefined_refuted",
    "C40_count_inclusive_refuted",
    "C40_inclusive_empty_refuted"
   ],
   "note": "All five iterators list exactly their objects, in order, without repetition; counts. The counting function overflows, divides by zero and miscounts multisets, and inclusive combinations over the empty set yield one (all refuted, with correct domains proved)."
  },
  {
   "property": "C41",
   "status": "proved",
   "theorems": [
    "C41_offset",
    "C41_bad_index",
    "C41_index_round_trip",
    "C41_offset_round_trip",
    "C41_bad_offset",
    "C41_element_count",
    "C41_iterator",
    "C41_range_iterator",
    "C41_range_check",
    "C41_flattener",
    "C41_flattener_size",
    "C41_no_dimensions_refuted",
    "C41_huge_refuted"
   ],
   "note": "Both storage orders, all shapes with fewer than 2^64 elements, index and range iterators, flattener. Refuted for tensors without dimensions and for products that wrap."
  },
  {
   "property": "C42",
   "status": "proved",
   "theorems": [
    "C42_ipow_unsigned",
    "C42_ipow_signed",
    "C42_ipow_least_refuted",
    "C42_least_rotation",
    "C42_first_intersection",
    "C42_merge",
    "C42_chunks",
    "C42_kronecker_power"
   ],
   "note": "ipow (signed and unsigned), least rotation, first intersection, map merge, variable chunks, Kronecker power. The least signed value as a power is refuted."
  },
  {
   "property": "C43",
   "status": "proved",
   "theorems": [
    "C43_from_operators",
    "C43_unknown",
    "C43_register",
    "C43_values",
    "C43_condense",
    "C43_normal_form",
    "C43_scalar",
    "C43_sums",
    "C43_locality_product",
    "C43_pauli_product",
    "C43_algebraic_product",
    "C43_pauli_commutators",
    "C43_pauli_matrices",
    "C43_to_operators_fails",
    "C43_to_operators",
    "C43_to_operators_words",
    "C43_there_and_back",
    "C43_phased_symbol_refuted"
   ],
   "note": "Condensing (with normal form), sums, products in locality, Pauli and algebraic contexts, Pauli commutators, conversion from and to symbols. Coefficients are exact (no rounding, tolerance zero). Conversion to operators keeps the value provided no symbol was merged with a phase (otherwise refuted)."
  },
  {
   "property": "C44",
   "status": "partial",
   "theorems": [
    "C44_any_schedule",
    "C44_distinct_levels",
    "C44_one_thread",
    "C44_same_level_refuted"
   ],
   "note": "All histories and interleavings for calls that return; freedom from undefined behaviour for distinct levels or a single thread. Two threads requesting the same new level at once: refuted (past-the-end iterator dereferenced). Invalidation of returned references by vector growth is not modelled."
  },
  {
   "property": "C45",
   "status": "proved",
   "theorems": [
    "C45_single_threaded",
    "C45_parallel_finishes",
    "C45_parallel_result",
    "C45_flags_make_real",
    "C45_schedule_independent_refuted",
    "C45_race_free_refuted",
    "C45_any_hermitian_matrix_refuted",
    "C45_exceptions_reported_refuted"
   ],
   "note": "Single-threaded and parallel factories, every number of workers and every interleaving; values need an expectation for which symbols marked Hermitian are real (shown to follow from right flags). False without that, false for schedule independence of the representation, and false for exceptions: see the refuted theorems."
  },
  {
   "property": "C46",
   "status": "proved",
   "theorems": [
    "C46_order",
    "C46_order_coefficients",
    "C46_tolerance_refuted"
   ],
   "note": "Orderings by terms, and with exact comparison of coefficients, proved; with the code's tolerance refuted."
  },
  {
   "property": "C47",
   "status": "proved",
   "theorems": [
    "C47_triangles",
    "C47_transpose",
    "C47_pad",
    "C47_pad_size"
   ],
   "note": "All four triangular views, the transposed view and padding, for all dimensions."
  },
  {
   "property": "C48",
   "status": "proved",
   "theorems": [
    "C48_read",
    "C48_read_offset",
    "C48_iterate",
    "C48_splice",
    "C48_splice_size",
    "C48_storage_invisible",
    "C48_storage_choice",
    "C48_no_dimensions_refuted"
   ],
   "note": "All reads, traversals and splices. Refuted for tensors without dimensions."
  },
  {
   "property": "C49",
   "status": "proved",
   "theorems": [
    "C49_probability",
    "C49_symbols",
    "C49_resolution",
    "C49_value_rules",
    "C49_conditional_value_rules",
    "C49_value_rules_missing"
   ],
   "note": "ProbabilityTensor construction, symbol resolution and value rules over an abstract Collins-Gisin tensor; coefficients in an exact field."
  },
  {
   "property": "C50",
   "status": "partial",
   "theorems": [
    "C50_correlator",
    "C50_symbols",
    "C50_symbols_refuted"
   ],
   "note": "Values: proved. Availability of the symbolic form: true when no entry's symbol is the zero symbol; refuted otherwise (F41)."
  },
  {
   "property": "C51",
   "status": "proved",
   "theorems": [
    "C51_correlators",
    "C51_to_cg",
    "C51_to_fc",
    "C51_round_trip",
    "C51_defined",
    "C51_parties"
   ],
   "note": "Both directions, round trip, refusals; exact field arithmetic."
  },
  {
   "property": "C52",
   "status": "proved",
   "theorems": [
    "C52_network",
    "C52_operators",
    "C52_operator_number",
    "C52_copy_index",
    "C52_source_copies",
    "C52_independent",
    "C52_outcomes",
    "C52_outcomes_bound_refuted",
    "C52_outcomes_number_refuted"
   ],
   "note": "Network check, operator/copy/source/outcome numbering with inverses, independence test. int16_t/size_t narrowing of the numbers not modelled except in source_copy."
  },
  {
   "property": "C53",
   "status": "proved",
   "theorems": [
    "C53_value",
    "C53_unique",
    "C53_canonical",
    "C53_multiply"
   ],
   "note": "Sound for all real fields and explanations; complete over the rationals."
  },
  {
   "property": "C54",
   "status": "partial",
   "theorems": [
    "C54_moment",
    "C54_idempotent",
    "C54_expectation",
    "C54_unique_refuted",
    "C54_unique_partial"
   ],
   "note": "Termination, soundness, idempotence, exactness of the test, expectation: proved for all words. One canonical moment per class is false in general (refuted) and proved for words without repeated observables."
  },
  {
   "property": "C55",
   "status": "proved",
   "theorems": [
    "C55_factors",
    "C55_expectation"
   ],
   "note": "Factors of simplified words; the empty word has the factor [empty word]."
  },
  {
   "property": "C56",
   "status": "proved",
   "theorems": [
    "C56_dictionary"
   ],
   "note": "Single-threaded generator."
  },
  {
   "property": "C57",
   "status": "proved",
   "theorems": [
    "C57_new",
    "C57_add_words",
    "C57_register",
    "C57_meaning",
    "C57_grows",
    "C57_factors",
    "C57_find"
   ],
   "note": "All networks, levels, histories and explanations."
  },
  {
   "property": "C58",
   "status": "proved",
   "theorems": [
    "C58_list",
    "C58_pair",
    "C58_poly",
    "C58_empty_refuted",
    "C58_zero_refuted"
   ],
   "note": "All sound tables; findings F61, F62 on the empty product and on registering products with zero."
  },
  {
   "property": "C59",
   "status": "proved",
   "theorems": [
    "C59_done",
    "C59_throw",
    "C59_total",
    "C59_count_refuted",
    "C59_unlocked_refuted"
   ],
   "note": "Rulebooks of any session; findings F63, F64 on the returned count and the flag after an exception."
  },
  {
   "property": "C60",
   "status": "proved",
   "theorems": [
    "C60_extended",
    "C60_outcome",
    "C60_unknown",
    "C60_dangling_refuted"
   ],
   "note": "Complete outcome, including exactly when the kept reference may dangle (F65)."
  },
  {
   "property": "C61",
   "status": "proved",
   "theorems": [
    "C61_parallel",
    "C61_no_products",
    "C61_terminate_refuted",
    "C61_unknown_refuted"
   ],
   "note": "All schedules: the extended matrix, or termination in exactly described cases (F66); F67 on unknown scalars."
  },
  {
   "property": "C62",
   "status": "proved",
   "theorems": [
    "C62_generates",
    "C62_no_generators",
    "C62_throws",
    "C62_limit_refuted"
   ],
   "note": "For every group (abstract multiplication and equality) and every list of generators; matrices and their approximate comparison are abstracted to a group with decidable equality. The size bound does not bound the work when a later generator makes the group infinite: C62_limit_refuted."
  },
  {
   "property": "C63",
   "status": "proved",
   "theorems": [
    "C63_build_list",
    "C63_representations",
    "C63_sign_refuted"
   ],
   "note": "For every algebra over a ring of scalars and every generator of words whose products are again words (no signs). With signs the result is wrong: C63_sign_refuted. Dense/sparse storage of matrices is not distinguished."
  },
  {
   "property": "C64",
   "status": "proved",
   "theorems": [
    "C64_same_result",
    "C64_finishes",
    "C64_no_race"
   ],
   "note": "All schedules of the main thread and the workers, sequentially consistent; atomics with release/acquire order, wait and notify are blocking steps."
  },
  {
   "property": "C65",
   "status": "proved",
   "theorems": [
    "C65_images",
    "C65_invariant",
    "C65_conjugate_refuted",
    "C65_beyond_refuted",
    "C65_monomial",
    "C65_refuses",
    "C65_lu",
    "C65_average"
   ],
   "note": "Exact numbers; the processor is any that writes the core as a product, and the LU processor is one if Eigen's FullPivLU keeps its contract (C65_lu). Conjugated symbols need real coefficients: C65_conjugate_refuted. Symbols of longer words become zero: C65_beyond_refuted. The sparse processor variant (SparseMapCore), which SymbolTableMap never builds, is not modelled."
  },
  {
   "property": "C66",
   "status": "proved",
   "theorems": [
    "C66_again",
    "C66_distinct",
    "C66_made_for_it",
    "C66_exception",
    "C66_proper",
    "C66_no_dangling_index",
    "C66_threads",
    "C66_threads_one_matrix",
    "C66_threads_never_stuck",
    "C66_delete",
    "C66_delete_refuted",
    "C66_recreate_refuted",
    "C66_deleted_forever",
    "C66_derived_refuted",
    "C66_substituted",
    "C66_stale_substitution_refuted",
    "C66_add_rulebook",
    "C66_merge_rulebook"
   ],
   "note": "Plain and Pauli systems; what the factories generate is a parameter. Derived systems break it: C66_derived_refuted. Deletion: C66_delete_refuted, C66_recreate_refuted and the true versions C66_delete, C66_deleted_forever. Substituted matrices: C66_substituted, C66_stale_substitution_refuted."
  },
  {
   "property": "C67",
   "status": "proved",
   "theorems": [
    "C67_monomial",
    "C67_polynomial",
    "C67_real_type",
    "C67_unique",
    "C67_hermitian_basis",
    "C67_polynomial_sets",
    "C67_monomial_sets",
    "C67_hermicity_complete",
    "C67_hermicity_sound",
    "C67_monolithic",
    "C67_prefactor_refuted",
    "C67_hermicity_refuted"
   ],
   "note": "Matrices that are flagged Hermitian have to be Hermitian; the two places where the flag is wrong are C67_prefactor_refuted and C67_hermicity_refuted. Numbers are exact."
  },
  {
   "property": "C68",
   "status": "proved",
   "theorems": [
    "C68_sum",
    "C68_combination",
    "C68_add_monomial",
    "C68_add_polynomial",
    "C68_polynomial_unit_refuted",
    "C68_sum_canonical_refuted",
    "C68_multiply",
    "C68_multiply_hermitian",
    "C68_multiply_hermitian_refuted",
    "C68_multiply_polynomial",
    "C68_times_symbol",
    "C68_times_symbol_refuted",
    "C68_times_polynomial",
    "C68_value_dense",
    "C68_value_antihermitian_refuted",
    "C68_value_sparse",
    "C68_value_sparse_refuted",
    "C68_value_multiply",
    "C68_value_hermitian",
    "C68_value_hermitian_refuted",
    "C68_value_polynomial",
    "C68_value_times_refuted"
   ],
   "note": "The values of sums and of products with operators are proved for all matrices; where the code departs from the property (products with symbols, units, Hermitian flags of complex multiples and of sparse matrices) there is a refutation and the strongest true version. Numbers are exact."
  },
  {
   "property": "C69",
   "status": "proved",
   "theorems": [
    "C69_meaning",
    "C69_symbols",
    "C69_accepts",
    "C69_refuses",
    "C69_defined",
    "C69_values",
    "C69_failed",
    "C69_hermitian",
    "C69_real",
    "C69_basis",
    "C69_imports_first",
    "C69_complex_coefficient_refuted",
    "C69_complex_diagonal_refuted",
    "C69_stale_basis_refuted",
    "C69_failed_refuted"
   ],
   "note": "Proved for real coefficients and sessions in which no import fails while the symbols are updated; complex coefficients, bases asked for before a later import, and such failures are refuted. Numbers are exact; one kind of basis per matrix."
  },
  {
   "property": "C70",
   "status": "proved",
   "theorems": [
    "C70_safe",
    "C70_usable",
    "C70_answers",
    "C70_complete",
    "C70_once",
    "C70_first_use_refuted",
    "C70_no_deadlock",
    "C70_bounded",
    "C70_in_order",
    "C70_ends"
   ],
   "note": "Proved if the Collins-Gisin tensor exists when the threads start, or for one thread; without that it is refuted. What is done under the exclusive lock is one step; which symbols are found is counted, not modelled here."
  },
  {
   "property": "C71",
   "status": "proved",
   "theorems": [
    "C71_answers",
    "C71_references",
    "C71_done",
    "C71_once",
    "C71_no_deadlock",
    "C71_bounded",
    "C71_ends",
    "C71_in_order"
   ],
   "note": "Accesses are interleaved (the release/acquire flag orders them); the computations of bases are parameters; moving a matrix is not modelled."
  },
  {
   "property": "C72",
   "status": "partial",
   "theorems": [
    "C72_probability_range",
    "C72_operator_range",
    "C72_variant_range",
    "C72_element",
    "C72_element_value",
    "C72_clash_refused",
    "C72_element_refused",
    "C72_beyond_refused",
    "C72_number_refused_refuted",
    "C72_outcome_refused_refuted",
    "C72_correlator_element",
    "C72_correlator_refused"
   ],
   "note": "Proved for requests for measurements that exist, with outcomes that exist (and have an operator, in the Collins-Gisin tensor). The refusal of other requests is refuted: the number one beyond the last measurement is read out of bounds (C72_number_refused_refuted) and outcomes are not checked (C72_outcome_refused_refuted)."
  },
  {
   "property": "C73",
   "status": "partial",
   "theorems": [
    "C73_first_in_first_out",
    "C73_own_elements",
    "C73_safe",
    "C73_nothing_if_empty",
    "C73_no_deadlock",
    "C73_push_wakes",
    "C73_abort_wakes",
    "C73_waiting_ends_refuted",
    "C73_abort_ends_refuted",
    "C73_waiting_ends_partial",
    "C73_all_taken_refuted"
   ],
   "note": "Order, single delivery, memory safety, truth of 'nothing' and absence of deadlock on the mutexes are proved in full; a notification wakes whoever sleeps. That waiting ends is refuted: C73_waiting_ends_refuted, C73_abort_ends_refuted."
  },
  {
   "property": "C74",
   "status": "partial",
   "theorems": [
    "C74_same_as_one",
    "C74_no_race",
    "C74_goes_on",
    "C74_ends",
    "C74_one_throws",
    "C74_exception_refuted",
    "C74_exception_partial"
   ],
   "note": "Proved for functions that do not throw on the elements of the matrix. With exceptions, refuted for several threads: C74_exception_refuted; what holds then: C74_exception_partial."
  },
  {
   "property": "C75",
   "status": "proved",
   "theorems": [
    "C75_made",
    "C75_values",
    "C75_reduced",
    "C75_hermitian",
    "C75_known_hermitian",
    "C75_monomial",
    "C75_decides",
    "C75_again"
   ],
   "note": ""
  },
  {
   "property": "C76",
   "status": "partial",
   "theorems": [
    "C76_sorted",
    "C76_accepted",
    "C76_missing_refuted",
    "C76_missing_partial",
    "C76_undefined",
    "C76_clash",
    "C76_clash_named",
    "C76_list_excludes",
    "C76_list_excludes_only",
    "C76_alternatives",
    "C76_exclusive",
    "C76_complete",
    "C76_mode",
    "C76_named_partial",
    "C76_commutator_refuted",
    "C76_commutator_partial",
    "C76_substituted_refuted",
    "C76_substituted_partial"
   ],
   "note": "Refuted in three ways: a name without a value after another named value (C76_missing_refuted; what holds: C76_missing_partial, C76_undefined), commutator matrices by name (C76_commutator_refuted; C76_commutator_partial), substituted matrices by name (C76_substituted_refuted; C76_substituted_partial). The five other commands: C76_named_partial."
  },
  {
   "property": "C77",
   "status": "partial",
   "theorems": [
    "C77_letters",
    "C77_letters_all",
    "C77_letters_order",
    "C77_letters_differ",
    "C77_table",
    "C77_default",
    "C77_find",
    "C77_found",
    "C77_round_refuted",
    "C77_round_partial",
    "C77_words_refuted",
    "C77_words_partial",
    "C77_words_no_number",
    "C77_identity_refuted",
    "C77_pauli",
    "C77_pauli_no_zero",
    "C77_locality",
    "C77_locality_no_number",
    "C77_inflation",
    "C77_inflation_no_number"
   ],
   "note": "Refuted in three ways: the first operator loses its name when operators and conjugates alternate (C77_round_refuted; what holds: C77_round_partial), signs i without braces (C77_words_refuted; C77_words_partial), the sign of the identity (C77_identity_refuted; C77_pauli is free of this). Locality and inflation words: C77_locality, C77_inflation."
  },
  {
   "property": "C78",
   "status": "proved",
   "theorems": [
    "C78_ends",
    "C78_useful",
    "C78_complete"
   ],
   "note": "Hypotheses: the symbols of the matrix are in the table and are not products with zero; the moments of the generators have symbols (otherwise the code reads out of range). Completeness is for products whose factors no other symbol has (another symbol with the same factors would be found instead of it)."
  },
  {
   "property": "C79",
   "status": "partial",
   "theorems": [
    "C79_levels",
    "C79_neighbours",
    "C79_substituted",
    "C79_extended",
    "C79_polynomial",
    "C79_polynomial_neighbours",
    "C79_localizing_refuted",
    "C79_pauli_refuted",
    "C79_localizing_sign",
    "C79_pauli_sign",
    "C79_localizing_partial",
    "C79_pauli_partial"
   ],
   "note": "Refuted for localizing matrices of words that differ by their sign (C79_localizing_refuted, C79_pauli_refuted; what holds: C79_localizing_sign, C79_pauli_sign, and C79_localizing_partial, C79_pauli_partial for words without signs). Polynomials with exact comparison of coefficients (with the tolerance of the code the order is not a strict weak order: C46_tolerance_refuted). Levels of extended matrices below 2^32."
  },
  {
   "property": "C80",
   "status": "partial",
   "theorems": [
    "C80_exports",
    "C80_rewrite",
    "C80_fixed",
    "C80_homogeneous",
    "C80_equations",
    "C80_solution_partial",
    "C80_solution_refuted"
   ],
   "note": "Rewriting a vector gives a solution if every partial rule fixes a real or an imaginary part (C80_solution_partial); refuted for rules that fix a mixture (C80_solution_refuted). Everything else holds for all rulebooks. Exact numbers; the choice of the constrained part (|cos| >= |sin|) is arbitrary. Rulebooks given rules directly (inject) are not covered."
  },
  {
   "property": "C81",
   "status": "partial",
   "theorems": [
    "C81_right",
    "C81_generators_stay",
    "C81_one_generator",
    "C81_finishes",
    "C81_all_answered",
    "C81_defined_partial",
    "C81_apart_partial",
    "C81_room_partial",
    "C81_careful_partial",
    "C81_near_race_refuted",
    "C81_kept_pair_refuted",
    "C81_count_refuted"
   ],
   "note": "Values, identity of lists, lifetime of the lists and progress hold for all schedules. Undefined behaviour is excluded if no two threads ask for the same dictionary and the vector of pairs has room (C81_defined_partial), or for one thread that opens each pair before asking for another dictionary (C81_careful_partial); otherwise refuted."
  },
  {
   "property": "C82",
   "status": "partial",
   "theorems": [
    "C82_reads",
    "C82_one_meaning",
    "C82_length",
    "C82_undefined_partial",
    "C82_defined_refuted",
    "C82_plain_back",
    "C82_zero_back",
    "C82_back_partial",
    "C82_factor_back_refuted",
    "C82_scalar_back_refuted",
    "C82_hash_text",
    "C82_plain_text_refuted"
   ],
   "note": "Reading is proved equivalent to the grammar for all texts, and the text with # is proved to determine the symbol. Undefined behaviour is met for exactly the texts of -2147483648 (C82_undefined_partial). Which symbols are read back from their own text is characterised (C82_back_partial): symbols with factor 1 (or -1 without #), 1, -1 and scalars shown with a point; for the others the full statement is refuted. std::stod and the text of a double are abstract."
  },
  {
   "property": "C83",
   "status": "partial",
   "theorems": [
    "C83_set_defined",
    "C83_set_same",
    "C83_set_other",
    "C83_visit_all",
    "C83_visit_once",
    "C83_wide",
    "C83_chunks",
    "C83_modest_wide",
    "C83_modest_chunks",
    "C83_modest_set",
    "C83_access_here_partial",
    "C83_access_refuted"
   ],
   "note": "Shapes, writing and visiting are proved in full. Reading through the reference that access returns for a path is refuted (C83_access_refuted); reading the node itself, or the subtree's object, is right."
  },
  {
   "property": "C84",
   "status": "partial",
   "theorems": [
    "C84_export",
    "C84_back",
    "C84_term_back",
    "C84_lone_term",
    "C84_mono_back",
    "C84_accepted",
    "C84_value",
    "C84_first_bad",
    "C84_position_refuted",
    "C84_position_partial",
    "C84_fraction_refuted",
    "C84_fraction_partial"
   ],
   "note": "Export, the round trip, acceptance, the value and the position of a misshapen element are proved in full. The position of an unknown symbol is always reported as 1 (C84_position_refuted), and fractions in symbol numbers are dropped instead of rejected (C84_fraction_refuted); the _partial theorems say what holds."
  },
  {
   "property": "C85",
   "status": "partial",
   "theorems": [
    "C85_read_partial",
    "C85_bad_term_partial",
    "C85_not_cell",
    "C85_wrap_refuted",
    "C85_context",
    "C85_bad_operator",
    "C85_raw",
    "C85_find",
    "C85_find_all",
    "C85_find_error",
    "C85_quiet",
    "C85_find_value_partial",
    "C85_register_partial",
    "C85_upgrade_partial",
    "C85_whole_partial",
    "C85_phase_refuted"
   ],
   "note": "Resolving, look-up, registration and all error positions are proved. Reading is proved for operator numbers that fit in 16 bits (C85_wrap_refuted for the others), and values for sequences whose simplification gives no phase (C85_phase_refuted for the others; the value without phases is proved in general)."
  },
  {
   "property": "C86",
   "status": "partial",
   "theorems": [
    "C86_word_list",
    "C86_word_symbols_partial",
    "C86_imaginary_refuted",
    "C86_hash",
    "C86_polynomial",
    "C86_good",
    "C86_clean",
    "C86_error_partial",
    "C86_position_refuted",
    "C86_raw",
    "C86_single",
    "C86_matrix",
    "C86_table",
    "C86_lookup",
    "C86_hermitian"
   ],
   "note": "All rows are proved, for tables whose words are without phases. Missing because false: the coefficient of a word exported with its symbol when its phase is imaginary (C86_imaginary_refuted), and the position in the error about a polynomial (C86_position_refuted). The texts in the symbol table's rows are not modelled."
  },
  {
   "property": "C87",
   "status": "partial",
   "theorems": [
    "C87_plain",
    "C87_ring",
    "C87_ring_fixed",
    "C87_torus_partial",
    "C87_torus_fixed_partial",
    "C87_line",
    "C87_sheet",
    "C87_chain_value",
    "C87_lattice_value_partial",
    "C87_line_refuted",
    "C87_tall_refuted",
    "C87_eight_refuted"
   ],
   "note": "Proved for rings, open chains and open lattices of every size, with exact arithmetic. Tori are proved when the shifts of the site hasher are right (rows_ok). Missing because false: tori of over 64 qubits with more rows than columns (C87_tall_refuted), two-word tori whose height divides 32 (C87_eight_refuted), and equal copies for translates on open chains (C87_line_refuted)."
  },
  {
   "property": "C88",
   "status": "partial",
   "theorems": [
    "C88_sum_partial",
    "C88_product_partial",
    "C88_bracket_partial",
    "C88_pauli_bracket_partial",
    "C88_accepted_partial",
    "C88_products_accepted_partial",
    "C88_unfit_partial",
    "C88_matrices",
    "C88_empty_refuted",
    "C88_mismatch_refuted"
   ],
   "note": "Proved for all arrays, with exact arithmetic, for the parts done on polynomials (matrices: C68). Missing because false: an empty cell as the zero polynomial (C88_empty_refuted), and sums of arrays of different shapes being refused as bad parameters (C88_mismatch_refuted)."
  },
  {
   "property": "C89",
   "status": "partial",
   "theorems": [
    "C89_simplify_partial",
    "C89_same_partial",
    "C89_conjugate_partial",
    "C89_pauli_simplify_partial",
    "C89_pauli_same_partial",
    "C89_pauli_conjugate_partial",
    "C89_algebraic_simplify_partial",
    "C89_algebraic_conjugate_partial",
    "C89_single",
    "C89_refused_partial",
    "C89_names",
    "C89_zero_refuted",
    "C89_wide_refuted"
   ],
   "note": "Proved for words within the exact range of the hashes, in locality, Pauli and algebraic scenarios (conjugation in algebraic scenarios: self-adjoint operators; others lose phases, see C09); refusal, names and the form of the answer in all. Missing: values in inflation scenarios (for their sequences see C53). Missing because false: operators and sign tell zero from the identity (C89_zero_refuted), numbers of over 16 bits are refused (C89_wide_refuted)."
  },
  {
   "property": "C90",
   "status": "partial",
   "theorems": [
    "C90_sound_partial",
    "C90_exact",
    "C90_self_partial",
    "C90_empty",
    "C90_complete_partial",
    "C90_text",
    "C90_sign_refuted",
    "C90_zero_refuted",
    "C90_self_refuted",
    "C90_later_refuted"
   ],
   "note": "Proved: soundness for rules of the same sign of which the first does not set to zero; an exact description of the answer; a rule with two non-empty sides implies itself, and its extensions if its sides are found in one place only; the text of a rule determines it. Missing because false: soundness for other signs (C90_sign_refuted) and zero (C90_zero_refuted), every rule implies itself (C90_self_refuted) and its extensions (C90_later_refuted)."
  },
  {
   "property": "C91",
   "status": "proved",
   "theorems": [
    "C91_meaning",
    "C91_rule",
    "C91_determines",
    "C91_count"
   ],
   "note": "For rulebooks whose rules strictly reduce (a rule X -> -X, see F2, is exported alike but not covered). Conversion of numbers to 64 bits is exact, since operators are 16-bit numbers."
  }
 ]
}