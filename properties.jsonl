{"id": "C01", "title": "Operator-word hash is a faithful shortlex code", "statement": "For an alphabet of `radix` operators, the 64-bit hash of a word is injective and order-preserving on every word whose code fits in 64 bits: two words have the same hash only if they are the same word, and hash order is exactly 'shorter first, then lexicographic'. The hash never collides with the reserved values 0 (zero) and 1 (identity) except for the identity itself. The length bound advertised by the library (longest hashable string) must guarantee this.", "quantifier": "all radices >= 1, all pairs of words over the alphabet up to the advertised length", "why_tests_cant": "Hash equality is used as word equality everywhere (rulebooks, symbol tables, maps); a collision exists or not over an exponentially large word set that no test enumerates.", "anchors": ["cpp/lib_moment/shortlex_hasher.h: ShortlexHasher::hash, longest_hashable_string", "cpp/lib_moment/hashed_sequence.h: operator<, operator=="]}
{"id": "C02", "title": "Incremental substring hashing visits every substring with its true hash", "statement": "Scanning a word with the substring-hash range visits every non-empty contiguous substring exactly once (as an (offset,length) pair), in the documented order (right-most end first), and at each stop the reported hash equals the hash obtained by hashing that substring from scratch.", "quantifier": "all words of any length over any alphabet", "why_tests_cant": "An off-by-one in the incremental stride update only shows for particular lengths/offsets; the search strategy of rewriting then silently misses redexes.", "anchors": ["cpp/lib_moment/utilities/substring_hasher.h: SubstringHashRange, SubstringHashIterator"]}
{"id": "C03", "title": "Phases of operator words form the group {1,i,-1,-i}", "statement": "Multiplying, conjugating, negating and dividing the phases attached to operator words agrees with complex arithmetic on i^k for every combination, and the negative/imaginary predicates and conversion to complex scalar are consistent with it.", "quantifier": "all pairs/triples of phases", "why_tests_cant": "Encoded as bit tricks on an enum; wrong on a few combinations would only flip a sign in rare products.", "anchors": ["cpp/lib_moment/sequence_sign_type.h: operator*, conjugate, difference, is_negative, is_imaginary, to_scalar"]}
{"id": "C04", "title": "A rewrite rule application is sound and decreasing", "statement": "Applying one oriented rewriting rule to a word at a matching place replaces exactly that occurrence, multiplies the phase by the rule's phase (or yields zero for a map-to-zero rule), and the resulting word is strictly smaller in shortlex order, so every chain of applications is finite; a rule whose two sides are the same word up to phase must not be accepted as a rewriting rule.", "quantifier": "all rules the constructor accepts, all words, all match positions", "why_tests_cant": "Termination and soundness quantify over unbounded words and rules.", "anchors": ["cpp/lib_moment/scenarios/algebraic/operator_rule.cpp: OperatorRule::OperatorRule, apply_match_with_hint", "cpp/lib_moment/hashed_sequence.cpp: matches_anywhere"]}
{"id": "C05", "title": "Reduction never changes the operator denoted", "statement": "Reducing an operator word with a rulebook returns a word (with phase, or zero) that equals the original in every algebra in which all the rules of the book hold as equations.", "quantifier": "all rulebooks, all words, all algebras satisfying the rules, both search strategies", "why_tests_cant": "Quantifies over all algebras and all rule sets; tests use a handful of rulebooks.", "anchors": ["cpp/lib_moment/scenarios/algebraic/operator_rulebook.cpp: reduce_in_place, reduce_via_iteration, reduce_via_search, reduce"]}
{"id": "C06", "title": "Reduction terminates in an irreducible word", "statement": "Reducing any non-zero word terminates, and the result contains no occurrence of any rule's left-hand side; reducing it again changes nothing, and the irreducibility test (can_reduce / get_if_canonical) answers true exactly when reduction would change the word.", "quantifier": "all accepted rulebooks, all words, both the iterate-rules and the search-substrings strategies", "why_tests_cant": "Both strategies must agree for all rulebook sizes and word lengths, the choice being made by a size heuristic.", "anchors": ["cpp/lib_moment/scenarios/algebraic/operator_rulebook.cpp: reduce_via_iteration, reduce_via_search, can_reduce", "cpp/lib_moment/scenarios/algebraic/operator_rulebook.h: reduction_method"]}
{"id": "C07", "title": "Adding rules and completing preserves the equational theory", "statement": "After any sequence of rule additions, ruleset reduction and completion steps, the rules in the book and the rules originally supplied are equivalent: an algebra satisfies one set iff it satisfies the other. In particular no consequence is invented and none is lost.", "quantifier": "all input rule lists, any number of completion steps", "why_tests_cant": "Completion is an unbounded search; a rule simplified with the wrong phase makes the whole algebra inconsistent only for particular inputs.", "anchors": ["cpp/lib_moment/scenarios/algebraic/operator_rulebook.cpp: do_add_rule, add_rules, complete, try_new_combination, reduce_ruleset, reduce(rule)"]}
{"id": "C08", "title": "A rulebook reported complete gives unique normal forms", "statement": "If the rulebook reports itself complete, then any two words that are equal in the presented algebra reduce to the same word with the same phase.", "quantifier": "all rulebooks accepted as complete, all pairs of provably equal words", "why_tests_cant": "Confluence is a statement about all words; the completeness check itself only inspects finitely many overlaps.", "anchors": ["cpp/lib_moment/scenarios/algebraic/operator_rulebook.cpp: is_complete, try_new_combination", "cpp/lib_moment/scenarios/algebraic/operator_rule.cpp: combine", "cpp/lib_moment/hashed_sequence.cpp: suffix_prefix_overlap"]}
{"id": "C09", "title": "Conjugation of operator words is an involutive anti-automorphism", "statement": "For every context, conj(conj(w)) = w, conj(a*b) = conj(b)*conj(a) and conj(k*w) = conj(k)*conj(w) for phases k, where * is the context's product.", "quantifier": "all words with all phases, all contexts (algebraic self-adjoint/bunched/interleaved, locality, Pauli)", "why_tests_cant": "Must hold for all words; violated phases only show in complex-phase corner cases.", "anchors": ["cpp/lib_moment/scenarios/context.cpp: conjugate, multiply", "cpp/lib_moment/scenarios/algebraic/algebraic_context.cpp: conjugate", "cpp/lib_moment/scenarios/algebraic/algebraic_precontext.cpp: conjugate", "cpp/lib_moment/scenarios/pauli/pauli_context.cpp: conjugate"]}
{"id": "C10", "title": "Pauli simplification computes the product of Pauli matrices", "statement": "The canonical form of any string of single-qubit Pauli operators on any number of qubits denotes the same operator on (C^2)^{⊗n} as the string itself, including the phase 1,i,-1,-i.", "quantifier": "all strings of Pauli operators of any length, any number of qubits, all initial phases", "why_tests_cant": "Phases depend on the order in which operators on each qubit meet; unbounded strings.", "anchors": ["cpp/lib_moment/scenarios/pauli/pauli_context.cpp: additional_simplification, multiply_pauli, multiply_pauli_with_id"]}
{"id": "C11", "title": "Pauli canonical forms are unique, and multiplication agrees with simplification", "statement": "A canonical Pauli word has at most one operator per qubit, ordered by qubit; two strings denote the same operator iff their canonical forms (word and phase) are equal; the fast product of two canonical words equals simplifying their concatenation; hence the product is associative with identity.", "quantifier": "all strings, all numbers of qubits", "why_tests_cant": "Two independently written algorithms (general simplification and two-way merge) must agree on all inputs.", "anchors": ["cpp/lib_moment/scenarios/pauli/pauli_context.cpp: multiply, additional_simplification"]}
{"id": "C12", "title": "Pauli commutator and anticommutator", "statement": "For canonical Pauli words A,B the library's commutator is exactly (AB-BA)/2 and its anticommutator (AB+BA)/2: zero when the words anticommute/commute respectively and the product otherwise.", "quantifier": "all pairs of canonical Pauli words of any length", "why_tests_cant": "Whether words commute is a parity over all shared qubits; unbounded.", "anchors": ["cpp/lib_moment/scenarios/pauli/pauli_context.cpp: commutator, anticommutator"]}
{"id": "C13", "title": "Locality simplification is sound", "statement": "In a locality scenario (parties with projective measurements), the canonical form of a word of measurement operators equals the word in every algebra where operators of different parties commute, operators are idempotent, and different outcomes of the same measurement are orthogonal; a word is declared zero only if it is zero in every such algebra. Out-of-range operators raise an error.", "quantifier": "all locality scenarios, all words, all algebras satisfying these relations", "why_tests_cant": "Soundness over all algebras and word lengths.", "anchors": ["cpp/lib_moment/scenarios/locality/locality_context.cpp: additional_simplification", "cpp/lib_moment/scenarios/locality/party.cpp: mutually_exclusive"]}
{"id": "C14", "title": "Locality canonical forms are unique", "statement": "Two words of measurement operators that are equal as consequences of the locality relations have the same canonical form, and simplification is idempotent; non-zero canonical words are exactly those sorted by party with no adjacent repeated or mutually exclusive operators.", "quantifier": "all scenarios, all pairs of words connected by any chain of relation applications", "why_tests_cant": "Completeness of a normal form is a statement over all derivations.", "anchors": ["cpp/lib_moment/scenarios/locality/locality_context.cpp: additional_simplification"]}
{"id": "C15", "title": "Operator numbering of a locality scenario is a bijection", "statement": "Global operator numbers, (party, local operator) pairs and (party, measurement, outcome) triples are in bijection: converting in either direction and back is the identity, numbers are contiguous from 0, and the total is the sum over measurements of (outcomes-1).", "quantifier": "all lists of parties with any numbers of measurements and outcomes", "why_tests_cant": "Off-by-one in offset tables affects only particular shapes.", "anchors": ["cpp/lib_moment/scenarios/locality/party.cpp: Party::set_offsets, measurement_of, measurement_outcome, MakeList", "cpp/lib_moment/scenarios/locality/locality_context.cpp: PM_to_global_index, global_index_to_PM"]}
{"id": "C16", "title": "Dictionary of a hierarchy level lists every canonical word once", "statement": "The generated dictionary of level L lists exactly the canonical words of length at most L, each exactly once, starting with the identity, in shortlex order; level k is a prefix of level k+1; the conjugate dictionary is the element-wise conjugate.", "quantifier": "all contexts with a decidable canonical test, all levels", "why_tests_cant": "Enumeration is by an odometer over radix^L words; completeness at every level cannot be tested.", "anchors": ["cpp/lib_moment/dictionary/operator_sequence_generator.cpp: build_generic_sequences, conjugate", "cpp/lib_moment/dictionary/multi_operator_iterator.h"]}
{"id": "C17", "title": "The fast locality dictionary lists every canonical word once", "statement": "The specialised dictionary for locality scenarios lists exactly the canonical words of length at most L, each exactly once, identity first, in a fixed order determined by the scenario (length, then how the length is shared among the parties, then alphabetical); level k is a prefix of level k+1; every product of at most L operators is zero or, up to phase, in the list.", "quantifier": "all scenarios and levels", "why_tests_cant": "Built by tensoring per-party lists over multipartitions of the length; must match the definition for all shapes.", "anchors": ["cpp/lib_moment/scenarios/locality/locality_osg.cpp: PartyOSG, LocalityOperatorSequenceGenerator", "cpp/lib_moment/utilities/multi_partition.h"]}
{"id": "C18", "title": "Pauli dictionaries", "statement": "The Pauli dictionary for word length L on n qubits lists each canonical Pauli word with at most min(L,n) non-identity sites exactly once; the nearest-neighbour dictionaries list exactly the words supported on the described neighbouring sites, with no repetition.", "quantifier": "all n, all L, all neighbour ranges, wrapped or not, chains and lattices", "why_tests_cant": "Combinatorial generation; duplicates only arise at boundary sizes.", "anchors": ["cpp/lib_moment/scenarios/pauli/pauli_osg.cpp: compute_all_sequences, compute_nearest_neighbour_sequences, chain_nn_sequences, lattice_neighbour_triplets"]}
{"id": "C19", "title": "Multi-threaded matrix generation equals single-threaded, for every schedule", "statement": "Generating an operator matrix with any number of worker threads and any interleaving of their writes yields exactly the matrix produced by the single-threaded code; no two workers write the same cell and every cell is written.", "quantifier": "all dimensions, worker counts and interleavings", "why_tests_cant": "Schedules cannot be enumerated by tests.", "anchors": ["cpp/lib_moment/matrix/operator_matrix/operator_matrix_factory_multithreaded.h: generate_operator_sequence_matrix_hermitian, generate_operator_sequence_matrix_generic", "cpp/lib_moment/matrix/operator_matrix/operator_matrix_factory_singlethreaded.h: make_operator_matrix"]}
{"id": "C20", "title": "The worker protocol of multi-threaded generation always finishes", "statement": "Whatever the interleaving, and whether or not some element computation throws, the call returns (normally or by exception): no worker is left waiting for ever while the owner joins it.", "quantifier": "all schedules and all exception patterns of the workers", "why_tests_cant": "Deadlocks depend on schedule and on rare exceptions.", "anchors": ["cpp/lib_moment/matrix/operator_matrix/operator_matrix_factory_multithreaded.h: execute, make_aliased, destructor"]}
{"id": "C21", "title": "Moment matrices are Hermitian and have the right entries", "statement": "Entry (i,j) of the moment matrix is the product of the conjugate of dictionary word i with dictionary word j, the matrix equals its own conjugate transpose whenever conjugation is an anti-automorphism of the product, and the Hermiticity check reports the first failing index exactly when there is one.", "quantifier": "all dictionaries and contexts", "why_tests_cant": "Quantifies over all sizes and contexts.", "anchors": ["cpp/lib_moment/matrix/operator_matrix/moment_matrix.h: MomentMatrixGenerator", "cpp/lib_moment/matrix/operator_matrix/is_hermitian.cpp: NonHInfo::find_first_index"]}
{"id": "C22", "title": "Symbol registration is consistent for ever", "statement": "After any history of registrations: symbols 0 and 1 are zero and identity; every registered word and its conjugate look up to the symbol they were registered as (with the right conjugation flag); identifiers are consecutive, never change meaning and two different registered words that are not conjugates never share an identifier; registering again returns the same identifier.", "quantifier": "all finite histories of registration calls", "why_tests_cant": "History property; identifiers are cached in MATLAB objects across the whole session.", "anchors": ["cpp/lib_moment/symbolic/symbol_table.cpp: SymbolTable ctor, merge_in, where, to_symbol, hash_to_index, create"]}
{"id": "C23", "title": "Real/imaginary basis numbering is a bijection", "statement": "After any history of registrations, creations and Hermiticity updates, the real (imaginary) basis indices enumerate without gaps or repetition exactly the symbols with a real (imaginary) part, and the index tables and per-symbol indices agree in both directions.", "quantifier": "all finite histories of table operations", "why_tests_cant": "History property; SDP export uses these indices as column numbers.", "anchors": ["cpp/lib_moment/symbolic/symbol_table.cpp: renumerate_bases, push_back, merge_in", "cpp/lib_moment/symbolic/symbol_table.h: BasisView"]}
{"id": "C24", "title": "Hermiticity flags of symbols are right", "statement": "A symbol is flagged Hermitian (anti-Hermitian) exactly when its word equals its own conjugate (minus its own conjugate), whichever way the symbol entered the table (single registration or bulk fill to a word length).", "quantifier": "all words, all contexts, all registration routes", "why_tests_cant": "Different code paths construct symbols; only anti-self-conjugate words expose a discrepancy.", "anchors": ["cpp/lib_moment/symbolic/symbol.cpp: Symbol::Symbol", "cpp/lib_moment/symbolic/symbol_table.cpp: fill_to_word_length, merge_in"]}
{"id": "C25", "title": "Building a polynomial preserves its value and is canonical", "statement": "Constructing a polynomial from an arbitrary list of (symbol, coefficient, conjugated) terms yields a sorted list without duplicate terms or zero coefficients whose value under every assignment of complex numbers to symbols (respecting Hermiticity) equals the sum of the input terms; two polynomials built this way with the same value under every assignment are identical.", "quantifier": "all term lists, all assignments; exact coefficients", "why_tests_cant": "Value preservation must hold for all term lists and assignments.", "anchors": ["cpp/lib_moment/symbolic/polynomial.h: Polynomial ctor, append", "cpp/lib_moment/symbolic/polynomial.cpp: remove_duplicates, remove_zeros, fix_cc_in_place"]}
{"id": "C26", "title": "Polynomial addition and scaling are exact and stay canonical", "statement": "Adding polynomials (merge-append, factory sum of monomials/polynomials) and scaling produce canonical polynomials whose value is the sum / multiple.", "quantifier": "all canonical polynomials, all assignments", "why_tests_cant": "Merging of sorted lists with cancellation; unbounded.", "anchors": ["cpp/lib_moment/symbolic/polynomial.h: append", "cpp/lib_moment/symbolic/polynomial_factory.cpp: sum", "cpp/lib_moment/symbolic/polynomial.cpp: operator*= (scale)"]}
{"id": "C27", "title": "Polynomial conjugation and Hermiticity tests", "statement": "Conjugating a polynomial conjugates its value under every assignment; is_hermitian / is_antihermitian answer true exactly when the value is always real / imaginary; is_conjugate(p,q) answers true exactly when q is the conjugate of p.", "quantifier": "all canonical polynomials over all symbol tables", "why_tests_cant": "Universally quantified over assignments; wrong answers for generic symbols are not visible in Hermitian examples.", "anchors": ["cpp/lib_moment/symbolic/polynomial.cpp: conjugate_in_place, is_hermitian, is_antihermitian, is_conjugate"]}
{"id": "C28", "title": "Real and imaginary parts of a polynomial", "statement": "Real(p) and Imaginary(p) are polynomials whose values are the real and imaginary part of the value of p under every assignment.", "quantifier": "all canonical polynomials, all assignments", "why_tests_cant": "Universally quantified over assignments.", "anchors": ["cpp/lib_moment/symbolic/polynomial.cpp: Real, Imaginary"]}
{"id": "C29", "title": "Exporting a polynomial to basis vectors is faithful", "statement": "The real/imaginary (and complex) coefficient vectors exported for a polynomial reproduce its value: the real part is the dot product of the first vector pair with the real and imaginary parts of the symbols, and the imaginary part that of the second pair; converting back gives the same polynomial.", "quantifier": "all canonical polynomials, all assignments, all symbol tables", "why_tests_cant": "Each coefficient slot must be right for every complex coefficient; tests use real coefficients.", "anchors": ["cpp/lib_moment/symbolic/polynomial_to_basis.cpp: do_polynomial_to_basis_vec, PolynomialToComplexBasisVec, do_basis_vec_to_polynomial", "cpp/lib_moment/symbolic/polynomial_to_basis_mask.cpp: set_bits"]}
{"id": "C30", "title": "Moment rulebooks encode exactly the given equations", "statement": "After completing a moment rulebook from a list of polynomials, an assignment of values to symbols satisfies all rules iff all the given polynomials vanish on it; if completion reports a contradiction then no assignment satisfies the polynomials.", "quantifier": "all lists of polynomials, all assignments respecting Hermiticity", "why_tests_cant": "Gaussian-elimination-like process over the complex numbers with conjugates; unbounded lists.", "anchors": ["cpp/lib_moment/symbolic/rules/moment_rule.cpp: MomentRule, set_up_rule, reorient_polynomial, resolve_nonorientable_rule, split_regular_rule, merge_partial", "cpp/lib_moment/symbolic/rules/moment_rulebook.cpp: complete"]}
{"id": "C31", "title": "Applying a moment rulebook", "statement": "Reducing a polynomial with a rulebook preserves its value under every assignment satisfying the rules, and with a completed rulebook the result mentions no fully determined symbol; reducing twice equals reducing once.", "quantifier": "all rulebooks, polynomials and assignments", "why_tests_cant": "One-pass substitution is only sufficient if the rulebook is fully inter-reduced, for all inputs.", "anchors": ["cpp/lib_moment/symbolic/rules/moment_rulebook.cpp: reduce_in_place, reduce_monomial, complete", "cpp/lib_moment/symbolic/rules/moment_rule.cpp: reduce, reduce_with_hint"]}
{"id": "C32", "title": "Packed qubit words: round trip and rotation", "statement": "Packing a Pauli word into 2-bit-per-qubit slides and unpacking gives the word back, packing is injective, and the packed cyclic shift by any number of sites equals rotating the sites, for every number of qubits and slides; on lattices the row/column shifts equal the two-dimensional translation.", "quantifier": "all qubit counts, lattice shapes, words and shifts", "why_tests_cant": "Bit-level carry between 64-bit words depends on size modulo 32; unbounded sizes.", "anchors": ["cpp/lib_moment/scenarios/pauli/symmetry/site_hasher.h: SiteHasherSized::hash, unhash, cyclic_shift, row_cyclic_shift, lattice_shift"]}
{"id": "C33", "title": "Translation-canonical representatives", "statement": "With wrapping (periodic) symmetry, the chosen representative of a Pauli word is the same for all translates of the word, is itself a translate of the word, and is idempotent; is_canonical is true exactly for representatives.", "quantifier": "all words, all translations, all sizes", "why_tests_cant": "Orbit property; all words times all translations.", "anchors": ["cpp/lib_moment/scenarios/pauli/symmetry/site_hasher.h: SiteHasher::canonical_hash, do_canonical_hash", "cpp/lib_moment/scenarios/pauli/symmetry/moment_simplifier_wrapping.h: canonical_sequence, is_canonical, chain_offset, lattice_offset"]}
{"id": "C34", "title": "Wrapless translation-canonical representatives", "statement": "Without wrapping, the representative of a word is the unique translate touching the first site(s) (first column and first row for lattices), it is the same for any two translates, and is_canonical is true exactly for representatives.", "quantifier": "all words, all translations, chains and lattices of all sizes", "why_tests_cant": "Orbit property over all words.", "anchors": ["cpp/lib_moment/scenarios/pauli/symmetry/moment_simplifier_no_wrapping.cpp: canonical_sequence, is_canonical, lattice_minimum, lattice_supremum"]}
{"id": "C35", "title": "Dynamic bitset behaves as a finite set", "statement": "Every sequence of bitset operations (set, unset, clear, union, intersection, complement, subset extraction, count, emptiness, iteration) behaves as the corresponding operation on a finite set of integers below its size, for every size including multiples of the page size.", "quantifier": "all sizes, all operation sequences", "why_tests_cant": "Page-boundary masking; refinement over all histories.", "anchors": ["cpp/lib_moment/utilities/dynamic_bitset.h: DynamicBitset"]}
{"id": "C36", "title": "Index tree behaves as a finite map from index strings", "statement": "Adding, finding, merging and iterating an index tree behaves as a finite map from integer strings to values; iteration visits the stored strings in lexicographic order, each once.", "quantifier": "all operation histories", "why_tests_cant": "Refinement over all histories; recursive merge.", "anchors": ["cpp/lib_moment/utilities/index_tree.h: IndexTree"]}
{"id": "C37", "title": "Small vector behaves as a list", "statement": "Every history of small-vector operations (push/pop/insert/erase/copy/move/swap/reserve/assign) behaves as the operation on a plain list, across the stack/heap transition.", "quantifier": "all stack capacities, all operation histories", "why_tests_cant": "Memory layout changes at the transition; histories unbounded.", "anchors": ["cpp/lib_moment/utilities/small_vector.h: SmallVector"]}
{"id": "C38", "title": "Persistent object keys stay valid and never alias", "statement": "A key returned by storing an object yields that object until it is released, keys with a foreign signature are rejected as such, and a key of a released object never yields another object.", "quantifier": "all histories of store/release/get/clear", "why_tests_cant": "History property including counter wrap and reset.", "anchors": ["cpp/lib_moment/utilities/persistent_storage.h: PersistentStorage"]}
{"id": "C39", "title": "UTF-16/UTF-8 conversion round-trips", "statement": "Converting any well-formed UTF-16 text to UTF-8 gives the standard UTF-8 encoding with exactly the predicted length, and converting back gives the original text.", "quantifier": "all sequences of Unicode scalar values", "why_tests_cant": "1.1 million code points in all sequences; boundary code points matter.", "anchors": ["cpp/lib_moment/utilities/utf_conversion.cpp: UTF16toUTF8Convertor, UTF8toUTF16Convertor"]}
{"id": "C40", "title": "Combination, partition and permutation iterators enumerate exactly", "statement": "The K-of-N combination iterators, the partition iterator, the multipartition iterator, the ordered-permutation iterator and the triangular index iterator enumerate exactly the objects they describe, each once, in the documented order, and the announced counts are right.", "quantifier": "all N, K and size lists", "why_tests_cant": "Enumeration completeness for all sizes.", "anchors": ["cpp/lib_moment/utilities/combinations.h", "cpp/lib_moment/utilities/multi_partition.h", "cpp/lib_moment/utilities/ordered_permutation.h", "cpp/lib_moment/utilities/triangular_index_iterator.h"]}
{"id": "C41", "title": "Multi-dimensional indices and flat offsets correspond", "statement": "For every tensor shape, index-to-offset and offset-to-index conversions are mutually inverse on the valid ranges (row- and column-major), and the index iterator visits all indices in offset order.", "quantifier": "all shapes, all indices", "why_tests_cant": "Stride arithmetic for all shapes.", "anchors": ["cpp/lib_moment/tensor/tensor.h", "cpp/lib_moment/tensor/multi_dimensional_index_iterator.h", "cpp/lib_moment/tensor/index_flattener.cpp"]}
{"id": "C42", "title": "Small numeric utilities", "statement": "Integer power equals repeated multiplication; the least-rotation index identifies the lexicographically least rotation; merging sorted maps keeps all keys with left priority; first common index is found exactly when two sorted ranges intersect; data viewed in chunks is split exactly at the given starting points; Kronecker powers by squaring are the powers.", "quantifier": "all inputs", "why_tests_cant": "Loops over unbounded inputs.", "anchors": ["cpp/lib_moment/utilities/ipow.h", "cpp/lib_moment/utilities/shift_sorter.h", "cpp/lib_moment/utilities/linear_map_merge.h", "cpp/lib_moment/utilities/first_intersection_index.h", "cpp/lib_moment/utilities/variable_chunk_range.h", "cpp/lib_moment/utilities/kronecker_power.cpp"]}
{"id": "C43", "title": "Raw polynomials of operator words multiply and collect correctly", "statement": "The product of two raw polynomials is the sum of all products of terms, and condensing collects equal words without changing the denoted operator.", "quantifier": "all raw polynomials; exact coefficients", "why_tests_cant": "Quantifies over all term lists.", "anchors": ["cpp/lib_moment/dictionary/raw_polynomial.h, raw_polynomial.cpp: distributed_product, condense, operator+="]}
{"id": "C44", "title": "A dictionary level requested again is the same list", "statement": "Asking a scenario's dictionary for a level gives the list for that level, whatever levels were requested before and from whatever threads the requests come.", "quantifier": "all histories of requests, all interleavings of concurrent requests", "why_tests_cant": "Interleavings of a read-lock/create/write-lock protocol; the race window cannot be hit reliably by tests.", "anchors": ["cpp/lib_moment/dictionary/dictionary.cpp: Dictionary::Level, Dictionary::Dictionary"]}
{"id": "C45", "title": "Symbols of a monomial matrix found in parallel are exactly its symbols", "statement": "Turning an operator matrix into a matrix of symbols registers a symbol for every entry of the matrix, and each symbolic entry, multiplied by its factor and conjugated if marked so, has the value of the operator entry; the parallel version does the same for every number of threads and every interleaving, and always finishes.", "quantifier": "all matrices, all thread counts, all schedules", "why_tests_cant": "Tree-shaped merge between workers; interleavings and thread counts cannot be enumerated by tests.", "anchors": ["cpp/lib_moment/matrix/monomial_matrix_factory.cpp: identify_unique_symbols, MonomialMatrixFactoryMultithreaded, MonomialMatrixFactoryWorker"]}
{"id": "C46", "title": "Comparison of polynomials is a lawful ordering", "statement": "The orderings of polynomials handed to sorted containers and sorting algorithms are strict weak orderings; polynomials that compare as equivalent have the same terms (and the same coefficients when these are compared too).", "quantifier": "all polynomials, all orderings of terms", "why_tests_cant": "Transitivity of an ordering (and of its ties) over all triples; violations are undefined behaviour in sorted containers.", "anchors": ["cpp/lib_moment/symbolic/polynomial_ordering.h: PolynomialOrderingBase, CompareMonomialWithCoefficients"]}
{"id": "C47", "title": "Views of a square matrix visit the right cells", "statement": "The four triangular views (upper or lower, with or without the diagonal) visit exactly the cells of their triangle, column by column, each with its row, column, offset and element; the transposed view lists the transposed matrix; padding keeps the matrix as leading block and fills the rest.", "quantifier": "all dimensions including 0 and 1, all element types", "why_tests_cant": "The iterators skip by computed offsets and detect the end by an offset; correct for all dimensions or not at all.", "anchors": ["cpp/lib_moment/tensor/square_matrix.h: TransposeIterator, TriangularIterator, pad"]}
{"id": "C48", "title": "Whether a tensor stores its elements cannot be observed", "statement": "A tensor that computes its elements on demand and one that stores them give the same answers: reads by index and by offset, traversal of the whole tensor and of any sub-range, with the same indices, offsets and elements, and the same rejections.", "quantifier": "all shapes, all indices, offsets and sub-ranges, all storage thresholds", "why_tests_cant": "Small tensors are stored and large ones are not, so tests of one mode say nothing of the other.", "anchors": ["cpp/lib_moment/tensor/auto_storage_tensor.h: ElementView, Iterator, FullIterator, Splice, TensorRange"]}
{"id": "C49", "title": "Probability tensor entries are the probabilities", "statement": "Every element of the probability tensor - any joint outcome of any measurements of any set of parties, including outcomes without an operator of their own - is a combination of Collins-Gisin entries whose value is the probability of that outcome, for every normalised no-signalling behaviour; its symbolic form has the same value; and the rules that fix (conditional) probabilities to given numbers vanish exactly when the probabilities have these values.", "quantifier": "all scenarios (numbers of parties, measurements, outcomes), all joint outcomes, all behaviours, all tables of symbols", "why_tests_cant": "Inclusion-exclusion over the parties whose outcome is implicit, for any number of parties and outcomes.", "anchors": ["cpp/lib_moment/probability/probability_tensor.cpp: ProbabilityTensor, make_element_no_checks, explicit_value_rules", "cpp/lib_moment/probability/collins_gisin.cpp", "cpp/lib_moment/probability/polynomial_tensor.cpp"]}
{"id": "C50", "title": "Full correlator entries are the correlators", "statement": "In a scenario with binary measurements every element of the full correlator tensor is the expectation of the product of the chosen +1/-1 observables, as a combination of Collins-Gisin entries and as a symbolic polynomial; the symbolic form is available whenever the symbols are known.", "quantifier": "all binary scenarios, all choices of measurements, all behaviours", "why_tests_cant": "Separate code paths for zero, one, two and more parties, each an expansion over all subsets of the parties.", "anchors": ["cpp/lib_moment/probability/full_correlator.cpp: FullCorrelator, make_element_no_checks"]}
{"id": "C51", "title": "Converting a functional between correlators and probabilities preserves its value", "statement": "Converting the coefficients of a linear functional from full-correlator form to Collins-Gisin form, or back, does not change its value on any behaviour, and the two conversions undo each other; wrong shapes are refused.", "quantifier": "all numbers of measurements, all coefficients, all behaviours of two parties", "why_tests_cant": "Coefficients spread over rows and columns of any size.", "anchors": ["cpp/lib_moment/scenarios/locality/tensor_conversion.cpp, tensor_conversion.h: TensorConvertor"]}
{"id": "C52", "title": "Operators of an inflated network are numbered one-to-one with their meaning", "statement": "A causal network is accepted exactly if its sources only name existing observables. Inflated to any level, its operators are numbered in order of observable, copy and outcome, one number for every observable, choice of source copies and outcome (the last outcome being implied); the lookup functions between numbers, copies, source copies and joint outcomes are mutually inverse, and two copies are reported independent exactly if they have no hidden cause in common.", "quantifier": "all networks, inflation levels, operators and joint outcomes", "why_tests_cant": "Networks of any shape; offsets accumulate over all observables and copies.", "anchors": ["cpp/lib_moment/scenarios/inflation/causal_network.cpp, observable.cpp: CausalNetwork, Observable", "cpp/lib_moment/scenarios/inflation/inflation_context.cpp: InflationContext, operator_number, obs_variant_to_index, flatten_outcome_index, unflatten_outcome_index"]}
{"id": "C53", "title": "Words of an inflation scenario are simplified soundly and completely", "statement": "Simplifying a product of operators keeps its value in every classical explanation of the network, and two products are simplified to the same word exactly if they have the same value in all explanations; products multiply values, conjugation keeps them, and canonical words are recognized exactly.", "quantifier": "all networks, levels, words, explanations and values of the hidden variables", "why_tests_cant": "Equality in all explanations quantifies over infinitely many models.", "anchors": ["cpp/lib_moment/scenarios/inflation/inflation_context.cpp: additional_simplification, get_if_canonical"]}
{"id": "C54", "title": "Moments are identified only if relabelling the source copies makes them equal", "statement": "The canonical moment of a word is always found, whatever earlier calls left in the thread's scratch storage. It is the word up to a relabelling of the copies of the sources, so that its expectation value is the same in every explanation; it is its own canonical moment, and the test whether a word can be simplified as a moment is exact. Words that differ by a relabelling have the same canonical moment if no observable occurs twice in them (in general they need not).", "quantifier": "all networks, levels, words, explanations and scratch contents", "why_tests_cant": "The loop must terminate for all words; the relabelling depends on the whole word.", "anchors": ["cpp/lib_moment/scenarios/inflation/inflation_context.cpp: simplify_as_moment, can_be_simplified_as_moment, find_permutation, apply_permutation"]}
{"id": "C55", "title": "Factorizing a moment splits it into independent parts", "statement": "The factors of a word are its connected parts: together they are the word, no two of them have a hidden cause in common, and each is connected through common causes. In every explanation the expectation value of the word is the product of those of its factors.", "quantifier": "all networks, levels, words and explanations", "why_tests_cant": "Independence is about all probability distributions of the sources.", "anchors": ["cpp/lib_moment/scenarios/inflation/inflation_context.cpp: factorize"]}
{"id": "C56", "title": "Dictionaries of inflation scenarios list every word once", "statement": "The dictionary of a level lists, in shortlex order and once each, exactly the simplified words up to that length, both for networks with only measurements and for networks with other observables; every product of that many operators is zero or listed.", "quantifier": "all networks, inflation levels and word lengths", "why_tests_cant": "Words of any length over any number of operators.", "anchors": ["cpp/lib_moment/scenarios/inflation/inflation_osg.cpp: InflationOperatorSequenceGenerator"]}
{"id": "C57", "title": "The factor table of an inflation scenario is sound", "statement": "Every symbol of an inflation scenario has an entry in the factor table; in every classical explanation of the scenario its expectation value is the product of the expectation values of its factors, and factors do not factor further. Registering new words or new products keeps this, keeps every old entry, and gives a product a new symbol only if no symbol has the same factors.", "quantifier": "all networks, inflation levels, histories of registered words and products, and explanations", "why_tests_cant": "Holds for every history of the table and every model of the scenario.", "anchors": ["cpp/lib_moment/scenarios/inflation/factor_table.cpp: FactorTable::FactorTable, on_new_symbols_added, register_new, combine_and_register_factors"]}
{"id": "C58", "title": "Multiplying symbols and polynomials of symbols gives their product or an error", "statement": "Multiplying symbols (two or a list) or polynomials over symbols in an inflation scenario returns a symbol or canonical polynomial whose value is the product of the values of the operands, or throws; it throws only if some product of symbols has no symbol.", "quantifier": "all sound tables, symbols, lists of symbols and canonical polynomials", "why_tests_cant": "All tables and all values of the symbols.", "anchors": ["cpp/lib_moment/scenarios/inflation/factor_table.cpp: try_multiply, combine_symbolic_factors"]}
{"id": "C59", "title": "Expanding moment rules to products adds exactly their consequences", "statement": "Extending a rulebook to the products in an inflation scenario keeps the set of solutions in which products are products; afterwards every product with a factor to which a rule applies has the value that the rules give it; an error is reported only if a product has no symbol, leaving the rules unchanged, or if the rules contradict the table.", "quantifier": "all sound tables, rulebooks built by any session, and numbers of entries already expanded", "why_tests_cant": "Holds for all rulebooks and all solutions.", "anchors": ["cpp/lib_moment/scenarios/inflation/inflation_matrix_system.cpp: expand_rulebook", "cpp/lib_moment/symbolic/rules/moment_rulebook.cpp: enable_expansion, disable_expansion"]}
{"id": "C60", "title": "An extended moment matrix holds the original matrix and the products with the extension scalars", "statement": "Extending a moment matrix of an inflation scenario by a list of symbols gives the matrix whose first block is the original, whose new rows and columns are products of its generators with the symbols, and whose corner holds products of the symbols; products get existing symbols where there is one, and unknown symbols are refused.", "quantifier": "all networks, levels, sound tables, moment matrices, lists of symbols and allocation policies", "why_tests_cant": "All tables and lists; undefined behaviour depends on when the table is reallocated.", "anchors": ["cpp/lib_moment/scenarios/inflation/extended_matrix.cpp: make_extended_matrix_single_thread"]}
{"id": "C61", "title": "Extending a moment matrix with several threads gives the same matrix for every schedule", "statement": "With several threads, for every number of threads and every interleaving, the extended matrix is complete and holds the original matrix and the products, every new product has exactly one symbol, and all threads finish.", "quantifier": "all sound tables, matrices, lists of symbols, numbers of threads and schedules", "why_tests_cant": "A data-dependent failure shows only under some schedules.", "anchors": ["cpp/lib_moment/scenarios/inflation/multithreading/extended_matrix_worker.cpp: ExtendedMatrixWorker", "cpp/lib_moment/scenarios/inflation/multithreading/temporary_symbols_and_factors.cpp: TemporarySymbolsAndFactors", "cpp/lib_moment/scenarios/inflation/extended_matrix.cpp: make_extended_matrix"]}
{"id": "C62", "title": "A symmetry group is generated completely and without repetition", "statement": "Group generation from a list of generators (invertible matrices of one size, fundamental representation) returns exactly the elements of the group they generate, each once, starting with the identity, whenever that group is finite and the orbits fit the given bound; it never returns a set that is not closed.", "quantifier": "every group law, every finite list of generators", "why_tests_cant": "tests generate a few small permutation groups; completeness and absence of repetitions concern every group and every order of generators", "anchors": ["cpp/lib_moment/scenarios/symmetrized/group.cpp: Group::dimino_generation"]}
{"id": "C63", "title": "Representations on longer words follow from the fundamental one", "statement": "Asking a group for the representation on words up to any length gives, for each element, the matrix of the action of that element on those words, in whatever order lengths are asked, provided the fundamental representation gives its action on words of length one and products of words are words without a sign.", "quantifier": "every algebra, operator sequence generator, group representation, and every sequence of requested lengths", "why_tests_cant": "tests check a few lengths of a few groups", "anchors": ["cpp/lib_moment/scenarios/symmetrized/group.cpp: Group::create_representation, identify_and_build_representations, decompose_build_list", "cpp/lib_moment/scenarios/symmetrized/representation_mapper.cpp: RepresentationMapper"]}
{"id": "C64", "title": "Representations made by several threads are those made by one", "statement": "Generating representations with several threads returns, under every schedule, exactly what one thread would give; it always finishes, and no two threads touch the same data at once.", "quantifier": "all schedules, numbers of threads, group sizes and build lists", "why_tests_cant": "a test sees one schedule", "anchors": ["cpp/lib_moment/scenarios/symmetrized/group_rep_generation_worker.cpp: GroupRepGenerationWorker::execute, GroupRepGenerationBundle::execute", "cpp/lib_moment/scenarios/symmetrized/group.cpp: build_representations_multi_thread"]}
{"id": "C65", "title": "Symmetrized systems keep the values of moments", "statement": "Given a matrix that maps the words of a system to sums of words (for instance the average over a symmetry group), the derived system has new symbols such that every symbol of a word the matrix acts on becomes a polynomial of the new symbols whose value is that of the matrix applied to the word, and every polynomial in such symbols keeps its value on moments that the matrix does not change. Matrices that do not fix the identity, words without symbols and a target that is already in use are refused.", "quantifier": "all matrices, dense or sparse, all symbol tables, all values of the symbols, every processor that writes the core as a product", "why_tests_cant": "tests symmetrize a few small scenarios; that no symbol is lost, mixed up or given a wrong coefficient concerns all matrices and tables", "anchors": ["cpp/lib_moment/scenarios/derived/map_core.cpp: MapCore, DenseMapCore", "cpp/lib_moment/scenarios/derived/lu_map_core_processor.cpp: LUMapCoreProcessor", "cpp/lib_moment/scenarios/derived/symbol_table_map.cpp: SymbolTableMap", "cpp/lib_moment/scenarios/derived/derived_matrix_system.cpp: DerivedMatrixSystem", "cpp/lib_moment/scenarios/symmetrized/symmetrized_matrix_system.cpp: SymmetrizedSTMFactory"]}
{"id": "C66", "title": "Asking for a matrix finds it or creates it exactly once", "statement": "A matrix system that is asked for a moment matrix, localizing matrix, polynomial localizing matrix or substituted matrix answers with the matrix generated for that request: the same one at the same offset every time, different requests at different offsets, whichever of the equivalent requests is used (a Pauli system's request without a neighbour restriction, a polynomial in another form), and whatever else is asked in between. A request that throws can be made again and destroys nothing. With any number of threads the answers are those of some order of the requests, so that racing threads get the same matrix and none is generated twice. Deleting takes away one matrix, adding a rulebook or merging into one changes no other.", "quantifier": "all systems (factories, symbol tables, polynomial orderings), all histories of requests, all numbers of threads and interleavings", "why_tests_cant": "a duplicate or mixed-up offset needs a particular history or interleaving of requests", "anchors": ["cpp/lib_moment/matrix_system/matrix_system.cpp: MatrixSystem, operator(), get, delete_matrix, push_back, register_rulebook, create_and_register_*", "cpp/lib_moment/matrix_system/matrix_indices.h: MappedMatrixIndices, find_or_create, operator()", "cpp/lib_moment/matrix_system/index_storage/*.h", "cpp/lib_moment/scenarios/pauli/pauli_matrix_system.cpp, indices/*: nearest-neighbour indices", "cpp/lib_moment/scenarios/derived/derived_matrix_system.cpp: on_new_*, create_*"]}
{"id": "C67", "title": "The numeric basis of a symbolic matrix rebuilds the matrix", "statement": "Weighting the exported basis matrices of a monomial or polynomial matrix with the real and imaginary parts of the symbols gives back every entry of the matrix, whatever values the symbols take. There is only one such basis, so the dense, sparse and monolithic forms agree, and the basis matrices of a Hermitian matrix are Hermitian. The lists of symbols and of real and imaginary basis elements of a matrix are exactly those that occur. The basis with real matrices is refused exactly when some coefficient is complex.", "quantifier": "all symbol tables, all square matrices of monomials or canonical polynomials, all values of the symbols", "why_tests_cant": "a sign or conjugate that is wrong off the diagonal shows up only for particular kinds of symbols, coefficients and positions", "anchors": ["cpp/lib_moment/matrix/monomial_matrix.cpp: MonomialMatrix, renumerate_bases, identify_symbols_and_basis_indices", "cpp/lib_moment/matrix/polynomial_matrix.cpp: PolynomialMatrix, test_hermicity", "cpp/lib_moment/matrix/monomial_matrix_basis.cpp, polynomial_matrix_basis.cpp, matrix_basis.cpp"]}
{"id": "C68", "title": "Matrix arithmetic acts on the values of the entries", "statement": "Sums and linear combinations of symbolic matrices, and adding a monomial or polynomial, add the values of the entries. Multiplying a matrix by an operator sequence or an operator polynomial, from either side, gives the matrix of the products of the operators; multiplying by symbols multiplies by the operators they stand for. A matrix of numbers has those numbers as entries, and its products with operators are the moments times the numbers. The flags that a matrix is Hermitian or anti-Hermitian are right. Matrices of different sizes are refused.", "quantifier": "all contexts whose conjugation and simplification are lawful, all symbol tables, all matrices, factors, operators and values of the symbols", "why_tests_cant": "the result depends on which symbols exist, are Hermitian, or are stored as the conjugate of another; tests use a few small matrices", "anchors": ["cpp/lib_moment/matrix/symbolic_matrix.cpp", "cpp/lib_moment/matrix/monomial_matrix_arithmetic.cpp", "cpp/lib_moment/matrix/polynomial_matrix_arithmetic.cpp", "cpp/lib_moment/matrix/composite_matrix.cpp", "cpp/lib_moment/matrix/value_matrix.cpp", "cpp/lib_moment/matrix/polynomial_matrix.cpp: synthesize_from_parts", "cpp/lib_moment/utilities/eigen_utils.cpp"]}
{"id": "C69", "title": "Imported matrices mean what was imported", "statement": "Importing a matrix of monomials restricts the possible values of the symbols exactly by what the import says: symbols of a real matrix are real, a matrix imported as Hermitian is Hermitian. It is refused exactly if it is complex and the system is real, if opposite entries are multiples of different symbols, or if a symbol would have to be zero. Matrices imported before keep their meaning, and the basis of a matrix represents it.", "quantifier": "all sessions of imports and requests for bases, all matrices with real coefficients and all values of the symbols", "why_tests_cant": "which symbols are real or imaginary depends on the whole sequence of imports, and each import renumbers the basis elements of all earlier matrices", "anchors": ["cpp/lib_moment/scenarios/imported/imported_matrix_system.cpp", "cpp/lib_moment/scenarios/imported/imported_context.cpp", "cpp/lib_moment/matrix/monomial_matrix.cpp: renumerate_bases", "cpp/lib_moment/symbolic/symbol_table.cpp: merge_in"]}
{"id": "C70", "title": "Threads that ask for tensors get ones they can use", "statement": "Several threads may ask a matrix system for its Collins-Gisin tensor, full correlator or probability tensor while others register symbols. If the Collins-Gisin tensor was made before, or only one thread asks, every thread that is given a tensor can use it: nothing it refers to has been destroyed, and it is complete if the thread was told so. A request made when all symbols are known reports a complete tensor, tensors are made once, nobody waits forever, and each request ends after a bounded number of steps.", "quantifier": "all numbers of threads, all programs of requests and registrations, and all schedules", "why_tests_cant": "the outcome depends on where threads are interrupted between releasing the shared lock and acquiring the exclusive one", "anchors": ["cpp/lib_moment/probability/maintains_tensors.cpp", "cpp/lib_moment/probability/polynomial_tensor.cpp: fill_missing_polynomials", "cpp/lib_moment/probability/collins_gisin.cpp: fill_missing_symbols"]}
{"id": "C71", "title": "Threads that ask for bases get the right ones", "statement": "Several threads may ask for the bases of the same matrix at once. Each gets the basis of the kind it asked for, or the exception that making it throws; each basis is made at most once; what a thread was given a reference to does not change afterwards; nobody waits forever, although making a monolithic basis asks for a cellular one while the lock is held; and each request ends after a bounded number of steps.", "quantifier": "all numbers of threads, all programs of requests for the eight kinds of basis, and all schedules", "why_tests_cant": "the outcome depends on where threads are interrupted between testing the flag, taking the lock and writing the two parts", "anchors": ["cpp/lib_moment/matrix/matrix_basis.h", "cpp/lib_moment/matrix/matrix_basis.cpp"]}
{"id": "C72", "title": "Measurements and outcomes select the right elements", "statement": "In every scenario, asking a tensor for measurements, some of them with a given outcome, gives exactly the elements of the joint reports that answer the request: other parties report nothing, the measurements asked for report each of their outcomes, or the given one. Asking for outcomes gives the element whose value is their probability, and asking the full correlator for measurements gives the element of their correlator. Requests for two measurements of one party, or for a measurement that does not exist, are refused.", "quantifier": "all scenarios (numbers of parties, measurements, outcomes, with or without an operator for the last outcome), inflation scenarios, and all lists of requests", "why_tests_cant": "it depends on the offsets of every measurement in every dimension", "anchors": ["cpp/lib_moment/probability/collins_gisin.cpp", "cpp/lib_moment/scenarios/locality/locality_collins_gisin.cpp", "cpp/lib_moment/scenarios/locality/locality_probability_tensor.cpp", "cpp/lib_moment/scenarios/locality/locality_full_correlator.cpp", "cpp/lib_moment/scenarios/inflation/inflation_collins_gisin.cpp", "cpp/lib_moment/scenarios/inflation/inflation_probability_tensor.cpp"]}
{"id": "C73", "title": "A queue shared by threads gives each element once, in order", "statement": "Whatever several threads do with one queue, elements come out in the order in which they went in, each at most once and to one thread; a request gives nothing only when the queue is empty or was aborted; no thread waits for ever for a mutex; adding an element, or aborting, ends the waiting of the threads that wait.", "quantifier": "all numbers of threads, all sequences of requests by each of them (push, try, wait, abort), all interleavings of their steps, all choices of the thread to be woken, spurious wake-ups", "why_tests_cant": "failures need particular interleavings, which tests do not control", "anchors": ["cpp/lib_moment/multithreading/queue.h", "cpp/mex_functions/logging/to_file_logger.cpp"]}
{"id": "C74", "title": "Transforming a matrix with several threads gives what one thread gives", "statement": "Multiplying every element of an operator matrix by a word, simplifying every element, or substituting rules into every element gives the same matrix with one thread and with several, for every number of threads and every interleaving; no two threads write the same element; the computation ends; and if an element cannot be transformed, the call throws in both cases.", "quantifier": "all dimensions, all functions from elements to elements (that may throw), all numbers of threads, all interleavings", "why_tests_cant": "it depends on the number of threads and their interleaving, and on functions that throw", "anchors": ["cpp/lib_moment/multithreading/matrix_transformation_worker.h", "cpp/lib_moment/matrix/substituted_matrix.cpp", "cpp/lib_moment/matrix/operator_matrix/operator_matrix_transformation.h"]}
{"id": "C75", "title": "Substituting rules into a matrix changes nothing but what the rules say", "statement": "For every rulebook and every matrix, the matrix with the rules substituted can be made, with the same dimension; every element has its old value wherever the rules hold; no symbol that a rule determines is left in it; two of its elements are the same exactly if the equations given to a completed rulebook make the originals equal; a Hermitian matrix stays Hermitian and is marked so; monomial rules keep a matrix of monomials one; and substituting once more alters nothing.", "quantifier": "all number fields, all tables of symbols, all sets of equations added to a rulebook in any order, all matrices of monomials or of polynomials of any dimension", "why_tests_cant": "it ranges over all equations between symbols, all values of the symbols and all matrices", "anchors": ["cpp/lib_moment/matrix/substituted_matrix.cpp", "cpp/lib_moment/symbolic/rules/moment_rulebook.cpp"]}
{"id": "C76", "title": "Commands mean the same with named and with positional arguments", "statement": "A command of the toolkit tells named values, flags and other values apart, keeps the first value of each name, rejects a name without a value, rejects flags that exclude each other, requires all that it needs either by name or in order, and asks for the same matrix, with the same output mode, whichever way its values are given.", "quantifier": "all lists of arguments, all commands that ask for a matrix, all ways to read the contents of arguments", "why_tests_cant": "it concerns all lists of arguments: orders, repetitions and omissions", "anchors": ["cpp/mex_functions/mex_main.cpp", "cpp/mex_functions/utilities/io_parameters.cpp", "cpp/mex_functions/functions/operator_matrix/operator_matrix.cpp", "cpp/mex_functions/functions/operator_matrix/commutator_matrix.cpp", "cpp/mex_functions/functions/operator_matrix/substituted_matrix.cpp", "cpp/mex_functions/functions/operator_matrix/localizing_matrix.cpp"]}
{"id": "C77", "title": "Texts of operators and words tell them apart", "statement": "Letters name parties, measurements and observables one to one and in order. Names of operators are accepted exactly if they are well formed and differ; a name, with or without a star, finds the operator it stands for and nothing else does; the text of an operator finds it again. Two words of the same scenario, with signs, that are printed alike are the same word with the same sign, and no word is printed like a number.", "quantifier": "all numbers of letters, all tables of names, all words and signs, all scenarios of parties, all networks and levels", "why_tests_cant": "texts of different words can coincide for rare combinations of names, outcomes and levels", "anchors": ["cpp/lib_moment/scenarios/algebraic/name_table.cpp", "cpp/lib_moment/utilities/alphabetic_namer.h", "cpp/lib_moment/scenarios/algebraic/algebraic_context.cpp", "cpp/lib_moment/scenarios/pauli/pauli_context.cpp", "cpp/lib_moment/scenarios/locality/locality_operator_formatter.cpp", "cpp/lib_moment/scenarios/locality/locality_context.cpp", "cpp/lib_moment/scenarios/inflation/inflation_context.cpp"]}
{"id": "C78", "title": "Suggested extensions make products of the matrix entries of the extended matrix", "statement": "The extensions suggested for a moment matrix of an inflation scenario are factors of products that occur in the matrix, none twice, at most the limit. Each brings in a product of its own: some row of the matrix times the suggested symbol is a product that occurs in the matrix. Unless there are more factors than the limit, every product in the matrix that one of its factors could bring in, is brought in by a suggested symbol.", "quantifier": "all networks and inflation levels, all tables of factors, all sets of symbols of the matrix, all generators", "why_tests_cant": "it concerns all tables and matrices; the choice of the next symbol to test depends on all choices before", "anchors": ["cpp/lib_moment/scenarios/inflation/extension_suggester.cpp", "cpp/lib_moment/scenarios/inflation/extension_suggester.h", "cpp/lib_moment/scenarios/inflation/factor_table.cpp"]}
{"id": "C79", "title": "Every index finds the matrix stored for it", "statement": "Whatever was stored before: looking up an index gives the matrix first stored for exactly this index (level, neighbours, word with sign, polynomial, source and rulebook, or level and extension), or says that there is none; storing again for the same index changes nothing and returns the first.", "quantifier": "all histories of insertions, all indices of all kinds", "why_tests_cant": "an index finds a wrong matrix only for certain pairs of indices and histories", "anchors": ["cpp/lib_moment/matrix_system/index_storage/vector_index_storage.h", "cpp/lib_moment/matrix_system/index_storage/map_index_storage.h", "cpp/lib_moment/matrix_system/index_storage/polynomial_index_storage.h", "cpp/lib_moment/matrix_system/indices/localizing_matrix_index.h", "cpp/lib_moment/matrix_system/indices/substituted_matrix_index.h", "cpp/lib_moment/scenarios/pauli/indices/monomial_index.h", "cpp/lib_moment/scenarios/pauli/indices/nearest_neighbour_index.h", "cpp/lib_moment/scenarios/inflation/extended_matrix_indices.cpp"]}
{"id": "C80", "title": "Exported rule matrices mean the rules", "statement": "The homogeneous matrix exported from a moment rulebook times the vector of real and imaginary parts of the moments is zero exactly if the moments obey the rules (for a completed rulebook: solve the equations it was given); the rewriting matrix keeps exactly these vectors, and rewriting any vector applies every rule and gives a vector that obeys the rules.", "quantifier": "all symbol tables, equations, histories of rulebooks, assignments of values to symbols and ways to choose the part that is constrained", "why_tests_cant": "the entries depend on the indices, hermiticity and partial rules of all symbols; a single exported matrix shows one case", "anchors": ["cpp/lib_moment/symbolic/rules/moment_rulebook_to_basis.cpp", "cpp/lib_moment/symbolic/rules/moment_rulebook_to_basis.h", "cpp/lib_moment/symbolic/polynomial_to_basis.cpp"]}
{"id": "C81", "title": "Dictionaries of words may be shared by threads", "statement": "Whatever dictionaries (levels, nearest-neighbour restrictions) any threads ask for and in whatever order they run: words and counts read belong to the dictionary asked for, everyone gets the same list, the list stays usable, every request is answered, and no undefined behaviour is met.", "quantifier": "all numbers of threads, programs that ask, open, read and count, schedules, and growth policies of the vector", "why_tests_cant": "needs particular interleavings, or a reference kept over a reallocation", "anchors": ["cpp/lib_moment/scenarios/pauli/pauli_dictionary.cpp", "cpp/lib_moment/dictionary/dictionary.cpp", "cpp/lib_moment/dictionary/osg_pair.h"]}
{"id": "C82", "title": "Symbols may be given and shown as texts", "statement": "A text names a symbol, with a factor or a conjugation, exactly if it follows the stated form, and then it is read as that symbol; other texts are rejected, without undefined behaviour. The text shown for a symbol tells which symbol and factor it is, and it is read back as that symbol.", "quantifier": "all texts, all symbols, all factors whose texts keep their value", "why_tests_cant": "there are unboundedly many texts; the extreme integers and the odd factors are the cases that go wrong", "anchors": ["cpp/lib_moment/symbolic/monomial.cpp", "cpp/lib_moment/symbolic/monomial.h", "cpp/lib_moment/utilities/format_factor.cpp"]}
{"id": "C83", "title": "Trees of objects keep what is stored at each path", "statement": "A tree made by width and depth, or by chunks, has an object for exactly the paths of its shape. Writing at a path changes that object and no other; reading a path gives what was last written there; a visitor sees every object once, with its path.", "quantifier": "all shapes, paths, objects and sequences of writes, with sizes far below 2^63", "why_tests_cant": "paths, shapes and offsets are unbounded, and a reference to a dead copy often still shows the right value", "anchors": ["cpp/lib_moment/utilities/recursive_index.h"]}
{"id": "C84", "title": "Polynomials go to MATLAB and back unchanged", "statement": "A polynomial returned as a cell array and given back as an argument is the same polynomial. Any array given as a polynomial is accepted exactly if each element is a well-formed term (a cell of symbol, factor and conjugation with the last two optional, or a text) whose symbol exists; the result is canonical and equals the sum of the terms. The error for a bad element names its position.", "quantifier": "all polynomials over all symbol tables, all arrays of cells, texts, numbers and logicals", "why_tests_cant": "arrays are unbounded, of many types, and most mistakes in their elements are silent", "anchors": ["cpp/mex_functions/import/read_polynomial.cpp", "cpp/mex_functions/export/export_polynomial.cpp", "cpp/mex_functions/utilities/read_as_scalar.cpp"]}
{"id": "C85", "title": "Operator sequences given from MATLAB become the polynomial they spell", "statement": "A cell array of operator sequences (counted from 1) with optional factors is read as the sum of these sequences: it is accepted exactly if every element is well-formed and every operator exists, otherwise the error names the first bad element (and operator). With symbols looked up or registered - also when the look-up and the registration are separate steps between which the table grows - the resulting polynomial is canonical and has the value of the sum.", "quantifier": "all arrays, contexts, symbol tables, and growth of the table between the steps", "why_tests_cant": "arrays and tables are unbounded, and a lost phase or a wrapped number is silent", "anchors": ["cpp/mex_functions/import/read_opseq_polynomial.cpp", "cpp/mex_functions/utilities/read_as_vector.cpp"]}
{"id": "C86", "title": "Tables of words and terms exported to MATLAB say what the objects mean", "statement": "Each row exported for a word list, a polynomial, a raw polynomial, a list of monomials or an operator matrix carries the operators (counted from 1), a coefficient, a hash and (if asked) the symbol, its conjugation and its basis elements; word times coefficient and symbol times coefficient have the value of the exported word, term or cell. A polynomial is refused exactly if a symbol in it has no word, with an error naming the reason. Rows of the symbol table and of look-ups carry the right numbers and flags.", "quantifier": "all words, polynomials, matrices and reachable symbol tables", "why_tests_cant": "tables grow without bound, and a row that is off by one or has the wrong conjugation is silent", "anchors": ["cpp/mex_functions/export/full_monomial_specification.cpp", "cpp/mex_functions/export/export_polynomial.cpp", "cpp/mex_functions/export/export_symbol_table.cpp"]}
{"id": "C87", "title": "Symmetrising a polynomial averages it over translations", "statement": "Symmetrising a polynomial in a Pauli scenario with translational symmetry replaces each term by all its translates, with the weight divided evenly: over all rotations of a ring or torus, over all moves that keep the polynomial inside an open chain or lattice. The value in every translation-invariant state stays the same; on a ring or torus the result is itself unchanged by every translation. Without symmetry, and for constants, nothing changes.", "quantifier": "all polynomials, sizes of chains and lattices, and invariant states", "why_tests_cant": "a missed or doubled translate only shows for particular sizes and positions", "anchors": ["cpp/lib_moment/scenarios/pauli/symmetry/lattice_duplicator.cpp", "cpp/mex_functions/functions/lattice_symmetrize.cpp"]}
{"id": "C88", "title": "Algebra on arrays acts entry by entry", "statement": "Adding, multiplying and taking (anti)commutators of arrays of polynomials, of symbols, operators or numbers, gives the array whose entry at each place is the sum, product or (anti)commutator of the two entries at that place, in order; a single polynomial counts at every place. The result has the shape of the array. Operands whose shapes do not fit are refused and nothing is computed.", "quantifier": "all arrays of polynomials, shapes, scenarios with a multiplication and representations", "why_tests_cant": "tests use few shapes and commuting entries; a swapped or repeated entry only shows for others", "anchors": ["cpp/mex_functions/functions/algebraic/binary_operation.cpp", "cpp/mex_functions/functions/algebraic/binary_operation_impl.h", "cpp/mex_functions/functions/algebraic/plus.cpp", "cpp/mex_functions/functions/algebraic/multiply.cpp", "cpp/mex_functions/functions/algebraic/commutator.cpp", "cpp/mex_functions/import/algebraic_operand.cpp"]}
{"id": "C89", "title": "Simplifying and conjugating words gives equal words and adjoints", "statement": "Simplifying a word of operators, or an array of words, gives for each word its canonical form with sign and hash, equal to the word in every algebra with the scenario's relations; two words get the same answer exactly if they are equal. Conjugating gives the adjoint. Operators are counted from 1 and may be named; anything that is not an operator is refused.", "quantifier": "all words, arrays of words, and locality, Pauli and algebraic scenarios", "why_tests_cant": "equality in all algebras is not an observation on finitely many words", "anchors": ["cpp/mex_functions/functions/algebraic/simplify.cpp", "cpp/mex_functions/functions/algebraic/conjugate.cpp", "cpp/mex_functions/export/export_operator_sequence.cpp"]}
{"id": "C90", "title": "A rule said to imply another does imply it", "statement": "When a rewrite rule is reported to directly imply another, the second holds in every algebra in which the first holds; every rule that is the first with the same operators put before and after both sides is reported; in particular a rule implies itself. Different rules are printed as different texts.", "quantifier": "all pairs of rules over any alphabet, of any length and sign", "why_tests_cant": "consequence ranges over all algebras; no finite set of rules shows it", "anchors": ["cpp/lib_moment/scenarios/algebraic/operator_rule.cpp", "OperatorRule::implies"]}
{"id": "C91", "title": "Exported rewrite rules say what the rulebook says", "statement": "The rules of a scenario exported to MATLAB are one entry per rule; read as equations, with operators numbered from 1 (or from 0) and 0 (or -1) for zero, they hold in an algebra exactly if the rules do; and no two rulebooks are exported alike.", "quantifier": "all rulebooks whose rules strictly reduce, of any size, sign and word length within exact hashes, and both numberings", "why_tests_cant": "equality in all algebras, and distinctness of all rulebooks, are not settled by examples", "anchors": ["cpp/mex_functions/export/export_operator_rules.cpp", "OperatorRuleExporter"]}
