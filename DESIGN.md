# Formal model of ajpgarner/moment (C++ core) in Rocq/Coq 8.16.1

## 1. Method and layout

* The source in `/repo/cpp` is read as text. Nothing is compiled or run; the tie between the code and the model is the
  line-by-line reading recorded in the comment above every model definition (`file:lines`, and what was simplified).
* Each topic has up to four files in `rocq/theories`:
  * `XModel.v` – the code, as total computable Gallina functions (no proofs);
  * `XSpec.v`  – a small specification that does not use the model's helpers (semantics, e.g. matrices, algebras, sets, maps);
  * `XProofs.v` – lemmas;
  * `XProps.v` – only property theorems (each closed by `exact lemma.` with `Print Assumptions` beneath) and the examples
    showing that hypotheses are met by non-trivial cases.
* Numbers: `nat` for lengths/indices/fuel, `Z`/`N` for data; 64-bit wrap-around written explicitly (`mod 2^64`) wherever the
  property is about it. Exceptions, undefined behaviour and exhausted fuel are distinct outcomes.
* `double`/`std::complex<double>` coefficients are modelled by exact arithmetic (stated at each use); floating-point rounding
  and the `approximately_*` tolerances are outside the model (tolerance = exact comparison).
* A property that is false of the faithful model is recorded as a theorem `..._refuted : exists ..., ...` (the finding),
  together with the strongest true version found.

## 2. Plan per property

| Id | What is modelled | How it will be proved |
|----|------------------|-----------------------|
| C01 | `ShortlexHasher::hash` in uint64 arithmetic, `longest_hashable_string` | bijective base-r numeration: exact value, bound, strict monotonicity; injectivity; advertised bound refuted for power-of-two radices |
| C02 | `SubstringHashRange` iterator | invariant of the incremental hash; enumeration list equality |
| C03 | `SequenceSignType` bit operations on {0..3} | homomorphism into Gaussian units |
| C04 | `OperatorRule` constructor, `matches_anywhere`, `apply_match_with_hint` | list decomposition; hash decrease; exact characterisation of accepted rules (phase-only rules refuted) |
| C05 | reduction loops | soundness in every monoid-with-zero-and-phases satisfying the rules |
| C06 | same, fuel = well-founded shortlex measure | termination measure, irreducibility |
| C07 | `do_add_rule`, `reduce_ruleset`, `complete` | two-way entailment between rule sets |
| C08 | `is_complete` | Newman's lemma from critical pairs; refuted for self-overlaps; correct version with all overlaps |
| C09 | conjugation per context | list reversal lemmas; refuted where the phase is dropped |
| C10-C12 | Pauli context | denotation into functions on bit strings / 2x2 matrices over Gaussian integers |
| C13-C15 | Locality context, parties | algebra semantics; trace-monoid normal forms; offset arithmetic |
| C16-C18 | dictionaries; the Pauli ones (POsg*) with their fills of all translates | enumeration lemmas; windows and shapes as lists of qubit sets, counted once by distinct supports; translates through the packed-word lemmas of C32/C33 |
| C19-C20 | worker writes as interleavings; protocol as transition system | disjoint-writes lemma; deadlock-freedom / deadlock witness |
| C21 | moment matrix, Hermiticity scan | algebraic |
| C22-C24 | `SymbolTable`, `Symbol`, `DictionaryMap` as a state machine over a context given by its laws (`lawful`), which are proved for the locality, Pauli and algebraic contexts; meaning by expectation functionals over any real field | invariants over all histories, exceptions included |
| C25-C29 | `Polynomial` | semantics in the Gaussian rationals under all assignments |
| C30-C31 | moment rules and rulebook, every history of operations | equivalence of equation systems; solved form is invariant; uniqueness of solved forms |
| C32-C34 | `SiteHasher`, simplifiers | bit-level lemmas; orbit canonicalisation |
| C35-C38 | bitset, index tree, small vector, persistent storage | refinement to set/map/list/state machine |
| C39 | UTF conversion | per-scalar round trip lifted to sequences |
| C40-C42 | iterators and small utilities | exact enumeration |
| C43 | raw polynomials | semantics |
| C45 | monomial matrix factory | transition system, tree merge invariant |
| C47 | `SquareMatrix` views | exact enumeration |
| C48 | `AutoStorageTensor` | both storage modes equal one function of the index |
| C49 | `ProbabilityTensor`, value rules | inclusion-exclusion by induction over the parties, for any consistent behaviour |
| C50 | `FullCorrelator` | expansion over subsets equals the +1/-1 expectation |
| C51 | `TensorConvertor` | linear functionals keep their value; round trip |
| C52 | inflation networks: `CausalNetwork`, `InflationContext` numbering | labels (observable, source copies, outcome) against operator numbers; inverses |
| C53 | `InflationContext` simplification | values in all classical explanations; completeness by explanations that tell words apart |
| C54 | `InflationContext` moments | loop invariant (first-seen naming), lexicographic descent; expectation invariant under relabelling |
| C55 | `InflationContext::factorize` | connected components; product of independent averages |
| C56 | `InflationOperatorSequenceGenerator` | listing of combinations (C40) filtered to simplified words |
| C57 | `FactorTable` | invariant on table and index tree; meaning by well-founded products in every explanation |
| C58 | `FactorTable::try_multiply` | values under all multiplicative assignments |
| C59 | `InflationMatrixSystem::expand_rulebook` | rulebook sessions (C30) with the products added as equations |
| C60 | extended moment matrices, one thread | loop invariants; capacity of the table decides whether the kept reference dangles |
| C61 | extended moment matrices, several threads | transition system with separate lookup and registration steps; invariant over all schedules |
| C62 | `Group::dimino_generation` over an abstract group | loop invariants (closed cosets); Lagrange style cosets argument; refuted bound |
| C63 | build list, mappers and representations | an abstract algebra; matrices as actions on words; induction over the build list |
| C64 | group representation workers | transition system with worker and main thread counters; invariant over all schedules; measure |
| C65 | map cores, the LU processor, `SymbolTableMap`, the average of a group | values of symbols in an abstract field; the core says the same as the matrix; sums rearranged; processor by contract |
| C66 | `MatrixSystem`, its indices and their storages, aliases of Pauli and derived systems, rulebook bookkeeping | state = list of matrices + index maps, factories by contract; invariant over histories; linearization of locked operations for threads |
| C67 | `MonomialMatrix`, `PolynomialMatrix` constructors, dense / sparse / monolithic `MatrixBasis` creation | list of deposits into basis matrices; summed against an assignment of the symbols; uniqueness by choosing assignments |
| C68 | `add`, `pre_multiply`, `post_multiply` of symbolic, monomial, polynomial and value matrices, `CompositeMatrix`, `synthesize_from_parts`, Hermiticity tests of numeric matrices | outcome of each operation (result, exception, undefined); entries compared under an assignment of the symbols and an expectation functional |
| C69 | `ImportedMatrixSystem::import_matrix`, `checkIMSymmetric`, `checkIMHermitian`, `renumerate_bases`, the basis kept in a matrix | sessions of imports and requests; the bits as constraints on values; imports compared by the assignments they allow |
| C70 | `MaintainsTensors::Refresh...` by several threads, the shared lock, references between tensors | state machine over all schedules; invariants on where threads are, and a decreasing measure |
| C71 | `MatrixBasis::MatrixBasisImpl::operator()`, the recursive mutex, the flag, nested requests | state machine over all schedules, one step per access; lock invariant and decreasing measure |
| C72 | `measurement_to_range`, `outcome_to_element`, `mmt_to_element` and their tables of measurements | invariant of the loop (one party at a time), then the box between the corners against the set of joint reports |
| C73 | `Queue`: push, try, wait, abort; nodes, two mutexes, condition variable, one step per shared access | invariant: the nodes from head to tail hold what was pushed and not popped, one owner per mutex, fresh nodes are private; kept by every step |
| C74 | `transform_matrix_data` and its workers, one step per element, for any function that may throw; the single-threaded loop | invariant: the element at (column, row) is transformed iff it is before the position of the worker that owns the column (column modulo workers) |
| C75 | `create_substituted_matrix` and the constructors of monomial and polynomial substituted matrices, over the rulebooks of C30 and the matrices of C67; the work of threads is C74 | an element of the result has, for any values of the symbols, the value of the original with the rules applied to the values; such values obey the rules, and applying the rules twice is applying them once |
| C76 | `clean_inputs`, `validate_inputs`, the mutual exclusions, and the parsing of the seven commands that ask for a matrix; reading of arrays abstract | induction on the arguments as a list of named values, flags and values; case analysis per command |
| C77 | letters as names, tables of names, and the printing of words of the algebraic, Pauli, locality and inflation scenarios; texts are lists of characters | induction on digits of base 26, on tables and on words; separators do not occur in pieces, so that texts are read back |
| C78 | ExtensionSuggester over the factor table of C57; bitsets as lists | loop invariant: what is checked off is reached by something chosen, what is not reached by anything tested is still necessary |
| C79 | vector, map, polynomial and tree storages of indices, and the orders of the indices | generic: a map ordered by a strict weak order finds up to its ties; orders of pairs; the tree by C36; the hash by C01 |
| C80 | MomentRulebookToBasis: rows for full rules, partial rules along an axis and along a mixed direction, masks, diagonal, both modes | rows by the export of polynomials (C29) and the shape of completed rules (C30); a partial rule is one real equation |
| C81 | Dictionary::Level, PauliDictionary::NearestNeighbour, WordCount and the references they return, threads | invariant of all interleavings; references as (block, offset); potential for the room and for progress |
| C82 | Monomial's constructor from a text with std::stoi, its text with and without #, format_factor | equivalence with an inductive grammar; positional decimals; unique splitting of texts |
| C83 | RecursiveStorage: subtree, set, access, visit, and the two shapes | induction on paths and trees; 64-bit indices and signed offsets explicit; references in the tree or in a dead copy |
| C84 | reading of polynomials and their scalars from MATLAB arrays, symbol_cell | arrays as an inductive type; reading is shown to agree with a relation between arrays and sums of terms; with C25 and C82 |
| C85 | StagingPolynomial: reading, resolving, looking up and registering, conversion to a polynomial | arrays of C84 against a relation; each staged term keeps an invariant that later tables preserve (C22, C25), so the sum has the right value |
| C86 | the rows that the exporters of words, polynomials, matrices and symbols write | each row against the word or term it is for; values through C22 and C43, basis columns through C23 |
| C87 | symmetrical_copy for rings, tori, open chains and open lattices | blocks of translates against the relations of C32; sums by induction; a translation permutes the residues, so the result |
| C88 | operand kinds, product types, reading of entries and the four ways to combine them, for plus, multiply and commutators | the result of each loop read place by place; values from the sums and products of C43 |
| C89 | the commands simplify and conjugate, from MATLAB numbers to operators, sign and hash | the commands are maps over words; values from C13, C14, C09, C10, C11 |
| C90 | OperatorRule::implies on words (only the library's tests call it) | first matches characterised as lists; consequence in the algebras of AlgSpec |
| C91 | the cell array of exported rewrite rules | each entry read as an equation in the algebras of AlgSpec; injectivity rule by rule |
| C46 | polynomial orderings | strict weak ordering; refuted with tolerance |
| C44 | `Dictionary::Level` as a transition system | invariant over all interleavings; race refuted |

## 3. Trusted base

* Coq 8.16.1's kernel (and `coqchk`).
* `Print Assumptions` below every property theorem (expected: "Closed under the global context"; exceptions are listed here).
  `coqchk` additionally reports axioms of the standard library modules that are merely loaded (e.g. `Coq.ssr.ssrunder`,
  pulled in through `lia`'s plugins); no theorem uses them. The non-vacuity example `C30_decides_holds` uses the standard library's
  real numbers (`ClassicalDedekindReals.sig_forall_dec`, `sig_not_dec`, functional extensionality); no property theorem does.
* The reading of the C++ source, i.e. the fidelity of the model files.

<!-- coverage:begin -->
### 3.1 What is modelled

Every definition of a `*Model.v` file cites the functions and lines it models and says what it leaves out. By source file (below `cpp/lib_moment`):

| directory | source file → model file |
|---|---|
| . | hashed_sequence.cpp → Core; hashed_sequence.h → Core, MatInst, Pauli; integer_types.h → Core, Stg, Wop; sequence_sign_type.h → Core, Fac; shortlex_hasher.h → Core |
| dictionary | dictionary.cpp → Cache, Pdc; dictionary_map.cpp → Sym; multi_operator_iterator.h → Enum; operator_sequence.cpp → Alg, Ari, Loc, Pauli, Site; operator_sequence_generator.cpp → Dict; osg_pair.h → Pdc; raw_polynomial.cpp → Cop, Raw; raw_polynomial.h → Raw |
| matrix | composite_matrix.cpp → Ari; composite_matrix.h → Ms; matrix_basis.cpp → Bas, Lazy; matrix_basis.h → Imp, Lazy; monomial_matrix.cpp → Ari, Bas, Imp; monomial_matrix.h → Ari; monomial_matrix_arithmetic.cpp → Ari; monomial_matrix_basis.cpp → Bas; monomial_matrix_factory.cpp → Ari, Fac; polynomial_matrix.cpp → Ari, Bas; polynomial_matrix_arithmetic.cpp → Ari; polynomial_matrix_basis.cpp → Bas; substituted_matrix.cpp → Arg, Subs, Trans; symbolic_matrix.cpp → Ari; symbolic_matrix.h → Bas; value_matrix.cpp → Arg, Ari; value_matrix.h → Ari |
| matrix/operator_matrix | is_hermitian.cpp → MatInst; localizing_matrix.h → MatInst; operator_matrix.cpp → Arg, Ari, Mat; operator_matrix.h → Arg; operator_matrix_factory.h → MatInst, Mat; operator_matrix_factory_multithreaded.h → Mat; operator_matrix_factory_singlethreaded.h → MatInst, Mat; operator_matrix_transformation.h → Trans |
| matrix_system | matrix_indices.h → Idx, Ms; matrix_system.cpp → Ms; rulebook_storage.cpp → Ms; standard_matrix_indices.cpp → Ms; standard_matrix_indices.h → Ms |
| matrix_system/index_storage | map_index_storage.h → Idx, Ms; polynomial_index_storage.h → Idx, Ms; vector_index_storage.h → Idx, Ms |
| matrix_system/indices | localizing_matrix_index.h → Idx; substituted_matrix_index.h → Idx |
| multithreading | matrix_transformation_worker.h → Trans; queue.h → Queue |
| probability | collins_gisin.cpp → Mten, Range; collins_gisin.h → Range; full_correlator.cpp → Prob, Tensor; maintains_tensors.cpp → Mten; polynomial_tensor.cpp → Mten, Prob; polynomial_tensor.h → Mten, Prob; probability_tensor.cpp → Prob, Tensor; probability_tensor.h → Prob |
| scenarios | context.cpp → Alg, Inf, Loc, Pauli, Raw, SymInst |
| scenarios/algebraic | algebraic_context.cpp → Alg, SymInst, Text; algebraic_precontext.cpp → Alg; algebraic_precontext.h → Alg; name_table.cpp → Text; operator_rule.cpp → Alg, Rim; operator_rule.h → Alg; operator_rulebook.cpp → Alg; operator_rulebook.h → Alg |
| scenarios/derived | derived_matrix_indices.h → Ms; derived_matrix_system.cpp → Der, Ms; lu_map_core_processor.cpp → Der; map_core.cpp → Der; map_core.h → Der; symbol_table_map.cpp → Der |
| scenarios/imported | imported_context.cpp → Imp; imported_matrix_system.cpp → Imp |
| scenarios/inflation | causal_network.cpp → Inf; causal_network.h → Inf; extended_matrix.cpp → Arg, ExtMat, FTab; extended_matrix_indices.cpp → Idx; extension_suggester.cpp → Sug; extension_suggester.h → Sug; factor_table.cpp → FTab; factor_table.h → FTab, Sug; inflation_collins_gisin.cpp → Range; inflation_context.cpp → Inf, Text; inflation_context.h → Inf; inflation_matrix_system.cpp → FTab; inflation_osg.cpp → Inf; inflation_probability_tensor.cpp → Range; observable.cpp → Inf; observable.h → Inf |
| scenarios/inflation/multithreading | extended_matrix_worker.cpp → ExtMat; temporary_symbols_and_factors.cpp → ExtMat; temporary_symbols_and_factors.h → ExtMat |
| scenarios/locality | locality_collins_gisin.cpp → Range, Tensor; locality_context.cpp → Loc, Text; locality_full_correlator.cpp → Range; locality_operator_formatter.cpp → Text; locality_osg.cpp → Dict; locality_probability_tensor.cpp → Range; measurement.h → Loc, Range; party.cpp → Loc, Text; tensor_conversion.cpp → Prob; tensor_conversion.h → Prob |
| scenarios/pauli | pauli_context.cpp → POsg, Pauli, Raw, SymInst, Text; pauli_context.h → Cop, POsg, Pauli; pauli_dictionary.cpp → Pdc; pauli_index_collections.h → Ms; pauli_matrix_system.cpp → Ms; pauli_osg.cpp → POsg |
| scenarios/pauli/indices | monomial_index.h → Idx; nearest_neighbour_index.h → Idx, Pdc |
| scenarios/pauli/matrices | monomial_commutator_matrix.h → MatInst; monomial_localizing_matrix.h → MatInst |
| scenarios/pauli/symmetry | lattice_duplicator.cpp → Cop, POsg; moment_simplifier.cpp → Site; moment_simplifier_no_wrapping.cpp → Cop, POsg, Site; moment_simplifier_no_wrapping.h → Site; moment_simplifier_wrapping.h → Site; site_hasher.h → Site |
| scenarios/symmetrized | group.cpp → Grp, Rep; group_rep_generation_worker.cpp → RepPar; representation_mapper.cpp → Rep; symmetrized_matrix_system.cpp → Der |
| symbolic | monomial.cpp → Mon; monomial.h → Mon, Poly; monomial_comparator.h → Poly; monomial_comparator_by_hash.cpp → Poly; polynomial.cpp → Poly; polynomial.h → Der, Poly, Prob, Rule; polynomial_factory.cpp → Poly; polynomial_factory.h → Poly; polynomial_ordering.h → Poly; polynomial_to_basis.cpp → PolyBasis, Rbm; polynomial_to_basis.h → PolyBasis; polynomial_to_basis_mask.cpp → PolyBasis; symbol.cpp → Sym; symbol.h → FTab, Raw, Row, Sym; symbol_table.cpp → FTab, Sym; symbol_table.h → Sym; symbol_tools.cpp → Rule |
| symbolic/rules | moment_rule.cpp → Rule; moment_rule.h → Rule; moment_rulebook.cpp → Rule, Subs; moment_rulebook.h → Rule; moment_rulebook_to_basis.cpp → Rbm; moment_rulebook_to_basis.h → Rbm |
| tensor | auto_storage_tensor.h → Tensor; index_flattener.cpp → Tensor; index_flattener.h → Tensor; multi_dimensional_index_iterator.h → Enum, Tensor; multi_dimensional_offset_index_iterator.h → Tensor; square_matrix.h → ExtMat, Square; tensor.h → Tensor |
| utilities | alphabetic_namer.cpp → Text; combinations.h → Comb; dynamic_bitset.h → Bitset, Imp; eigen_utils.cpp → Ari; first_intersection_index.h → Util; float_utils.h → Poly; format_factor.cpp → Mon; index_tree.h → Tree; ipow.h → Util; kronecker_power.cpp → Util; linear_map_merge.h → Util; multi_partition.h → Enum; ordered_permutation.h → Comb; persistent_storage.h → Lock, Storage; recursive_index.h → Rec; shift_sorter.h → Util; small_vector.h → Rule, Site, SmallVec; substring_hasher.h → Core; triangular_index_iterator.h → Comb; utf_conversion.cpp → Utf; variable_chunk_range.h → Util |

Headers that are modelled through their .cpp file (declarations, accessors): dictionary.h, dictionary_map.h, operator_sequence.h, operator_sequence_generator.h, monomial_matrix_factory.h, is_hermitian.h, polynomial_matrix.h, substituted_matrix.h, matrix_system.h, rulebook_storage.h, full_correlator.h, maintains_tensors.h, algebraic_context.h, name_table.h, context.h, derived_matrix_system.h, lu_map_core_processor.h, symbol_table_map.h, imported_context.h, imported_matrix_system.h, extended_matrix.h, extended_matrix_indices.h, inflation_collins_gisin.h, inflation_matrix_system.h, inflation_osg.h, inflation_probability_tensor.h, extended_matrix_worker.h, locality_collins_gisin.h, locality_context.h, locality_full_correlator.h, locality_operator_formatter.h, locality_osg.h, locality_probability_tensor.h, party.h, pauli_dictionary.h, pauli_matrix_system.h, pauli_osg.h, lattice_duplicator.h, moment_simplifier.h, group.h, group_rep_generation_worker.h, representation_mapper.h, symmetrized_matrix_system.h, monomial_comparator_by_hash.h, polynomial_to_basis_mask.h, symbol_tools.h, alphabetic_namer.h, eigen_utils.h, format_factor.h, kronecker_power.h, utf_conversion.h.

### 3.2 What is not modelled

* Outside `lib_moment`: the MATLAB bindings (`cpp/mex_functions`; but the arguments of commands that ask for a matrix, and the exchange of polynomials, are modelled: C76, C84, C85; and the tables exported: C86; the algebra of arrays and the commands on words: C88, C89; and the rules exported: C91), the MATLAB classes, the tests.
* Numerics: all numbers are exact (elements of a field with a real structure); rounding, tolerances of `approximately_*` tests and the numeric decompositions of Eigen (LU, QR) are not. Parsing and formatting of anything but operators, words and symbols (C77, C82), the digits of floating-point numbers, logging, error messages and sizes of `int` (except where a model says so) are not.
* Memory: allocation failure, lifetime of references handed out by a lock's owner after the lock is released (except for dictionaries, C81); the C++ memory model below the granularity of lock-protected sections and atomic operations (interleavings are sequentially consistent).
* Files of `lib_moment` that no model cites (small helpers among them are covered inside other models; classes that only combine modelled parts are not modelled separately): dictionary/hermitian_type.h, matrix/matrix_basis_type.h, matrix/operator_matrix/moment_matrix.h, matrix/operator_matrix/operator_matrix_impl.h, matrix/polynomial_localizing_matrix.h, matrix_system/indices/localizing_matrix_index.cpp, matrix_system/indices/moment_matrix_index.cpp, matrix_system/indices/moment_matrix_index.h, matrix_system/indices/polynomial_localizing_matrix_index.cpp, matrix_system/indices/polynomial_localizing_matrix_index.h, matrix_system/indices/substituted_matrix_index.cpp, matrix_system/matrix_system_errors.h, multithreading/maintains_mutex.h, multithreading/multithreading.cpp, multithreading/multithreading.h, probability/virtual_polynomial_view.cpp, probability/virtual_polynomial_view.h, scenarios/algebraic/algebraic_matrix_system.cpp, scenarios/algebraic/algebraic_matrix_system.h, scenarios/algebraic/ostream_rule_logger.cpp, scenarios/algebraic/ostream_rule_logger.h, scenarios/contextual_os.h, scenarios/contextual_os_helper.h, scenarios/derived/derived_context.cpp, scenarios/derived/derived_context.h, scenarios/derived/derived_errors.h, scenarios/derived/derived_matrix_indices.cpp, scenarios/inflation/inflation_full_correlator.cpp, scenarios/inflation/inflation_full_correlator.h, scenarios/inflation/observable_variant_index.cpp, scenarios/inflation/observable_variant_index.h, scenarios/inflation/source.cpp, scenarios/inflation/source.h, scenarios/locality/locality_matrix_system.cpp, scenarios/locality/locality_matrix_system.h, scenarios/locality/party_measurement_index.cpp, scenarios/locality/party_measurement_index.h, scenarios/pauli/indices/monomial_index.cpp, scenarios/pauli/indices/nearest_neighbour_index.cpp, scenarios/pauli/indices/polynomial_index.cpp, scenarios/pauli/indices/polynomial_index.h, scenarios/pauli/matrices/moment_matrix.h, scenarios/pauli/matrices/polynomial_matrices.h, scenarios/pauli/pauli_index_collections.cpp, scenarios/symmetrized/representation.cpp, scenarios/symmetrized/representation.h, sequence_sign_type.cpp, symbolic/symbol_errors.cpp, symbolic/symbol_errors.h, symbolic/symbol_lookup_result.h, tensor/auto_storage_tensor.cpp, tensor/tensor_errors.cpp, tensor/tensor_errors.h, utilities/dynamic_bitset_fwd.h, utilities/iter_tuple.h, utilities/persistent_storage.cpp, utilities/set_to_vector.h.
<!-- coverage:end -->

## 4. Findings

Each finding is a theorem `..._refuted` about the model; the code lines are given in the model comments.

* **F1** (C01) `ShortlexHasher::longest_hashable_string` overclaims for radices 2, 4, 16 and 256: a collision within the
  advertised length exists. `C01_advertised_length_refuted`.
* **F2** (C04) `OperatorRule` accepts X -> -X as a non-trivial rule; simplifying X then never terminates.
  `C04_same_word_refuted`.
* **F3** (C04) `OperatorRule` takes X -> iX for trivial, so the book silently drops it. `C04_imaginary_rule_refuted`.
* **F4** (C05, C07) `OperatorRulebook::reduce(HashedSequence)` returns +1 for -1 (early return for empty input). As a
  consequence `reduce_ruleset` turns XX -> -1 into XX -> +1. `C05_signed_identity_refuted`, `C07_negative_identity_refuted`.
* **F5** (C05) in-place reduction of -X to zero leaves "-0", which does not compare equal to 0. `C05_minus_zero_refuted`.
* **F6** (C08) `is_complete` (and `complete`) never examine overlaps of a rule with itself: {XYX -> Z} is reported complete
  although ZYX = XYZ has two different canonical forms. `C08_self_overlap_refuted`.
* **F7** (C08) `is_complete` does not examine containment of one left side in another. `C08_containment_refuted`.
* **F8** (C09) `AlgebraicContext::conjugate` drops the phase when operators are not self-adjoint. `C09_phase_refuted`.
* **F9** (C11) Pauli words are not limited to hashable lengths: in a chain of 64 qubits X1X2...X12 and Y1X2...X12 have the
  same hash and compare equal (192^11 is a multiple of 2^64). `C11_long_words_refuted`.
* **F10** (C11) `PauliContext::multiply` of zero with a signed identity gives a zero sequence with a sign, which is not `==`
  to zero. `C11_zero_product_refuted`.
* **F11** (C13) `LocalityContext::additional_simplification` throws `std::range_error` for operators out of range, but it is
  called from `OperatorSequence`'s constructor and `to_canonical_form`, which are `noexcept` (operator_sequence.cpp:33-61):
  the program terminates instead of reporting the error. The model's `Err` stands for that. Not a theorem (the model has no
  notion of `noexcept`).
* **F12** (C17) The locality dictionary is ordered by the partition of the length among parties, not by hash: within one
  length its order differs from that of the generic dictionary. `C17_hash_order_refuted`.
* **F13** (C44) `Dictionary::Level`: a thread that loses the race to create a level dereferences the past-the-end iterator
  of its first lookup (`offset_iter` instead of `reattempt_offset_iter`, dictionary.cpp:54); the assertion below it is
  inverted too. `C44_same_level_refuted`. Level 0 is created by the constructor but not entered in the map, so the first
  request for it makes a second copy.
* **F14** (C22) Symbol lookup goes by hash and ignores the phase that conjugation produces. With YX -> -XY, registering XYZ
  also enters the hash of its conjugate -ZXY; looking up ZXY then yields "conjugate of symbol XYZ", which is minus the right
  value. `C22_signed_conjugate_refuted`. Contexts where conjugation never gives minus another word (locality, Pauli) are
  not affected.
* **F15** (C23) `SymbolTable::merge_in(can_be_real, can_be_imaginary)` throws half way (a symbol neither real nor imaginary)
  after changing flags, and does not renumber the bases. `C23_after_exception_refuted`. Bit sets shorter than the table are
  read beyond their end. `C23_short_bitset_refuted`.
* **F16** (C24) `fill_to_word_length` flags a word Hermitian whenever its hash equals that of its conjugate, also when it is
  minus its conjugate. `C24_fill_refuted`.
* **F17** (C24) Building a symbol from one Hermitian sequence with phase i (as matrix symbolization does) flags the bare word
  Hermitian although it is anti-Hermitian. `C24_phase_refuted`.
* **F18** (C20) Multi-threaded generation in a context with aliases: if the functor throws in some worker but not in all, the other
  workers wait for ever on the second ready flag and the factory's destructor waits for them: the call hangs instead of throwing.
  `C20_exception_with_aliases_refuted` (for every schedule).
* **F19** (C19) `LocalizingMatrix::should_be_hermitian` compares the hashes of the word and its conjugate, not their signs. For a word
  with W* = -W (X Y when Y X = -X Y) the parallel code mirrors half of the matrix with the wrong sign and disagrees with the
  single-threaded code. `C19_localizing_refuted`.
* **F20** (C25) A symbol created with neither a real nor an imaginary part is zero, but polynomials keep it: two canonical polynomials
  that mean the same can differ. `C25_null_symbol_refuted`.
* **F21** (C25) The polynomial constructor from a map keeps zero coefficients. `C25_from_map_refuted`.
* **F22** (C25) `ByHashPolynomialFactory::maximum_degree` loops for ever when the symbol of the last term has no operator sequence
  (`crbegin` iterator never advanced). `C25_degree_by_hash_refuted`.
* **F23** (C26) Adding a monomial with zero factor to a monomial or polynomial keeps the zero term. `C26_sum_zero_refuted`.
* **F24** (C27) `Polynomial::is_conjugate` does not compare factors or conjugation marks of symbols that are neither Hermitian nor
  anti-Hermitian. `C27_is_conjugate_refuted`.
* **F25** (C29) Export of the imaginary part writes `az_factor_ax` where `bz_factor_ax` is meant (polynomial_to_basis.cpp:233): wrong
  whenever coefficients are complex. `C29_imaginary_part_refuted`.
* **F26** (C29) Combining real and imaginary basis vectors into a complex one multiplies the real one by i
  (polynomial_to_basis.h:56-61). `C29_combined_refuted`.
* **F27** (C29) Complex basis vectors are exported and imported with different conventions. `C29_complex_round_trip_refuted`.
* **F28** (C29) The mask of a monomial leaves out basis element 0 (`> 0` for `>= 0`). `C29_mask_monomial_refuted`.
* **F29** (C46) `PolynomialOrderingWithCoefficients` compares coefficients with a tolerance: not a strict weak ordering for any
  tolerance between 0 and 1. `C46_tolerance_refuted`.
* **F30** (C43) `Symbol(OperatorSequence)` keeps a phase of the sequence. A symbol merged that way stands for the word without the
  phase in every lookup, but `RawPolynomial(Polynomial, SymbolTable)` moves the phase to the weight: converting a polynomial to
  operators and back multiplies the term by the phase (`C43_phased_symbol_refuted`; true without such symbols,
  `C43_there_and_back`).
* **F31** (C35) `DynamicBitset(0, true)` and `operator~` on a bitset of size 0 write the last page of an empty page vector: outside the
  storage. `C35_empty_complement_refuted`.
* **F32** (C37) `SmallVector::emplace_back(v[k])` on a full heap vector moves the elements and frees the old block before it reads the
  argument (small_vector.h:322-337): use after free. `C37_emplace_own_element_refuted`; all other cases `C37_emplace_own_element`.
* **F33** (C38) `PersistentStorage::clear` resets the key counter: a key handed out before the call yields, after it, whatever object is
  stored next (`C38_clear_refuted`). The 32-bit counter wraps: after 2^32 stores `emplace_hint` finds the key taken and the new object is
  silently dropped, its key yielding an old object (`C38_wrap_refuted`).
* **F34** (C39) `size_in_utf8` counts U+007F as two bytes (`<` for `<=`), so texts with a delete character get trailing NULs
  (`C39_delete_refuted`). Code points from U+100000 are converted wrongly in both directions: the carry into the third bit of the lead
  byte is masked off (`C39_plane16_refuted`).
* **F35** (C40) `combinations(n, k)` multiplies before it divides, in 64 bits: `combinations(21, 19)` is 58, not 210, although the answer
  is small. `C40_count_wrap_refuted`; exact whenever the numerator does not wrap, `C40_count`.
* **F36** (C40) From 66 factors the denominator itself wraps to 0: `combinations(66, 66)` divides by zero. `C40_count_undefined_refuted`.
* **F37** (C40) The number of combinations is computed the same way for iterators with repetition, where it is wrong.
  `C40_count_inclusive_refuted`.
* **F38** (C40) The iterator with repetition over an empty set yields one combination `[0]`, an index out of range.
  `C40_inclusive_empty_refuted`.
* **F39** (C41, C48) A tensor without dimensions accepts its only index `[]` and gives it offset 0, but has 0 elements: the offset is
  rejected, and an explicit tensor reads outside its data. `C41_no_dimensions_refuted`, `C48_no_dimensions_refuted`.
* **F40** (C41) The element count is a 64-bit product without overflow check: with dimensions 65536^4 every index is accepted and every
  offset rejected. `C41_huge_refuted`.
* **F41** (C50) `FullCorrelator` tests the symbols of one- and two-party elements with `> 0` where "no symbol" is negative: an entry whose
  symbol is the zero symbol (0) counts as unknown, and the correlator has no symbolic form. `C50_symbols_refuted`; true without such
  entries, `C50_symbols`.
* **F42** (C42) `ipow` of a signed type negates at the end: a power equal to the least value, such as (-2)^63, overflows on the way
  although the result fits. `C42_ipow_least_refuted`; every other representable power is right, `C42_ipow_signed`.
* **F43** (C30) `MomentRulebook::complete` moves each waiting polynomial into the rule it builds before it knows that the rule is valid, and
  on a contradiction throws with the moved-from polynomials still in the waiting list. A caller who catches the exception and calls
  `complete` again gets success: the contradictory equation has become the empty polynomial. `C30_retry_refuted`;
  `combine_and_complete` restores the rulebook and is not affected, `C30_combine_exception`.
* **F44** (C32) `SiteHasherSized<1>::cyclic_shift` reduces the offset modulo 32, not modulo the number of qubits: on three qubits a shift by
  four shifts by 2^64-2 bits, undefined behaviour. Callers inside the library pass at most the number of qubits. `C32_cyclic_refuted`;
* **F45** (C32) The constructor of `SiteHasher` computes a column mask with a shift by twice the column height; for a chain (a single column)
  of more than 32 qubits this is a shift by 64 or more, undefined behaviour, although up to 256 qubits are accepted. The mask is not used for
  chains, so hardware semantics give the right results. `C32_construct_refuted`;
* **F46** (C32, C33) `SiteHasherSized<2>` treats a column that ends exactly at the boundary of the two slides as straddling it, and shifts by
  64: undefined behaviour on, for example, a wrapped 8 by 8 lattice. `C32_row_refuted`; harmless if such a shift gives any number and keeps
  zero (`benign`), `C32_row`.
* **F47** (C32, C33) The generic `row_cyclic_shift` reduces the row offset modulo the number of columns (`row_width`) instead of rows. On a wrapped 9
  by 8 lattice two translates of a word get different representatives. `C33_lattice_refuted`; right when there are at least as many columns
  as rows, `C33_lattice_decides`.
* **F48** (C33) `chain_offset` and `lattice_offset` compute `ptrdiff_t % size_t`, so a negative offset is converted to 2^64 + offset first and
  the correction for negative values is dead code. On three qubits a move by -1 does nothing. `C33_offset_refuted`; right for offsets that are
  not negative and for numbers of qubits dividing 2^64, `C33_chain_offset`.
* **F49** (C33) `OperatorSequence(ConstructPresortedFlag, ...)` moves the operators into the base class's first argument and then takes their hash: with
  more than 16 operators (heap storage) the hash is that of the empty sequence, so all long canonical words collide.
  `C33_sequence_hash_refuted`; `C33_sequence_hash`.
* **F50** (C45) In the parallel version two workers write the same entries of a Hermitian matrix: `generate_symbol_matrix_hermitian` writes entry and
  mirror for all rows, not only below the diagonal, without ordering. This is a data race, and the representation returned (conjugated or negated symbol)
  depends on the schedule. `C45_schedule_independent_refuted`, `C45_race_free_refuted`; values are right all the same: `C45_parallel_result`.
* **F51** (C45) If a worker throws while it collects symbols, the workers that did not throw wait for ever for the second phase, and the destructor's join
  hangs. (If two workers throw, worker 0's promise gets two exceptions: `std::future_error` in a catch block ends the program; not modelled.)
  `C45_exceptions_reported_refuted`; `C45_parallel_finishes`.
* **F52** (C45) An element `iA` with `A` anti-Hermitian is its own conjugate, so its symbol, the word `A` without phase, is marked Hermitian; the mirrored entry
  then has the opposite sign. `C45_any_hermitian_matrix_refuted`; `C45_single_threaded` with the condition that symbols marked Hermitian are real.
* **F53** (C45, observation) The parallel version registers `Symbol{elem}` with the element's sign where the single-threaded one uses `construct_positive` for
  contexts in which all words are Hermitian (see F30); with a dimension of 0 it has no workers, and `workers.front()` is undefined.
* **F54** (C18) On rings the nearest-neighbour dictionaries list words repeatedly when a window closes the ring: `chain_nn_sequences<true>` starts a window at every qubit
  also when the word covers all qubits (and for two qubits lists the pair twice); at larger distances two different windows can be the same set of qubits.
  `C18_ring_once_refuted`; `C18_ring` (the words are right), `C18_ring_once_partial` (each once while min(level, n) d < n).
* **F55** (C18) `lattice_neighbour_triplets` fills the corner `{0, h, h+1}` twice and never `{1, h, h+1}`: words on corners open to the top left are missing and others are
  listed twice. `C18_corner_missing_refuted`, `C18_corner_twice_refuted`; `C18_open_lattice_partial`, `C18_square_torus_partial`.
* **F56** (C18) `do_unaliased_lattice_symmetric_fill` lets the row offset run to the row width instead of the column height; on tori with more rows than columns
  copies are missing, with fewer they repeat. `do_aliased_lattice_symmetric_fill` compares the number of rows with half the row width and vice versa, so that its check
  does not prevent repetitions on oblong tori. `C18_oblong_torus_refuted`, `C18_oblong_fill_refuted`; `C18_torus_fill` (square tori).
* **F57** (C18) Fills on the 8 by 8 torus and on rings of more than 32 qubits shift 64-bit words by 64 or more (see the findings on C32). `C18_eight_by_eight_refuted`,
  `C18_long_ring_refuted`.
* **F58** (C18, observation) On a torus without translation symmetry dictionaries with words of three letters throw, although they do not need symmetry
  (`C18_torus_needs_symmetry`); on lattices longer distances and words of five letters throw (`C18_lattice_limits`). `PauliDictionary::NearestNeighbour`
  (pauli_dictionary.cpp:17-55) has the race of `Dictionary::Level` found for C44.
* **F59** (C54) `InflationContext::simplify_as_moment` renames the source copies in the order in which the word meets them and stops as soon as that
  order is the natural one. Words with a repeated observable can differ by a relabelling and both be "canonical": with one source for two observables
  A and B at level 2, A0 A1 B0 and A0 A1 B1 are the same moment but get two symbols. `C54_unique_refuted`; true without repeated observables,
  `C54_unique_partial`. (The relaxation stays sound, but is larger and weaker than necessary.)
* **F60** (C52) `InflationContext::unflatten_outcome_index` tests the observable with `>` instead of `>=` (inflation_context.cpp:477), so the first
  number after the last observable is read outside the table; for an observable that is not a measurement (no outcomes) it divides by zero.
  `C52_outcomes_bound_refuted`, `C52_outcomes_number_refuted`; true for existing observables with outcomes, `C52_outcomes`.
* **F61** (C58) `FactorTable::combine_symbolic_factors` does not drop the other factors when one is 0, so `combine_and_register_factors` gives
  products with zero new symbols although they are zero (factor_table.cpp). `C58_zero_refuted`; their value is still the product, `C57_register`.
* **F62** (C58) `FactorTable::try_multiply({})` returns symbol 0 instead of 1: the empty product is zero (factor_table.cpp:229-231). `C58_empty_refuted`;
  true for lists with at least one symbol, `C58_list`.
* **F63** (C59) `InflationMatrixSystem::expand_rulebook` returns the number of rules minus twice the original number, not the number of rules added.
  `C59_count_refuted`; the exact value is in `C59_done`.
* **F64** (C59) if `expand_rulebook` throws because a product has no symbol, the rulebook stays in the state that allows expansion. `C59_unlocked_refuted`.
* **F65** (C60) the bottom right block of an extended matrix is filled through a reference to a row's factors, kept while new products are added
  to the vector it refers into (extended_matrix.cpp:115-130): if the vector is reallocated the reference dangles. `C60_dangling_refuted`;
  cannot happen with at most one scalar or enough capacity, `C60_extended`.
* **F66** (C61) `TemporarySymbolsAndFactors::find_or_register_factors` takes a node of the index tree for a registered product although it may be
  only the beginning of a longer one, and reads its empty value: `bad_optional_access` in a worker thread, hence `std::terminate`, depending on the
  schedule (temporary_symbols_and_factors.cpp:34-86). `C61_terminate_refuted`; only if a new list of factors begins another, `C61_parallel`.
* **F67** (C61) with several threads, extension scalars without a symbol are not refused but read outside the table. `C61_unknown_refuted`;
  refused with one thread, `C60_unknown`.
* **F68** (C62) `max_subgroup_size` bounds only the orbit of the first generator: with two involutions that generate an infinite group
  `Group::dimino_generation` never stops (group.cpp:122-197). `C62_limit_refuted`; complete and stops for finite groups, `C62_generates`.
* **F69** (C63) `vector_remap` (representation_mapper.cpp:33-67) looks up the hash of `lhs * rhs` and ignores its sign: with anticommuting letters (Pauli
  operators, rules with minus signs) the representations on longer words are wrong. `C63_sign_refuted`; right without signs, `C63_representations`.
* **F70** (C65) `SymbolTableMap::operator()(const Monomial&)` (symbol_table_map.cpp:215-226) multiplies by the coefficient before it conjugates, so i X* becomes
  -i times the conjugate of the image of X; `inverse(const Monomial&)` does the same. `C65_conjugate_refuted`; right for real coefficients, `C65_images`.
* **F71** (C65) symbols of words longer than the map knows are silently mapped to zero (symbol_table_map.cpp:104), and `DerivedMatrixSystem::create_derived_matrix`
  (derived_matrix_system.cpp:212-236) does not check the length of the words of the matrix it transforms, unlike the functions for moment and localizing matrices. `C65_beyond_refuted`; right for the
  symbols the matrix acts on, `C65_invariant`.
* **F72** (C66) `MatrixSystem::delete_matrix` (matrix_system.cpp:92-107) compares the offset with `>` instead of `>=`: for the offset just behind the last matrix it accesses the element past the end of the list.
  `C66_delete_refuted`; right for all other offsets, `C66_delete`.
* **F73** (C66) deleting a matrix does not remove its index, so that the matrix can never be made again: every later request finds the index and fails on the missing matrix. `C66_recreate_refuted`, `C66_deleted_forever`.
* **F74** (C66) in a derived system, asking for the image of a matrix of the base system by its offset before asking for it by name (derived_matrix_system.cpp:243-267) makes the second request fail an assertion
  or, in a release build, create a second copy of the matrix. `C66_derived_refuted`.
* **F75** (C66) `MomentRulebook`s can be extended (`merge_in`) after matrices have been made with them; the index of substituted matrices goes on to return the old ones. `C66_stale_substitution_refuted`.
* **F76** (C67) a matrix of monomials copies the flag "Hermitian" from its operator matrix and ignores the prefactor: after multiplication by a monomial with weight i (monomial_matrix_arithmetic.cpp:74-120) the matrix is
  i times a Hermitian one, but its basis is filled by conjugation of the upper triangle, so that everything below the diagonal has the wrong sign. `C67_prefactor_refuted`; right for matrices that are Hermitian, `C67_monomial`.
* **F77** (C67) `test_hermicity` of polynomial matrices (polynomial_matrix.cpp:22-42) uses `is_conjugate`, which ignores the coefficients of symbols that are neither Hermitian nor anti-Hermitian: the matrix with 2X above and 5X below
  the diagonal is taken for Hermitian and the upper triangle of its basis is wrong. `C67_hermicity_refuted`; the test misses no Hermitian matrix (`C67_hermicity_complete`) and is right without generic symbols (`C67_hermicity_sound`).
* **F78** (C68) multiplying a matrix by a symbol (symbolic_matrix.cpp:157-158) takes the sequence of the symbol if the monomial is conjugated and the sequence of the conjugate if it is not: the identity matrix times X is the matrix of X*.
  `C68_times_symbol_refuted`; what happens is `C68_times_symbol`. Polynomials of two or more terms are treated correctly (`C68_times_polynomial`).
* **F79** (C68) `MonomialMatrix::clone` (monomial_matrix.cpp:163-186) dereferences the operator matrix even if there is none, so a matrix of numbers times 1 is undefined behaviour; times any other monomial it throws, because
  do_monomial_multiply insists on an operator matrix, although polynomials of two terms work. `C68_value_times_refuted`.
* **F80** (C68) `PolynomialMatrix` does not override `clone`: adding zero to a polynomial matrix and multiplying it by one throw. `C68_polynomial_unit_refuted`.
* **F81** (C68) adding to a monomial matrix with a zero entry keeps the zero as a term of the sum (and so does the sum of two products): the polynomial is not canonical, so equal matrices compare different.
  `C68_sum_canonical_refuted`; canonical if no entry is zero, `C68_add_monomial`, `C68_add_polynomial`.
* **F82** (C68) the Hermitian flag of a product is that of the operator matrix, or of the matrix of numbers and the operator, whatever the factor: i times the identity is flagged Hermitian. `C68_multiply_hermitian_refuted`,
  `C68_value_hermitian_refuted`; right for real factors.
* **F83** (C68) `is_hermitian` and `is_antihermitian` of sparse matrices (eigen_utils.cpp:71-115, 137-160) only look at entries stored on or below the diagonal: the matrix with a single entry above the diagonal passes.
  `C68_value_sparse_refuted`; right if mirror entries are stored, `C68_value_sparse`.
* **F84** (C68) a real matrix of numbers is taken to be anti-Hermitian only if it is zero (value_matrix.cpp:28-74), so a real antisymmetric matrix times an anti-Hermitian operator is not recognized as Hermitian.
  `C68_value_antihermitian_refuted`.
* **F85** (C69) `checkIMHermitian` compares the coefficients of opposite entries without conjugating one of them (imported_matrix_system.cpp:77): [[1, iX], [-iX*, 1]] is refused because X "is zero", although it is Hermitian for every X.
  `C69_complex_coefficient_refuted`; right for real coefficients, `C69_meaning`, `C69_refuses`.
* **F86** (C69) the diagonal is taken to be real symbols whatever the coefficient (imported_matrix_system.cpp:62-63): [[iX]] imported as Hermitian makes X real, so that the matrix is not Hermitian. `C69_complex_diagonal_refuted`.
* **F87** (C69) importing a matrix can renumber the basis elements of all symbols; the entries of older matrices are brought up to date (renumerate_bases) but the bases they keep (matrix_basis.h) are not, so a basis asked for before is wrong afterwards.
  `C69_stale_basis_refuted`; right if all imports come first, `C69_imports_first`.
* **F88** (C69) an import that is refused because some symbol would be zero has already marked the symbols before it as real or imaginary (symbol_table.cpp:212-240), without renumbering the basis. `C69_failed_refuted`.
* **F89** (C70) `RefreshCollinsGisin` does not check again, once it has the exclusive lock, whether the Collins-Gisin tensor is still missing (maintains_tensors.cpp:41-51; the other two do). Two threads that both find it missing each make one; the second destroys the first, although a full correlator or probability tensor made in between keeps a reference to it (polynomial_tensor.h:46).
  `C70_first_use_refuted`; right if it exists beforehand, `C70_safe`.
* **F90** (C72) `measurement_to_range` and `outcome_to_element` refuse a global measurement number only if it is greater than the number of measurements (`>` for `>=`; collins_gisin.cpp:172 and 190, locality_collins_gisin.cpp:72, 91 and 103, locality_probability_tensor.cpp:55, 77, 89 and 107, inflation_collins_gisin.cpp:95, 116, 129, inflation_probability_tensor.cpp:58, 79, 91). The number itself reads the table one place beyond its end.
  `C72_number_refused_refuted`; larger numbers are refused, `C72_beyond_refused`.
* **F91** (C72) The same functions do not check outcomes. In the Collins-Gisin tensor the last outcome of a measurement has no operator; asking for it gives, without any error, the element of the first outcome of the same party's next measurement (or an index outside the tensor, for the last measurement).
  `C72_outcome_refused_refuted`; right for outcomes with an operator, `C72_operator_range`.
* **F92** (C73) Notifications can be lost. `emplace_back`, `push_back` and `abort` (queue.h:93-124) change the state and notify without holding the head mutex, with which `wait_for_data` (171-176) tests the condition. A thread that has found the queue empty and not aborted, and has not begun to wait, misses the notification and waits for ever, though there is an element, or though the queue was aborted. The destructor of `ToFileLogger` (to_file_logger.cpp:58-61) aborts and then joins the writing thread: it can hang.
  `C73_waiting_ends_refuted`, `C73_abort_ends_refuted`; whoever waits already is woken, `C73_push_wakes`, `C73_abort_wakes`.
* **F93** (C73) Elements that are in the queue when it is aborted are dropped (queue.h:137 and 178): events reported to a `ToFileLogger` before it is destroyed may not be written.
  `C73_all_taken_refuted`.
* **F94** (C74) `transform_matrix_data` decides with `noexcept(the_functor)` whether to pass on the exceptions of its workers (matrix_transformation_worker.h:103). The operand is the name of the functor and not a call of it, so it is true for every functor, and exceptions are never passed on. The call returns normally with elements that were never computed (default symbols, or uninitialized words), where one thread throws.
  `C74_exception_refuted`; `C74_exception_partial`.
* **F95** (C76) `MexMain::clean_inputs` (mex_main.cpp:216-252) counts in `cursor` one argument per turn, but a named value takes two. A last argument that is a name without a value is therefore only rejected if no named value came before it; otherwise `*input_iter` is read at the end of the arguments.
  `C76_missing_refuted`; `C76_undefined`; `C76_missing_partial`.
* **F96** (C76) `CommutatorMatrixParams::extra_parse_params` (commutator_matrix.cpp:40-41) stores the named value "level" in `hierarchy_level`, which nothing reads; the level that is used, that of the importer, stays 0. With named arguments the (anti)commutator matrix of level 0 is made whatever the level.
  `C76_commutator_refuted`; `C76_commutator_partial`.
* **F97** (C76) `SubstitutedMatrixParams::extra_parse_params` (substituted_matrix.cpp:27-28) reads the index of the rulebook from the value of "matrix" and not from that of "rules".
  `C76_substituted_refuted`; `C76_substituted_partial`.
* **F98** (C77) `NameTable` (name_table.cpp:80-91), operators and conjugates alternating: for operator 0 `this->names[2*idx] = std::move(this->names[idx])` moves a string to itself, after which its content is unspecified (it can be empty). The name is still found, but operator 0 may be printed as nothing.
  `C77_round_refuted`; `C77_round_partial`.
* **F99** (C77) `AlgebraicContext::format_sequence` (algebraic_context.cpp:166-216): without braces the sign i is printed as the letter i in front of the names, so that i times "x" and the word of operators "i" and "x" have one text.
  `C77_words_refuted`; `C77_words_partial`.
* **F100** (C77) `format_sequence` of algebraic, locality and inflation contexts prints the empty word as 1 whatever its sign: -1 and 1 have one text.
  `C77_identity_refuted`.
  Seen beside these: `LocalityContext` tests `oper > context.size()` (locality_context.cpp:247) where operators equal to the size are out of range too; `TraditionalLOFormatter::format` without a party prints the outcome twice (locality_operator_formatter.cpp:49-54).
* **F101** (C79) `LocalizingMatrixIndex::operator<` (localizing_matrix_index.h:42-52) and `PauliMonomialIndex::operator<` (monomial_index.h:66-77) compare level and hash of the word, and the hash does not depend on the sign. If the localizing matrix of Z has been made then the one asked for X times Y (i times Z) is that of Z, and the other way round. The model of matrix systems (C66) takes words without signs.
  `C79_localizing_refuted`, `C79_pauli_refuted`; `C79_localizing_sign`, `C79_pauli_sign`; `C79_localizing_partial`, `C79_pauli_partial`.
* **F102** (C80) The rewriting matrix of `MomentRulebookToBasis` (moment_rulebook_to_basis.cpp:57-86) moves a symbol with a partial rule of mixed direction along the real or the imaginary axis, while the right hand sides of the other rules were reduced by moving it at a right angle to the rule. So with 4 Re X + 3 Im X = 0 and Y = Re X, rewriting a vector gives a new X and a Y that is not its real part: the result does not obey the rules, and rewriting again gives something else. The homogeneous matrix and the vectors kept by the rewriting matrix are right.
  `C80_solution_refuted`; `C80_rewrite`, `C80_fixed`, `C80_homogeneous`, `C80_solution_partial`.
* **F103** (C81) `PauliDictionary::NearestNeighbour` repeats the slip of F13: a thread that loses the race to make a dictionary dereferences `find_key`, the end iterator of its first search, instead of `recheck_key` (pauli_dictionary.cpp:41-46). `C81_near_race_refuted`; `C81_apart_partial`.
* **F104** (C81) `Dictionary::Level` and `PauliDictionary::NearestNeighbour` return references to elements of `std::vector<OSGPair>` after the lock is released (dictionary.cpp:29-67, pauli_dictionary.cpp:19-54). The next new dictionary may move the vector and the reference dangles: in one thread if the pair of level 1 is kept while level 2 is asked for; and in two threads that only ask for word counts, as `WordCount` dereferences without a lock. The library itself opens each pair at once, and the lists of words do not move.
  `C81_kept_pair_refuted`, `C81_count_refuted`; `C81_generators_stay`, `C81_room_partial`, `C81_careful_partial`.
* **F105** (C82) `Monomial{"-2147483648"}` negates the least `int` (monomial.cpp:253-256): undefined behaviour. `C82_defined_refuted`; `C82_undefined_partial` shows it is the only such integer.
* **F106** (C82) A symbol with a factor is shown as `2.5 #5` or `2.5*5`, and `-1` times a symbol as `-#5`, but none of these is accepted as input: the factor must stand directly before `#` and be a whole number text (monomial.cpp:27-57 against 209-229). `C82_factor_back_refuted`; `C82_back_partial`.
* **F107** (C82) Twice the identity is shown as `2`, which is read as symbol 2 with factor 1; without `#` the texts of `5` times the identity and of symbol 5 are the same. `C82_scalar_back_refuted`, `C82_plain_text_refuted`; `C82_hash_text`.
* **F108** (C83) `RecursiveStorage::access(indices)` copies the subtree into a local variable (`auto place`) and returns a reference into the copy (recursive_index.h:115-118): every such reference dangles. `C83_access_refuted`; only the unit tests use it at present.
* **F109** (C84) `check_raw_polynomial_data` increments `idx` after its loop instead of in it (read_polynomial.cpp:171-184): an unknown symbol is always said to be in element #1. `C84_position_refuted`.
* **F110** (C84) A symbol numbered by a fraction is accepted and the fraction dropped (read_as_scalar.cpp:72-80), so 2.5 names symbol 2; NaN and numbers of 2^64 or more are cast with undefined behaviour. `C84_fraction_refuted`.
* **F111** (C85) `StagingPolynomial::to_polynomial` uses the symbol, factor and conjugation of a sequence but not the phase its simplification gives (read_opseq_polynomial.cpp:267-277): with Pauli operators the sequence [1 2] = XY = iZ is read as Z. `C85_phase_refuted`.
* **F112** (C85) Operator numbers are cast to 16 bits before they are compared with the number of operators (read_as_vector.cpp:51-70): 65537 is accepted as operator 1; for doubles outside the range the cast is undefined. `C85_wrap_refuted`.
* **F113** (C86) A word exported together with its symbol gets the coefficient +1 or -1 from `negated()` (full_monomial_specification.cpp:219-235), so that a phase i is exported as 1; the export without symbols uses the full phase. Words of dictionaries have no phase, so this is only seen for other words. `C86_imaginary_refuted`.
* **F114** (C86) `PolynomialExporter::sequences` never advances the index it reports (export_polynomial.cpp:150-195): errors always speak of the term at index 1. `C86_position_refuted`.
* **F115** (C87) On open chains and lattices, symmetrising only moves a polynomial to the right and down from where it stands (lattice_duplicator.cpp:379-438), so that X_1 on two qubits becomes (X_1 + X_2)/2 but X_2 stays X_2, although they are translates of each other. `C87_line_refuted`.
* **F116** (C87) On a torus of over 64 qubits with more rows than columns, the result of symmetrising contains a wrong translate twice and misses another (9 by 8: the last row), because of the row shifts of the site hasher. `C87_tall_refuted`.
* **F117** (C87) On a torus of 8 by 8 qubits, symmetrising shifts a 64-bit word by 64 bits, which is undefined. `C87_eight_refuted`.
* **F118** (C88) An operand given as an empty cell is classed as a single polynomial (binary_operation.cpp:84-106) but holds no data, so that every sum, product and commutator with it ends in the internal error "Operand cannot be interpreted as a raw polynomial" (algebraic_operand.cpp:539). `C88_empty_refuted`.
* **F119** (C88) Adding arrays of different shapes, or an array and a matrix, is reported as the internal error "Unexpected product type" (binary_operation_impl.h:57-62), where multiply and commutator refuse the same operands as bad parameters; PlusParams has no check of the product type. `C88_mismatch_refuted`.
* **F120** (C89) Simplifying or conjugating a word that is zero gives no operators and the sign +1, exactly as for the identity (simplify.cpp:218-229, conjugate.cpp:96-106); only the third output, the hash, differs. `C89_zero_refuted`.
* **F121** (C89) Like F112: both commands cast operator numbers to 16 bits before checking them, so that 65537 means operator 1. `C89_wide_refuted`.
* **F122** (C90) OperatorRule::implies does not compare signs: X1 = X0 is said to imply X1 = -X0 (operator_rule.cpp:127-156). `C90_sign_refuted`.
* **F123** (C90) It takes zero for the identity: X0X0 = 0 is said to imply X0X0X1 = X1. `C90_zero_refuted`.
* **F124** (C90) A match at the end counts as none, so that no rule is said to imply one whose right side is the identity or zero, not even itself. `C90_self_refuted`.
* **F125** (C90) Only the first match on each side is tried: X1 = X0 is not said to imply X0X1 = X0X0. `C90_later_refuted`.
