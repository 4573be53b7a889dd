{
 "claims": [
  {
   "property": "C01",
   "status": "proved",
   "theorems": [
    "C01_defined",
    "C01_bipartitions_ordered",
    "C01_subsets",
    "C01_subsets_descending"
   ],
   "note": ""
  },
  {
   "property": "C02",
   "status": "proved",
   "theorems": [
    "C02_bipartitions"
   ],
   "note": "mask <> 0; the empty mask's single split is not listed (C02_zero)"
  },
  {
   "property": "C03",
   "status": "proved",
   "theorems": [
    "C03_on_bits_index",
    "C03_sieve"
   ],
   "note": ""
  },
  {
   "property": "C04",
   "status": "proved",
   "theorems": [
    "C04_bubble_sort",
    "C04_zipped",
    "C04_nonstrict_refuted"
   ],
   "note": "the header's remark that the comparison need not be strict is refuted"
  },
  {
   "property": "C05",
   "status": "proved",
   "theorems": [
    "C05_next_permutation",
    "C05_short",
    "C05_sign"
   ],
   "note": ""
  },
  {
   "property": "C06",
   "status": "proved",
   "theorems": [
    "C06_antisymmetric_permutation"
   ],
   "note": ""
  },
  {
   "property": "C07",
   "status": "proved",
   "theorems": [
    "C07_count_cycles",
    "C07_classes_unique",
    "C07_orientation",
    "C07_cycles"
   ],
   "note": ""
  },
  {
   "property": "C08",
   "status": "partial",
   "theorems": [
    "C08_sign_refuted",
    "C08_overwrite_refuted"
   ],
   "note": "the property is FALSE of the code: refuted for every odd-length identity; overwrite does not restore"
  },
  {
   "property": "C09",
   "status": "proved",
   "theorems": [
    "C09_additive_defined",
    "C09_additive",
    "C09_peak_defined",
    "C09_peak",
    "C09_counts"
   ],
   "note": "additive objectives with any cost, weights, pruning and CSE reuse; peak objective; batched peak model not modelled"
  },
  {
   "property": "C10",
   "status": "proved",
   "theorems": [
    "C10_optimal",
    "C10_dense_flops",
    "C10_dense_size",
    "C10_reported_cost"
   ],
   "note": "costs are exact integers (the code uses double)"
  },
  {
   "property": "C100",
   "status": "partial",
   "theorems": [
    "C100_computed_once",
    "C100_value_partial",
    "C100_one_key",
    "C100_ends",
    "C100_no_deadlock",
    "C100_everybody",
    "MemExamples.C100_reference_refuted",
    "MemExamples.C100_exception_refuted"
   ],
   "note": "Proved for all keys, schedules, spurious wake-ups and exceptions: a value is computed at most once, calls end, nobody waits for ever unless a computation throws, and with one key everybody gets its value. Refuted: the returned reference is into a flat_map, so it is lost when another thread adds a key (C100_reference_refuted, for every policy of growth); hence the value is proved only while no key is added. Refuted: a computation that throws leaves the key behind and later callers wait for ever (C100_exception_refuted). Steps under the mutex are atomic; memory order is sequential consistency."
  },
  {
   "property": "C101",
   "status": "proved",
   "theorems": [
    "C101_factorial",
    "C101_ends"
   ],
   "note": "For all arguments, numbers of threads and schedules. Integers are unbounded (boost cpp_int); atomic loads and stores are sequentially consistent."
  },
  {
   "property": "C102",
   "status": "proved",
   "theorems": [
    "C102_ring",
    "C102_division",
    "C102_conjugation",
    "C102_equality"
   ],
   "note": "For all complex rational numbers; rationals are Coq's canonical rationals (boost cpp_rational). Not modelled: floating-point element types and hashing."
  },
  {
   "property": "C103",
   "status": "proved",
   "theorems": [
    "C103_constructor",
    "C103_flatten",
    "C103_constant",
    "C103_folds",
    "C103_product",
    "C103_product_valid"
   ],
   "note": "For all bases and exponents. What a power means is a parameter: any commutative monoid with conjugation and powers that agrees with the field of complex rational numbers where roots are unique; an instance is given. C103_product assumes b^(x+y) = b^x b^y for the base at hand (false only for the base zero). Labels are numbers, hashes and cloning are not modelled."
  },
  {
   "property": "C104",
   "status": "partial",
   "theorems": [
    "C104_close",
    "C104_simplest",
    "C104_no_exception_partial",
    "NumExamples.C104_exception_refuted"
   ],
   "note": "Closeness is proved for every rounding with a bounded error; the smallest denominator and the absence of exceptions for exact arithmetic. Refuted: the exception marked as unreachable is reached with default arguments, for example for 1/4096 (C104_exception_refuted); without it is proved for max_niter >= 1/(2 eps)."
  },
  {
   "property": "C105",
   "status": "partial",
   "theorems": [
    "C105_scope_restores_partial",
    "C105_scope_alone_restores_partial",
    "C105_scopes_only_restore",
    "C105_inside_scope",
    "C105_inside_scope_of_one",
    "C105_core_comparison",
    "C105_mbpt_comparison",
    "CtxExamples.C105_scope_restores_refuted",
    "CtxExamples.C105_installed_refuted",
    "CtxExamples.C105_changes_seen_refuted",
    "CtxExamples.C105_scope_defined_refuted"
   ],
   "note": "Programs are arbitrary nestings of scopes, updates, changes of shared objects and exceptions. Restoration is proved when the scope's context differs from the current one, and without condition for programs that change the context by scopes only. Refuted: with an equal context the resetter is empty, so a set in the body leaks out and the requested registry object is not installed; comparing contexts with a null registry (made by get_default_context before any set) dereferences it. One thread is modelled; contents of registries are numbers."
  },
  {
   "property": "C106",
   "status": "proved",
   "theorems": [
    "C106_get_default_context"
   ],
   "note": "For all histories of set (one or a map), reset and get; the getter returns values instead of references."
  },
  {
   "property": "C107",
   "status": "partial",
   "theorems": [
    "C107_registry_is_dictionary_partial",
    "C107_reserved_never_registered",
    "C107_equal_registries_answer_alike",
    "CtxExamples.C107_shared_map_refuted",
    "CtxExamples.C107_stale_override_refuted",
    "CtxExamples.C107_equality_complete_refuted"
   ],
   "note": "Refinement to shared dictionaries for all histories without the constructor from an existing map. Refuted with that constructor: overrides are not shared, so an override outlives removal. Equality of registries implies equal answers; the converse is refuted."
  },
  {
   "property": "C108",
   "status": "partial",
   "theorems": [
    "C108_each_element_once",
    "C108_never_twice",
    "C108_terminates",
    "C108_slots",
    "C108_num_threads_partial",
    "RunExamples.C108_order_refuted",
    "RunExamples.C108_zero_threads_refuted"
   ],
   "note": "Every interleaving of the threads, any size and number of threads. Refuted: the documented order of commencement (a thread may be delayed between taking its number and calling op); with SEQUANT_NUM_THREADS=0 nothing is called at all. The implementation by parallel algorithms of the standard library and exceptions thrown by op (std::terminate) are not modelled."
  },
  {
   "property": "C109",
   "status": "proved",
   "theorems": [
    "C109_some_order",
    "C109_sequential",
    "C109_sum_of_values",
    "C109_terminates"
   ],
   "note": "Every interleaving, any size and number of threads >= 1, with the mutex as explicit steps; what holds of the number of threads is C108."
  },
  {
   "property": "C11",
   "status": "proved",
   "theorems": [
    "C11_pruned_optimal",
    "C11_fallback",
    "C11_no_outer_product_iff"
   ],
   "note": ""
  },
  {
   "property": "C110",
   "status": "partial",
   "theorems": [
    "C110_parallel_do_partial",
    "RunExamples.C110_rvalue_refuted"
   ],
   "note": "Refuted for function objects passed as rvalues with state that a move takes away: they are forwarded once per thread."
  },
  {
   "property": "C111",
   "status": "partial",
   "theorems": [
    "C111_one_instance",
    "C111_terminates",
    "C111_no_race_partial",
    "RunExamples.C111_data_race_refuted"
   ],
   "note": "Every interleaving of any calls. Refuted: instance() reads the unique_ptr without the mutex while another thread may write it, a data race. Constructors that throw are not modelled; instance_ptr does not compile for default-constructible classes (it returns a reference as a pointer)."
  },
  {
   "property": "C112",
   "status": "partial",
   "theorems": [
    "C112_arrangements",
    "C112_terms",
    "C112_antisymmetric_partial",
    "C112_screened",
    "AntExamples.C112_scalar_lost_refuted"
   ],
   "note": "Antisymmetry is proved for the sum of all generated terms, before summands with equal canonical form are dropped; canonicalization is a parameter. Refuted: the scalar of the product is not taken over (only Constant factors are, which products do not keep)."
  },
  {
   "property": "C113",
   "status": "partial",
   "theorems": [
    "C113_closed_loops_partial",
    "C113_no_undefined",
    "AntExamples.C113_assert_refuted"
   ],
   "note": "Full count for every pairing without assertions, and with them when all indices are paired. Refuted: with assertions enabled an open chain of three pairs makes SEQUANT_ASSERT(in_loop.size() <= init_lower.size()) fail."
  },
  {
   "property": "C114",
   "status": "partial",
   "theorems": [
    "C114_rewritten",
    "C114_same_element_partial",
    "ReoExamples.C114_aux_conflated_refuted",
    "ReoExamples.C114_twice_refuted"
   ],
   "note": "Element identity is proved for occurrences whose auxiliary indices have the same spaces, in spaces of their own. Refuted: auxiliary indices are sorted by space although the array need not be symmetric in them; a rewritten tensor is changed again by a second rewrite in column-major layout."
  },
  {
   "property": "C115",
   "status": "partial",
   "theorems": [
    "C115_fastest_largest_partial",
    "ReoExamples.C115_columns_refuted",
    "ReoExamples.C115_aux_refuted"
   ],
   "note": "Proved for symmetric tensors with bra-ket symmetry and no auxiliary indices, both layouts. Refuted for column-symmetric tensors in row-major layout and with auxiliary indices (the last bra index is compared where the last ket index is the fast one)."
  },
  {
   "property": "C116",
   "status": "partial",
   "theorems": [
    "C116_integral_value",
    "C116_unique_partial",
    "ReoExamples.C116_unique_refuted"
   ],
   "note": "Values are preserved for all integrals with the eight symmetries. Uniqueness needs different spaces to have different sizes; refuted otherwise."
  },
  {
   "property": "C117",
   "status": "partial",
   "theorems": [
    "C117_letters",
    "C117_enough",
    "C117_alphabets",
    "EinExamples.C117_greek_refuted"
   ],
   "note": "Letters are one-to-one with indices for all products and are found whenever the alphabet is large enough. They are valid einsum letters if labels start with a letter of the alphabet; refuted for other labels (Greek, first byte of UTF-8)."
  },
  {
   "property": "C118",
   "status": "partial",
   "theorems": [
    "C118_statement_value_partial",
    "C118_sum_refused",
    "EinExamples.C118_conjugate_refuted"
   ],
   "note": "Proved for all products (nested too) of tensors, constants with integral imaginary part and variables that are not conjugated, any dimensions and array values. Refuted for conjugated variables, which are printed without the conjugation. Power factors are not modelled."
  },
  {
   "property": "C119",
   "status": "partial",
   "theorems": [
    "C119_rationals",
    "C119_constants_partial",
    "EinExamples.C119_constants_refuted"
   ],
   "note": "Proved for all rationals and for complex constants with integral imaginary part. Refuted otherwise: i/2 is printed as 1/2j, which is -i/2 in Python."
  },
  {
   "property": "C12",
   "status": "proved",
   "theorems": [
    "C12_connected_subsets",
    "C12_adjacency",
    "C12_network",
    "C12_bfs_terminates"
   ],
   "note": ""
  },
  {
   "property": "C120",
   "status": "partial",
   "theorems": [
    "C120_identifier",
    "C120_kept",
    "EinExamples.C120_injective_refuted"
   ],
   "note": "Names are identifiers and identifiers are kept. Refuted: different names can become the same name. Python keywords and the validity of UTF-8 characters in identifiers are not modelled."
  },
  {
   "property": "C121",
   "status": "partial",
   "theorems": [
    "C121_pop_partial",
    "C121_absent",
    "PopExamples.C121_mixed_refuted",
    "PopExamples.C121_order_refuted",
    "PopExamples.C121_alone_refuted"
   ],
   "note": "Proved for all expressions, nested to any depth, in which every term has the tensor once and beside another factor, and for all without it. Refuted otherwise: terms without the tensor before the first term with it are accepted and the value changes; the same terms in the other order abort; a tensor alone (or with a scalar) leaves 0."
  },
  {
   "property": "C122",
   "status": "partial",
   "theorems": [
    "C122_remove_partial",
    "C122_has_partial",
    "PopExamples.C122_nested_refuted"
   ],
   "note": "Proved for all sums of products of tensors, variables and constants. Refuted for nested expressions, where the tensor is neither found nor removed."
  },
  {
   "property": "C123",
   "status": "proved",
   "theorems": [
    "C123_transform",
    "C123_accepted"
   ],
   "note": "Values of all accepted expressions, and exactly which are accepted. Tags and the symmetries of tensors are not modelled."
  },
  {
   "property": "C124",
   "status": "proved",
   "theorems": [
    "C124_layout",
    "C124_row_major"
   ],
   "note": "All ranks and extents, over unbounded integers: overflow of int64_t is not modelled."
  },
  {
   "property": "C125",
   "status": "proved",
   "theorems": [
    "C125_sum",
    "C125_prod",
    "C125_permute",
    "C125_adjoint",
    "C125_scale",
    "C125_phase",
    "C125_library_exists"
   ],
   "note": "For every library that keeps TAPP's promise for one product (a reference implementation is proved to keep it), exact arithmetic, annotations without repeated labels, beta = 0. Rounding is not modelled."
  },
  {
   "property": "C126",
   "status": "proved",
   "theorems": [
    "C126_ranking",
    "C126_cycles",
    "C126_overlap_matrix"
   ],
   "note": "All numbers of particles. Exact rationals for Eigen's doubles. libperm is written out (Myrvold-Ruskey ranking, as the code's comment says); both composition orders are covered."
  },
  {
   "property": "C127",
   "status": "partial",
   "theorems": [
    "C127_pseudoinverse_unique",
    "C127_available",
    "C127_first_row",
    "BioExamples.C127_matrix_refuted"
   ],
   "note": "The two rows that a single result uses are those of the normalized pseudoinverse for every hard-coded number of particles, 1 to 5. The full matrix built from the row is not: it is not symmetric for three particles (n - 1 - row is not the rank of the inverse permutation), under either composition order. The floating point matrix for six and more particles is not modelled."
  },
  {
   "property": "C128",
   "status": "partial",
   "theorems": [
    "C128_single",
    "C128_scalar_throws",
    "C128_undoes_overlap",
    "BioExamples.C128_several_results_refuted"
   ],
   "note": "One result, second indices in one space, 1 to 5 particles, simplification left out. For several results of three particles the coefficients are wrong, because the matrix is."
  },
  {
   "property": "C129",
   "status": "partial",
   "theorems": [
    "C129_small_unchanged",
    "C129_weights",
    "C129_keeps_range",
    "C129_lands_in_range",
    "C129_twice",
    "BioExamples.C129_idempotent_refuted"
   ],
   "note": "Three to five ket slots, exact arithmetic. Because the weights carry the factor n!/rank the operation is not a projector: applying it twice multiplies by that factor once more."
  },
  {
   "property": "C13",
   "status": "proved",
   "theorems": [
    "C13_optimal",
    "C13_strict",
    "C13_pruned",
    "C13_frontier"
   ],
   "note": "exact integers; tolerance as a rational num/den"
  },
  {
   "property": "C130",
   "status": "partial",
   "theorems": [
    "C130_terms_partial",
    "BioExamples.C130_mixed_spaces_refuted"
   ],
   "note": "Proved when the second indices of the pairs share a space (any number of particles). With three particles and second indices in two spaces a term arises in which one external index occurs twice and another is missing."
  },
  {
   "property": "C131",
   "status": "partial",
   "theorems": [
    "C131_filter",
    "C131_no_group_lost",
    "BioExamples.C131_bare_terms_refuted"
   ],
   "note": "The group of a term (the hash of its canonicalized network) is a parameter. Terms that are not products are dropped with three or more external groups."
  },
  {
   "property": "C132",
   "status": "proved",
   "theorems": [
    "C132_cumulants",
    "RdmExamples.canonical_nat"
   ],
   "note": "Any indices, also repeated ones. Screening of equal terms by canonical form is a relation with its contract: equal scalars and the same factors up to order."
  },
  {
   "property": "C133",
   "status": "proved",
   "theorems": [
    "C133_one_body",
    "C133_two_body",
    "C133_product",
    "C133_sum"
   ],
   "note": "Values of expressions; operators have expectation values. The operator in the two-body term stands for the normal-ordered one."
  },
  {
   "property": "C134",
   "status": "partial",
   "theorems": [
    "C134_three_body",
    "RdmExamples.state_exists"
   ],
   "note": "Distinct upper and distinct lower indices. Simplification between the steps is left out, replacement goes to any depth instead."
  },
  {
   "property": "C135",
   "status": "partial",
   "theorems": [
    "C135_rank_two",
    "C135_rank_one",
    "C135_other_ranks"
   ],
   "note": "As C134. The fast branch of rank 2 is not modelled, nor the substitution in a whole expression."
  },
  {
   "property": "C136",
   "status": "partial",
   "theorems": [
    "C136_rank_three_refuted",
    "C136_cumu3_refuted"
   ],
   "note": "The statement is false. Rank 3 uses the default approximation, which drops the three-body cumulant; the conversion of a three-body cumulant to densities multiplies where it should subtract and then always fails."
  },
  {
   "property": "C137",
   "status": "proved",
   "theorems": [
    "C137_equal",
    "C137_no_assertion"
   ],
   "note": "All tensors, also with empty slots and spaces of different registries."
  },
  {
   "property": "C138",
   "status": "partial",
   "theorems": [
    "C138_block_order_partial",
    "BlkExamples.C138_order_refuted",
    "BlkExamples.C138_transitive_refuted",
    "BlkExamples.registry_example"
   ],
   "note": "Proved for spaces of one registry. False in general: spaces with equal attributes and different keys differ but are not ordered, so that different blocks compare as equivalent and equivalence is not transitive."
  },
  {
   "property": "C139",
   "status": "partial",
   "theorems": [
    "C139_specific_equal",
    "C139_specific_order_partial",
    "C139_none_specific"
   ],
   "note": "Equality for all tensors, the order for spaces of one registry (see C138)."
  },
  {
   "property": "C14",
   "status": "partial",
   "theorems": [
    "C14_optimize_partial",
    "C14_shape",
    "C14_additive_model",
    "C14_peak_model",
    "C14_optimize_then_binarize",
    "StoExample.C14_nested_scalar_refuted",
    "StoExample.C14_few_tensors_refuted"
   ],
   "note": "For all expressions whose products have fewer than three factors or at least two (and at most 24) factors that are not scalars, and whose scalar factors that are products have the scalar 1: optimising succeeds and preserves indices and value (also with hyperindices), for every tree the cost models return; the shape of the result is characterised. Refuted outside: a nested scalar product counts its scalar twice; three factors with fewer than two tensors fail. Missing: normal operators, protoindices."
  },
  {
   "property": "C140",
   "status": "partial",
   "theorems": [
    "C140_block_map_partial",
    "BlkExamples.C140_map_refuted"
   ],
   "note": "std::map is its ordered list of entries. One registry; otherwise an entry can be overwritten by one with another block."
  },
  {
   "property": "C141",
   "status": "proved",
   "theorems": [
    "C141_history",
    "HugExamples.par_equivalence",
    "HugExamples.C141_not_transitive_refuted",
    "C141_sets"
   ],
   "note": "For every edge equality that is an equivalence, with and without assertions. A witness shows that an equality that is not transitive gives wrong groups."
  },
  {
   "property": "C142",
   "status": "proved",
   "theorems": [
    "C142_refused"
   ],
   "note": "After every allowed history. Without assertions erase ignores the edge, which is stated."
  },
  {
   "property": "C143",
   "status": "proved",
   "theorems": [
    "C143_history_independent"
   ],
   "note": "Representatives may differ, up to equivalence."
  },
  {
   "property": "C144",
   "status": "proved",
   "theorems": [
    "C144_groups_kept"
   ],
   "note": "For all calls that succeed, also with an equality that is no equivalence."
  },
  {
   "property": "C145",
   "status": "proved",
   "theorems": [
    "C145_counts",
    "C145_views",
    "C145_new",
    "C145_adjoint"
   ],
   "note": "Histories of insert, erase, adjoint, transform_indices, hug and hash_value. Index::transform is an arbitrary function on indices."
  },
  {
   "property": "C146",
   "status": "partial",
   "theorems": [
    "C146_hug_partial",
    "NopExamples.space_equivalence",
    "NopExamples.C146_hug_refuted",
    "NopExamples.C146_erase_fails_refuted"
   ],
   "note": "Proved for replacements of indices by ones of the same type. False otherwise: transform_indices does not reset the vertex. Hashes taken in between are left out (C147)."
  },
  {
   "property": "C147",
   "status": "partial",
   "theorems": [
    "C147_hash_partial",
    "C147_equal_partial",
    "NopExamples.C147_hash_refuted"
   ],
   "note": "Proved if nothing is inserted or erased once the hash is taken. False otherwise: insert and erase do not reset the memoized hash, so that equal operators compare as different, or an assertion fails."
  },
  {
   "property": "C148",
   "status": "proved",
   "theorems": [
    "C148_value",
    "C148_out_of_range",
    "C148_not_valid",
    "C148_not_fully_parsed",
    "C148_every_value",
    "CnvExamples.denotes_example"
   ],
   "note": "All integer types, given by their bounds, and bases 2 to 36. std::from_chars is modelled by its definition in the C++ standard."
  },
  {
   "property": "C149",
   "status": "partial",
   "theorems": [
    "C149_wide_partial",
    "C149_not_numeric",
    "CnvExamples.C149_negative_refuted"
   ],
   "note": "Proved for strings without negative characters. False otherwise where wchar_t is signed: negative characters pass the test and are truncated to 8 bits."
  },
  {
   "property": "C15",
   "status": "partial",
   "theorems": [
    "C15_reorder",
    "C15_clusters",
    "C15_shared",
    "C15_same_cluster_partial",
    "C15_exponential",
    "C15_terms_have_intermediates",
    "C15_optimized_sum",
    "CluExample.C15_same_cluster_refuted"
   ],
   "note": "Reordering terminates and is a permutation of the terms (every term that can be binarized has an intermediate); the clusters are characterised exactly; terms that share an intermediate are in one cluster if sharing is transitive. Refuted in general: terms 1 and 2 may share an intermediate and be in different clusters. The search takes more than 2^n steps for a chain of n+1 terms with four intermediates each."
  },
  {
   "property": "C150",
   "status": "proved",
   "theorems": [
    "C150_connections",
    "C150_other_factors"
   ],
   "note": "All products of operators, normal operators and other factors; all lists of label pairs."
  },
  {
   "property": "C151",
   "status": "proved",
   "theorems": [
    "C151_value",
    "C151_screening",
    "VacExamples.hypotheses_met"
   ],
   "note": "The tensor level, expansion and the vanishing of screened products are parameters with their contracts; values are in a ring, so that simplification is the identity. skip_clone, use_topology and full_contractions are not modelled."
  },
  {
   "property": "C152",
   "status": "proved",
   "theorems": [
    "C152_value",
    "C152_throws"
   ],
   "note": "In every commutative ring and for every value of the atoms. Indices have no proto-indices; sharing of subexpressions is not modelled."
  },
  {
   "property": "C153",
   "status": "partial",
   "theorems": [
    "C153_value_partial",
    "C153_equality",
    "C153_no_match",
    "C153_composite",
    "RepExamples.documentation",
    "RepExamples.hypotheses_met",
    "RepExamples.C153_root_refuted",
    "RepExamples.C153_nested_refuted"
   ],
   "note": "Proved for every comparison if the whole expression is not itself the match and the replacement has no sum or product as a factor; for equality also if the whole expression is the match. False otherwise: a match that is the whole expression does not get its indices, and a replacement with a sum in a product is refused if it shares an index with the target. The overload for ResultExpr is not modelled."
  },
  {
   "property": "C154",
   "status": "proved",
   "theorems": [
    "C154_parity",
    "C154_after_reset",
    "SwcExamples.hypotheses_met"
   ],
   "note": "All interleavings of the loads and stores of all threads."
  },
  {
   "property": "C155",
   "status": "proved",
   "theorems": [
    "C155_load",
    "C155_zero"
   ],
   "note": "All histories of calls and all maps given to the constructor. Objects that the order of the map does not tell apart are the same object."
  },
  {
   "property": "C156",
   "status": "partial",
   "theorems": [
    "C156_set_load_partial",
    "C156_set_zero_partial",
    "EcxExamples.counts_met",
    "EcxExamples.C156_other_strategy_refuted",
    "EcxExamples.C156_constructor_refuted"
   ],
   "note": "Proved if the object is in the global scope already, or in no scope that counts, or if nothing is set globally and the call is for the current expression. False otherwise: setting one strategy globally hides both strategies of the current expression, so that the other one falls back to its default; preprocessing sets leaves to be loaded in the current expression, which has no effect for an object in a map given to the constructor."
  },
  {
   "property": "C157",
   "status": "proved",
   "theorems": [
    "C157_t",
    "C157_lambda",
    "CcmExamples.hypotheses_met"
   ],
   "note": "Linearity of the expectation value and the vanishing of screened terms are premises (proved for their models in C151 and C66). The expectation values, the transformed Hamiltonian and the screening functions are parameters."
  },
  {
   "property": "C158",
   "status": "partial",
   "theorems": [
    "C158_unscreened",
    "C158_screened_partial",
    "CcmExamples.C158_null_refuted"
   ],
   "note": "With screening exactly the calls succeed in which every rank asked for is reached by some term. Otherwise, for instance for ranks above what the truncated expansion reaches, a null pointer is used where the result should be zero."
  },
  {
   "property": "C159",
   "status": "proved",
   "theorems": [
    "C159_equations",
    "C159_refused",
    "C159_negative",
    "EomExamples.hypotheses_met"
   ],
   "note": "The expectation value is a parameter. Finding: one negative and one positive number pass the assertion and a null pointer is used (C159_negative)."
  },
  {
   "property": "C16",
   "status": "proved",
   "theorems": [
    "C16_visit",
    "C16_visit_const",
    "C16_calls",
    "C16_orders",
    "C16_pruning",
    "C16_none",
    "C16_nonroot_leaf_refuted",
    "C16_nonroot_internal_refuted"
   ],
   "note": "proved for roots as stated; the two _refuted theorems show that a traversal started below a root leaves its subtree or trips the assertion"
  },
  {
   "property": "C160",
   "status": "partial",
   "theorems": [
    "C160_element_zero_partial",
    "EomExamples.C160_element_zero_refuted"
   ],
   "note": "Element 0 is null exactly if the numbers of particles and holes are equal. Otherwise it is the equation of the lowest sector, against the documentation of cc.hpp."
  },
  {
   "property": "C17",
   "status": "proved",
   "theorems": [
    "C17_deep_copy",
    "C17_copy_constructor",
    "C17_transform",
    "C17_fold_constructor",
    "C17_fold_left_to_node",
    "C17_size"
   ],
   "note": ""
  },
  {
   "property": "C18",
   "status": "partial",
   "theorems": [
    "C18_equal_iff",
    "C18_no_throw_partial",
    "C18_throws_refuted"
   ],
   "note": "the comparison is exact, but it throws when a leaf meets an internal node with equal data; absence of the exception is proved for equal shapes and for payloads that tell leaves from internal nodes"
  },
  {
   "property": "C19",
   "status": "proved",
   "theorems": [
    "C19_history",
    "C19_unregistered",
    "C19_reads",
    "C19_persistent",
    "C19_reset",
    "C19_wrap_refuted",
    "C19_alive_count_refuted"
   ],
   "note": "for use counts up to 2^32; the life counter is cast to int, so 2^32+1 uses are lost (C19_wrap_refuted); alive_count() adds up lives instead of counting entries (C19_alive_count_refuted)"
  },
  {
   "property": "C20",
   "status": "proved",
   "theorems": [
    "C20_value",
    "C20_any_cache",
    "C20_fresh_cache",
    "C20_reset"
   ],
   "note": "leaf, product-hook and custom evaluators are parameters; equal keys are assumed to denote equal values up to the phase, as the property says"
  },
  {
   "property": "C21",
   "status": "proved",
   "theorems": [
    "C21_computed_once",
    "C21_use_counts"
   ],
   "note": "for forests of at most 2^32 nodes; every intermediate, shared or not, is computed exactly once"
  },
  {
   "property": "C22",
   "status": "partial",
   "theorems": [
    "C22_sum_partial",
    "C22_alias_refuted",
    "C22_leaf_alias_refuted"
   ],
   "note": "false without a layout when the first term is cached or is a leaf object kept by the leaf evaluator: the accumulator then aliases it (two counterexamples); proved with a layout, or when the first term is an internal node that is not a cache key"
  },
  {
   "property": "C23",
   "status": "proved",
   "theorems": [
    "C23_constructor",
    "C23_add",
    "C23_sub",
    "C23_scale",
    "C23_div",
    "C23_add_comm",
    "C23_add_assoc",
    "C23_sub_self",
    "CostExample.C23_scale_zero_refuted",
    "CostExample.C23_constant_refuted",
    "CostExample.C23_max_refuted"
   ],
   "note": "Exact rational values (the code returns a double). Multiplying by zero keeps the value but not the normal form; constant costs are dropped; the infinite cost is excluded from subtraction."
  },
  {
   "property": "C24",
   "status": "partial",
   "theorems": [
    "C24_trichotomy",
    "C24_transitive_partial",
    "C24_scale",
    "CostExample.C24_monotone_refuted",
    "CostExample.C24_cycle_refuted"
   ],
   "note": "Trichotomy and consistency of all comparison operators for all costs; transitivity for costs with equally many terms. The full claim is false: < has a cycle, and adding a positive cost can make a cost smaller."
  },
  {
   "property": "C25",
   "status": "partial",
   "theorems": [
    "C25_product_constructor",
    "C25_product_from_expression",
    "C25_append",
    "C25_times",
    "C25_nctimes",
    "C25_times_assign",
    "C25_prepend_partial",
    "C25_clone",
    "ExprExample.C25_prepend_product_refuted"
   ],
   "note": "everything but Product::prepend of a factor that is itself a product, for which the claim is false of the code (C25_prepend_product_refuted): flattening prepend reverses the factors, and with Flatten::No the scalar counts twice. The operators never do that"
  },
  {
   "property": "C26",
   "status": "proved",
   "theorems": [
    "C26_sum_constructor",
    "C26_append",
    "C26_prepend",
    "C26_plus",
    "C26_minus",
    "C26_plus_assign",
    "C26_minus_assign"
   ],
   "note": "null pointers included for the in-place operators; the operand must not be the object itself"
  },
  {
   "property": "C27",
   "status": "proved",
   "theorems": [
    "C27_expand"
   ],
   "note": "termination included: every sufficient number of rounds gives the same result"
  },
  {
   "property": "C28",
   "status": "proved",
   "theorems": [
    "C28_flatten"
   ],
   "note": ""
  },
  {
   "property": "C29",
   "status": "proved",
   "theorems": [
    "C29_rapid_simplify",
    "ExprExample.C29_zero_power_refuted"
   ],
   "note": "the value is preserved for all expressions; the normal form holds if no leaf reports to be zero, and C29_zero_power_refuted shows that the restriction is needed"
  },
  {
   "property": "C30",
   "status": "partial",
   "theorems": [
    "C30_value_partial",
    "C30_no_like_terms_partial",
    "AccExample.C30_two_constants_refuted",
    "AccExample.C30_merged_constants_refuted",
    "AccExample.C30_move_only_refuted"
   ],
   "note": "For every lookup function a hash set could implement, every insertion sequence and every iteration order: value preserved, no like terms left if the hash agrees with the equivalence. Missing: more than one Constant among the terms, where the claim is false (undefined behaviour, or twice the last constant), and terms not in the form the constructors produce."
  },
  {
   "property": "C31",
   "status": "proved",
   "theorems": [
    "C31_adjoint_value",
    "C31_adjoint_member",
    "C31_adjoint_form"
   ],
   "note": "value for all expressions; exact form and involution for expressions as the constructors build them"
  },
  {
   "property": "C32",
   "status": "proved",
   "theorems": [
    "C32_wick_full",
    "C32_repeated_operator_refuted"
   ],
   "note": "for sequences whose elementary operators are pairwise different and not all absent; a repeated operator trips an assertion. is_qpannihilator, can_contract and contract are parameters tied to the algebra by hypotheses"
  },
  {
   "property": "C33",
   "status": "proved",
   "theorems": [
    "C33_wick_partial"
   ],
   "note": "same assumptions as C32"
  },
  {
   "property": "C34",
   "status": "proved",
   "theorems": [
    "C34_normalize_sign",
    "C34_normalize_value"
   ],
   "note": ""
  },
  {
   "property": "C35",
   "status": "proved",
   "theorems": [
    "C35_normalize_columns"
   ],
   "note": "for every requested pair, not only those of the first columns"
  },
  {
   "property": "C36",
   "status": "proved",
   "theorems": [
    "C36_count_full",
    "C36_count_partial",
    "C36_partial_patterns"
   ],
   "note": "the terms are moreover exactly the admissible patterns, each once, with its sign"
  },
  {
   "property": "C37",
   "status": "proved",
   "theorems": [
    "C37_loops",
    "C50_connections"
   ],
   "note": "loops are counted as spin labellings of the columns compatible with the contractions, of which there are 2^loops; C50_connections states the factor for the terms produced"
  },
  {
   "property": "C38",
   "status": "partial",
   "theorems": [
    "C38_idempotent",
    "C38_same_quantum_numbers_partial",
    "C38_disjoint_quantum_numbers",
    "RegExample.C38_different_quantum_numbers_refuted"
   ],
   "note": "Proved after every history for spaces with equal or disjoint quantum numbers. False for quantum numbers that overlap without being equal: the result has the quantum numbers of the first argument."
  },
  {
   "property": "C39",
   "status": "proved",
   "theorems": [
    "C39_tensor",
    "C39_product",
    "C39_unique",
    "C39_order",
    "UniqueExample.C39_three_occurrences_refuted",
    "UniqueExample.C39_empty_slot_refuted"
   ],
   "note": "All expressions without operators in which no index occurs more than twice (sums through their first summand). Outside of that: an index that occurs three times may be reported, and so is a single empty slot."
  },
  {
   "property": "C40",
   "status": "proved",
   "theorems": [
    "C40_subset_open",
    "C40_target_indices",
    "C40_documented_claim_refuted"
   ],
   "note": "the doc comment's stronger claim about target indices is refuted"
  },
  {
   "property": "C41",
   "status": "proved",
   "theorems": [
    "C41_ltr",
    "C41_final",
    "LtrExample.C41_note_refuted",
    "LtrExample.C41_empty_range_refuted"
   ],
   "note": "All nonempty ranges. The documentation's notes on indices that occur once are false of the code; the empty range is undefined."
  },
  {
   "property": "C42",
   "status": "partial",
   "theorems": [
    "C42_optimizer_partial",
    "C42_allocated_once",
    "C42_computations",
    "C42_terminates",
    "C42_cancelled",
    "C42_unchanged",
    "GenExample.C42_computation_lost_refuted",
    "GenExample.C42_zeroing_lost_refuted",
    "GenExample.C42_discarded_value_refuted",
    "GenExample.C42_accepted_refuted"
   ],
   "note": "Proved with assertions enabled: if the optimizer finishes, the program it passes on can be executed, makes the same computations on the same values in the same order and ends in the same state, provided objects that are loaded and unloaded are only read and no zeroing, creation, destruction or persistence was removed (automatic when non-input objects are allocated once). Refuted without these conditions: with assertions disabled (the default build) a computation is lost for R = A B + B A; a zeroing load is removed; a discarded value is kept; some executable programs hit an assertion or an out-of-range access."
  },
  {
   "property": "C43",
   "status": "proved",
   "theorems": [
    "C43_symmetric_permutation"
   ],
   "note": ""
  },
  {
   "property": "C44",
   "status": "proved",
   "theorems": [
    "C44_destroy",
    "C44_move_assign",
    "C44_move_constructor",
    "C44_copy_assign"
   ],
   "note": ""
  },
  {
   "property": "C45",
   "status": "proved",
   "theorems": [
    "C45_digraph"
   ],
   "note": ""
  },
  {
   "property": "C46",
   "status": "proved",
   "theorems": [
    "C46_extract"
   ],
   "note": "for predicates that look no deeper than the children's payloads; deeper ones see already rewritten subtrees"
  },
  {
   "property": "C47",
   "status": "proved",
   "theorems": [
    "C47_classification",
    "C47_counts",
    "C47_flags_kept",
    "C47_reset_sound"
   ],
   "note": ""
  },
  {
   "property": "C48",
   "status": "partial",
   "theorems": [
    "C48_peak_cache_sums",
    "C48_peak_refuted"
   ],
   "note": "the property is false of the code: peak_cache never releases anything because it stores null pointers; what it computes is characterised exactly"
  },
  {
   "property": "C49",
   "status": "proved",
   "theorems": [
    "C49_mode_batches",
    "C49_empty"
   ],
   "note": "tiles are non-empty intervals; an empty tile after an oversized one would give an empty batch"
  },
  {
   "property": "C50",
   "status": "proved",
   "theorems": [
    "C50_connections",
    "C50_partial_mode_refuted",
    "C50_contraction_free_refuted",
    "C50_empty_operators_refuted"
   ],
   "note": "for full contractions and at most 32 normal operators; three theorems show inputs outside the scope for which the constraint is not enforced"
  },
  {
   "property": "C51",
   "status": "partial",
   "theorems": [
    "C51_can_contract",
    "C51_contract_partial",
    "RegExample.C51_order_refuted"
   ],
   "note": "The decision is right for every registry and operators over registered spaces; the value is right if the occupied subspaces are the lowest bits, and wrong without that."
  },
  {
   "property": "C52",
   "status": "proved",
   "theorems": [
    "C52_append_self",
    "C52_collect_objects",
    "C52_collect_same_object",
    "C52_append_self_refuted",
    "C52_collect_shared_refuted"
   ],
   "note": "Exact characterisation with an explicit store: x *= x and x += x are defined exactly when the vector has spare capacity; appending one object n+1 times to the accumulator gives 2^n times its value."
  },
  {
   "property": "C53",
   "status": "partial",
   "theorems": [
    "C53_union",
    "C53_valid_union_partial",
    "C53_valid_intersection_partial",
    "RegExample.C53_valid_union_symmetric_refuted",
    "RegExample.C53_valid_union_refuted",
    "RegExample.C53_valid_intersection_refuted"
   ],
   "note": "Union exact for equal quantum numbers, the only ones accepted. The predicates agree with the operations for equal quantum numbers only, and valid_unIon is not symmetric."
  },
  {
   "property": "C54",
   "status": "partial",
   "theorems": [
    "C54_unambiguous",
    "C54_ordered",
    "C54_add",
    "C54_remove",
    "C54_lookup",
    "C54_label",
    "RegExample.C54_digit_key_refuted",
    "RegExample.C54_reduce_idempotent_refuted",
    "RegExample.C54_underscore_key_refuted",
    "RegExample.C54_replace_refuted"
   ],
   "note": "All histories of add, remove, replace, add_union, add_intersection. False: lookup by label for keys with digits or underscores; replace that throws loses the space."
  },
  {
   "property": "C55",
   "status": "partial",
   "theorems": [
    "C55_add_union",
    "C55_add_intersection",
    "C55_single_subspace_refuted"
   ],
   "note": "What is registered is the union or intersection of the components; but one that consists of a single basis subspace can never be registered."
  },
  {
   "property": "C56",
   "status": "partial",
   "theorems": [
    "C56_base_spaces_partial",
    "RegExample.C56_assignment_refuted",
    "RegExample.C56_clear_refuted",
    "RegExample.C56_copy_refuted",
    "RegExample.C56_mask_refuted",
    "RegExample.C56_duplicates_refuted"
   ],
   "note": "Right for all histories of independent objects whose mask is not changed after a query; false after assignment, clear, adding to a copy, changing the mask; types may be listed twice."
  },
  {
   "property": "C57",
   "status": "partial",
   "theorems": [
    "C57_conventions_partial",
    "C57_QCiFS_refuted"
   ],
   "note": "All contractions over all registered spaces of five of the six conventions, with and without spin; in QCiFS every contraction of an annihilator throws."
  },
  {
   "property": "C58",
   "status": "partial",
   "theorems": [
    "C58_bitsets",
    "C58_complement_refuted"
   ],
   "note": "Union, intersection, symmetric difference and inclusion for all values below 2^31; the complement always violates the constructor's assertion."
  },
  {
   "property": "C59",
   "status": "partial",
   "theorems": [
    "C59_without_assertions",
    "C59_empty_map_refuted",
    "C59_with_assertions_refuted"
   ],
   "note": "Right for nonempty maps if assertions are off; with assertions on it never succeeds; an empty map is always refused."
  },
  {
   "property": "C60",
   "status": "proved",
   "theorems": [
    "C60_uncontracted",
    "ContractExample.C60_bra_bra_refuted"
   ],
   "note": "All pairs of tensors that share indices only between bra and ket or between aux groups; an index shared by two bras is returned twice."
  },
  {
   "property": "C61",
   "status": "proved",
   "theorems": [
    "C61_counts",
    "C61_used"
   ],
   "note": "All expressions and all assignments of protoindices."
  },
  {
   "property": "C62",
   "status": "proved",
   "theorems": [
    "C62_tot"
   ],
   "note": "Sequence containers."
  },
  {
   "property": "C63",
   "status": "proved",
   "theorems": [
    "C63_tensor",
    "C63_antisymmetrizer",
    "C63_symmetrizer",
    "C63_with_symmetrizer",
    "C63_symmetrized_product",
    "C63_unsymmetrized"
   ],
   "note": "All tensors; all sums and products."
  },
  {
   "property": "C64",
   "status": "partial",
   "theorems": [
    "C64_sum",
    "C64_product",
    "C64_tensor_product",
    "ValidExample.C64_repeated_index_refuted",
    "ValidExample.C64_empty_sum_refuted"
   ],
   "note": "Exact for sums, and for products of tensors without repeated indices; false for an index that occurs twice in one factor; undefined for an empty sum. Zero denominators are not modelled."
  },
  {
   "property": "C65",
   "status": "partial",
   "theorems": [
    "C65_binarize_partial",
    "C65_usual_reading",
    "C65_order_of_factors",
    "C65_nested_factor",
    "C65_keepable",
    "C65_value_of_open_indices",
    "BinExample.C65_trace_refuted",
    "BinExample.C65_failures"
   ],
   "note": "For all well-formed expressions of constants, variables, tensors, sums and products (no index twice in a tensor, no protoindices): binarize succeeds and the tree has the indices and the value of the expression, also with kept (hyper)indices. Missing: protoindices. Refuted for tensors with a repeated index: c T{i;i} keeps the traced index."
  },
  {
   "property": "C66",
   "status": "partial",
   "theorems": [
    "C66_export_partial",
    "ExpExample.C66_scalar_lost_refuted",
    "ExpExample.C66_not_released_refuted",
    "ExpExample.C66_zeroed_refuted",
    "ExpExample.C66_leaf_refuted",
    "ExpExample.C66_result_as_input_refuted"
   ],
   "note": "Proved for all trees in which every sum below a product adds leaves only, all array arithmetics with the usual laws, all initial stores and all choices of prunable scalars: the export succeeds and the program leaves memory empty, stores the value of the tree under the root's name and changes nothing else. Refuted beyond that: the scalar in 2 (A B + C D) is lost, the intermediate of a sum of products below a product is never released, it is zeroed between its terms when it is reused, a lone leaf is loaded and never stored, and a result that is also an input is read after it has been overwritten. One expression, default strategies, products and sums only (no adjoints, no powers)."
  },
  {
   "property": "C67",
   "status": "proved",
   "theorems": [
    "C67_fuse_left",
    "C67_fuse_right",
    "C67_defined",
    "C67_scalars",
    "C67_gcd",
    "FusExample.C67_zero_refuted"
   ],
   "note": "All five parts for all products and all rings with central scalars. The condition on the scalars is needed: two zero scalars end in a division by zero (C67_zero_refuted). The header's remark that only equal scalars are factored out (1/2 and 1/4 stay inside) does not describe the code, which takes out the greatest common divisor."
  },
  {
   "property": "C68",
   "status": "partial",
   "theorems": [
    "C68_patterns",
    "C68_matrix_element",
    "C68_screen",
    "C68_ranks",
    "C68_contents",
    "C68_adjoint",
    "C68_defined",
    "QnExample.C68_composite_space_refuted",
    "QnExample.C68_physical_refuted"
   ],
   "note": "Screening and the rank tests are sound for all products of operators whose terms keep what the operator declares, for any algebra with the canonical (anti)commutation relations and any context whose occupied base spaces have the lowest bits. The operators t, lambda, general k-body, A, S, and r and l on the particle and hole spaces of the registry, keep what they declare. Refuted: r and l with explicit composite spaces do not (a nonzero expectation value is screened out, C68_composite_space_refuted), and in the physical vacuum r with different ranks declares the ranks the wrong way round (C68_physical_refuted)."
  },
  {
   "property": "C69",
   "status": "partial",
   "theorems": [
    "C69_order",
    "C69_value",
    "C69_trees",
    "C69_normal",
    "C69_operators",
    "C69_product",
    "C69_asymmetric",
    "C69_definite",
    "ComExample.C69_general_refuted",
    "ComExample.C69_active_refuted",
    "ComExample.C69_normal_refuted",
    "ComExample.C69_unique_refuted"
   ],
   "note": "The sorting itself is proved for every commutation test. The test for many-body operators is sound if one of the two operators declares a definite change (excitation and deexcitation operators when the particle and the hole space are base spaces). Refuted otherwise: two general operators are always found to commute and are sorted by label (C69_general_refuted); with active orbitals t lambda becomes lambda t (C69_active_refuted); the test for normal operators is one-sided and ignores statistics (C69_normal_refuted; both orders and parity suffice, C69_normal); the canonical order of equal products is not unique (C69_unique_refuted)."
  },
  {
   "property": "C70",
   "status": "proved",
   "theorems": [
    "C70_spin_free",
    "C70_spin_labelled"
   ],
   "note": "For tensors with as many bra as ket indices (the function throws otherwise) and distinct indices. The components of a tensor are taken from any function over any index ranges into any commutative ring that contains the rationals; the antisymmetric tensor is the signed sum over the permutations of its bra."
  },
  {
   "property": "C71",
   "status": "partial",
   "theorems": [
    "C71_antisymmetrizer",
    "C71_symmetrize",
    "C71_symmetrizer",
    "C71_transposition",
    "SpnExample.C71_lone_variable_refuted",
    "SpnExample.C71_two_transpositions_refuted",
    "SpnExample.C71_unequal_ranks_refuted"
   ],
   "note": "For one operator per product. Refuted: S_maps loses a lone variable of a sum (it tests the sum, not the summand); expand_P_op adds the results of two transposition operators instead of composing them; symmetrize_expr fails for an antisymmetrizer with different numbers of bra and ket indices although a branch for it exists (rank() throws before it is reached)."
  },
  {
   "property": "C72",
   "status": "partial",
   "theorems": [
    "C72_spintrace_labelled",
    "C72_spintrace_spinfree",
    "SpnExample.C72_nonsymm_refuted",
    "SpnExample.C72_auxiliary_refuted"
   ],
   "note": "Proved for products with at most one antisymmetrizer over external indices, without auxiliary indices, with at most 63 internal indices and groups. Refuted without the restrictions: a tensor of rank two that is not antisymmetric is kept for spins that its columns do not conserve, and the spin-free result counts it (C72_nonsymm_refuted); each auxiliary index is given a spin and doubles the result (C72_auxiliary_refuted)."
  },
  {
   "property": "C73",
   "status": "proved",
   "theorems": [
    "C73_closed_shell",
    "C73_algorithms_agree",
    "SpnExample.C73_algorithms_disagree_refuted"
   ],
   "note": "For external groups that are pairs (asserted by the code) whose indices occur in every product, and for antisymmetrizers over external indices; with full_expansion=false the columns of the antisymmetrizer must be the groups. The agreement with spintrace holds under the restrictions of C72 and fails without them (C73_algorithms_disagree_refuted)."
  },
  {
   "property": "C74",
   "status": "partial",
   "theorems": [
    "C74_open_shell_partial",
    "SpnExample.C74_sums_refuted"
   ],
   "note": "Proved for sums whose terms have the same internal indices. Refuted for other sums: the spins of all internal indices of the sum are enumerated for each term, so that a term is counted twice for each internal index that it lacks (C74_sums_refuted)."
  },
  {
   "property": "C75",
   "status": "partial",
   "theorems": [
    "C75_signs_partial",
    "SpnExample.C75_three_indices_refuted"
   ],
   "note": "Proved for up to two indices. Refuted for three (C75_three_indices_refuted): the signs are taken to alternate along std::next_permutation, which they do not; a debug build stops at an assertion."
  },
  {
   "property": "C76",
   "status": "partial",
   "theorems": [
    "C76_equality",
    "C76_order_untagged",
    "C76_order_tagged",
    "TsrExample.C76_mixed_tags_refuted",
    "TsrExample.C76_keys_refuted"
   ],
   "note": "Equality is proved for all indices. The order is proved for indices in the spaces of one registry (different spaces differ in their attributes) that are all tagged or all not tagged. Refuted otherwise: tagged and untagged indices together can be ordered in a cycle; indices in spaces that differ in the key only are different, but neither is less."
  },
  {
   "property": "C77",
   "status": "partial",
   "theorems": [
    "C77_label_order",
    "C77_full_label_order",
    "C77_full_label_recursion",
    "TsrExample.C77_keys_refuted"
   ],
   "note": "Proved for the spaces of one registry. Refuted for spaces that differ in the key only: not being ordered is then not transitive."
  },
  {
   "property": "C78",
   "status": "partial",
   "theorems": [
    "C78_index_order",
    "C78_pair_order",
    "C78_block_order",
    "TsrExample.C78_keys_refuted"
   ],
   "note": "Proved for the spaces of one registry and for indices that are tagged, as the canonicalizers tag them. Refuted for spaces that differ in the key only: each of two indices compares greater than the other."
  },
  {
   "property": "C79",
   "status": "partial",
   "theorems": [
    "C79_constructor",
    "C79_adjoint",
    "C79_adjoint_twice",
    "TsrExample.C79_adjoint_twice_refuted",
    "TsrExample.C79_representation_refuted",
    "TsrExample.C79_label_refuted",
    "TsrExample.C79_set_bra_refuted"
   ],
   "note": "The adjoint of the adjoint has the same columns and label; it is the tensor itself exactly if the tensor does not have empty ket slots at the end. Refuted: such a tensor is not equal to its second adjoint, nor to the tensor made from the same columns without the empty slots; a label that ends with two adjoint marks is not restored; set_bra leaves the number of bra indices as it was, so that the slots are not put in order later. The special treatment of the (anti)symmetrizer labels is not modelled."
  },
  {
   "property": "C80",
   "status": "partial",
   "theorems": [
    "C80_value",
    "C80_default_value",
    "C80_canonical",
    "C80_idempotent",
    "C80_external_first",
    "TsrExample.C80_external_first_refuted",
    "TsrExample.C80_slot_order_refuted"
   ],
   "note": "The value is kept for every comparer for which the sorts end. Uniqueness and idempotence are proved for tensors made by the constructor and adjoint, with untagged indices in the spaces of one registry. Refuted: the documented order of external before internal indices holds only among indices of the same kind (same space, same spaces of proto-indices); the canonical form of a tensor with empty slots need not have its slots in the order that the constructor makes."
  },
  {
   "property": "C81",
   "status": "partial",
   "theorems": [
    "C81_value",
    "C81_no_exchange",
    "C81_block",
    "C81_mirror",
    "C81_oriented",
    "TsrExample.C81_mirror_refuted",
    "TsrExample.C81_padding_refuted"
   ],
   "note": "The sort of the standard library is any function that sorts. A tensor and its mirror image get the same block if they have no empty slots and bra and ket differ in their spaces. Refuted: with the same spaces in bra and ket they can get different blocks; an empty slot at the end of the ket changes the orientation."
  },
  {
   "property": "C82",
   "status": "partial",
   "theorems": [
    "C82_equality",
    "C82_order",
    "TsrExample.C82_symmetry_refuted",
    "TsrExample.C82_collision_refuted"
   ],
   "note": "Proved if different bras have different hash values. Refuted: tensors that differ in symmetry only are different but neither is less; if two bras have the same hash value the order can have cycles."
  },
  {
   "property": "C83",
   "status": "partial",
   "theorems": [
    "C83_equivalent",
    "C83_value",
    "NetExample.C83_unused_named_refuted",
    "NetExample.C83_pure_proto_refuted"
   ],
   "note": "Proved for networks of tensors (no operators), without empty slots and proto-indices, with every combination of the methods, every set of named indices that occur in the network, every labelling that the graph library may return and every sort and hash. Refuted: a named index that is not in the network, or a proto-index that labels no slot, makes the lexicographic method give one name to two different indices, which changes the value."
  },
  {
   "property": "C84",
   "status": "partial",
   "theorems": [
    "C84_reorder",
    "C84_ordinals_identity",
    "NetExample.C84_ordinals_refuted"
   ],
   "note": "The loop that reorders the tensors is right, but it also turns the list of ordinals into the identity, so the documented meaning of the list of input ordinals is refuted: with the default options it does not say where the tensors come from."
  },
  {
   "property": "C85",
   "status": "partial",
   "theorems": [
    "C85_canonical",
    "C85_labelling_exists",
    "Net2Example.C85_mirror_refuted"
   ],
   "note": "Proved for networks of tensors without proto-indices when named indices are distinguished (IgnoreNamedIndexLabel::No, as Sum::canonicalize asks for), given only that the graph library returns a canonical labelling, which is shown to exist. Refuted for tensors with symmetric bra and ket that are not symmetric in their columns: such a tensor and its mirror image are equal in value, but are never brought to the same form."
  },
  {
   "property": "C86",
   "status": "partial",
   "theorems": [
    "C86_total",
    "C86_valid",
    "C86_same_form",
    "C86_idempotent"
   ],
   "note": "Proved for networks of tensors without proto-indices: no assertion fails, no loop runs out, the result is again a network of tensors that could be constructed, and (named indices distinguished, columns orientable, a canonical labelling) canonicalizing again returns the same tensors with a trivial sign. Missing: proto-indices, operators that do not commute."
  },
  {
   "property": "C87",
   "status": "partial",
   "theorems": [
    "C87_total",
    "C87_value"
   ],
   "note": "Proved for sums of products of variables and tensors without proto-indices and of lone tensors, for every commutative ring of scalars, every labelling, every hash. Missing: proto-indices, operators, nested sums and products."
  },
  {
   "property": "C88",
   "status": "partial",
   "theorems": [
    "C88_equal",
    "C88_zero",
    "C88_no_like_terms",
    "C88_idempotent",
    "C88_lone_tensor_refuted",
    "C88_vanishing_refuted"
   ],
   "note": "Proved for sums of products of variables and tensors without proto-indices, none of them equal to its own negative, when different variables have different hash values; equal up to order, and exactly equal when the terms of the result have different hash values. False for lone tensors whose dummy indices are named differently (C88_lone_tensor_refuted), and a term that equals its own negative is kept (C88_vanishing_refuted). Missing: proto-indices, operators, nested sums."
  },
  {
   "property": "C89",
   "status": "partial",
   "theorems": [
    "C89_round_trip",
    "C89_texts_differ",
    "SerExamples.C89_imaginary_refuted",
    "SerExamples.C89_complex_refuted",
    "SerExamples.C89_nested_sum_refuted",
    "SerExamples.C89_large_integer_refuted",
    "SerExamples.C89_infinity_refuted",
    "SerExamples.C89_nested_proto_indices_refuted",
    "SerExamples.C89_indices_refuted",
    "SerExamples.C89_trivial_refuted"
   ],
   "note": "Proved for every expression whose numbers are real with numerators and denominators up to 2^53, whose names do not begin with inf or nan or end with an underscore, whose indices have an ordinal below the first temporary one and at most one level of proto-indices, and whose sums and products are not trivial; for every character classification that is as usual on ASCII. Outside of that it is false: one refutation for each condition. Not modelled: the letters for hermiticity, results (from_string<ResultExpr>), positions of errors."
  },
  {
   "property": "C90",
   "status": "partial",
   "theorems": [
    "C90_reading_ends",
    "C90_rest_is_an_error",
    "C90_dangling_star",
    "SerExamples.C90_white_space_refuted"
   ],
   "note": "Proved for every text and every character classification. That white space between tokens does not matter is false (C90_white_space_refuted)."
  },
  {
   "property": "C91",
   "status": "partial",
   "theorems": [
    "C91_sum_value"
   ],
   "note": "Proved for sums of summands that are read back by C89 and are not sums; the summands may be zero, may be constants, and there may be one only. Missing: the same inside products; sums in sums are not written correctly (C89_nested_sum_refuted)."
  },
  {
   "property": "C92",
   "status": "partial",
   "theorems": [
    "C92_values_partial",
    "C92_order",
    "C92_twice",
    "C92_nothing_common",
    "C92_functor",
    "CseExamples.C92_negative_definer_refuted",
    "CseExamples.C92_wrong_sum_refuted",
    "CseExamples.C92_used_once_refuted"
   ],
   "note": "Values: proved for all lists of trees, all comparisons, all functors that make trees as they should, all filters and labels, if nodes that compare equal have equal values up to their phases and the defining nodes have phase +1. Without the second condition it is false (C92_negative_definer_refuted: the definition stores the value without its phase, but the use at that node applies the phase). The first condition is false for the comparison of the code (see C93; C92_wrong_sum_refuted). Order, positions and uses of the definitions: proved. An intermediate can be used only once (C92_used_once_refuted). Not modelled: adjoint nodes, powers, protoindices."
  },
  {
   "property": "C93",
   "status": "partial",
   "theorems": [
    "C93_same_nodes_partial",
    "C93_made",
    "CseExamples.C93_transposed_sum_refuted",
    "CseExamples.C93_sum_and_product_refuted"
   ],
   "note": "Proved for all trees with the data that binarize makes, if it holds for nodes with graphs (products of tensors) and if what the comparison does not look at is the same in both nodes: the operations, the relative phases, and how the indices of the second operand of a sum correspond to those of the first. Without this it is false for all hash functions: A_12 + B_12 and A_12 + B_21 compare equal, and so do x + y and x y. Missing: that equal graphs mean equal values."
  },
  {
   "property": "C94",
   "status": "partial",
   "theorems": [
    "C94_leaf_partial",
    "LeaExamples.C94_sign_refuted"
   ],
   "note": "Proved up to the sign of the leaf, and without a sign for all tensors that are not antisymmetric, for every cache. For an antisymmetric tensor whose slots are not in block order the evaluation gives the value with the wrong sign (C94_sign_refuted): the leaf holds the reordered tensor, and no one applies the phase. Not modelled: tensors with protoindices, adjoint marks."
  },
  {
   "property": "C95",
   "status": "partial",
   "theorems": [
    "C95_density_fit",
    "C95_all_fitted",
    "DfExamples.C95_nested_refuted",
    "DfExamples.C95_twice_refuted"
   ],
   "note": "Value and completeness: proved for all sums of products of tensors, all rings and all values of tensors in which the four-index tensor is the fitted sum, if the new auxiliary indices do not occur in the expression. Without the shape condition it is false: factors that are sums or products are not looked into (C95_nested_refuted). A second pass for another label reuses the auxiliary indices of the first and changes the value (C95_twice_refuted)."
  },
  {
   "property": "C96",
   "status": "partial",
   "theorems": [
    "C96_hypercontract_partial",
    "DfExamples.C96_rank_refuted"
   ],
   "note": "Proved for all sums of products of tensors in which every tensor with the chosen label has rank four. A tensor with that label and another rank is left alone on its own, but makes the transformation stop with an assertion within a product (C96_rank_refuted)."
  },
  {
   "property": "C97",
   "status": "partial",
   "theorems": [
    "C97_csv_partial",
    "C97_all_expanded",
    "C97_overlap",
    "DfExamples.C97_overlaps_refuted",
    "DfExamples.C97_null_refuted"
   ],
   "note": "Proved for all sums of products of tensors in which the tensors are expanded slot by slot; the shortcut for overlaps between two sets of virtuals is proved for a single overlap (C97_overlap). Within products it is false: two overlaps that share an index get the same dummy index (C97_overlaps_refuted). A tensor with protoindices on its auxiliary slots only gives a null pointer, and a crash within a sum (C97_null_refuted)."
  },
  {
   "property": "C98",
   "status": "partial",
   "theorems": [
    "C98_commutators",
    "C98_ends",
    "C98_exponential",
    "C98_connected"
   ],
   "note": "Proved for all expressions, ranks and generators in every ring in which the scalars are central. Missing: canonicalization and the adding up of the results for the summands are parameters that keep values (their models are those of C30, C69 and C87); of the connected unitary form only the case of a plain generator is treated; clones and shared subexpressions are not represented."
  },
  {
   "property": "C99",
   "status": "partial",
   "theorems": [
    "C99_screening"
   ],
   "note": "Proved for every algebra with a vacuum expectation value and all operators whose terms keep what their quantum numbers promise (C68), products, sums and nesting of them. Missing: canonicalization and the adding up are parameters that keep values; a factor of a product that is itself a product ends in an exception in the model."
  }
 ]
}