# Formal model of SeQuant in Rocq (Coq 8.16.1)

## Layout

Each area `X` of the code has its files in `rocq/theories/`:

* `X_Model.v`  – the code, function by function, as computable Gallina definitions.
  Each definition cites the file and lines in `/repo` it models and names its simplifications.
* `X_Spec.v`   – the meaning of the property, written without using the model
  (small, readable, independent definitions).
* `X_Proofs*.v` – lemmas.
* `X_Props.v`  – the final theorems, the examples showing that their hypotheses are met by concrete
  non-trivial cases, the refutations (inside plain modules `XExample`), and `Print Assumptions`.

## Conventions

* C++ iterators/loops become structural recursion, folds, or recursion on fuel. Where fuel is
  used, running out of fuel is a visible outcome (`None`) and a theorem excludes it.
* Undefined behaviour, failed `SEQUANT_ASSERT`s and exceptions are explicit outcomes.
* Things outside the model (tensor arithmetic, cost callbacks, comparison functions, hash
  functions) are universally quantified parameters of the theorems.
* When the English property is false of the code, the model is kept faithful, a theorem
  `..._refuted` gives the concrete counterexample, and what does hold is proved beside it.
* A theorem with suffix `_partial` proves part of its property; its note below says what is missing.

## Plan per property

| id | what is modelled | how it is proved |
|----|------------------|------------------|
| C01–C03 | `bits::*` over `N` with explicit word width | induction on the mask in binary; bit-wise extensionality |
| C04 | `bubble_sort` as passes of adjacent conditional swaps, fuel = number of passes, swap counter | inversion count decreases by the number of swaps |
| C05,C06,C43 | `next_permutation_parity`, `antisymmetric_permutation`, `symmetric_permutation` on lists | characterise as lexicographic successor; permutations sorted lexicographically; sign = inversions parity |
| C07 | union-find with path halving of `count_cycles` | invariant: forest represents equivalence closure of united pairs; components counted by roots |
| C08 | `permutation_parity` on integer arrays | refuted by a concrete permutation; the value really computed is characterised |
| C09–C12 | `solve_single_term`, `AdditiveModel`, `connected_subsets` | DP table invariant by induction on the mask; trees over bit sets |
| C13 | `PeakModel`, Pareto sets | DP invariant: sound and dominating frontier |
| C14 | `single_term_opt`, `opt_mixed_product` on expressions (Sto) | semantics as sums over index values in an arbitrary commutative semiring |
| C15 | `clusters`, `reorder` (Clu) | DFS visits each vertex once; refutation of the co-location claim |
| C16–C18,C44–C46 | `binary_node.hpp` walk with explicit parent position (zipper), heap of nodes with parent links, `digraph`, `extract_subtrees` (BT) | simulation with the recursive traversal; ownership invariant of the heap |
| C19–C22,C47–C49 | cache state machine, `evaluate` with heap addresses, `cache_manager`, `peak_cache`, `mode_batches` (Ev) | invariants over operation lists; refinement to cache-free evaluation |
| C23,C24 | `AsyCost` polynomial arithmetic and comparison | algebra over Q; refutation of transitivity |
| C25–C31,C52 | expression trees, `Product`, `Sum`, visitors, accumulator, explicit store of shared objects (Expr) | denotation in an arbitrary ring with central scalars |
| C32–C37,C50 | Wick engine: operators, contraction search, connectivity constraints, `normalize`, loop counting (Wick) | algebraic definition of normal ordering and vacuum expectation value in an arbitrary algebra |
| C38,C51,C53–C59 | index space registry: lookup, intersection, union, memoised lists, contraction predicates, conventions (Reg) | bit-set algebra; invariants over histories; exhaustive decision for the finitely many registered spaces |
| C39–C41,C60–C64 | index-set utilities, `is_valid`, external indices (Idx) | counting occurrences |
| C42 | generation optimiser queue (Gen) | abstract machine of load/compute/unload; simulation |
| C65 | `binarize` (Bin) | sums over index values in an arbitrary commutative semiring |
| C66 | `export_expression` with preprocessing (Exp) | execution of the generated program on a store, for an arbitrary array arithmetic |
| C67 | `fuse.hpp` (Fus) | denotation in an arbitrary ring with central scalars |
| C68 | `QuantumNumberChange` and the screening in `vac_av.cpp` (Qn) | numbers of creators and annihilators of concrete terms; Wick's theorem (C33) for the expectation values |
| C69 | non-tensor branch of `Product::canonicalize_impl`, `commutes_with` (Com) | inversions for termination; values in a ring; Wick's theorem without contractions for commuting normal products |
| C70 | `expand_antisymm` (Spn) | values of expressions in any commutative ring over the rationals; the loop over permutations visits each once with the parity of its inversions; columns sorted by column symmetry |
| C71 | `expand_A_op`, `symmetrize_expr`, `S_maps`, `expand_P_op` (Spn) | each replacement map is a permutation of the operator's indices; phase of the map = parity; A = S times the permutations of the bra |
| C72 | `spintrace` (Spn) | each spin case of the replacement maps is one assignment of spins; renaming an index = changing its value |
| C73 | `closed_shell_spintrace` (Spn) | number of consistent spin assignments = 2^(classes of the column graph) = 2^cycles (C07) |
| C74 | `open_shell_spintrace` (Spn) | as C72 with fixed external spins |
| C75 | signs of `wrap_trace` (Spn) | comparison with the signed permutations |
| C76–C78 | comparison of indices, labels, comparers of the canonicalizers (Tsr) | lexicographic products of total orders given by keys; induction on the nesting of proto-indices |
| C79 | `Tensor` constructor, slot order, adjoint (Tsr) | lists of columns; case analysis of empty slots |
| C80,C81 | `DefaultTensorCanonicalizer`, `TensorBlockCanonicalizer` (Tsr) | values as functions of columns with the declared symmetry; sorting by a strict weak order is unique up to equivalence; parity by inversions |
| C82 | `Tensor::static_less_than` (Tsr) | lexicographic product with the hash of the bra as a parameter |
| C83,C84 | `TensorNetworkV3::canonicalize` (Net) | the graph library is any labelling of the vertices; each step keeps an equivalence of networks; the equivalence keeps the value by reindexing finite sums |
| C85 | `canonicalize_graph`, `create_graph`, vertex colours (Net) | equivalent networks have isomorphic graphs; equal labels of a canonical labelling give a matching of cores, bundles, columns, slots and indices, from which the tensors, their slots and the new names agree |
| C86 | all steps of `TensorNetworkV3::canonicalize` (Net) | every lookup finds its index, every pair of edges is comparable, the factory never exhausts its labels; validity is an invariant of the equivalence moves; idempotence from C85 applied to a network and its own canonical form |
| C87 | `Sum::canonicalize_impl`, `Product::canonicalize_impl`, `HashingAccumulator`, `proportional_to` (Can) | every step is a move of an equivalence of sums (order, equivalent term, addition of like terms, zero terms); the moves keep the value in every commutative ring |
| C88 | same model | the coefficient of every canonical product is an invariant of the equivalence of sums; the result has each product with its coefficient at most once; two lists with that property and the same coefficients are permutations; refutations for lone tensors and for terms equal to their negative |
| C89 | the printer function by function; the grammar as parser combinators with the meaning the X3 documentation gives the operators, with white space, ordered choice, expectation and attributes; the conversion of the syntax tree | induction over expressions with a lemma per grammar rule: on the text of a good expression followed by a text that cannot continue it, the rule gives the tree and stops there; a refutation for each excluded form |
| C90 | same model with a fuel that bounds the recursion | each rule consumes a character, so fuel above the length suffices |
| C91 | same model | the value of the list of summands is invariant under appending |
| C92 | evaluation trees with their node data; identification, naming, replacement and insertion of definitions function by function; comparison, filter, labels and the functor are parameters | simulation between the store of the new program and that of the old one, by induction over the trees; refutations for negative definers, transposed sums, single uses |
| C93 | the comparison of nodes and the data that binarize puts into them; hash functions are parameters | induction over the pair of trees, with the graphs as hypothesis; refutations for all hash functions |
| C94 | the leaf of a tensor: block order (model of C81) in the evaluator (model of C20) | composition of C81 and C20; refutation for the sign |
| C95 | `density_fit` on sums of products of tensors, values in any ring as sums over index values | every tensor factor replaced in any context (contextual equality), loop over factors with the counter of new indices; refutations for nested factors and second passes |
| C96 | `tensor_hypercontract` on the same model | same loop lemma; refutation for other ranks |
| C97 | `csv_transform` with slots, protoindices, the temporary counter, null results and assertions | induction on the slots, then on factors and summands; refutations for overlaps and auxiliary slots |
| C98 | The recursion of lst over sums and products and the loop of commutators; algebraic Campbell expansion and exponential in any ring; induction over the rounds and the recursion. |
| C99 | The recursion of screen_vac_av with the quantum numbers of C68; the vacuum expectation value is additive and kept by every step. |
| C100 | An interleaving model of memoize: sorted vector with buffer identity and capacity, iterators as positions, condition variable with spurious wake-ups; invariants over all runs, a decreasing measure. |
| C101 | An interleaving model of factorial: atomic table, mutex; invariant that the table is a list of factorials and one call holds the lock. |
| C102 | The operators on pairs of canonical rationals; ring and field laws, sums of squares. |
| C103 | flatten and operator*= on constants and variables; integer powers by induction on the squaring loop, roots by monotonicity, perfect squares by coprimality; values in any monoid with powers. |
| C104 | The loop over the Stern-Brocot tree with neighbouring fractions as invariant; rounding is a parameter. |
| C105 | Programs as trees of scopes, updates and exceptions over any type of context; heap of registries; structural induction on programs. |
| C106 | Histories of calls, with an invariant between the map and the last calls. |
| C107 | Variables pointing to maps in a heap; simulation by shared dictionaries. |
| C108 | Threads as state machines interleaved by an arbitrary schedule; invariant: begun, claimed and unclaimed tasks partition the range. |
| C109 | The same with an explicit mutex; invariant: the result is the fold of what was merged. |
| C110 | Recursion over the threads with the effect of moving the function object as a parameter. |
| C111 | Activities with an explicit mutex and pointer; inductive invariant over schedules. |
| C112 | The enumeration related to that of C06; antisymmetry by an involution on arrangements. |
| C113 | Loop with fuel; invariant: disjoint closed loops found and open chains visited. |
| C114 | `rewrite` with the decisions as booleans and sorting functions as parameters with their standard guarantee; every decision is one of the declared symmetries; stable sort is injective on lists with the same spaces. |
| C115 | Maximum of sorted groups; the exchange of bra and ket compares the two maxima. |
| C116 | Exchanges are symmetries of the integral; the whole rule equals sorting two pairs by a total order, which is symmetric. |
| C117 | The index map is one-to-one by invariant; failure gives more labels than letters. |
| C118 | Python grammar as a recursive-descent evaluator, einsum as a sum over letters; renaming by the one-to-one map; scalars pulled out of the sum. |
| C119 | Printed numbers run through the evaluator symbolically. |
| C120 | Induction over the characters. |
| C121 | Mutual induction over the places of the tensor, with the values of the partial sums and products. |
| C122 | Induction over terms and factors. |
| C123 | Induction over the expression. |
| C124 | Offsets as a mixed-radix expansion, induction over the extents. |
| C125 | The TAPP library is a parameter with its documented contract; sums over the buffer are rearranged into sums over labels. |
| C126 | Permutations as image lists; ranking by induction on n, cycles by orbits and pigeonhole. |
| C127 | Convolution in the group algebra; the finite tables (1 to 5 particles, all the code has) are evaluated by the kernel; Moore-Penrose uniqueness in general. |
| C128 | The value of the transform as a sum over permutations; composition of such sums is convolution of the weights. |
| C129 | Same convolution argument for the projection weights. |
| C130 | Lookup in the replacement map against the permutation of second indices. |
| C131 | Invariant of the map from groups to their largest terms. |
| C132 | Antisymmetrizer evaluated on symbolic indices, screening by its contract; ring identity. |
| C133 | As C132, with the case of coinciding indices. |
| C134 | Screening commutes with injective renaming, so the terms are computed on positions; replacement preserves values for any leaf-wise replacement (induction on expressions). |
| C135 | C134 and the value-preservation lemma with the density valuation. |
| C136 | Refuted: witness state, and failure for all inputs. |
| C137 | Model the block and specific-index comparisons; equality characterised by the fields compared, for all tensors. |
| C138 | Strict weak order on tensors over one registry with the side conditions the code needs; refuted without them by witnesses. |
| C139 | The specific-index comparison: equality, order, and its reduction to the block comparison when no index is specific. |
| C140 | Block-keyed map as a search tree over the comparison; look-up laws by the order; refuted where the order fails. |
| C141 | Model the Hugenholtz vertex; invariant tying its groups to a ghost sequence of edges, by induction over histories. |
| C142 | From the same invariant: every call outside of the bounds or with another edge is refused. |
| C143 | The observations determine each other: sorted sets with the same members, and counting classes both ways. |
| C144 | Induction over calls on the number of groups. |
| C145 | Model the state of a normal operator; invariant on the count, and views of a normal-ordered sequence. |
| C146 | Invariant that a vertex, if present, shows the sequence; refuted for replacements that change types. |
| C147 | Invariant that a memoized hash, if present, is current; refuted for insertions and erasures. |
| C148 | `from_chars` by its standard definition; the digits read are the longest prefix, so that the whole string is read exactly if it is a representation. |
| C149 | Reduction of wide strings without negative characters to C148; witness for the others. |
| C150 | Invariant of the loop that the map holds, for each label, the positions of the operators seen so far. |
| C151 | Induction over the expression and the fuel with the tensor level, expansion and screening as parameters with their contracts. |
| C152 | Induction over expressions; values in any commutative ring for any value of the atoms. |
| C153 | The map built for a match agrees with the renaming on the indices used; induction over the visit; witnesses for matches at the root and nested replacements. |
| C154 | The state of a thread depends on its own accesses only; induction over the calls. |
| C155 | Invariant over histories that each scope holds what was set last in it. |
| C156 | Cases over the scopes that hold the object; witnesses with entries in two scopes. |
| C157 | Invariant of the loop over the ranks that the terms left have the same projections on all ranks to come. |
| C158 | The loop uses a null pointer exactly if no term is left for some rank; witness. |
| C159 | Closed form of the loop over the sectors by induction, for the operators and the projections. |
| C160 | From C159; witness with one hole and no particle. |

Nothing in the list is considered inexpressible.

## What is modelled and what is not

Modelled (SeQuant/core unless said otherwise): `bit_manip`/subset utilities, `algorithm.hpp`,
`binary_node.hpp`, `utility/permutation.hpp`, `optimize/single_term.hpp` and cost models except
`PeakBatchedModel`, `optimize/optimize.cpp`, `optimize/sum.cpp`, `optimize/fusion.cpp`, `asy_cost.hpp`,
`eval/cache_manager.hpp`, `eval/eval.hpp` (sequential evaluation), `eval/eval_expr.cpp` (binarization),
`expressions/{expr,constant,variable,product,sum}` and the algorithms on them, `wick.impl.hpp` (contraction search
with nontensor statistics, connectivity, `normalize`), `index_space_registry.hpp`, `bitset.hpp`, `utility/indices.hpp`,
`utility/expr.cpp` (validation), `export/generation_optimizer.hpp`, `export/export.hpp`,
`domain/mbpt/convention.cpp`, `domain/mbpt/op.{hpp,cpp,ipp}` (quantum number changes), screening in
`domain/mbpt/vac_av.cpp`, spin tracing in `domain/mbpt/spin.cpp` (without `open_shell_CC_spintrace`, `swap_spin`,
`open_shell_A_op`, `open_shell_P_op_vector`), comparison in `index.hpp` and `space.hpp`, `expressions/tensor.hpp`
(construction, slots, adjoint, comparison), `tensor_canonicalizer.{hpp,cpp}`, `tensor_network/v3.cpp`
(`canonicalize` of networks of tensors; not `canonicalize_slots`, `factorize`), `tensor_network/utils.hpp`, `vertex_painter.cpp`,
`io/serialization/v1` (`to_string`, `from_string<ExprPtr>`; Boost.Spirit X3 by the meaning of its operators),
`optimize/common_subexpression_elimination.hpp`, `eval/eval_node_compare.hpp`, block comparison in `utility/tensor.hpp` (equality, order, specific indices),
`domain/mbpt/rules/df.cpp`, `thc.cpp`, `csv.cpp`, `domain/mbpt/utils.cpp`, `utility/memoize.hpp`, `math.hpp` (the last two with threads), `complex.hpp`, `expressions/power.hpp`, `rational.hpp`, `utility/context.hpp`, `context.cpp`, `domain/mbpt/context.cpp` (comparison and scopes), `domain/mbpt/op_registry.{hpp,cpp}`, `runtime.hpp` (with threads), `utility/singleton.hpp` (with threads), `domain/mbpt/antisymmetrizer.{hpp,cpp}` (without `max_similarity`, `spin_sum`), `core/export/reordering_context.{hpp,cpp}`, `core/export/itf.cpp` (only `rewrite`, `is_exceptional_J`), `core/export/python_einsum.hpp` (statements, subscripts, scalars, names; not the class hierarchy, file handling, declarations or powers), `core/utility/expr.cpp` (`transform_expr`, `pop_tensor`), `core/expressions/abstract_tensor.cpp` (`has_tensor`, `remove_tensor`), `core/eval/backends/tapp/{tensor,ops,result}.hpp` (not symmetrization, handles and memory management), `domain/mbpt/biorthogonalization.{hpp,cpp}` (not the floating point pseudoinverse, the caches and the pre-NNS driver), `domain/mbpt/rdm.cpp` (not the fast branch, `three_body_substitution` and simplification); `core/hugenholtz.hpp`; the state and mutators of `NormalOperator` in `core/op.hpp`; `core/utility/conversion.hpp` for integers (not floating point; `std::from_chars` by its standard definition); `domain/mbpt/vac_av.cpp` with the tensor level, `expand` and `simplify` as parameters; `transform_expr` and `replace` in `core/utility/expr.{hpp,cpp}`; `core/utility/swap.hpp` (with threads); the strategies in `core/export/context.{hpp,cpp}`; the loops of `CC::t` and `CC::λ` in `domain/mbpt/models/cc.cpp` and of `CC::eom_r` and `CC::eom_l` there (not the perturbed equations and `rdm`).

Not modelled: floating point (costs are exact integers or rationals), tensor arithmetic kernels and their
back ends (TiledArray, BTAS), the bliss library (a parameter: any labelling of the vertices), LaTeX and back-end code generators' strings, threads outside memoize and factorial (where they interleave at the level of critical sections, with sequential consistency), topology detection in the Wick engine, the memory of the C++
allocator except where a property is about aliasing (C22, C44, C52).

## Trusted base

* Coq 8.16.1 kernel (and its `vm_compute` where used for literals).
* `Print Assumptions` lists nothing for any of the claimed theorems (see the table below).
  `coqchk` additionally lists what the loaded libraries contain: the seven `Coq.ssr.ssrunder.Under_rel.*`
  parameters of the standard library's ssreflect support, which no theorem uses.
* The reading of C++ into Gallina, documented per definition.
* Parameters of the theorems: evaluators, cost functions, comparison functions, hash functions and lookup
  functions of hash tables are universally quantified; assumptions about them are hypotheses of the theorems and
  are named in the specifications (`X_Spec.v`).
* Integers are unbounded except where a property is about overflow (C01–C03 word width, C19 life counter, C58).

## Status, theorems and assumptions

Generated from MANIFEST.json. `Print Assumptions` answers "Closed under the global context" for every
theorem named here: no axiom, not even of the standard library, is used.

| id | title | status | theorems | scope and findings |
|----|-------|--------|----------|-------|
| C01 | Subset enumeration is complete and exact | proved | `C01_defined`, `C01_bipartitions_ordered`, `C01_subsets`, `C01_subsets_descending` |  |
| C02 | Unordered bipartitions cover every split exactly once | proved | `C02_bipartitions` | mask <> 0; the empty mask's single split is not listed (C02_zero) |
| C03 | Set-bit enumeration is exact | proved | `C03_on_bits_index`, `C03_sieve` |  |
| C04 | bubble_sort sorts by adjacent swaps | proved | `C04_bubble_sort`, `C04_zipped`, `C04_nonstrict_refuted` | the header's remark that the comparison need not be strict is refuted |
| C05 | next_permutation_parity steps to the lexicographic successor and tracks the sign | proved | `C05_next_permutation`, `C05_short`, `C05_sign` |  |
| C06 | Antisymmetrizer loop visits each permutation once with its sign | proved | `C06_antisymmetric_permutation` |  |
| C07 | count_cycles counts spin loops | proved | `C07_count_cycles`, `C07_classes_unique`, `C07_orientation`, `C07_cycles` |  |
| C08 | permutation_parity returns the sign of a permutation | partial | `C08_sign_refuted`, `C08_overwrite_refuted` | the property is FALSE of the code: refuted for every odd-length identity; overwrite does not restore |
| C09 | Single-term optimisation returns a well-formed evaluation sequence | proved | `C09_additive_defined`, `C09_additive`, `C09_peak_defined`, `C09_peak`, `C09_counts` | additive objectives with any cost, weights, pruning and CSE reuse; peak objective; batched peak model not modelled |
| C10 | Dense single-term optimisation is optimal | proved | `C10_optimal`, `C10_dense_flops`, `C10_dense_size`, `C10_reported_cost` | costs are exact integers (the code uses double) |
| C100 | Memoization under threads | partial | `C100_computed_once`, `C100_value_partial`, `C100_one_key`, `C100_ends`, `C100_no_deadlock`, `C100_everybody`, `MemExamples.C100_reference_refuted`, `MemExamples.C100_exception_refuted` | Proved for all keys, schedules, spurious wake-ups and exceptions: a value is computed at most once, calls end, nobody waits for ever unless a computation throws, and with one key everybody gets its value. Refuted: the returned reference is into a flat_map, so it is lost when another thread adds a key (C100_reference_refuted, for every policy of growth); hence the value is proved only while no key is added. Refuted: a computation that throws leaves the key behind and later callers wait for ever (C100_exception_refuted). Steps under the mutex are atomic; memory order is sequential consistency. |
| C101 | Factorials are right under threads | proved | `C101_factorial`, `C101_ends` | For all arguments, numbers of threads and schedules. Integers are unbounded (boost cpp_int); atomic loads and stores are sequentially consistent. |
| C102 | Complex rational numbers are a field | proved | `C102_ring`, `C102_division`, `C102_conjugation`, `C102_equality` | For all complex rational numbers; rationals are Coq's canonical rationals (boost cpp_rational). Not modelled: floating-point element types and hashing. |
| C103 | Powers keep their value | proved | `C103_constructor`, `C103_flatten`, `C103_constant`, `C103_folds`, `C103_product`, `C103_product_valid` | For all bases and exponents. What a power means is a parameter: any commutative monoid with conjugation and powers that agrees with the field of complex rational numbers where roots are unique; an instance is given. C103_product assumes b^(x+y) = b^x b^y for the base at hand (false only for the base zero). Labels are numbers, hashes and cloning are not modelled. |
| C104 | Conversion of floating-point numbers to rationals | partial | `C104_close`, `C104_simplest`, `C104_no_exception_partial`, `NumExamples.C104_exception_refuted` | Closeness is proved for every rounding with a bounded error; the smallest denominator and the absence of exceptions for exact arithmetic. Refuted: the exception marked as unreachable is reached with default arguments, for example for 1/4096 (C104_exception_refuted); without it is proved for max_niter >= 1/(2 eps). |
| C105 | A scoped context ends with its scope | partial | `C105_scope_restores_partial`, `C105_scope_alone_restores_partial`, `C105_scopes_only_restore`, `C105_inside_scope`, `C105_inside_scope_of_one`, `C105_core_comparison`, `C105_mbpt_comparison`, `CtxExamples.C105_scope_restores_refuted`, `CtxExamples.C105_installed_refuted`, `CtxExamples.C105_changes_seen_refuted`, `CtxExamples.C105_scope_defined_refuted` | Programs are arbitrary nestings of scopes, updates, changes of shared objects and exceptions. Restoration is proved when the scope's context differs from the current one, and without condition for programs that change the context by scopes only. Refuted: with an equal context the resetter is empty, so a set in the body leaks out and the requested registry object is not installed; comparing contexts with a null registry (made by get_default_context before any set) dereferences it. One thread is modelled; contents of registries are numbers. |
| C106 | The default context of a statistics is the last one set | proved | `C106_get_default_context` | For all histories of set (one or a map), reset and get; the getter returns values instead of references. |
| C107 | An operator registry is a dictionary shared by its copies | partial | `C107_registry_is_dictionary_partial`, `C107_reserved_never_registered`, `C107_equal_registries_answer_alike`, `CtxExamples.C107_shared_map_refuted`, `CtxExamples.C107_stale_override_refuted`, `CtxExamples.C107_equality_complete_refuted` | Refinement to shared dictionaries for all histories without the constructor from an existing map. Refuted with that constructor: overrides are not shared, so an override outlives removal. Equality of registries implies equal answers; the converse is refuted. |
| C108 | for_each calls the function once for every element | partial | `C108_each_element_once`, `C108_never_twice`, `C108_terminates`, `C108_slots`, `C108_num_threads_partial`, `RunExamples.C108_order_refuted`, `RunExamples.C108_zero_threads_refuted` | Every interleaving of the threads, any size and number of threads. Refuted: the documented order of commencement (a thread may be delayed between taking its number and calling op); with SEQUANT_NUM_THREADS=0 nothing is called at all. The implementation by parallel algorithms of the standard library and exceptions thrown by op (std::terminate) are not modelled. |
| C109 | transform_reduce reduces every element once | proved | `C109_some_order`, `C109_sequential`, `C109_sum_of_values`, `C109_terminates` | Every interleaving, any size and number of threads >= 1, with the mutex as explicit steps; what holds of the number of threads is C108. |
| C11 | Outer-product pruning only drops trees with outer products | proved | `C11_pruned_optimal`, `C11_fallback`, `C11_no_outer_product_iff` |  |
| C110 | parallel_do gives the function to every thread | partial | `C110_parallel_do_partial`, `RunExamples.C110_rvalue_refuted` | Refuted for function objects passed as rvalues with state that a move takes away: they are forwarded once per thread. |
| C111 | A singleton has one instance in every schedule | partial | `C111_one_instance`, `C111_terminates`, `C111_no_race_partial`, `RunExamples.C111_data_race_refuted` | Every interleaving of any calls. Refuted: instance() reads the unique_ptr without the mutex while another thread may write it, a data race. Constructors that throw are not modelled; instance_ptr does not compile for default-constructible classes (it returns a reference as a pointer). |
| C112 | Antisymmetrization gives every distinct permutation with its sign | partial | `C112_arrangements`, `C112_terms`, `C112_antisymmetric_partial`, `C112_screened`, `AntExamples.C112_scalar_lost_refuted` | Antisymmetry is proved for the sum of all generated terms, before summands with equal canonical form are dropped; canonicalization is a parameter. Refuted: the scalar of the product is not taken over (only Constant factors are, which products do not keep). |
| C113 | num_closed_loops counts the closed loops | partial | `C113_closed_loops_partial`, `C113_no_undefined`, `AntExamples.C113_assert_refuted` | Full count for every pairing without assertions, and with them when all indices are paired. Refuted: with assertions enabled an open chain of three pairs makes SEQUANT_ASSERT(in_loop.size() <= init_lower.size()) fail. |
| C114 | Reordering indices for export keeps the tensor element | partial | `C114_rewritten`, `C114_same_element_partial`, `ReoExamples.C114_aux_conflated_refuted`, `ReoExamples.C114_twice_refuted` | Element identity is proved for occurrences whose auxiliary indices have the same spaces, in spaces of their own. Refuted: auxiliary indices are sorted by space although the array need not be symmetric in them; a rewritten tensor is changed again by a second rewrite in column-major layout. |
| C115 | Reordering puts the largest space in the fastest position | partial | `C115_fastest_largest_partial`, `ReoExamples.C115_columns_refuted`, `ReoExamples.C115_aux_refuted` | Proved for symmetric tensors with bra-ket symmetry and no auxiliary indices, both layouts. Refuted for column-symmetric tensors in row-major layout and with auxiliary indices (the last bra index is compared where the last ket index is the fast one). |
| C116 | ITF integrals keep their value and have one representation | partial | `C116_integral_value`, `C116_unique_partial`, `ReoExamples.C116_unique_refuted` | Values are preserved for all integrals with the eight symmetries. Uniqueness needs different spaces to have different sizes; refuted otherwise. |
| C117 | Einsum subscripts use one letter for each index | partial | `C117_letters`, `C117_enough`, `C117_alphabets`, `EinExamples.C117_greek_refuted` | Letters are one-to-one with indices for all products and are found whenever the alphabet is large enough. They are valid einsum letters if labels start with a letter of the alphabet; refuted for other labels (Greek, first byte of UTF-8). |
| C118 | The generated einsum statement computes the expression | partial | `C118_statement_value_partial`, `C118_sum_refused`, `EinExamples.C118_conjugate_refuted` | Proved for all products (nested too) of tensors, constants with integral imaginary part and variables that are not conjugated, any dimensions and array values. Refuted for conjugated variables, which are printed without the conjugation. Power factors are not modelled. |
| C119 | Printed constants evaluate to themselves | partial | `C119_rationals`, `C119_constants_partial`, `EinExamples.C119_constants_refuted` | Proved for all rationals and for complex constants with integral imaginary part. Refuted otherwise: i/2 is printed as 1/2j, which is -i/2 in Python. |
| C12 | Connectivity table is exact | proved | `C12_connected_subsets`, `C12_adjacency`, `C12_network`, `C12_bfs_terminates` |  |
| C120 | Generated Python names are identifiers and stay different | partial | `C120_identifier`, `C120_kept`, `EinExamples.C120_injective_refuted` | Names are identifiers and identifiers are kept. Refuted: different names can become the same name. Python keywords and the validity of UTF-8 characters in identifiers are not modelled. |
| C121 | Popping a tensor factors it out of the expression | partial | `C121_pop_partial`, `C121_absent`, `PopExamples.C121_mixed_refuted`, `PopExamples.C121_order_refuted`, `PopExamples.C121_alone_refuted` | Proved for all expressions, nested to any depth, in which every term has the tensor once and beside another factor, and for all without it. Refuted otherwise: terms without the tensor before the first term with it are accepted and the value changes; the same terms in the other order abort; a tensor alone (or with a scalar) leaves 0. |
| C122 | Removing tensors with a label sets them to one | partial | `C122_remove_partial`, `C122_has_partial`, `PopExamples.C122_nested_refuted` | Proved for all sums of products of tensors, variables and constants. Refuted for nested expressions, where the tensor is neither found nor removed. |
| C123 | Transforming an expression renames its indices and scales it | proved | `C123_transform`, `C123_accepted` | Values of all accepted expressions, and exactly which are accepted. Tags and the symmetries of tensors are not modelled. |
| C124 | TAPP tensors store every element once, in row-major order | proved | `C124_layout`, `C124_row_major` | All ranks and extents, over unbounded integers: overflow of int64_t is not modelled. |
| C125 | TAPP results add, multiply, permute and conjugate element by element | proved | `C125_sum`, `C125_prod`, `C125_permute`, `C125_adjoint`, `C125_scale`, `C125_phase`, `C125_library_exists` | For every library that keeps TAPP's promise for one product (a reference implementation is proved to keep it), exact arithmetic, annotations without repeated labels, beta = 0. Rounding is not modelled. |
| C126 | The permutational overlap matrix is (-1)^n (-2)^cycles | proved | `C126_ranking`, `C126_cycles`, `C126_overlap_matrix` | All numbers of particles. Exact rationals for Eigen's doubles. libperm is written out (Myrvold-Ruskey ranking, as the code's comment says); both composition orders are covered. |
| C127 | Hard-coded biorthogonal coefficients are the normalized pseudoinverse | partial | `C127_pseudoinverse_unique`, `C127_available`, `C127_first_row`, `BioExamples.C127_matrix_refuted` | The two rows that a single result uses are those of the normalized pseudoinverse for every hard-coded number of particles, 1 to 5. The full matrix built from the row is not: it is not symmetric for three particles (n - 1 - row is not the rank of the inverse permutation), under either composition order. The floating point matrix for six and more particles is not modelled. |
| C128 | The biorthogonal transform undoes the overlap | partial | `C128_single`, `C128_scalar_throws`, `C128_undoes_overlap`, `BioExamples.C128_several_results_refuted` | One result, second indices in one space, 1 to 5 particles, simplification left out. For several results of three particles the coefficients are wrong, because the matrix is. |
| C129 | Non-null-space projection keeps what lies in the range of the overlap | partial | `C129_small_unchanged`, `C129_weights`, `C129_keeps_range`, `C129_lands_in_range`, `C129_twice`, `BioExamples.C129_idempotent_refuted` | Three to five ket slots, exact arithmetic. Because the weights carry the factor n!/rank the operation is not a projector: applying it twice multiplies by that factor once more. |
| C13 | Peak-memory optimisation is optimal | proved | `C13_optimal`, `C13_strict`, `C13_pruned`, `C13_frontier` | exact integers; tolerance as a rational num/den |
| C130 | Every term of a biorthogonal transform permutes the external indices | partial | `C130_terms_partial`, `BioExamples.C130_mixed_spaces_refuted` | Proved when the second indices of the pairs share a space (any number of particles). With three particles and second indices in two spaces a term arises in which one external index occurs twice and another is missing. |
| C131 | The Wang-Knizia filter keeps the largest terms of every group | partial | `C131_filter`, `C131_no_group_lost`, `BioExamples.C131_bare_terms_refuted` | The group of a term (the hash of its canonicalized network) is a parameter. Terms that are not products are dropped with three or more external groups. |
| C132 | Cumulants become densities | proved | `C132_cumulants`, `RdmExamples.canonical_nat` | Any indices, also repeated ones. Screening of equal terms by canonical form is a relation with its contract: equal scalars and the same factors up to order. |
| C133 | Normal-ordered one- and two-body operators in terms of cumulants | proved | `C133_one_body`, `C133_two_body`, `C133_product`, `C133_sum` | Values of expressions; operators have expectation values. The operator in the two-body term stands for the normal-ordered one. |
| C134 | A decomposed three-body operator has the right expectation value | partial | `C134_three_body`, `RdmExamples.state_exists` | Distinct upper and distinct lower indices. Simplification between the steps is left out, replacement goes to any depth instead. |
| C135 | Three-body decomposition by rank | partial | `C135_rank_two`, `C135_rank_one`, `C135_other_ranks` | As C134. The fast branch of rank 2 is not modelled, nor the substitution in a whole expression. |
| C136 | Rank 3 is exact | partial | `C136_rank_three_refuted`, `C136_cumu3_refuted` | The statement is false. Rank 3 uses the default approximation, which drops the three-body cumulant; the conversion of a three-body cumulant to densities multiplies where it should subtract and then always fails. |
| C137 | Equality of tensor blocks | proved | `C137_equal`, `C137_no_assertion` | All tensors, also with empty slots and spaces of different registries. |
| C138 | The order of tensor blocks is a strict weak order that agrees with equality | partial | `C138_block_order_partial`, `BlkExamples.C138_order_refuted`, `BlkExamples.C138_transitive_refuted`, `BlkExamples.registry_example` | Proved for spaces of one registry. False in general: spaces with equal attributes and different keys differ but are not ordered, so that different blocks compare as equivalent and equivalence is not transitive. |
| C139 | Comparators that distinguish specific indices | partial | `C139_specific_equal`, `C139_specific_order_partial`, `C139_none_specific` | Equality for all tensors, the order for spaces of one registry (see C138). |
| C14 | Optimising a product preserves its value | partial | `C14_optimize_partial`, `C14_shape`, `C14_additive_model`, `C14_peak_model`, `C14_optimize_then_binarize`, `StoExample.C14_nested_scalar_refuted`, `StoExample.C14_few_tensors_refuted` | For all expressions whose products have fewer than three factors or at least two (and at most 24) factors that are not scalars, and whose scalar factors that are products have the scalar 1: optimising succeeds and preserves indices and value (also with hyperindices), for every tree the cost models return; the shape of the result is characterised. Refuted outside: a nested scalar product counts its scalar twice; three factors with fewer than two tensors fail. Missing: normal operators, protoindices. |
| C140 | Maps keyed by tensor blocks | partial | `C140_block_map_partial`, `BlkExamples.C140_map_refuted` | std::map is its ordered list of entries. One registry; otherwise an entry can be overwritten by one with another block. |
| C141 | A Hugenholtz vertex groups equivalent edges | proved | `C141_history`, `HugExamples.par_equivalence`, `HugExamples.C141_not_transitive_refuted`, `C141_sets` | For every edge equality that is an equivalence, with and without assertions. A witness shows that an equality that is not transitive gives wrong groups. |
| C142 | A Hugenholtz vertex refuses invalid calls | proved | `C142_refused` | After every allowed history. Without assertions erase ignores the edge, which is stated. |
| C143 | A Hugenholtz vertex depends on its edges only | proved | `C143_history_independent` | Representatives may differ, up to equivalence. |
| C144 | Groups are never removed | proved | `C144_groups_kept` | For all calls that succeed, also with an equality that is no equivalence. |
| C145 | A normal operator keeps count of its creators and annihilators | proved | `C145_counts`, `C145_views`, `C145_new`, `C145_adjoint` | Histories of insert, erase, adjoint, transform_indices, hug and hash_value. Index::transform is an arbitrary function on indices. |
| C146 | The Hugenholtz vertex of a normal operator shows its current operators | partial | `C146_hug_partial`, `NopExamples.space_equivalence`, `NopExamples.C146_hug_refuted`, `NopExamples.C146_erase_fails_refuted` | Proved for replacements of indices by ones of the same type. False otherwise: transform_indices does not reset the vertex. Hashes taken in between are left out (C147). |
| C147 | The hash of a normal operator is that of its current operators | partial | `C147_hash_partial`, `C147_equal_partial`, `NopExamples.C147_hash_refuted` | Proved if nothing is inserted or erased once the hash is taken. False otherwise: insert and erase do not reset the memoized hash, so that equal operators compare as different, or an assertion fails. |
| C148 | Strings are converted to integers exactly | proved | `C148_value`, `C148_out_of_range`, `C148_not_valid`, `C148_not_fully_parsed`, `C148_every_value`, `CnvExamples.denotes_example` | All integer types, given by their bounds, and bases 2 to 36. std::from_chars is modelled by its definition in the C++ standard. |
| C149 | Wide strings are converted like narrow ones | partial | `C149_wide_partial`, `C149_not_numeric`, `CnvExamples.C149_negative_refuted` | Proved for strings without negative characters. False otherwise where wchar_t is signed: negative characters pass the test and are truncated to 8 bits. |
| C15 | Sum reordering keeps every term exactly once and groups terms sharing intermediates | partial | `C15_reorder`, `C15_clusters`, `C15_shared`, `C15_same_cluster_partial`, `C15_exponential`, `C15_terms_have_intermediates`, `C15_optimized_sum`, `CluExample.C15_same_cluster_refuted` | Reordering terminates and is a permutation of the terms (every term that can be binarized has an intermediate); the clusters are characterised exactly; terms that share an intermediate are in one cluster if sharing is transitive. Refuted in general: terms 1 and 2 may share an intermediate and be in different clusters. The search takes more than 2^n steps for a chain of n+1 terms with four intermediates each. |
| C150 | Operator connections are lowered to the right positions | proved | `C150_connections`, `C150_other_factors` | All products of operators, normal operators and other factors; all lists of label pairs. |
| C151 | Operator-level expectation values are linear and screening does not change them | proved | `C151_value`, `C151_screening`, `VacExamples.hypotheses_met` | The tensor level, expansion and the vanishing of screened products are parameters with their contracts; values are in a ring, so that simplification is the identity. skip_clone, use_topology and full_contractions are not modelled. |
| C152 | Index replacement in an expression is simultaneous, scaled and complete | proved | `C152_value`, `C152_throws` | In every commutative ring and for every value of the atoms. Indices have no proto-indices; sharing of subexpressions is not modelled. |
| C153 | Replacing a tensor replaces every match once and adapts its indices | partial | `C153_value_partial`, `C153_equality`, `C153_no_match`, `C153_composite`, `RepExamples.documentation`, `RepExamples.hypotheses_met`, `RepExamples.C153_root_refuted`, `RepExamples.C153_nested_refuted` | Proved for every comparison if the whole expression is not itself the match and the replacement has no sum or product as a factor; for equality also if the whole expression is the match. False otherwise: a match that is the whole expression does not get its indices, and a replacement with a sum in a product is refused if it shares an index with the target. The overload for ResultExpr is not modelled. |
| C154 | Swap counters of threads are independent | proved | `C154_parity`, `C154_after_reset`, `SwcExamples.hypotheses_met` | All interleavings of the loads and stores of all threads. |
| C155 | Export strategies are those set last, globally or for the current expression | proved | `C155_load`, `C155_zero` | All histories of calls and all maps given to the constructor. Objects that the order of the map does not tell apart are the same object. |
| C156 | Setting an export strategy has effect and leaves everything else alone | partial | `C156_set_load_partial`, `C156_set_zero_partial`, `EcxExamples.counts_met`, `EcxExamples.C156_other_strategy_refuted`, `EcxExamples.C156_constructor_refuted` | Proved if the object is in the global scope already, or in no scope that counts, or if nothing is set globally and the call is for the current expression. False otherwise: setting one strategy globally hides both strategies of the current expression, so that the other one falls back to its default; preprocessing sets leaves to be loaded in the current expression, which has no effect for an object in a map given to the constructor. |
| C157 | Coupled-cluster equations do not depend on screening | proved | `C157_t`, `C157_lambda`, `CcmExamples.hypotheses_met` | Linearity of the expectation value and the vanishing of screened terms are premises (proved for their models in C151 and C66). The expectation values, the transformed Hamiltonian and the screening functions are parameters. |
| C158 | Coupled-cluster equations are made for every range of ranks | partial | `C158_unscreened`, `C158_screened_partial`, `CcmExamples.C158_null_refuted` | With screening exactly the calls succeed in which every rank asked for is reached by some term. Otherwise, for instance for ranks above what the truncated expansion reaches, a null pointer is used where the result should be zero. |
| C159 | Equations of motion cover every sector of the operator | proved | `C159_equations`, `C159_refused`, `C159_negative`, `EomExamples.hypotheses_met` | The expectation value is a parameter. Finding: one negative and one positive number pass the assertion and a null pointer is used (C159_negative). |
| C16 | Iterative tree traversal is the recursive traversal | proved | `C16_visit`, `C16_visit_const`, `C16_calls`, `C16_orders`, `C16_pruning`, `C16_none`, `C16_nonroot_leaf_refuted`, `C16_nonroot_internal_refuted` | proved for roots as stated; the two _refuted theorems show that a traversal started below a root leaves its subtree or trips the assertion |
| C160 | Element 0 of the equations of motion is null | partial | `C160_element_zero_partial`, `EomExamples.C160_element_zero_refuted` | Element 0 is null exactly if the numbers of particles and holes are equal. Otherwise it is the equation of the lowest sector, against the documentation of cc.hpp. |
| C17 | Copying, transforming and folding binary trees are structure preserving | proved | `C17_deep_copy`, `C17_copy_constructor`, `C17_transform`, `C17_fold_constructor`, `C17_fold_left_to_node`, `C17_size` |  |
| C18 | Tree equality is an equivalence that never fails | partial | `C18_equal_iff`, `C18_no_throw_partial`, `C18_throws_refuted` | the comparison is exact, but it throws when a leaf meets an internal node with equal data; absence of the exception is proved for equal shapes and for payloads that tell leaves from internal nodes |
| C19 | Cache entries live exactly as long as their use count | proved | `C19_history`, `C19_unregistered`, `C19_reads`, `C19_persistent`, `C19_reset`, `C19_wrap_refuted`, `C19_alive_count_refuted` | for use counts up to 2^32; the life counter is cast to int, so 2^32+1 uses are lost (C19_wrap_refuted); alive_count() adds up lives instead of counting entries (C19_alive_count_refuted) |
| C20 | Evaluation with a cache equals evaluation without one | proved | `C20_value`, `C20_any_cache`, `C20_fresh_cache`, `C20_reset` | leaf, product-hook and custom evaluators are parameters; equal keys are assumed to denote equal values up to the phase, as the property says |
| C21 | The cache makes each shared intermediate be computed once and is drained at the end | proved | `C21_computed_once`, `C21_use_counts` | for forests of at most 2^32 nodes; every intermediate, shared or not, is computed exactly once |
| C22 | Evaluating a list of terms returns the sum of the terms | partial | `C22_sum_partial`, `C22_alias_refuted`, `C22_leaf_alias_refuted` | false without a layout when the first term is cached or is a leaf object kept by the leaf evaluator: the accumulator then aliases it (two counterexamples); proved with a layout, or when the first term is an internal node that is not a cache key |
| C23 | Asymptotic cost arithmetic agrees with evaluation | proved | `C23_constructor`, `C23_add`, `C23_sub`, `C23_scale`, `C23_div`, `C23_add_comm`, `C23_add_assoc`, `C23_sub_self`, `CostExample.C23_scale_zero_refuted`, `CostExample.C23_constant_refuted`, `CostExample.C23_max_refuted` | Exact rational values (the code returns a double). Multiplying by zero keeps the value but not the normal form; constant costs are dropped; the infinite cost is excluded from subtraction. |
| C24 | Asymptotic cost comparison is a consistent order | partial | `C24_trichotomy`, `C24_transitive_partial`, `C24_scale`, `CostExample.C24_monotone_refuted`, `CostExample.C24_cycle_refuted` | Trichotomy and consistency of all comparison operators for all costs; transitivity for costs with equally many terms. The full claim is false: < has a cycle, and adding a positive cost can make a cost smaller. |
| C25 | Building products preserves value | partial | `C25_product_constructor`, `C25_product_from_expression`, `C25_append`, `C25_times`, `C25_nctimes`, `C25_times_assign`, `C25_prepend_partial`, `C25_clone`, `ExprExample.C25_prepend_product_refuted` | everything but Product::prepend of a factor that is itself a product, for which the claim is false of the code (C25_prepend_product_refuted): flattening prepend reverses the factors, and with Flatten::No the scalar counts twice. The operators never do that |
| C26 | Building sums preserves value | proved | `C26_sum_constructor`, `C26_append`, `C26_prepend`, `C26_plus`, `C26_minus`, `C26_plus_assign`, `C26_minus_assign` | null pointers included for the in-place operators; the operand must not be the object itself |
| C27 | expand distributes products over sums without changing the value | proved | `C27_expand` | termination included: every sufficient number of rounds gives the same result |
| C28 | flatten removes nesting without changing the value | proved | `C28_flatten` |  |
| C29 | rapid_simplify preserves value | proved | `C29_rapid_simplify`, `ExprExample.C29_zero_power_refuted` | the value is preserved for all expressions; the normal form holds if no leaf reports to be zero, and C29_zero_power_refuted shows that the restriction is needed |
| C30 | Collecting like terms preserves value | partial | `C30_value_partial`, `C30_no_like_terms_partial`, `AccExample.C30_two_constants_refuted`, `AccExample.C30_merged_constants_refuted`, `AccExample.C30_move_only_refuted` | For every lookup function a hash set could implement, every insertion sequence and every iteration order: value preserved, no like terms left if the hash agrees with the equivalence. Missing: more than one Constant among the terms, where the claim is false (undefined behaviour, or twice the last constant), and terms not in the form the constructors produce. |
| C31 | adjoint is an involutive anti-automorphism | proved | `C31_adjoint_value`, `C31_adjoint_member`, `C31_adjoint_form` | value for all expressions; exact form and involution for expressions as the constructors build them |
| C32 | Wick's theorem: full contractions give the vacuum expectation value | proved | `C32_wick_full`, `C32_repeated_operator_refuted` | for sequences whose elementary operators are pairwise different and not all absent; a repeated operator trips an assertion. is_qpannihilator, can_contract and contract are parameters tied to the algebra by hypotheses |
| C33 | Generalised Wick's theorem: partial contractions give the operator product | proved | `C33_wick_partial` | same assumptions as C32 |
| C34 | normalize merges normal operators with the right sign | proved | `C34_normalize_sign`, `C34_normalize_value` |  |
| C35 | normalize keeps requested index pairs on the same particle | proved | `C35_normalize_columns` | for every requested pair, not only those of the first columns |
| C36 | count_only counts the terms | proved | `C36_count_full`, `C36_count_partial`, `C36_partial_patterns` | the terms are moreover exactly the admissible patterns, each once, with its sign |
| C37 | Spin-free loop factor | proved | `C37_loops`, `C50_connections` | loops are counted as spin labellings of the columns compatible with the contractions, of which there are 2^loops; C50_connections states the factor for the terms produced |
| C38 | Intersection of index spaces | partial | `C38_idempotent`, `C38_same_quantum_numbers_partial`, `C38_disjoint_quantum_numbers`, `RegExample.C38_different_quantum_numbers_refuted` | Proved after every history for spaces with equal or disjoint quantum numbers. False for quantum numbers that overlap without being equal: the result has the quantum numbers of the first argument. |
| C39 | Non-repeated index extraction | proved | `C39_tensor`, `C39_product`, `C39_unique`, `C39_order`, `UniqueExample.C39_three_occurrences_refuted`, `UniqueExample.C39_empty_slot_refuted` | All expressions without operators in which no index occurs more than twice (sums through their first summand). Outside of that: an index that occurs three times may be reported, and so is a single empty slot. |
| C40 | Open indices of every sub-network | proved | `C40_subset_open`, `C40_target_indices`, `C40_documented_claim_refuted` | the doc comment's stronger claim about target indices is refuted |
| C41 | Left-to-right binarization indices | proved | `C41_ltr`, `C41_final`, `LtrExample.C41_note_refuted`, `LtrExample.C41_empty_range_refuted` | All nonempty ranges. The documentation's notes on indices that occur once are false of the code; the empty range is undefined. |
| C42 | Code-generation optimiser preserves the program | partial | `C42_optimizer_partial`, `C42_allocated_once`, `C42_computations`, `C42_terminates`, `C42_cancelled`, `C42_unchanged`, `GenExample.C42_computation_lost_refuted`, `GenExample.C42_zeroing_lost_refuted`, `GenExample.C42_discarded_value_refuted`, `GenExample.C42_accepted_refuted` | Proved with assertions enabled: if the optimizer finishes, the program it passes on can be executed, makes the same computations on the same values in the same order and ends in the same state, provided objects that are loaded and unloaded are only read and no zeroing, creation, destruction or persistence was removed (automatic when non-input objects are allocated once). Refuted without these conditions: with assertions disabled (the default build) a computation is lost for R = A B + B A; a zeroing load is removed; a discarded value is kept; some executable programs hit an assertion or an out-of-range access. |
| C43 | Symmetrizer loop permutes bra and ket together | proved | `C43_symmetric_permutation` |  |
| C44 | Copying, moving and destroying trees keeps ownership and parent links right | proved | `C44_destroy`, `C44_move_assign`, `C44_move_constructor`, `C44_copy_assign` |  |
| C45 | digraph output is the tree | proved | `C45_digraph` |  |
| C46 | Subtree extraction takes exactly the maximal matches | proved | `C46_extract` | for predicates that look no deeper than the children's payloads; deeper ones see already rewritten subtrees |
| C47 | Persistent cache entries are exactly the non-volatile inputs of volatile intermediates | proved | `C47_classification`, `C47_counts`, `C47_flags_kept`, `C47_reset_sound` |  |
| C48 | peak_cache bounds the memory of the cache | partial | `C48_peak_cache_sums`, `C48_peak_refuted` | the property is false of the code: peak_cache never releases anything because it stores null pointers; what it computes is characterised exactly |
| C49 | Batches of a tiled mode partition its range | proved | `C49_mode_batches`, `C49_empty` | tiles are non-empty intervals; an empty tile after an oversized one would give an empty batch |
| C50 | Connectivity constraints select exactly the connected contraction patterns | proved | `C50_connections`, `C50_partial_mode_refuted`, `C50_contraction_free_refuted`, `C50_empty_operators_refuted` | for full contractions and at most 32 normal operators; three theorems show inputs outside the scope for which the constraint is not enforced |
| C51 | Contracting two operators gives their vacuum expectation value | partial | `C51_can_contract`, `C51_contract_partial`, `RegExample.C51_order_refuted` | The decision is right for every registry and operators over registered spaces; the value is right if the occupied subspaces are the lowest bits, and wrong without that. |
| C52 | In-place operations on shared expression objects | proved | `C52_append_self`, `C52_collect_objects`, `C52_collect_same_object`, `C52_append_self_refuted`, `C52_collect_shared_refuted` | Exact characterisation with an explicit store: x *= x and x += x are defined exactly when the vector has spare capacity; appending one object n+1 times to the accumulator gives 2^n times its value. |
| C53 | Union of index spaces, and predicates that announce it | partial | `C53_union`, `C53_valid_union_partial`, `C53_valid_intersection_partial`, `RegExample.C53_valid_union_symmetric_refuted`, `RegExample.C53_valid_union_refuted`, `RegExample.C53_valid_intersection_refuted` | Union exact for equal quantum numbers, the only ones accepted. The predicates agree with the operations for equal quantum numbers only, and valid_unIon is not symmetric. |
| C54 | A registry is a consistent dictionary | partial | `C54_unambiguous`, `C54_ordered`, `C54_add`, `C54_remove`, `C54_lookup`, `C54_label`, `RegExample.C54_digit_key_refuted`, `RegExample.C54_reduce_idempotent_refuted`, `RegExample.C54_underscore_key_refuted`, `RegExample.C54_replace_refuted` | All histories of add, remove, replace, add_union, add_intersection. False: lookup by label for keys with digits or underscores; replace that throws loses the space. |
| C55 | Unions and intersections can be registered | partial | `C55_add_union`, `C55_add_intersection`, `C55_single_subspace_refuted` | What is registered is the union or intersection of the components; but one that consists of a single basis subspace can never be registered. |
| C56 | Lists of base spaces are up to date | partial | `C56_base_spaces_partial`, `RegExample.C56_assignment_refuted`, `RegExample.C56_clear_refuted`, `RegExample.C56_copy_refuted`, `RegExample.C56_mask_refuted`, `RegExample.C56_duplicates_refuted` | Right for all histories of independent objects whose mask is not changed after a query; false after assignment, clear, adding to a copy, changing the mask; types may be listed twice. |
| C57 | Ready-made registries decide every contraction | partial | `C57_conventions_partial`, `C57_QCiFS_refuted` | All contractions over all registered spaces of five of the six conventions, with and without spin; in QCiFS every contraction of an annihilator throws. |
| C58 | Bitsets form a Boolean algebra | partial | `C58_bitsets`, `C58_complement_refuted` | Union, intersection, symmetric difference and inclusion for all values below 2^31; the complement always violates the constructor's assertion. |
| C59 | Occupied spaces per quantum numbers | partial | `C59_without_assertions`, `C59_empty_map_refuted`, `C59_with_assertions_refuted` | Right for nonempty maps if assertions are off; with assertions on it never succeeds; an empty map is always refused. |
| C60 | Uncontracted indices of two tensors | proved | `C60_uncontracted`, `ContractExample.C60_bra_bra_refuted` | All pairs of tensors that share indices only between bra and ket or between aux groups; an index shared by two bras is returned twice. |
| C61 | Counts of used indices | proved | `C61_counts`, `C61_used` | All expressions and all assignments of protoindices. |
| C62 | Outer and inner indices of a tensor of tensors | proved | `C62_tot` | Sequence containers. |
| C63 | External indices | proved | `C63_tensor`, `C63_antisymmetrizer`, `C63_symmetrizer`, `C63_with_symmetrizer`, `C63_symmetrized_product`, `C63_unsymmetrized` | All tensors; all sums and products. |
| C64 | Validation of expressions | partial | `C64_sum`, `C64_product`, `C64_tensor_product`, `ValidExample.C64_repeated_index_refuted`, `ValidExample.C64_empty_sum_refuted` | Exact for sums, and for products of tensors without repeated indices; false for an index that occurs twice in one factor; undefined for an empty sum. Zero denominators are not modelled. |
| C65 | Binarizing an expression preserves its value and its indices | partial | `C65_binarize_partial`, `C65_usual_reading`, `C65_order_of_factors`, `C65_nested_factor`, `C65_keepable`, `C65_value_of_open_indices`, `BinExample.C65_trace_refuted`, `BinExample.C65_failures` | For all well-formed expressions of constants, variables, tensors, sums and products (no index twice in a tensor, no protoindices): binarize succeeds and the tree has the indices and the value of the expression, also with kept (hyper)indices. Missing: protoindices. Refuted for tensors with a repeated index: c T{i;i} keeps the traced index. |
| C66 | The exported program computes the expression | partial | `C66_export_partial`, `ExpExample.C66_scalar_lost_refuted`, `ExpExample.C66_not_released_refuted`, `ExpExample.C66_zeroed_refuted`, `ExpExample.C66_leaf_refuted`, `ExpExample.C66_result_as_input_refuted` | Proved for all trees in which every sum below a product adds leaves only, all array arithmetics with the usual laws, all initial stores and all choices of prunable scalars: the export succeeds and the program leaves memory empty, stores the value of the tree under the root's name and changes nothing else. Refuted beyond that: the scalar in 2 (A B + C D) is lost, the intermediate of a sum of products below a product is never released, it is zeroed between its terms when it is reused, a lone leaf is loaded and never stored, and a result that is also an input is read after it has been overwritten. One expression, default strategies, products and sums only (no adjoints, no powers). |
| C67 | Fusing two products keeps their sum | proved | `C67_fuse_left`, `C67_fuse_right`, `C67_defined`, `C67_scalars`, `C67_gcd`, `FusExample.C67_zero_refuted` | All five parts for all products and all rings with central scalars. The condition on the scalars is needed: two zero scalars end in a division by zero (C67_zero_refuted). The header's remark that only equal scalars are factored out (1/2 and 1/4 stay inside) does not describe the code, which takes out the greatest common divisor. |
| C68 | Screening drops only vanishing products of many-body operators | partial | `C68_patterns`, `C68_matrix_element`, `C68_screen`, `C68_ranks`, `C68_contents`, `C68_adjoint`, `C68_defined`, `QnExample.C68_composite_space_refuted`, `QnExample.C68_physical_refuted` | Screening and the rank tests are sound for all products of operators whose terms keep what the operator declares, for any algebra with the canonical (anti)commutation relations and any context whose occupied base spaces have the lowest bits. The operators t, lambda, general k-body, A, S, and r and l on the particle and hole spaces of the registry, keep what they declare. Refuted: r and l with explicit composite spaces do not (a nonzero expectation value is screened out, C68_composite_space_refuted), and in the physical vacuum r with different ranks declares the ranks the wrong way round (C68_physical_refuted). |
| C69 | Canonicalizing a product exchanges only factors that commute | partial | `C69_order`, `C69_value`, `C69_trees`, `C69_normal`, `C69_operators`, `C69_product`, `C69_asymmetric`, `C69_definite`, `ComExample.C69_general_refuted`, `ComExample.C69_active_refuted`, `ComExample.C69_normal_refuted`, `ComExample.C69_unique_refuted` | The sorting itself is proved for every commutation test. The test for many-body operators is sound if one of the two operators declares a definite change (excitation and deexcitation operators when the particle and the hole space are base spaces). Refuted otherwise: two general operators are always found to commute and are sorted by label (C69_general_refuted); with active orbitals t lambda becomes lambda t (C69_active_refuted); the test for normal operators is one-sided and ignores statistics (C69_normal_refuted; both orders and parity suffice, C69_normal); the canonical order of equal products is not unique (C69_unique_refuted). |
| C70 | Expanding antisymmetric tensors does not change the value of an expression | proved | `C70_spin_free`, `C70_spin_labelled` | For tensors with as many bra as ket indices (the function throws otherwise) and distinct indices. The components of a tensor are taken from any function over any index ranges into any commutative ring that contains the rationals; the antisymmetric tensor is the signed sum over the permutations of its bra. |
| C71 | Expanding permutation operators does not change the value of an expression | partial | `C71_antisymmetrizer`, `C71_symmetrize`, `C71_symmetrizer`, `C71_transposition`, `SpnExample.C71_lone_variable_refuted`, `SpnExample.C71_two_transpositions_refuted`, `SpnExample.C71_unequal_ranks_refuted` | For one operator per product. Refuted: S_maps loses a lone variable of a sum (it tests the sum, not the summand); expand_P_op adds the results of two transposition operators instead of composing them; symmetrize_expr fails for an antisymmetrizer with different numbers of bra and ket indices although a branch for it exists (rank() throws before it is reached). |
| C72 | Spin tracing gives the sum over spins | partial | `C72_spintrace_labelled`, `C72_spintrace_spinfree`, `SpnExample.C72_nonsymm_refuted`, `SpnExample.C72_auxiliary_refuted` | Proved for products with at most one antisymmetrizer over external indices, without auxiliary indices, with at most 63 internal indices and groups. Refuted without the restrictions: a tensor of rank two that is not antisymmetric is kept for spins that its columns do not conserve, and the spin-free result counts it (C72_nonsymm_refuted); each auxiliary index is given a spin and doubles the result (C72_auxiliary_refuted). |
| C73 | Closed-shell spin tracing gives the sum over spins | proved | `C73_closed_shell`, `C73_algorithms_agree`, `SpnExample.C73_algorithms_disagree_refuted` | For external groups that are pairs (asserted by the code) whose indices occur in every product, and for antisymmetrizers over external indices; with full_expansion=false the columns of the antisymmetrizer must be the groups. The agreement with spintrace holds under the restrictions of C72 and fails without them (C73_algorithms_disagree_refuted). |
| C74 | Open-shell spin tracing gives each spin block | partial | `C74_open_shell_partial`, `SpnExample.C74_sums_refuted` | Proved for sums whose terms have the same internal indices. Refuted for other sums: the spins of all internal indices of the sum are enumerated for each term, so that a term is counted twice for each internal index that it lacks (C74_sums_refuted). |
| C75 | Spin tracing of an antisymmetric result gives each permutation with its sign | partial | `C75_signs_partial`, `SpnExample.C75_three_indices_refuted` | Proved for up to two indices. Refuted for three (C75_three_indices_refuted): the signs are taken to alternate along std::next_permutation, which they do not; a debug build stops at an assertion. |
| C76 | Indices are equal if they are the same index, and are totally ordered | partial | `C76_equality`, `C76_order_untagged`, `C76_order_tagged`, `TsrExample.C76_mixed_tags_refuted`, `TsrExample.C76_keys_refuted` | Equality is proved for all indices. The order is proved for indices in the spaces of one registry (different spaces differ in their attributes) that are all tagged or all not tagged. Refuted otherwise: tagged and untagged indices together can be ordered in a cycle; indices in spaces that differ in the key only are different, but neither is less. |
| C77 | Labels order indices | partial | `C77_label_order`, `C77_full_label_order`, `C77_full_label_recursion`, `TsrExample.C77_keys_refuted` | Proved for the spaces of one registry. Refuted for spaces that differ in the key only: not being ordered is then not transitive. |
| C78 | The comparers of the canonicalizers are orders | partial | `C78_index_order`, `C78_pair_order`, `C78_block_order`, `TsrExample.C78_keys_refuted` | Proved for the spaces of one registry and for indices that are tagged, as the canonicalizers tag them. Refuted for spaces that differ in the key only: each of two indices compares greater than the other. |
| C79 | The constructor and the adjoint keep the columns of a tensor | partial | `C79_constructor`, `C79_adjoint`, `C79_adjoint_twice`, `TsrExample.C79_adjoint_twice_refuted`, `TsrExample.C79_representation_refuted`, `TsrExample.C79_label_refuted`, `TsrExample.C79_set_bra_refuted` | The adjoint of the adjoint has the same columns and label; it is the tensor itself exactly if the tensor does not have empty ket slots at the end. Refuted: such a tensor is not equal to its second adjoint, nor to the tensor made from the same columns without the empty slots; a label that ends with two adjoint marks is not restored; set_bra leaves the number of bra indices as it was, so that the slots are not put in order later. The special treatment of the (anti)symmetrizer labels is not modelled. |
| C80 | Canonicalizing a tensor keeps its value and makes equivalent tensors equal | partial | `C80_value`, `C80_default_value`, `C80_canonical`, `C80_idempotent`, `C80_external_first`, `TsrExample.C80_external_first_refuted`, `TsrExample.C80_slot_order_refuted` | The value is kept for every comparer for which the sorts end. Uniqueness and idempotence are proved for tensors made by the constructor and adjoint, with untagged indices in the spaces of one registry. Refuted: the documented order of external before internal indices holds only among indices of the same kind (same space, same spaces of proto-indices); the canonical form of a tensor with empty slots need not have its slots in the order that the constructor makes. |
| C81 | Canonicalizing blocks keeps the value and makes blocks of equivalent tensors equal | partial | `C81_value`, `C81_no_exchange`, `C81_block`, `C81_mirror`, `C81_oriented`, `TsrExample.C81_mirror_refuted`, `TsrExample.C81_padding_refuted` | The sort of the standard library is any function that sorts. A tensor and its mirror image get the same block if they have no empty slots and bra and ket differ in their spaces. Refuted: with the same spaces in bra and ket they can get different blocks; an empty slot at the end of the ket changes the orientation. |
| C82 | Tensors are ordered | partial | `C82_equality`, `C82_order`, `TsrExample.C82_symmetry_refuted`, `TsrExample.C82_collision_refuted` | Proved if different bras have different hash values. Refuted: tensors that differ in symmetry only are different but neither is less; if two bras have the same hash value the order can have cycles. |
| C83 | Canonicalizing a tensor network keeps its value | partial | `C83_equivalent`, `C83_value`, `NetExample.C83_unused_named_refuted`, `NetExample.C83_pure_proto_refuted` | Proved for networks of tensors (no operators), without empty slots and proto-indices, with every combination of the methods, every set of named indices that occur in the network, every labelling that the graph library may return and every sort and hash. Refuted: a named index that is not in the network, or a proto-index that labels no slot, makes the lexicographic method give one name to two different indices, which changes the value. |
| C84 | The input ordinals of the tensors tell where they come from | partial | `C84_reorder`, `C84_ordinals_identity`, `NetExample.C84_ordinals_refuted` | The loop that reorders the tensors is right, but it also turns the list of ordinals into the identity, so the documented meaning of the list of input ordinals is refuted: with the default options it does not say where the tensors come from. |
| C85 | Networks that are the same become equal when canonicalized | partial | `C85_canonical`, `C85_labelling_exists`, `Net2Example.C85_mirror_refuted` | Proved for networks of tensors without proto-indices when named indices are distinguished (IgnoreNamedIndexLabel::No, as Sum::canonicalize asks for), given only that the graph library returns a canonical labelling, which is shown to exist. Refuted for tensors with symmetric bra and ket that are not symmetric in their columns: such a tensor and its mirror image are equal in value, but are never brought to the same form. |
| C86 | Canonicalization of a network always succeeds, and doing it twice is doing it once | partial | `C86_total`, `C86_valid`, `C86_same_form`, `C86_idempotent` | Proved for networks of tensors without proto-indices: no assertion fails, no loop runs out, the result is again a network of tensors that could be constructed, and (named indices distinguished, columns orientable, a canonical labelling) canonicalizing again returns the same tensors with a trivial sign. Missing: proto-indices, operators that do not commute. |
| C87 | Canonicalizing a sum keeps its value and always succeeds | partial | `C87_total`, `C87_value` | Proved for sums of products of variables and tensors without proto-indices and of lone tensors, for every commutative ring of scalars, every labelling, every hash. Missing: proto-indices, operators, nested sums and products. |
| C88 | Sums that are the same become equal when canonicalized | partial | `C88_equal`, `C88_zero`, `C88_no_like_terms`, `C88_idempotent`, `C88_lone_tensor_refuted`, `C88_vanishing_refuted` | Proved for sums of products of variables and tensors without proto-indices, none of them equal to its own negative, when different variables have different hash values; equal up to order, and exactly equal when the terms of the result have different hash values. False for lone tensors whose dummy indices are named differently (C88_lone_tensor_refuted), and a term that equals its own negative is kept (C88_vanishing_refuted). Missing: proto-indices, operators, nested sums. |
| C89 | Reading the text of an expression gives the expression back | partial | `C89_round_trip`, `C89_texts_differ`, `SerExamples.C89_imaginary_refuted`, `SerExamples.C89_complex_refuted`, `SerExamples.C89_nested_sum_refuted`, `SerExamples.C89_large_integer_refuted`, `SerExamples.C89_infinity_refuted`, `SerExamples.C89_nested_proto_indices_refuted`, `SerExamples.C89_indices_refuted`, `SerExamples.C89_trivial_refuted` | Proved for every expression whose numbers are real with numerators and denominators up to 2^53, whose names do not begin with inf or nan or end with an underscore, whose indices have an ordinal below the first temporary one and at most one level of proto-indices, and whose sums and products are not trivial; for every character classification that is as usual on ASCII. Outside of that it is false: one refutation for each condition. Not modelled: the letters for hermiticity, results (from_string<ResultExpr>), positions of errors. |
| C90 | Reading a text always ends | partial | `C90_reading_ends`, `C90_rest_is_an_error`, `C90_dangling_star`, `SerExamples.C90_white_space_refuted` | Proved for every text and every character classification. That white space between tokens does not matter is false (C90_white_space_refuted). |
| C91 | Reading the text of a sum keeps its value when terms are merged | partial | `C91_sum_value` | Proved for sums of summands that are read back by C89 and are not sums; the summands may be zero, may be constants, and there may be one only. Missing: the same inside products; sums in sums are not written correctly (C89_nested_sum_refuted). |
| C92 | Eliminating common subexpressions changes no result | partial | `C92_values_partial`, `C92_order`, `C92_twice`, `C92_nothing_common`, `C92_functor`, `CseExamples.C92_negative_definer_refuted`, `CseExamples.C92_wrong_sum_refuted`, `CseExamples.C92_used_once_refuted` | Values: proved for all lists of trees, all comparisons, all functors that make trees as they should, all filters and labels, if nodes that compare equal have equal values up to their phases and the defining nodes have phase +1. Without the second condition it is false (C92_negative_definer_refuted: the definition stores the value without its phase, but the use at that node applies the phase). The first condition is false for the comparison of the code (see C93; C92_wrong_sum_refuted). Order, positions and uses of the definitions: proved. An intermediate can be used only once (C92_used_once_refuted). Not modelled: adjoint nodes, powers, protoindices. |
| C93 | Nodes of evaluation trees that compare equal have equal values | partial | `C93_same_nodes_partial`, `C93_made`, `CseExamples.C93_transposed_sum_refuted`, `CseExamples.C93_sum_and_product_refuted` | Proved for all trees with the data that binarize makes, if it holds for nodes with graphs (products of tensors) and if what the comparison does not look at is the same in both nodes: the operations, the relative phases, and how the indices of the second operand of a sum correspond to those of the first. Without this it is false for all hash functions: A_12 + B_12 and A_12 + B_21 compare equal, and so do x + y and x y. Missing: that equal graphs mean equal values. |
| C94 | Evaluating a tensor gives its value | partial | `C94_leaf_partial`, `LeaExamples.C94_sign_refuted` | Proved up to the sign of the leaf, and without a sign for all tensors that are not antisymmetric, for every cache. For an antisymmetric tensor whose slots are not in block order the evaluation gives the value with the wrong sign (C94_sign_refuted): the leaf holds the reordered tensor, and no one applies the phase. Not modelled: tensors with protoindices, adjoint marks. |
| C95 | Density fitting changes no value | partial | `C95_density_fit`, `C95_all_fitted`, `DfExamples.C95_nested_refuted`, `DfExamples.C95_twice_refuted` | Value and completeness: proved for all sums of products of tensors, all rings and all values of tensors in which the four-index tensor is the fitted sum, if the new auxiliary indices do not occur in the expression. Without the shape condition it is false: factors that are sums or products are not looked into (C95_nested_refuted). A second pass for another label reuses the auxiliary indices of the first and changes the value (C95_twice_refuted). |
| C96 | Tensor hypercontraction changes no value | partial | `C96_hypercontract_partial`, `DfExamples.C96_rank_refuted` | Proved for all sums of products of tensors in which every tensor with the chosen label has rank four. A tensor with that label and another rank is left alone on its own, but makes the transformation stop with an assertion within a product (C96_rank_refuted). |
| C97 | Expanding cluster-specific virtuals changes no value | partial | `C97_csv_partial`, `C97_all_expanded`, `C97_overlap`, `DfExamples.C97_overlaps_refuted`, `DfExamples.C97_null_refuted` | Proved for all sums of products of tensors in which the tensors are expanded slot by slot; the shortcut for overlaps between two sets of virtuals is proved for a single overlap (C97_overlap). Within products it is false: two overlaps that share an index get the same dummy index (C97_overlaps_refuted). A tensor with protoindices on its auxiliary slots only gives a null pointer, and a crash within a sum (C97_null_refuted). |
| C98 | A similarity transformation is the commutator expansion | partial | `C98_commutators`, `C98_ends`, `C98_exponential`, `C98_connected` | Proved for all expressions, ranks and generators in every ring in which the scalars are central. Missing: canonicalization and the adding up of the results for the summands are parameters that keep values (their models are those of C30, C69 and C87); of the connected unitary form only the case of a plain generator is treated; clones and shared subexpressions are not represented. |
| C99 | Screening changes no expectation value | partial | `C99_screening` | Proved for every algebra with a vacuum expectation value and all operators whose terms keep what their quantum numbers promise (C68), products, sums and nesting of them. Missing: canonicalization and the adding up are parameters that keep values; a factor of a product that is itself a product ends in an exception in the model. |
