{"id": "C01", "title": "Subset enumeration is complete and exact", "statement": "bits::bipartitions_ordered(mask) yields 2^popcount(mask) pairs (A,B); every pair has A|B = mask and A&B = 0; A runs over every submask of mask exactly once in strictly increasing order (bits::subsets / subsets_ascending) and B over every submask exactly once in strictly decreasing order (subsets_descending).", "quantifier": "every mask of any bit length (fewer than 64 bits set)", "why_tests_cant": "the number of masks is unbounded and each one yields exponentially many subsets; a test samples a few masks", "anchors": ["SeQuant/core/algorithm.hpp:bits::bipartitions_ordered", "SeQuant/core/algorithm.hpp:bits::subsets_ascending", "SeQuant/core/algorithm.hpp:bits::subsets_descending", "SeQuant/core/algorithm.hpp:bits::subsets"]}
{"id": "C02", "title": "Unordered bipartitions cover every split exactly once", "statement": "bits::bipartitions(mask) lists, for a non-zero mask, every way to split mask into an unordered pair {A,B} of disjoint submasks exactly once.", "quantifier": "every non-zero mask", "why_tests_cant": "the optimiser's completeness rests on every mask, not on the masks sampled in a test", "anchors": ["SeQuant/core/algorithm.hpp:bits::bipartitions_unordered", "SeQuant/core/algorithm.hpp:bits::bipartitions"]}
{"id": "C03", "title": "Set-bit enumeration is exact", "statement": "bits::on_bits_index(mask) yields exactly the positions of the set bits of mask, each once, in increasing order.", "quantifier": "every mask", "why_tests_cant": "unbounded input space", "anchors": ["SeQuant/core/algorithm.hpp:bits::on_bits_index"]}
{"id": "C04", "title": "bubble_sort sorts by adjacent swaps", "statement": "bubble_sort(first,last,comp) terminates, leaves a permutation of the input in which no adjacent pair is out of order, is stable, and the number of swaps it performs has the parity of the permutation (equals the number of inversions); the zipped form does the same for columns under the column-lexicographic order.", "quantifier": "every finite sequence and every strict weak order comp", "why_tests_cant": "termination and sign must hold for all lengths and all orders; sign errors only show for particular permutations", "anchors": ["SeQuant/core/algorithm.hpp:bubble_sort"]}
{"id": "C05", "title": "next_permutation_parity steps to the lexicographic successor and tracks the sign", "statement": "next_permutation_parity returns true and rewrites the range to its lexicographic successor if there is one, otherwise returns false and restores the sorted range; in both cases the parity flag changes by the parity of the applied permutation.", "quantifier": "every finite sequence, every total order, every starting parity", "why_tests_cant": "n! states for each n, all n", "anchors": ["SeQuant/core/algorithm.hpp:next_permutation_parity"]}
{"id": "C06", "title": "Antisymmetrizer loop visits each permutation once with its sign", "statement": "antisymmetric_permutation over a sorted range of n distinct elements invokes its callback exactly n! times, once per permutation, with parity 0/1 according to the sign of that permutation, and leaves the range sorted again.", "quantifier": "every n and every sorted duplicate-free range", "why_tests_cant": "n! grows without bound, tests stop at n=3 or 4", "anchors": ["SeQuant/core/eval/result.hpp:antisymmetric_permutation", "SeQuant/core/algorithm.hpp:next_permutation_parity"]}
{"id": "C07", "title": "count_cycles counts spin loops", "statement": "count_cycles(v0,v1) equals the number of connected components of the graph on index slots whose edges join the two rows of each column and the two occurrences of each value; so it does not depend on bra/ket orientation, and for a permutation it is its number of cycles.", "quantifier": "all pairs of equally long rows of any length", "why_tests_cant": "component counts depend on global structure; union-find bugs show up only for particular merge orders", "anchors": ["SeQuant/core/utility/permutation.hpp:count_cycles"]}
{"id": "C08", "title": "permutation_parity returns the sign of a permutation", "statement": "permutation_parity(p) returns +1 for even and -1 for odd permutations p of 0..N-1, and with overwrite=true leaves p as it was.", "quantifier": "all permutations of all sizes", "why_tests_cant": "the sign must be right for every permutation; a handful of examples can pass by coincidence", "anchors": ["SeQuant/core/utility/permutation.hpp:permutation_parity"]}
{"id": "C09", "title": "Single-term optimisation returns a well-formed evaluation sequence", "statement": "For a network of n>=1 tensors the evaluation sequence is a valid postfix program: it names every tensor 0..n-1 exactly once, contains n-1 binary-operation markers, and evaluates on an operand stack without underflow to exactly one result.", "quantifier": "every network of n tensors, every cost function and option", "why_tests_cant": "must hold for all networks and all cost functions", "anchors": ["SeQuant/core/optimize/cost_model.hpp:run_single_term_opt", "SeQuant/core/optimize/cost_model.hpp:AdditiveModel::reconstruct", "SeQuant/core/algorithm.hpp:EvalSequence"]}
{"id": "C10", "title": "Dense single-term optimisation is optimal", "statement": "Without common-subexpression reuse and without pruning, the operation count of the returned sequence equals the DP's reported cost and is less than or equal to that of every binary contraction tree over the same tensors.", "quantifier": "all networks, all non-negative cost functions of a contraction step, all binary trees over the tensors", "why_tests_cant": "the number of trees is (2n-3)!!; optimality quantifies over all of them for all n and all costs", "anchors": ["SeQuant/core/optimize/cost_model.hpp:solve_single_term", "SeQuant/core/optimize/cost_model.hpp:AdditiveModel", "SeQuant/core/optimize/single_term_detail.hpp:init_results"]}
{"id": "C100", "title": "Memoization under threads", "statement": "memoize(cache, mutex, cv, key, fn), called from any number of threads for any keys, computes each key's value at most once; each call returns, and what it returns is the value computed for its key.", "quantifier": "all numbers of threads, all keys, all schedules, with spurious wake-ups and with computations that throw", "why_tests_cant": "The wrong schedules are rare, and dangling references are silent.", "anchors": ["SeQuant/core/utility/memoize.hpp: memoize", "SeQuant/core/container.hpp: container::map"]}
{"id": "C101", "title": "Factorials are right under threads", "statement": "factorial(n) returns n! for every n, whatever other threads call factorial at the same time; no call blocks for ever.", "quantifier": "all arguments, all numbers of threads, all schedules", "why_tests_cant": "The memoized table is shared and is replaced while other threads read it.", "anchors": ["SeQuant/core/math.hpp: factorial"]}
{"id": "C102", "title": "Complex rational numbers are a field", "statement": "The operators of Complex<rational> satisfy the laws of a field; division fails exactly for the divisor zero and undoes multiplication; conj is an automorphism, its own inverse, and x conj(x) is the squared norm; == is equality and abs is the root of the squared norm.", "quantifier": "all complex rational numbers", "why_tests_cant": "An algebraic law is about all numbers; a wrong sign shows only for suitable arguments.", "anchors": ["SeQuant/core/complex.hpp: Complex, operator*, operator/, conj, norm_squared, abs"]}
{"id": "C103", "title": "Powers keep their value", "statement": "Power rejects exactly zero with a negative exponent. Power::flatten never fails and returns an expression of the same value, for every exponent and with or without conjugation; integer powers of constants and rational square roots become constants. operator*= multiplies the values and its result is a valid power.", "quantifier": "all constants and variables, all rational exponents, all meanings of powers that extend those of the constants", "why_tests_cant": "Exponentiation by squaring, signs and perfect squares depend on the exact numbers.", "anchors": ["SeQuant/core/expressions/power.hpp: Power, Power::flatten, Power::operator*="]}
{"id": "C104", "title": "Conversion of floating-point numbers to rationals", "statement": "to_rational(t, eps, max_niter) returns a rational number within eps of t, the one with the smallest denominator; it does not throw for finite t.", "quantifier": "all finite numbers, precisions and iteration limits", "why_tests_cant": "How long the search takes depends on the number; only a few numbers can be tried.", "anchors": ["SeQuant/core/rational.hpp: to_rational"]}
{"id": "C105", "title": "A scoped context ends with its scope", "statement": "Inside the scope of set_scoped_default_context the requested context is in force for every statistics, and when the scope ends, normally or by an exception, the default contexts are what they were before it, whatever happened in the scope. The same holds for the contexts of mbpt.", "quantifier": "all contexts, all programs in the scope (sets, resets, nested scopes, changes of registries, exceptions), all earlier histories", "why_tests_cant": "What leaks depends on the program inside the scope and on the context before it.", "anchors": ["SeQuant/core/utility/context.hpp: set_scoped_implicit_context, ImplicitContextResetter", "SeQuant/core/context.cpp: set_scoped_default_context, operator==", "SeQuant/domain/mbpt/context.cpp: set_scoped_default_mbpt_context, operator=="]}
{"id": "C106", "title": "The default context of a statistics is the last one set", "statement": "get_default_context(s) returns the context last set for s since the last reset, else the one last set for arbitrary statistics, else a default-constructed context; reading does not change later results.", "quantifier": "all histories of set_default_context, reset_default_context and get_default_context", "why_tests_cant": "Depends on the whole history, including reads that create entries.", "anchors": ["SeQuant/core/context.cpp: get_default_context, set_default_context, reset_default_context"]}
{"id": "C107", "title": "An operator registry is a dictionary shared by its copies", "statement": "OpRegistry behaves as a dictionary from labels to class and Hermiticity: add fails exactly for reserved or present labels, an override is forgotten with its operator, copies share the dictionary, clones do not, and a moved-from registry has none. Equal registries answer alike.", "quantifier": "all histories of constructions, copies, moves, clones, assignments, edits and queries", "why_tests_cant": "Sharing between copies and overrides left behind show only in particular histories.", "anchors": ["SeQuant/domain/mbpt/op_registry.hpp: OpRegistry", "SeQuant/domain/mbpt/op_registry.cpp: add, set_hermiticity, remove, hermiticity, clone"]}
{"id": "C108", "title": "for_each calls the function once for every element", "statement": "When sequant::for_each returns, op has been called exactly once for every element and every call has ended, on any number of threads; calls are commenced in the order of the elements; results written to separate slots are those of a sequential loop; for_each returns in every schedule.", "quantifier": "all range sizes, numbers of threads and interleavings", "why_tests_cant": "The outcome depends on the interleaving of the threads.", "anchors": ["SeQuant/core/runtime.hpp: for_each, num_threads, set_num_threads", "SeQuant/core/optimize/optimize.cpp: optimize_impl (parallel branch)"]}
{"id": "C109", "title": "transform_reduce reduces every element once", "statement": "transform_reduce returns the reduction of the mapped elements, each once, in some order, starting from init; if the reduction commutes this is the sequential result. An accumulation of expressions by threads has the sum of their values as its value. There is no deadlock.", "quantifier": "all ranges, maps, reductions, numbers of threads and interleavings", "why_tests_cant": "A lost update or a deadlock shows in particular interleavings only.", "anchors": ["SeQuant/core/runtime.hpp: transform_reduce", "SeQuant/core/expressions/sum.hpp: transform_sum_expr", "SeQuant/core/wick.impl.hpp: WickTheorem::compute (sums)"]}
{"id": "C11", "title": "Outer-product pruning only drops trees with outer products", "statement": "With pruning on a connected network the search still succeeds, the returned tree contains no outer-product step, and it is optimal among all trees whose every intermediate is connected; on a disconnected network pruning is off and the search is exhaustive.", "quantifier": "all networks and all connectivity graphs", "why_tests_cant": "must hold for every graph; small examples rarely exercise disconnected sub-sets", "anchors": ["SeQuant/core/optimize/single_term_detail.hpp:connected_subsets", "SeQuant/core/optimize/single_term_detail.hpp:outer_product_connectivity", "SeQuant/core/optimize/cost_model.hpp:solve_single_term"]}
{"id": "C110", "title": "parallel_do gives the function to every thread", "statement": "parallel_do calls the given function object once for each thread number below num_threads().", "quantifier": "all function objects, as lvalues or rvalues, and numbers of threads", "why_tests_cant": "Depends on what moving the function object leaves behind.", "anchors": ["SeQuant/core/runtime.hpp: parallel_do"]}
{"id": "C111", "title": "A singleton has one instance in every schedule", "statement": "However calls of instance() and set_instance() by several threads are interleaved, at most one object is constructed, all calls return it, at most one set_instance returns, instance() does not throw for default-constructible classes, and there is neither deadlock nor data race.", "quantifier": "all numbers of threads, sequences of calls and interleavings", "why_tests_cant": "Double construction and races show in particular interleavings only.", "anchors": ["SeQuant/core/utility/singleton.hpp: Singleton::instance, set_instance, set_default_instance"]}
{"id": "C112", "title": "Antisymmetrization gives every distinct permutation with its sign", "statement": "antisymmetrize applied to a product of tensors and fermionic operators gives, with the sign of the permutation, every permutation of its lower and of its upper indices that does not merely reorder indices inside a factor, each once; for antisymmetric factors the result changes sign when two lower (or two upper) indices of the product are exchanged; a product with one factor is returned as it is.", "quantifier": "all products, numbers and ranks of factors, and values of the factors", "why_tests_cant": "The number of permutations grows factorially and the sign depends on the whole history of swaps.", "anchors": ["SeQuant/domain/mbpt/antisymmetrizer.cpp: antisymm_element, gen_antisymm_unique, antisymmetrize"]}
{"id": "C113", "title": "num_closed_loops counts the closed loops", "statement": "Given an original pairing of upper and lower indices and a pairing of some of them, num_closed_loops ends and returns the number of closed loops formed by the two pairings.", "quantifier": "all pairings and partial pairings, in any order", "why_tests_cant": "Termination and the count depend on the cycle structure of a partial permutation and the order of its pairs.", "anchors": ["SeQuant/domain/mbpt/antisymmetrizer.cpp: antisymm::num_closed_loops"]}
{"id": "C114", "title": "Reordering indices for export keeps the tensor element", "statement": "When a code generation context reorders the indices of a tensor, the printed order stands for the same element of every array with the declared symmetries; auxiliary indices of one space stay in order; two occurrences of one array printed with the same index list are the same element.", "quantifier": "all tensors, ranks, symmetries, space sizes, layouts and sorting functions with the standard guarantees", "why_tests_cant": "The decisions interact (three kinds of sorting, exchange of bra and ket, auxiliary indices first or last), and the order of equal-sized spaces is unspecified by std::sort.", "anchors": ["SeQuant/core/export/reordering_context.cpp: ReorderingContext::rewrite"]}
{"id": "C115", "title": "Reordering puts the largest space in the fastest position", "statement": "As far as the symmetries of the tensor allow it, the rewritten tensor has an index of the largest space in the position with the highest cache locality for the chosen memory layout.", "quantifier": "all tensors, space sizes and both layouts", "why_tests_cant": "Optimality among all orders allowed by the symmetries.", "anchors": ["SeQuant/core/export/reordering_context.hpp: ReorderingContext", "SeQuant/core/export/reordering_context.cpp: ReorderingContext::rewrite"]}
{"id": "C116", "title": "ITF integrals keep their value and have one representation", "statement": "A two-electron integral exported to ITF becomes a J or K tensor that stands for the same integral of every real set of orbitals, and all eight equivalent index orders give the same exported tensor.", "quantifier": "all index spaces, sizes, indices and values with the eight symmetries", "why_tests_cant": "Cases multiply over the order of four spaces and four indices, and values are arbitrary.", "anchors": ["SeQuant/core/export/itf.cpp: ItfContext::rewrite, ItfContext::is_exceptional_J"]}
{"id": "C117", "title": "Einsum subscripts use one letter for each index", "statement": "In a generated einsum statement two positions carry the same letter exactly if they carry the same index; a product with no more different indices than the alphabet has letters always gets a statement; all letters are letters of the alphabet.", "quantifier": "all products of tensors, all labels, both alphabets", "why_tests_cant": "The letter of an index depends on all indices met before it; collisions depend on the whole history.", "anchors": ["SeQuant/core/export/python_einsum.hpp: get_einsum_index, tensor_to_einsum_subscript, available_index_chars"]}
{"id": "C118", "title": "The generated einsum statement computes the expression", "statement": "Evaluating the generated right-hand side under Python's arithmetic and einsum's summation rule gives, for every element of the result, the value of the expression: its scalars times the sum over all indices that are not in the result of the product of tensor elements.", "quantifier": "all products of tensors, constants and variables, nested to any depth, all dimensions, array and variable values, all result elements", "why_tests_cant": "Values, dimensions and nesting are unbounded; tests compare generated text.", "anchors": ["SeQuant/core/export/python_einsum.hpp: to_einsum_expr, extract_einsum_components, stringify_scalar, represent"]}
{"id": "C119", "title": "Printed constants evaluate to themselves", "statement": "A constant printed for Python, alone or as a factor of a product, evaluates to the constant under Python's operator precedence.", "quantifier": "all complex rational constants", "why_tests_cant": "Precedence errors show only for particular forms (fractions in the imaginary part, signs).", "anchors": ["SeQuant/core/export/python_einsum.hpp: represent(Constant)"]}
{"id": "C12", "title": "Connectivity table is exact", "statement": "The connected-subset table marks a non-empty subset of tensors as connected exactly when any two members are joined by a path of pairwise-contractible tensors inside the subset.", "quantifier": "all adjacency relations on any number of tensors, all subsets", "why_tests_cant": "graph reachability over exponentially many subsets", "anchors": ["SeQuant/core/optimize/single_term_detail.hpp:connected_subsets"]}
{"id": "C120", "title": "Generated Python names are identifiers and stay different", "statement": "Every non-empty label becomes a valid identifier, a label that is one is kept, and different labels become different names.", "quantifier": "all labels", "why_tests_cant": "Quantifies over all pairs of labels.", "anchors": ["SeQuant/core/export/python_einsum.hpp: sanitize_python_name"]}
{"id": "C121", "title": "Popping a tensor factors it out of the expression", "statement": "pop_tensor returns the tensor and leaves an expression without it whose product with the tensor has the value of the original; without such a tensor it returns nothing and keeps the value.", "quantifier": "all expressions of any nesting depth, all values of tensors and variables", "why_tests_cant": "Sums, products and zero factors interact recursively; values are arbitrary.", "anchors": ["SeQuant/core/utility/expr.cpp: pop_tensor", "SeQuant/core/expressions/sum.hpp: Sum::append", "SeQuant/core/expressions/product.hpp: Product::append"]}
{"id": "C122", "title": "Removing tensors with a label sets them to one", "statement": "remove_tensor gives an expression whose value is that of the original with every tensor of the label replaced by one; has_tensor says no exactly if there is none.", "quantifier": "all expressions and values", "why_tests_cant": "Quantifies over all expressions and values.", "anchors": ["SeQuant/core/expressions/abstract_tensor.cpp: has_tensor, remove_tensor"]}
{"id": "C123", "title": "Transforming an expression renames its indices and scales it", "statement": "transform_expr gives an expression whose value is the scaling factor times the value of the original with all indices replaced simultaneously; products with factors that are products or sums, and only those, are refused.", "quantifier": "all expressions, replacement maps, scaling factors and values", "why_tests_cant": "Replacement maps may be permutations or many-to-one; sums nest.", "anchors": ["SeQuant/core/utility/expr.cpp: transform_expr"]}
{"id": "C124", "title": "TAPP tensors store every element once, in row-major order", "statement": "The offsets of the multi-indices within the extents are a bijection onto the positions of the buffer, whose size is the number of elements, and follow the lexicographic order of the multi-indices.", "quantifier": "all ranks and extents, including none and zero", "why_tests_cant": "Ranks and extents are unbounded.", "anchors": ["SeQuant/core/eval/backends/tapp/tensor.hpp: compute_strides, compute_volume, offset, offset_from_vec"]}
{"id": "C125", "title": "TAPP results add, multiply, permute and conjugate element by element", "statement": "Sums, permutations, adjoints and multiples have the elements given by the annotations; a product has the contraction over all labels that are not in the result as elements, also when nothing is left and it is computed as a dot product over the buffers; no product with consistent annotations fails.", "quantifier": "all ranks, extents, annotations without repeated labels, element values and result elements, and all libraries with TAPP's contract", "why_tests_cant": "The full contraction takes another path than the partial ones; both must agree with one formula for all annotations.", "anchors": ["SeQuant/core/eval/backends/tapp/result.hpp: ResultTensorTAPP", "SeQuant/core/eval/backends/tapp/ops.hpp: contract, permute, scal, dot, compute_result_extents"]}
{"id": "C126", "title": "The permutational overlap matrix is (-1)^n (-2)^cycles", "statement": "Ranks 0 to n!-1 number the permutations of n particles one to one, the last being the identity, and the overlap of two permutations is (-1)^n times (-2) to the number of disjoint cycles of their quotient; the matrix is symmetric.", "quantifier": "all numbers of particles, all pairs of ranks", "why_tests_cant": "The matrix has (n!)^2 elements, half of them written as mirror images.", "anchors": ["SeQuant/domain/mbpt/biorthogonalization.cpp: permutational_overlap_matrix"]}
{"id": "C127", "title": "Hard-coded biorthogonal coefficients are the normalized pseudoinverse", "statement": "The tabulated coefficients are the first row of the Moore-Penrose pseudoinverse of the overlap matrix times n!/rank, and the matrix built from them is that normalized pseudoinverse.", "quantifier": "1 to 5 particles, all rows and columns, both composition orders; uniqueness for all matrices", "why_tests_cant": "151 tabulated fractions and 15000 derived matrix elements; tests look at one row for three particles.", "anchors": ["SeQuant/domain/mbpt/biorthogonalization.cpp: hardcoded_biorthogonalizer_row, make_hardcoded_biorthogonalizer_matrix"]}
{"id": "C128", "title": "The biorthogonal transform undoes the overlap", "statement": "Transforming a result gives the sum over all permutations of its external second indices with the biorthogonal coefficients; if the expression is an overlap-weighted sum over permutations, applying the overlap to the transformed expression gives it back times n!/rank. A result without external pairs throws.", "quantifier": "all external pairs, expressions and values", "why_tests_cant": "A statement about all expressions and all n! permutations at once.", "anchors": ["SeQuant/domain/mbpt/biorthogonalization.cpp: biorthogonal_transform, create_expr_for"]}
{"id": "C129", "title": "Non-null-space projection keeps what lies in the range of the overlap", "statement": "The projection weights are the matching elements of overlap times normalized pseudoinverse; the projected array lies in the range of the overlap; an array that already lies there, or is biorthogonalized, is multiplied by n!/rank; arrays with at most two ket slots or rank four are unchanged.", "quantifier": "all arrays, coordinates and bra ranks, 3 to 5 ket slots", "why_tests_cant": "Holds for all arrays; 150 tabulated weights.", "anchors": ["SeQuant/domain/mbpt/biorthogonalization.hpp: hardcoded_nns_projector, nns_projection_weights, biorthogonal_nns_project_ta, biorthogonal_nns_project_btas, biorthogonal_nns_project_tapp", "SeQuant/domain/mbpt/biorthogonalization.cpp: compute_permuted_indices"]}
{"id": "C13", "title": "Peak-memory optimisation is optimal", "statement": "The peak-memory objective's dynamic programme returns the minimum, over all binary contraction trees and all orders of evaluating the two operands of each node, of the peak of simultaneously live intermediates; every point kept on the frontier is attained by a tree and every tree is dominated by a kept point.", "quantifier": "all networks, all size functions, all trees and all evaluation orders", "why_tests_cant": "exponentially many trees and orders", "anchors": ["SeQuant/core/optimize/cost_model.hpp:PeakModel", "SeQuant/core/optimize/cost_model.hpp:pareto_insert", "SeQuant/core/optimize/cost_model.hpp:pareto_best"]}
{"id": "C130", "title": "Every term of a biorthogonal transform permutes the external indices", "statement": "Each of the n! terms is the given expression with its external indices permuted within their spaces: none is lost and none occurs twice.", "quantifier": "all external pairs and numbers of particles", "why_tests_cant": "The replacement map mixes first and second indices depending on their spaces.", "anchors": ["SeQuant/domain/mbpt/biorthogonalization.cpp: create_expr_for, biorthogonal_transform"]}
{"id": "C131", "title": "The Wang-Knizia filter keeps the largest terms of every group", "statement": "With more than two external groups the result holds, of every group of equivalent products, exactly the products with the largest absolute coefficient, in order; no group disappears. With fewer the sum is unchanged.", "quantifier": "all sums, groups and coefficients", "why_tests_cant": "Sums and groups are unbounded, and the running maximum is replaced along the way.", "anchors": ["SeQuant/domain/mbpt/biorthogonalization.cpp: WK_biorthogonalization_filter"]}
{"id": "C132", "title": "Cumulants become densities", "statement": "A one-body cumulant is replaced by the one-body density, a two-body cumulant by the two-body density minus the antisymmetrized product of one-body densities, and no cumulant is left.", "quantifier": "all indices and all values of the densities", "why_tests_cant": "The identity holds for all densities and index choices, including coinciding indices, for which some antisymmetrized terms are equal and are dropped.", "anchors": ["SeQuant/domain/mbpt/rdm.cpp: cumu_to_density, cumu2_to_density"]}
{"id": "C133", "title": "Normal-ordered one- and two-body operators in terms of cumulants", "statement": "The one-body operator normal ordered with respect to a correlated state is the operator minus the one-body cumulant; the two-body one is the operator minus all antisymmetrized products of cumulants and normal-ordered operators of lower rank.", "quantifier": "all indices, cumulants and expectation values", "why_tests_cant": "Identity between expressions for all values.", "anchors": ["SeQuant/domain/mbpt/rdm.cpp: one_body_sub, two_body_decomp"]}
{"id": "C134", "title": "A decomposed three-body operator has the right expectation value", "statement": "Decomposing a three-body operator gives an expression whose expectation value, in a state with the given cumulants, is the cumulant expansion of the three-body density: the determinant of one-body cumulants, the nine products of a one- and a two-body cumulant and, unless it is approximated away, the three-body cumulant.", "quantifier": "all distinct indices, all one-, two- and three-body cumulants", "why_tests_cant": "The result has 51 terms whose signs come from two levels of antisymmetrization.", "anchors": ["SeQuant/domain/mbpt/rdm.cpp: three_body_decomp"]}
{"id": "C135", "title": "Three-body decomposition by rank", "statement": "Decomposition of rank 2 leaves no cumulant and has the expectation value of the three-body density without its three-body cumulant; rank 1 that of one-body densities only; other ranks than 1, 2 and 3 are refused.", "quantifier": "all distinct indices and densities, all ranks", "why_tests_cant": "Holds for all densities; every factor of every term has to be replaced.", "anchors": ["SeQuant/domain/mbpt/rdm.cpp: three_body_decomposition"]}
{"id": "C136", "title": "Rank 3 is exact", "statement": "Three-body decomposition of rank 3 makes no approximation: its expectation value is the three-body density; three-body cumulants can be converted to densities.", "quantifier": "all indices and densities", "why_tests_cant": "No test uses rank 3.", "anchors": ["SeQuant/domain/mbpt/rdm.cpp: three_body_decomposition, cumu3_to_density", "SeQuant/domain/mbpt/rdm.hpp: three_body_decomp (default argument), three_body_substitution"]}
{"id": "C137", "title": "Equality of tensor blocks", "statement": "Two tensors are the same block exactly if they have the same label, the same number of slots and indices of the same spaces in the same order, whatever the index labels and whether the slots are bra, ket or auxiliary; the comparison never fails.", "quantifier": "all pairs of tensors, with empty slots", "why_tests_cant": "All tensors; tests compare a handful.", "anchors": ["SeQuant/core/utility/tensor.hpp: TensorBlockEqualComparator"]}
{"id": "C138", "title": "The order of tensor blocks is a strict weak order that agrees with equality", "statement": "Ordering tensors by block is irreflexive and transitive, being unordered is transitive, and two tensors are unordered exactly if they are the same block.", "quantifier": "all triples of tensors", "why_tests_cant": "Three tensors at a time, unbounded ranks; std::map has undefined behaviour otherwise.", "anchors": ["SeQuant/core/utility/tensor.hpp: TensorBlockLessThanComparator", "SeQuant/core/space.hpp: operator<=>, operator=="]}
{"id": "C139", "title": "Comparators that distinguish specific indices", "statement": "With a list of specific indices, tensors are equal exactly if they are the same block and have the same specific indices at the same places; the corresponding order is a strict weak order that agrees; with an empty list both are the block comparators.", "quantifier": "all tensors and all lists of specific indices", "why_tests_cant": "Lists and ranks are unbounded.", "anchors": ["SeQuant/core/utility/tensor.hpp: IndexSpecificTensorBlockComparator"]}
{"id": "C14", "title": "Optimising a product preserves its value", "statement": "Optimising a product (single_term_opt and opt_mixed_product) returns an expression with the same value: the same scalar prefactor and the same multiset of factors, nested as a binary tree.", "quantifier": "all products with any scalar and any mix of tensor and scalar factors", "why_tests_cant": "value preservation must hold for every product", "anchors": ["SeQuant/core/optimize/single_term.hpp:single_term_opt", "SeQuant/core/optimize/optimize.cpp:opt_mixed_product", "SeQuant/core/expressions/product.hpp:Product::prepend"]}
{"id": "C140", "title": "Maps keyed by tensor blocks", "statement": "After any sequence of assignments, looking up a tensor gives the value last assigned to a tensor of the same block, and nothing if there was none.", "quantifier": "all sequences of assignments, all tensors", "why_tests_cant": "Holds for all histories of the map.", "anchors": ["SeQuant/core/export/export.hpp: tensors, tensorReferences, m_tensorUses", "SeQuant/core/export/context.hpp: TensorStrategyMap", "SeQuant/core/export/itf.hpp: TensorImportMap"]}
{"id": "C141", "title": "A Hugenholtz vertex groups equivalent edges", "statement": "After building a vertex from edges and any history of insertions and erasures within bounds, every call has succeeded and the vertex reports the number of edges, the number of classes of equivalent edges, and for each edge the ordered positions of the edges equivalent to it and their number.", "quantifier": "all edge types, all equivalences on them, all initial sequences and all histories of insertions and erasures", "why_tests_cant": "Histories are unbounded and positions shift with every call.", "anchors": ["SeQuant/core/hugenholtz.hpp: HugenholtzVertex, group, group_size, num_nonempty_groups, insert, erase"]}
{"id": "C142", "title": "A Hugenholtz vertex refuses invalid calls", "statement": "Inserting beyond the end and erasing outside of the sequence throw; erasing with an edge that is not equivalent to the one at the position fails an assertion, and without assertions erases the position.", "quantifier": "all histories followed by any invalid call", "why_tests_cant": "Must hold in every reachable state.", "anchors": ["SeQuant/core/hugenholtz.hpp: insert, erase"]}
{"id": "C143", "title": "A Hugenholtz vertex depends on its edges only", "statement": "Two vertices that show the same sequence of edges, however they were obtained, report the same numbers, group sizes and group members.", "quantifier": "all pairs of histories ending in the same sequence", "why_tests_cant": "Pairs of unbounded histories.", "anchors": ["SeQuant/core/hugenholtz.hpp: group, group_size, num_edges, num_nonempty_groups"]}
{"id": "C144", "title": "Groups are never removed", "statement": "The number of groups never decreases, grows by at most one per insertion, and is at least the number of nonempty groups.", "quantifier": "all histories", "why_tests_cant": "Unbounded histories.", "anchors": ["SeQuant/core/hugenholtz.hpp: num_groups, num_nonempty_groups, insert, erase"]}
{"id": "C145", "title": "A normal operator keeps count of its creators and annihilators", "statement": "After any history of insertions, erasures, adjoints and index replacements the numbers of creators and annihilators are those of the sequence; while it is normal-ordered, creators() and annihilators() are exactly its creators and annihilators in particle order; a new operator has the given ones; the adjoint exchanges them and is its own inverse.", "quantifier": "all creators, annihilators and histories", "why_tests_cant": "Unbounded histories; a count that is off by one once stays wrong.", "anchors": ["SeQuant/core/op.hpp: NormalOperator, insert, erase, adjoint, transform_indices, creators, annihilators, rank"]}
{"id": "C146", "title": "The Hugenholtz vertex of a normal operator shows its current operators", "statement": "Whenever hug() is called it groups the operators the normal operator has at that time by action and index type.", "quantifier": "all histories of calls, with hug() called at any points", "why_tests_cant": "The vertex is built lazily and updated by later calls: depends on when it was first asked for.", "anchors": ["SeQuant/core/op.hpp: NormalOperator::hug, insert, erase, adjoint, transform_indices", "SeQuant/core/op.hpp: Op::TypeEquality"]}
{"id": "C147", "title": "The hash of a normal operator is that of its current operators", "statement": "hash_value() is the hash of the current sequence whatever was done before, and comparing two operators compares their vacua, numbers of creators and sequences.", "quantifier": "all histories, all hash functions", "why_tests_cant": "The hash is memoized: depends on when it was first asked for.", "anchors": ["SeQuant/core/op.hpp: memoizing_hash, operator==, insert, erase", "SeQuant/core/expressions/expr.hpp: hash_value, reset_hash_value"]}
{"id": "C148", "title": "Strings are converted to integers exactly", "statement": "string_to<T>(s, base) returns v exactly if the whole of s is a representation of v in the base, with a minus sign only for signed types, and T can represent v; otherwise it throws: out of range, not valid, or not fully parsed. Every value of T is the value of some string.", "quantifier": "all integer types, all bases from 2 to 36, all strings", "why_tests_cant": "All strings and all types.", "anchors": ["SeQuant/core/utility/conversion.hpp: string_to, string_to_impl"]}
{"id": "C149", "title": "Wide strings are converted like narrow ones", "statement": "string_to<T> of a wide string returns v exactly if the string is a representation of v that T can represent, and throws otherwise, also for characters that are not ASCII.", "quantifier": "all wide strings, with any character values", "why_tests_cant": "All strings; the characters that go wrong are unusual.", "anchors": ["SeQuant/core/utility/conversion.hpp: string_to(std::wstring_view, int)"]}
{"id": "C15", "title": "Sum reordering keeps every term exactly once and groups terms sharing intermediates", "statement": "opt::reorder(sum) returns a permutation of the summands (nothing dropped, duplicated or changed); two terms that share a common intermediate are placed in the same cluster, consecutive in the output.", "quantifier": "all sums", "why_tests_cant": "must hold for all sharing graphs between terms", "anchors": ["SeQuant/core/optimize/sum.cpp:clusters", "SeQuant/core/optimize/sum.cpp:reorder"]}
{"id": "C150", "title": "Operator connections are lowered to the right positions", "statement": "The pairs of positions required to be connected, or not to be, are exactly the pairs of operators of the product, the left one first, whose labels are one of the given pairs, where positions count operators and normal operators and no other factors.", "quantifier": "all products and all lists of label pairs", "why_tests_cant": "Unbounded products with repeated labels.", "anchors": ["SeQuant/domain/mbpt/vac_av.cpp: lower_label_pairs, expectation_value_impl"]}
{"id": "C151", "title": "Operator-level expectation values are linear and screening does not change them", "statement": "For every expression of scalars, operators, products and nested sums the function terminates and returns the sum over the terms of the expanded expression of the scalar times the expectation value of the product; the result is the same with and without screening; lone operators give zero and scalars themselves.", "quantifier": "all expressions, all connections", "why_tests_cant": "Unbounded nesting of sums and products.", "anchors": ["SeQuant/domain/mbpt/vac_av.cpp: expectation_value_impl, vac_av, ref_av"]}
{"id": "C152", "title": "Index replacement in an expression is simultaneous, scaled and complete", "statement": "transform_expr(e, map, c) has the value of c times e in which each index that is a key of the map is replaced by its image, once, and no other index is changed, for every value of the tensors and variables; it throws exactly if a product has a factor that is a sum or a product.", "quantifier": "all expressions, maps and scaling factors", "why_tests_cant": "Unbounded expressions, maps that exchange indices or have images that are keys.", "anchors": ["SeQuant/core/utility/expr.cpp: transform_expr"]}
{"id": "C153", "title": "Replacing a tensor replaces every match once and adapts its indices", "statement": "replace(e, target, r, cmp) changes e so that every atom that matches the target becomes r, with the indices r shares with the target renamed to those in the same slots of the match, and nothing else; what is put in is not searched again; an expression without a match is unchanged and a composite target is refused.", "quantifier": "all expressions, targets, replacements and comparisons", "why_tests_cant": "Unbounded expressions and all comparisons; the matches that go wrong are those at the root.", "anchors": ["SeQuant/core/utility/expr.hpp: replace", "SeQuant/core/utility/expr.cpp: transform_expr", "SeQuant/core/expressions/expr.hpp: Expr::visit"]}
{"id": "C154", "title": "Swap counters of threads are independent", "statement": "ts_swap_counter_is_even<T>() tells the parity of the swaps of objects of type T counted by the calling thread since its last reset_ts_swap_counter<T>(), whatever is done by other threads and with other types.", "quantifier": "all schedules of all threads", "why_tests_cant": "Depends on the interleaving of the threads.", "anchors": ["SeQuant/core/utility/swap.hpp: SwapCounter, swap, counted_swap, count_swap, reset_ts_swap_counter, ts_swap_counter_is_even"]}
{"id": "C155", "title": "Export strategies are those set last, globally or for the current expression", "statement": "After any history of setLoadStrategy, setZeroStrategy, set_current_expression_id and clear_current_expression_id, loadStrategy and zeroStrategy return what was set last globally (or in the map of the constructor) if the object has a global entry, else what was set last for the current expression, else the default; a call without an expression is for the one that is current when it is made, or global.", "quantifier": "all histories of calls", "why_tests_cant": "Unbounded histories over many objects and expressions.", "anchors": ["SeQuant/core/export/context.cpp: loadStrategy, zeroStrategy, setLoadStrategy, setZeroStrategy, set_current_expression_id"]}
{"id": "C156", "title": "Setting an export strategy has effect and leaves everything else alone", "statement": "After setLoadStrategy(x, s) loadStrategy(x) is s, and zeroStrategy(x) and the strategies of all other objects are unchanged, and likewise for setZeroStrategy.", "quantifier": "all states of the context", "why_tests_cant": "The states in which it fails have entries in two scopes.", "anchors": ["SeQuant/core/export/context.cpp: setLoadStrategy, setZeroStrategy", "SeQuant/core/export/export.hpp: preprocess"]}
{"id": "C157", "title": "Coupled-cluster equations do not depend on screening", "statement": "CC::t(pmax, pmin) returns for every rank from pmin to pmax the expectation value of the whole transformed Hamiltonian projected on that rank, and nothing for the ranks below, with and without screening, although terms screened out for a rank are also dropped for all lower ranks; likewise CC::\u03bb() for ranks 1 to N, with the pseudoenergy as element 0.", "quantifier": "all transformed Hamiltonians, all ranges of ranks", "why_tests_cant": "Unbounded numbers of terms and ranks.", "anchors": ["SeQuant/domain/mbpt/models/cc.cpp: CC::t, CC::\u03bb"]}
{"id": "C158", "title": "Coupled-cluster equations are made for every range of ranks", "statement": "CC::t(pmax, pmin) with pmin <= pmax returns, with zero for ranks that no term reaches.", "quantifier": "all transformed Hamiltonians, all ranges of ranks", "why_tests_cant": "The ranks that fail depend on the truncation and the excitations included.", "anchors": ["SeQuant/domain/mbpt/models/cc.cpp: CC::t"]}
{"id": "C159", "title": "Equations of motion cover every sector of the operator", "statement": "For nonnegative np and nh, not both zero, eom_r(np, nh) and eom_l(np, nh) return min(np, nh) + 1 elements; every sector of R or L, i.e. (np, nh), (np - 1, nh - 1) and so on without the reference, has exactly its projection as an equation, at the position min(p, h), and R and L have all these sectors and no others. Calls are refused exactly if both numbers are not positive, for unequal numbers in a spin-free basis, and for eom_l with a unitary ansatz.", "quantifier": "all numbers of particles and holes", "why_tests_cant": "Unbounded numbers of particles and holes.", "anchors": ["SeQuant/domain/mbpt/models/cc.cpp: CC::eom_r, CC::eom_l", "SeQuant/domain/mbpt/op.cpp: R, L"]}
{"id": "C16", "title": "Iterative tree traversal is the recursive traversal", "statement": "FullBinaryNode visit / visit_leaf / visit_internal on a root visit every node (leaf, internal node) exactly once in the requested pre-, in- or post-order, with pruning of subtrees in pre-order when the visitor returns false, and terminate.", "quantifier": "all full binary trees of any depth and shape, all visitors", "why_tests_cant": "unbounded trees; an iterative parent-pointer walk can go wrong on particular shapes", "anchors": ["SeQuant/core/binary_node.hpp:detail::visit", "SeQuant/core/binary_node.hpp:FullBinaryNode"]}
{"id": "C160", "title": "Element 0 of the equations of motion is null", "statement": "Element 0 of the result of eom_r and eom_l is always null, as documented.", "quantifier": "all numbers of particles and holes", "why_tests_cant": "Depends on the numbers given.", "anchors": ["SeQuant/domain/mbpt/models/cc.cpp: CC::eom_r, CC::eom_l", "SeQuant/domain/mbpt/op.cpp: R, L"]}
{"id": "C17", "title": "Copying, transforming and folding binary trees are structure preserving", "statement": "Deep copy yields an equal tree; transform_node yields a tree of identical shape with the function applied at each node; the fold constructor over n leaves yields a left-leaning tree with the given leaves in order; size() is the number of nodes and a tree with n leaves has 2n-1 nodes.", "quantifier": "all trees and all leaf sequences", "why_tests_cant": "unbounded trees", "anchors": ["SeQuant/core/binary_node.hpp:FullBinaryNode::deep_copy", "SeQuant/core/binary_node.hpp:transform_node", "SeQuant/core/binary_node.hpp:fold_left_to_node", "SeQuant/core/binary_node.hpp:FullBinaryNode::size"]}
{"id": "C18", "title": "Tree equality is an equivalence that never fails", "statement": "operator== on binary trees terminates without error on every pair of trees and holds exactly when the two trees have the same shape and equal data at corresponding nodes.", "quantifier": "all pairs of trees", "why_tests_cant": "pairs of arbitrary shapes", "anchors": ["SeQuant/core/binary_node.hpp:operator=="]}
{"id": "C19", "title": "Cache entries live exactly as long as their use count", "statement": "After an entry with use count m (up to 2^32, the range of the int-cast life counter) is stored it can be read exactly m times in total (including the read done by store); the value read is always the value stored; afterwards the entry is not alive and holds no memory; persistent entries survive any number of reads; reset() restores every non-persistent entry to its initial state and keeps persistent ones.", "quantifier": "all histories of store/access/reset operations on all caches", "why_tests_cant": "the property is about all operation histories", "anchors": ["SeQuant/core/eval/cache_manager.hpp:CacheManager::access", "SeQuant/core/eval/cache_manager.hpp:CacheManager::store", "SeQuant/core/eval/cache_manager.hpp:CacheManager::reset", "SeQuant/core/eval/cache_manager.hpp:CacheManager::entry"]}
{"id": "C20", "title": "Evaluation with a cache equals evaluation without one", "statement": "evaluate(node, leaf evaluator, cache) returns the same value whatever cache is supplied (empty, freshly built by cache_manager for any list of trees, or left in any state by earlier evaluations with the same leaf values), provided equal cache keys denote equal values up to the recorded canonicalisation phase.", "quantifier": "all evaluation trees, all leaf evaluators, all cache contents consistent with them, all histories", "why_tests_cant": "quantifies over all trees, all repeated-subtree patterns and all cache histories", "anchors": ["SeQuant/core/eval/eval.hpp:evaluate", "SeQuant/core/eval/cache_manager.hpp:cache_manager"]}
{"id": "C21", "title": "The cache makes each shared intermediate be computed once and is drained at the end", "statement": "With min_repeats=2 evaluating the list of trees the cache was built from computes every intermediate occurring at least twice exactly once and leaves no non-persistent entry alive.", "quantifier": "all lists of evaluation trees", "why_tests_cant": "usage counting must be exact for all sharing patterns, including nested repeats", "anchors": ["SeQuant/core/eval/cache_manager.hpp:cache_manager", "SeQuant/core/eval/eval.hpp:evaluate"]}
{"id": "C22", "title": "Evaluating a list of terms returns the sum of the terms", "statement": "evaluate(list of nodes, ..., cache) returns the sum of the values of the individual nodes, for any cache.", "quantifier": "all lists of evaluation trees and all caches", "why_tests_cant": "in-place accumulation may alias cached buffers only for particular sharing patterns", "anchors": ["SeQuant/core/eval/eval.hpp:evaluate (range overloads)"]}
{"id": "C23", "title": "Asymptotic cost arithmetic agrees with evaluation", "statement": "For all costs a,b, every rational r and every assignment of extents to index spaces, ops(a+b)=ops(a)+ops(b), ops(a-b)=ops(a)-ops(b), ops(r*a)=r*ops(a); the polynomial is kept in normal form (no repeated monomial, no zero coefficient after addition).", "quantifier": "all cost polynomials, rationals and extents", "why_tests_cant": "unbounded polynomials", "anchors": ["SeQuant/core/asy_cost.cpp:operator+", "SeQuant/core/asy_cost.cpp:operator*", "SeQuant/core/asy_cost.cpp:AsyCost::ops"]}
{"id": "C24", "title": "Asymptotic cost comparison is a consistent order", "statement": "operator< on asymptotic costs is a strict weak order consistent with operator==, and adding a positive cost never makes a cost smaller.", "quantifier": "all pairs and triples of costs", "why_tests_cant": "transitivity and monotonicity quantify over all triples", "anchors": ["SeQuant/core/asy_cost.cpp:operator<", "SeQuant/core/asy_cost.cpp:operator=="]}
{"id": "C25", "title": "Building products preserves value", "statement": "Product::append, Product::prepend and the * operators build an expression whose value is the product of the values of the arguments in that order, for every flattening mode.", "quantifier": "all expressions, scalars, flattening modes, and all (non-commutative) interpretations of the atoms", "why_tests_cant": "value equality quantifies over all interpretations", "anchors": ["SeQuant/core/expressions/product.hpp:Product::append", "SeQuant/core/expressions/product.hpp:Product::prepend", "SeQuant/core/expressions/expr_operators.hpp:operator*"]}
{"id": "C26", "title": "Building sums preserves value", "statement": "Sum construction, append, prepend and the +,- operators build an expression whose value is the sum (difference) of the values of the arguments, merging constants.", "quantifier": "all expressions and all interpretations of the atoms", "why_tests_cant": "value equality quantifies over all interpretations and all argument lists (including zero summands)", "anchors": ["SeQuant/core/expressions/sum.hpp:Sum::Sum", "SeQuant/core/expressions/sum.hpp:Sum::append", "SeQuant/core/expressions/sum.hpp:Sum::prepend", "SeQuant/core/expressions/expr_operators.hpp:operator+"]}
{"id": "C27", "title": "expand distributes products over sums without changing the value", "statement": "expand(expr) has the same value as expr and its result contains no product with a sum factor.", "quantifier": "all expressions, all non-commutative interpretations", "why_tests_cant": "arbitrarily nested expressions", "anchors": ["SeQuant/core/expressions/expr_algorithms.cpp:ExpandVisitor", "SeQuant/core/expressions/expr_algorithms.cpp:expand"]}
{"id": "C28", "title": "flatten removes nesting without changing the value", "statement": "flatten(expr) has the same value as expr and its result has no sum directly inside a sum and no product directly inside a product.", "quantifier": "all expressions, all non-commutative interpretations", "why_tests_cant": "arbitrarily nested expressions", "anchors": ["SeQuant/core/expressions/expr_algorithms.cpp:flatten"]}
{"id": "C29", "title": "rapid_simplify preserves value", "statement": "rapid_simplify(expr) has the same value as expr, drops zero products and collapses trivial ones.", "quantifier": "all expressions, all interpretations", "why_tests_cant": "arbitrarily nested expressions", "anchors": ["SeQuant/core/expressions/expr_algorithms.cpp:RapidSimplifyVisitor"]}
{"id": "C30", "title": "Collecting like terms preserves value", "statement": "Appending any sequence of summands to a hashing accumulator and converting it to an expression yields an expression whose value is the sum of the values of the summands, in any order of insertion and whatever hash collisions occur.", "quantifier": "all sequences of summands, all hash functions compatible with equality", "why_tests_cant": "hash collisions and insertion orders cannot be enumerated", "anchors": ["SeQuant/core/expressions/expr.cpp:HashingAccumulator::append", "SeQuant/core/expressions/expr.cpp:HashingAccumulator::make_expr"]}
{"id": "C31", "title": "adjoint is an involutive anti-automorphism", "statement": "adjoint of a product is the reversed product of adjoints with conjugated scalar, adjoint of a sum is the sum of adjoints, and applying adjoint twice gives back the original expression.", "quantifier": "all expressions", "why_tests_cant": "arbitrarily nested expressions", "anchors": ["SeQuant/core/expressions/expr.cpp:Product::adjoint", "SeQuant/core/expressions/expr.cpp:Sum::adjoint", "SeQuant/core/op.hpp:Operator::adjoint"]}
{"id": "C32", "title": "Wick's theorem: full contractions give the vacuum expectation value", "statement": "For a product of normal-ordered operators (full_contractions, no topological shortcuts, no connectivity constraints) the sum of the terms produced is the vacuum expectation value of the product.", "quantifier": "all sequences of normal operators of any length and rank, fermionic and bosonic, all vacua for which each elementary operator splits into a quasiparticle creating and a quasiparticle annihilating part", "why_tests_cant": "the number of contractions grows factorially; signs must be right for all of them", "anchors": ["SeQuant/core/wick.hpp:WickTheorem::recursive_nontensor_wick", "SeQuant/core/wick.hpp:WickTheorem::compute_nontensor_wick"]}
{"id": "C33", "title": "Generalised Wick's theorem: partial contractions give the operator product", "statement": "Without full_contractions the sum of all terms produced, each a sign times a product of contractions times a normal-ordered operator, plus the contraction-free term, equals the product of the input normal operators.", "quantifier": "all sequences of normal operators", "why_tests_cant": "operator identity for all inputs", "anchors": ["SeQuant/core/wick.hpp:WickTheorem::recursive_nontensor_wick", "SeQuant/core/wick.hpp:WickTheorem::compute_nontensor_wick", "SeQuant/core/op.hpp:normalize"]}
{"id": "C34", "title": "normalize merges normal operators with the right sign", "statement": "normalize(opseq, partners) returns a sign and a single normal operator, with creators left of annihilators, whose elementary operators are a permutation of those of opseq and whose sign is the sign of that permutation for fermions and +1 for bosons.", "quantifier": "all operator sequences and all partner lists", "why_tests_cant": "sign of arbitrary permutations", "anchors": ["SeQuant/core/op.hpp:normalize"]}
{"id": "C35", "title": "normalize keeps requested index pairs on the same particle", "statement": "If the requested partner pairs are over distinct indices, every requested pair whose creator and annihilator are both present (for those among the first min(#cre,#ann) columns of the shorter row) ends up in the same column of the result.", "quantifier": "all operator sequences with distinct indices and all partner lists with distinct indices", "why_tests_cant": "swaps made for one pair could disturb another for particular permutations", "anchors": ["SeQuant/core/op.hpp:normalize"]}
{"id": "C36", "title": "count_only counts the terms", "statement": "compute(count_only=true) returns exactly the number of terms that compute(false) would append to its result.", "quantifier": "all operator sequences, both contraction modes", "why_tests_cant": "factorially many terms", "anchors": ["SeQuant/core/wick.hpp:WickTheorem::compute_nontensor_wick"]}
{"id": "C37", "title": "Spin-free loop factor", "statement": "For a full set of contractions the loop count used for the factor 2^ncycles equals the number of closed loops of the graph formed by the particle lines of the input operators and the contractions, independent of the order of contractions, and no open line is left.", "quantifier": "all numbers of operators and all complete contraction patterns in all orders", "why_tests_cant": "number of patterns is factorial", "anchors": ["SeQuant/core/wick.hpp:NontensorWickState::make_target_partner_indices"]}
{"id": "C38", "title": "Intersection of index spaces", "statement": "IndexSpaceRegistry::intersection is commutative, idempotent, and returns the space whose basis types and quantum numbers are exactly those common to both arguments (or the null space if there are none).", "quantifier": "all registries and all pairs of registered spaces", "why_tests_cant": "all registries of any size", "anchors": ["SeQuant/core/index_space_registry.hpp:IndexSpaceRegistry::intersection"]}
{"id": "C39", "title": "Non-repeated index extraction", "statement": "get_unique_indices on a tensor or a product of tensors returns exactly the indices that occur exactly once, in the slot group (bra, ket, aux) where they occur, in order of first occurrence.", "quantifier": "all tensors and products in which each index occurs at most twice", "why_tests_cant": "all index patterns", "anchors": ["SeQuant/core/utility/indices.hpp:get_unique_indices"]}
{"id": "C40", "title": "Open indices of every sub-network", "statement": "subset_target_indices yields for every proper subset of tensors the indices of the subset that are open (occur once in it) or are needed outside it, and for the full set the requested target indices plus those occurring once; so every intermediate keeps every index needed later.", "quantifier": "all networks and all subsets", "why_tests_cant": "exponentially many subsets of arbitrary networks", "anchors": ["SeQuant/core/utility/indices.hpp:subset_target_indices", "SeQuant/core/utility/indices.hpp:subset_index_counts"]}
{"id": "C41", "title": "Left-to-right binarization indices", "statement": "left_to_right_binarization_indices gives for each prefix product exactly the indices that occur in the prefix and either occur again later or are to be kept, and for each factor those that are contracted anywhere or are kept.", "quantifier": "all sequences of index sets", "why_tests_cant": "all sequences", "anchors": ["SeQuant/core/utility/indices.hpp:left_to_right_binarization_indices"]}
{"id": "C42", "title": "Code-generation optimiser preserves the program", "statement": "The stream of actions the optimiser forwards has the same effect as the stream it received: the same computations in the same order, each with all its operands loaded, the same final stored results, and the same stack discipline of loads and unloads.", "quantifier": "all well-formed action streams", "why_tests_cant": "arbitrary streams; faults show only for particular interleavings of load/unload", "anchors": ["SeQuant/core/export/generation_optimizer.hpp:GenerationOptimizer::process_operation_queue", "SeQuant/core/export/generation_optimizer.hpp:GenerationOptimizer::optimize_operation_cache"]}
{"id": "C43", "title": "Symmetrizer loop permutes bra and ket together", "statement": "symmetric_permutation over n >= 2 particles with strictly increasing bra entries invokes its callback exactly n! times, once for each simultaneous permutation of the (bra, ket) columns, and leaves the range as it was.", "quantifier": "every n and every column list with increasing bra entries", "why_tests_cant": "n! permutations for every n", "anchors": ["SeQuant/core/eval/result.hpp:symmetric_permutation", "SeQuant/core/eval/result.hpp:IterPair"]}
{"id": "C44", "title": "Copying, moving and destroying trees keeps ownership and parent links right", "statement": "After copy assignment (whatever overlap between source and target), move assignment from a node elsewhere or from any node strictly below the target, and the constructors, the target holds the source's tree, every child's parent() is the node that owns it, the replaced nodes are freed exactly once and nothing else changes; destroying a tree frees every node exactly once.", "quantifier": "all trees, all overlaps, all heaps", "why_tests_cant": "pointer aliasing between source and target ranges over all shapes and positions", "anchors": ["SeQuant/core/binary_node.hpp:FullBinaryNode::operator=", "SeQuant/core/binary_node.hpp:FullBinaryNode::~FullBinaryNode", "SeQuant/core/binary_node.hpp:FullBinaryNode::FullBinaryNode"]}
{"id": "C45", "title": "digraph output is the tree", "statement": "digraph() numbers the nodes consecutively in pre-order, prints each node once, and prints exactly the edges from each internal node to its two children.", "quantifier": "all trees", "why_tests_cant": "all shapes and sizes", "anchors": ["SeQuant/core/binary_node.hpp:FullBinaryNode::digraph"]}
{"id": "C46", "title": "Subtree extraction takes exactly the maximal matches", "statement": "extract_subtrees replaces by a leaf, and returns, exactly the nodes whose predicate holds and that are roots or have a parent whose predicate does not hold; all other nodes are unchanged.", "quantifier": "all forests and all predicates of the node, its children's payloads and their predicate values", "why_tests_cant": "all trees and predicates", "anchors": ["SeQuant/core/optimize/extract_subtrees.hpp:extract_subtrees", "SeQuant/core/optimize/extract_subtrees.hpp:extract_subtrees_visit"]}
{"id": "C47", "title": "Persistent cache entries are exactly the non-volatile inputs of volatile intermediates", "statement": "The persistence-aware cache_manager registers an intermediate exactly when it is used at least min_repeats times or is a non-volatile intermediate consumed by a volatile one (and is not vetoed), and marks exactly the latter persistent; evaluation never changes the flags; after the volatile leaves change and reset() is called, the cache is again consistent with the new leaf values.", "quantifier": "all forests, all volatility and veto predicates that respect node equality, all histories", "why_tests_cant": "the classification depends on the whole forest and its sharing pattern", "anchors": ["SeQuant/core/eval/cache_manager.hpp:cache_manager", "SeQuant/core/eval/cache_manager.hpp:CacheManager::reset"]}
{"id": "C48", "title": "peak_cache bounds the memory of the cache", "statement": "peak_cache(nodes, min_repeats) returns the maximum over the evaluation of the total size of the entries alive in the cache built from the same arguments; in particular at most the sum of the sizes of all registered entries.", "quantifier": "all forests and all size functions", "why_tests_cant": "depends on the order in which entries die for every sharing pattern", "anchors": ["SeQuant/core/eval/cache_manager.hpp:peak_cache"]}
{"id": "C49", "title": "Batches of a tiled mode partition its range", "statement": "mode_batches cuts the element range of a mode into consecutive batches that cover it exactly, each made of whole tiles, none longer than the target unless it is a single tile, and none that could have taken the next tile as well.", "quantifier": "all tilings and target sizes", "why_tests_cant": "all tilings and targets", "anchors": ["SeQuant/core/eval/backends/tiledarray/result.hpp:mode_batches"]}
{"id": "C50", "title": "Connectivity constraints select exactly the connected contraction patterns", "statement": "With full contractions, the terms produced under set_nop_connections(req) and set_nop_avoided_connections(av) are exactly the complete contraction patterns in which every pair in req is directly connected and no pair in av is, each once; the early pruning loses none.", "quantifier": "all operator sequences of up to 32 normal operators, all lists of required and avoided pairs", "why_tests_cant": "pruning decisions are made on partial patterns; a lost term shows only for particular combinations of ranks and constraints", "anchors": ["SeQuant/core/wick.hpp:WickTheorem::set_nop_connections", "SeQuant/core/wick.hpp:WickTheorem::set_nop_avoided_connections", "SeQuant/core/wick.hpp:NontensorWickState::connect"]}
{"id": "C51", "title": "Contracting two operators gives their vacuum expectation value", "statement": "For two operators over registered spaces, can_contract answers yes exactly if at some state of both spaces the vacuum expectation value of the pair is nonzero, and the product of overlaps and deltas that contract forms, summed over its new indices in an orthonormal basis, equals that value at every two states.", "quantifier": "every registry reachable by adding and removing spaces, every occupied and complete space, every pair of operators over registered spaces", "why_tests_cant": "a test uses one of the ready-made registries and a few spaces", "anchors": ["SeQuant/core/wick.hpp: can_contract, contract", "SeQuant/core/op.hpp: is_qpcreator, is_qpannihilator, qpcreator_space, qpannihilator_space", "SeQuant/core/index_space_registry.hpp: is_pure_occupied, contains_unoccupied"]}
{"id": "C52", "title": "In-place operations on shared expression objects", "statement": "Multiplying a product in place by itself, or adding a sum in place to itself, doubles its elements exactly when the spare capacity of the underlying vector suffices and is undefined otherwise. Collecting terms held by different objects gives the sum of their values and changes only the first object; collecting the same object n+1 times gives 2^n times its value.", "quantifier": "all vectors (contents, capacity, growth policy), all stores and all sequences of objects", "why_tests_cant": "Whether a self-update works depends on the capacity at the time of the call, and tests with one or two elements hit the case that works.", "anchors": ["SeQuant/core/expressions/product.hpp:Product::append", "SeQuant/core/expressions/product.hpp:operator*=", "SeQuant/core/expressions/sum.hpp:operator+=", "SeQuant/core/expressions/expr.cpp:HashingAccumulator::append"]}
{"id": "C53", "title": "Union of index spaces, and predicates that announce it", "statement": "unIon of two registered spaces contains exactly the states of either, does not depend on order and is idempotent; valid_unIon and valid_intersection answer yes exactly if the operation returns a space with the right states.", "quantifier": "every history of a registry and all pairs of registered spaces", "why_tests_cant": "tests check a few pairs of one registry", "anchors": ["SeQuant/core/index_space_registry.hpp: unIon, valid_unIon, valid_intersection"]}
{"id": "C54", "title": "A registry is a consistent dictionary", "statement": "After every history no two spaces share a key or an attribute; add registers exactly the given space or throws without effect exactly if key or attribute is taken; remove removes exactly the space with that key; every registered space is found by its attributes, by its key and by the labels of its indices; an operation that throws leaves the registry as it was.", "quantifier": "all sequences of add, remove, replace, add_union, add_intersection and all labels", "why_tests_cant": "histories and labels are unbounded", "anchors": ["SeQuant/core/index_space_registry.hpp: add, remove, replace, retrieve, retrieve_ptr", "SeQuant/core/space.hpp: IndexSpace::reduce_key"]}
{"id": "C55", "title": "Unions and intersections can be registered", "statement": "add_union (add_intersection) of two or more components registers under the given key the space whose subspaces and quantum numbers are the union (intersection) of those of the components, unless key or attribute are taken.", "quantifier": "all registries, keys and lists of components", "why_tests_cant": "the combination of subspaces is arbitrary", "anchors": ["SeQuant/core/index_space_registry.hpp: add_unIon, add_intersection, compute_approximate_size"]}
{"id": "C56", "title": "Lists of base spaces are up to date", "statement": "base_spaces and base_space_types return, at any time, exactly the base spaces (types) registered in that object at that time, each once, ordered by type.", "quantifier": "all programs over any number of registry objects: construction, copying, cloning, assignment, clearing, adding, removing, changing the mask, queries", "why_tests_cant": "stale memoized results depend on the history", "anchors": ["SeQuant/core/index_space_registry.hpp: base_spaces, base_space_types, operator=, clear, physical_particle_attribute_mask"]}
{"id": "C57", "title": "Ready-made registries decide every contraction", "statement": "In every ready-made convention, with and without spin, contracting any two operators over any registered spaces is decided without an exception, rightly, and the contraction formed has the right value.", "quantifier": "six conventions, two spin conventions, all pairs of spaces and actions, all states", "why_tests_cant": "thousands of pairs; tests use few", "anchors": ["SeQuant/domain/mbpt/convention.cpp: make_min_sr_spaces, make_sr_spaces, make_mr_spaces, make_min_mr_spaces, make_F12_sr_spaces, make_legacy_spaces, add_fermi_spin"]}
{"id": "C58", "title": "Bitsets form a Boolean algebra", "statement": "Union, intersection, symmetric difference, complement and inclusion of space types and quantum numbers are those of sets of bits and never fail for constructible values.", "quantifier": "all constructible values", "why_tests_cant": "2^31 values per argument", "anchors": ["SeQuant/core/space.hpp: bitset, IndexSpace::Type, QuantumNumbers"]}
{"id": "C59", "title": "Occupied spaces per quantum numbers", "statement": "Setting the vacuum occupied (reference occupied, complete, hole, particle) space by a map from quantum numbers to types succeeds exactly if for every entry there is a registered space.", "quantifier": "all registries and maps, with and without assertions", "why_tests_cant": "maps and registries are unbounded", "anchors": ["SeQuant/core/index_space_registry.hpp: vacuum_occupied_space(map), throw_if_missing_any"]}
{"id": "C60", "title": "Uncontracted indices of two tensors", "statement": "get_uncontracted_indices returns, in bra, ket and aux groups and in order, exactly the indices of each tensor that the other tensor does not have.", "quantifier": "all pairs of tensors contracted bra with ket and aux with aux", "why_tests_cant": "all index patterns of two tensors", "anchors": ["SeQuant/core/utility/indices.hpp:get_uncontracted_indices"]}
{"id": "C61", "title": "Counts of used indices", "statement": "get_used_indices_with_counts has one entry for every index that occurs in a nonempty slot or as a protoindex of such an index, with the exact number of occurrences in bra, ket and aux slots and as a protoindex; get_used_indices returns exactly these indices.", "quantifier": "all expressions, of any depth", "why_tests_cant": "all expression trees and index patterns", "anchors": ["SeQuant/core/utility/indices.hpp:get_used_indices_with_counts", "SeQuant/core/utility/indices.hpp:get_used_indices"]}
{"id": "C62", "title": "Outer and inner indices of a tensor of tensors", "statement": "tot_indices puts every protoindex and every index without protoindices into the outer indices, once, protoindices first, and the indices with protoindices into the inner indices in order.", "quantifier": "all lists of indices", "why_tests_cant": "all lists and all protoindex structures", "anchors": ["SeQuant/core/utility/indices.hpp:tot_indices"]}
{"id": "C63", "title": "External indices", "statement": "external_indices returns the slots of a tensor, paired by position; for a symmetrizer bra and ket are exchanged; for a sum or product it returns the indices of its symmetrizer or, if there is none, the indices that occur once; multiplying by a symmetrizer over its external indices does not change the external indices of an expression.", "quantifier": "all tensors, sums and products", "why_tests_cant": "all index patterns and all numbers of indices", "anchors": ["SeQuant/core/utility/indices.hpp:external_indices", "SeQuant/core/utility/indices.hpp:get_bra_idx", "SeQuant/core/utility/indices.hpp:get_ket_idx"]}
{"id": "C64", "title": "Validation of expressions", "statement": "is_valid accepts an expression if and only if every product in it has no index more than twice and all summands of every sum have the same external indices.", "quantifier": "all expressions", "why_tests_cant": "all expression trees", "anchors": ["SeQuant/core/utility/expr.cpp:is_valid"]}
{"id": "C65", "title": "Binarizing an expression preserves its value and its indices", "statement": "Converting an expression to a binary evaluation tree succeeds; evaluating the tree operation by operation, where every product sums over the indices of its operands that its result does not have, gives the value of the expression (repeated indices summed, indices to be kept not summed), and the root has exactly the open indices of the expression.", "quantifier": "all expressions (arbitrarily nested sums and products), all sets of indices to keep, all index ranges and all tensor values", "why_tests_cant": "the intermediates, and which indices each of them keeps, depend on all later factors; tests compare a few trees", "anchors": ["SeQuant/core/eval/eval_expr.cpp: binarize, target_indices, all_indices, collect_tensor_factors", "SeQuant/core/utility/indices.hpp: left_to_right_binarization_indices"]}
{"id": "C66", "title": "The exported program computes the expression", "statement": "Exporting an expression tree produces a sequence of create, load, compute, unload and persist calls that a stack machine can execute from a store holding the inputs. At the end the memory is empty, the store holds the value of the expression under the name of the result, and nothing else in the store has changed. This holds although nodes are reordered, scalar factors are moved, intermediates share names and are renamed, and sums are accumulated in place.", "quantifier": "all expression trees, all array values, all initial stores, all generators' choices of which scalars to factor out", "why_tests_cant": "The transformations of the tree interact: renaming depends on which names are in use at a point of the traversal, zeroing on earlier uses. The tests compare the text generated for a few trees.", "anchors": ["SeQuant/core/export/export.hpp: export_expression, preprocess, GenerationVisitor", "SeQuant/core/export/export.cpp: rename"]}
{"id": "C67", "title": "Fusing two products keeps their sum", "statement": "Fusing two products from the left (right) gives no result exactly if their first (last) factors differ or one has no factors. If the scalars are real and not both zero there is a result otherwise: the product of the longest common run of factors at that end and the sum of what remains, in the order of the factors. Its value is the sum of the values of the two products. The scalar taken out is the greatest common divisor of the two rational numbers; what remains are integers without a common factor, and the scalar taken out is negative exactly if both were.", "quantifier": "all pairs of products, all rational scalars, all values of the factors in a ring that need not be commutative", "why_tests_cant": "The tests fuse a few products with small scalars. Signs, zero scalars, denominators and empty remainders combine in many ways.", "anchors": ["SeQuant/core/optimize/fusion.hpp: Fusion", "SeQuant/core/optimize/fusion.cpp: fuse_left, fuse_right, gcd_rational, fuse_scalar"]}
{"id": "C68", "title": "Screening drops only vanishing products of many-body operators", "statement": "If a product of many-body operators is judged unable to connect two states by its quantum number changes, then no contraction pattern of it does, its matrix elements between them are zero, and the vacuum expectation value of a product that is screened out is zero. A product judged not to raise the vacuum to (or lower to the vacuum from) rank k, or any rank up to k, has zero projection on all k-fold (up to k-fold) excited determinants. The terms of every predefined operator contain the numbers of creators and annihilators that it declares for each base space, and the adjoint of an operator declares the adjoint change. None of the tests fails an assertion.", "quantifier": "all contexts with occupied base spaces at the lowest bits, all products of operators of all ranks, all terms, all algebras with canonical (anti)commutation relations, all states", "why_tests_cant": "The tests check the screening of some coupled-cluster products of low rank in standard spaces. A wrong bound would silently remove a contribution for some product, rank or space.", "anchors": ["SeQuant/domain/mbpt/op.hpp: QuantumNumberChange", "SeQuant/domain/mbpt/op.cpp: combine, excitation_type_qns, interval_excitation_type_qns, generic_excitation_qns, can_change_qns, raises_vacuum_to_rank, lowers_rank_to_vacuum, t_, Lambda_, A, S, R_, L_", "SeQuant/domain/mbpt/op.ipp: Operator::operator(), adjoint", "SeQuant/domain/mbpt/vac_av.cpp: expectation_value_impl"]}
{"id": "C69", "title": "Canonicalizing a product exchanges only factors that commute", "statement": "Canonicalization of a product with factors other than tensors ends, keeps the multiset of factors, puts the scalars first and leaves no two neighbouring factors that commute and are in the wrong order. The value of the product does not change. Two expressions that are found to commute do commute: sums and products if their atoms do, normal-ordered products if they cannot be contracted, many-body operators if their quantum number changes combine to the same in both orders. Products that differ only in the order of commuting factors get the same canonical form.", "quantifier": "all products, all commutation tests and comparisons, all rings of values; all many-body operators, contexts and operator algebras", "why_tests_cant": "The tests canonicalize a few products of coupled-cluster operators in single-reference spaces. Whether two operators commute depends on all their terms, and whether sorting ends depends on all comparisons.", "anchors": ["SeQuant/core/expressions/expr.hpp: Expr::commutes_with", "SeQuant/core/expressions/expr.cpp: Product::canonicalize_impl", "SeQuant/core/op.hpp: NormalOperator::commutes_with_atom", "SeQuant/domain/mbpt/op.ipp: Operator::commutes_with_atom, static_less_than, less_than_rank_of"]}
{"id": "C70", "title": "Expanding antisymmetric tensors does not change the value of an expression", "statement": "expand_antisymm returns an expression with the same value for every choice of the components of the tensors and of the indices, if the components are symmetric under permutations of columns. Without spins this holds for every expression; with spins it holds if the components vanish unless the spin is conserved in each column. Unless told to keep tensors with uniform spin, no antisymmetric tensor is left.", "quantifier": "all expressions, ranks, orders of indices, index ranges and components of tensors", "why_tests_cant": "The number of terms grows as the factorial of the rank; the signs depend on the order of indices and on the order of labels. The tests compare strings for a few tensors of rank two and three.", "anchors": ["SeQuant/domain/mbpt/spin.cpp: expand_antisymm, ms_conserving_columns, ms_uniform_tensor, get_phase"]}
{"id": "C71", "title": "Expanding permutation operators does not change the value of an expression", "statement": "Replacing the antisymmetrizer by its sum of permutations, replacing it by the symmetrizer, replacing the symmetrizer by its sum of permutations, and applying transposition operators keeps the value of the expression, and no such operator is left (or only symmetrizers are left).", "quantifier": "all expressions, ranks, orders of indices, index ranges and components of tensors", "why_tests_cant": "Signs and prefactors must be right for each of the factorially many permutations and for every order of the indices.", "anchors": ["SeQuant/domain/mbpt/spin.cpp: expand_A_op, A_maps, symmetrize_expr, expand_P_op, P_maps, S_maps, S_replacement_maps"]}
{"id": "C72", "title": "Spin tracing gives the sum over spins", "statement": "spintrace returns an expression whose value is the sum, over the spins of all internal indices and of all groups of external indices, of the expression over spin orbitals, if the tensors conserve the spin in each column. With spinfree_index_spaces the same holds for spin-independent tensors and the result has no spins.", "quantifier": "all expressions, external index groups, ranges of orbitals and components of tensors", "why_tests_cant": "The sum runs over exponentially many spin cases; a test can compare only particular expressions with results obtained by other means.", "anchors": ["SeQuant/domain/mbpt/spin.cpp: spintrace, append_spin, remove_spin, can_expand, expand_antisymm, expand_A_op"]}
{"id": "C73", "title": "Closed-shell spin tracing gives the sum over spins", "statement": "closed_shell_spintrace, which counts cycles instead of enumerating spins, returns an expression whose value is the sum over all spins of internal indices and external groups for spin-independent tensors, with full expansion of the antisymmetrizer and with the symmetrizer. It therefore agrees with spintrace.", "quantifier": "all expressions, external index pairs, ranges of orbitals and components of tensors", "why_tests_cant": "That powers of two with the number of cycles count the spin assignments is a statement about all permutations.", "anchors": ["SeQuant/domain/mbpt/spin.cpp: closed_shell_spintrace, symmetrize_expr, expand_antisymm", "SeQuant/core/algorithm.hpp: count_cycles"]}
{"id": "C74", "title": "Open-shell spin tracing gives each spin block", "statement": "open_shell_spintrace returns for each number c of beta groups an expression whose value is that of the input with the last c external groups beta and the others alpha, summed over the spins of internal indices.", "quantifier": "all expressions, external index groups, spin cases, ranges of orbitals and components of tensors", "why_tests_cant": "Each block is a sum over exponentially many spin cases of internal indices.", "anchors": ["SeQuant/domain/mbpt/spin.cpp: open_shell_spintrace_impl, expand_antisymm"]}
{"id": "C75", "title": "Spin tracing of an antisymmetric result gives each permutation with its sign", "statement": "For a result that is antisymmetric in its external indices, the spin-traced results for the permutations of these indices come with the sign of the permutation.", "quantifier": "all lists of distinct external indices", "why_tests_cant": "The sign is right for every permutation only if it is computed from the permutation.", "anchors": ["SeQuant/domain/mbpt/spin.cpp: wrap_trace"]}
{"id": "C76", "title": "Indices are equal if they are the same index, and are totally ordered", "statement": "Two indices are equal exactly if they have the same space, ordinal and proto-indices, whatever their tags. The comparison of indices is a total order that agrees with equality: indices that are not ordered are equal (and have the same tag). So sets and maps of indices keep one copy of each.", "quantifier": "all indices, with proto-indices nested to any depth", "why_tests_cant": "An order that fails to be transitive for one triple of indices corrupts the sorted containers that hold them, and no finite set of examples shows that there is no such triple.", "anchors": ["SeQuant/core/index.hpp: operator==, operator<=>", "SeQuant/core/space.hpp: operator==, operator<=>"]}
{"id": "C77", "title": "Labels order indices", "statement": "LabelCompare and FullLabelCompare are strict weak orders; two indices are not ordered by the first exactly if they have the same space and ordinal, and by the second exactly if they are equal.", "quantifier": "all indices, with proto-indices nested to any depth", "why_tests_cant": "Containers keyed by these comparers lose or duplicate indices if they fail for one triple.", "anchors": ["SeQuant/core/index.hpp: Index::LabelCompare, Index::FullLabelCompare"]}
{"id": "C78", "title": "The comparers of the canonicalizers are orders", "statement": "The comparer used to canonicalize tensors orders tagged indices, and pairs of them, strictly and totally. The comparer used to canonicalize blocks orders them strictly and weakly; two indices are not ordered exactly if they have the same space, the same spaces of proto-indices, and the same tag.", "quantifier": "all tagged indices and pairs of them", "why_tests_cant": "A comparer that is not a strict weak order makes the sort return an order that depends on the input or not end at all.", "anchors": ["SeQuant/core/tensor_canonicalizer.cpp: TensorIndexComparer, TensorBlockIndexComparer"]}
{"id": "C79", "title": "The constructor and the adjoint keep the columns of a tensor", "statement": "Constructing a tensor keeps its columns (pairs of bra and ket slots); for a tensor without permutational symmetry whose columns can be exchanged, paired columns come first, then those with a bra index only, then those with a ket index only, each in the order given. The adjoint exchanges bra and ket in each column and toggles the adjoint mark where needed; it never fails; applied twice it gives back the columns and the label.", "quantifier": "all labels, bundles of indices with empty slots in any place, and symmetries", "why_tests_cant": "The rearrangement depends on where the empty slots are, and adjoints can be applied any number of times.", "anchors": ["SeQuant/core/expressions/tensor.hpp: Tensor, validate_indices, canonicalize_slots, _swap_bra_ket, set_bra, set_ket", "SeQuant/core/expressions/tensor.cpp: Tensor::adjoint"]}
{"id": "C80", "title": "Canonicalizing a tensor keeps its value and makes equivalent tensors equal", "statement": "The default canonicalizer returns a tensor that, with the returned sign, has the same value for every tensor with the declared permutational symmetry. Two tensors that differ by such permutations become equal, and the signs returned differ by the sign of the permutation. Canonicalizing again changes nothing. Among indices of one kind the external ones come first.", "quantifier": "all tensors, ranks, permutations, sets of external indices and values", "why_tests_cant": "There are factorially many equivalent tensors of each rank, and the sign must be right for each.", "anchors": ["SeQuant/core/tensor_canonicalizer.hpp: DefaultTensorCanonicalizer::apply", "SeQuant/core/tensor_canonicalizer.cpp: DefaultTensorCanonicalizer::tag_indices, apply", "SeQuant/core/algorithm.hpp: bubble_sort"]}
{"id": "C81", "title": "Canonicalizing blocks keeps the value and makes blocks of equivalent tensors equal", "statement": "The block canonicalizer keeps the value of every tensor with the declared permutational and bra-ket symmetry; it exchanges bra and ket only if that is a declared symmetry. Tensors that differ by permutations get the same spaces in all slots; so do a tensor and its mirror image. The choice of orientation does not depend on the order of indices in the bundles nor on how the sort orders equal elements.", "quantifier": "all tensors, ranks, permutations, sets of external indices, sorting functions and values", "why_tests_cant": "The choice must be the same for every order of the indices, of which there are factorially many.", "anchors": ["SeQuant/core/tensor_canonicalizer.cpp: TensorBlockCanonicalizer::apply, TensorBlockIndexComparer"]}
{"id": "C82", "title": "Tensors are ordered", "statement": "The comparison of tensors is a strict weak order, and two tensors are not ordered only if they are equal.", "quantifier": "all tensors", "why_tests_cant": "Sorting the summands or factors of an expression relies on it for every set of tensors.", "anchors": ["SeQuant/core/expressions/tensor.hpp: Tensor::static_less_than, static_equal"]}
{"id": "C83", "title": "Canonicalizing a tensor network keeps its value", "statement": "The result of canonicalizing a network of tensors, with the returned sign, is the same network up to the order of the tensors, the order of slots that are exchangeable by the declared symmetries, the orientation of tensors with symmetric bra and ket, and a one-to-one renaming of the indices that are not named; spaces are kept and no dummy index gets the name of a named one. So the sum over the dummy indices of the product of the elements of the tensors, with the sign, is the same for every choice of elements with the declared symmetries.", "quantifier": "all networks, methods (topological, lexicographic or both), sets of named indices, canonical labellings returned by the graph library, element values and index ranges", "why_tests_cant": "The result depends on the labelling found by the graph library and on the names of all indices; every permutation and sign that may arise would have to be tested.", "anchors": ["SeQuant/core/tensor_network/v3.cpp: TensorNetworkV3::canonicalize, canonicalize_graph, create_graph, init_edges, do_individual_canonicalization", "SeQuant/core/index.hpp: IndexFactory"]}
{"id": "C84", "title": "The input ordinals of the tensors tell where they come from", "statement": "After canonicalization the list of input ordinals gives, for each tensor of the network, its position in the input.", "quantifier": "all networks and orders of their tensors", "why_tests_cant": "The reordering loop must be right for every permutation.", "anchors": ["SeQuant/core/tensor_network/v3.hpp: tensor_input_ordinals", "SeQuant/core/tensor_network/v3.cpp: TensorNetworkV3::canonicalize_graph, canonicalize"]}
{"id": "C85", "title": "Networks that are the same become equal when canonicalized", "statement": "If two networks differ only in the order of the tensors, the order of slots that the declared symmetries allow, the orientation of tensors with symmetric bra and ket and the names of the indices that are not named, then canonicalization that includes the topological method and distinguishes named indices turns both into the same list of tensors; the signs returned differ exactly by the sign between the networks (unless the network equals its own negative, that is, vanishes).", "quantifier": "all pairs of networks, all sets of named indices, all canonical labellings the graph library may compute", "why_tests_cant": "Equality must hold for each of the factorially many ways to write a network, and for every network; the graph must neither lose nor add structure.", "anchors": ["SeQuant/core/tensor_network/v3.cpp: TensorNetworkV3::canonicalize, canonicalize_graph, create_graph", "SeQuant/core/tensor_network/vertex_painter.cpp", "SeQuant/core/expressions/expr.cpp: Sum::canonicalize"]}
{"id": "C86", "title": "Canonicalization of a network always succeeds, and doing it twice is doing it once", "statement": "Canonicalizing a network of constructed tensors with any method never trips an assertion and always returns; the result is a network that can be canonicalized again; with the complete method the second canonicalization returns the same tensors and the same order with sign +1 (unless the network equals its own negative).", "quantifier": "all networks of tensors, all sets of named indices, all options, all labellings the graph library may compute", "why_tests_cant": "Assertions inside the graph and renaming steps depend on the whole network; tests see a few networks only.", "anchors": ["SeQuant/core/tensor_network/v3.cpp: TensorNetworkV3::canonicalize, canonicalize_graph, do_individual_canonicalization, init_edges", "SeQuant/core/tensor_canonicalizer.cpp"]}
{"id": "C87", "title": "Canonicalizing a sum keeps its value and always succeeds", "statement": "Canonicalizing a sum of products of tensors and variables never trips an assertion, and the result has the same value as the sum for every choice of the elements of the tensors that has the declared symmetries and every value of the variables.", "quantifier": "all sums, all scalars, all sets of named indices, all hash functions and labellings, all orders in which a hash set is visited", "why_tests_cant": "Whether terms are merged with the right sign and coefficient depends on all other terms.", "anchors": ["SeQuant/core/expressions/expr.cpp: Sum::canonicalize_impl, Product::canonicalize_impl, HashingAccumulator, proportional_to", "SeQuant/core/expressions/tensor.cpp: Tensor::canonicalize"]}
{"id": "C88", "title": "Sums that are the same become equal when canonicalized", "statement": "Two sums that differ by the order of terms and factors, by names of dummy indices, by symmetries of tensors, by terms that are split or that cancel, become the same sum when canonicalized; a sum that cancels becomes empty; no two terms of the result are the same up to a factor; canonicalizing twice is canonicalizing once.", "quantifier": "all sums of products of tensors and variables", "why_tests_cant": "Equality must hold for every pair of equivalent sums.", "anchors": ["SeQuant/core/expressions/expr.cpp: Sum::canonicalize_impl, HashingAccumulator", "SeQuant/core/expressions/sum.hpp"]}
{"id": "C89", "title": "Reading the text of an expression gives the expression back", "statement": "from_string(to_string(e)) is e for every expression e made of numbers, variables, powers, tensors, normal-ordered operators, products and sums, and different expressions have different texts.", "quantifier": "all expressions, all nestings, all names, all numbers, all character classifications", "why_tests_cant": "The grammar is ambiguous (signs, juxtaposition, parentheses, optional parts), so that a text can be read differently depending on what stands next to it; every combination of neighbours would have to be tried.", "anchors": ["SeQuant/core/io/serialization/v1/serialize.cpp: to_string", "SeQuant/core/io/serialization/v1/deserialize.cpp: grammar, from_string", "SeQuant/core/io/serialization/v1/ast_conversions.hpp", "SeQuant/core/io/serialization/v1/semantic_actions.hpp"]}
{"id": "C90", "title": "Reading a text always ends", "statement": "from_string gives an expression, nothing, or an exception for every text; it does not recurse or loop forever. White space between tokens does not change what is read.", "quantifier": "all texts", "why_tests_cant": "There are infinitely many texts.", "anchors": ["SeQuant/core/io/serialization/v1/deserialize.cpp: grammar, from_string"]}
{"id": "C91", "title": "Reading the text of a sum keeps its value when terms are merged", "statement": "When the text of a sum is read, constants are added up and zero terms are dropped; the value of what is read is the value of the sum.", "quantifier": "all sums, all notions of value that add up", "why_tests_cant": "Which terms are merged depends on all others.", "anchors": ["SeQuant/core/io/serialization/v1/ast_conversions.hpp: ast_to_expr", "SeQuant/core/expressions/sum.hpp: Sum::append"]}
{"id": "C92", "title": "Eliminating common subexpressions changes no result", "statement": "After eliminate_common_subexpressions the results of the evaluation trees have the values they had; each intermediate is defined once, before its first use, and the returned positions are those of the definitions; only subexpressions that occur at least twice become intermediates.", "quantifier": "all lists of evaluation trees, all filters, all label generators, all values of the tensors", "why_tests_cant": "Which nodes are merged depends on a comparison of hashes, graphs and indices across all trees; signs and orders of indices of each pair matter.", "anchors": ["SeQuant/core/optimize/common_subexpression_elimination.hpp: eliminate_common_subexpressions, SubexpressionIdentifier, SubexpressionReplacer"]}
{"id": "C93", "title": "Nodes of evaluation trees that compare equal have equal values", "statement": "If two nodes of evaluation trees compare equal, they have the same value as functions of their canonical indices, up to their phases, so that the value of one can be used for the other.", "quantifier": "all pairs of nodes, all values of the tensors", "why_tests_cant": "A false positive shows up only for particular pairs of expressions; there are infinitely many.", "anchors": ["SeQuant/core/eval/eval_node_compare.hpp: TreeNodeEqualityComparator", "SeQuant/core/utility/tensor.hpp: TensorBlockEqualComparator", "SeQuant/core/eval/eval_expr.cpp: binarize"]}
{"id": "C94", "title": "Evaluating a tensor gives its value", "statement": "Evaluating an expression that is a single tensor gives the value of that tensor, with its sign, whatever symmetry it has, in whatever order its indices are, and whatever is in the cache.", "quantifier": "all tensors, all values with the declared symmetries, all caches", "why_tests_cant": "The order of the indices of the leaf is changed; the sign depends on the order of spaces in every slot.", "anchors": ["SeQuant/core/eval/eval_expr.cpp: EvalExpr::EvalExpr(Tensor)", "SeQuant/core/eval/eval.hpp: evaluate", "SeQuant/core/tensor_canonicalizer.cpp: TensorBlockCanonicalizer::apply"]}
{"id": "C95", "title": "Density fitting changes no value", "statement": "If the four-index tensor with the given label equals the sum over the auxiliary index of products of two three-index tensors (antisymmetrised if it is antisymmetric), then density_fit gives an expression with the same value, in which no such four-index tensor is left.", "quantifier": "all expressions, all values of the tensors for which the fitting holds, all auxiliary spaces and labels", "why_tests_cant": "Bras and kets have to go to the right factors with the right signs, and each tensor of each product needs an auxiliary index of its own.", "anchors": ["SeQuant/domain/mbpt/rules/df.cpp: density_fit, density_fit_impl"]}
{"id": "C96", "title": "Tensor hypercontraction changes no value", "statement": "If the four-index tensor with the given label equals its hypercontracted form, then tensor_hypercontract gives an expression with the same value.", "quantifier": "all expressions, all values of the tensors for which the hypercontraction holds, all auxiliary spaces and labels", "why_tests_cant": "The factor has five parts and two summed indices per tensor; clashes of the new indices show up only for products of several tensors.", "anchors": ["SeQuant/domain/mbpt/rules/thc.cpp: tensor_hypercontract"]}
{"id": "C97", "title": "Expanding cluster-specific virtuals changes no value", "statement": "If each slot with a cluster-specific virtual index equals the sum over the full basis weighted with the coefficient tensor, then csv_transform gives an expression with the same value, in which no tensor but the coefficients has such an index; overlaps of two such indices become contractions of two coefficients.", "quantifier": "all expressions, all values of the tensors for which the expansion holds", "why_tests_cant": "Bra and ket slots are treated differently, each slot needs a new index, and the number of slots is not bounded.", "anchors": ["SeQuant/domain/mbpt/rules/csv.cpp: csv_transform, csv_transform_impl"]}
{"id": "C98", "title": "A similarity transformation is the commutator expansion", "statement": "lst(A, B, n) is the sum of the commutators [[A,B],B]... up to n of them, the j-th divided by j!; with the unitary option B is replaced by B - B^+. If the commutators end, this is exp(-B) A exp(B). In the connected form the result differs only by terms with B on the very left. For operators and variables it ends without an exception.", "quantifier": "all expressions of operators and variables, nested as they may be, all generators, ranks and options", "why_tests_cant": "The factor 1/j! arises from one factor per round, signs from commutators, and sums are split first; an error in a later round shows up only for long expansions.", "anchors": ["SeQuant/domain/mbpt/utils.cpp: lst", "SeQuant/domain/mbpt/utils.hpp: LSTOptions"]}
{"id": "C99", "title": "Screening changes no expectation value", "statement": "screen_vac_av drops only terms whose vacuum expectation value is zero: the vacuum expectation value of the result is that of the argument.", "quantifier": "all expressions of operators whose quantum numbers describe them, all algebras and expectation values", "why_tests_cant": "Which terms contribute depends on the quantum numbers of all factors and their order.", "anchors": ["SeQuant/domain/mbpt/utils.cpp: screen_vac_av", "SeQuant/domain/mbpt/op.cpp: can_change_qns"]}
