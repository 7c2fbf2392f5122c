{"id": "C01", "title": "Up-looking factorization reproduces the matrix", "statement": "After Factorization<sparsity, Value, permutation>::factorize(A, regularization) with the default (up-looking) method, no access is out of bounds, no static_assert fires, and in exact arithmetic the stored unit lower triangular L and diagonal D satisfy L*D*L^T = P*(A+E)*P^T, where P is the requested permutation and E is diagonal with exactly the changes made by the regularization (E = 0 for RegularizationNone), provided the regularized pivots are nonzero.", "quantifier": "every dimension, every symmetric sparsity, every permutation, every matrix values, every regularization function, every field of scalars", "why_tests_cant": "the set of patterns, permutations and values is infinite; the unit tests sample a few patterns and random values and compare up to rounding", "anchors": ["ctldl/factorize/factorize_up_looking.hpp:factorizeUpLooking", "ctldl/factorize/factorize_up_looking.hpp:factorizeUpLookingInnerSelf", "ctldl/factor_data/factorization.hpp:Factorization::factorize"]}
{"id": "C02", "title": "Entry-wise method computes the same factor", "statement": "factorize(A, regularization, FactorizeMethodEntryWise{}) satisfies the same factorization identity as C01 and, in exact arithmetic, yields exactly the same L and D as FactorizeMethodUpLooking.", "quantifier": "every dimension, sparsity, permutation, values, regularization with nonzero pivots", "why_tests_cant": "the two algorithms traverse the pattern in different orders; tests only compare both against the same sampled right hand sides", "anchors": ["ctldl/factorize/factorize_entry_wise.hpp:factorizeEntryWise", "ctldl/sparsity/get_contributions.hpp:getContributionsMixed"]}
{"id": "C03", "title": "solveInPlace solves the factorized system", "statement": "After a factorization as in C01, solveInPlace(b) overwrites b by a vector x with (A+E)*x = b in the original (unpermuted) index order; with RegularizationNone this is A*x = b.", "quantifier": "every dimension, sparsity, permutation, values, right hand side", "why_tests_cant": "in-place aliasing of input and output and the implicit permutation have to be right for every index and every pattern", "anchors": ["ctldl/factor_data/factorization.hpp:Factorization::solveInPlace", "ctldl/solve/solve_forward_substitution.hpp:solveForwardSubstitution", "ctldl/solve/solve_backward_substitution.hpp:solveBackwardSubstitution"]}
{"id": "C04", "title": "multiply then factorize and solve returns the vector", "statement": "For a matrix whose entries are distinct and in the lower triangle, rhs = 0; multiply<Symmetric>(A, x, rhs); factorize(A, RegularizationNone); solveInPlace(rhs) leaves rhs equal to x whenever the pivots are nonzero.", "quantifier": "every dimension, sparsity, permutation, values, vector x, both factorization methods", "why_tests_cant": "this is the statement the integration tests sample for a handful of matrices with a tolerance", "anchors": ["ctldl/matrix/multiply.hpp:multiply", "ctldl/factor_data/factorization.hpp:Factorization"]}
{"id": "C05", "title": "The permutation does not influence the solution", "statement": "Factorizing the same matrix with two different permutations (and possibly different methods), both with nonzero pivots and no regularization, gives the same result of solveInPlace for the same right hand side.", "quantifier": "every pair of permutations, every matrix, every right hand side", "why_tests_cant": "there are n! permutations for every pattern", "anchors": ["ctldl/factor_data/factorization.hpp:Factorization", "ctldl/permutation/permutation.hpp:PermutationStatic"]}
{"id": "C06", "title": "A Factorization object can be reused", "statement": "The L and D produced by factorize do not depend on what L and D contained before (uninitialised memory or an earlier factorization), for either method and for arbitrary scalar arithmetic (no algebraic law is assumed, so this covers floating point including NaN and infinities).", "quantifier": "every initial content, every matrix, every arithmetic", "why_tests_cant": "a test cannot enumerate the previous contents of memory, a stale read would usually go unnoticed", "anchors": ["ctldl/factorize/factor_initialization.hpp:initializeFactorRow", "ctldl/factorize/fill_with_original_matrix.hpp:fillRowWithOriginalMatrixValues", "ctldl/factor_data/factorization.hpp:Factorization"]}
{"id": "C07", "title": "Only the lower triangle of the input is read", "statement": "Two input matrices that agree on the value found first for every position on and below the diagonal give the same L and D; in particular entries above the diagonal never influence the factorization.", "quantifier": "every pair of inputs, every arithmetic", "why_tests_cant": "it is a statement about pairs of arbitrary inputs", "anchors": ["ctldl/sparsity/get_matrix_value_at.hpp:getMatrixValueAt", "ctldl/permutation/permuted_entry_lower_triangle.hpp:permutedEntryLowerTriangle"]}
{"id": "C08", "title": "Arrowhead-linked factorization reproduces the assembled matrix", "statement": "FactorizationRepeatingBlockTridiagonalArrowheadLinked(num_repetitions).factorize(A, regularization) succeeds without any out of bounds access for every number of repetitions, and its blocks form unit lower triangular L and diagonal D with L*D*L^T = P*(A+E)*P^T for the assembled matrix A of start, repeated tridiagonal, link and outer parts.", "quantifier": "every num_repetitions, all block dimensions including zero, all sparsities, permutations, values, both methods", "why_tests_cant": "the number of repetitions is unbounded and the block patterns are arbitrary", "anchors": ["ctldl/factor_data/factorization_repeating_block_tridiagonal_arrowhead_linked.hpp:factorize", "ctldl/factorize/factorize_up_looking.hpp:factorizePartialUpLooking"]}
{"id": "C09", "title": "Arrowhead-linked solveInPlace solves the assembled system", "statement": "After C08, solveInPlace(rhs) overwrites the blocked right hand side by the blocked x with (A+E)*x = b for the assembled matrix.", "quantifier": "every num_repetitions, all block dimensions, sparsities, permutations, values and right hand sides", "why_tests_cant": "unbounded number of blocks; in-place block updates have order dependencies", "anchors": ["ctldl/factor_data/factorization_repeating_block_tridiagonal_arrowhead_linked.hpp:forwardSolve", "ctldl/factor_data/factorization_repeating_block_tridiagonal_arrowhead_linked.hpp:backwardSolve"]}
{"id": "C10", "title": "Arrowhead-linked round trip", "statement": "multiplyRepeatingBlockTridiagonalArrowheadLinked(A, x, rhs) on rhs = 0, followed by factorize without regularization and solveInPlace(rhs), leaves rhs equal to x whenever all pivots are nonzero (diagonal blocks: distinct entries in the lower triangle; other blocks: distinct entries).", "quantifier": "every num_repetitions, dims, sparsities, permutations, values, x", "why_tests_cant": "the integration tests sample this with a tolerance for a few sizes", "anchors": ["ctldl/matrix/multiply_repeating_block_tridiagonal_arrowhead_linked.hpp:multiplyRepeatingBlockTridiagonalArrowheadLinked", "ctldl/factor_data/factorization_repeating_block_tridiagonal_arrowhead_linked.hpp:FactorizationRepeatingBlockTridiagonalArrowheadLinked"]}
{"id": "C11", "title": "An arrowhead-linked factorization object can be reused", "statement": "The result of factorize of the arrowhead-linked factorization does not depend on the previous contents of any of its blocks, for arbitrary arithmetic.", "quantifier": "every initial content, every num_repetitions, every arithmetic", "why_tests_cant": "previous memory contents cannot be enumerated", "anchors": ["ctldl/factor_data/factorization_repeating_block_tridiagonal_arrowhead_linked.hpp:factorize", "ctldl/factorize/factor_initialization.hpp:getInitialFactorValueL"]}
{"id": "C12", "title": "The block tridiagonal wrapper is the arrowhead factorization without start, link and outer", "statement": "FactorizationRepeatingBlockTridiagonal(num_repetitions) factorizes and solves the assembled symmetric block tridiagonal matrix exactly: solveInPlace returns x with (A+E)*x = b and multiplyRepeatingBlockTridiagonal followed by it is the identity.", "quantifier": "every num_repetitions, block dimension, sparsity, permutation, values", "why_tests_cant": "unbounded number of blocks", "anchors": ["ctldl/factor_data/factorization_repeating_block_tridiagonal.hpp:FactorizationRepeatingBlockTridiagonal", "ctldl/matrix/multiply_repeating_block_tridiagonal.hpp:multiplyRepeatingBlockTridiagonal"]}
{"id": "C13", "title": "Fill-in is computed exactly", "statement": "The pattern of a Factorization is exactly the smallest strictly lower triangular pattern that contains the permuted pattern of the input and is closed under elimination (entries (i,k),(j,k) with k<j<i imply (i,j)); it is free of duplicates and sorted row-major.", "quantifier": "every dimension, sparsity (including duplicates and entries above the diagonal), permutation", "why_tests_cant": "tests check a few small patterns; missing an entry corrupts the factorization, an extra one costs performance", "anchors": ["ctldl/symbolic/filled_in_sparsity.hpp:getFilledInSparsity", "ctldl/symbolic/get_entries_with_fill.hpp:getEntriesWithFill", "ctldl/symbolic/foreach_ancestor_in_subtree.hpp:foreachAncestorInSubtree"]}
{"id": "C14", "title": "Blocked fill-in equals the fill-in of the assembled matrix", "statement": "The six patterns returned by the 3x3 blocked symbolic factorization are exactly the blocks of the fill-in of the assembled permuted matrix, for all block dimensions including zero; the 2x2 version is the special case of an empty third block.", "quantifier": "every block dimensions, sparsities, permutations", "why_tests_cant": "index offsets between blocks have to be right for all dimension combinations", "anchors": ["ctldl/symbolic/filled_in_sparsity_blocked.hpp:getFilledInSparsityBlocked3x3", "ctldl/symbolic/foreach_nonzero_with_fill_blocked.hpp:foreachNonZeroWithFillBlocked"]}
{"id": "C15", "title": "Elimination tree", "statement": "The parent of node j in the computed elimination tree is the smallest row index of a nonzero below the diagonal in column j of the filled pattern, and there is no parent exactly if the column is empty; same for the 3x3 blocked version on the assembled matrix.", "quantifier": "every dimension, pattern", "why_tests_cant": "the algorithm uses path compression whose correctness is an invariant over all rows processed so far", "anchors": ["ctldl/symbolic/compute_elimination_tree.hpp:computeEliminationTree", "ctldl/symbolic/add_row_elimination_tree.hpp:addRowEliminationTree", "ctldl/symbolic/compute_elimination_tree_blocked.hpp:computeEliminationTreeBlocked"]}
{"id": "C16", "title": "The repeating symbolic factorization terminates and covers every number of repetitions", "statement": "The fixed point loop of the repeating elimination tree terminates for every pair of patterns, and the resulting diag/subdiag/outer patterns contain every fill-in entry of the assembled arrowhead matrix for every number of repetitions.", "quantifier": "every block dimension, patterns, every number of repetitions", "why_tests_cant": "while(true) loop with a fixed point criterion; unbounded number of repetitions", "anchors": ["ctldl/symbolic/compute_elimination_tree_repeating.hpp:computeEliminationTreeRepeating", "ctldl/symbolic/foreach_nonzero_with_fill_repeating_arrowhead.hpp:foreachNonZeroWithFillRepeatingArrowhead", "ctldl/symbolic/filled_in_sparsity_repeating_arrowhead.hpp:getFilledInSparsityRepeatingArrowhead"]}
{"id": "C17", "title": "The repeating pattern is not larger than necessary", "statement": "Every entry of the repeating diag and subdiag patterns really is a fill-in entry of some block of the assembled block tridiagonal matrix if there are enough repetitions, so no smaller repeating pattern is possible; same for the outer pattern.", "quantifier": "every block dimension, patterns", "why_tests_cant": "statement about all sufficiently large numbers of repetitions", "anchors": ["ctldl/symbolic/compute_elimination_tree_repeating.hpp:computeEliminationTreeRepeating", "ctldl/symbolic/filled_in_sparsity_repeating_arrowhead.hpp:getFilledInSparsityRepeatingArrowhead"]}
{"id": "C18", "title": "Every consistent sparsity compiles", "statement": "For every SparsityToFactorizeTridiagonalArrowheadLinked with consistent dimensions and valid permutations, the computed factor patterns satisfy every static_assert and every entryIndex assertion in the factorization (they are chordal and contain the input patterns), for matrices with the declared sparsity.", "quantifier": "all dimensions, sparsities, permutations", "why_tests_cant": "compile-time failure for some pattern can only be excluded by reasoning about all of them", "anchors": ["ctldl/factor_data/factorization_repeating_block_tridiagonal_arrowhead_linked.hpp:FactorizationRepeatingBlockTridiagonalArrowheadLinked", "ctldl/symbolic/is_chordal_blocked.hpp:isChordalBlocked", "ctldl/sparsity/get_influenced.hpp:getInfluencedList"]}
{"id": "C19", "title": "isChordalBlocked decides absence of fill-in", "statement": "For duplicate free patterns isChordalBlocked returns true exactly if both diagonal blocks are strictly lower triangular and the assembled 2x2 pattern is closed under elimination; inconsistent dimensions are rejected by a contract violation. (With duplicate entries it can wrongly answer true.)", "quantifier": "all dimensions, patterns", "why_tests_cant": "decision procedure over all patterns; it compares only entry counts", "anchors": ["ctldl/symbolic/is_chordal_blocked.hpp:isChordalBlocked"]}
{"id": "C20", "title": "Sparsity comparison", "statement": "isSparsitySubset returns true exactly if each permuted entry of the left pattern is an entry of the right pattern, isSparsityEqual exactly if the entry sets agree, isSparsitySubsetLowerTriangle likewise for the permuted lower triangle; different dimensions are rejected by a contract violation and nothing is accessed out of bounds.", "quantifier": "all dimensions, patterns including duplicates, permutations", "why_tests_cant": "infinitely many patterns; a marker vector is reused between rows", "anchors": ["ctldl/sparsity/is_sparsity_subset.hpp:isSparsitySubset", "ctldl/sparsity/is_sparsity_equal.hpp:isSparsityEqual"]}
{"id": "C21", "title": "CSR conversion", "statement": "Converting a pattern to CSR keeps every entry, row i of the result lists exactly the entries of row i in their original order, isNonZero(i,j) answers membership and entryIndex(i,j) returns the position of an entry (i,j); rows that do not exist are out of bounds.", "quantifier": "all dimensions, entry lists including duplicates and arbitrary order", "why_tests_cant": "counting sort correctness for all inputs", "anchors": ["ctldl/sparsity/get_entries_csr.hpp:getEntriesCSR", "ctldl/sparsity/sparsity_csr.hpp:SparsityDynamicCSR"]}
{"id": "C22", "title": "Inverse permutation and permuted patterns", "statement": "invertPermutation of a permutation is its two-sided inverse; (i,j) is in the permuted pattern exactly if (permutation_row[i], permutation_col[j]) is in the original, and in the permuted lower triangle exactly if the entry at the permuted position on or mirrored into the strictly lower triangle is in the original.", "quantifier": "all sizes, permutations, patterns", "why_tests_cant": "n! permutations for every n", "anchors": ["ctldl/permutation/invert_permutation.hpp:invertPermutation", "ctldl/sparsity/sparsity_permuted.hpp:getSparsityDynamicPermuted", "ctldl/sparsity/sparsity_lower_triangle.hpp:getSparsityDynamicLowerTriangle"]}
{"id": "C23", "title": "Permutation enumeration", "statement": "enumeratePermutationsStatic(dim) returns each permutation of 0..dim-1 exactly once, starting with the identity and in lexicographic order, as long as dim! fits std::size_t (dim <= 20).", "quantifier": "every dim up to 20; for larger dim the count is dim! modulo 2^64", "why_tests_cant": "20! permutations cannot be enumerated by a test", "anchors": ["ctldl/permutation/permutation_enumeration.hpp:enumeratePermutationsStatic", "ctldl/permutation/factorial.hpp:factorial"]}
{"id": "C24", "title": "Contribution lists", "statement": "For column-sorted rows getContributionsMixed/Rectangular/LowerTriangle return exactly one contribution for each common column k below the limit, in ascending order, each with the entry indices of (i,k) and (j,k).", "quantifier": "all patterns, rows, limits", "why_tests_cant": "two-pointer merge over arbitrary sorted rows", "anchors": ["ctldl/sparsity/get_contributions.hpp:getContributionsMixed"]}
{"id": "C25", "title": "Influenced lists", "statement": "getInfluencedList(i,j,source,target,limit) returns exactly one pair for each k below the limit with (k,j) in source, consisting of the entry indices of (k,j) and (i,k); it is well-defined exactly if all those target entries exist.", "quantifier": "all patterns, indices, limits", "why_tests_cant": "well-definedness for all patterns", "anchors": ["ctldl/sparsity/get_influenced.hpp:getInfluencedList"]}
{"id": "C26", "title": "multiply adds the matrix-vector product", "statement": "multiply<Normal|Transposed|Symmetric>(A,x,rhs) adds A*x, A^T*x, or (A + A^T - diag(A))*x to rhs, where duplicate entries add up, touching no other element.", "quantifier": "all dims, entry lists, values, vectors", "why_tests_cant": "arbitrary sparsities and sizes", "anchors": ["ctldl/matrix/multiply.hpp:multiply", "ctldl/matrix/multiply_kind.hpp:MultiplyKind"]}
{"id": "C27", "title": "Block multiply equals the assembled product", "statement": "multiplyRepeatingBlockTridiagonalArrowheadLinked and multiplyRepeatingBlockTridiagonal add the product of the assembled symmetric matrix with the blocked vector, for every num_repetitions; inconsistent numbers of tridiagonal blocks (diagonal, subdiagonal, solution, right hand side) violate a checked precondition.", "quantifier": "every num_repetitions, dims, entry lists, values, vectors", "why_tests_cant": "unbounded number of blocks", "anchors": ["ctldl/matrix/multiply_repeating_block_tridiagonal_arrowhead_linked.hpp:multiplyRepeatingBlockTridiagonalArrowheadLinked", "ctldl/matrix/multiply_repeating_block_tridiagonal.hpp:multiplyRepeatingBlockTridiagonal"]}
{"id": "C28", "title": "Small positive constant regularization never breaks down", "statement": "With RegularizationSmallPositiveConstant in real arithmetic, every pivot has magnitude at least eps^0.625, the diagonal change E of each pivot is zero unless the pivot was smaller than that, and is positive and less than eps^0.5 + eps^0.625 otherwise; hence factorize and solveInPlace solve (A+E)x=b for every matrix A, singular or not, all pivots are positive if A is positive semidefinite, and nothing is changed if the pivots without regularization are large enough.", "quantifier": "every real matrix, pattern, permutation; every eps in (0,1)", "why_tests_cant": "statement about all matrices including singular ones", "anchors": ["ctldl/factorize/regularization_small_positive_constant.hpp:RegularizationSmallPositiveConstant::regularize"]}
{"id": "C29", "title": "Positive definite matrices never break down", "statement": "In exact arithmetic over an ordered field and without regularization, for every permutation and method all pivots D are positive if and only if A is positive definite; then LDL^T is the permuted A and solveInPlace returns the only solution of Ax=b. Same for the arrowhead-linked and the block tridiagonal factorization.", "quantifier": "all positive definite matrices, patterns, permutations, num_repetitions", "why_tests_cant": "tests sample a few SPD matrices", "anchors": ["ctldl/factorize/factorize_up_looking.hpp:factorizeUpLooking", "ctldl/factorize/factorize_entry_wise.hpp:factorizeEntryWise", "ctldl/factorize/regularization_none.hpp:RegularizationNone::regularize"]}
{"id": "C30", "title": "Sparsity constructors reject out-of-range entries", "statement": "Constructing a sparsity succeeds exactly if all entries are within the declared dimensions, otherwise a precondition violation is reported; a successfully constructed sparsity holds the given entries in the given order.", "quantifier": "all dims, entry lists", "why_tests_cant": "all entry lists", "anchors": ["ctldl/sparsity/sparsity.hpp:SparsityDynamic", "ctldl/sparsity/sparsity.hpp:InBounds"]}
{"id": "C31", "title": "mtx header and entry list parsing", "statement": "Reading an mtx file succeeds only if there is a parsable dimension line after the leading comment lines, every following line is a parsable entry with 1-based indices within the declared dimensions, and their number equals the declared nnz; the callback then sees every entry once, in file order, with zero-based indices.", "quantifier": "all files (sequences of lines), with number scanning as an oracle", "why_tests_cant": "unbounded inputs, error paths", "anchors": ["ctldl/fileio/mtx_read_header.cpp:mtxReadHeader", "ctldl/fileio/mtx_foreach_entry.cpp:mtxForeachEntry"]}
{"id": "C32", "title": "mtx reader stores each entry at its place", "statement": "If every entry of the file lies in a block of the declared structure, the matrix returned by mtxFileReadRepeatingBlockTridiagonalArrowheadLinked assembles to the matrix in the file (last value for repeated entries, zero for absent ones) with num_repetitions determined by the dimension.", "quantifier": "all files, all structures", "why_tests_cant": "unbounded inputs and block structures", "anchors": ["ctldl/fileio/mtx_file_read_repeating_block_tridiagonal_arrowhead_linked.hpp:mtxFileReadRepeatingBlockTridiagonalArrowheadLinked"]}
{"id": "C33", "title": "mtx reader rejects entries outside the compiled structure", "statement": "A file with an entry outside of the declared block structure is rejected with an exception.", "quantifier": "all files, all structures", "why_tests_cant": "unbounded inputs and block structures", "anchors": ["ctldl/fileio/mtx_file_read_repeating_block_tridiagonal_arrowhead_linked.hpp:mtxAddEntryTridiag", "ctldl/fileio/mtx_file_read_repeating_block_tridiagonal_arrowhead_linked.hpp:mtxAddEntryStart", "ctldl/fileio/mtx_file_read_repeating_block_tridiagonal_arrowhead_linked.hpp:mtxAddEntryOuterSubdiag"]}
{"id": "C34", "title": "Blocking and flattening vectors", "statement": "flatten(block<d>(v)) returns the longest prefix of v whose length is a multiple of d (all of v if d divides its length), block<d>(flatten(w)) = w, for d > 0.", "quantifier": "all vectors, block dims", "why_tests_cant": "all sizes", "anchors": ["ctldl/vector/block.hpp:block", "ctldl/vector/flatten.hpp:flatten"]}
{"id": "C35", "title": "Boolean matrix to entries", "statement": "makeSparseEntriesFromBoolMatrix lists exactly the true positions, in row-major order without duplicates, and their number equals nnz().", "quantifier": "all boolean matrices", "why_tests_cant": "2^(n*m) matrices", "anchors": ["ctldl/sparsity/bool_matrix.hpp:makeSparseEntriesFromBoolMatrix"]}
{"id": "C36", "title": "Dimension consistency checks", "statement": "dim_start/dim_tridiag/dim_link/dim_outer of a SparsityToFactorizeTridiagonalArrowheadLinked are defined exactly if all block dimensions and permutation sizes agree, and inconsistent ones are reported as contract violations before any factorization.", "quantifier": "all dims", "why_tests_cant": "all combinations of dims", "anchors": ["ctldl/factor_data/sparsity_to_factorize_tridiagonal_arrowhead_linked.hpp:SparsityToFactorizeTridiagonalArrowheadLinked", "ctldl/utility/all_equal.hpp:all_equal"]}
{"id": "C37", "title": "multiply and factorize mean the same matrix", "statement": "For every declared sparsity accepted by the library, multiply<Symmetric> and factorize interpret the same input matrix as the same symmetric matrix. (False when the sparsity lists an entry twice or lists entries above the diagonal.)", "quantifier": "all sparsities", "why_tests_cant": "needs a statement about all inputs; the tests only use clean ones", "anchors": ["ctldl/matrix/multiply.hpp:multiply", "ctldl/sparsity/get_matrix_value_at.hpp:getMatrixValueAt"]}
{"id": "C38", "title": "Matrices not covered by the declared sparsity are rejected", "statement": "Passing an input matrix with an entry outside of the declared sparsity to the arrowhead-linked factorize does not compile (static_assert). (True for start.diag, start.next, tridiag, link.prev, link.diag; false for start.outer, outer.subdiag, link.next and outer.diag, whose uncovered values are silently ignored.)", "quantifier": "all sparsities", "why_tests_cant": "negative statement over all inputs", "anchors": ["ctldl/factorize/factorize_up_looking.hpp:factorizePartialUpLooking", "ctldl/factorize/fill_with_original_matrix.hpp:fillWithOriginalMatrixValues"]}
{"id": "C39", "title": "Wrong numbers of blocks are rejected", "statement": "factorize, solveInPlace and the arrowhead product reject inputs whose numbers of blocks do not fit num_repetitions. (False: only the numbers of tridiagonal blocks of a product are checked, see C27. Surplus blocks are silently ignored, so that another system is factorized and solved; missing blocks are read out of bounds.)", "quantifier": "all numbers of blocks", "why_tests_cant": "the tests only use fitting numbers of blocks", "anchors": ["ctldl/matrix/multiply_repeating_block_tridiagonal_arrowhead_linked.hpp:multiplyRepeatingBlockTridiagonalArrowheadLinked", "ctldl/factor_data/factorization_repeating_block_tridiagonal_arrowhead_linked.hpp:factorize", "ctldl/factor_data/factorization_repeating_block_tridiagonal_arrowhead_linked.hpp:solveInPlace"]}
{"id": "C40", "title": "Quasi-definite matrices never break down and the signs of the pivots are known", "statement": "If some rows and columns of A form a positive definite block and the others a negative definite one (as in KKT systems of optimization, with any coupling between the two), then without regularization, in exact arithmetic and for every permutation and method, each pivot D has the sign of the block its row belongs to, LDL^T is the permuted A and solveInPlace returns the only solution of Ax=b. Same for the arrowhead-linked and the block tridiagonal factorization.", "quantifier": "all quasi-definite matrices over ordered fields, patterns, permutations, num_repetitions", "why_tests_cant": "tests sample a few matrices and one permutation each", "anchors": ["ctldl/factorize/factorize_up_looking.hpp:factorizeUpLooking", "ctldl/factorize/factorize_entry_wise.hpp:factorizeEntryWise", "ctldl/factorize/regularization_none.hpp:RegularizationNone::regularize", "ctldl/factor_data/factorization_repeating_block_tridiagonal_arrowhead_linked.hpp:factorize"]}
{"id": "C41", "title": "Exactly which matrices break down", "statement": "Without regularization and in exact arithmetic, all pivots are nonzero if and only if every leading principal block of the permuted matrix is regular; in the arrowhead-linked factorization, the leading blocks are those of the order in which the blocks are eliminated.", "quantifier": "all symmetric matrices over infinite fields, patterns, permutations, methods, num_repetitions", "why_tests_cant": "a universal equivalence", "anchors": ["ctldl/factorize/factorize_up_looking.hpp:factorizeUpLooking", "ctldl/factorize/factorize_entry_wise.hpp:factorizeEntryWise", "ctldl/factorize/regularization_none.hpp:RegularizationNone::regularize", "ctldl/factor_data/factorization_repeating_block_tridiagonal_arrowhead_linked.hpp:factorize"]}
{"id": "C42", "title": "Factorizing and solving never go wrong, whatever the numbers", "statement": "For every sparsity with consistent dimensions, every permutation and every matrix covered by the sparsity, factorize and solveInPlace finish without a failed assertion and without reading or writing out of bounds, whatever the values are and whatever the scalar operations return (zero pivots, infinities, NaN); the factor and the solution have the sizes they should have. Same for the arrowhead-linked and the block tridiagonal factorization.", "quantifier": "all sparsities, permutations, values, scalar operations, num_repetitions, methods, regularizations", "why_tests_cant": "tests only use well-behaved values; absence of undefined behaviour is a statement about all of them", "anchors": ["ctldl/factorize/factorize_up_looking.hpp:factorizeUpLooking", "ctldl/factorize/factorize_entry_wise.hpp:factorizeEntryWise", "ctldl/factor_data/factorization.hpp:solveInPlace", "ctldl/factor_data/factorization_repeating_block_tridiagonal_arrowhead_linked.hpp:FactorizationRepeatingBlockTridiagonalArrowheadLinked"]}
{"id": "C43", "title": "Rounding errors of the factorization", "statement": "In floating point arithmetic with unit roundoff u and underflow threshold eta, if the computed L and D are finite, then entry (i,j) of the permuted matrix differs from that of the computed LDL^T by at most (1/(1-u)^(c+1) - 1) (|L||D||L^T|)(i,j) plus an underflow term, where c is the number of stored entries in row i of L. With regularization the same holds for the matrix with the changes of the pivots added to its diagonal. Same for the arrowhead-linked and the block tridiagonal factorization. Every IEEE format with rounding to nearest even (float, double) is such an arithmetic.", "quantifier": "all matrices, sparsities, permutations, methods, num_repetitions, precisions", "why_tests_cant": "tests compare with a tolerance on a few matrices; the bound is for all of them, including those where intermediate results overflow", "anchors": ["ctldl/factorize/factorize_up_looking.hpp:factorizeUpLooking", "ctldl/factorize/factorize_entry_wise.hpp:factorizeEntryWise", "ctldl/factor_data/factorization_repeating_block_tridiagonal_arrowhead_linked.hpp:factorize"]}
{"id": "C44", "title": "Rounding errors of solving with a given factor", "statement": "In the same arithmetic, for every factor L, D (computed or not) with finite D, the result x of solveInPlace, if finite, satisfies |b - LDL^T x| <= (1/(1-u)^(cr+cc+1) - 1) |L||D||L^T||x| plus an underflow term, where row i of L has cr stored entries and no column has more than cc. Same for the arrowhead-linked factorization.", "quantifier": "all factors, right hand sides, sparsities, permutations, num_repetitions, precisions", "why_tests_cant": "a bound for all inputs", "anchors": ["ctldl/factor_data/factorization.hpp:solveInPlace", "ctldl/solve/solve_forward_substitution.hpp:solveForwardSubstitution", "ctldl/solve/solve_backward_substitution.hpp:solveBackwardSubstitution", "ctldl/factor_data/factorization_repeating_block_tridiagonal_arrowhead_linked.hpp:solveInPlace"]}
{"id": "C45", "title": "Residual of the computed solution", "statement": "Factorizing A and solving Ax=b in the same arithmetic gives, if D and x are finite, a residual b - Ax that is bounded entry by entry by the sum of the bounds of C43 (times |x|) and C44; hence it is small whenever |L||D||L^T| is not much larger than |A|. With regularization, for A plus the changes of the pivots. Same for the arrowhead-linked and the block tridiagonal factorization.", "quantifier": "all matrices, right hand sides, sparsities, permutations, methods, num_repetitions, precisions", "why_tests_cant": "the tests check residuals of a few systems against a fixed tolerance", "anchors": ["ctldl/factorize/factorize_up_looking.hpp:factorizeUpLooking", "ctldl/factorize/factorize_entry_wise.hpp:factorizeEntryWise", "ctldl/factor_data/factorization.hpp:solveInPlace", "ctldl/factor_data/factorization_repeating_block_tridiagonal_arrowhead_linked.hpp:FactorizationRepeatingBlockTridiagonalArrowheadLinked"]}
{"id": "C46", "title": "Mixed precision", "statement": "If the matrix, the factor and the vectors have different scalar types (e.g. a matrix of doubles factorized in float and solved with a right hand side of doubles), then, as long as the converted matrix, the factor and the solution are finite and the vectors are at least as precise as the factor, the residual b - Ax with the original, unconverted A is bounded by the solve bound in the precision of the vectors, plus the factorization bound in the precision of the factor times |x|, plus (u|A| + eta)|x| for converting the matrix. Same for the arrowhead-linked and the block tridiagonal factorization.", "quantifier": "all matrices, right hand sides, sparsities, permutations, methods, num_repetitions, combinations of precisions", "why_tests_cant": "the tests try float and double factors on a few matrices with a hand-picked tolerance", "anchors": ["ctldl/factorize/fill_with_original_matrix.hpp:fillWithOriginalMatrixValues", "ctldl/factorize/factor_initialization.hpp:getInitialFactorValueL", "ctldl/factor_data/factorization.hpp:diagonalSolve", "ctldl/solve/solve_forward_substitution.hpp:solveForwardSubstitution", "ctldl/solve/solve_backward_substitution.hpp:solveBackwardSubstitution"]}
{"id": "C47", "title": "The signs of the pivots give the inertia", "statement": "If a factorization without regularization, in exact arithmetic, ends with no zero in D, then the number of positive (negative) elements of D is the largest dimension of a subspace on which x^T A x is positive (negative) definite, i.e. the number of positive (negative) eigenvalues of A. Hence it is the same for every sparsity, permutation and method. Same for the arrowhead-linked and the block tridiagonal factorization.", "quantifier": "all symmetric matrices over ordered fields, sparsities, permutations, methods, num_repetitions", "why_tests_cant": "an invariance over all orders and matrices (Sylvester's law of inertia); optimization solvers read the inertia off D", "anchors": ["ctldl/factor_data/factorization.hpp:Factorization", "ctldl/factorize/factorize_up_looking.hpp:factorizeUpLooking", "ctldl/factorize/factorize_entry_wise.hpp:factorizeEntryWise", "ctldl/factor_data/factorization_repeating_block_tridiagonal_arrowhead_linked.hpp:factorize"]}
{"id": "C48", "title": "An entry of the factor is stored exactly if there is a path through earlier variables", "statement": "Position (i,j), i>j, of the factor is stored exactly if the graph of the matrix (variables, with an edge for each entry below the diagonal) has a path from variable permutation[i] to variable permutation[j] whose other variables are all among the first j of the permutation. This says which orderings cause fill-in without simulating an elimination.", "quantifier": "all sparsities and permutations", "why_tests_cant": "a characterization for all graphs and orders", "anchors": ["ctldl/symbolic/filled_in_sparsity.hpp:getFilledInSparsity", "ctldl/factor_data/factorization.hpp:Factorization"]}
{"id": "C49", "title": "Signs are preserved", "statement": "If all off-diagonal entries of the matrix are at most zero and all pivots are positive, then no entry of the computed factor is positive, and a right hand side without negative elements has a solution without negative elements; also with rounding, underflow and regularization as long as the results are finite. For positive definite matrices in exact arithmetic the pivots are positive, so that the inverse has no negative entry. Same for the arrowhead-linked and the block tridiagonal factorization.", "quantifier": "all matrices with non-positive off-diagonal entries, right hand sides, sparsities, permutations, methods, num_repetitions, precisions", "why_tests_cant": "a statement about all such matrices in floating point; users solve for concentrations or probabilities and rely on solutions not becoming negative by rounding", "anchors": ["ctldl/factor_data/factorization.hpp:Factorization", "ctldl/factorize/factorize_up_looking.hpp:factorizeUpLooking", "ctldl/factorize/factorize_entry_wise.hpp:factorizeEntryWise", "ctldl/factor_data/factorization_repeating_block_tridiagonal_arrowhead_linked.hpp:FactorizationRepeatingBlockTridiagonalArrowheadLinked"]}
{"id": "C50", "title": "Strictly diagonally dominant matrices never break down", "statement": "If in each row the absolute value of the diagonal entry is larger than the sum of those of the other entries (the diagonal entries may have any signs), then, in exact arithmetic, the factorization without regularization succeeds for every sparsity that contains the matrix, every permutation and method: no pivot is zero, each pivot has the sign of the diagonal entry it belongs to, LDL^T is the permuted matrix, and solving gives the unique solution. Same for the arrowhead-linked and the block tridiagonal factorization.", "quantifier": "all strictly diagonally dominant symmetric matrices over ordered fields, sparsities, permutations, methods, num_repetitions", "why_tests_cant": "no finite set of matrices and permutations shows that no pivot can become zero", "anchors": ["ctldl/factor_data/factorization.hpp:Factorization", "ctldl/factorize/factorize_up_looking.hpp:factorizeUpLooking", "ctldl/factorize/factorize_entry_wise.hpp:factorizeEntryWise", "ctldl/factor_data/factorization_repeating_block_tridiagonal_arrowhead_linked.hpp:FactorizationRepeatingBlockTridiagonalArrowheadLinked"]}
{"id": "C51", "title": "No storage is reserved for entries that are always zero", "statement": "For every sparsity and permutation there is a matrix with that sparsity for which every stored entry of the computed L is nonzero; more precisely, if all declared off-diagonal entries are negative and the matrix is positive definite, every stored entry is negative. For arrowhead-linked systems without a start block and for block tridiagonal systems the stored positions are exactly those that elimination fills in, except in the columns of the first few tridiagonal blocks (how many depends only on the sparsity, not on num_repetitions), since all blocks share one pattern. With a start block this fails: there is a sparsity for which a stored position in every later block is zero for every matrix.", "quantifier": "all sparsities, permutations and num_repetitions that are large enough for the pattern to have settled; any ordered field", "why_tests_cant": "a test can count the stored entries of a few patterns, not show that each of them is needed, nor that an entry is zero for all matrices", "anchors": ["ctldl/factor_data/factorization.hpp:Factorization", "ctldl/factor_data/factorization_repeating_block_tridiagonal_arrowhead_linked.hpp:FactorizationRepeatingBlockTridiagonalArrowheadLinked", "ctldl/factor_data/factorization_repeating_block_tridiagonal.hpp:FactorizationRepeatingBlockTridiagonal", "ctldl/symbolic/filled_in_sparsity_repeating_arrowhead.hpp:getFilledInSparsityRepeatingArrowhead"]}
{"id": "C52", "title": "Declaring or storing more zeros does not change the results", "statement": "Factorizing the same matrix with two different declared sparsities (for instance one of them with explicit zeros, or dense) and the same permutation gives factors, pivots and solutions of the same value, in floating point arithmetic just as in exact arithmetic, whenever the first results are finite and the pivots nonzero; only the signs of zeros may differ. In particular the sparse factorization returns, value for value, what dense elimination without skipping any entry returns. The same holds for arrowhead-linked and block tridiagonal systems, for both methods and for both regularizations.", "quantifier": "all pairs of sparsities, all matrices, right hand sides, dimensions, permutations, num_repetitions; every scalar type in which results depend only on the values of the operands and subtracting zero changes nothing: every field, every IEEE format", "why_tests_cant": "tests compare with tolerances and for a few sparsities; skipping operations in the wrong order would change roundings only slightly", "anchors": ["ctldl/factorize/factorize.hpp:factorize", "ctldl/factorize/factorize_up_looking.hpp:factorizeUpLooking", "ctldl/factorize/factorize_entry_wise.hpp:factorizeEntryWise", "ctldl/factor_data/factorization.hpp:Factorization", "ctldl/factor_data/factorization_repeating_block_tridiagonal_arrowhead_linked.hpp:FactorizationRepeatingBlockTridiagonalArrowheadLinked", "ctldl/factor_data/factorization_repeating_block_tridiagonal.hpp:FactorizationRepeatingBlockTridiagonal"]}
{"id": "C53", "title": "Block systems give the same results as the assembled matrix", "statement": "Factorizing and solving a block tridiagonal system (both methods) or an arrowhead-linked system (the up-looking method, or without outer block) gives, value for value and in floating point arithmetic too, what Factorization gives for the assembled matrix with the assembled permutation, whatever sparsity is declared for it, provided one of the two factors is finite with nonzero pivots and one of the two solutions is finite. The pivots, the entries of the factor and the elements of the solution agree up to the signs of zeros.", "quantifier": "all sparsities, block sizes, permutations, num_repetitions, matrices, right hand sides; every field and every IEEE format", "why_tests_cant": "tests compare the block classes with a tolerance and with a few matrices; that the same operations are carried out in the same order is not observable by them", "anchors": ["ctldl/factor_data/factorization_repeating_block_tridiagonal_arrowhead_linked.hpp:FactorizationRepeatingBlockTridiagonalArrowheadLinked", "ctldl/factor_data/factorization_repeating_block_tridiagonal.hpp:FactorizationRepeatingBlockTridiagonal", "ctldl/factor_data/factorization.hpp:Factorization", "ctldl/factorize/factorize_up_looking.hpp:factorizePartialUpLooking"]}
{"id": "C54", "title": "Generated test inputs are well-formed for every seed", "statement": "For every seed and size, ProceduralTestPermutation is a permutation; ProceduralTestMatrix has a sparsity within its bounds without duplicates, whose entries are decided one by one by the top bit of consecutive results of the generator; the symmetric one has the full diagonal and nothing above it; the random block tridiagonal and arrowhead-linked systems of the tests have consistent sparsities and permutations, which the factorization accepts.", "quantifier": "all seeds and sizes", "why_tests_cant": "the tests instantiate a few seeds; the only unit test checks a single seed and size", "anchors": ["tests/utility/random/procedural_test_permutation.hpp:ProceduralTestPermutation", "tests/utility/random/procedural_test_matrix.hpp:ProceduralTestMatrix", "tests/utility/random/shuffle.hpp:shuffle", "tests/utility/random/bool_matrix_distribution.hpp:BoolMatrixDistribution", "tests/multiply_factorize_solve_correct/repeating_arrowhead_linked/test_functor_random.hpp:TesterMultiplyFactorizeSolveCorrectRepeatingBlockTridiagonalArrowheadLinkedRandom"]}
{"id": "C55", "title": "Random test permutations cover all permutations", "statement": "For every size, every permutation is generated for some seed. (False: UniformIntDistribution never returns its upper bound, so shuffle always leaves the last index in place; for two indices only the identity is generated, for three only two permutations, selected by the parity of the seed.)", "quantifier": "all seeds and sizes", "why_tests_cant": "negative statement over all seeds; every generated permutation is valid, so no test fails", "anchors": ["tests/utility/random/uniform_int_distribution.hpp:UniformIntDistribution", "tests/utility/random/shuffle.hpp:shuffle", "tests/utility/random/procedural_test_permutation.hpp:ProceduralTestPermutation"]}
{"id": "C56", "title": "The test generator has full period", "statement": "LinearCongruenceGenerator repeats a state only after 2^64 calls and reaches every state from every seed; its lowest bit alternates.", "quantifier": "all seeds and numbers of calls", "why_tests_cant": "2^64 states cannot be enumerated", "anchors": ["tests/utility/random/linear_congruence_generator.hpp:LinearCongruenceGenerator"]}
{"id": "C57", "title": "Scaling a system scales the factorization and the solution", "statement": "If the entry (i,j) of the matrix is multiplied by c s_i s_j and the right-hand side i by t s_i, then pivot i is multiplied by c s_i^2, the entry (i,j) of the factor by s_i/s_j and the solution i by t/(c s_i). In exact arithmetic this holds for all nonzero factors; in IEEE arithmetic bit for bit (up to the sign of zeros) for factors 1 and -1 whenever the results are finite, also with regularization if the pivots are unchanged, and for powers of two and their negatives unless an operation underflows or overflows. Equilibration by powers of two therefore neither gains nor loses accuracy.", "quantifier": "all sparsities, permutations, values, scalings, methods, precisions, block sizes and repetitions", "why_tests_cant": "a statement relating two runs over all inputs and scalings; rounding errors of the runs have to coincide in every operation", "anchors": ["ctldl/factorize/factorize_up_looking.hpp:factorizeUpLooking", "ctldl/factorize/factorize_entry_wise.hpp:factorizeEntryWise", "ctldl/solve/solve_forward_substitution.hpp:solveForwardSubstitution", "ctldl/solve/solve_backward_substitution.hpp:solveBackwardSubstitution", "ctldl/factor_data/factorization.hpp:Factorization"]}
{"id": "C58", "title": "Rounding errors of the matrix-vector products and of a round trip", "statement": "A finite component i of a computed product (normal, transposed, symmetric, block tridiagonal or arrowhead; added to the given right-hand side) differs from the exact one by at most ((1+u)^(c+1)-1) (|b_i| + sum |A_ij||x_j|) plus an underflow term, where c is the number of stored entries that contribute to the component; it does not depend on the order of the entries or on the size of the matrix. Multiplying a vector x, factorizing and solving gives a y for which A(y-x) is bounded by the sum of the bounds of the product, the factorization and the solution.", "quantifier": "all sparsities incl. duplicates, values, vectors, kinds of products, block sizes, repetitions, permutations, methods and precisions; the round trip for all runs with finite results", "why_tests_cant": "rounding errors depend on the values; tests compare a few vectors with a tolerance and accept any smaller or larger error growth elsewhere", "anchors": ["ctldl/matrix/multiply.hpp:multiply", "ctldl/matrix/multiply_repeating_block_tridiagonal.hpp:multiplyRepeatingBlockTridiagonal", "ctldl/matrix/multiply_repeating_block_tridiagonal_arrowhead_linked.hpp:multiplyRepeatingBlockTridiagonalArrowheadLinked", "ctldl/factor_data/factorization.hpp:Factorization"]}
{"id": "C59", "title": "Products of integers are exact", "statement": "If all values of the matrix, the vector and the right-hand side are integers and |b_i| + sum |A_ij||x_j| is at most 2^p, where p is the precision (24 for float, 53 for double), component i of the computed product is finite and exact, whatever the order of the entries; the bound is attained: one more is not exact.", "quantifier": "all sparsities incl. duplicates, integer values, vectors, kinds of products, block sizes, repetitions and precisions", "why_tests_cant": "tests with small integers rely on it when they compare for equality, but can only sample it", "anchors": ["ctldl/matrix/multiply.hpp:multiply", "ctldl/matrix/multiply_repeating_block_tridiagonal.hpp:multiplyRepeatingBlockTridiagonal", "ctldl/matrix/multiply_repeating_block_tridiagonal_arrowhead_linked.hpp:multiplyRepeatingBlockTridiagonalArrowheadLinked"]}
{"id": "C60", "title": "From the text of a matrix market file to the solution", "statement": "The text of a matrix market file (comments, header, one line for each entry; any white space, optional signs, decimal points and exponents, carriage returns, a missing last line end, anything behind the third number) delivers exactly its entries in order, with decimal numbers rounded to the nearest double. Every list of entries can be written as such a text. Empty lines, comments below the header, lines with fewer than three numbers, negative, zero or too large row numbers and a wrong number of entries are rejected with an exception. Reading the text, factorizing and solving solves the system of the file, exactly in exact arithmetic and with the residual bound of C45 in floating point arithmetic. (The kind of the matrix in the first line is ignored: complex matrices are read without an error.)", "quantifier": "all texts, numbers of entries, decimal numbers, sparsities, permutations, repetitions, methods", "why_tests_cant": "the texts are unbounded; tests read a few files, and no test covers malformed texts", "anchors": ["ctldl/fileio/mtx_foreach_entry.cpp:mtxForeachEntry", "ctldl/fileio/mtx_read_header.cpp:mtxReadHeader", "ctldl/fileio/mtx_file_read_repeating_block_tridiagonal_arrowhead_linked.hpp:mtxFileReadRepeatingBlockTridiagonalArrowheadLinked", "ctldl/factor_data/factorization_repeating_block_tridiagonal_arrowhead_linked.hpp:FactorizationRepeatingBlockTridiagonalArrowheadLinked"]}
{"id": "C61", "title": "Systems dominated by their diagonal never overflow and never hit a zero pivot", "statement": "In floating point arithmetic with rounding, underflow and overflow: if in every row of the matrix the absolute values off the diagonal sum up to at most th < 1 times the diagonal entry, and the diagonal entries lie in a range that fits the number format (for double up to dimension 2^20: th = 1/2 and absolute values between 2^-400 and 2^400), then factorizing succeeds in every order and with each method; all entries of the factor are finite; each computed pivot is finite, of the sign of its diagonal entry and between (1-th)/2 times and twice as large; and solving with every right-hand side that fits gives finite numbers only. For single matrices, repeating tridiagonal and arrowhead structures with every number of repetitions.", "quantifier": "all number formats with bounded rounding and overflow, all dominated matrices in range, sparsities, permutations, methods, numbers of repetitions, right-hand sides", "why_tests_cant": "the claim is about all matrices and dimensions and about accumulated rounding errors; tests see a few matrices", "anchors": ["ctldl/factor_data/factorization.hpp:Factorization", "ctldl/factor_data/factorization_repeating_block_tridiagonal.hpp:FactorizationRepeatingBlockTridiagonal", "ctldl/factor_data/factorization_repeating_block_tridiagonal_arrowhead_linked.hpp:FactorizationRepeatingBlockTridiagonalArrowheadLinked", "ctldl/factorize/factorize_up_looking.hpp:factorizeUpLooking", "ctldl/factorize/factorize_entry_wise.hpp:factorizeEntryWise"]}
{"id": "C62", "title": "The computed solution of a system dominated by its diagonal is close to the exact one", "statement": "Under the hypotheses of C61 the system over the real numbers given by the stored floating point numbers has exactly one solution, and the solution that is computed without any refinement differs from it in each element by at most an explicit bound: about (32 r + 16) u / (1-th)^2 times the largest computed element, where r bounds the number of entries in each row and column of the factor and u is the unit roundoff, plus terms for underflow. In double precision up to dimension N = 2^20, with th = 1/2, the difference is at most N 2^-44 times the largest computed element plus 2^-650.", "quantifier": "all number formats with bounded rounding and overflow, all dominated matrices in range, sparsities, permutations, methods, numbers of repetitions, right-hand sides", "why_tests_cant": "a forward error bound for every matrix; tests compare with known solutions of a few matrices only", "anchors": ["ctldl/factor_data/factorization.hpp:Factorization", "ctldl/factor_data/factorization_repeating_block_tridiagonal.hpp:FactorizationRepeatingBlockTridiagonal", "ctldl/factor_data/factorization_repeating_block_tridiagonal_arrowhead_linked.hpp:FactorizationRepeatingBlockTridiagonalArrowheadLinked"]}
{"id": "C63", "title": "Positive definite systems never overflow and every computed pivot is positive", "statement": "In floating point arithmetic with rounding, underflow and overflow: if the quadratic form of the symmetric matrix is at least lam > 0 times the quadratic form of its diagonal (lam is the smallest eigenvalue of the matrix scaled to unit diagonal), the precision is sufficient for lam (about lam >= 16 (r+1)^2 u, where r bounds the number of entries in each row and column of the factor and u is the unit roundoff) and the diagonal lies in a range that fits the number format, then factorizing succeeds in every order and with each method, without regularization; all entries of the factor are finite; each computed pivot is positive and between lam/4 times and twice its diagonal entry; and solving with every right-hand side that fits gives finite numbers of bounded size. For single matrices, repeating tridiagonal and arrowhead structures with every number of repetitions.", "quantifier": "all number formats with bounded rounding and overflow, all such matrices, sparsities, permutations, methods, numbers of repetitions, right-hand sides", "why_tests_cant": "the claim is about all matrices and dimensions and about accumulated rounding errors; tests see a few matrices. A matrix that is positive definite but too close to singular does break down, so the condition on lam is needed", "anchors": ["ctldl/factor_data/factorization.hpp:Factorization", "ctldl/factor_data/factorization_repeating_block_tridiagonal.hpp:FactorizationRepeatingBlockTridiagonal", "ctldl/factor_data/factorization_repeating_block_tridiagonal_arrowhead_linked.hpp:FactorizationRepeatingBlockTridiagonalArrowheadLinked", "ctldl/factorize/factorize_up_looking.hpp:factorizeUpLooking", "ctldl/factorize/factorize_entry_wise.hpp:factorizeEntryWise"]}
{"id": "C64", "title": "The computed solution of a positive definite system is close to the exact one", "statement": "Under the hypotheses of C63 the system over the real numbers given by the stored floating point numbers has exactly one solution, and the computed solution, without any refinement, differs from it by at most an explicit bound in the Euclidean norm weighted by the diagonal of the matrix: about 4 (r+1) (2r+1) u / lam times the norm of the computed solution, plus terms for underflow. In double precision up to dimension 2^20, with (r+1)^2 2^-47 <= lam <= 1, the diagonal between 2^-200 and 2^200 and right-hand sides up to 2^200, the difference is at most ((r+1)^2 2^-48 times the norm of the computed solution plus 2^-700) / lam.", "quantifier": "all number formats with bounded rounding and overflow, all such matrices, sparsities, permutations, methods, numbers of repetitions, right-hand sides", "why_tests_cant": "a forward error bound for every positive definite matrix; tests compare with known solutions of a few matrices only", "anchors": ["ctldl/factor_data/factorization.hpp:Factorization", "ctldl/factor_data/factorization_repeating_block_tridiagonal.hpp:FactorizationRepeatingBlockTridiagonal", "ctldl/factor_data/factorization_repeating_block_tridiagonal_arrowhead_linked.hpp:FactorizationRepeatingBlockTridiagonalArrowheadLinked"]}
{"id": "C65", "title": "Computing with another number type", "statement": "The number type is a template parameter. For every two number types and every relation between them that addition, subtraction, multiplication, division and zero preserve, related input gives related results of factorizing, solving, multiplying and constructing, for single matrices, repeating tridiagonal and arrowhead structures, whatever the objects contained before. In particular a number type with several lanes (a vector register) computes in each lane exactly what a call with the numbers of this lane computes, also in IEEE arithmetic where another lane divides by zero. And whether a call succeeds, or how it fails, depends on sparsities and sizes only, never on the numbers or the number type.", "quantifier": "all number types and relations, all matrices, sparsities, permutations, methods, regularizations, numbers of repetitions", "why_tests_cant": "quantifies over all number types a user can write; tests instantiate double only. That no path through the code depends on a value cannot be seen from samples of values", "anchors": ["ctldl/factor_data/factorization.hpp:Value", "ctldl/factor_data/factorization_repeating_block_tridiagonal.hpp:FactorizationRepeatingBlockTridiagonal", "ctldl/factor_data/factorization_repeating_block_tridiagonal_arrowhead_linked.hpp:FactorizationRepeatingBlockTridiagonalArrowheadLinked", "ctldl/factorize/factorize_up_looking.hpp:factorizeUpLooking", "ctldl/factorize/factorize_entry_wise.hpp:factorizeEntryWise", "ctldl/solve/solve_forward_substitution.hpp:solveForwardSubstitution", "ctldl/solve/solve_backward_substitution.hpp:solveBackwardSubstitution", "ctldl/matrix/multiply.hpp:multiply"]}
{"id": "C66", "title": "Solving with intervals encloses the solutions of all systems within the input", "statement": "If the values of the matrix and of the right-hand side are intervals and no interval on the diagonal D of the factorization contains zero, then every system whose numbers lie in the given intervals has exactly one solution, and it lies in the computed intervals. For every number type that describes sets of numbers such that its operations enclose the exact ones; intervals with rational bounds are one. For single matrices, repeating tridiagonal and arrowhead structures.", "quantifier": "all set-valued number types with enclosing operations, all fields, matrices, sparsities, permutations, methods, numbers of repetitions, right-hand sides", "why_tests_cant": "a statement about infinitely many systems for each input, and about existence and uniqueness of solutions", "anchors": ["ctldl/factor_data/factorization.hpp:Factorization", "ctldl/factor_data/factorization_repeating_block_tridiagonal.hpp:FactorizationRepeatingBlockTridiagonal", "ctldl/factor_data/factorization_repeating_block_tridiagonal_arrowhead_linked.hpp:FactorizationRepeatingBlockTridiagonalArrowheadLinked"]}
{"id": "C67", "title": "Solving with derivatives gives the derivative of the solution", "statement": "If the matrix and the right-hand side depend on a parameter and are given at one point by values and derivatives (dual numbers, forward mode differentiation), then the solution computed with these numbers consists of values and derivatives at this point of the function that maps the parameter to the solution computed with real numbers. Where a division by zero happens the result is marked as invalid and nothing is claimed. For single matrices, repeating tridiagonal and arrowhead structures.", "quantifier": "all differentiable matrices and right-hand sides, all points, sparsities, permutations, methods, numbers of repetitions", "why_tests_cant": "a derivative is a limit, difference quotients in tests only approximate it", "anchors": ["ctldl/factor_data/factorization.hpp:Factorization", "ctldl/factor_data/factorization_repeating_block_tridiagonal.hpp:FactorizationRepeatingBlockTridiagonal", "ctldl/factor_data/factorization_repeating_block_tridiagonal_arrowhead_linked.hpp:FactorizationRepeatingBlockTridiagonalArrowheadLinked"]}
{"id": "C68", "title": "Parts of a system that are not coupled do not affect each other", "statement": "If no declared entry couples a set of variables with the others (for repeating structures: the same set in every repetition), then the factor, the diagonal and the solution of these variables depend only on the numbers of these variables: for any two inputs that agree on the set, and whatever numbers the rest contains, they are identical. In IEEE arithmetic this holds bit by bit, also if a zero pivot makes the other part infinite or not a number. A separate factorization of the part alone, with any permutation that eliminates its variables in the same order, computes the same numbers. It is false if the set differs from repetition to repetition: all repetitions store one common pattern, and undeclared stored entries are divided by their pivots, so a zero pivot turns a variable that is not coupled with any other into not a number (witness).", "quantifier": "all number types, sparsities, sets of variables, permutations, methods, regularizations, matrices, right-hand sides, numbers of repetitions", "why_tests_cant": "a statement about pairs of inputs that differ arbitrarily in the rest; tests compare single results with expected values", "anchors": ["ctldl/factor_data/factorization.hpp:Factorization", "ctldl/factor_data/factorization_repeating_block_tridiagonal.hpp:FactorizationRepeatingBlockTridiagonal", "ctldl/factor_data/factorization_repeating_block_tridiagonal_arrowhead_linked.hpp:FactorizationRepeatingBlockTridiagonalArrowheadLinked", "ctldl/factorize/factorize_up_looking.hpp:factorizeUpLooking", "ctldl/factorize/factorize_entry_wise.hpp:factorizeEntryWise", "ctldl/solve/solve_forward_substitution.hpp:solveForwardSubstitution", "ctldl/solve/solve_backward_substitution.hpp:solveBackwardSubstitution"]}
{"id": "C69", "title": "The leading part of the factorization depends on the leading part of the matrix only", "statement": "If two systems, possibly of different sizes and with different sparsities, have the same declared entries and the same numbers among the variables eliminated first, then the factor and the diagonal of these variables are identical. For repeating structures: the first repetitions of the factorization, including their rows of the outer block, depend only on the start block and the first repetitions of the input, so a longer horizon with the same beginning gives the same beginning. In every arithmetic, thus bit by bit in IEEE arithmetic.", "quantifier": "all number types, sparsities, permutations, methods, regularizations, matrices, numbers of repetitions", "why_tests_cant": "a statement about pairs of systems of all sizes with arbitrary different rest", "anchors": ["ctldl/factor_data/factorization.hpp:Factorization", "ctldl/factor_data/factorization_repeating_block_tridiagonal.hpp:FactorizationRepeatingBlockTridiagonal", "ctldl/factor_data/factorization_repeating_block_tridiagonal_arrowhead_linked.hpp:FactorizationRepeatingBlockTridiagonalArrowheadLinked", "ctldl/factorize/factorize_up_looking.hpp:factorizeUpLooking", "ctldl/factorize/factorize_entry_wise.hpp:factorizeEntryWise"]}
{"id": "C70", "title": "The diagonal of the factorization gives the determinant", "statement": "Without regularization and in exact arithmetic, the product of the first q diagonal entries of the factorization is the determinant of the part of the matrix with the q variables eliminated first, provided the diagonal entries before the last are not zero. The product of all diagonal entries is the determinant of the matrix as passed by the user, whatever permutation is used. No diagonal entry is zero exactly if none of these leading determinants is zero; it does not suffice that the matrix is not singular (witness). The same for arrowhead and block tridiagonal systems.", "quantifier": "all fields, sizes, sparsities, permutations, methods, matrices, numbers of repetitions", "why_tests_cant": "determinants of all sizes, in terms of the expansion by minors that is too expensive to compute beyond small sizes", "anchors": ["ctldl/factor_data/factorization.hpp:Factorization", "ctldl/factor_data/factorization_repeating_block_tridiagonal.hpp:FactorizationRepeatingBlockTridiagonal", "ctldl/factor_data/factorization_repeating_block_tridiagonal_arrowhead_linked.hpp:FactorizationRepeatingBlockTridiagonalArrowheadLinked", "ctldl/factorize/factorize_up_looking.hpp:factorizeUpLooking", "ctldl/factorize/factorize_entry_wise.hpp:factorizeEntryWise"]}
{"id": "C71", "title": "What a violated condition reports", "statement": "A condition that holds has no effect. A violated precondition, postcondition or assertion throws a logic error. If the place in the source code is passed to the check, the message determines the kind of the condition, the file, the line and the function, if file names contain no colon (with colons it does not, witness). It is false that a check that passes no place reports where it was written: the messages of all preconditions of the library are the same, as the default argument is a fixed location instead of the location of the caller (witness). The text of a permutation in the messages of the tests determines the permutation.", "quantifier": "all conditions, places, file and function names, line numbers, permutations of any size", "why_tests_cant": "no test violates a precondition at run time and looks at the message; the claim is about all pairs of places", "anchors": ["ctldl/utility/contracts.hpp:pre", "ctldl/utility/contracts.hpp:post", "ctldl/utility/contracts.hpp:contract_assert_", "ctldl/utility/contracts.cpp:ContractViolationException", "tests/utility/to_test_info.cpp:toTestInfo"]}
{"id": "C72", "title": "Test sets contain every combination once", "statement": "The product of two test sets has every combination of their cases and no other, each once, and foreach calls the test for every pair of template arguments and function arguments, each once, in lexicographic order. In the test suites, where groups of matrices are combined with the permutations of the group and with further arguments, every combination is tested once. The pairing of two sets with ^ pairs cases with the same position; if the sizes differ, the rest is silently not tested (witness).", "quantifier": "all test sets of any size", "why_tests_cant": "the tests use these functions themselves and cannot notice when they skip cases", "anchors": ["tests/utility/test_set.hpp:cartesianProductTestSets", "tests/utility/test_set.hpp:joinTestSets", "tests/utility/test_set.hpp:zipTestSets", "tests/utility/test_set_foreach.hpp:foreach"]}
{"id": "C73", "title": "The trailing part of the factorization is the factorization of the Schur complement", "statement": "After a factorization with nonzero diagonal, split the variables in the order of elimination after any number of them and write B for the permuted matrix with the changes of the regularization. Then B11 X = B12 has a solution, and the rows and columns of the rest of L and D give L22 D2 L22^T = B22 - B21 X for every solution X. In particular the factor of the outer block of an arrowhead system is the factorization of the Schur complement of all other variables, and for block tridiagonal systems every block continues with the Schur complement of the blocks before.", "quantifier": "all fields, sizes, sparsities, permutations, methods, regularizations, matrices, positions of the split, numbers of repetitions", "why_tests_cant": "a statement about all splits of all matrices in exact arithmetic", "anchors": ["ctldl/factor_data/factorization.hpp:Factorization", "ctldl/factor_data/factorization_repeating_block_tridiagonal.hpp:FactorizationRepeatingBlockTridiagonal", "ctldl/factor_data/factorization_repeating_block_tridiagonal_arrowhead_linked.hpp:FactorizationRepeatingBlockTridiagonalArrowheadLinked", "ctldl/factorize/factorize_up_looking.hpp:factorizeUpLooking", "ctldl/factorize/factorize_entry_wise.hpp:factorizeEntryWise"]}
{"id": "C74", "title": "The example program prints the solution of the system in the file", "statement": "For a file whose entries are declared, the example program prints a line per variable, in blocks with headings, with the closest number of six decimal places to the computed solution for a right-hand side of ones; running more iterations prints the same, and zero iterations prints ones. In double precision, for matrices dominated by their diagonal, every printed number is within half a millionth plus a relative error of n 2^-43 of the exact solution, and the regularization has no effect. For positive definite matrices the relative error, weighted with the diagonal, is at most (r+1)^2 2^-47 / lambda, where the factor has at most r entries in a row or column and lambda is the smallest eigenvalue of the matrix scaled to a unit diagonal. A wrong number of arguments prints the usage, and a file that cannot be read ends the program without output.", "quantifier": "all arguments, files, declared structures, numbers of repetitions and iterations; for the accuracy all diagonally dominated and all sufficiently positive definite matrices up to dimension 2^20", "why_tests_cant": "the exact solution is not available to a test, and the inputs are unbounded", "anchors": ["examples/repeating/example_mtx.cpp:main", "ctldl/fileio/mtx_file_read_repeating_block_tridiagonal_arrowhead_linked.hpp:mtxFileReadRepeatingBlockTridiagonalArrowheadLinked", "ctldl/factor_data/factorization_repeating_block_tridiagonal_arrowhead_linked.hpp:FactorizationRepeatingBlockTridiagonalArrowheadLinked", "ctldl/factorize/regularization_small_positive_constant.hpp:RegularizationSmallPositiveConstant::regularize"]}
{"id": "C75", "title": "The shipped example programs print the solutions of their systems", "statement": "Every structure shipped for the mtx example program lets it read every file with declared entries as intended, and the program prints the computed solution. The example programs with fixed matrices print the solution computed by one factorization and one solve, whatever the numbers of repetitions. In double precision the tridiagonal example prints the exact solution k(61-k)/2 of its 60 equations, the LFAT5 example prints numbers within half a millionth of the unique exact solution whatever is in the uninitialized factorization, and the nos4 example prints 100 finite numbers.", "quantifier": "all files, all numbers of repetitions, all contents of uninitialized memory; all numeric types for the first two parts", "why_tests_cant": "the programs repeat ten million times, print rounded numbers without comparing them with anything, and uninitialized memory cannot be controlled by a test", "anchors": ["examples/repeating/example_mtx.cpp:main", "examples/repeating/mtx_includes/", "examples/repeating/example_tridiagonal.cpp:main", "examples/repeating/example_nos2.cpp:main", "examples/repeating/example_nos4.cpp:main", "examples/repeating/example_indef.cpp:main", "examples/single/example_lfat5.cpp:main", "examples/single/example_indef_single.cpp:main"]}
{"id": "C76", "title": "Solving is linear and symmetric", "statement": "With one factorization, with or without regularization, the solution for a right-hand side b + c b' is the solution for b plus c times the solution for b', and the scalar product of b' with the solution for b equals that of b with the solution for b' (exact arithmetic; refuted for doubles). For single matrices, arrowhead-linked and block tridiagonal ones.", "quantifier": "all fields, structures, permutations, matrices with nonzero pivots, regularizations, right-hand sides and factors c", "why_tests_cant": "quantifies over pairs of right-hand sides and all matrices; a test in floating point arithmetic cannot distinguish a violation from rounding", "anchors": ["ctldl/factor_data/factorization.hpp:Factorization", "ctldl/factor_data/factorization_repeating_block_tridiagonal_arrowhead_linked.hpp:FactorizationRepeatingBlockTridiagonalArrowheadLinked", "ctldl/factor_data/factorization_repeating_block_tridiagonal.hpp:FactorizationRepeatingBlockTridiagonal", "ctldl/solve/solve_forward_substitution.hpp:solveForwardSubstitution", "ctldl/solve/solve_backward_substitution.hpp:solveBackwardSubstitution"]}
{"id": "C77", "title": "Iterative refinement undoes the effect of the regularization", "statement": "For a positive semidefinite matrix A, possibly singular, and a right-hand side with a solution xs, factorizing with the small positive constant regularization succeeds, and so does any number k of refinement steps x += solve(rhs - A x) with that factorization and the products of the library. For the error e = x - xs, starting from e0, it holds that 2 k e^T A e <= c |e0|^2 where c = eps^(1/2) + eps^(5/8), that e^T A e never grows, and that it shrinks at least by the factor c / (2 lam) per step if all eigenvalues are at least lam (exact arithmetic). For single matrices, arrowhead-linked and block tridiagonal ones.", "quantifier": "all structures, permutations, factorization methods, positive semidefinite matrices, consistent right-hand sides, starting points, numbers of steps and 0 < eps < 1", "why_tests_cant": "a test refines for some matrices; convergence for all matrices, including singular ones, and the bound on its rate for any number of steps need a proof", "anchors": ["ctldl/factorize/regularization_small_positive_constant.hpp:RegularizationSmallPositiveConstant::regularize", "ctldl/matrix/multiply.hpp:multiply", "ctldl/matrix/multiply_repeating_block_tridiagonal.hpp:multiplyRepeatingBlockTridiagonal", "ctldl/matrix/multiply_repeating_block_tridiagonal_arrowhead_linked.hpp:multiplyRepeatingBlockTridiagonalArrowheadLinked", "ctldl/factor_data/factorization.hpp:Factorization", "ctldl/factor_data/factorization_repeating_block_tridiagonal.hpp:FactorizationRepeatingBlockTridiagonal", "ctldl/factor_data/factorization_repeating_block_tridiagonal_arrowhead_linked.hpp:FactorizationRepeatingBlockTridiagonalArrowheadLinked"]}
{"id": "C78", "title": "Every iteration of the benchmark program does the same work", "statement": "For a file that describes a matrix of the compiled structure, each iteration of the benchmark factorize leaves the factorization that a newly constructed object gets, each iteration of solve leaves the solution for the right-hand side of ones, and each iteration of combined leaves both, whatever the numbers of iterations and the further arguments. The solution is the one that the example program prints. Without a file argument the program prints its usage and fails, and it fails with the exception of the reader for other files.", "quantifier": "all compiled structures, files, arithmetics, regularizations, numbers of iterations and arguments", "why_tests_cant": "no test runs the benchmark, and stale state between iterations is not visible in its output", "anchors": ["examples/repeating/benchmark_mtx.cpp:benchmarkCombined", "ctldl/factor_data/factorization_repeating_block_tridiagonal_arrowhead_linked.hpp:FactorizationRepeatingBlockTridiagonalArrowheadLinked"]}
{"id": "C79", "title": "Quasi-definite matrices with a margin keep it, and are not regularized", "statement": "If the rows of one kind form a matrix with all eigenvalues at least lam and the other rows one with all eigenvalues at most -lam, lam positive, then for every permutation each pivot has the sign of its row and an absolute value of at least lam, RegularizationSmallPositiveConstant leaves the factorization as it is without regularization when lam is not below its tolerance, and the solution is at most 1/lam times as long as the right-hand side. If all eigenvalues are at least lam, each pivot lies between lam and the diagonal entry of its row, and L_ij^2 D_j does not exceed the diagonal entry of row i. The same for block tridiagonal and arrowhead-linked matrices.", "quantifier": "all structures, permutations, methods, numbers of repetitions and real matrices with a margin, exact arithmetic", "why_tests_cant": "tests factorize a few matrices; that the permutation and the entries that connect the two kinds of rows do not matter, and that no pivot is replaced, is a statement about all of them", "anchors": ["ctldl/factorize/regularization_small_positive_constant.hpp:RegularizationSmallPositiveConstant::regularize", "ctldl/factorize/factorize_entry_wise.hpp:factorizeEntryWise", "ctldl/factorize/factorize_up_looking.hpp:factorizeUpLooking", "ctldl/factor_data/factorization.hpp:Factorization", "ctldl/factor_data/factorization_repeating_block_tridiagonal.hpp:FactorizationRepeatingBlockTridiagonal", "ctldl/factor_data/factorization_repeating_block_tridiagonal_arrowhead_linked.hpp:FactorizationRepeatingBlockTridiagonalArrowheadLinked"]}
{"id": "C80", "title": "A permutation amounts to numbering the variables in another way", "statement": "Take two systems that differ only in the numbers of the variables inside each block: their declared sparsities and matrices are the same up to the renumbering, and their permutations eliminate the same variables in the same order. Then factorize stores the same entries at the same places with the same values, in any number type and thus bit by bit for floating point, and solveInPlace gives the same solution up to the renumbering. In particular a factorization with a permutation is the factorization of the renumbered matrix without one. The same for block tridiagonal and arrowhead-linked systems.", "quantifier": "all sparsities, permutations, renumberings, methods, regularizations, numbers of repetitions, number types and inputs", "why_tests_cant": "a test compares solutions for some permutations up to a tolerance; that nothing but the order of elimination matters, down to the last bit, concerns every pair of numberings", "anchors": ["ctldl/factor_data/factorization.hpp:Factorization", "ctldl/factor_data/factorization_repeating_block_tridiagonal.hpp:FactorizationRepeatingBlockTridiagonal", "ctldl/factor_data/factorization_repeating_block_tridiagonal_arrowhead_linked.hpp:FactorizationRepeatingBlockTridiagonalArrowheadLinked", "ctldl/permutation/permutation.hpp:PermutationStatic", "ctldl/sparsity/sparsity_permuted.hpp:getSparsityDynamicPermuted", "ctldl/factorize/factorize_entry_wise.hpp:factorizeEntryWise", "ctldl/factorize/factorize_up_looking.hpp:factorizeUpLooking"]}
{"id": "C81", "title": "Declaring more entries only adds entries to the factor", "statement": "If every entry that one sparsity declares is also declared by another one, with the same permutations, then every entry that the factorization stores for the first one is stored for the second one too, block by block and for every number of repetitions, and no block of the factor needs less storage.", "quantifier": "all pairs of sparsities of the same dimensions, one contained in the other, and all permutations; single matrices, block tridiagonal and arrowhead-linked systems", "why_tests_cant": "the repeating pattern is found by an iteration whose number of steps differs between the two sparsities, so that examples do not show that it preserves inclusion", "anchors": ["ctldl/symbolic/filled_in_sparsity.hpp:getFilledInSparsity", "ctldl/symbolic/compute_elimination_tree_repeating.hpp:computeEliminationTreeRepeating", "ctldl/symbolic/filled_in_sparsity_repeating_arrowhead.hpp:getFilledInSparsityRepeatingArrowhead", "ctldl/factor_data/factorization_repeating_block_tridiagonal_arrowhead_linked.hpp:FactorizationRepeatingBlockTridiagonalArrowheadLinked"]}
{"id": "C82", "title": "Printed entries can be told apart", "statement": "The text printed for an Entry, followed by any other text, determines the row index, the column index and the text that follows. Different entries are therefore printed differently, and a printed list of entries with any separator can be read back.", "quantifier": "all row and column indices, all following texts, all lists and separators; streams with default flags", "why_tests_cant": "failure messages of tests show printed entries; that no two of the infinitely many pairs of indices look the same cannot be tested one by one", "anchors": ["ctldl/sparsity/entry_print.hpp:operator<<"]}
{"id": "C83", "title": "The solution is the minimum, or the saddle point, of the quadratic function", "statement": "If A is positive definite, solveInPlace returns the only minimum of half of y^T A y minus b^T y. If A is quasi-definite, as in the optimality conditions of an optimization problem, the solution is the only saddle point of this function: no change of the variables makes it smaller, and no change of the multipliers makes it larger. Without regularization, for every permutation and method. The same for block tridiagonal and arrowhead-linked matrices.", "quantifier": "all structures, permutations, methods, numbers of repetitions, definite and quasi-definite real matrices and right-hand sides; exact arithmetic", "why_tests_cant": "a minimum is a statement about all other points, of which a test can try a few", "anchors": ["ctldl/factorize/factorize_entry_wise.hpp:factorizeEntryWise", "ctldl/factorize/factorize_up_looking.hpp:factorizeUpLooking", "ctldl/factorize/regularization_none.hpp:RegularizationNone::regularize", "ctldl/factor_data/factorization.hpp:Factorization", "ctldl/factor_data/factorization_repeating_block_tridiagonal.hpp:FactorizationRepeatingBlockTridiagonal", "ctldl/factor_data/factorization_repeating_block_tridiagonal_arrowhead_linked.hpp:FactorizationRepeatingBlockTridiagonalArrowheadLinked"]}
{"id": "C84", "title": "Larger matrices have larger pivots", "statement": "Factorize two matrices with the same structure and permutation. If the second is larger, that is z^T A z never exceeds z^T A' z, and both are positive definite or quasi-definite with the same kinds of rows, then no pivot D of the first is larger than that of the second. In particular, adding to the diagonal of a positive definite matrix makes no pivot smaller. Without regularization, for every permutation and method. The same for block tridiagonal and arrowhead-linked matrices.", "quantifier": "all structures, permutations, methods, numbers of repetitions and pairs of definite or quasi-definite real matrices; exact arithmetic", "why_tests_cant": "a statement about all pairs of matrices; tests do not compare factorizations of different matrices", "anchors": ["ctldl/factorize/factorize_entry_wise.hpp:factorizeEntryWise", "ctldl/factorize/factorize_up_looking.hpp:factorizeUpLooking", "ctldl/factorize/regularization_none.hpp:RegularizationNone::regularize", "ctldl/factor_data/factorization.hpp:Factorization", "ctldl/factor_data/factorization_repeating_block_tridiagonal.hpp:FactorizationRepeatingBlockTridiagonal", "ctldl/factor_data/factorization_repeating_block_tridiagonal_arrowhead_linked.hpp:FactorizationRepeatingBlockTridiagonalArrowheadLinked"]}
{"id": "C85", "title": "With the regularization the solution still nearly minimizes the quadratic function", "statement": "If A is positive semidefinite, even if it is singular, and RegularizationSmallPositiveConstant is used, solveInPlace returns the only minimum of half of y^T A y minus b^T y plus half of the sum of e_i y_i^2, where each e_i is zero or close to the regularization constant. The value of the quadratic function at the solution therefore exceeds that at any other point y by at most (constant + tolerance)/2 times the squared length of y, whether or not Ax=b has a solution. The same for block tridiagonal and arrowhead-linked matrices.", "quantifier": "all structures, permutations, methods, numbers of repetitions, positive semidefinite real matrices and right-hand sides; exact arithmetic", "why_tests_cant": "tests compare with the known solution of a system; that a point is nearly a minimum, also for singular matrices and systems without a solution, is a statement about all other points", "anchors": ["ctldl/factorize/regularization_small_positive_constant.hpp:RegularizationSmallPositiveConstant::regularize", "ctldl/factorize/factorize_entry_wise.hpp:factorizeEntryWise", "ctldl/factorize/factorize_up_looking.hpp:factorizeUpLooking", "ctldl/factor_data/factorization.hpp:Factorization", "ctldl/factor_data/factorization_repeating_block_tridiagonal.hpp:FactorizationRepeatingBlockTridiagonal", "ctldl/factor_data/factorization_repeating_block_tridiagonal_arrowhead_linked.hpp:FactorizationRepeatingBlockTridiagonalArrowheadLinked"]}
