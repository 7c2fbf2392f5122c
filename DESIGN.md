# Machine-checked model of ctldl

This directory holds a Rocq (Coq 8.16.1) model of the C++ library in `/repo`
and proofs of the properties listed in `properties.jsonl`.

## Layout (`rocq/theories`)

| file | contents |
|------|----------|
| `Base.v` | result monad with distinct error outcomes, checked array access, loops |
| `Model*.v` | the model, one definition per C++ function, each with a file/line citation |
| `Spec*.v` | small independent specifications (dense matrices, elimination closure, permutations, ...) |
| `Proof*.v` | lemmas |
| `Prop*.v` | property theorems only: statement, `exact lemma`, `Print Assumptions` |
| `Example*.v` | data for the concrete instances beside each theorem |

## Modelling decisions

* **Outcomes.** Every modelled function returns `res A = Ok a | Err e`.
  `e` is one of `UB` (out-of-bounds access, division by zero of integers),
  `PreViolation`/`AssertViolation` (the contract functions of `contracts.hpp`),
  `CAssert` (the C `assert` macro), `StaticAssert` (a `static_assert` that does not hold,
  i.e. a program that does not compile), `Wrap` (an unsigned subtraction that would wrap around),
  `Mtx` (an `MtxReadException`) and `Fuel` (a `while` loop that did not finish).
  Correctness theorems state `f args = Ok r /\ ...`, so they include absence of all of these.
* **Integers.** `std::size_t` is `nat`. Sums and products of dimensions are assumed to be
  representable; subtractions are checked (`Wrap`). Where a property is about wrap-around
  (`factorial`) the arithmetic is in `N` modulo 2^64.
  The sentinel `no_parent = SIZE_MAX` is modelled by `None`.
* **Scalars.** The numeric code is modelled over an arbitrary type with arbitrary
  operations (`ops F`), no laws. Theorems about stale data and about which input values are read hold for
  *any* operations, hence for IEEE floating point. The exactness theorems add the hypothesis
  that the operations form a field. There, all `static_cast`s between scalar types are the
  identity; ModelMixed.v has different types for input, factor and vectors, with any conversions between them (C46).
* **Templates.** Template parameters are ordinary arguments; `template for` is an ordinary loop;
  `static_assert` is a check with outcome `StaticAssert`. `SparsityStatic/Dynamic/View/Structural` are
  one record (they differ only in storage), likewise the four permutation classes and the three CSR classes.
* **Loops.** `for` loops are folds over index lists; `while` loops use fuel, and the theorems show
  that the fuel given is always enough (so the loops terminate).
* **Standard library.** `std::sort` is insertion sort (equal keys are equal entries, so the result is unique),
  `std::next_permutation`, `find`, `partial_sum`, `adjacent_find`, `iota` are written out.
* **Aliasing.** The substitution functions take the vector read from as an option; `None` means it is the
  vector being written (the in-place overloads).
* **mtx files.** A file is a list of lines; In C31–C33 `sscanf` is an oracle (a parameter) returning the scanned numbers or failure;
  C60 replaces it with a model of `getline` and `sscanf` on strings.

## Not modelled

The flags and the locale of streams, exception texts (except for C71), the CMake build, the compiler-workaround
`fixInitIfZeroLengthArray`, CTAD helpers, `static_sized_range`, the test harness (except for the generators of the test inputs, the test sets of C72 and `toTestInfo`),
hexadecimal numbers, `inf` and `nan` in `sscanf`.

## Properties: what is modelled and how it is proved

* C01, C02: the factorization kernels are proved against the dense recurrence
  (row loop invariants: rows below are final; within a row, columns below are final and the rest holds the partially
  reduced input). The sparse inner loops equal dense rank-one row updates because the pattern is closed under elimination.
  C02 follows as both satisfy the recurrence, which has a unique solution for nonzero pivots.
* C03: forward, diagonal and backward substitution against triangular systems; then `L D L^T x = b` by exchanging sums.
* C04, C05: from C03, C26 and injectivity (the solution of `L D L^T x = b` is unique).
* C06, C07, C11: relational loop invariants without algebraic laws.
* C08–C10, C12: block versions of C01/C03 composed over the block structure; the index set of the assembled matrix is
  a sum type (start, tridiagonal block and index, link, outer), the statement is about sums over all indices.
* C13–C15: the path-compressed tree construction refines a forest recurrence; the row subtree characterisation gives
  the inductive closure `Fill`. Minimality is by induction on `Fill`, containment by the loop.
* C16, C17: the loop body is monotone in the ancestor relation, hence it stabilises within `dim^2` steps; the limit is closed.
* C18, C19: `isChordalBlocked` is shown equivalent to closure; the patterns of the pipeline are closed by C14/C16.
* C20–C25, C30, C34–C36: direct functional correctness proofs.
* C23: `next_permutation` is the lexicographic successor.
* C26, C27: entry-wise induction, sums of Kronecker terms.
* C28: C01/C03/C08/C09/C12 instantiated with the reals; every pivot is a result of the regularization (a law-free
  fact, stated separately), whose results and changes are bounded. The machine epsilon is any number in (0,1).
* C29, C40, C41: x^T A x and A x for x chosen by back substitution give a pivot as the last row of A x; C29 and C40
  are stated over any ordered field, C41 over any infinite field with decidable equality (no axioms).
* C31–C33: state-machine correctness of the reader with the scanner as an oracle. C32/C33 are false in general for the
  code as it is (see the `_refuted` theorems); what holds is proved under explicit hypotheses.
* C42: the totality part of the kernels and substitutions, law-free.
* C43–C45: each entry of the factor and of the solution is one chain `(c - a1*b1 - ... - ak*bk) / d` evaluated in some
  order; a chain is bounded once, for any order, in an arithmetic given by `rounding O fin val u eta` (SpecRound.v).
  This says something about finite results only, so overflow and NaN are covered. It is proved for every IEEE format with
  rounding to nearest even (`ieeeOps`, from Flocq). Assumed about the compiled code: one rounding per operation, i.e. no
  fused multiply-add, no excess precision, no reassociation (`-ffast-math`).
* C46: the same functions applied to converted values, C43/C44 in the two arithmetics, and the conversion error of A.
  Conversions between IEEE formats are shown to be rounded, and exact to wider formats.
* C47: Sylvester's law of inertia for LDL^T with unit triangular L, by counting dimensions (fewer homogeneous equations
  than unknowns have a nonzero solution), over any ordered field.
* C48: Fill of the permuted pattern = paths through smaller indices (SpecFillPath.v), both directions by induction (on the
  derivation, and on the length of the path, splitting at its largest inner vertex), then renamed by the permutation.
* C49: sign rules (SpecSign.v) hold for ordered fields and for IEEE numbers; induction over the operation traces of
  ProofChain.v, which do not use any law of arithmetic.
* C50: a strictly diagonally dominant matrix is quasi-definite with the signs of its diagonal entries (ProofDominant.v,
  by 2|x y| <= x^2 + y^2 summed over the rows), so that the theorem on quasi-definite matrices applies.
* C51: `fillOf`/`arrowFill` (SpecTight.v) is the smallest pattern closed under elimination of the assembled matrix.
  Everything filled in is stored (ProofTightNum.v); conversely, the fixed point iteration for the repeating blocks reaches
  every stored position by elimination steps through earlier blocks, if there is no start block (ProofTight.v). For matrices
  with negative off-diagonal entries nothing cancels, so each filled in entry is negative. With a start block the pattern of
  the first block enters the shared pattern, and `wasteA` (ProofTightMore.v) has a stored entry that is zero for all matrices.
* C52: SpecAgree.v has the rules that a scalar type has to satisfy (`sameRules`, proved for fields and for IEEE formats) and
  dense elimination (`denseLDL`), which is shown to have exactly one result. ProofChain.v now also says in which form every
  product is computed (`chainedF`), so that the operations of two runs can be compared one by one: the rows of both are
  sublists of one sorted list, and the operations that only one of the runs carries out subtract a zero (ProofAgree.v).
* C53: SpecFlat.v numbers the rows of the assembled matrix and joins the permutations. The run of Factorization on the
  assembled matrix is renamed to block indices (ProofAgreeFlat.v) and compared with the block run as in C52.
* C54–C56: the test input generators (ModelRandom.v) with the 64 bit arithmetic in `N`; loop invariants, and for the period
  that 2^k divides 1 + a + ... + a^(n-1) exactly if it divides n (a = 1 modulo 4). C55 is refuted.
* C57: the operation traces of two runs on the same pattern are compared with a relation "b is k times a" that is indexed
  by the factor k (SpecScale.v); instances are fields, rounding with unbounded exponents (FLX), IEEE with signs, and IEEE
  with trapped underflow (SpecUnderflow.v), which agrees with FLX as long as nothing traps since IEEE sums do not underflow.
  A run without a trap is shown to be the usual IEEE run by the same comparison.
* C58, C59: the product is run in three arithmetics at once (the given one, the reals, and the reals with absolute values and
  a counter of the contributing entries); a relation between the three accumulators is kept by every step
  (ProofMultiplyRel.v), and the latter two are exact products by C26/C27. The round trip combines this with C43–C45.
* C60: std::getline and the two std::sscanf formats are modelled on strings (ModelText.v; negative and too large numbers of
  %zu as in glibc); the specification of the text (SpecText.v) uses the decimal numerals of the standard library. The
  conversion to double is a parameter, instantiated with the correctly rounded one.
* C61, C62: rounding (SpecRound.v) is extended by overflow (SpecDomFloat.v: operations whose exact result is at most Om are
  finite). The proof follows the pivots in the order of elimination; the part of the backward error that belongs to the
  eliminated rows is bounded by the column sums of the factor, which stay below 1 by dominance. The forward error follows
  from the residual bound of C45 and the inverse of a dominated matrix, whose existence is proved by exact elimination (C50).
* C63, C64: positive definiteness is a lower bound of the quadratic form relative to the diagonal (SpecPosFloat.v), which does
  not depend on the scaling of the rows. The proof follows the pivots in the order of elimination: the computed factor of
  the first rows is the exact factor of a perturbed matrix, the perturbation is bounded by the diagonal, so the next pivot
  is the value of a quadratic form that stays above lam/2 times the diagonal. The solution exists by exact elimination.
* C65–C67: the model is a program over an arbitrary number type, so related operations give related results. SpecParam.v
  defines the relations of arrays, matrices and results, the intervals, dual numbers and lanes; ProofParam.v goes through
  the numeric model function by function. C66 and C67 combine this with C03, C09, C12 (exactness) and C06, C11 (old
  contents do not matter). Mixed number types within one call are the subject of C46, not of these.
* C68, C69: SpecLocal.v defines coupled variables and the leading part, in terms of declared entries only. ProofLocal.v
  proves, for the abstract elimination of ProofChain.v and ProofAgree.v, that a set of rows whose stored entries lead only into
  the set determines its own results; ProofLocalClass.v shows that the stored pattern of the repeating structures never
  couples what the declared patterns do not couple. No law of arithmetic is used.
* C70: SpecDet.v defines the determinant by expansion along the first column. ProofDet.v proves its rules (exchange of
  rows and columns, addition of multiples of rows, triangular matrices, L D L^T), ProofDetRun.v applies them to the
  abstract elimination.
* C73: SpecSchur.v defines B11 X = B12 and B22 - B21 X by sums. It follows from C01, C08 and C12 by block
  multiplication (ProofSchur.v).
* C74: ModelProgram.v models the program examples/repeating/example_mtx.cpp together with std::stoull and %f of
  std::printf. The value of std::pow(eps, 0.625) stays open; the theorem about accuracy asks for at most 2^-32. The
  statement combines C60 (text), C11 (reuse), C28 (regularization without effect), C62 and C64 (accuracy).
* C75: ModelExamples.v contains the data of the example programs and of examples/repeating/mtx_includes. The exact
  solutions are rational numbers. For the tridiagonal example the inverse is given by a formula (second differences),
  for LFAT5 uniqueness is C03 with the factorization in rational numbers. For example_nos2 only the number of lines and
  independence of the number of repetitions is proved. Observation: the values in example_nos2.cpp (25600000 on the
  diagonal next to -39321600000 beside it) make an indefinite matrix, unlike the one it is named after.
* C76: both follow from C03, C09, C12: one (regularized) symmetric system has all solutions, and it has only one each.
* C77: SpecRefine.v has the loop of a user. With the regularized matrix K = A + E of C28 and K f = A e (C26, C27 for the
  product) the new error is e' = e - f with A e' = E f, so 2 e'^T A e' + e'^T E e' <= e^T E e, which is summed over the steps.
* C78: ModelBenchmark.v models examples/repeating/benchmark_mtx.cpp without the benchmark library: the loops run for any
  number of iterations and keep the variables after each. Induction over the iterations with C11 and C42.
* C79: SpecPivotBound.v says what a margin is. The pivot of row i is the quadratic form of u, the i-th column of the inverse of
  the transposed factor, and u has a one at i. Against the vector with the signs of one kind of rows flipped the connecting
  entries cancel, which leaves the sum of the two definite forms. The regularization then never finds a small pivot, and the
  same vector for the solution gives the bound of its length. Reals, exact arithmetic.
* C80: SpecRenumber.v says when two structures differ in the numbers of the variables only. ProofRenumberSym.v describes the
  stored entries of an arrowhead structure by its permuted declared patterns alone (the repeating pattern is sandwiched by its
  closure and by what late blocks need), hence they are the same for both structures. The order of all operations then is the
  same too, and the argument of C68 applies to the numbers. No algebraic laws.
* C81: the same description of the stored entries is monotone in the declared patterns.
* C82: ModelEntryPrint.v has the printed text, SpecEntryPrint.v a reader of its own for it, which rejects leading zeros. The
  reader undoes the printing, hence the text is unambiguous.
* C83: SpecMinimize.v has the quadratic function, minima and saddle points over the reals. The solution of C40 solves Ax=b,
  so the value at y exceeds that at x by half of (y-x)^T A (y-x), whose sign is known.
* C84: SpecPivotOrder.v compares matrices by their quadratic forms. A pivot is the value of the form at the saddle point among
  the vectors with a one in its row and zeros in the later rows, and these values are ordered like the forms.
* C85: the solution of C28 solves (A+E)x=b with a diagonal E that is zero or close to the constant. As in C83, completed
  to squares with the weights E. Another minimum differs by a vector in the kernel of A+E, hence solves the same
  system, and C28 has that the solution is unique.
* C71, C72: ModelContract.v has the messages of the contract functions as strings, with the location of the call and
  the default argument as separate inputs; ModelTestSet.v has the test sets as lists. Direct proofs.
* C37–C39: refuted by witnesses; the valid parts are proved.

## Conformance

ExampleRepoTests.v has the unit tests of `ctldl/symbolic` and `ctldl/factor_data` with their expected values, evaluated on
the model; ExampleRepoRuns.v has the integration tests with fixed matrices (small examples with all permutations, LFAT5,
Nos2, Nos4) in double precision with the tolerances of the tests. They found no difference.

## Trusted base

* The Rocq kernel (8.16.1) and the faithfulness of the model to the C++ code (by the citations).
* `Print Assumptions` is printed for every property theorem in the `Prop*.v` files. All theorems are axiom free
  ("Closed under the global context") except those over the real numbers (C28, C43–C46, C49_ieee_signs, C52_ieee, C52_regularization_constant, C57_* except for the generic theorems, C57_field and C57_regularization_none, C58, C59, C60_double, C60_residual, C61, C62, C63, C64, C67, C68_each_block_refuted, C74_printed_number, C74_read_back, C74_prints_the_solution, C74_prints_the_positive_solution, C75 except for C75_shipped_structures and C75_repetitions, C76_double_refuted, C77, C79, C83–C85), which use the axioms of the
  standard library `Reals` (listed in the output, `ClassicalDedekindReals.sig_forall_dec`,
  `ClassicalDedekindReals.sig_not_dec`, `functional_extensionality_dep`, `Classical_Prop.classic`).
