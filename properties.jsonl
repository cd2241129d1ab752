{"id": "C01", "title": "Integer arithmetic is exact or it throws", "statement": "Every arithmetic operation on integer constants (negate, add, subtract, multiply, divide, remainder, abs, gcd) either returns the mathematically exact result as a 64-bit value, or throws an arithmetic error; it throws exactly when the exact result does not fit in a signed 64-bit integer or a divisor is zero. It never returns a wrapped value and never performs an overflowing machine operation.", "quantifier": "all pairs of signed 64-bit operands", "why_tests_cant": "2^128 operand pairs per operation; the failures sit on isolated boundary pairs.", "anchors": ["components/core/wf/utility/checked_int.h: checked_int operators", "components/core/wf/integer_utils.h"]}
{"id": "C02", "title": "Prime factorisation is the prime factorisation", "statement": "Factoring an integer constant returns bases that are prime (plus -1 for negatives), pairwise distinct and increasing, with positive exponents, whose product is the input. The only exceptions are INT64_MIN, which throws, and the primes of at least 3037000499^2 (up to sign), for which the search overflows a machine multiplication; there are such primes.", "quantifier": "all nonzero signed 64-bit integers", "why_tests_cant": "The wheel skips candidates by a pattern; a wrong increment only loses factors for composites with no smaller prime factor, and trial division near 2^63 takes minutes per input.", "anchors": ["components/core/wf/integer_utils.h: wheel_factorization, compute_prime_factors"]}
{"id": "C03", "title": "Integer powers are exact or throw", "statement": "Raising a constant integer to a non-negative integer power returns exactly base^exponent or throws; it never returns a truncated value, and it does not throw when the true result fits.", "quantifier": "all 64-bit bases and all non-negative 64-bit exponents", "why_tests_cant": "Squaring loops overflow in an intermediate square that is not part of the result; only universally quantified reasoning shows whether that rejects representable results.", "anchors": ["components/core/wf/integer_utils.h: integer_power"]}
{"id": "C04", "title": "Rational constants are stored in lowest terms and keep their value", "statement": "A rational constant built from any numerator and nonzero denominator represents the same fraction, has a positive denominator and coprime parts; building it again from its own parts changes nothing, so equal fractions have equal representations. The only exception is an argument INT64_MIN, for which construction is undefined behaviour.", "quantifier": "all 64-bit numerators and all nonzero 64-bit denominators", "why_tests_cant": "Depends on gcd and sign behaviour at every pair including INT64_MIN; 2^127 pairs.", "anchors": ["components/core/wf/expressions/numeric_expressions.h: rational_constant::create_pair, normalized, try_convert_to_integer"]}
{"id": "C05", "title": "Rational arithmetic is exact or throws", "statement": "Sum, difference, product and quotient (nonzero divisor) of rational constants equal the exact rational result and are again in lowest terms; an error is raised exactly when an intermediate product or sum does not fit in 64 bits; undefined behaviour occurs exactly when the numerator or denominator so computed is INT64_MIN. A zero divisor is not rejected: the result is +-1/0, or the process dies for 0/0. The remainder operator returns the fractional part of the quotient, with the sign of the quotient.", "quantifier": "all pairs of canonical rational constants", "why_tests_cant": "Intermediate cross products overflow for specific operands only.", "anchors": ["components/core/wf/expressions/numeric_expressions.h: rational_constant operators"]}
{"id": "C06", "title": "Order and identity of numbers agree with their values", "statement": "For integer and rational constants the ordering predicate reports less/equal/greater exactly as the represented numbers compare; equality coincides with equality of the numbers. The comparison of rationals terminates the process exactly when a cross product does not fit in 64 bits.", "quantifier": "all pairs of integer and rational constants", "why_tests_cant": "A comparator that is wrong or aborts on one far-apart pair corrupts sort-based canonicalisation silently.", "anchors": ["components/core/wf/expressions/numeric_expressions.h: order_struct, is_identical_struct"]}
{"id": "C07", "title": "Comparing an integer with a float is exact", "statement": "The comparison of a 64-bit integer with a double gives exactly the order of the two mathematical values (with infinities at the ends), including integers that no double can represent.", "quantifier": "all 64-bit integers and all finite and infinite doubles", "why_tests_cant": "2^128 pairs; errors occur only where the integer-to-double conversion rounds.", "anchors": ["components/core/wf/integer_utils.h: compare_int_float"]}
{"id": "C08", "title": "Angle reduction", "statement": "Reducing a rational multiple of pi returns r with -1 < r <= 1 that differs from the input by an even integer, or throws on overflow.", "quantifier": "all canonical rational constants", "why_tests_cant": "The wrap-around boundary (odd integers, negative halves) is a measure-zero set of inputs.", "anchors": ["components/core/wf/expressions/numeric_expressions.h: mod_pi_rational"]}
{"id": "C09", "title": "Closed-form trigonometric simplifications equal the true value", "statement": "Whenever sin, cos or tan of a rational multiple of pi is replaced by a closed-form constant, that constant equals the real value of the function at that angle; tan returns complex infinity exactly at the poles.", "quantifier": "all rational multiples of pi (numerator and denominator 64-bit)", "why_tests_cant": "Infinitely many angles reduce to each table entry; a sign error in one quadrant is visible only for that residue class.", "anchors": ["components/core/wf/functions.cc: cos, sin, tan"]}
{"id": "C10", "title": "Numeric powers keep their value", "statement": "When a power of numeric constants (integer or rational base, integer or rational exponent) is simplified into coefficient, integer powers and rational powers of primes, the result has the same real value as the input whenever the input has one.", "quantifier": "all integer/rational bases and exponents for which no overflow error is raised", "why_tests_cant": "The integer part and the fractional part of the exponent are separated per prime factor and sign; wrong only for negative exponents or mixed factors.", "anchors": ["components/core/wf/expressions/power.cc: apply_int_and_int, apply_rational_and_int, apply_int_and_rational"]}
{"id": "C11", "title": "Number-set classification is sound", "statement": "If an expression is classified as real / non-negative / positive (as used to simplify abs, powers of powers, sign), then for every assignment of its variables within their declared sets for which it has a real value, that value lies in the classified set. The one exception: log of an argument classified as positive is itself classified as positive, which is wrong where that argument is at most one.", "quantifier": "all expressions and all assignments consistent with declared sets under which no positive-classified argument of a log is at most one; for log a counterexample", "why_tests_cant": "Soundness of a sign analysis is a statement about all values of all variables.", "anchors": ["components/core/wf/number_set.cc: combine_sets_add, combine_sets_mul, determine_set_visitor", "components/core/wf/enumerations.h: number_set"]}
{"id": "C12", "title": "Automatic simplification of sums keeps the value", "statement": "Building a sum from any operands (flattening nested sums, merging numeric constants, collecting equal terms, dropping zeros) yields an expression with the same real value at every assignment at which the operands have real values.", "quantifier": "all operand lists and all variable assignments", "why_tests_cant": "Sums are over unbounded lists with cancellation and nesting.", "anchors": ["components/core/wf/expressions/addition.cc, addition.h: addition::from_operands, addition_parts"]}
{"id": "C13", "title": "Sums do not depend on operand order", "statement": "Building a sum from any permutation of the same exact operands (no doubles) gives the identical expression, whenever both builds succeed without overflow and the result is exact.", "quantifier": "all operand lists of exact expressions, all permutations, all hash functions and hash-map iteration orders", "why_tests_cant": "Hash-map iteration and merging order vary; n! permutations.", "anchors": ["components/core/wf/expressions/addition.cc: create_addition", "components/core/wf/expressions/addition.h: from_operands"]}
{"id": "C14", "title": "Automatic simplification of products keeps the value", "statement": "Building a product from any operands (flattening, merging powers with equal bases, folding constants) yields an expression with the same real value at every assignment at which the operands have real values.", "quantifier": "all operand lists and all variable assignments", "why_tests_cant": "Exponent merging changes definedness at zero and negative bases; only a universal statement covers those.", "anchors": ["components/core/wf/expressions/multiplication.cc, multiplication.h: multiplication::from_operands, multiplication_parts"]}
{"id": "C15", "title": "Products do not depend on operand order", "statement": "Building a product from any permutation of the same exact operands gives the identical expression, whenever both builds succeed and every factor is a number, an atom (variable, sum, function call, conditional, ...) or a numeric power of an atom.", "quantifier": "all lists of such operands (nested products included), all permutations, all hash functions and hash-map iteration orders", "why_tests_cant": "n! permutations.", "anchors": ["components/core/wf/expressions/multiplication.cc: create_multiplication"]}
{"id": "C16", "title": "Power simplification keeps the value", "statement": "pow(base, exponent), including nested powers, powers of products, and special bases 0 and 1, returns an expression with the same real value wherever base and exponent have real values with a real power. The one exception: operands containing log of an argument classified as positive and at most one there, for which (log(x)^2)^(1/2) becomes log(x).", "quantifier": "all bases, exponents and assignments under which no positive-classified argument of a log is at most one; for log a counterexample", "why_tests_cant": "(x^a)^b = x^(ab) fails on sets of assignments a test rarely hits.", "anchors": ["components/core/wf/expressions/power.cc: power::create, pow_maybe_simplify, can_multiply_exponents"]}
{"id": "C17", "title": "The canonical ordering is a total order compatible with identity", "statement": "On NaN-free expressions with reduced rationals the ordering is antisymmetric, transitive and total (unless comparing two rationals overflows, which terminates the program), and two expressions compare equal exactly when they are identical.", "quantifier": "all pairs and triples of expressions of any depth", "why_tests_cant": "Transitivity over all triples of trees.", "anchors": ["components/core/wf/expression.cc: order_struct<scalar_expr>", "components/core/wf/utility/ordering.h: order_by, wf::lexicographical_order"]}
{"id": "C18", "title": "Derivatives are derivatives", "statement": "For every expression built from integers, rationals, constants, variables, sums, products, powers, built-in functions, comparisons, conditionals and calls of unknown functions that do not involve the variable: at every point where each part of the expression is differentiable (no function at its kink, no branch switching), diff returns an expression whose value is the derivative of the original in the calculus sense; an expression without the variable has the derivative 0.", "quantifier": "all expressions over the supported operations, all variables and all interior points", "why_tests_cant": "Numerical differentiation samples points of single expressions; the chain rule must hold at every depth.", "anchors": ["components/core/wf/derivative.cc: derivative_visitor"]}
{"id": "C19", "title": "Variable substitution is evaluation in an updated assignment", "statement": "Substituting variables gives an expression whose value under an assignment is the value of the original where the variables take the values of their replacements: all at once for a map of variables, one pair after the other for a list - for the list as long as no replacement mentions the target of a later pair, because then a list of several variables is substituted all at once although documented as in order. Targets are variables; the expression is free of floats; replacements have real values; arguments of logarithms keep the side condition that the classification of logarithms needs.", "quantifier": "all expressions, all replacement lists, all assignments", "why_tests_cant": "Ranges over all expressions and replacement maps.", "anchors": ["components/core/wf/substitute.cc: substitute_variables_visitor, substitute_visitor_base"]}
{"id": "C20", "title": "Comparisons and conditionals are simplified only when decided", "statement": "A comparison folded to true or false has that truth value under every assignment; a folded conditional has the value of the selected branch; iverson brackets likewise.", "quantifier": "all operands and assignments", "why_tests_cant": "Universally quantified over assignments.", "anchors": ["components/core/wf/expressions/relational.cc: relational::create, compare_numerics", "components/core/wf/expressions/conditional.cc", "components/core/wf/expressions/iverson_bracket"]}
{"id": "C21", "title": "Matrix shape operations place every element correctly", "statement": "transpose, block, reshape (row/column vec), horizontal, vertical and diagonal stacking and matrix product produce a matrix of the documented shape whose (i,j) element is the documented input element (or, by value, the sum of products), for every index, and reject inconsistent shapes and out-of-range indices, provided the numbers of elements involved fit in 64-bit integers.", "quantifier": "all shapes, all indices, all element types", "why_tests_cant": "Index arithmetic is over all sizes.", "anchors": ["components/core/wf/expressions/matrix.cc, matrix.h", "components/core/wf/matrix_functions.cc: hstack, vstack, diagonal_stack, vec"]}
{"id": "C22", "title": "Full-pivoting LU factorises the input", "statement": "For every matrix with at least one row and no more rows than columns the returned factors satisfy P*L*U*Q = A with P, Q permutation matrices, L unit lower triangular and U upper triangular, provided no chosen pivot is an expression that is zero without being recognised as the constant zero; other shapes are rejected.", "quantifier": "all sizes and all entries with real values, any scalar operations that compute with the values", "why_tests_cant": "Recursion over the size with data-dependent pivots.", "anchors": ["components/core/wf/matrix_functions.cc: factorize_full_piv_lu"]}
{"id": "C23", "title": "Determinant is the determinant", "statement": "The determinant returned equals the determinant (expansion along the first column) for every square size >= 1, provided (from size 4) no chosen pivot is an expression that is zero without being recognised as the constant zero; other shapes are rejected.", "quantifier": "all sizes, all entries over a field", "why_tests_cant": "Sign of row and column permutations interacts with pivot choices.", "anchors": ["components/core/wf/matrix_functions.cc: determinant, permutation_matrix::determinant"]}
{"id": "C24", "title": "Common-subexpression elimination keeps the value", "statement": "Evaluating the extracted definitions in order and then the remaining expression gives the real value of the original expression wherever its logarithms are of reals above 1 and the new variables are distinct and do not occur in it; each definition refers only to variables of the expression and to earlier definitions; the variables stand for distinct parts that occur at least min_occurrences times, and without conditionals for all of them. The default names v0, v1, ... are distinct but not checked against the names in the expression.", "quantifier": "all expressions without floats, all thresholds and assignments, all fresh variables", "why_tests_cant": "Sharing patterns are unbounded.", "anchors": ["components/core/wf/cse.cc: eliminate_subexpressions"]}
{"id": "C25", "title": "distribute() keeps the value", "statement": "For every expression that distribute() (products and integer or half-integer powers of sums multiplied out) returns a result for, the result has the same real value as the expression at every assignment at which the visited products that are zero have real factors and the visited powers that are not real have a positive exponent; with and without the cache the results and failures are the same. An exponent that becomes zero while it is distributed is rejected.", "quantifier": "all expressions and assignments", "why_tests_cant": "Term index arithmetic over all products.", "anchors": ["components/core/wf/distribute.cc: distribute_visitor"]}
{"id": "C26", "title": "collect() keeps the value", "statement": "Collecting terms by powers of given expressions gives an expression with the same value at every assignment at which the expression is real and the arguments of its logarithms are reals above 1, whatever the iteration order of the exponent map; collecting by a number is rejected; a sum becomes the terms without the collected expression plus one term for each exponent.", "quantifier": "all well-formed expressions, target lists, assignments and map orders", "why_tests_cant": "Ranges over all expressions.", "anchors": ["components/core/wf/collect.cc: collect_visitor"]}
{"id": "C27", "title": "Lowering to IR keeps the value", "statement": "Running the operations that a scalar expression is lowered to gives, over the real numbers, the value of the expression wherever it has one: for every assignment of the inputs and whatever operations do outside their domain, including inlined powers, negated coefficients, reciprocal powers, inserted casts, the initial sorting of operands and all later simplifications of the block; every requested output is written and nothing else. Scope: expressions without double constants (they only stand for themselves up to rounding), and no power with a symbolic negated exponent at base zero (b^(-t) is computed as 1/b^t).", "quantifier": "all expressions and inputs", "why_tests_cant": "Correctness of a compiler pass is over all programs.", "anchors": ["components/core/wf/code_generation/ir_form_visitor.cc"]}
{"id": "C28", "title": "Duplicate and dead code elimination keep outputs", "statement": "Merging identical operations and removing unused ones leaves the value of every output unchanged, removes only operations that no output depends on, and never leaves a dangling operand.", "quantifier": "all instruction sequences and inputs", "why_tests_cant": "All programs.", "anchors": ["components/core/wf/code_generation/control_flow_graph.cc: eliminate_duplicates, local_value_numbering, remove_if_unused"]}
{"id": "C29", "title": "Factoring sums of products keeps the value", "statement": "Factoring out common factors from a sum of products leaves its value unchanged in any commutative ring; the chosen factoring steps use disjoint sets of terms, each factored variable really divides each of its terms, and every term is accounted for exactly once.", "quantifier": "all sums of products (up to the 64-term limit) and all values", "why_tests_cant": "Search over subsets: exponentially many term/variable patterns.", "anchors": ["components/core/wf/code_generation/factorizer.cc", "components/core/wf/code_generation/control_flow_graph.cc: factorize_sum_of_products"]}
{"id": "C30", "title": "Binarisation keeps the value", "statement": "Splitting n-ary sums/products by extracting shared operand pairs leaves every operation's value unchanged and never leaves a sum or product with fewer than two operands.", "quantifier": "all operand multisets and pairs", "why_tests_cant": "Multiplicity corner cases (a+a+a) over all multisets.", "anchors": ["components/core/wf/code_generation/binarizer.cc", "components/core/wf/code_generation/ir_value.cc: replace_operand_pair"]}
{"id": "C31", "title": "Negation insertion keeps the value", "statement": "Replacing factors of -1 by a single negation leaves every product's value unchanged.", "quantifier": "all operand lists", "why_tests_cant": "Parity over unbounded lists.", "anchors": ["components/core/wf/code_generation/control_flow_graph.cc: insert_negations"]}
{"id": "C32", "title": "Reordering operations respects data dependencies", "statement": "The final order of operations in a block is a permutation of the block in which each operation follows all its operands computed in that block, and it is unique/deterministic.", "quantifier": "all acyclic operation graphs", "why_tests_cant": "Priority-queue traversals over all DAGs.", "anchors": ["components/core/wf/code_generation/control_flow_graph.cc: topological_sort_values"]}
{"id": "C33", "title": "Conversion of conditionals to branches keeps the value", "statement": "On every program without dead values the converter ends and returns a result, and with conversion of selects switched on no select is left in it. Executing the branching program from its one entry block never reads a value that was not computed and hands out each required output, and each optional output the caller asked for, exactly once with the value the straight-line program with select operations computes; every operand is computed on every way from the entry to its use, and the blocks form structured control flow with a jump at the end of exactly the blocks with two descendants.", "quantifier": "all programs in the form the flat intermediate representation produces (operands first, outputs not read), all inputs, functions and interpretations of the operations, selects converted or kept", "why_tests_cant": "Paths are exponential in nested conditionals.", "anchors": ["components/core/wf/code_generation/ir_control_flow_converter.cc"]}
{"id": "C34", "title": "Merge point of a branch", "statement": "For every control-flow graph without cycles in which two blocks have a first join (both reach it, and whatever both reach is reached only through it), the merge-point search started at them returns that join, downwards and upwards; in structured control flow that is the block behind the branch.", "quantifier": "all structured graphs", "why_tests_cant": "All graphs.", "anchors": ["components/core/wf/code_generation/ir_block.cc: find_merge_point"]}
{"id": "C35", "title": "Generated source text parses back to the expression it was printed from", "statement": "Reading the emitted C++ text of a scalar expression with the rules of C++ (longest tokens, precedence, associativity) gives exactly one expression, and its value is the value of the operation it was printed from, for all values of the operands - provided that no selection, copy or signum stands inline where an arithmetic operator or a comparison needs a tighter operand, no minus stands behind a minus, names are C++ identifiers and integer constants are above -2^63. The provisos are needed: an inline signum in a product, an inline selection in a product and a negated negation print as text that C++ reads with another value.", "quantifier": "all syntax trees / all graphs of operations, all sets of declared values, all C++ machines whose operators compute the operations", "why_tests_cant": "Missing parentheses matter only for specific parent/child pairs at specific operand values; compiles fine.", "anchors": ["components/core/wf/code_generation/ast_conversion.cc: visit_operation_argument", "components/core/wf/code_generation/ir_value.cc: operation_precedence", "components/core/wf/code_generation/cpp_code_generator.cc", "components/core/wf/enumerations.h: precedence"]}
{"id": "C36", "title": "Operation counts", "statement": "For a function with structured control flow (every branch has two arms that meet in a merge block of their own), the operation-count summary is, for each kind of operation, the largest number executed on any path; in particular it is exact for straight-line functions and its total bounds the operations of every path.", "quantifier": "all control-flow graphs", "why_tests_cant": "All paths.", "anchors": ["components/core/wf/code_generation/control_flow_graph.cc: count_all_operations", "components/core/wf/code_generation/operation_counts.h"]}
{"id": "C37", "title": "Struct flattening and member access agree", "statement": "Flattening a (nested) custom type assigns each scalar leaf exactly one flat index in 0..size-1, and the member-access path computed for a flat index leads to precisely that leaf; matrix elements map to (row, col) row-major. An object constructed from as many operands as the type has leaves has those operands as its elements; the check of the number of operands can be bypassed by an operand list that begins with an existing object.", "quantifier": "all nested custom types and all flat indices", "why_tests_cant": "Unbounded nesting.", "anchors": ["components/core/wf/code_generation/types.cc: determine_access_sequence, count_custom_type_size", "components/core/wf/code_generation/types.h: matrix_type::compute_indices"]}
{"id": "C38", "title": "Span element addressing", "statement": "Element addressing of an n-dimensional span is the dot product of indices and strides; distinct in-range indices of a row- or column-major span address distinct elements within the buffer; the element (i,j) of a block is the element of the parent at the offset indices. The example in the documentation of make_span addresses outside of its buffer.", "quantifier": "all dimensions, strides, indices", "why_tests_cant": "All sizes and indices.", "anchors": ["components/runtime/wrenfold/span.h: span::compute_index, block, make_span"]}
{"id": "C39", "title": "Repeated squaring computes the power", "statement": "The multiplications emitted for an integer power compute base^n in any monoid, and their number is logarithmic in n.", "quantifier": "all exponents and all bases", "why_tests_cant": "All exponents.", "anchors": ["components/core/wf/code_generation/ir_form_visitor.cc: exponentiate_by_squaring"]}
{"id": "C40", "title": "Numeric type promotion", "statement": "Operands of sums and products are cast to the largest numeric type among them (at least integer); the result type is independent of operand order; every sum, product, quotient, comparison, selection, square root and power receives operands of a single type and casts only go to larger types, whatever is lowered to float outputs. (Arguments of other mathematical functions are passed uncast: refuted.)", "quantifier": "all operand type lists", "why_tests_cant": "All lists.", "anchors": ["components/core/wf/code_generation/ir_form_visitor.cc: create_add_or_mul_with_operands, promote_types, maybe_cast"]}
{"id": "C41", "title": "Consumer lists", "statement": "The per-value list of consumers behaves as a bag under any sequence of fewer than 2^32 insertions and any number of removals: size, membership and iteration agree with the abstract bag, handles are unique, and slots are reused without losing entries. Beyond that the 32-bit free list breaks it.", "quantifier": "all operation histories with fewer than 2^32 insertions", "why_tests_cant": "Slot reuse orders over all histories.", "anchors": ["components/core/wf/code_generation/ir_consumer_vector.h: consumer_vector"]}
{"id": "C42", "title": "Stack allocator never hands out overlapping memory", "statement": "Blocks returned by the arena allocator lie inside the buffer, are aligned and pairwise disjoint while live, under every history of allocations and deallocations with request sizes that do not wrap; every block is given back to the allocator it came from; freeing in stack order returns the arena to its initial state. Requests near 2^64 bytes wrap and give overlapping blocks.", "quantifier": "all histories whose requests, in bytes, do not wrap around the address space", "why_tests_cant": "All histories.", "anchors": ["components/core/wf/utility/stack_allocator.h"]}
{"id": "C43", "title": "Sorted-range utilities", "statement": "unique_and_extract_duplicates splits every range whose equal elements are adjacent into its distinct elements (kept in order) and the surplus copies (in order), and loses nothing; iterating a bitset_range with pre-increment visits exactly the set bits in increasing order; with post-increment it does not.", "quantifier": "all sorted ranges", "why_tests_cant": "All ranges.", "anchors": ["components/core/wf/utility/algorithms.h: unique_and_extract_duplicates", "components/core/wf/utility/bitset_range.h: const_iterator"]}
{"id": "C44", "title": "Quaternion algebra", "statement": "Quaternion multiplication is associative with multiplicative norm; the rotation matrix of a unit quaternion is orthogonal with determinant one, agrees with rotating a vector by conjugation, composes with multiplication; conversion from a rotation matrix gives back a quaternion for that rotation in every branch; inverse, angle-axis likewise.", "quantifier": "all real quaternions, vectors, angles, rotation matrices", "why_tests_cant": "Continuum of inputs with four branch regions.", "anchors": ["components/core/wf/geometry/quaternion.cc"]}
{"id": "C45", "title": "Repeated differentiation and Jacobians", "statement": "diff with repetition count n applies differentiation n times; derivatives of unevaluated derivatives merge their order; the (i,j) element of a jacobian is the derivative of function i by variable j.", "quantifier": "all counts, functions, variables", "why_tests_cant": "All n and shapes.", "anchors": ["components/core/wf/derivative.cc", "components/core/wf/expressions/derivative_expression.cc"]}
{"id": "C46", "title": "Sign, absolute value, floor, min and max folding", "statement": "Folding sign/abs/floor/min/max of constants and of recognised forms gives the exact real value.", "quantifier": "all integers, rationals, and recognised forms under all assignments", "why_tests_cant": "Negative non-integers and boundary values.", "anchors": ["components/core/wf/functions.cc: abs, signum, floor, max, min"]}
{"id": "C47", "title": "Powers of the imaginary unit", "statement": "i raised to an integer n simplifies to 1, i, -1 or -i according to n mod 4, for negative n too.", "quantifier": "all 64-bit integers", "why_tests_cant": "All residues and signs.", "anchors": ["components/core/wf/expressions/power.cc: imaginary_unit_power"]}
{"id": "C48", "title": "Memoised traversal equals plain traversal", "statement": "Caching results per subexpression during a traversal never changes the result.", "quantifier": "all expressions and all traversal functions", "why_tests_cant": "Cache contents depend on history.", "anchors": ["components/core/wf/expression_cache.h: get_or_insert"]}
{"id": "C49", "title": "Statements do what the control flow graph does", "statement": "The declarations, assignments, if-else and output statements written for a function with branches hand out the same outputs, in the same order and with the same values, as executing its control flow graph. No variable is read before it has a value, declared twice in a scope, or assigned outside its scope. Writing them ends without a failed assertion on every such function whose operations can be written.", "quantifier": "all control flow graphs with structured branches, all argument values, all sets of requested optional outputs, all meanings of the operations", "why_tests_cant": "Placement of declarations and inlining depend on the number and kind of consumers across nested branches; a wrong placement shows only on particular branch combinations.", "anchors": ["components/core/wf/code_generation/ast_conversion.cc: process_block, handle_control_flow, push_back_conditional_output_declarations, push_back_output_operations, find_conditional_output_values"]}
{"id": "C50", "title": "Generated statements give back the values of the expressions", "statement": "Transpiling a function description hands out, for every output that the caller asked for, the value of its expression (where the expression has a real value), once and nothing else: lowering, simplification, conversion of selects to branches and writing of statements together never lose, duplicate or change an output. Transpiling ends without a failed assertion whenever the expressions can be lowered, and the statements declare every variable once before it is used.", "quantifier": "all function descriptions with scalar outputs, all argument values, all sets of requested optional outputs, all numbers of simplification passes, with and without binarization and conversion of selects", "why_tests_cant": "Each stage is tested on selected functions; the interaction of stages (values shared by branches and optional outputs, casts merged with constants, factored sums) has unboundedly many shapes.", "anchors": ["components/wrapper/pywrenfold/codegen_wrapper.cc: transpile_to_ast", "components/core/wf/code_generation/control_flow_graph.cc: control_flow_graph constructor, apply_simplifications, convert_conditionals_to_control_flow", "components/core/wf/code_generation/ast_conversion.cc: create_ast"]}
{"id": "C51", "title": "Generated code computes nothing twice", "statement": "The statements generated for a function contain no more additions, multiplications, divisions, negations, comparisons, selections and calls than its intermediate program has operations: every operation is written at most once, in the declaration of a temporary or at the place of its only use, whatever branches and optional outputs there are. (As long as no computed value is at the same time the result of a branch and an operand of another operation; with such a value the generator does repeat the computation.)", "quantifier": "all programs with structured branches that can be written as statements, and all programs with selects that the converter accepts", "why_tests_cant": "Tests compare the values of generated functions, which do not change when an expression is written twice; whether a value gets a temporary depends on all its uses in all branches.", "anchors": ["components/core/wf/code_generation/ast_conversion.cc: ast_form_visitor::process_block, find_conditional_output_values, should_inline_constant, visit_operation_argument"]}
{"id": "C52", "title": "The text of an expression is read back as the same value", "statement": "str(e) never misrepresents an expression: read by the rules of the Python language (precedence, left-to-right operators, '**' binding tighter than a sign on its left, calls, subscripts, attributes), the printed text has exactly one reading, and at every assignment where the expression has a real value the reading has the same real value. Hence two expressions that print the same have the same value. (For expressions whose variables and functions have identifiers as names, whose powers with symbolic negative exponents have nonzero bases.)", "quantifier": "all expressions the constructors build (sums, products, quotients, powers, relations, conditionals, calls, elements of arguments and custom types), all assignments of reals to variables", "why_tests_cant": "The existing tests compare strings of some dozens of expressions with expected strings; missing parentheses show only for particular nestings of sums, signs, quotients and powers.", "anchors": ["components/core/wf/plain_formatter.cc: plain_formatter::operator(), format_precedence, format_power", "components/core/wf/expression.cc: get_precedence", "components/core/wf/expressions/multiplication.cc: get_formatting_info"]}
{"id": "C53", "title": "Generated Python expressions are read as the expressions they were written from", "statement": "For every target library (numpy, pytorch, jax) and float width, the Python text that PythonGenerator writes for an expression has exactly one reading under the rules of the Python language, and what Python computes for that reading is the value that the operation has: sums, products, quotients, signs, comparisons, selections, conversions, library and external calls, elements and fields, literals and constants keep their operands. No restriction on nesting is needed (signs of signs, selections and signum inside arithmetic included), except that comparisons are not compared with each other: 'a < b < c' is a chain in Python.", "quantifier": "all syntax trees over the scalar expressions, all graphs of operations that the converter can turn into a tree, all values of the operands, all machines in which the operators and library functions compute what they are used for", "why_tests_cant": "Tests run the generated code of some dozens of functions on a few inputs; a missing parenthesis only shows for particular nestings of operators, and for pytorch and jax only some of the tests are run at all.", "anchors": ["components/core/wf/code_generation/python_code_generator.cc: python_code_generator::operator(), format_scalar_type_cast, python_string_from_std_math_function", "components/core/wf/code_generation/ast_conversion.cc: visit_operation_argument", "components/core/wf/code_generation/ir_value.cc: operation_precedence"]}
{"id": "C54", "title": "Generated Rust expressions are read as the expressions they were written from", "statement": "The Rust text that RustGenerator writes for an expression has at most one reading under the rules of the Rust language (casts with 'as' bind tighter than products and looser than signs, comparisons do not chain, '<' behind the type of a cast opens type arguments, a method is not a called field), and whenever the operations of a block keep to the documented pairs (no signum behind the first operand of a sum or inside a product, quotient or sign, no cast behind a minus sign, nothing ending in a cast inside signum, no operator behind '&') it has one, and what Rust computes for it is the value that the operation has.", "quantifier": "all syntax trees over the scalar expressions, all graphs of operations that the converter can turn into a tree, all choices of borrowed parameters, all values of the operands, all machines in which the operators and methods compute what they are used for", "why_tests_cant": "The Rust tests compile and run a fixed list of functions; which nestings of casts, signs and comparisons need parentheses is a property of all trees, and several that do occur in user expressions (2*sign(x), -(x<y), sign(floor(x))) are in none of the tests.", "anchors": ["components/core/wf/code_generation/rust_code_generator.cc: rust_code_generator::operator()", "components/core/wf/code_generation/ast_conversion.cc: visit_operation_argument", "components/core/wf/code_generation/ir_value.cc: operation_precedence"]}
{"id": "C55", "title": "Generated C++ function bodies are read as the statements they were written from", "statement": "The text that CppGenerator writes for the body of a function has exactly one reading as C++ statements: the declarations, assignments, writes to outputs, returns and branches of the syntax tree, in the same order and nesting (indentation and line breaks change nothing, every else belongs to the branch it was written for), and each expression in it has the value that the tree stands for. Temporaries declared with a value are constants, optional outputs are tested before they are written through a pointer. This holds for all statements that the converter writes for a function whose operations keep to the documented pairs of C35.", "quantifier": "all lists of statements with nested branches, all functions the converter can turn into statements, all machines in which the operators compute what they are used for", "why_tests_cant": "Tests compile a fixed list of functions; that nesting, indentation and the dangling else can never change what is read is a property of all trees of statements.", "anchors": ["components/core/wf/code_generation/cpp_code_generator.cc: cpp_code_generator::operator()", "components/core/wf/utility/strings.h: join_and_indent", "components/core/wf/code_generation/ast_conversion.cc: ast_form_visitor"]}
{"id": "C56", "title": "Generated Rust function bodies are read as the statements they were written from", "statement": "The text that RustGenerator writes for the body of a function has exactly one reading as Rust statements and a value at the end: the bindings, assignments, writes through output references and branches of the syntax tree, in the same order and nesting, and then the returned expression if there is one; each expression in it has the value that the tree stands for. Optional outputs are unpacked before they are written. The converter returns in the last statement only and in no branch, so a return without a keyword is always where Rust takes it for the value of the function. This holds for all statements that the converter writes for a function whose selections have become branches and whose operations keep to the documented pairs of C54; with selections left in place there are functions whose text is no body.", "quantifier": "all lists of statements with nested branches, all functions the converter can turn into statements, all machines in which the operators and methods compute what they are used for", "why_tests_cant": "Tests compile a fixed list of functions; that a value without return is never written inside a branch or before another statement, and never swallowed by a preceding branch, is a property of all trees of statements.", "anchors": ["components/core/wf/code_generation/rust_code_generator.cc: rust_code_generator::operator()", "components/core/wf/utility/strings.h: join_and_indent", "components/core/wf/code_generation/ast_conversion.cc: ast_form_visitor"]}
{"id": "C57", "title": "Generated Python function bodies are read as the statements they were written from", "statement": "The text that PythonGenerator writes for the body of a function has exactly one reading as Python statements: the assignments and branches of the syntax tree, in the same order and nesting, each with its own indentation, and then a return of the value of the function if there is one, followed by the outputs, as a tuple if there is more than one. Each expression in it has the value that the tree stands for; variables that are declared without a value, and optional outputs that are not asked for, are None. A generator without indentation is refused, and so are functions that return in a branch or before their last statement. This holds for numpy, torch and jax and all statements that the converter writes for a function whose operations keep to the documented pairs of C53 and whose branches have statements.", "quantifier": "all lists of statements with nested branches, all widths of indentation, all functions the converter can turn into statements, all machines in which operators and library functions compute what they are used for", "why_tests_cant": "Tests run a fixed list of functions; that indentation is right at every depth of nesting, that no expression breaks a line, and that a blank line at the end of a branch never ends a block, is a property of all trees of statements.", "anchors": ["components/core/wf/code_generation/python_code_generator.cc: python_code_generator::operator()", "components/core/wf/utility/strings.h: join_and_indent", "components/core/wf/code_generation/ast_conversion.cc: ast_form_visitor"]}
{"id": "C58", "title": "Running generated Python returns what the function computes", "statement": "Reading the text that PythonGenerator writes for the body of a function as Python and running it returns the value of the function, if there is one, followed by its outputs in the order of the signature, each being the last value the function gives to it; all but the optional outputs that the caller did not ask for. Python has one scope per function where the syntax tree has nested ones, variables declared without a value start as None, and skipped optional outputs are assigned None: none of this changes what is returned. For functions whose selections became branches, the values are those of the program before branches were made.", "quantifier": "all lists of statements with nested branches, all inputs, all widths of indentation, all machines in which operators and library functions compute what they are used for, whatever None is taken for", "why_tests_cant": "Tests call a fixed list of functions with a few arguments; that no branch leaks a variable into another one, and that no output is overwritten, is a property of all statements and all paths through them.", "anchors": ["components/core/wf/code_generation/python_code_generator.cc: python_code_generator::operator()", "components/core/wf/code_generation/ast_conversion.cc: ast_form_visitor", "components/core/wf/code_generation/control_flow_graph.cc: control_flow_graph::convert_conditionals_to_control_flow"]}
