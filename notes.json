{
"C01": {
"note": "Every checked_int operator; exact or throws, for all 64-bit operands."
},
"C02": {
"status": "proved",
"note": "Every 64-bit input is covered by C02_factors; C02_no_overflow_refuted exhibits a prime for which the multiplication in the loop condition overflows (finding F1)."
},
"C03": {
"note": "Result exact or throws; never overflows when the result of every needed square fits."
},
"C04": {
"status": "proved",
"note": "All 64-bit arguments: exact for all but INT64_MIN, where std::gcd is undefined (F2, C04_make_refuted); zero denominators are accepted (F3, C04_zero_denominator)."
},
"C05": {
"status": "proved",
"note": "Complete case distinction for all canonical operands. Refuted: exact or throws (C05_exact_or_throws_refuted, F2), rejection of zero divisors (C05_div_zero_refuted, F3), the remainder as a - b*trunc(a/b) (C05_rem_is_remainder_refuted, F4)."
},
"C06": {
"status": "proved",
"note": "All pairs; C06_order_total_refuted exhibits two valid constants whose comparison terminates the process (F5)."
},
"C08": {
"note": "All canonical inputs; overflow is impossible."
},
"C07": {
"note": "All 64-bit integers and all binary64 values including infinities, NaN and subnormals."
},
"C37": {
"status": "proved",
"note": "Arbitrary nesting of matrices and structs. C37_arity_refuted: too few operands are accepted when they are the first elements of an existing object (F7)."
},
"C38": {
"status": "proved",
"note": "Any number of dimensions; C38_documented_example_refuted is about the 4x6 example in the header comment (F6)."
},
"C41": {
"status": "proved",
"note": "C41_unbounded_refuted shows that the bound is needed (F8)."
},
"C42": {
"status": "proved",
"note": "C42_huge_request_refuted shows that the bound on requests is needed (F9)."
},
"C43": {
"status": "proved",
"note": "C43_bitset_post_increment_refuted: post-increment also stops at clear bits (F10)."
},
"C28": {
"note": "All straight-line programs without phi functions, in every commutative-ring interpretation; other operations arbitrary."
},
"C29": {
"status": "proved",
"note": "The search and its application to every sum of a block, for every program; all commutative rings."
},
"C32": {
"note": "All acyclic blocks; the assertion that all operations are reached never fails."
},
"C30": {
"status": "proved",
"note": "Termination, outputs and at least two operands, for every program; all commutative rings."
},
"C31": {
"status": "proved",
"note": "The negation pass and the whole sequence of simplifications keep every output; all commutative rings."
},
"C10": {
"status": "proved",
"note": "All 64-bit integer and canonical rational bases and exponents; the result has the value of the real power."
},
"C11": {
"status": "proved",
"note": "Sound for all expressions in which log is not applied to a positive-classified argument; C11_log_refuted shows the exception is real (finding F11)."
},
"C12": {
"status": "proved",
"note": "All operand lists, hash functions and map iteration orders; the result also refines the extended (complex-aware) value. Depth of recursion is irrelevant."
},
"C14": {
"status": "proved",
"note": "All operand lists, hash functions and map iteration orders; from_operands, from_two_operands and division."
},
"C16": {
"status": "proved",
"note": "All operands without log of a positive-classified argument; C16_log_refuted shows the exception is real (finding F11)."
},
"C47": {
"status": "proved",
"note": "All 64-bit integers; also the phase of rational powers."
},
"C13": {
"status": "proved",
"note": "Two refutations delimit it: C13_overflow_refuted (whether the sum can be built depends on the order) and C13_float_refuted (doubles)."
},
"C15": {
"status": "proved",
"note": "C15_order_refuted: with powers of powers as factors the result does depend on the order."
},
"C17": {
"status": "proved",
"note": "C17_nan_refuted: a NaN constant breaks the order."
},
"C09": {
"status": "proved",
"note": "cos, sin and tan of every 64-bit rational multiple of pi have the exact real value under every assignment; multiples of pi/2 are folded to integers; tan is complex infinity iff the cosine vanishes. All other built-in calls are covered by C09_functions_keep_value (doubles carry no value in this semantics)."
},
"C20": {
"status": "proved",
"note": "Comparisons over exact operands agree with the real order under every assignment; doubles and mixed integer/double comparisons agree with the exact order of the numbers denoted; conditionals and iverson brackets follow."
},
"C46": {
"status": "proved",
"note": "abs, sign, floor, min and max agree with the real functions for all well-formed arguments; floor and sign of doubles are exact; floor of a double outside the 64-bit range is undefined behaviour (refuted)."
},
"C18": {
"status": "proved",
"note": "Any depth, any cache state, both non-differentiable behaviours. The points are those where every part has a real value and is differentiable (smooth in DerivSpec.v); logarithms introduced by the power rule need the side condition logs_ok because of the number-set defect in C11_log_refuted. Floats, derivatives of unknown functions of the variable and unevaluated substitutions are modelled but not given a value here."
},
"C45": {
"status": "proved",
"note": "Repetition: every intermediate result is a derivative of its predecessor, with the cache shared between repetitions, as long as no float constants arise. Orders merge; a function known by name gets a single node of order n. Jacobian for any number of functions and variables."
},
"C19": {
"status": "proved",
"note": "C19_simultaneous, C19_single, C19_in_order and C19_substitute (the whole function); C19_order_refuted shows that the condition on replacements is needed (F12). Substitution of targets other than variables is not modelled."
},
"C48": {
"status": "proved",
"note": "Generic in the visitor: any traversal that asks for results of subexpressions and combines them, any order of questions, any cache content that is consistent; then the concrete rebuilding visitor with its cache."
},
"C44": {
"status": "proved",
"note": "Over the real values of the components. Multiplication, norm, inverse, rotation matrices (SO(3), composition, conjugation), Sheppard's conversion in all four branches, angle-axis and rotation vectors both ways with both formulas and the small-angle forms, left jacobian as the integral of rotations and its inverse. The inverse needs sin(angle) <> 0: at angle pi the code divides zero by zero. Not modelled: right_retract_derivative and right_local_coordinates_derivative."
},
"C21": {
"status": "proved",
"note": "Elements of any type; values through the scalar operations, instantiated for expressions (C21_expression_elements). C21_reshape_refuted shows that the shape check modulo 2^64 lets an empty matrix be reshaped to 2^32 x 2^32."
},
"C22": {
"status": "proved",
"note": "Over abstract element operations; sizes with cols*cols in 64 bits."
},
"C23": {
"status": "proved",
"note": "Spec is the cofactor expansion along the first column."
},
"C27": {
"status": "proved",
"note": "Real-number semantics (no rounding or overflow), scalar outputs; matrices, custom types and external functions not modelled."
},
"C39": {
"status": "proved",
"note": "Exact count and the bound 2*log2 n, in every monoid."
},
"C40": {
"status": "proved",
"note": "one_type holds for sums, products, quotients, comparisons, selects, sqrt, pow and casts; C40_call_refuted: arguments of other functions are not cast."
},
"C26": {
"status": "proved",
"note": "Real-valued semantics; logarithm arguments are required to be above 1 because log of a positive number is classified as positive (finding F11a)."
},
"C24": {
"status": "proved",
"note": "Scalar expressions. C24_names_refuted: with the default names an expression that already has a variable v0 gets a wrong result (finding F18)."
},
"C25": {
"status": "proved",
"note": "Value and cache proved; a power whose exponent distributes to zero throws (C25_zero_exponent_refuted, F13). The number of terms of the result is not claimed."
},
"C34": {
"status": "proved",
"note": "find_merge_point, both directions; join defined by reachability alone."
},
"C36": {
"status": "proved",
"note": "Exact worst case per kind over all paths of structured acyclic graphs; C36_shared_merge_refuted shows why every branch needs its own merge block (the converter provides one)."
},
"C33": {
"status": "proved",
"note": "C33_total needs a program without dead values, which is what the simplifications leave behind (C31_simplifications_keep_outputs); C33_total_dead is a program with dead values on which the last check of the converter throws. Everything else is proved for any program on which the converter returns."
},
"C35": {
"status": "proved",
"note": "Scalar expressions of the C++ generator; constructors of matrices and structs and user overrides are not modelled; the text of a double is a parameter. C35_signum_refuted, C35_select_refuted and C35_double_minus_refuted show where the generator leaves out parentheses that C++ needs."
},
"C49": {
"status": "proved",
"note": "C49_statements is stated for graphs with the structure the conversion produces (record branching: structured region, operands computed on all ways, phi operands from the two blocks in front). C49_converted discharges that record for every program the conversion of selects accepts and ties the statements to the program with selects; it assumes that the program returns at most once and does not itself ask for optional outputs. C49_total and C49_converted_total show that statements are written at all: on every graph of that structure whose operations have a form (record writable), and for every program with selects without dead values whose own operations have one (no element access of compound values, outputs that are scalars in the signature)."
},
"C50": {
"status": "proved",
"note": "C50_branches: passes and conversion keep the outputs of any typed program. C50_statements: and so do the statements, in every reading of the target language that agrees with the operations (interprets) with names apart from temporaries (apart; C50_names_refuted shows it is needed). C50_expressions: from expressions, the outputs are their real values (means: rounding and overflow are outside the semantics; no doubles in the expressions and no base zero under a symbolic negative exponent). Scalar outputs only."
},
"C51": {
"status": "proved",
"note": "C51_once: for programs with branches. C51_converted: counted against the operations of the program with selects. Both under not_shared (no computed value is at once an operand of a phi function and of another operation); C51_shared_refuted shows that the generator repeats the computation otherwise. Conversions of constants are not counted."
},
"C52": {
"status": "proved",
"note": "Specification: Python tokens and the expression grammar of the Python reference (PySpec.v), proved unambiguous with a parser (PyParse.v). Conditions: names are identifiers that stand for the values of the variables (also elements of matrix and custom-type arguments), doubles are written by fmt as numbers or words with a sign iff the sign bit is set, powers with negative exponents are not complex and those with symbolic ones have nonzero bases (C52_pole_refuted, C52_negative_zero_refuted). Doubles evaluate to anything. Left out: matrices, compound expressions."
},
"C53": {
"status": "proved",
"note": "Expressions only; statements and signatures of the Python generator are not modelled. C53_comparisons_refuted: comparisons of comparisons, which expressions cannot contain, would be read as a chain."
},
"C54": {
"status": "proved",
"note": "Scalar expressions of the Rust generator; statements, signatures, constructors of matrices and structs and user overrides are not modelled; the text of a double is a parameter, and types are not checked. C54_signum_refuted, C54_minus_cast_refuted and C54_sign_of_cast_refuted show where the generator leaves out parentheses that Rust needs."
},
"C55": {
"status": "proved",
"note": "For scalar inputs and outputs. The text of the types is a parameter that has to be a name; signature, spans, matrix and struct outputs are not modelled. C55_converted asks the pairs of operations of all values, also of those that get a variable."
},
"C56": {
"status": "proved",
"note": "Unique reading of the Rust text of statements (C56_unambiguous), the text written for statements is read as those statements (C56_body), returns are last and in no branch (C56_returns_last), for everything the converter writes without selections (C56_converted); unconverted selections refuted (C56_selection_refuted, F27). Types, borrows and signatures are not modelled."
},
"C57": {
"status": "proved",
"note": "For functions that return their outputs (use_output_arguments=false). Branches of the converted function are assumed to have statements (an Example shows that this is needed); signature, conversion of arguments, matrix and struct outputs and comments are not modelled."
},
"C58": {
"status": "proved",
"note": "For functions that return their outputs (use_output_arguments=false), on the statements and text of C57. Names of temporaries, outputs, arguments, called functions and the module are assumed to differ; what is returned for an optional output that was not asked for is left open; nothing is raised."
}
}