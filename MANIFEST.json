{
 "claims": [
  {
   "property": "C01",
   "status": "proved",
   "theorems": [
    "C01_neg",
    "C01_mul",
    "C01_div",
    "C01_rem",
    "C01_trunc",
    "C01_add",
    "C01_sub",
    "C01_abs",
    "C01_gcd",
    "C01_is_even"
   ],
   "note": "Every checked_int operator; exact or throws, for all 64-bit operands."
  },
  {
   "property": "C02",
   "status": "proved",
   "theorems": [
    "C02_wheel",
    "C02_factors",
    "C02_no_overflow_refuted"
   ],
   "note": "Every 64-bit input is covered by C02_factors; C02_no_overflow_refuted exhibits a prime for which the multiplication in the loop condition overflows (finding F1)."
  },
  {
   "property": "C03",
   "status": "proved",
   "theorems": [
    "C03_integer_power"
   ],
   "note": "Result exact or throws; never overflows when the result of every needed square fits."
  },
  {
   "property": "C04",
   "status": "proved",
   "theorems": [
    "C04_make",
    "C04_make_refuted",
    "C04_zero_denominator",
    "C04_unique",
    "C04_idempotent",
    "C04_try_convert_to_integer",
    "C04_normalized"
   ],
   "note": "All 64-bit arguments: exact for all but INT64_MIN, where std::gcd is undefined (F2, C04_make_refuted); zero denominators are accepted (F3, C04_zero_denominator)."
  },
  {
   "property": "C05",
   "status": "proved",
   "theorems": [
    "C05_add",
    "C05_sub",
    "C05_mul",
    "C05_div",
    "C05_div_zero_refuted",
    "C05_div_zero",
    "C05_exact_or_throws_refuted",
    "C05_rem",
    "C05_rem_is_remainder_refuted"
   ],
   "note": "Complete case distinction for all canonical operands. Refuted: exact or throws (C05_exact_or_throws_refuted, F2), rejection of zero divisors (C05_div_zero_refuted, F3), the remainder as a - b*trunc(a/b) (C05_rem_is_remainder_refuted, F4)."
  },
  {
   "property": "C06",
   "status": "proved",
   "theorems": [
    "C06_int_order",
    "C06_identity",
    "C06_order",
    "C06_order_total_refuted"
   ],
   "note": "All pairs; C06_order_total_refuted exhibits two valid constants whose comparison terminates the process (F5)."
  },
  {
   "property": "C07",
   "status": "proved",
   "theorems": [
    "C07_compare_int_float"
   ],
   "note": "All 64-bit integers and all binary64 values including infinities, NaN and subnormals."
  },
  {
   "property": "C08",
   "status": "proved",
   "theorems": [
    "C08_mod_pi"
   ],
   "note": "All canonical inputs; overflow is impossible."
  },
  {
   "property": "C09",
   "status": "proved",
   "theorems": [
    "C09_cos_exact",
    "C09_sin_exact",
    "C09_tan_exact",
    "C09_quarter_turns_folded",
    "C09_tan_pole",
    "C09_functions_keep_value",
    "C09_log_keeps_value"
   ],
   "note": "cos, sin and tan of every 64-bit rational multiple of pi have the exact real value under every assignment; multiples of pi/2 are folded to integers; tan is complex infinity iff the cosine vanishes. All other built-in calls are covered by C09_functions_keep_value (doubles carry no value in this semantics)."
  },
  {
   "property": "C10",
   "status": "proved",
   "theorems": [
    "C10_numeric_power_keeps_value"
   ],
   "note": "All 64-bit integer and canonical rational bases and exponents; the result has the value of the real power."
  },
  {
   "property": "C11",
   "status": "proved",
   "theorems": [
    "C11_number_set_sound",
    "C11_log_refuted"
   ],
   "note": "Sound for all expressions in which log is not applied to a positive-classified argument; C11_log_refuted shows the exception is real (finding F11)."
  },
  {
   "property": "C12",
   "status": "proved",
   "theorems": [
    "C12_sum_keeps_value",
    "C12_sum_refines",
    "C12_difference_keeps_value",
    "C12_depth_irrelevant"
   ],
   "note": "All operand lists, hash functions and map iteration orders; the result also refines the extended (complex-aware) value. Depth of recursion is irrelevant."
  },
  {
   "property": "C13",
   "status": "proved",
   "theorems": [
    "C13_order_independent",
    "C13_overflow_refuted",
    "C13_float_refuted"
   ],
   "note": "Two refutations delimit it: C13_overflow_refuted (whether the sum can be built depends on the order) and C13_float_refuted (doubles)."
  },
  {
   "property": "C14",
   "status": "proved",
   "theorems": [
    "C14_product_keeps_value",
    "C14_product_refines",
    "C14_two_factors_keep_value",
    "C14_quotient_keeps_value",
    "C14_depth_irrelevant"
   ],
   "note": "All operand lists, hash functions and map iteration orders; from_operands, from_two_operands and division."
  },
  {
   "property": "C15",
   "status": "proved",
   "theorems": [
    "C15_order_independent",
    "C15_order_refuted"
   ],
   "note": "C15_order_refuted: with powers of powers as factors the result does depend on the order."
  },
  {
   "property": "C16",
   "status": "proved",
   "theorems": [
    "C16_power_keeps_value",
    "C16_power_refines",
    "C16_depth_irrelevant",
    "C16_log_refuted"
   ],
   "note": "All operands without log of a positive-classified argument; C16_log_refuted shows the exception is real (finding F11)."
  },
  {
   "property": "C17",
   "status": "proved",
   "theorems": [
    "C17_total",
    "C17_antisymmetric",
    "C17_transitive",
    "C17_equal_is_identical",
    "C17_nan_refuted",
    "C17_sort_total"
   ],
   "note": "C17_nan_refuted: a NaN constant breaks the order."
  },
  {
   "property": "C18",
   "status": "proved",
   "theorems": [
    "C18_derivative",
    "C18_constant_is_zero",
    "C18_well_formed",
    "C18_argument"
   ],
   "note": "Any depth, any cache state, both non-differentiable behaviours. The points are those where every part has a real value and is differentiable (smooth in DerivSpec.v); logarithms introduced by the power rule need the side condition logs_ok because of the number-set defect in C11_log_refuted. Floats, derivatives of unknown functions of the variable and unevaluated substitutions are modelled but not given a value here."
  },
  {
   "property": "C19",
   "status": "proved",
   "theorems": [
    "C19_simultaneous",
    "C19_single",
    "C19_in_order",
    "C19_substitute",
    "C19_order_refuted"
   ],
   "note": "C19_simultaneous, C19_single, C19_in_order and C19_substitute (the whole function); C19_order_refuted shows that the condition on replacements is needed (F12). Substitution of targets other than variables is not modelled."
  },
  {
   "property": "C20",
   "status": "proved",
   "theorems": [
    "C20_comparison_exact",
    "C20_comparison_folded",
    "C20_double_comparison",
    "C20_integer_double_comparison",
    "C20_conditional_exact",
    "C20_iverson_exact"
   ],
   "note": "Comparisons over exact operands agree with the real order under every assignment; doubles and mixed integer/double comparisons agree with the exact order of the numbers denoted; conditionals and iverson brackets follow."
  },
  {
   "property": "C21",
   "status": "proved",
   "theorems": [
    "C21_expression_elements",
    "C21_elements",
    "C21_construction",
    "C21_transpose",
    "C21_block",
    "C21_reshape",
    "C21_reshape_refuted",
    "C21_stacking",
    "C21_stacking_rejects",
    "C21_constructors",
    "C21_product",
    "C21_elementwise"
   ],
   "note": "Elements of any type; values through the scalar operations, instantiated for expressions (C21_expression_elements). C21_reshape_refuted shows that the shape check modulo 2^64 lets an empty matrix be reshaped to 2^32 x 2^32."
  },
  {
   "property": "C22",
   "status": "proved",
   "theorems": [
    "C22_factorisation",
    "C22_total"
   ],
   "note": "Over abstract element operations; sizes with cols*cols in 64 bits."
  },
  {
   "property": "C23",
   "status": "proved",
   "theorems": [
    "C23_determinant",
    "C23_rejects"
   ],
   "note": "Spec is the cofactor expansion along the first column."
  },
  {
   "property": "C24",
   "status": "proved",
   "theorems": [
    "C24_scope",
    "C24_definitions",
    "C24_value",
    "C24_default_variables",
    "C24_names_refuted"
   ],
   "note": "Scalar expressions. C24_names_refuted: with the default names an expression that already has a variable v0 gets a wrong result (finding F18)."
  },
  {
   "property": "C25",
   "status": "proved",
   "theorems": [
    "C25_value",
    "C25_cached",
    "C25_zero_exponent_refuted"
   ],
   "note": "Value and cache proved; a power whose exponent distributes to zero throws (C25_zero_exponent_refuted, F13). The number of terms of the result is not claimed."
  },
  {
   "property": "C26",
   "status": "proved",
   "theorems": [
    "C26_collect",
    "C26_numbers_rejected",
    "C26_one_term_per_exponent"
   ],
   "note": "Real-valued semantics; logarithm arguments are required to be above 1 because log of a positive number is classified as positive (finding F11a)."
  },
  {
   "property": "C27",
   "status": "proved",
   "theorems": [
    "C27_lowering",
    "C27_inputs_exist",
    "C27_sorting",
    "C27_outputs",
    "C27_simplified_outputs"
   ],
   "note": "Real-number semantics (no rounding or overflow), scalar outputs; matrices, custom types and external functions not modelled."
  },
  {
   "property": "C28",
   "status": "proved",
   "theorems": [
    "C28_programs_exist",
    "C28_programs_run",
    "C28_eliminate_duplicates",
    "C28_remove_unused",
    "C28_eliminate_copies"
   ],
   "note": "All straight-line programs without phi functions, in every commutative-ring interpretation; other operations arbitrary."
  },
  {
   "property": "C29",
   "status": "proved",
   "theorems": [
    "C29_ranked_factorizations",
    "C29_only_factorable",
    "C29_too_large",
    "C29_unfactored_terms",
    "C29_factorize_block_keeps_outputs",
    "C29_factorize_rounds_keep_outputs",
    "C29_merge_products"
   ],
   "note": "The search and its application to every sum of a block, for every program; all commutative rings."
  },
  {
   "property": "C30",
   "status": "proved",
   "theorems": [
    "C30_binarize_keeps_outputs"
   ],
   "note": "Termination, outputs and at least two operands, for every program; all commutative rings."
  },
  {
   "property": "C31",
   "status": "proved",
   "theorems": [
    "C31_negations_keep_outputs",
    "C31_simplifications_keep_outputs"
   ],
   "note": "The negation pass and the whole sequence of simplifications keep every output; all commutative rings."
  },
  {
   "property": "C32",
   "status": "proved",
   "theorems": [
    "C32_topological_sort",
    "C32_order_is_canonical",
    "C32_same_outputs"
   ],
   "note": "All acyclic blocks; the assertion that all operations are reached never fails."
  },
  {
   "property": "C33",
   "status": "proved",
   "theorems": [
    "C33_value",
    "C33_defined",
    "C33_structured",
    "C33_total",
    "C33_no_selects"
   ],
   "note": "C33_total needs a program without dead values, which is what the simplifications leave behind (C31_simplifications_keep_outputs); C33_total_dead is a program with dead values on which the last check of the converter throws. Everything else is proved for any program on which the converter returns."
  },
  {
   "property": "C34",
   "status": "proved",
   "theorems": [
    "C34_merge_sound",
    "C34_merge_downwards",
    "C34_merge_upwards",
    "C34_structured"
   ],
   "note": "find_merge_point, both directions; join defined by reachability alone."
  },
  {
   "property": "C35",
   "status": "proved",
   "theorems": [
    "C35_unambiguous",
    "C35_text",
    "C35_value",
    "C35_signum_refuted",
    "C35_select_refuted",
    "C35_double_minus_refuted"
   ],
   "note": "Scalar expressions of the C++ generator; constructors of matrices and structs and user overrides are not modelled; the text of a double is a parameter. C35_signum_refuted, C35_select_refuted and C35_double_minus_refuted show where the generator leaves out parentheses that C++ needs."
  },
  {
   "property": "C36",
   "status": "proved",
   "theorems": [
    "C36_worst_case",
    "C36_total",
    "C36_straight_line",
    "C36_shared_merge_refuted",
    "C36_converted"
   ],
   "note": "Exact worst case per kind over all paths of structured acyclic graphs; C36_shared_merge_refuted shows why every branch needs its own merge block (the converter provides one)."
  },
  {
   "property": "C37",
   "status": "proved",
   "theorems": [
    "C37_construct_read",
    "C37_out_of_range",
    "C37_paths",
    "C37_matrix_indices",
    "C37_construction_operands",
    "C37_member_type",
    "C37_element_value",
    "C37_construction_value",
    "C37_arity_refuted"
   ],
   "note": "Arbitrary nesting of matrices and structs. C37_arity_refuted: too few operands are accepted when they are the first elements of an existing object (F7)."
  },
  {
   "property": "C38",
   "status": "proved",
   "theorems": [
    "C38_dot_product",
    "C38_row_major",
    "C38_col_major",
    "C38_block",
    "C38_eigen",
    "C38_array",
    "C38_quaternion",
    "C38_null",
    "C38_documented_example_refuted"
   ],
   "note": "Any number of dimensions; C38_documented_example_refuted is about the 4x6 example in the header comment (F6)."
  },
  {
   "property": "C39",
   "status": "proved",
   "theorems": [
    "C39_squaring",
    "C39_reachable"
   ],
   "note": "Exact count and the bound 2*log2 n, in every monoid."
  },
  {
   "property": "C40",
   "status": "proved",
   "theorems": [
    "C40_promotion",
    "C40_promotion_order",
    "C40_one_type",
    "C40_casts_needed",
    "C40_call_refuted"
   ],
   "note": "one_type holds for sums, products, quotients, comparisons, selects, sqrt, pow and casts; C40_call_refuted: arguments of other functions are not cast."
  },
  {
   "property": "C41",
   "status": "proved",
   "theorems": [
    "C41_bag",
    "C41_next_call",
    "C41_reuse",
    "C41_unbounded_refuted"
   ],
   "note": "C41_unbounded_refuted shows that the bound is needed (F8)."
  },
  {
   "property": "C42",
   "status": "proved",
   "theorems": [
    "C42_blocks",
    "C42_returned_to_owner",
    "C42_lifo",
    "C42_huge_request_refuted"
   ],
   "note": "C42_huge_request_refuted shows that the bound on requests is needed (F9)."
  },
  {
   "property": "C43",
   "status": "proved",
   "theorems": [
    "C43_unique_and_extract",
    "C43_sorted_is_grouped",
    "C43_bitset_range",
    "C43_bitset_post_increment_refuted"
   ],
   "note": "C43_bitset_post_increment_refuted: post-increment also stops at clear bits (F10)."
  },
  {
   "property": "C44",
   "status": "proved",
   "theorems": [
    "C44_algebra",
    "C44_storage",
    "C44_rotation_matrix",
    "C44_from_rotation_matrix",
    "C44_angle_axis",
    "C44_to_angle_axis",
    "C44_to_angle_axis_small",
    "C44_rotation_vector",
    "C44_rotation_vector_small",
    "C44_rotation_vector_round_trip",
    "C44_left_jacobian",
    "C44_left_jacobian_inverse"
   ],
   "note": "Over the real values of the components. Multiplication, norm, inverse, rotation matrices (SO(3), composition, conjugation), Sheppard's conversion in all four branches, angle-axis and rotation vectors both ways with both formulas and the small-angle forms, left jacobian as the integral of rotations and its inverse. The inverse needs sin(angle) <> 0: at angle pi the code divides zero by zero. Not modelled: right_retract_derivative and right_local_coordinates_derivative."
  },
  {
   "property": "C45",
   "status": "proved",
   "theorems": [
    "C45_repeated",
    "C45_orders_merge",
    "C45_unknown_function",
    "C45_jacobian"
   ],
   "note": "Repetition: every intermediate result is a derivative of its predecessor, with the cache shared between repetitions, as long as no float constants arise. Orders merge; a function known by name gets a single node of order n. Jacobian for any number of functions and variables."
  },
  {
   "property": "C46",
   "status": "proved",
   "theorems": [
    "C46_abs_exact",
    "C46_sign_exact",
    "C46_floor_exact",
    "C46_double_floor_exact",
    "C46_double_floor_refuted",
    "C46_double_sign_exact",
    "C46_max_exact",
    "C46_min_exact"
   ],
   "note": "abs, sign, floor, min and max agree with the real functions for all well-formed arguments; floor and sign of doubles are exact; floor of a double outside the 64-bit range is undefined behaviour (refuted)."
  },
  {
   "property": "C47",
   "status": "proved",
   "theorems": [
    "C47_integer_powers_of_i",
    "C47_rational_powers_of_i"
   ],
   "note": "All 64-bit integers; also the phase of rational powers."
  },
  {
   "property": "C48",
   "status": "proved",
   "theorems": [
    "C48_any_visitor",
    "C48_rebuilding"
   ],
   "note": "Generic in the visitor: any traversal that asks for results of subexpressions and combines them, any order of questions, any cache content that is consistent; then the concrete rebuilding visitor with its cache."
  },
  {
   "property": "C49",
   "status": "proved",
   "theorems": [
    "C49_statements",
    "C49_converted",
    "C49_total",
    "C49_converted_total"
   ],
   "note": "C49_statements is stated for graphs with the structure the conversion produces (record branching: structured region, operands computed on all ways, phi operands from the two blocks in front). C49_converted discharges that record for every program the conversion of selects accepts and ties the statements to the program with selects; it assumes that the program returns at most once and does not itself ask for optional outputs. C49_total and C49_converted_total show that statements are written at all: on every graph of that structure whose operations have a form (record writable), and for every program with selects without dead values whose own operations have one (no element access of compound values, outputs that are scalars in the signature)."
  },
  {
   "property": "C50",
   "status": "proved",
   "theorems": [
    "C50_branches",
    "C50_statements",
    "C50_expressions",
    "C50_names_refuted"
   ],
   "note": "C50_branches: passes and conversion keep the outputs of any typed program. C50_statements: and so do the statements, in every reading of the target language that agrees with the operations (interprets) with names apart from temporaries (apart; C50_names_refuted shows it is needed). C50_expressions: from expressions, the outputs are their real values (means: rounding and overflow are outside the semantics; no doubles in the expressions and no base zero under a symbolic negative exponent). Scalar outputs only."
  },
  {
   "property": "C51",
   "status": "proved",
   "theorems": [
    "C51_once",
    "C51_converted",
    "C51_shared_refuted"
   ],
   "note": "C51_once: for programs with branches. C51_converted: counted against the operations of the program with selects. Both under not_shared (no computed value is at once an operand of a phi function and of another operation); C51_shared_refuted shows that the generator repeats the computation otherwise. Conversions of constants are not counted."
  },
  {
   "property": "C52",
   "status": "proved",
   "theorems": [
    "C52_unambiguous",
    "C52_text",
    "C52_value",
    "C52_same_text",
    "C52_pole_refuted",
    "C52_negative_zero_refuted"
   ],
   "note": "Specification: Python tokens and the expression grammar of the Python reference (PySpec.v), proved unambiguous with a parser (PyParse.v). Conditions: names are identifiers that stand for the values of the variables (also elements of matrix and custom-type arguments), doubles are written by fmt as numbers or words with a sign iff the sign bit is set, powers with negative exponents are not complex and those with symbolic ones have nonzero bases (C52_pole_refuted, C52_negative_zero_refuted). Doubles evaluate to anything. Left out: matrices, compound expressions."
  },
  {
   "property": "C53",
   "status": "proved",
   "theorems": [
    "C53_text",
    "C53_value",
    "C53_comparisons_refuted"
   ],
   "note": "Expressions only; statements and signatures of the Python generator are not modelled. C53_comparisons_refuted: comparisons of comparisons, which expressions cannot contain, would be read as a chain."
  },
  {
   "property": "C54",
   "status": "proved",
   "theorems": [
    "C54_unambiguous",
    "C54_text",
    "C54_value",
    "C54_signum_refuted",
    "C54_minus_cast_refuted",
    "C54_sign_of_cast_refuted"
   ],
   "note": "Scalar expressions of the Rust generator; statements, signatures, constructors of matrices and structs and user overrides are not modelled; the text of a double is a parameter, and types are not checked. C54_signum_refuted, C54_minus_cast_refuted and C54_sign_of_cast_refuted show where the generator leaves out parentheses that Rust needs."
  },
  {
   "property": "C55",
   "status": "proved",
   "theorems": [
    "C55_unambiguous",
    "C55_body",
    "C55_converted"
   ],
   "note": "For scalar inputs and outputs. The text of the types is a parameter that has to be a name; signature, spans, matrix and struct outputs are not modelled. C55_converted asks the pairs of operations of all values, also of those that get a variable."
  },
  {
   "property": "C56",
   "status": "proved",
   "theorems": [
    "C56_unambiguous",
    "C56_body",
    "C56_returns_last",
    "C56_converted",
    "C56_selection_refuted"
   ],
   "note": "Unique reading of the Rust text of statements (C56_unambiguous), the text written for statements is read as those statements (C56_body), returns are last and in no branch (C56_returns_last), for everything the converter writes without selections (C56_converted); unconverted selections refuted (C56_selection_refuted, F27). Types, borrows and signatures are not modelled."
  },
  {
   "property": "C57",
   "status": "proved",
   "theorems": [
    "C57_unambiguous",
    "C57_body",
    "C57_refused",
    "C57_converted"
   ],
   "note": "For functions that return their outputs (use_output_arguments=false). Branches of the converted function are assumed to have statements (an Example shows that this is needed); signature, conversion of arguments, matrix and struct outputs and comments are not modelled."
  },
  {
   "property": "C58",
   "status": "proved",
   "theorems": [
    "C58_body",
    "C58_converted"
   ],
   "note": "For functions that return their outputs (use_output_arguments=false), on the statements and text of C57. Names of temporaries, outputs, arguments, called functions and the module are assumed to differ; what is returned for an optional output that was not asked for is left open; nothing is raised."
  }
 ]
}