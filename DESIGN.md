# A Rocq model of wrenfold

Source: `/repo` (wrenfold/wrenfold, C++). Properties: `properties.jsonl`. Status: `MANIFEST.json`.
Seeded bugs: `seeded/LOG.jsonl`. Development: `rocq/theories/`.

## 1. Layout

For every topic there are up to four kinds of file.

* `XModel.v` - computable Gallina definitions transcribed from the C++; every definition cites file and
  lines under `/repo/components`. No proofs.
* `XSpec.v` - what the property means, written without the model's helpers (mathematical definitions).
* `XProofs.v` - lemmas.
* `XProps.v` - only the property theorems (`exact lemma.`), the `Example`s that show their
  hypotheses are met by a concrete case, and `Print Assumptions`.

## 2. Conventions

* 64-bit integers are `Z` with explicit range checks. The outcome of an operation is
  `Ok v | Throws | Dies | UB | NoFuel` (`Outcome.v`): `Throws` is a C++ exception (a failed `WF_ASSERT`
  included), `Dies` is an exception leaving a `noexcept` function (std::terminate), `UB` is undefined behaviour,
  `NoFuel` is a recursion bound of the model that was too small (theorems either exclude it or speak of `Ok` only).
* `double` is Flocq `binary64` where exactness of doubles matters, otherwise real numbers.
* Symbolic expressions evaluate, under an assignment of reals to variables, to `val`: `Rv x` (the real number x),
  `Fin` (some finite value that is not known to be real, e.g. the root of a negative number) or `Top` (anything,
  including "undefined"; all doubles evaluate to `Top`).  Soundness of a simplifier is `refines`: if the input has a
  real value, the output has the same real value; if the input is finite, so is the output.  Simplifiers may extend
  the domain (`x/x -> 1`).  `wf` collects what construction guarantees for every expression (canonical numbers,
  number sets of variables respected by the assignment, logarithm arguments as in finding F11).
* IR passes are interpreted over an arbitrary commutative (semi)ring, given as a record, so the
  theorems hold for reals and for exact integers. Floating point rounding is therefore *not* covered:
  re-association changes rounding, as the real code's also does.
* Hash maps are modelled as association lists whose iteration order is arbitrary (theorems quantify
  over the order) or, where the code sorts afterwards, as sorted lists.
* Loops are structural recursion or use fuel with a distinguished out-of-fuel result.

## 3. Plan per property

| id | modelled | proof |
|----|----------|-------|
| C01 | every `checked_int` operator as a function on Z returning an outcome, with the overflow pre-check as coded | case analysis + lia against exact Z arithmetic |
| C02 | wheel loop with fuel = n, `k*k` as a machine multiplication with UB on overflow | invariant: no prime < k divides the residue; wheel residues mod 30 swept; refutation for n near 2^63 if confirmed |
| C03 | squaring loop over checked ints | binary-exponent induction; "does not throw when result fits" to be settled either way |
| C04-C06 | create_pair with std::gcd, operators, comparator | Z.gcd lemmas; refutations for INT64_MIN |
| C07 | compare_int_float over Flocq binary64 | case split on exponent ranges, B2R order |
| C08,C09 | mod_pi_rational, table look-up of sin/cos/tan | Z.quot/rem; Reals trig periodicity |
| C10,C16,C47 | numeric power functions, power::create | Rpower/powerRZ laws on the prime factors |
| C11 | set lattice and combination tables | real semantics of each set |
| C12-C15 | parts maps (association lists), flattening, constant folding | fold invariants on denotation; permutation invariance through sorted normal form |
| C17 | order_by, lexicographic order on an expression datatype | induction on expressions |
| C18,C45 | derivative_visitor on the expression datatype | induction with `derivable_pt_lim` |
| C19 | substitute_variables_visitor | induction, uses C12/C14/C16 soundness of the rebuilding constructors |
| C20,C46 | relational::create, conditional::create, abs/sign/floor/min/max | case analysis over R |
| C21 | row-major list matrices | index lemmas |
| C22,C23,C46b | recursive full-pivot LU over a field, determinant | block-matrix induction; Leibniz |
| C24 | cse | substitution environment invariant |
| C25,C26 | distribute, collect | denotation induction |
| C27 | expression -> SSA list | simulation |
| C28-C32 | SSA block lists, passes | simulation / multiset invariants |
| C33,C34 | CFG of blocks, phi | path semantics |
| C35 | AST -> token list printers with the coded precedence table; an independent precedence-climbing grammar for C++ | round trip; refutations for signum / ternary / double negation |
| C36 | operation counts over CFG trees | induction on structured CFGs |
| C37 | custom types as nested lists | mutual induction |
| C38 | strides and indices as lists | linear arithmetic |
| C39,C40 | exponentiate_by_squaring; promotion | monoid laws; fold lemmas |
| C41,C42 | state machines | invariants over histories |
| C43 | list functions | induction on sorted lists |
| C44 | quaternion formulas over R | `ring`, `nsatz`/`field`, branch analysis |
| C48 | memo table threaded through a traversal | invariant "cache holds only correct results" |
| C49 | statements written for a control flow graph (declarations, assignments, branches) | simulation against the execution of the graph |
| C50 | `transpile_to_ast`: lowering, simplification, branches, statements in one function | composition of the invariants of the parts: the passes keep the kind, the operands and the block of every operation |
| C51 | work of statements against operations of the program | each value without a temporary is charged to its only use; double counting over operands |
| C52 | `plain_formatter.cc` with `get_precedence` and `get_formatting_info`; a Python tokenizer and expression grammar as specification | the text of a subexpression is read at a level of the grammar given by its kind; a minus sign moves to the first factor; a recursive descent parser shows that readings are unique |
| C53 | `python_code_generator.cc` (expressions), on the trees of `ast_conversion.cc`; the Python grammar of C52 extended by keyword arguments | the text of a tree is read at a level of the grammar given by its root; operands that the converter leaves without parentheses have a level that is high enough, whatever the operations are |
| C54 | `rust_code_generator.cc` (expressions), on the trees of `ast_conversion.cc`; a grammar of Rust expressions with casts, paths, methods, tuples and `if` | as for C53, with one more thing to follow: whether a text ends with the type of a cast, because a less-than sign may not come next |
| C55 | `cpp_code_generator.cc` (statements), `utility/strings.h` (join_and_indent), on the statements of `ast_conversion.cc`; a grammar of C++ declarations, assignments, returns and branches over that of C35 | a token ends wherever a character stands that extends none, so the tokens of a statement are those of its parts and indentation adds none; statements are told apart by their first two tokens and expressions contain no semicolon or brace, so blocks split in one way |
| C56 | `rust_code_generator.cc` (statements), on the statements of `ast_conversion.cc`; a grammar of Rust bindings, assignments, branches and a value at the end, over that of C54 | as C55; the value at the end is told from a statement by its first token, which is never `if`; the converter returns in the last statement and in no branch (induction over the structured region) |
| C57 | `python_code_generator.cc` (constructor, statements, return of outputs), `utility/strings.h` (join_and_indent), on the statements of `ast_conversion.cc`; the lines, indentation and statements of Python over the grammar of C53 | the text of an expression has no newline and closes its brackets, so lines end where the generator ends them; indentation shifts whole lines; a branch is the longest run of deeper lines, so blocks split in one way; a tuple is told from parentheses by running the parser of C53 |
| C58 | the statements of C57, run: one scope per function, assignments, branches, a return at the end | an invariant between the variables of Python and what is in scope in the statements: whatever is in scope has the value it has there, names of arguments, functions and modules are never assigned; the value of an expression depends on the names it reads and calls only; then C57 for the text and C49 for the program with selects |

## 4. Trusted base

* Coq 8.16.1 kernel (and its VM for the `vm_compute` steps of examples) and the standard library; the axioms shown by
  `Print Assumptions` under each theorem (section 6 lists them). Flocq is used for `binary64`; it adds no axioms.
* The reading of the C++ (nothing here is extracted from or run against the C++).

### What is modelled, and what is not

| files | modelled | simplified or left out |
|-------|----------|------------------------|
| `CheckedIntModel`, `IntUtilsModel`, `FactorModel`, `RationalModel`, `IntFloatModel` | `checked_int.h`, `integer_utils.h/.cc`, `rational_constant`, comparisons of integers with doubles | 64-bit two's complement integers; `std::gcd` as the standard defines it |
| `ExprModel`, `BuildModel`, `FuncModel` | expressions, number sets, ordering, sums/products/powers, built-in functions, relations, conditionals | one inductive type `expr` instead of the variants; `compound_expression_element` left out; hashing, map iteration order and double printing are parameters (`impl`); arbitrary recursion replaced by fuel |
| `MapModel`, `DerivModel`, `CollectModel`, `CseModel`, `DistModel` | the rebuilding visitor, substitution of variables, derivatives, collect, cse, distribute | visitors evaluate operands from left to right; partial substitution of sums, products and powers not modelled; derivative order as unbounded `nat`; cse over scalar expressions |
| `MatrixModel`, `MatOpsModel`, `LuModel`, `QuatModel`, `SpanModel` | matrices, LU, determinant, quaternions, spans | element operations abstract; storage of LU as lists of rows; quaternion components as reals; right retractions left out |
| `IrModel`, `PassModel`, `LowerModel` | values, operations and the passes over one block; lowering of scalar expressions | no matrices, custom types or external functions in lowering; the machine computes over a ring (no rounding, no integer overflow of generated code) |
| `CfgModel`, `ConvModel` | merge points, operation counts, conversion of selects to branches | blocks are numbered; dominance cache left out; `size_t` counts as `nat`; erased values stay in the table without consumers |
| `AstModel`, `CppSpec` | syntax trees of scalar expressions and their C++ text; tokens and grammar of C++ expressions | no constructors of matrices and structs, no user overrides; text of a double is a parameter; the grammar has no assignments, shifts, bitwise operators, subscripts or templates other than `static_cast` |
| `StmtModel` | statements of a function from its blocks: declarations of temporaries, assignments of phi functions, if-else, optional outputs, returns | scalar outputs only; no comment with operation counts; types of declarations left out; the text of statements is not modelled |
| `PipeModel` | `transpile_to_ast`: the parts above one after the other | scalar outputs; `N` (names of arguments) is taken as given, with the type of an argument as part of its number |
| `PlainModel`, `PySpec` | plain text of scalar expressions; tokens and grammar of Python expressions | no matrices and compound expressions; types of arguments and text of doubles are parameters; comparisons are not chained; the grammar has no `not`/`and`/`or`, lambdas, slices or strings, and only one keyword argument, as the last |
| `PyCodeModel` | Python text of scalar expressions for numpy, torch and jax | no signatures, constructors of matrices and structs, calls that return a matrix; text of doubles is a parameter; what operators and library functions compute is a parameter (`py_faithful`) |
| `RustModel`, `RustSpec` | Rust text of scalar expressions; tokens and grammar of Rust expressions | no statements, signatures, constructors of matrices and structs; text of doubles and the borrowed parameters of external functions are parameters; what operators and methods compute is a parameter (`rs_faithful`), types are not checked; the grammar has no blocks, closures, ranges, lifetimes, bit operators or `&&`/`||`, and takes expressions where no statement can start |
| `CppStmtModel`, `CppStmtSpec`, `CppBodySpec` | C++ text of the statements of a function, with indentation; grammar of C++ statements; what it means that they say the same | the text of types is a parameter (a name); no signature, spans, matrix or struct outputs, comments |
| `RustStmtModel`, `RustStmtSpec`, `RustBodySpec` | Rust text of the statements of a function, with indentation; grammar of Rust statements; what it means that they say the same | the text of types is a parameter (a path); a selection as the whole value of a body is left out of the grammar; types, borrows and assignment of `let` variables are not checked; no signature, matrix or struct outputs, comments |
| `PyStmtModel`, `PyStmtSpec`, `PyBodySpec` | Python text of the statements of a function that returns its outputs, with indentation; lines and grammar of Python statements; what it means that they say the same | `use_output_arguments=false` only (with `true` scalar outputs are refused); no signature, conversion of arguments, matrix or struct outputs, comments; the grammar has no tabs, strings, backslashes, semicolons, `elif`; branches are assumed not to be empty |
| `PyRunSpec` | running Python statements: assigned names with their values, which may be None | a machine is fixed in what operators, calls and attributes do and may do anything with None; nothing is raised (division by zero is a value of the algebra); temporaries, outputs, arguments, functions and the module are assumed to have different names (`py_apart`, `tame`), which the caller of the library is responsible for; what is returned for an optional output that was not asked for is left open |
| `ConsumerModel`, `AllocatorModel`, `RangesModel`, `CustomTypeModel` | `consumer_vector`, `stack_allocator`, `ranges`/`bitset_range`, custom types | addresses as integers |

Not modelled at all: the Python bindings and `code_generation.py`, signatures in all generators,
LaTeX printing, the compile-time type traits, and parsing of Python functions.

## 5. Findings

Places where the code, as modelled, departs from what it documents or from what one would expect. The theorems named
here prove it for the model; where none is named the finding comes from reading.

* **F1** `compute_prime_factors` squares `k` in a 64-bit integer; for arguments with no factor below about 2^31.5 this
  overflows, which is undefined (`C02_no_overflow_refuted`).
* **F2** `std::gcd` is undefined for INT64_MIN; rational construction and arithmetic reach it (`C04_make_refuted`,
  `C05_exact_or_throws_refuted`).
* **F3** Zero denominators are accepted; dividing rationals by zero is not rejected (`C05_div_zero_refuted`).
* **F4** `operator%` of rationals is the fractional part of the quotient, not the remainder
  (`C05_rem_is_remainder_refuted`).
* **F5** `order_struct<rational_constant>` may overflow inside `noexcept`: the process terminates
  (`C06_order_total_refuted`).
* **F6** The example in the comment of `make_span` (span.h) addresses out of bounds (`C38_documented_example_refuted`).
* **F7** `custom_type_construction::create` compares sizes in a way that can be bypassed (`C37_arity_refuted`).
* **F8** `consumer_vector` keeps its free list in 32 bits (`C41_unbounded_refuted`).
* **F9** `stack_allocator` compares wrapped pointers/sizes for huge requests (`C42_huge_request_refuted`).
* **F10** Post-increment of `bitset_range::const_iterator` does not advance (`C43_bitset_post_increment_refuted`).
* **F11** Number sets and simplification:
  (a) log of a positive number is classified as positive (`C11_log_refuted`, `C16_log_refuted`);
  (b) a real number to a non-integer power is classified as real;
  (c) exponents of nested powers are multiplied although the inner exponent may be complex;
  (d) `sqrt(a*r)` becomes `sqrt(a)*sqrt(r)`, which in generated code is 0*NaN at a=0, r<0;
  (e) powers of doubles can create NaN and infinite constants, and NaN breaks the order (`C17_nan_refuted`);
  (f) exp and log of exact complex units become rounded doubles;
  (g) floor of a double outside the 64-bit range is an undefined cast (`C46_double_floor_refuted`);
  (h) whether a sum overflows depends on the order of its operands, and sums of doubles are not associative
  (`C13_overflow_refuted`, `C13_float_refuted`);
  (i) the result of a product with powers of powers depends on the order of factors (`C15_order_refuted`).
* **F12** `substitute` with a list of pairs takes a simultaneous fast path that departs from the documented in-order
  meaning (`C19_order_refuted`).
* **F13** `distribute` throws on a power whose exponent distributes to zero (`C25_zero_exponent_refuted`).
* **F14** `inverse_left_jacobian_of_so3` divides zero by zero at the angle pi.
* **F15** Shape checks of matrices are modulo 2^64 (`C21_reshape_refuted`); the message of `reshape` and `get_block`
  with hugely negative sizes overflow signed integers.
* **F16** LU does not recognise pivots that are zero only after simplification; it rejects more rows than columns although
  documented for rectangular matrices; the determinant of a 0x0 matrix throws.
* **F17** Arguments of standard library calls are not cast to the type of the call (`C40_call_refuted`).
* **F18** The default names v0, v1, ... of `cse` are not checked against the variables of the expression
  (`C24_names_refuted`).
* **F19** `count_all_operations` counts a merge block twice if two nested branches share it
  (`C36_shared_merge_refuted`); the converter never builds that (`C33_structured`, `C36_converted`).
* **F20** Names of function arguments are not checked against the temporaries `v0`, `v00`, ... of generated code
  (`C50_names_refuted`: the statements declare a second `v00` beside the argument; C++ rejects them).
* **F21** C++ text without needed parentheses: `signum` is printed as a difference and never parenthesised
  (`C35_signum_refuted`; the Rust generator does the same); selections bind tighter than products in the table of
  precedences (`C35_select_refuted`, only with `convert_ternaries=False`); a negated negation prints as `--x`
  (`C35_double_minus_refuted`); INT64_MIN prints as a literal with no C++ integer type.
* **F22** Smaller ones, by reading: the float hash differs for 0.0 and -0.0, which compare equal; `camel_case` reads
  past a trailing underscore; a formatter without arguments increments past the end; `is_function_of` does not descend
  into expressions of the type it looks for; abs(INT64_MIN) throws; lowering b^(-t) to 1/b^t has no value at b=0, t<0.
* **F23** A value computed in a branch that is both its result and the operand of one other operation gets no temporary and
  is written twice (`C51_shared_refuted`; the condition in ast_conversion.cc 247-250 counts phi consumers and other
  consumers separately). With `a = x*y`: `where(c, a, y)` and `where(c, -a, x)` as outputs give
  `v05 = x*y; v06 = -(x*y);`. No value changes.
* **F24** Plain text of expressions: a negative double is put in parentheses before it is raised to a power, but -0.0 is
  not (`C52_negative_zero_refuted`: `-0**x`, read as `-(0**x)`; `get_precedence` compares with zero instead of looking at
  the sign). Powers with negative symbolic exponents are written as quotients, which have no value where the base is zero
  (`C52_pole_refuted`: x*y^(-z) is `x/y**z`).
* **F25** Python code: a comparison of comparisons would be written as a chain, `x < y < x` (`C53_comparisons_refuted`);
  the expressions that users can build do not contain one. By reading only: conversions to integers are to `int32`,
  although integers have 64 bits everywhere else, and `floor` gives a float, where C++ converts to an integer.
* **F26** Rust text without needed parentheses: `signum` again (`C54_signum_refuted`); a minus sign before a cast,
  `(-((v01) < (v02)) as i64) as f64` for the negative of a truth value, where rustc rejects the negated `bool`
  (`C54_minus_cast_refuted`, from the expression to the statements); and the sign of something that ends with a cast,
  `((x).floor() as i64 < 0.0f64)`, which is no expression (`C54_sign_of_cast_refuted`). By reading only: the exponent of
  `powi` is written as an `i64` literal, where `f64::powi` takes an `i32`; infinite doubles print as `inff64`.
* **F27** Rust code with selections that were not converted to branches (`convert_ternaries=false`): a returned sum that begins
  with a selection, `if c { x } else { y } + z`, is no body of a function; where a statement may begin rustc ends it at the
  last brace (`C56_selection_refuted`, from the expression to the text).

## 6. Axioms per theorem

Generated from `Print Assumptions` of every theorem in `MANIFEST.json`. All axioms are those of the Coq standard library
(its real numbers, classical logic, functional extensionality).

* **none (closed under the global context)**:
  `C01_neg`, `C01_mul`, `C01_div`, `C01_rem`, `C01_trunc`, `C01_add`, `C01_sub`, `C01_abs`, `C01_gcd`,
  `C01_is_even`, `C02_wheel`, `C02_factors`, `C02_no_overflow_refuted`, `C03_integer_power`, `C04_make`,
  `C04_make_refuted`, `C04_zero_denominator`, `C04_unique`, `C04_idempotent`, `C04_try_convert_to_integer`,
  `C04_normalized`, `C05_add`, `C05_sub`, `C05_mul`, `C05_div`, `C05_div_zero_refuted`, `C05_div_zero`,
  `C05_exact_or_throws_refuted`, `C05_rem`, `C05_rem_is_remainder_refuted`, `C06_int_order`, `C06_identity`,
  `C06_order`, `C06_order_total_refuted`, `C08_mod_pi`, `C17_nan_refuted`, `C21_elements`, `C21_construction`,
  `C21_transpose`, `C21_block`, `C21_reshape`, `C21_reshape_refuted`, `C21_stacking`, `C21_stacking_rejects`,
  `C21_constructors`, `C23_rejects`, `C24_default_variables`, `C28_programs_exist`, `C28_programs_run`,
  `C28_eliminate_duplicates`, `C28_remove_unused`, `C28_eliminate_copies`, `C29_ranked_factorizations`,
  `C29_only_factorable`, `C29_too_large`, `C29_unfactored_terms`, `C29_factorize_block_keeps_outputs`,
  `C29_factorize_rounds_keep_outputs`, `C29_merge_products`, `C30_binarize_keeps_outputs`,
  `C31_negations_keep_outputs`, `C31_simplifications_keep_outputs`, `C32_topological_sort`,
  `C32_order_is_canonical`, `C32_same_outputs`, `C33_value`, `C33_defined`, `C33_structured`, `C33_total`,
  `C33_no_selects`, `C34_merge_sound`, `C34_merge_downwards`, `C34_merge_upwards`, `C34_structured`,
  `C35_unambiguous`, `C35_text`, `C35_value`, `C35_double_minus_refuted`, `C36_worst_case`, `C36_total`,
  `C36_straight_line`, `C36_shared_merge_refuted`, `C36_converted`, `C37_construct_read`, `C37_out_of_range`,
  `C37_paths`, `C37_matrix_indices`, `C37_construction_operands`, `C37_member_type`, `C37_element_value`,
  `C37_construction_value`, `C37_arity_refuted`, `C38_dot_product`, `C38_row_major`, `C38_col_major`,
  `C38_block`, `C38_eigen`, `C38_array`, `C38_quaternion`, `C38_null`, `C38_documented_example_refuted`,
  `C40_promotion`, `C40_promotion_order`, `C40_casts_needed`, `C41_bag`, `C41_next_call`, `C41_reuse`,
  `C41_unbounded_refuted`, `C42_blocks`, `C42_returned_to_owner`, `C42_lifo`, `C42_huge_request_refuted`,
  `C43_unique_and_extract`, `C43_sorted_is_grouped`, `C43_bitset_range`, `C43_bitset_post_increment_refuted`,
  `C44_storage`, `C48_any_visitor`, `C49_statements`, `C49_converted`, `C49_total`, `C49_converted_total`,
  `C50_branches`, `C50_statements`, `C51_once`, `C51_converted`, `C51_shared_refuted`, `C52_unambiguous`,
  `C53_text`, `C53_value`, `C53_comparisons_refuted`, `C54_unambiguous`, `C54_text`, `C54_value`,
  `C55_unambiguous`, `C55_body`, `C55_converted`, `C56_unambiguous`, `C56_body`, `C56_returns_last`,
  `C56_converted`, `C57_unambiguous`, `C57_body`, `C57_refused`, `C57_converted`, `C58_body`,
  `C58_converted`.
* **`Classical_Prop.classic`**:
  `C17_antisymmetric`, `C17_sort_total`.
* **`ClassicalDedekindReals.sig_forall_dec`**:
  `C27_inputs_exist`.
* **`ClassicalDedekindReals.sig_forall_dec`, `FunctionalExtensionality.functional_extensionality_dep`**:
  `C21_product`, `C21_elementwise`, `C22_factorisation`, `C22_total`, `C23_determinant`,
  `C44_rotation_matrix`.
* **`ClassicalDedekindReals.sig_forall_dec`, `ClassicalDedekindReals.sig_not_dec`, `FunctionalExtensionality.functional_extensionality_dep`**:
  `C44_algebra`, `C44_from_rotation_matrix`, `C44_angle_axis`, `C44_rotation_vector`,
  `C44_rotation_vector_small`, `C44_left_jacobian`, `C44_left_jacobian_inverse`.
* **`ClassicalDedekindReals.sig_forall_dec`, `ClassicalDedekindReals.sig_not_dec`, `Classical_Prop.classic`, `FunctionalExtensionality.functional_extensionality_dep`**:
  `C07_compare_int_float`, `C09_cos_exact`, `C09_sin_exact`, `C09_tan_exact`, `C09_quarter_turns_folded`,
  `C09_tan_pole`, `C09_functions_keep_value`, `C09_log_keeps_value`, `C10_numeric_power_keeps_value`,
  `C11_number_set_sound`, `C11_log_refuted`, `C12_sum_keeps_value`, `C12_sum_refines`,
  `C12_difference_keeps_value`, `C12_depth_irrelevant`, `C13_order_independent`, `C13_overflow_refuted`,
  `C13_float_refuted`, `C14_product_keeps_value`, `C14_product_refines`, `C14_two_factors_keep_value`,
  `C14_quotient_keeps_value`, `C14_depth_irrelevant`, `C15_order_independent`, `C15_order_refuted`,
  `C16_power_keeps_value`, `C16_power_refines`, `C16_depth_irrelevant`, `C16_log_refuted`, `C17_total`,
  `C17_transitive`, `C17_equal_is_identical`, `C18_derivative`, `C18_constant_is_zero`, `C18_well_formed`,
  `C18_argument`, `C19_simultaneous`, `C19_single`, `C19_in_order`, `C19_substitute`, `C19_order_refuted`,
  `C20_comparison_exact`, `C20_comparison_folded`, `C20_double_comparison`, `C20_integer_double_comparison`,
  `C20_conditional_exact`, `C20_iverson_exact`, `C21_expression_elements`, `C24_scope`, `C24_definitions`,
  `C24_value`, `C24_names_refuted`, `C25_value`, `C25_cached`, `C25_zero_exponent_refuted`, `C26_collect`,
  `C26_numbers_rejected`, `C26_one_term_per_exponent`, `C27_lowering`, `C27_sorting`, `C27_outputs`,
  `C27_simplified_outputs`, `C35_signum_refuted`, `C35_select_refuted`, `C39_squaring`, `C39_reachable`,
  `C40_one_type`, `C40_call_refuted`, `C44_to_angle_axis`, `C44_to_angle_axis_small`,
  `C44_rotation_vector_round_trip`, `C45_repeated`, `C45_orders_merge`, `C45_unknown_function`,
  `C45_jacobian`, `C46_abs_exact`, `C46_sign_exact`, `C46_floor_exact`, `C46_double_floor_exact`,
  `C46_double_floor_refuted`, `C46_double_sign_exact`, `C46_max_exact`, `C46_min_exact`,
  `C47_integer_powers_of_i`, `C47_rational_powers_of_i`, `C48_rebuilding`, `C50_expressions`,
  `C50_names_refuted`, `C52_text`, `C52_value`, `C52_same_text`, `C52_pole_refuted`,
  `C52_negative_zero_refuted`, `C54_signum_refuted`, `C54_minus_cast_refuted`, `C54_sign_of_cast_refuted`,
  `C56_selection_refuted`.
