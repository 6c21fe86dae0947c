{
 "claims": [
  {
   "property": "C01",
   "status": "proved",
   "theorems": [
    "C01_equality"
   ],
   "note": ""
  },
  {
   "property": "C02",
   "status": "partial",
   "theorems": [
    "C02_interchangeable_refuted",
    "C02_interchangeable_partial"
   ],
   "note": "False as stated: equality ignores types and Python has 1 == True. Proved when literals at the same position agree."
  },
  {
   "property": "C03",
   "status": "partial",
   "theorems": [
    "C03_map_args_identity_refuted",
    "C03_map_args_identity_partial"
   ],
   "note": "False for the subclasses NonTerm/TargetCall/Target (replaced by their base class); proved otherwise."
  },
  {
   "property": "C04",
   "status": "proved",
   "theorems": [
    "C04_simplify"
   ],
   "note": ""
  },
  {
   "property": "C05",
   "status": "partial",
   "theorems": [
    "C05_rewrite_refuted",
    "C05_rewrite_partial"
   ],
   "note": "False under Let (capture); proved for Let-free expressions."
  },
  {
   "property": "C06",
   "status": "proved",
   "theorems": [
    "C06_counts"
   ],
   "note": ""
  },
  {
   "property": "C07",
   "status": "partial",
   "theorems": [
    "C07_raises_refuted",
    "C07_invalid_becomes_valid_refuted",
    "C07_valid_becomes_invalid_refuted",
    "C07_no_counterexample_lost_partial",
    "C07_quiet_partial"
   ],
   "note": "False as stated in three ways (raises KeyError; wrong polarity; stale counts). Proved: on conditions whose implications are only in positive position it terminates and never turns a falsifiable condition into a valid one; and when no equation is propagated, on all well-typed conditions, it ends without an exception and the result is valid exactly when the input is. Missing: an equivalence for conditions in which equations are propagated and counts stay current."
  },
  {
   "property": "C08",
   "status": "partial",
   "theorems": [
    "C08_sharing_refuted",
    "C08_sharing_partial",
    "C08_emitted_once_partial"
   ],
   "note": "False when an integer and a boolean choice compare equal; proved when equal choices are identical. In any case the emitted definitions have exactly one expansion, which compares equal to the body."
  },
  {
   "property": "C09",
   "status": "partial",
   "theorems": [
    "C09_chooseArbitrarily_refuted",
    "C09_chooseArbitrarily_partial"
   ],
   "note": "False when a first alternative contains a choice; proved otherwise."
  },
  {
   "property": "C10",
   "status": "proved",
   "theorems": [
    "C10_prune"
   ],
   "note": ""
  },
  {
   "property": "C11",
   "status": "proved",
   "theorems": [
    "C11_used_names"
   ],
   "note": ""
  },
  {
   "property": "C12",
   "status": "partial",
   "theorems": [
    "C12_roundtrip_partial",
    "C12_unambiguous_partial",
    "C12_file_partial",
    "C12_refuted_append",
    "C12_refuted_let",
    "C12_refuted_matrix",
    "C12_refuted_type",
    "C12_refuted_slice",
    "C12_let_partial"
   ],
   "note": "Proved for every expression that RosText.readable accepts (variables, numbers, truth values, operators, sets, tuples, user functions, library calls with the types the reader assigns), for every layout of the text and for whole solution files with any number of definitions. The full statement is false: list_append, let, rows of matrices, tensor slices and the empty matrix are not read back. A let written with parentheses is read back."
  },
  {
   "property": "C13",
   "status": "partial",
   "theorems": [
    "C13_unambiguous",
    "C13_text_partial",
    "C13_function_partial",
    "C13_product_refuted",
    "C13_difference_refuted",
    "C13_quotient_refuted",
    "C13_not_refuted",
    "C13_and_refuted",
    "C13_comparison_refuted",
    "C13_tuple_refuted",
    "C13_name_refuted",
    "C13_annotation_refuted"
   ],
   "note": "False in general: parentheses are missing around sums in products, and similar. Proved: for every expression whose operands bind tightly enough (a syntactic condition), the text is read in exactly one way by Python's lexical and precedence rules and the tree that is read has the value of the expression; same for whole function definitions. Each way in which it fails has a counterexample theorem."
  },
  {
   "property": "C14",
   "status": "partial",
   "theorems": [
    "C14_single_tree",
    "C14_unambiguous",
    "C14_definition",
    "C14_axiom",
    "C14_refuted_names",
    "C14_refuted_variable",
    "C14_refuted_tensor"
   ],
   "note": "Proved for all expressions whose names are words that SMT-LIB does not use, that do not begin with set., map_ or tuple, and such that functions and variables have different names (fn); also for whole definitions and axioms. Names beginning with set- or map- are renamed, also those of variables, so without the condition two expressions can have one text (C14_refuted_names) and a variable two texts (C14_refuted_variable). A tensor has the sort of a list of numbers (C14_refuted_tensor)."
  },
  {
   "property": "C15",
   "status": "partial",
   "theorems": [
    "C15_names_partial",
    "C15_values_partial",
    "C15_lists",
    "C15_matrices_partial",
    "C15_refuted_columns",
    "C15_refuted_small_bounds",
    "C15_refuted_collision"
   ],
   "note": "For variables without a minus sign in their names and bounds from 2: all generated names differ, and the variables take exactly the combinations of values of the stated shape (lists up to the bound, sets of integers, nested types). False for matrices: only those with exactly bound columns are tried (C15_refuted_columns), none but the empty one for bound 1; and a variable may have the name of a part of another one (C15_refuted_collision)."
  },
  {
   "property": "C16",
   "status": "partial",
   "theorems": [
    "C16_negative_tail_refuted",
    "C16_negative_get_refuted",
    "C16_empty_row_refuted",
    "C16_tensor3d_refuted",
    "C16_list_operations_partial"
   ],
   "note": "False for negative indices, empty matrix rows and 3-D tensors; proved for every list function on all other arguments (good_args) and every model of the prelude."
  },
  {
   "property": "C17",
   "status": "partial",
   "theorems": [
    "C17_div_partial",
    "C17_mod_partial",
    "C17_negative_refuted",
    "C17_by_zero_refuted"
   ],
   "note": "False for negative operands and for divisor 0; the exact set of agreement for non-zero divisors is characterised."
  },
  {
   "property": "C18",
   "status": "partial",
   "theorems": [
    "C18_racket_sqrt_refuted",
    "C18_smt_sqrt_refuted",
    "C18_exp_fuel_refuted",
    "C18_exp_partial"
   ],
   "note": "integer_sqrt is wrong on both sides and different; integer_exp agrees exactly for n < 64."
  },
  {
   "property": "C19",
   "status": "proved",
   "theorems": [
    "C19_sets"
   ],
   "note": "For sets of integers."
  },
  {
   "property": "C20",
   "status": "partial",
   "theorems": [
    "C20_maps_partial",
    "C20_eq_refuted",
    "C20_normalize_refuted"
   ],
   "note": "Lookup/insert/contains proved; map-eq is order dependent, map-normalize fails; map-union/values/keys are commented out in the source, as is the merge function."
  },
  {
   "property": "C21",
   "status": "partial",
   "theorems": [
    "C21_prelude_consistent_refuted",
    "C21_every_matrix_refuted",
    "C21_query_unsat_refuted",
    "C21_prelude_consistent_partial"
   ],
   "note": "False: the matrix_transpose assertions are contradictory on every non-empty matrix, so every query is unsat. Proved: without the two transpose assertions the prelude has a model."
  },
  {
   "property": "C22",
   "status": "partial",
   "theorems": [
    "C22_list_functions_partial",
    "C22_matrix_functions_partial",
    "C22_redundant_refuted",
    "C22_redundant_partial",
    "C22_list_lemmas_partial",
    "C22_get_out_of_range_refuted"
   ],
   "note": "Every model of the prelude (without the contradictory transpose assertions) agrees with the Coq list functions on the stated domains; out-of-range list_get is not determined."
  },
  {
   "property": "C23",
   "status": "partial",
   "theorems": [
    "C23_vec_elemwise",
    "C23_vec_scalar",
    "C23_vec_map",
    "C23_selection",
    "C23_dissolve_selection",
    "C23_matrix_refuted",
    "C23_matrix_elemwise_partial",
    "C23_matrix_scalar_partial",
    "C23_matrix_selection_partial"
   ],
   "note": "Vectors: proved for all vectors in both backends. Matrices: proved for every matrix in the SMT prelude and for matrices without empty rows in Racket; false in Racket with an empty row (matrix-prepend drops it)."
  },
  {
   "property": "C24",
   "status": "partial",
   "theorems": [
    "C24_step_axioms_refuted",
    "C24_step_axioms_partial",
    "C24_selection_axiom_refuted",
    "C24_selection_axiom_partial",
    "C24_dissolve_axiom_refuted",
    "C24_dissolve_axiom_partial",
    "C24_reduce_sum_axiom_refuted",
    "C24_reduce_sum_axiom_partial",
    "C24_reduce_max_axiom_refuted",
    "C24_reduce_max_axiom_partial",
    "C24_matrix_vec_mul_axiom_refuted",
    "C24_matrix_vec_mul_axiom_partial"
   ],
   "note": "False: every axiom except reduce_sum_axiom contradicts the definition of its function (index 0), so prelude + definition + axiom has no model. Proved: they hold for index >= 1 (reduce_max: 1 <= index < length; matrix_vec_mul: first row fits), and reduce_sum_axiom is equivalent to out-of-range reads being 0."
  },
  {
   "property": "C25",
   "status": "partial",
   "theorems": [
    "C25_reduce_sum",
    "C25_reduce_mul",
    "C25_reduce_max_partial",
    "C25_reduce_max_refuted",
    "C25_matrix_vec_mul_partial",
    "C25_matrix_vec_mul_refuted"
   ],
   "note": "Sum and product: all vectors. Maximum: all non-empty vectors (empty gives -32). Dot products: matrices whose rows have the length of the non-empty vector (a shorter row truncates the result, zero columns give the empty vector)."
  },
  {
   "property": "C26",
   "status": "partial",
   "theorems": [
    "C26_fuel_refuted",
    "C26_empty_rows_refuted",
    "C26_transpose_partial",
    "C21_every_matrix_refuted"
   ],
   "note": "The SMT definition has no solution; Racket correct within fuel for matrices with at least one row and one column."
  },
  {
   "property": "C27",
   "status": "partial",
   "theorems": [
    "C27_partial",
    "C27_refuted",
    "C29_refuted",
    "C27_sets_partial"
   ],
   "note": "Proved for the loop-free programs of PySem.supported (one assertion-carrying return below ifs, no list changes inside ifs, no chained comparisons) with a worked example for all inputs. False in general: with two returns in an if only the first assertion is kept (C27_refuted); list changes inside an if (C29_refuted). For sets, which these programs leave out, the effect of add and remove on the state is proved on its own."
  },
  {
   "property": "C28",
   "status": "partial",
   "theorems": [
    "C28_partial",
    "C28_refuted_parameter",
    "C28_refuted_two_loops",
    "C28_refuted_nested",
    "C28_refuted_return",
    "C28_refuted_shared_state"
   ],
   "note": "Soundness of the verification condition proved for any number of top-level loops that write neither parameters nor variables of an earlier loop and contain no return or loop. False in general, with five counterexamples: a loop writing a parameter, two loops writing one variable, nested loops, a return in a loop, and the State() default lists shared between analysed functions."
  },
  {
   "property": "C29",
   "status": "partial",
   "theorems": [
    "C29_partial",
    "C29_refuted"
   ],
   "note": "Proved for all if statements: integer and Boolean variables get the value of the branch that is taken, tuples too up to C02. List, matrix and set variables always get the value of the then branch, which makes a wrong summary verify (C29_refuted)."
  },
  {
   "property": "C30",
   "status": "partial",
   "theorems": [
    "C30_partial",
    "C30_partial_chain",
    "C30_refuted",
    "C30_not_equal"
   ],
   "note": "Single comparisons have the value that Python gives them. A chain has the value of its last comparison (5 < 3 < 4 is true); proved right when the earlier ones hold. != raises."
  },
  {
   "property": "C31",
   "status": "partial",
   "theorems": [
    "C31_partial",
    "C31_refuted"
   ],
   "note": "Proved for the loop-free functions of LlSem (every conditional branch to two blocks of their own, as the AddEmptyBlocks pass leaves them, or to a block that does nothing and its successor): if the condition is valid, the summary describes every returning execution. False without that pass: an if without else loses its empty path condition (C31_refuted)."
  },
  {
   "property": "C32",
   "status": "partial",
   "theorems": [
    "C32_partial",
    "C32_refuted_two_loops",
    "C32_refuted_nested",
    "C32_havocs_partial",
    "C32_part4",
    "C32_refuted_skipped_call",
    "C32_refuted_after_loop",
    "C32_nested"
   ],
   "note": "Proved for any number of loops, each two of which write disjoint sets of variables or are nested in such a way that nothing known at the head of the inner loop depends on a variable it writes (C32_nested is a function with nested loops). False for two loops writing one variable and for nested loops when the outer invariant speaks about a variable that the inner loop writes. The havocs of a loop are shown to be complete: whatever pointer an instruction of the loop writes to is among them. Vectors, results written through an sret pointer, integer_sqrt and integer_exp, the untyped pointers and the destructor flag that clang adds are covered, so that the theorem applies to transformer_part4.ll as it is in /repo with the preconditions and invariant arguments of its driver: C32_part4 gives what that function returns for all arguments. Also false when the function calls something the frontend does not know, such as clear, and when a result vector is extended after the loop."
  },
  {
   "property": "C33",
   "status": "partial",
   "theorems": [
    "C33_partial",
    "C33_partial_compare",
    "C33_refuted"
   ],
   "note": "Arithmetic and comparison instructions get their 32-bit meaning when no addition, subtraction or multiplication overflows, division is of non-negative by positive numbers and unsigned comparison of numbers of one sign. False otherwise; ule, ugt and uge are refused."
  },
  {
   "property": "C34",
   "status": "partial",
   "theorems": [
    "C34_partial",
    "C34_bound",
    "C34_refuted"
   ],
   "note": "Every reachable block is visited once, after its predecessors by non-back edges, within a number of passes bounded by the number of blocks, when no latch jumps to its header in two ways. With such a latch nothing after it is visited (C34_refuted)."
  },
  {
   "property": "C35",
   "status": "partial",
   "theorems": [
    "C35_order",
    "C35_duplicates_refuted",
    "C35_raises_refuted",
    "C35_raises_partial",
    "C35_library_spec_met"
   ],
   "note": "For declarations with distinct names the result is a permutation of the input in which every declaration comes after those it mentions (C35_order), and sorting raises only on a cycle among the recorded dependencies (C35_raises_partial). Not true in general: two declarations of the same name collapse into one (C35_duplicates_refuted), and a variable that is merely named like a function counts as a dependency, so an acyclic program can be rejected (C35_raises_refuted). networkx.topological_sort and set iteration order are parameters constrained by a specification; C35_library_spec_met shows an algorithm meeting it."
  },
  {
   "property": "C36",
   "status": "partial",
   "theorems": [
    "C36_copy_partial",
    "C36_caller_partial",
    "C36_candidate_partial",
    "C36_two_callers_refuted",
    "C36_two_parameters_refuted",
    "C36_indirect_refuted"
   ],
   "note": "The three steps (copy of a function that calls its function parameter; copy of a caller; renaming in a synthesized body) preserve results for all tables, arguments and unfolding depths, for definitions with one function parameter used regularly (called, or passed on to the function being specialised or to itself). Example C36_case runs them on the output of the whole pipeline. Not true in general: two callers of one function (second copy calls the first caller), two function parameters (both replaced by one function), and callers whose callee is not called directly by a candidate (nothing is specialised). Missing: one theorem for the whole pipeline under a condition excluding these; converse direction (a copy may be defined where the original is not)."
  },
  {
   "property": "C37",
   "status": "proved",
   "theorems": [
    "C37_rosette",
    "C37_rosette_not_silent",
    "C37_sygus"
   ],
   "note": "For all contents and timings of files, exit codes and solver answers."
  },
  {
   "property": "C38",
   "status": "partial",
   "theorems": [
    "C38_rosette_refuted",
    "C38_excluded_refuted",
    "C38_rosette_partial",
    "C38_sygus_refuted",
    "C38_sygus_partial"
   ],
   "note": "False: Racket exiting without a solution file, any excluded definition, or cvc5 exiting with 0 and no solution loop for ever. Proved when every named solution file appears / a decisive line or positive exit code is seen."
  },
  {
   "property": "C39",
   "status": "proved",
   "theorems": [
    "C39_verdict",
    "C39_rosette_never_answers"
   ],
   "note": "unsat is reported exactly when cvc5 was not killed and its first line is unsat; the Rosette fallback always raises."
  },
  {
   "property": "C40",
   "status": "partial",
   "theorems": [
    "C40_unverified_refuted",
    "C40_endless_refuted",
    "C40_search_partial",
    "C40_verified_partial"
   ],
   "note": "False by default arguments (no verification) and termination is not guaranteed; everything else proved, including that results with verification on were answered unsat."
  },
  {
   "property": "C41",
   "status": "partial",
   "theorems": [
    "C41_fresh_names_refuted",
    "C41_direct_refuted",
    "C41_fresh_names_partial"
   ],
   "note": "False: names that look numbered collide, and direct requests are never renamed; proved for group variables whose requested names do not end in _<positive number>."
  },
  {
   "property": "C42",
   "status": "proved",
   "theorems": [
    "C42_object_set"
   ],
   "note": "Up to Object.__eq__."
  },
  {
   "property": "C43",
   "status": "partial",
   "theorems": [
    "C43_exprs",
    "C43_empty_raises",
    "C43_objects_refuted",
    "C43_objects_partial"
   ],
   "note": "and_exprs/or_exprs proved; and_objects/or_objects drop a conjunct that only compares equal (1 == True), proved otherwise."
  },
  {
   "property": "C44",
   "status": "partial",
   "theorems": [
    "C44_value_partial",
    "C44_reads_partial",
    "C44_line_partial",
    "C44_refuted_let",
    "C44_refuted_nary",
    "C44_refuted_insert",
    "C44_refuted_name"
   ],
   "note": "Proved: the expression read from a term has the value of the term (single-binding let, unary minus, calls of target functions, ite, sets, tuples included), every well-sorted term with binary operators is read with its sort, and from a whole candidate line every function gets a definition with the value of its term. Missing, with counterexamples: let with several bindings, set.insert of several elements, operators with more than two operands, div/mod, tuple components, function names that occur inside the word sygus-candidate."
  },
  {
   "property": "C45",
   "status": "partial",
   "theorems": [
    "C45_text_partial",
    "C45_program_partial",
    "C45_solver",
    "C45_functions_refuted",
    "C45_parentheses_refuted",
    "C45_arguments_refuted",
    "C45_selection_refuted",
    "C45_values_refuted"
   ],
   "note": "Proved for an inductively given class of expressions (all elementwise, scalar and reduction functions of the DSL, matrix-vector product, indexing, slices by rows and columns, appending, arithmetic, comparisons, connectives, conditionals, selections inlined as np.where): the generated text has exactly one reading in the grammar of Python, and its NumPy value, with broadcasting and machine integers, is the value of the lifted expression, for all inputs that fit (same dimensions, indices in range, positive divisors, numbers in the range of the elements). Also for the whole program: the two function definitions, the conversions of lists to arrays and the call. Every solver model is such an interpretation. Missing: floating point elements, sqrt/exp, functions that are inlined. Counterexamples for list_tail, list_prepend, matrix_prepend, list_concat, matrix_length, missing parentheses, third arguments, inlined calls, the choice of the selecting function, unequal lengths, overflow and negative divisors."
  },
  {
   "property": "C46",
   "status": "partial",
   "theorems": [
    "C46_index_partial",
    "C46_slice_partial",
    "C46_vectors",
    "C46_matrices_partial",
    "C46_refuted_negative",
    "C46_refuted_slices",
    "C46_refuted_undefined",
    "C46_parts_partial",
    "C46_column_partial"
   ],
   "note": "Proved in both backends for vectors and matrices of integers: indices in range, slices with non-negative bounds (also beyond the end), append, prepend, concatenation, length, equality and the empty list. False for negative indices and bounds, x[:] and steps, element assignment, concatenation of matrices, prepending an empty row in Racket (C16_empty_row_refuted), and length/append/prepend of lists of lists under SMT. slice_with_length, col_slice and col_slice_with_length are proved in both backends, col_vec in Racket."
  },
  {
   "property": "C47",
   "status": "partial",
   "theorems": [
    "C47_refuted",
    "C47_partial",
    "C47_ult_refuted",
    "C47_assume_refuted",
    "C47_names_refuted"
   ],
   "note": "False of the code as it is: computeVC raises for every function, because makeVar tests classes with isinstance. With that test repaired: whenever computeVC has a result for a graph as analysis.py makes them, the condition is valid exactly when no execution from the entry violates an assertion (both directions, any number of blocks and paths). Outside of these graphs counterexamples show it to be unsound: ult, assume after assert, clashing names. Missing: the library functions of models.py."
  },
  {
   "property": "C48",
   "status": "partial",
   "theorems": [
    "C48_partial",
    "C48_refuted"
   ],
   "note": "The text that LLVM prints is read back to the loops it describes, for block names without the words that the parser deletes. A block with \"latch\" in its name is dropped from the loop, which makes a wrong summary verify (C48_refuted)."
  },
  {
   "property": "C49",
   "status": "proved",
   "theorems": [
    "C49_executions",
    "C49_edges",
    "C49_sound"
   ],
   "note": "phi instructions are not modelled (the frontend does not support them); names of new blocks are assumed to be fresh."
  },
  {
   "property": "C50",
   "status": "partial",
   "theorems": [
    "C50_text_means_partial",
    "C50_validity_partial",
    "C50_refuted"
   ],
   "note": "Proved for expressions without negative literals and without operators with a single operand, for all interpretations of functions that agree on both sides. False for a negative literal, which prints as a word that SMT-LIB does not read as a number, and for And/Or/Add/Mul with one operand (C50_refuted)."
  },
  {
   "property": "C51",
   "status": "partial",
   "theorems": [
    "C51_kernel_partial",
    "C51_runs_partial",
    "C51_names",
    "C51_reduction_refuted",
    "C51_condition_refuted",
    "C51_int32_refuted",
    "C51_operands_refuted",
    "C51_clash_refuted",
    "C51_text"
   ],
   "note": "C51_kernel_partial: for every summary in the class summary_suits (elementwise and scalar tensor functions of all three element types, nested, selections with their whole body inlined; values within the element type) and every kernel that gaudi_codegen returns, a run over any part of the index space stores exactly the elements of the value and changes nothing else. C51_runs_partial: whether it runs depends only on the kinds of the arguments. C51_names (every kernel): variables are declared once, with fresh names, and only read after. Missing: reductions, conditions, elements outside the type, inexact 32 bit quotients, floating point rounding (lanes are exact rationals), names that clash with generated ones. Counterexamples: reductions never run (sum is not initialised), conditionals always take the first branch, 32 bit division rounds to nearest and after a product uses an intrinsic that does not exist, operands of sums are dropped and mod of tensors becomes division, a clash of names. C51_text: the generated text has one line per executed instruction, in order, and each line lexes and parses to the type, variable and expression that the semantics runs; header, loop lines and the storing line are stated too (names have to be identifiers, literals numbers)."
  },
  {
   "property": "C52",
   "status": "partial",
   "theorems": [
    "C52_glue_partial",
    "C52_glue_refuted"
   ],
   "note": "Proved for the types UINT_8 and FLOAT and results that are lists or matrices: number of input tensors, names, order and types of the scalars, the struct, the number of dimensions of the first tensor, and agreement with the header of the kernel. False otherwise (C52_glue_refuted): with INT32 every number counts as a tensor (for all summaries), a result that is a number takes the place of an input tensor, and a matrix may be announced with one dimension. The text of the C++ files is not modelled."
  },
  {
   "property": "C53",
   "status": "partial",
   "theorems": [
    "C53_function_partial",
    "C53_solution_partial",
    "C53_replaced",
    "C53_predicate_partial",
    "C53_refuted_display",
    "C53_refuted_step",
    "C53_refuted_keywords",
    "C53_refuted_order",
    "C53_refuted_capture",
    "C53_refuted_division",
    "C53_refuted_true",
    "C53_refuted_minus"
   ],
   "note": "C53_function_partial: for each function whose names are in scope (covered) and in whose declaration no object or ill-typed index is left (tidy), and every interpretation of the called functions, the declaration has a value of the right type for all arguments, and it is the one Python computes if Python computes one without negative indices, steps, list displays with elements, keyword arguments or divisors that are not positive. C53_solution_partial: the same for runs of whole solutions with mutual recursion to any depth, if parameters are in the order of their names. C53_replaced and C53_predicate_partial: the passes of synthesis.py. What is left out is left out because it is false: each of these constructs is accepted and read as something else (C53_refuted_*). Types are integers, booleans, vectors and matrices of integers, and functions on these. mypy and the text of the solution are not modelled (the model starts from the syntax tree with types)."
  },
  {
   "property": "C54",
   "status": "partial",
   "theorems": [
    "C54_rosette",
    "C54_none",
    "C54_shown",
    "C54_questions",
    "C54_not_found",
    "C54_smt_partial",
    "C54_refuted_smt",
    "C54_refuted_none"
   ],
   "note": "With Rosette as the verifier everything holds (C54_rosette, C54_not_found), in all configurations C54_shown and C54_questions. With cvc5 it is false: verify_benchmark_smt never looks at what cvc5 prints, so that a solution is reported although cvc5 answered sat (C54_refuted_smt); what is left is C54_smt_partial. Without a verifier the run ends in an exception (C54_refuted_none), so nothing is reported (C54_none). The prompts are modelled by what they are made of; the change made for the benchmark dissolve_blend_8 only (467-523) is not modelled, nor are the file names."
  },
  {
   "property": "C55",
   "status": "partial",
   "theorems": [
    "C55_shared_partial",
    "C55_refuted_types",
    "C55_refuted_objects",
    "C55_refuted_clash"
   ],
   "note": "Proved for lambdas in which the parser left no object and whose name is not that of a function in one of the texts. Otherwise false: two lambdas that differ only inside a sum of lists are taken for equal (C55_refuted_objects), a lambda can get the name of the solution itself (C55_refuted_clash). Equality ignores types: the identity on integers and on lists get one name and one declaration is dropped (C55_refuted_types)."
  },
  {
   "property": "C56",
   "status": "partial",
   "theorems": [
    "C56_text_partial",
    "C56_program_partial",
    "C56_functions_refuted",
    "C56_appending_refuted",
    "C56_comparison_refuted",
    "C56_choose_refuted"
   ],
   "note": "C56_text_partial: the text of an expression is written by the grammar of Python for exactly one expression, and this has the value of the lifted one whenever the numbers fit the element type. C56_program_partial: the two functions token by token, and the value returned when the second is called with lists. Restricted as C45 (shown: parentheses, arithmetic, functions with the right text) and, per library, by portable and select_ok: what the library lacks, such as numbers appended to a vector in MLX and PyTorch, mixed element types in TensorFlow, numbers in front of a comparison in PyTorch. Integer element types only. Outside these the text is wrong or raises (C56_*_refuted, and the refutations of C45 that concern the shared notations)."
  },
  {
   "property": "C57",
   "status": "partial",
   "theorems": [
    "C57_kernel_partial",
    "C57_scalar_refuted",
    "C57_values_refuted",
    "C57_errors_refuted"
   ],
   "note": "C57_kernel_partial: for bodies built from elementwise sums, differences and products, differences with a number, sums of two scaled vectors, leading rows of a matrix and selections by a constant or a parameter, nested arbitrarily, with all values in the range of the 8-bit element type and at most LEN elements in a direction. Missing: the functions for which the templates are wrong (the three refutations), reduce_sum, matrix_vec_mul, slices, division (floats), and the glue code around the kernel."
  },
  {
   "property": "C58",
   "status": "partial",
   "theorems": [
    "C58_values_partial",
    "C58_solver_partial",
    "C58_total",
    "C58_functions_partial",
    "C58_exp",
    "C58_transpose_refuted",
    "C58_sqrt_refuted",
    "C58_division_refuted",
    "C58_slice_refuted",
    "C58_rows_refuted"
   ],
   "note": "Full agreement is false: integer_sqrt and matrix_transpose never return what they should, division differs for negative divisors, slices for negative bounds, and Racket drops empty rows (the five refutations). C58_values_partial: everything else, under exactly these conditions. Missing: calls with arguments of other types than annotated, Python's recursion limit. firsts and rests are only used by matrix_transpose."
  },
  {
   "property": "C59",
   "status": "partial",
   "theorems": [
    "C59_blend_partial",
    "C59_dissolve_partial",
    "C59_normal_partial",
    "C59_softmax_partial",
    "C59_rmsnorm_partial",
    "C59_matmul_partial",
    "C59_transformer_partial",
    "C59_invariants_partial",
    "C59_dissolve_invariant_partial",
    "C59_invariant_refuted",
    "C59_overlay_refuted",
    "C59_burn_refuted",
    "C59_dodge_refuted",
    "C59_rounding_refuted",
    "C59_rmsnorm_refuted",
    "C59_matmul_refuted"
   ],
   "note": "Agreement for all inputs is false (the seven refutations). All 21 programs and solutions are proved equal under the stated conditions on pixels and lengths; the invariants of the outer loops of nine image programs are proved exact, and the one of screen_blend_8 is refuted. The other invariants are in C60. Missing: overflow of int, and the integer_exp/integer_sqrt stubs of the C++ files, for which the functions of dsl.py are put."
  },
  {
   "property": "C60",
   "status": "partial",
   "theorems": [
    "C60_inner_partial",
    "C60_dissolve_inner_partial",
    "C60_states",
    "C60_normal_partial",
    "C60_softmax_partial",
    "C60_rmsnorm_partial",
    "C60_matmul_partial",
    "C60_transformer_partial",
    "C60_entry_refuted",
    "C59_invariants_partial",
    "C59_dissolve_invariant_partial",
    "C59_invariant_refuted"
   ],
   "note": "All 32 stored invariants are covered. Exact under the conditions on pixels and lengths of C59, except invariant1 of screen_blend_8 (C59_invariant_refuted) and softmax_part1 at entry without a first position (C60_entry_refuted). Missing: overflow of int, and the conditions themselves."
  },
  {
   "property": "C61",
   "status": "partial",
   "theorems": [
    "C61_total",
    "C61_extract_partial",
    "C61_lang_refuted",
    "C61_ite_partial",
    "C61_ite_unchanged",
    "C61_ite_comma_refuted",
    "C61_ite_paren_refuted",
    "C61_args",
    "C61_args_set",
    "C61_args_type_refuted",
    "C61_args_double",
    "C61_rename",
    "C61_rename_refuted",
    "C61_strip"
   ],
   "note": "The claims about arguments hold for all inputs (of one type for a name). Blocks: the code must begin with a newline and the language must not be c++ (C61_lang_refuted). ite: no comma in the first two arguments and no closing parenthesis in the third; the theorem also shows that the result has no parentheses around it. Other calls are split wrongly (C61_ite_comma_refuted, C61_ite_paren_refuted). Missing: characters outside ASCII."
  },
  {
   "property": "C62",
   "status": "partial",
   "theorems": [
    "C62_total",
    "C62_assert_partial",
    "C62_unchanged",
    "C62_lines_refuted",
    "C62_comment_refuted"
   ],
   "note": "Proved for return statements that end in their line; a word that only contains return is no statement. A return statement on several lines stays (C62_lines_refuted), the word in a comment is taken for a statement (C62_comment_refuted). Missing: backslashes in the assertion, characters outside ASCII, the fixed text of the prompt."
  },
  {
   "property": "C63",
   "status": "partial",
   "theorems": [
    "C63_gpt_partial",
    "C63_gemini_partial",
    "C63_gemini_refuted",
    "C63_claude_refuted",
    "C63_gpt_loop",
    "C63_gpt_finds"
   ],
   "note": "True of GPT (C63_gpt_loop, C63_gpt_finds; the code taken from an answer as in C61). With Claude no run ever finds a solution (C63_claude_refuted, for all answers and verifiers); an answer of Gemini without a code block ends the run (C63_gemini_refuted) and only its first block is used. Missing: the loop over invariants, which is an oracle here (C54 has it)."
  },
  {
   "property": "C64",
   "status": "partial",
   "theorems": [
    "C64_augment_partial",
    "C64_let_refuted",
    "C64_total"
   ],
   "note": "On every expression that can be built it has a result of the same type (C64_total). The value is proved the same for expressions without Let and calls through values. With Let a variable of the new arguments may be captured (C64_let_refuted)."
  },
  {
   "property": "C65",
   "status": "partial",
   "theorems": [
    "C65_total",
    "C65_lines_partial",
    "C65_quotes_partial",
    "C65_text_refuted",
    "C65_code_lost_refuted"
   ],
   "note": "Proved for code with comments but no triple quotes outside them, and for code with triple quotes but no number sign. A number sign inside a text is taken for a comment (C65_text_refuted); inside a text in triple quotes it can remove its end, and then the code up to the next triple quotes disappears (C65_code_lost_refuted). Missing: both kinds mixed, characters outside ASCII."
  }
 ]
}