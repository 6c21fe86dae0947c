# Formal model of metalift in Rocq/Coq

## Trusted base

* Coq 8.16.1's kernel (and `coqchk`). No axioms of our own. `Print Assumptions` is run under every
  property theorem; the answer is "Closed under the global context" for every one of them.
* The correspondence between the Gallina model and `/repo`. It is by reading: every definition in a
  model file cites file and lines, and says where it simplifies.
* Reference semantics that we wrote ourselves and that are not in the repository: the meaning of IR
  expressions (`Semantics.v`), of the Python statements (`PySem.v`) and LLVM instructions (`LlSem.v`)
  handled by the frontends, of SMT-LIB integers and datatypes (`SmtPrelude.v`, `ListOps.v`), and of the
  Racket primitives used in `utils.rkt` (`RktModel.v`, `GenProofs.v`). They are small and kept apart from
  the model of the code.
* Not modelled: cvc5, Rosette/Z3, racket, mypy, llvmlite, the C++ to LLVM toolchain, the Python
  interpreter, the file system. They appear as arbitrary inputs (oracles) in the statements.

## What is modelled

| Code | Model | Proofs | Theorems |
| --- | --- | --- | --- |
| `metalift/ir.py`: trees, constructors, equality, `map_args` | `Ast.v`, `Dict.v` | `IrProofs*.v` | `Properties_IR.v` |
| `metalift/ir.py`: `simplify`, `rewrite`, counting, sharing of choices, `chooseArbitrarily`; `synthesis_common.py`: pruning, used names | `IrModel.v` | `IrProofs*.v` | `Properties_IR.v` |
| `metalift/ir.py`: `optimize_useless_equality`, `collectKnowledge` | `IrModel.v` | `OptProofs*.v` | `Properties_Opt.v` |
| `metalift/utils/*.smt` (prelude of every query) | `SmtPrelude.v`, `ListOps.v` | `SmtProofs.v` | `Properties_Smt.v` |
| `metalift/utils/utils.rkt`, `bounded.rkt`, name tables in `ir.py` | `RktModel.v` | `RktProofs.v` | `Properties_Rkt.v` |
| `metalift/ir.py`: `Int`, `Bool`, `List`, `Matrix`, ... objects | `ObjModel.v` | | `Properties_Obj.v` |
| `metalift/analysis.py` names, `frontend/utils.py`, `vc_util.py` | `UtilModel.v` | `UtilProofs.v` | `Properties_Util.v` |
| `metalift/utils/tenspiler/*.py`: tensor functions and axioms | `TensModel.v` | `LibSem.v`, `TensProofs.v`, `AxProofs.v`, `TensDemo*.v` | `Properties_Tens.v` |
| `synthesis_common.py`, `synthesize_rosette.py`, `synthesize_cvc5.py`: loops around the solvers; tenspiler's driver | `SynthModel.v` | `SynthProofs.v` | `Properties_Synth.v` |
| `smt_util.py`: ordering of definitions | `TopoModel.v` | `TopoProofs.v` | `Properties_Topo.v` |
| `smt_util.py`: specialisation; `parse_candidates` | `SpecModel.v` | `SpecProofs*.v` | `Properties_Spec.v` |
| `frontend/python.py` | `PyModel.v` | `PySem.v`, `PyProofs*.v` | `Properties_Py.v` |
| `frontend/llvm.py` | `LlModel.v` | `LlSem.v`, `LlProofs*.v` | `Properties_Ll.v`, `Properties_Ll2.v` |
| `frontend/llvm.py`, `analysis.py`: loop text | `LoopModel.v` | `LoopProofs.v` | `Properties_Loop.v` |
| `llvm-pass/addEmptyBlocks` | `PassModel.v` | `PassProofs.v` | `Properties_Pass.v` |
| `rosette_translator.py`: symbolic inputs | `GenModel.v` | `GenProofs.v` | `Properties_Gen.v` |
| `ir.py`: `toSMT`, `toSMTType`; reading s-expressions | `SmtPrint.v`, `SexpModel.v` (specification `SmtText.v`) | `SexpProofs.v`, `SmtPrintProofs.v`, `SmtDecode.v`, `SmtMeaning.v` | `Properties_Text.v` |
| synthesize_rosette.py 94-525 to_expr, 662-668; ir.py to_rosette, get_list_fn, get_integer_fn, toRosetteSimple | RosPrint.v (spec RosText.v) | RosProofs.v | Properties_Ros.v (C12) |
| synthesize_cvc5.py 57-228 generateAST, generateCandidates, toExpr | SygRead.v (spec SygText.v) | SygProofs.v | Properties_Syg.v (C44) |
| `to_python` methods, type annotations (ir.py) | PyText (Python itself: PyGram, PyShape) | PyParse, PyMean | Properties_PyText |
| computeVC, compute, merge, mergeStates, formVC, evalMLInst (vc.py) | VcModel (executions: VcSem) | VcProofs1-6 | Properties_Vc |
| optimize_vc_equality, once more | IrModel | OptProofs3-5 | Properties_Opt |
| `numpy_codegen` (tests/llvm/tenspiler/codegen/numpy_codegen.py) | NpModel (NumPy and Python themselves: NpSem, PyGram) | NpProofs, NpProofs2-5 | Properties_Np |
| `gaudi_codegen`, `get_glue_code_*` (tests/llvm/tenspiler/codegen/gaudi_codegen.py) | GdModel (TPC instructions: GdSem) | GdProofs1-10, GdText | Properties_Gd, Properties_GdText |
| `mypy_type_to_ir_type`, `parse_node`, `check_solution` (llmlift_scripts/parser.py), `replace_in_call(s)`, `process_ps_fn_decl`, `process_synthesized_fn_decls` (llmlift_scripts/synthesis.py) | LmModel (Python: LmSem) | LmProofs, LmProofs2-8 | Properties_Lm, Properties_LmLoop |
| `verify_benchmark_rosette`, `verify_benchmark_smt`, `run_llm_synthesis_algorithm` (llmlift_scripts/synthesis.py) | LmLoop (events: LmLoopSem) | LmLoopProofs | Properties_LmLoop |
| `mlx_codegen`, `tensorflow_codegen`, `pytorch_codegen` (tests/llvm/tenspiler/codegen) | AlModel (libraries: AlSem) | AlProofs, AlProofs2, AlProofs3 | Properties_Al |
| `gemmini_codegen` (tests/llvm/tenspiler/codegen): `helper`, kernel | GmModel (Gemmini library: GmSem) | GmProofs1-4 | Properties_Gm |
| `llmlift_scripts/dsl.py` (all functions) | DslModel | DslProofs | Properties_Dsl |
| `llmlift_scripts/correct_sols.py`, `benchmarks/{blend,llama}/cpp/*.cc`, `tests/llvm/tenspiler/{softmax,rmsnorm}*.cc` | SolModel | SolProofs | Properties_Sol |
| `llmlift_scripts/correct_sols.py` (invariants) | SolInvModel | SolProofs | Properties_SolInv |
| `llmlift_scripts/utils.py` | LuModel | LuProofs | Properties_Lu |
| `llmlift_scripts/prompts.py` (101-104) | PromptModel | | Properties_Prompt |
| `llmlift_scripts/synthesis.py` (`get_solution_from_*`, loop over summaries) | AnswerModel | | Properties_Answer |
| `metalift/smt_util.py`: `augment_arguments` | AugModel | | Properties_Aug |
| `llmlift_scripts/parser.py`: `remove_comments` | CommentModel | | Properties_Comment |
Left out: the casper and other example drivers in `tests/`, code generators other than those named, LLVM value
references inside expressions, floats, maps in the IR, and the text of files apart from what is named above.

When a property is false of the code as written, there is a refutation with a concrete witness (`..._refuted...`),
listed under Findings, together with the strongest positive theorem we have (`..._partial`) for the part that does
hold. `seeded/LOG.jsonl` records edits of the model that a theorem had to reject.

## Per property: how it is proved, and what is missing

**C01. Expression equality is a genuine equivalence that hashing respects.** Structural induction on trees; the hash is modelled as the code computes it (of the sorted dict keys, a constant).
*Status: proved.*
Theorems: `C01_equality`.

**C02. Expressions that compare equal are interchangeable.** Induction over pairs of equal trees.
*Status: partial.* False as stated: equality ignores types and Python has 1 == True. Proved when literals at the same position agree.
Theorems: `C02_interchangeable_refuted`, `C02_interchangeable_partial`.

**C03. Rebuilding an expression with the identity gives the same expression.** Induction over the predicate that describes what constructors accept.
*Status: partial.* False for the subclasses NonTerm/TargetCall/Target (replaced by their base class); proved otherwise.
Theorems: `C03_map_args_identity_refuted`, `C03_map_args_identity_partial`.

**C04. simplify never changes the meaning of an expression.** Induction; total, value preserving, normal form.
*Status: proved.*
Theorems: `C04_simplify`.

**C05. rewrite is simultaneous substitution.** Induction; substitution lemma for evaluation.
*Status: partial.* False under Let (capture); proved for Let-free expressions.
Theorems: `C05_rewrite_refuted`, `C05_rewrite_partial`.

**C06. Variable-use counts are exact.** Induction with an accumulator; evaluation does not depend on variables that are not counted.
*Status: proved.*
Theorems: `C06_counts`.

**C07. Dropping 'useless' equalities keeps the verification condition's validity.** Induction over conditions with implications in positive position; a counterexample of the result is turned into one of the input by fixing the dropped variables. For the equivalence (`OptProofs3-5`): a relation between a condition and the one with some equations replaced by new variables, where each replaced equation has a side that occurs nowhere else; assignments are carried over in both directions, picking for the variable that occurs once a value equal to or different from the other side as needed.
*Status: partial.* False as stated in three ways (raises KeyError; wrong polarity; stale counts). Proved: on conditions whose implications are only in positive position it terminates and never turns a falsifiable condition into a valid one; and when no equation is propagated, on all well-typed conditions, it ends without an exception and the result is valid exactly when the input is. Missing: an equivalence for conditions in which equations are propagated and counts stay current.
Theorems: `C07_raises_refuted`, `C07_invalid_becomes_valid_refuted`, `C07_valid_becomes_invalid_refuted`, `C07_no_counterexample_lost_partial`, `C07_quiet_partial`.

**C08. Sharing repeated choices in a grammar does not change the grammar.** Expanding the shared definitions gives the expression back, and nothing else: the expansion exists and is unique; induction.
*Status: partial.* False when an integer and a boolean choice compare equal; proved when equal choices are identical. In any case the emitted definitions have exactly one expansion, which compares equal to the body.
Theorems: `C08_sharing_refuted`, `C08_sharing_partial`, `C08_emitted_once_partial`.

**C09. chooseArbitrarily picks a program of the grammar.** Membership in the language of the grammar, by induction.
*Status: partial.* False when a first alternative contains a choice; proved otherwise.
Theorems: `C09_chooseArbitrarily_refuted`, `C09_chooseArbitrarily_partial`.

**C10. Pruning conditionals of synthesized functions preserves what they compute.** Evaluation with fuel over the function table.
*Status: proved.*
Theorems: `C10_prune`.

**C11. The set of used DSL functions is exactly the set of called functions.** Set equality by induction.
*Status: proved.*
Theorems: `C11_used_names`.

**C12. What is printed for Rosette is read back as the same expression.** RosPrint.v models to_rosette of every expression class and to_expr of synthesize_rosette.py, with the branches of library calls as a table; RosText.v says which expressions are readable. The printed text is shown to have the tokens of a tree (styles_reads), and reading that tree gives the expression back (readable_round). C12_file_partial composes this with parse_output and candidate_dict: in a solution file with any number of definitions, each function gets exactly the expression whose text stands there, whatever the line breaks. Not modelled in to_expr: choices, Target objects, typeHint.
*Status: partial.* Proved for every expression that RosText.readable accepts (variables, numbers, truth values, operators, sets, tuples, user functions, library calls with the types the reader assigns), for every layout of the text and for whole solution files with any number of definitions. The full statement is false: list_append, let, rows of matrices, tensor slices and the empty matrix are not read back. A let written with parentheses is read back.
Theorems: `C12_roundtrip_partial`, `C12_unambiguous_partial`, `C12_file_partial`, `C12_refuted_append`, `C12_refuted_let`, `C12_refuted_matrix`, `C12_refuted_type`, `C12_refuted_slice`, `C12_let_partial`.

**C13. Generated Python text means what the expression means.** `PyText` models the `to_python` methods and type annotations. `PyGram` is an independent specification of Python: a lexer, a recursive-descent reading of the precedence levels (conditional, or, and, not, comparison chains, sums, products, unary minus, primaries, displays with stars), and values (floor division, negative indices, clamped slices, short-circuiting operators, `True == 1`). `PyShape` says which expressions have all needed parentheses and what library functions compute. The proof (`PyParse`, `PyMean`) is an induction over expressions that carries, for each level, how the tokens are read when something follows.
*Status: partial.* False in general: parentheses are missing around sums in products, and similar. Proved: for every expression whose operands bind tightly enough (a syntactic condition), the text is read in exactly one way by Python's lexical and precedence rules and the tree that is read has the value of the expression; same for whole function definitions. Each way in which it fails has a counterexample theorem.
Theorems: `C13_unambiguous`, `C13_text_partial`, `C13_function_partial`, `C13_product_refuted`, `C13_difference_refuted`, `C13_quotient_refuted`, `C13_not_refuted`, `C13_and_refuted`, `C13_comparison_refuted`, `C13_tuple_refuted`, `C13_name_refuted`, `C13_annotation_refuted`.

**C14. SMT text is unambiguous.** The reader is a tokeniser and a stack parser; the printed text is shown to tokenise to the tokens of the tree by induction on the expression; a decoder recovers the structure from the tree.
*Status: partial.* Proved for all expressions whose names are words that SMT-LIB does not use, that do not begin with set., map_ or tuple, and such that functions and variables have different names (fn); also for whole definitions and axioms. Names beginning with set- or map- are renamed, also those of variables, so without the condition two expressions can have one text (C14_refuted_names) and a variable two texts (C14_refuted_variable). A tensor has the sort of a list of numbers (C14_refuted_tensor).
Theorems: `C14_single_tree`, `C14_unambiguous`, `C14_definition`, `C14_axiom`, `C14_refuted_names`, `C14_refuted_variable`, `C14_refuted_tensor`.

**C15. Symbolic inputs for synthesis are independent and have the documented shape.** Names are sequences of segments that can be read back; values by induction on the type, in both directions.
*Status: partial.* For variables without a minus sign in their names and bounds from 2: all generated names differ, and the variables take exactly the combinations of values of the stated shape (lists up to the bound, sets of integers, nested types). False for matrices: only those with exactly bound columns are tried (C15_refuted_columns), none but the empty one for bound 1; and a variable may have the name of a part of another one (C15_refuted_collision).
Theorems: `C15_names_partial`, `C15_values_partial`, `C15_lists`, `C15_matrices_partial`, `C15_refuted_columns`, `C15_refuted_small_bounds`, `C15_refuted_collision`.

**C16. Synthesis and verification give list operations the same meaning.** Each function compared for all arguments, in every model of the prelude.
*Status: partial.* False for negative indices, empty matrix rows and 3-D tensors; proved for every list function on all other arguments (good_args) and every model of the prelude.
Theorems: `C16_negative_tail_refuted`, `C16_negative_get_refuted`, `C16_empty_row_refuted`, `C16_tensor3d_refuted`, `C16_list_operations_partial`.

**C17. Integer division and modulo agree between source, synthesis, verification and generated code.** Exact characterisation over the integers.
*Status: partial.* False for negative operands and for divisor 0; the exact set of agreement for non-zero divisors is characterised.
Theorems: `C17_div_partial`, `C17_mod_partial`, `C17_negative_refuted`, `C17_by_zero_refuted`.

**C18. integer_exp and integer_sqrt agree between synthesis and verification.** Exact characterisation over the integers.
*Status: partial.* integer_sqrt is wrong on both sides and different; integer_exp agrees exactly for n < 64.
Theorems: `C18_racket_sqrt_refuted`, `C18_smt_sqrt_refuted`, `C18_exp_fuel_refuted`, `C18_exp_partial`.

**C19. Rosette sets are sets.** Refinement to sets of integers on the representation invariant (sorted lists), over all histories.
*Status: proved.* For sets of integers.
Theorems: `C19_sets`.

**C20. Rosette maps are finite maps.** Refinement to finite maps on the representation invariant.
*Status: partial.* Lookup/insert/contains proved; map-eq is order dependent, map-normalize fails; map-union/values/keys are commented out in the source, as is the merge function.
Theorems: `C20_maps_partial`, `C20_eq_refuted`, `C20_normalize_refuted`.

**C21. The axioms given to the verifier are consistent.** No structure satisfies the prelude; one is built for the prelude without the contradictory part.
*Status: partial.* False: the matrix_transpose assertions are contradictory on every non-empty matrix, so every query is unsat. Proved: without the two transpose assertions the prelude has a model.
Theorems: `C21_prelude_consistent_refuted`, `C21_every_matrix_refuted`, `C21_query_unsat_refuted`, `C21_prelude_consistent_partial`.

**C22. The prelude pins down the list functions.** Induction on lists inside an arbitrary model of the prelude.
*Status: partial.* Every model of the prelude (without the contradictory transpose assertions) agrees with the Coq list functions on the stated domains; out-of-range list_get is not determined.
Theorems: `C22_list_functions_partial`, `C22_matrix_functions_partial`, `C22_redundant_refuted`, `C22_redundant_partial`, `C22_list_lemmas_partial`, `C22_get_out_of_range_refuted`.

**C23. Tensor DSL functions are pointwise operations.** Induction on vectors and matrices, for interpretations that follow either list library.
*Status: partial.* Vectors: proved for all vectors in both backends. Matrices: proved for every matrix in the SMT prelude and for matrices without empty rows in Racket; false in Racket with an empty row (matrix-prepend drops it).
Theorems: `C23_vec_elemwise`, `C23_vec_scalar`, `C23_vec_map`, `C23_selection`, `C23_dissolve_selection`, `C23_matrix_refuted`, `C23_matrix_elemwise_partial`, `C23_matrix_scalar_partial`, `C23_matrix_selection_partial`.

**C24. User-supplied lemmas about the tensor DSL are theorems.** Each lemma compared with the definition it is about.
*Status: partial.* False: every axiom except reduce_sum_axiom contradicts the definition of its function (index 0), so prelude + definition + axiom has no model. Proved: they hold for index >= 1 (reduce_max: 1 <= index < length; matrix_vec_mul: first row fits), and reduce_sum_axiom is equivalent to out-of-range reads being 0.
Theorems: `C24_step_axioms_refuted`, `C24_step_axioms_partial`, `C24_selection_axiom_refuted`, `C24_selection_axiom_partial`, `C24_dissolve_axiom_refuted`, `C24_dissolve_axiom_partial`, `C24_reduce_sum_axiom_refuted`, `C24_reduce_sum_axiom_partial`, `C24_reduce_max_axiom_refuted`, `C24_reduce_max_axiom_partial`, `C24_matrix_vec_mul_axiom_refuted`, `C24_matrix_vec_mul_axiom_partial`.

**C25. Reductions compute sum, product, maximum and matrix-vector product.** Induction on vectors.
*Status: partial.* Sum and product: all vectors. Maximum: all non-empty vectors (empty gives -32). Dot products: matrices whose rows have the length of the non-empty vector (a shorter row truncates the result, zero columns give the empty vector).
Theorems: `C25_reduce_sum`, `C25_reduce_mul`, `C25_reduce_max_partial`, `C25_reduce_max_refuted`, `C25_matrix_vec_mul_partial`, `C25_matrix_vec_mul_refuted`.

**C26. Transposition transposes.** Induction with fuel.
*Status: partial.* The SMT definition has no solution; Racket correct within fuel for matrices with at least one row and one column.
Theorems: `C26_fuel_refuted`, `C26_empty_rows_refuted`, `C26_transpose_partial`, `C21_every_matrix_refuted`.

**C27. Verified lifting of loop-free Python functions is sound.** Reference semantics of the Python subset; simulation between it and the symbolic state; every execution is covered by the condition.
*Status: partial.* Proved for the loop-free programs of PySem.supported (one assertion-carrying return below ifs, no list changes inside ifs, no chained comparisons) with a worked example for all inputs. False in general: with two returns in an if only the first assertion is kept (C27_refuted); list changes inside an if (C29_refuted). For sets, which these programs leave out, the effect of add and remove on the state is proved on its own.
Theorems: `C27_partial`, `C27_refuted`, `C29_refuted`, `C27_sets_partial`.

**C28. Verified lifting of Python functions with loops is sound.** As C27, with the invariant of each loop by induction on its iterations.
*Status: partial.* Soundness of the verification condition proved for any number of top-level loops that write neither parameters nor variables of an earlier loop and contain no return or loop. False in general, with five counterexamples: a loop writing a parameter, two loops writing one variable, nested loops, a return in a loop, and the State() default lists shared between analysed functions.
Theorems: `C28_partial`, `C28_refuted_parameter`, `C28_refuted_two_loops`, `C28_refuted_nested`, `C28_refuted_return`, `C28_refuted_shared_state`.

**C29. Merging the two branches of a conditional keeps each branch's values.** Case analysis on all types of variables; the symbolic state after the if.
*Status: partial.* Proved for all if statements: integer and Boolean variables get the value of the branch that is taken, tuples too up to C02. List, matrix and set variables always get the value of the then branch, which makes a wrong summary verify (C29_refuted).
Theorems: `C29_partial`, `C29_refuted`.

**C30. Comparison expressions mean what they mean in Python.** Values of the generated comparisons.
*Status: partial.* Single comparisons have the value that Python gives them. A chain has the value of its last comparison (5 < 3 < 4 is true); proved right when the earlier ones hold. != raises.
Theorems: `C30_partial`, `C30_partial_chain`, `C30_refuted`, `C30_not_equal`.

**C31. Verified lifting of loop-free LLVM functions is sound.** Reference semantics of LLVM functions; invariant of the visitor over its work list; every path is covered by the condition.
*Status: partial.* Proved for the loop-free functions of LlSem (every conditional branch to two blocks of their own, as the AddEmptyBlocks pass leaves them, or to a block that does nothing and its successor): if the condition is valid, the summary describes every returning execution. False without that pass: an if without else loses its empty path condition (C31_refuted).
Theorems: `C31_partial`, `C31_refuted`.

**C32. Verified lifting of LLVM functions with loops is sound.** As C31, with invariants of loops by induction on executions. LlSem describes the class by a checkable annotation (types, available registers, pointers that are never read, Booleans that hold constants, where the result is untouched). Properties_Ll2 checks it for a compiled benchmark.
*Status: partial.* Proved for any number of loops, each two of which write disjoint sets of variables or are nested in such a way that nothing known at the head of the inner loop depends on a variable it writes (C32_nested is a function with nested loops). False for two loops writing one variable and for nested loops when the outer invariant speaks about a variable that the inner loop writes. The havocs of a loop are shown to be complete: whatever pointer an instruction of the loop writes to is among them. Vectors, results written through an sret pointer, integer_sqrt and integer_exp, the untyped pointers and the destructor flag that clang adds are covered, so that the theorem applies to transformer_part4.ll as it is in /repo with the preconditions and invariant arguments of its driver: C32_part4 gives what that function returns for all arguments. Also false when the function calls something the frontend does not know, such as clear, and when a result vector is extended after the loop.
Theorems: `C32_partial`, `C32_refuted_two_loops`, `C32_refuted_nested`, `C32_havocs_partial`, `C32_part4`, `C32_refuted_skipped_call`, `C32_refuted_after_loop`, `C32_nested`.

**C33. Machine arithmetic and comparisons of the source are modelled faithfully.** Instruction by instruction against 32-bit arithmetic.
*Status: partial.* Arithmetic and comparison instructions get their 32-bit meaning when no addition, subtraction or multiplication overflows, division is of non-negative by positive numbers and unsigned comparison of numbers of one sign. False otherwise; ule, ugt and uge are refused.
Theorems: `C33_partial`, `C33_partial_compare`, `C33_refuted`.

**C34. Blocks are processed once each, after their predecessors.** Measure and invariants of the passes over the blocks.
*Status: partial.* Every reachable block is visited once, after its predecessors by non-back edges, within a number of passes bounded by the number of blocks, when no latch jumps to its header in two ways. With such a latch nothing after it is visited (C34_refuted).
Theorems: `C34_partial`, `C34_bound`, `C34_refuted`.

**C35. Target-language definitions are emitted in dependency order.** The library's topological sort is a parameter with a specification, which an implementation is shown to meet.
*Status: partial.* For declarations with distinct names the result is a permutation of the input in which every declaration comes after those it mentions (C35_order), and sorting raises only on a cycle among the recorded dependencies (C35_raises_partial). Not true in general: two declarations of the same name collapse into one (C35_duplicates_refuted), and a variable that is merely named like a function counts as a dependency, so an acyclic program can be rejected (C35_raises_refuted). networkx.topological_sort and set iteration order are parameters constrained by a specification; C35_library_spec_met shows an algorithm meeting it.
Theorems: `C35_order`, `C35_duplicates_refuted`, `C35_raises_refuted`, `C35_raises_partial`, `C35_library_spec_met`.

**C36. Specialising higher-order functions for SMT preserves meaning.** Evaluation by unfolding with fuel; simulation between original and copy.
*Status: partial.* The three steps (copy of a function that calls its function parameter; copy of a caller; renaming in a synthesized body) preserve results for all tables, arguments and unfolding depths, for definitions with one function parameter used regularly (called, or passed on to the function being specialised or to itself). Example C36_case runs them on the output of the whole pipeline. Not true in general: two callers of one function (second copy calls the first caller), two function parameters (both replaced by one function), and callers whose callee is not called directly by a candidate (nothing is specialised). Missing: one theorem for the whole pipeline under a condition excluding these; converse direction (a copy may be defined where the original is not).
Theorems: `C36_copy_partial`, `C36_caller_partial`, `C36_candidate_partial`, `C36_two_callers_refuted`, `C36_two_parameters_refuted`, `C36_indirect_refuted`.

**C37. Only verified candidates are returned.** Transition system with oracles for processes and files; induction on runs.
*Status: proved.* For all contents and timings of files, exit codes and solver answers.
Theorems: `C37_rosette`, `C37_rosette_not_silent`, `C37_sygus`.

**C38. Synthesis always ends with a verdict.** Infinite runs by coinduction-free invariants; termination by measures.
*Status: partial.* False: Racket exiting without a solution file, any excluded definition, or cvc5 exiting with 0 and no solution loop for ever. Proved when every named solution file appears / a decisive line or positive exit code is seen.
Theorems: `C38_rosette_refuted`, `C38_excluded_refuted`, `C38_rosette_partial`, `C38_sygus_refuted`, `C38_sygus_partial`.

**C39. A verification run that did not finish is never taken as a proof.** Case analysis on the oracle's answers.
*Status: proved.* unsat is reported exactly when cvc5 was not killed and its first line is unsat; the Rosette fallback always raises.
Theorems: `C39_verdict`, `C39_rosette_never_answers`.

**C40. Widening the search keeps earlier guarantees.** Induction on the search.
*Status: partial.* False by default arguments (no verification) and termination is not guaranteed; everything else proved, including that results with verification on were answered unsat.
Theorems: `C40_unverified_refuted`, `C40_endless_refuted`, `C40_search_partial`, `C40_verified_partial`.

**C41. Generated variable names are fresh.** Invariant over all histories of requests; parsing of decimal suffixes.
*Status: partial.* False: names that look numbered collide, and direct requests are never renamed; proved for group variables whose requested names do not end in _<positive number>.
Theorems: `C41_fresh_names_refuted`, `C41_direct_refuted`, `C41_fresh_names_partial`.

**C42. ObjectSet is a set in insertion order.** Invariant over all histories.
*Status: proved.* Up to Object.__eq__.
Theorems: `C42_object_set`.

**C43. Conjunction and disjunction helpers mean conjunction and disjunction.** Induction on lists.
*Status: partial.* and_exprs/or_exprs proved; and_objects/or_objects drop a conjunct that only compares equal (1 == True), proved otherwise.
Theorems: `C43_exprs`, `C43_empty_raises`, `C43_objects_refuted`, `C43_objects_partial`.

**C44. SyGuS solutions are read back faithfully.** SygRead.v models toExpr and generateCandidates of synthesize_cvc5.py branch by branch; SygText.v states which terms are meant (term), when the functions of the IR and of SMT-LIB agree (same_functions) and which terms are well-sorted (sorted). The meaning of a term is sval of SmtText.v, the same that C14 uses for printed formulas. By induction on the size of the term, with the invariant that the substituted let expressions have the values of the bound names. The (as set.empty ..) branch always gives Set[Int]; the proof takes the value of the empty set to be independent of its element type. Not modelled: the loop that reads the solver output (its use of the result is C36).
*Status: partial.* Proved: the expression read from a term has the value of the term (single-binding let, unary minus, calls of target functions, ite, sets, tuples included), every well-sorted term with binary operators is read with its sort, and from a whole candidate line every function gets a definition with the value of its term. Missing, with counterexamples: let with several bindings, set.insert of several elements, operators with more than two operands, div/mod, tuple components, function names that occur inside the word sygus-candidate.
Theorems: `C44_value_partial`, `C44_reads_partial`, `C44_line_partial`, `C44_refuted_let`, `C44_refuted_nary`, `C44_refuted_insert`, `C44_refuted_name`.

**C45. Generated NumPy code computes the lifted expression.** NpModel follows helper and the printing of the two functions in numpy_codegen.py. NpSem is the specification: NumPy arrays of rank 0, 1 and 2 with broadcasting, elements that are wrapped by an arbitrary function W (identity between lo and hi), the value npvalue of a parsed Python expression (PyGram), the meaning tmean of the tensor functions, and the class shown of expressions. By induction on shown: the text is lexed and parsed to one expression (precedence levels), and that expression evaluates to the value; for selections the invariant is that every subexpression of the body of the selecting function stands for the matrix of its values on all pairs of elements.
*Status: partial.* Proved for an inductively given class of expressions (all elementwise, scalar and reduction functions of the DSL, matrix-vector product, indexing, slices by rows and columns, appending, arithmetic, comparisons, connectives, conditionals, selections inlined as np.where): the generated text has exactly one reading in the grammar of Python, and its NumPy value, with broadcasting and machine integers, is the value of the lifted expression, for all inputs that fit (same dimensions, indices in range, positive divisors, numbers in the range of the elements). Also for the whole program: the two function definitions, the conversions of lists to arrays and the call. Every solver model is such an interpretation. Missing: floating point elements, sqrt/exp, functions that are inlined. Counterexamples for list_tail, list_prepend, matrix_prepend, list_concat, matrix_length, missing parentheses, third arguments, inlined calls, the choice of the selecting function, unequal lengths, overflow and negative divisors.
Theorems: `C45_text_partial`, `C45_program_partial`, `C45_solver`, `C45_functions_refuted`, `C45_parentheses_refuted`, `C45_arguments_refuted`, `C45_selection_refuted`, `C45_values_refuted`.

**C46. List syntax of the IR means Python list semantics.** The generated calls are evaluated in both list libraries and compared with Python's list semantics.
*Status: partial.* Proved in both backends for vectors and matrices of integers: indices in range, slices with non-negative bounds (also beyond the end), append, prepend, concatenation, length, equality and the empty list. False for negative indices and bounds, x[:] and steps, element assignment, concatenation of matrices, prepending an empty row in Racket (C16_empty_row_refuted), and length/append/prepend of lists of lists under SMT. slice_with_length, col_slice and col_slice_with_length are proved in both backends, col_vec in Racket.
Theorems: `C46_index_partial`, `C46_slice_partial`, `C46_vectors`, `C46_matrices_partial`, `C46_refuted_negative`, `C46_refuted_slices`, `C46_refuted_undefined`, `C46_parts_partial`, `C46_column_partial`.

**C47. The legacy block-based verification condition is sound and complete.** `VcModel` follows vc.py (State, merge, mergeStates, formVC, compute, evalMLInst, computeVC). `VcSem` is independent of it: a small-step execution of annotated blocks with a store of registers and cells, where a havoc picks any value of the type, an unsatisfied assume stops and an assert lets the execution go on; a violation is an execution from the entry that comes to an assertion with value false; well-formed graphs. The proof shows an invariant of the passes of computeVC: for each finished block, its merged symbolic state has, along every path that the assumed conditions allow, the values of the store (registers as variables constrained by the block's equations), and that two paths into a block are never both allowed. From a violating execution an assignment of the variables is built that falsifies the condition, and conversely an assignment falsifying it determines a path from the entry whose execution violates the assertion.
*Status: partial.* False of the code as it is: computeVC raises for every function, because makeVar tests classes with isinstance. With that test repaired: whenever computeVC has a result for a graph as analysis.py makes them, the condition is valid exactly when no execution from the entry violates an assertion (both directions, any number of blocks and paths). Outside of these graphs counterexamples show it to be unsound: ult, assume after assert, clashing names. Missing: the library functions of models.py.
Theorems: `C47_refuted`, `C47_partial`, `C47_ult_refuted`, `C47_assume_refuted`, `C47_names_refuted`.

**C48. Loop analysis finds the loop.** Character strings; printing LLVM's text and reading it with the code's splits and replacements.
*Status: partial.* The text that LLVM prints is read back to the loops it describes, for block names without the words that the parser deletes. A block with "latch" in its name is dropped from the loop, which makes a wrong summary verify (C48_refuted).
Theorems: `C48_partial`, `C48_refuted`.

**C49. Splitting branch edges preserves the program.** Graph simulation in both directions.
*Status: proved.* phi instructions are not modelled (the frontend does not support them); names of new blocks are assumed to be fresh.
Theorems: `C49_executions`, `C49_edges`, `C49_sound`.

**C50. SMT text means what the expression means.** A semantics of SMT-LIB terms on s-expressions, compared with the semantics of expressions by induction.
*Status: partial.* Proved for expressions without negative literals and without operators with a single operand, for all interpretations of functions that agree on both sides. False for a negative literal, which prints as a word that SMT-LIB does not read as a number, and for And/Or/Add/Mul with one operand (C50_refuted).
Theorems: `C50_text_means_partial`, `C50_validity_partial`, `C50_refuted`.

**C51. A generated Gaudi kernel stores the elements of the summary's value.** GdModel follows expr_codegen and convert_arg branch by branch: state is the list of instructions, the dictionary of deduplicated instructions and the counter; the result is a record with header parameters, shape of the loops and body. GdSem is the specification: vectors of exact rationals (one lane per element), the meaning of each TPC intrinsic that is used, run of a kernel over an index space, and the elements of a lifted value. The generator is turned into an inductive relation (GdProofs1-2); names are fresh by an invariant on the counter (GdProofs3); execution keeps the invariant that each declared variable holds the value of its instruction (GdProofs4); lane arithmetic (GdProofs5-6) and induction on the generation give the value of each subexpression (GdProofs7-8); GdProofs9 is the kernel with its loops, GdProofs10 that running does not depend on values. GdText: the lines of the text are read with the lexer and parser of PyGram (the expressions in the instructions are written alike in C and Python); an induction over the generation relation shows the forms of the instructions.
*Status: partial.* C51_kernel_partial: for every summary in the class summary_suits (elementwise and scalar tensor functions of all three element types, nested, selections with their whole body inlined; values within the element type) and every kernel that gaudi_codegen returns, a run over any part of the index space stores exactly the elements of the value and changes nothing else. C51_runs_partial: whether it runs depends only on the kinds of the arguments. C51_names (every kernel): variables are declared once, with fresh names, and only read after. Missing: reductions, conditions, elements outside the type, inexact 32 bit quotients, floating point rounding (lanes are exact rationals), names that clash with generated ones. Counterexamples: reductions never run (sum is not initialised), conditionals always take the first branch, 32 bit division rounds to nearest and after a product uses an intrinsic that does not exist, operands of sums are dropped and mod of tensors becomes division, a clash of names. C51_text: the generated text has one line per executed instruction, in order, and each line lexes and parses to the type, variable and expression that the semantics runs; header, loop lines and the storing line are stated too (names have to be identifiers, literals numbers).
Theorems: `C51_kernel_partial`, `C51_runs_partial`, `C51_names`, `C51_reduction_refuted`, `C51_condition_refuted`, `C51_int32_refuted`, `C51_operands_refuted`, `C51_clash_refuted`, `C51_text`.

**C52. The Gaudi glue code describes the kernel's parameters.** gaudi_glue (GdModel) computes what get_glue_code_cpp and get_glue_code_hpp insert into their templates; induction on the list of parameters, and kernel_inv for the header of the kernel.
*Status: partial.* Proved for the types UINT_8 and FLOAT and results that are lists or matrices: number of input tensors, names, order and types of the scalars, the struct, the number of dimensions of the first tensor, and agreement with the header of the kernel. False otherwise (C52_glue_refuted): with INT32 every number counts as a tensor (for all summaries), a result that is a number takes the place of an input tensor, and a matrix may be announced with one dimension. The text of the C++ files is not modelled.
Theorems: `C52_glue_partial`, `C52_glue_refuted`.

**C53. What is read from a language model's solution means what the solution computes.** LmModel follows parse_node branch by branch in a state monad that keeps what was appended before an exception; IR objects left among the arguments are visible as nodes. LmSem is the specification: an evaluator for Python expressions and functions, with the excluded constructs behind a flag, and when an interpretation agrees with it. parse_sound (LmProofs3) is an induction on the syntax tree with the invariant that every lambda found is defined; fun_sound and run_sound (LmProofs4) go to functions and, by induction on the depth of calls, to runs; replace_all (LmProofs5) shows that replacing the pairs one after another is the same as erasing all functions passed; ps_sound (LmProofs8) is the predicate.
*Status: partial.* C53_function_partial: for each function whose names are in scope (covered) and in whose declaration no object or ill-typed index is left (tidy), and every interpretation of the called functions, the declaration has a value of the right type for all arguments, and it is the one Python computes if Python computes one without negative indices, steps, list displays with elements, keyword arguments or divisors that are not positive. C53_solution_partial: the same for runs of whole solutions with mutual recursion to any depth, if parameters are in the order of their names. C53_replaced and C53_predicate_partial: the passes of synthesis.py. What is left out is left out because it is false: each of these constructs is accepted and read as something else (C53_refuted_*). Types are integers, booleans, vectors and matrices of integers, and functions on these. mypy and the text of the solution are not modelled (the model starts from the syntax tree with types).
Theorems: `C53_function_partial`, `C53_solution_partial`, `C53_replaced`, `C53_predicate_partial`, `C53_refuted_display`, `C53_refuted_step`, `C53_refuted_keywords`, `C53_refuted_order`, `C53_refuted_capture`, `C53_refuted_division`, `C53_refuted_true`, `C53_refuted_minus`.

**C54. LLMLift reports only solutions that were verified, and asks a bounded number of questions.** LmLoop models both loops over an outside that may answer anything, depending on everything that happened before, with the list of events as result; LmLoopSem are predicates on that list. Inductions on the number of tries (LmLoopProofs). The file of C54_rosette is described by what it has to contain (rosette_file), not by the functions that make it.
*Status: partial.* With Rosette as the verifier everything holds (C54_rosette, C54_not_found), in all configurations C54_shown and C54_questions. With cvc5 it is false: verify_benchmark_smt never looks at what cvc5 prints, so that a solution is reported although cvc5 answered sat (C54_refuted_smt); what is left is C54_smt_partial. Without a verifier the run ends in an exception (C54_refuted_none), so nothing is reported (C54_none). The prompts are modelled by what they are made of; the change made for the benchmark dissolve_blend_8 only (467-523) is not modelled, nor are the file names.
Theorems: `C54_rosette`, `C54_none`, `C54_shown`, `C54_questions`, `C54_not_found`, `C54_smt_partial`, `C54_refuted_smt`, `C54_refuted_none`.

**C55. Lambdas of a solution and its invariants that share a name are the same function.** Invariant of the whole parser, also after exceptions (check_names, LmProofs6): names in the dictionary are distinct, made from counters below the current ones, and every declaration is a function of the text or carries a name from the dictionary whose key equals it. Expressions that are equal and have been made by the parser have the same value (eq_means); parse_clean (LmProofs7) gives the shape of what is made.
*Status: partial.* Proved for lambdas in which the parser left no object and whose name is not that of a function in one of the texts. Otherwise false: two lambdas that differ only inside a sum of lists are taken for equal (C55_refuted_objects), a lambda can get the name of the solution itself (C55_refuted_clash). Equality ignores types: the identity on integers and on lists get one name and one declaration is dropped (C55_refuted_types).
Theorems: `C55_shared_partial`, `C55_refuted_types`, `C55_refuted_objects`, `C55_refuted_clash`.

**C56. Generated MLX, TensorFlow and PyTorch programs compute the lifted function.** AlModel is one model of the three files, with the library as a parameter; lines of all three are cited. AlSem gives the functions of the libraries their meaning by those of NumPy in NpSem, with what a library refuses. AlProofs (texts and tokens), AlProofs2 and AlProofs3 (values; shown_lright by induction on shown). The element type float32 that MLX needs for matmul is read from the conversion lines of the program, so a wrong has_matmul breaks C56_program_partial.
*Status: partial.* C56_text_partial: the text of an expression is written by the grammar of Python for exactly one expression, and this has the value of the lifted one whenever the numbers fit the element type. C56_program_partial: the two functions token by token, and the value returned when the second is called with lists. Restricted as C45 (shown: parentheses, arithmetic, functions with the right text) and, per library, by portable and select_ok: what the library lacks, such as numbers appended to a vector in MLX and PyTorch, mixed element types in TensorFlow, numbers in front of a comparison in PyTorch. Integer element types only. Outside these the text is wrong or raises (C56_*_refuted, and the refutations of C45 that concern the shared notations).
Theorems: `C56_text_partial`, `C56_program_partial`, `C56_functions_refuted`, `C56_appending_refuted`, `C56_comparison_refuted`, `C56_choose_refuted`.

**C57. Generated Gemmini kernels store the value of the lifted function.** GmModel follows `helper` branch by branch and produces statements whose parts are the texts that the templates are filled with. GmSem runs them: texts are read by the grammar of PyGram, numbers are 32-bit, cells 8-bit, `tiled_resadd_auto` scales and saturates, static arrays start with arbitrary contents. GmProofs1 (texts of numbers and cells have the intended value), GmProofs2 (loops and resadd, cell by cell), GmProofs3 and GmProofs4 (every function; nesting by induction over `fits`, with the invariant that temporaries are fresh and recorded dimensions are LEN; runs are unique by mutual induction).
*Status: partial.* C57_kernel_partial: for bodies built from elementwise sums, differences and products, differences with a number, sums of two scaled vectors, leading rows of a matrix and selections by a constant or a parameter, nested arbitrarily, with all values in the range of the 8-bit element type and at most LEN elements in a direction. Missing: the functions for which the templates are wrong (the three refutations), reduce_sum, matrix_vec_mul, slices, division (floats), and the glue code around the kernel.
Theorems: `C57_kernel_partial`, `C57_scalar_refuted`, `C57_values_refuted`, `C57_errors_refuted`.

**C58. The Python operators shown to the language model mean what the verified operators mean.** DslModel follows the functions one by one (exceptions as values; fuel where the recursion need not end). DslProofs compares each of the two recursion schemes with the definition of the IR operator by induction over the lists, for arbitrary lengths; Properties_Dsl instantiates it for every name.
*Status: partial.* Full agreement is false: integer_sqrt and matrix_transpose never return what they should, division differs for negative divisors, slices for negative bounds, and Racket drops empty rows (the five refutations). C58_values_partial: everything else, under exactly these conditions. Missing: calls with arguments of other types than annotated, Python's recursion limit. firsts and rests are only used by matrix_transpose.
Theorems: `C58_values_partial`, `C58_solver_partial`, `C58_total`, `C58_functions_partial`, `C58_exp`, `C58_transpose_refuted`, `C58_sqrt_refuted`, `C58_division_refuted`, `C58_slice_refuted`, `C58_rows_refuted`.

**C59. The reference solutions of LLMLift compute what the benchmark programs compute.** SolModel writes each C++ function as counted loops over reads with explicit errors, and each stored Python text as calls of DslModel. Two images of one size are the projections of one matrix of pairs; loops and Python recursion schemes on projections are proved to be maps by induction, so each entry reduces to arithmetic on one pair of pixels.
*Status: partial.* Agreement for all inputs is false (the seven refutations). All 21 programs and solutions are proved equal under the stated conditions on pixels and lengths; the invariants of the outer loops of nine image programs are proved exact, and the one of screen_blend_8 is refuted. The other invariants are in C60. Missing: overflow of int, and the integer_exp/integer_sqrt stubs of the C++ files, for which the functions of dsl.py are put.
Theorems: `C59_blend_partial`, `C59_dissolve_partial`, `C59_normal_partial`, `C59_softmax_partial`, `C59_rmsnorm_partial`, `C59_matmul_partial`, `C59_transformer_partial`, `C59_invariants_partial`, `C59_dissolve_invariant_partial`, `C59_invariant_refuted`, `C59_overlay_refuted`, `C59_burn_refuted`, `C59_dodge_refuted`, `C59_rounding_refuted`, `C59_rmsnorm_refuted`, `C59_matmul_refuted`.

**C60. The loop invariants stored with the reference solutions are exact.** SolInvModel writes each invariant with Python's short-circuit and, reads that may raise, and slices; the state at a loop head is the loop cut off after i iterations. Both sides are evaluated to the same list by the lemmas of SolProofs, and equality of lists is decided by eqb_list_spec.
*Status: partial.* All 32 stored invariants are covered. Exact under the conditions on pixels and lengths of C59, except invariant1 of screen_blend_8 (C59_invariant_refuted) and softmax_part1 at entry without a first position (C60_entry_refuted). Missing: overflow of int, and the conditions themselves.
Theorems: `C60_inner_partial`, `C60_dissolve_inner_partial`, `C60_states`, `C60_normal_partial`, `C60_softmax_partial`, `C60_rmsnorm_partial`, `C60_matmul_partial`, `C60_transformer_partial`, `C60_entry_refuted`, `C59_invariants_partial`, `C59_dissolve_invariant_partial`, `C59_invariant_refuted`.

**C61. Answers of the language model are taken apart, and arguments of invariants chosen, as meant.** LuModel writes the two regular expressions as matchers from left to right, with fuel that C61_total shows to suffice, and a set as the list of first occurrences read in any order. Sorted lists with the same elements are equal because String.compare is a strict order.
*Status: partial.* The claims about arguments hold for all inputs (of one type for a name). Blocks: the code must begin with a newline and the language must not be c++ (C61_lang_refuted). ite: no comma in the first two arguments and no closing parenthesis in the third; the theorem also shows that the result has no parentheses around it. Other calls are split wrongly (C61_ite_comma_refuted, C61_ite_paren_refuted). Missing: characters outside ASCII.
Theorems: `C61_total`, `C61_extract_partial`, `C61_lang_refuted`, `C61_ite_partial`, `C61_ite_unchanged`, `C61_ite_comma_refuted`, `C61_ite_paren_refuted`, `C61_args`, `C61_args_set`, `C61_args_type_refuted`, `C61_args_double`, `C61_rename`, `C61_rename_refuted`, `C61_strip`.

**C62. In the prompt for invariants the return statements become the assertion.** PromptModel writes the regular expression as a matcher that knows whether the character before belongs to a word. The specification says with plain concatenation which occurrences of return are statements (no_return, good_part); induction over the text and over the list of statements.
*Status: partial.* Proved for return statements that end in their line; a word that only contains return is no statement. A return statement on several lines stays (C62_lines_refuted), the word in a comment is taken for a statement (C62_comment_refuted). Missing: backslashes in the assertion, characters outside ASCII, the fixed text of the prompt.
Theorems: `C62_total`, `C62_assert_partial`, `C62_unchanged`, `C62_lines_refuted`, `C62_comment_refuted`.

**C63. The answer of every language model becomes a solution that is tried.** AnswerModel distinguishes texts and lists as results of the three functions, and joins earlier solutions as Python does (TypeError on a list). The parser, the invariants and the verification are one oracle on texts. Induction over the number of rounds.
*Status: partial.* True of GPT (C63_gpt_loop, C63_gpt_finds; the code taken from an answer as in C61). With Claude no run ever finds a solution (C63_claude_refuted, for all answers and verifiers); an answer of Gemini without a code block ends the run (C63_gemini_refuted) and only its first block is used. Missing: the loop over invariants, which is an oracle here (C54 has it).
Theorems: `C63_gpt_partial`, `C63_gemini_partial`, `C63_gemini_refuted`, `C63_claude_refuted`, `C63_gpt_loop`, `C63_gpt_finds`.

**C64. Giving the calls of a function new arguments keeps the meaning.** AugModel follows augment_arguments branch by branch on the trees of Ast.v. The specification (takes) relates two interpretations of the functions with plain concatenation; induction over the expression with rebuild_eval.
*Status: partial.* On every expression that can be built it has a result of the same type (C64_total). The value is proved the same for expressions without Let and calls through values. With Let a variable of the new arguments may be captured (C64_let_refuted).
Theorems: `C64_augment_partial`, `C64_let_refuted`, `C64_total`.

**C65. Removing comments removes comments only.** CommentModel writes the two substitutions as functions over the characters, the second with fuel that C65_total shows to suffice. The specification builds programs by concatenation from lines with comments and from code with quoted texts; induction over these lists.
*Status: partial.* Proved for code with comments but no triple quotes outside them, and for code with triple quotes but no number sign. A number sign inside a text is taken for a comment (C65_text_refuted); inside a text in triple quotes it can remove its end, and then the code up to the next triple quotes disappears (C65_code_lost_refuted). Missing: both kinds mixed, characters outside ASCII.
Theorems: `C65_total`, `C65_lines_partial`, `C65_quotes_partial`, `C65_text_refuted`, `C65_code_lost_refuted`.

## Findings

Each of these is a theorem about the model, with a concrete witness. "Unsound" marks those by which a wrong result
is accepted.

*Expressions (ir.py).*
* Equality ignores types and identifies `1` with `True` (C02); sharing of choices then merges an integer and a
  Boolean choice (C08), and `and_objects` drops a conjunct that differs only so (C43).
* `map_args` replaces `NonTerm`, `TargetCall` and `Target` by their base classes (C03).
* `rewrite` substitutes below a `Let` that binds the variable, and captures (C05).
* `optimize_useless_equality` raises `KeyError`, drops equalities in negative position, and uses stale counts: an
  invalid condition becomes valid (C07, unsound).
* `chooseArbitrarily` leaves a choice inside the alternative it picks (C09).
* List syntax: negative indices and bounds, `x[:]`, steps and element assignment mean something else than in Python
  or nothing at all (C46).

*Backends.*
* `matrix_transpose` makes the SMT prelude inconsistent: every query is `unsat`, so every candidate verifies (C21,
  unsound). `integer_sqrt` is the identity in Racket and something else in SMT (C18).
* Racket and SMT disagree on division and modulo of negative numbers and by 0 (C17), `list_tail`/`list_get` with a
  negative index, empty matrix rows, and 3-D tensors, which SMT does not declare (C16); `map-eq` depends on the order
  of insertion and `map-normalize` is called with the wrong number of arguments (C20).
* Every tensor axiom but one contradicts the definition of its function at index 0, so prelude, definition and axiom
  have no model (C24, unsound). `reduce_max` of nothing is -32; `matrix_vec_mul` truncates (C25).
* Symbolic inputs: only matrices with exactly as many columns as the bound are tried; none but the empty one for bound
  1 (C15).

*Drivers.*
* Three endless loops: no solution file, any excluded definition, cvc5 ending with 0 and no solution (C38); the Rosette
  fallback of verification always raises (C39); `no_verify` is on by default (C40, unsound); widening may never end (C40).
* Two definitions of one name collapse into one, and a variable named like a function counts as a dependency (C35).
* Specialisation mixes up two callers of one function and two function parameters (C36).
* Generated names: names that look numbered collide, direct requests are never renamed (C41).

*Frontends.*
* Python: two returns in an `if` keep only the first assertion (C27, unsound); list variables always get the value of the
  `then` branch (C29, unsound); a chain of comparisons means its last one, `!=` raises (C30); loops that write a parameter,
  two loops writing one variable, nested loops, a return in a loop, and default lists shared between functions (C28, unsound).
* LLVM: an `if` without `else` loses its path condition unless the AddEmptyBlocks pass has been run (C31, unsound); two loops
  writing one variable and nested loops (C32, unsound); overflow, division of negatives and unsigned comparison (C33);
  a latch that jumps to its header in two ways stops the walk (C34); a block with `latch` in its name drops out of
  its loop (C48, unsound).
* SMT text: names that begin with `set-` or `map-` are rewritten also when they are variables (C14); a `Tensor3D` parameter
  is declared as a list of numbers (C14); negative literals and operators with one operand are not SMT-LIB (C50).
* C12: `to_expr` does not undo `to_rosette`. `list-append` always raises a NameError (synthesize_rosette.py:173 calls `toExpr`); `let` is printed with square brackets, which the reader takes for parts of words, so that `(let ([y 5]) (+ y x))` is read as a binding of a variable named `[` to `y`; a row of a matrix gets the type of an element, so indexing it raises an IndexError; `matrix-empty` and `tensor3d-empty` come back as nested List types; `tensor3d-slice-noerr` is not read at all.
* C44: synthesize_cvc5.toExpr keeps only the first binding of a `let`; `(let ((x 1) (y 2)) (+ x y))` with a program variable y is read as 1 + y (C44_refuted_let). `(set.insert 1 2 s)` loses the set (C44_refuted_insert). `tupleN_getI` always raises AttributeError, operators with three operands raise ValueError, `div` and `mod` are unknown (C44_refuted_nary). `name in a` is a substring test when a is the word "sygus-candidate", so a function called "c" breaks the reader (C44_refuted_name).
* **Missing parentheses in `to_python`** (C13). `Mul(Add(a, b), c)` is printed as `a + b * c`, `Sub(a, Add(b, c))` as `(a - b + c)`, `Div(Add(c, b), b)` as `(c + b // b)`, `Not(And(p, q))` as `not p and q`, `And(Or(p, q), r)` as `p or q and r`, `Eq(Eq(p, q), q)` as the chain `p == q == q`; a tuple with one component is printed as `(a)`. The text is used in prompts and as generated code.
* **Annotations of `Tensor3D`** (C13). `Tensor3D` inherits the method of `List`, so a three-dimensional tensor is annotated `List[int]`; functions with tuples or sets in their types raise NotImplementedError.
* **vc.py always raises** (C47). `makeVar` (vc.py:89-102) tests `isinstance(ty, Object)`, but is called with classes (`Bool`, and what `parse_type_ref_to_obj` gives): no class is an instance of `Object`, so `computeVC` raises for every function. The remaining theorems are about the code with this test repaired.
* **`ult` is `slt`; late assumptions; clashing names** (C47, vc.py). Comparison `ult` is treated as signed; an `assume` also weakens assertions before it in its block; the variable of a havocked cell `p` may be called like an argument `p_0`. In each case the condition is valid though an execution violates an assertion. `MLInst_Or(*list)` (analysis.py) with two or more cases of a switch raises a TypeError, since the constructor takes one operand.
* numpy_codegen.py: `list_tail` is written as `a[:i]` (keeps what it should drop); `matrix_length` as `.size` (number of elements); `list_prepend` exchanges its arguments; `matrix_prepend` is misspelt ("matrix_prepand") and raises; `list_concat` passes `dim=0` (TypeError). (C45_functions_refuted)
* numpy_codegen.py: missing parentheses change the meaning of `not (p or q)`, of a comparison with a conditional, and of an indexed sum; the third operand of a sum is dropped; the body of an inlined function keeps the names of its parameters. (C45_parentheses_refuted, C45_arguments_refuted)
* numpy_codegen.py: of several functions whose names end in `select_two_args` the last one is used for every selection; without one there is an exception; an argument called like a parameter of the selecting function leads to endless recursion. (C45_selection_refuted)
* gaudi_codegen.py: a reduction adds to a variable `sum` that is declared without a value, so no kernel with a reduction computes anything. (C51_reduction_refuted)
* gaudi_codegen.py: `if expr.c()` asks a metalift Bool for its truth, which is always true, so the first branch of every conditional is generated and the other dropped. (C51_condition_refuted)
* gaudi_codegen.py, INT32: division multiplies by a reciprocal and rounds to nearest (7/2 becomes 4); after a product it uses `convert_int128_to_float64`, which does not exist. (C51_int32_refuted)
* gaudi_codegen.py: the third operand of a sum is dropped; Mod of tensors becomes a division; an argument of a selection called like a parameter of the selecting function recurses for ever; a parameter called v0 clashes with the first generated name. (C51_operands_refuted, C51_clash_refuted)
* gaudi_codegen.py: `GaudiHeaderType.is_primitive` omits INT32, so the glue code counts 32 bit numbers as tensors and never passes them; with a number as result one input tensor is missing; the number of dimensions is that of the first tensor parameter. (C52_glue_refuted) In the text, not modelled: missing comma after the data type, trailing comma before `)`, `in_defs`/`out_defs` against `inDefs`/`outDefs`, fields of the struct joined without `;`.
* llvm.py:1451-1490: a call of a function that is neither modelled nor declared uninterpreted (`clear`, `pop_back`, `operator=`) is skipped silently, whatever it changes. (C32_refuted_skipped_call)
* llvm.py:1406-1414: at `ret void` the summary is stated about the variable `agg.result`, which is the value at the head of the loop; what is appended after the loop is ignored. (C32_refuted_after_loop)
* ir.py:645 gives every `std::vector` the type `List[List[Int]]`; the first push_back to a list argument gives `list_append` with that type, the next one `matrix_append`, which no Rosette file defines.
* llmlift_scripts/synthesis.py:326-344: `verify_benchmark_smt` returns True unless cvc5 was killed by a signal; what cvc5 printed is not looked at, so wrong solutions are reported as verified. (C54_refuted_smt)
* llmlift_scripts/synthesis.py:530-557: with VerificationMethod.NONE `verified` is never assigned and the run ends with UnboundLocalError. (C54_refuted_none)
* llmlift_scripts/parser.py:436-438: a list display `[a, b]` is read as the empty list. (C53_refuted_display) 479-503: the step of a slice is ignored. (C53_refuted_step) Keyword arguments are read as positional ones. (C53_refuted_keywords) 397: `/` is read as integer division. (C53_refuted_division) `True` and `False` are read as variables. (C53_refuted_true)
* llmlift_scripts/parser.py:254-256: parameters of a function are sorted by name, the arguments of calls of it are not, so that calls of the functions of the solution (recursion, a second invariant) get their arguments in the wrong order. (C53_refuted_order)
* llmlift_scripts/parser.py: a lambda that uses variables of the function around it becomes a top-level function in which they are free; synthesis.py:467-523 works around this for one benchmark. (C53_refuted_capture)
* llmlift_scripts/parser.py:431: `-x` leaves an `Int` object among the arguments of an expression, on which `replace_in_call` raises AttributeError, which ends the search. (C53_refuted_minus) 408: `xs + ys` is returned as an object; `(xs + ys)[0]` raises, and lambdas that differ inside such sums get one name. (C55_refuted_objects)
* llmlift_scripts/parser.py:348-369: lambdas that differ only in types get one name and one declaration is lost (C55_refuted_types); the name of a lambda may be that of the solution (C55_refuted_clash). Also: a call of anything but a name gives None; `any(arg_ir_types) is None` (183) never holds; `get_dsl_func_defs` is cached, so that a second DSL in the same process has the signatures of the first.
* pytorch_codegen.py:111-112: the entries for `list_prepend` and `matrix_prepand` call `.unsqueeze(0)` on the Python string and raise AttributeError; 109-110 append `.unsqueeze(0)` to the text of the second argument, which fails for numbers and binds wrongly behind an operator. mlx_codegen.py:88 calls `expand_dims` on a number. (C56_functions_refuted, C56_appending_refuted)
* mlx_codegen.py:92, tensorflow_codegen.py:92: `list_concat` passes `dim=0`, a keyword of PyTorch. mlx_codegen.py:104, tensorflow_codegen.py:106: the length of a matrix counts its elements; pytorch_codegen.py:125 counts rows. `matrix_prepend` is spelled `matrix_prepand` except in tensorflow_codegen.py. (C56_functions_refuted, C56_appending_refuted)
* pytorch_codegen.py:142: a comparison with a number first, `torch.eq(0, a)`, raises TypeError when the program runs. (C56_comparison_refuted) The three generators do not handle `Choose`, numpy_codegen.py does. (C56_choose_refuted)
* gemmini_codegen.py:52-53: adding a number to a vector or matrix indexes the number (`k[i][0] + xs`); 62-63, 265-282: scaling applies the macro for accumulator scales to an array and copies the result variable over the input. (C57_scalar_refuted) A body that is only a variable is emitted as no statement.
* gemmini_codegen.py:58-59, 79-83: `xs[i][0] - (k) - (1)` for a difference that is subtracted; `+` and `*` of more than two operands drop the rest (79-83); 314-316: dimensions recorded for `list_take` are [n, n], so that a following sum covers n*n cells of the first rows only. (C57_values_refuted)
* gemmini_codegen.py:79-83: no entries for comparisons, `and`, `or`, `not` and integer division, so conditions raise KeyError; 194-199: a number that comes from a call is skipped as an argument (IndexError). (C57_errors_refuted) 364: the condition of a selection is translated with the default dictionary of dimensions, which is shared by all calls. 479-561: the glue code declares the result as float although the kernel takes elem_t (not modelled).
* llmlift_scripts/dsl.py:143-144: `matrix_transpose` raises IndexError for every matrix with a row (C58_transpose_refuted). 12-25: `integer_sqrt` swaps number and guess and halves only the quotient; it does not return for negative numbers and 2 to 64, and returns 1 for all others (C58_sqrt_refuted).
* llmlift_scripts/dsl.py uses `//`, which rounds down; the solver's division does not for negative divisors (C58_division_refuted). Slices with negative bounds count from the end (C58_slice_refuted).
* llmlift_scripts/correct_sols.py:165: the reference solution of overlay_blend_8 compares with 128, the program (overlay_blend_8.cc:13) with 16; they differ on every pixel from 16 to 127 (C59_overlay_refuted).
* llmlift_scripts/correct_sols.py:78, 142-146: color_burn_8 and color_dodge_8 raise ZeroDivisionError where the program returns 32: `ite_int` evaluates both branches (C59_burn_refuted, C59_dodge_refuted). 116-118: the invariant of screen_blend_8 does not slice the first operand and fails at every visit between the first and the last (C59_invariant_refuted).
* llmlift_scripts/correct_sols.py:232-235: rmsnorm_part2 does not return when ss // len(input) is between 1 and 63, because of `integer_sqrt` (C59_rmsnorm_refuted).
* llmlift_scripts/correct_sols.py:187-189: the invariant of softmax_part1 is false at the entry of the loop if max_pos < 1 (C60_entry_refuted).
* llmlift_scripts/utils.py:30: the alternative `c` stands before `c\\+\\+`, so a block marked c++ is returned with "++" before its code (C61_lang_refuted).
* llmlift_scripts/utils.py:45: `ite(c, f(x, y), b)` becomes `f(x if c else y, b)` and `ite(c, a, g(y) + 1)` becomes `a if c else g(y + 1)` (C61_ite_comma_refuted, C61_ite_paren_refuted); the result is not put in parentheses, so `ite(x, a, b) + ite(y, 1, 2)` becomes `a if x else b + 1 if y else 2` (C61_ite_case).
* metalift/ir.py:303-332 with llmlift_scripts/utils.py:56: two variables of one name and different types are one element of the set, so one of the two types is lost (C61_args_type_refuted).
* llmlift_scripts/prompts.py:103: the pattern has no DOTALL, so a return statement on several lines is not replaced and the prompt contains no assertion (C62_lines_refuted); the word return in a comment is replaced with the text up to the next semicolon of the line (C62_comment_refuted). 68 with 141: for two loops the template is a list, and its printed form with brackets and escaped newlines goes into the prompt.
* llmlift_scripts/synthesis.py:583: `get_solution_from_claude` returns a list; `check_solution` raises on it (caught) and the next round cannot join it (387, TypeError), so no run with this model finds a solution (C63_claude_refuted). 625: an answer of Gemini without a code block raises IndexError and ends the run (C63_gemini_refuted); the second of two blocks, such as the second invariant, is dropped (C63_gemini_partial).
* metalift/smt_util.py:195-226: new arguments are put below a Let that binds their variables (C64_let_refuted).
* llmlift_scripts/parser.py:201-214: a number sign inside a text starts a comment (C65_text_refuted); in the last line of a text in triple quotes it removes the closing quotes, so that the code up to the next triple quotes is removed too (C65_code_lost_refuted).
