{"id": "C01", "title": "Expression equality is a genuine equivalence that hashing respects", "statement": "Comparing IR expressions with Expr.__eq__ is reflexive, symmetric and transitive, and two expressions that compare equal always have the same hash, so expressions can be used as dict/set keys and de-duplicated.", "quantifier": "all pairs/triples of IR expressions of any shape and depth", "why_tests_cant": "expression trees are unbounded; a test can only compare particular trees, and transitivity ranges over triples", "anchors": ["metalift/ir.py: Expr.__eq__", "metalift/ir.py: Expr.__hash__"]}
{"id": "C02", "title": "Expressions that compare equal are interchangeable", "statement": "If Expr.__eq__ says two expressions are equal, then replacing one by the other never changes the value of an expression under any assignment of its variables.", "quantifier": "all pairs of IR expressions that compare equal, all variable assignments, all interpretations of the called functions", "why_tests_cant": "needs every pair of equal trees and every valuation", "anchors": ["metalift/ir.py: Expr.__eq__", "metalift/ir.py: Lit"]}
{"id": "C03", "title": "Rebuilding an expression with the identity gives the same expression", "statement": "For every expression that can be constructed with the IR constructors, map_args with a function that returns its argument succeeds and returns an equal expression of the same type.", "quantifier": "all constructible expressions that map_args supports", "why_tests_cant": "every node class at every nesting depth; constructor type checks could reject a rebuilt node only for particular shapes", "anchors": ["metalift/ir.py: Expr.map_args"]}
{"id": "C04", "title": "simplify never changes the meaning of an expression", "statement": "For every constructible expression, simplify succeeds, and for every assignment on which the original has a value the simplified expression has the same value; the result contains no conjunction with a literal operand.", "quantifier": "all constructible expressions, all assignments and interpretations of functions", "why_tests_cant": "unbounded trees times unbounded valuations", "anchors": ["metalift/ir.py: Expr.simplify"]}
{"id": "C05", "title": "rewrite is simultaneous substitution", "statement": "Evaluating e.rewrite(m) gives the value that e has when each mapped variable is bound to the value of its replacement (all replacements taken simultaneously), and unmapped variables are untouched.", "quantifier": "all expressions, all mappings, all assignments", "why_tests_cant": "capture and ordering problems only show up for particular combinations of mapping and nesting", "anchors": ["metalift/ir.py: Expr.rewrite"]}
{"id": "C06", "title": "Variable-use counts are exact", "statement": "count_variable_uses adds, for each name, exactly the number of occurrences of that variable, whatever was in the dictionary before; a name that gets no count does not influence the value of the expression.", "quantifier": "all expressions, all initial dictionaries, all pairs of assignments", "why_tests_cant": "the second half quantifies over all assignments", "anchors": ["metalift/ir.py: Expr.count_variable_uses"]}
{"id": "C07", "title": "Dropping 'useless' equalities keeps the verification condition's validity", "statement": "optimize_useless_equality, as called on a verification condition with that condition's own variable counts, terminates without an exception and returns a condition that is valid exactly when the original is.", "quantifier": "all verification conditions (boolean expressions)", "why_tests_cant": "validity is a quantification over all assignments; polarity and duplicate-equality problems depend on shape", "anchors": ["metalift/ir.py: Expr.optimize_useless_equality", "metalift/ir.py: Expr.collectKnowledge"]}
{"id": "C08", "title": "Sharing repeated choices in a grammar does not change the grammar", "statement": "When a Synth is emitted, each repeated Choose is replaced by a reference v_i and emitted once; expanding those references yields exactly the programs of the original grammar, so the synthesizer searches the space the user wrote.", "quantifier": "all grammar expressions", "why_tests_cant": "grammars are unbounded trees; coincidences between sub-grammars only matter for particular pairs", "anchors": ["metalift/ir.py: Synth.to_rosette", "metalift/ir.py: Expr.findCommonExprs", "metalift/ir.py: Expr.replaceExprs"]}
{"id": "C09", "title": "chooseArbitrarily picks a program of the grammar", "statement": "chooseArbitrarily applied to any grammar expression returns one of the programs the grammar describes: it is obtained by resolving every choice, and no unresolved choice is left.", "quantifier": "all grammar expressions", "why_tests_cant": "nesting of choices is unbounded", "anchors": ["metalift/ir.py: Expr.chooseArbitrarily", "metalift/ir.py: Choose.chooseArbitrarily"]}
{"id": "C10", "title": "Pruning conditionals of synthesized functions preserves what they compute", "statement": "For every set of synthesized functions, prune_fn_decls returns functions that compute the same results as the originals on all arguments on which the originals have a result.", "quantifier": "all sets of function definitions (including mutually calling ones), all arguments", "why_tests_cant": "universally quantified over programs and inputs", "anchors": ["metalift/synthesis_common.py: prune_fn_decls"]}
{"id": "C11", "title": "The set of used DSL functions is exactly the set of called functions", "statement": "get_used_fn_names returns exactly the names that occur as callee of some call anywhere inside the bodies of the given functions.", "quantifier": "all lists of function declarations", "why_tests_cant": "deep nesting and every node class", "anchors": ["metalift/synthesis_common.py: get_used_fn_names"]}
{"id": "C12", "title": "What is printed for Rosette is read back as the same expression", "statement": "For every expression of the supported language, printing it with to_rosette and parsing the text with the s-expression reader and to_expr gives back an equal expression, so the program that is verified is the one that was synthesized.", "quantifier": "all expressions of the supported fragment, all variable names that are Rosette symbols", "why_tests_cant": "infinitely many expressions; round trips fail on particular operator/nesting combinations", "anchors": ["metalift/ir.py: to_rosette methods", "metalift/ir.py: Expr.toRosetteSimple", "metalift/synthesize_rosette.py: to_expr", "metalift/synthesize_rosette.py: parse_output"]}
{"id": "C13", "title": "Generated Python text means what the expression means", "statement": "The text produced by to_python, read with Python's precedence rules, evaluates to the value of the IR expression.", "quantifier": "all expressions with to_python support, all assignments", "why_tests_cant": "operator nesting is unbounded and wrong grouping only matters for particular nestings", "anchors": ["metalift/ir.py: to_python methods"]}
{"id": "C14", "title": "SMT text is unambiguous", "statement": "The text produced by toSMT for an expression is a single balanced s-expression with exactly the operator and operands of the expression, so two expressions with the same SMT text have the same tree up to types and literal representation.", "quantifier": "all expressions of the supported fragment", "why_tests_cant": "infinitely many pairs of expressions", "anchors": ["metalift/ir.py: toSMT methods", "metalift/ir.py: Expr.toSMTSimple"]}
{"id": "C15", "title": "Symbolic inputs for synthesis are independent and have the documented shape", "statement": "For each variable and list bound, the generated Rosette symbolic constants for different positions and different variables are distinct names; a list of bound n covers all lists of length up to n, and a matrix covers all matrices with at most n rows and columns.", "quantifier": "all variable types and names, all list bounds", "why_tests_cant": "bounds and nesting are unbounded; name collisions need particular names", "anchors": ["metalift/rosette_translator.py: gen_var", "metalift/rosette_translator.py: generate_vars"]}
{"id": "C16", "title": "Synthesis and verification give list operations the same meaning", "statement": "For every list operation the Racket function used during synthesis and the SMT definition used during verification return the same result for all arguments.", "quantifier": "all lists and all integer indices", "why_tests_cant": "unbounded lists and indices, including negative and out-of-range ones", "anchors": ["metalift/utils/utils.rkt", "metalift/utils/list-axioms.smt", "metalift/ir.py: Expr.get_list_fn"]}
{"id": "C17", "title": "Integer division and modulo agree between source, synthesis, verification and generated code", "statement": "Div and Mod denote the same function in the Rosette encoding, in the SMT encoding and in the generated Python code.", "quantifier": "all integer dividends and divisors", "why_tests_cant": "all pairs of integers, sign combinations and zero", "anchors": ["metalift/ir.py: Div", "metalift/ir.py: Mod", "metalift/utils/utils.rkt: quotient-noerr"]}
{"id": "C18", "title": "integer_exp and integer_sqrt agree between synthesis and verification", "statement": "The Racket and SMT definitions of integer_exp and of integer_sqrt are the same function, and integer_sqrt n is the integer square root of n.", "quantifier": "all integers", "why_tests_cant": "all integers", "anchors": ["metalift/utils/utils.rkt: integer-sqrt-noerr, integer-exp-noerr", "metalift/utils/integer-fn-axioms.smt", "metalift/utils/tenspiler/tenspiler_common.py: integer_exp, integer_sqrt"]}
{"id": "C19", "title": "Rosette sets are sets", "statement": "On every set value built from the empty set by the set operations, membership after insert, remove, union and minus is as for mathematical sets, and set-eq decides extensional equality.", "quantifier": "all finite sequences of set operations, all integers", "why_tests_cant": "histories of operations are unbounded", "anchors": ["metalift/utils/utils.rkt: set-*"]}
{"id": "C20", "title": "Rosette maps are finite maps", "statement": "On every map value built by the map operations, lookup after insert returns the inserted value (or the value merged with the supplied function), other keys are unchanged, and union/values/keys agree with finite-map semantics.", "quantifier": "all finite sequences of map operations, all keys and values, all merge functions", "why_tests_cant": "histories of operations are unbounded", "anchors": ["metalift/utils/utils.rkt: map-*"]}
{"id": "C21", "title": "The axioms given to the verifier are consistent", "statement": "The SMT prelude that is prepended to every verification query has a model; otherwise every candidate would be reported as verified.", "quantifier": "all interpretations of the prelude's symbols", "why_tests_cant": "consistency is a statement about all models", "anchors": ["metalift/utils/list-axioms.smt", "metalift/utils/integer-fn-axioms.smt", "metalift/utils/map-axioms.smt", "metalift/smt_util.py: toSMT"]}
{"id": "C22", "title": "The prelude pins down the list functions", "statement": "In every model of the list part of the prelude, list_length, list_get (in range), list_append, list_prepend, list_concat, list_tail, list_take, slices and list_contains are the usual list functions; facts stated redundantly as extra axioms follow from the definitions.", "quantifier": "all models of the prelude, all lists, all indices", "why_tests_cant": "all models, all lists", "anchors": ["metalift/utils/list-axioms.smt"]}
{"id": "C23", "title": "Tensor DSL functions are pointwise operations", "statement": "vec_elemwise_*, vec_scalar_*, scalar_vec_* and vec_map of the tensor DSL compute the pointwise operation for all vectors (for two vectors of equal length), and the matrix versions do so row by row.", "quantifier": "all vectors and matrices, all integers", "why_tests_cant": "unbounded lengths", "anchors": ["metalift/utils/tenspiler/tenspiler_common.py: vec_elemwise_body, vec_scalar_body, ..."]}
{"id": "C24", "title": "User-supplied lemmas about the tensor DSL are theorems", "statement": "Every Axiom object supplied for the tensor DSL holds for the DSL definitions, for all vectors/matrices and all indices the axiom quantifies over; adding it therefore never makes a wrong candidate verify.", "quantifier": "all vectors, matrices, indices and scalars", "why_tests_cant": "an axiom is a universally quantified statement", "anchors": ["metalift/utils/tenspiler/axioms.py", "metalift/utils/tenspiler/constants.py"]}
{"id": "C25", "title": "Reductions compute sum, product, maximum and matrix-vector product", "statement": "reduce_sum, reduce_mul, reduce_max and matrix_vec_mul of the tensor DSL return the sum, product and maximum of a vector, respectively the vector of dot products, for every input.", "quantifier": "all vectors and matrices", "why_tests_cant": "unbounded lengths and values", "anchors": ["metalift/utils/tenspiler/tenspiler_common.py: reduce_sum, reduce_mul, reduce_max, matrix_vec_mul"]}
{"id": "C26", "title": "Transposition transposes", "statement": "matrix_transpose of a rectangular matrix has the entry (i,j) at position (j,i), both under the Racket and under the SMT definition, and applying it twice gives the matrix back.", "quantifier": "all rectangular matrices", "why_tests_cant": "unbounded dimensions", "anchors": ["metalift/utils/utils.rkt: matrix-transpose-noerr", "metalift/utils/list-axioms.smt: matrix_transpose", "metalift/utils/tenspiler/tenspiler_common.py: matrix_transpose"]}
{"id": "C27", "title": "Verified lifting of loop-free Python functions is sound", "statement": "If the verification condition generated for a loop-free Python function (assignments, conditionals, return) is valid for a candidate summary, then for all inputs the summary holds of the value that the function returns.", "quantifier": "all loop-free programs, all candidate summaries, all inputs", "why_tests_cant": "quantifies over programs and inputs", "anchors": ["metalift/frontend/python.py: VCVisitor.visit_assignment_stmt, visit_if_stmt, visit_return_stmt", "metalift/frontend/python.py: Driver.synthesize"]}
{"id": "C28", "title": "Verified lifting of Python functions with loops is sound", "statement": "If the generated verification condition is valid for candidate invariants and summary, then for all inputs on which the function terminates the summary holds of the returned value.", "quantifier": "all programs with while loops, all candidate invariants/summaries, all inputs and numbers of iterations", "why_tests_cant": "unbounded iteration counts and programs", "anchors": ["metalift/frontend/python.py: VCVisitor.visit_while_stmt", "metalift/frontend/python.py: MetaliftFunc.__call__"]}
{"id": "C29", "title": "Merging the two branches of a conditional keeps each branch's values", "statement": "After an if statement, the state used for the rest of the function gives every variable the value of the branch that is taken, for variables of every type.", "quantifier": "all pairs of branch states, all conditions, all assignments", "why_tests_cant": "needs all states and types", "anchors": ["metalift/frontend/python.py: VCVisitor.visit_if_stmt"]}
{"id": "C30", "title": "Comparison expressions mean what they mean in Python", "statement": "The IR expression generated for a Python comparison (including chained ones such as a < b < c) evaluates to Python's result.", "quantifier": "all comparison chains, all operand values", "why_tests_cant": "chains have unbounded length", "anchors": ["metalift/frontend/python.py: VCVisitor.visit_comparison_expr"]}
{"id": "C31", "title": "Verified lifting of loop-free LLVM functions is sound", "statement": "If the verification condition generated for a loop-free LLVM control-flow graph is valid for a candidate summary, then for all inputs the summary holds of the value returned along the executed path.", "quantifier": "all acyclic control-flow graphs, all candidate summaries, all inputs", "why_tests_cant": "quantifies over all graphs, paths and inputs", "anchors": ["metalift/frontend/llvm.py: VCVisitor.merge_states, visit_llvm_block, visit_ret_instruction"]}
{"id": "C32", "title": "Verified lifting of LLVM functions with loops is sound", "statement": "If the generated verification condition is valid for candidate invariants and summary, then on every terminating execution of the function the summary holds of the returned value.", "quantifier": "all control-flow graphs with natural loops, all candidates, all executions", "why_tests_cant": "unbounded executions", "anchors": ["metalift/frontend/llvm.py: VCVisitor.visit_llvm_block", "metalift/frontend/llvm.py: LoopInfo"]}
{"id": "C33", "title": "Machine arithmetic and comparisons of the source are modelled faithfully", "statement": "The IR expression generated for an LLVM add/sub/mul/sdiv/srem/icmp instruction has the value that the instruction computes on 32-bit integers.", "quantifier": "all pairs of 32-bit operands", "why_tests_cant": "2^64 operand pairs per instruction", "anchors": ["metalift/frontend/llvm.py: VCVisitor.visit_add_instruction, visit_icmp_instruction"]}
{"id": "C34", "title": "Blocks are processed once each, after their predecessors", "statement": "For every control-flow graph whose back edges are exactly those of its detected loops, the frontend visits every reachable block exactly once and only after all of its non-back-edge predecessors.", "quantifier": "all control-flow graphs", "why_tests_cant": "graphs are unbounded", "anchors": ["metalift/frontend/llvm.py: MetaliftFunc.__call__", "metalift/frontend/llvm.py: parse_loops, LoopInfo"]}
{"id": "C35", "title": "Target-language definitions are emitted in dependency order", "statement": "topological_sort returns a permutation of the given definitions in which every function precedes its users and lemmas come last, and raises exactly when the dependencies between different functions are cyclic.", "quantifier": "all lists of definitions with any call graph", "why_tests_cant": "all call graphs", "anchors": ["metalift/smt_util.py: topological_sort", "metalift/smt_util.py: get_dependent_fn_names"]}
{"id": "C36", "title": "Specialising higher-order functions for SMT preserves meaning", "statement": "Replacing a call of a function that takes a function argument by a call of its specialised first-order copy does not change the result, for all arguments.", "quantifier": "all function bodies, all function arguments, all inputs", "why_tests_cant": "programs and inputs are unbounded", "anchors": ["metalift/smt_util.py: toSMT", "metalift/smt_util.py: filter_body, replace_fn_name, augment_arguments, replace_fn_name_with_in_call"]}
{"id": "C37", "title": "Only verified candidates are returned", "statement": "In every run, whatever the external synthesizer and verifier print and whenever they finish, synthesize returns a candidate only if the verifier's answer for that candidate was unsat (or verification was switched off).", "quantifier": "all interleavings of solver exits, outputs and solver answers over any number of rounds", "why_tests_cant": "nondeterministic external processes, unbounded rounds", "anchors": ["metalift/synthesize_rosette.py: synthesize", "metalift/synthesis_common.py: verify_synth_result"]}
{"id": "C38", "title": "Synthesis always ends with a verdict", "statement": "In every run in which the external processes terminate, synthesize terminates, either returning a result or raising SynthesisFailed/VerificationFailed.", "quantifier": "all exit codes, outputs and timings of the external processes", "why_tests_cant": "schedules and exit orders", "anchors": ["metalift/synthesize_rosette.py: synthesize", "metalift/synthesize_cvc5.py: synthesize"]}
{"id": "C39", "title": "A verification run that did not finish is never taken as a proof", "statement": "verify_synth_result reports unsat only when the solver printed unsat as its first line and was not killed; a timeout, crash or error message is reported as something else.", "quantifier": "all solver outputs and exit codes", "why_tests_cant": "arbitrary process outcomes", "anchors": ["metalift/synthesis_common.py: verify_synth_result"]}
{"id": "C40", "title": "Widening the search keeps earlier guarantees", "statement": "The outer search that increases the list bound returns only results that were verified by the un-relaxed call, and stops as soon as one succeeds or synthesis is impossible.", "quantifier": "all sequences of outcomes of inner synthesis calls", "why_tests_cant": "unbounded number of rounds", "anchors": ["tests/llvm/tenspiler/utils/synthesis_utils.py: run_synthesis_algorithm"]}
{"id": "C41", "title": "Generated variable names are fresh", "statement": "All variables handed out by a VariableTracker (through its groups and directly) have pairwise different names.", "quantifier": "all sequences of requests with arbitrary base names", "why_tests_cant": "arbitrary histories and names", "anchors": ["metalift/analysis.py: VariableTracker", "metalift/analysis.py: VariableGroup", "metalift/analysis.py: format_with_index"]}
{"id": "C42", "title": "ObjectSet is a set in insertion order", "statement": "After any sequence of add/union operations an ObjectSet contains exactly the added objects, each once.", "quantifier": "all histories of operations", "why_tests_cant": "unbounded histories", "anchors": ["metalift/frontend/utils.py: ObjectSet"]}
{"id": "C43", "title": "Conjunction and disjunction helpers mean conjunction and disjunction", "statement": "and_objects/or_objects (and and_exprs/or_exprs) of a non-empty collection evaluate to the conjunction/disjunction of its members; for an empty collection they raise instead of returning a formula.", "quantifier": "all non-empty collections of boolean expressions, all assignments", "why_tests_cant": "unbounded collections and assignments", "anchors": ["metalift/vc_util.py: and_objects, or_objects, and_exprs, or_exprs"]}
{"id": "C44", "title": "SyGuS solutions are read back faithfully", "statement": "Parsing the solver's define-fun text yields an expression with the same value as the s-expression it was read from, including let bindings and negative numbers.", "quantifier": "all solver outputs in the supported grammar, all assignments", "why_tests_cant": "infinite set of texts", "anchors": ["metalift/synthesize_cvc5.py: toExpr", "metalift/synthesize_cvc5.py: generateCandidates"]}
{"id": "C45", "title": "Generated NumPy code computes the lifted expression", "statement": "The NumPy text generated for a lifted tensor expression evaluates to the value of that expression.", "quantifier": "all lifted expressions and inputs", "why_tests_cant": "all programs and inputs", "anchors": ["tests/llvm/tenspiler/codegen/numpy_codegen.py"]}
{"id": "C46", "title": "List syntax of the IR means Python list semantics", "statement": "Indexing, slicing, append, prepend, concatenation and length on IR List objects denote the corresponding operations on Python lists.", "quantifier": "all lists, all indices and slices", "why_tests_cant": "unbounded lists and indices", "anchors": ["metalift/ir.py: List.__getitem__", "metalift/ir.py: List.__add__, append, prepend, len"]}
{"id": "C47", "title": "The legacy block-based verification condition is sound and complete", "statement": "For an acyclic block graph, the condition built from per-block weakest preconditions is valid exactly when no execution from the entry block violates an assertion.", "quantifier": "all acyclic block graphs, all assignments", "why_tests_cant": "paths are exponentially many and graphs unbounded", "anchors": ["metalift/vc.py: VC.computeVC, formVC"]}
{"id": "C48", "title": "Loop analysis finds the loop", "statement": "For every natural loop the reported body consists of exactly the blocks that can reach the latch without passing through the header, and the exits are exactly the blocks left from the body.", "quantifier": "all control-flow graphs", "why_tests_cant": "all graphs", "anchors": ["metalift/analysis.py: parseLoops", "metalift/frontend/llvm.py: parse_loops"]}
{"id": "C49", "title": "Splitting branch edges preserves the program", "statement": "The AddEmptyBlocks pass leaves the results of every execution unchanged, and afterwards the two targets of every conditional branch are different blocks that only this branch jumps to, so that a condition computed for the changed function holds of the function as written.", "quantifier": "all functions with closed branch targets, all executions", "why_tests_cant": "unbounded programs and executions", "anchors": ["llvm-pass/addEmptyBlocks/AddEmptyBlocks.cpp: runOnFunction, createBB"]}
{"id": "C50", "title": "SMT text means what the expression means", "statement": "The text produced by toSMT for an expression, read as SMT-LIB, has the value of the expression under every assignment, so that the solver's answer about the text is an answer about the expression.", "quantifier": "all expressions of the supported fragment, all interpretations of the functions, all assignments", "why_tests_cant": "infinitely many expressions and assignments", "anchors": ["metalift/ir.py: toSMT methods"]}
{"id": "C51", "title": "A generated Gaudi kernel stores the elements of the summary's value", "statement": "If gaudi_codegen returns a TPC-C kernel for a lifted summary built from the elementwise and scalar tensor functions and selections, then running the kernel's three-address code over an index space stores, at every coordinate the index space stands for, the element of the value of the summary on the same arguments, and changes nothing else; each intermediate variable is declared exactly once with a fresh name and only names declared before are read.", "quantifier": "for all summaries, element types, arguments, index spaces and contents of the output tensor", "why_tests_cant": "Tests of the code generator need Gaudi hardware or look at a few kernels' text; they do not compare the value of the instruction sequence (type conversions to wider vectors, multiplication by reciprocals, rounding back) with the summary for all tensors.", "anchors": ["tests/llvm/tenspiler/codegen/gaudi_codegen.py:312-865"]}
{"id": "C52", "title": "The Gaudi glue code describes the kernel's parameters", "statement": "For a summary that returns a list or matrix, the glue code generated beside the kernel announces as many input tensors as the summary has list or matrix parameters (the kernel has one tensor more, for the result), lists exactly the other parameters, in order and with the kernel's type, as fields of the scalar parameter struct, and declares that struct exactly if there are any.", "quantifier": "for all summaries and element types", "why_tests_cant": "The C++ glue code is only compiled against the vendor's SDK; no test checks that the two generated descriptions of one parameter list agree for arbitrary lists of parameters.", "anchors": ["tests/llvm/tenspiler/codegen/gaudi_codegen.py:160-309", "tests/llvm/tenspiler/codegen/gaudi_codegen.py:102-134"]}
{"id": "C53", "title": "What is read from a language model's solution means what the solution computes", "statement": "If LLMLift's parser accepts a Python solution, then, in every interpretation of the IR that gives the functions of the DSL the results they have in Python and gives each declaration found the value of its body, a declared function has, on all arguments of its parameters' types, the value that the Python function returns; the pass that follows replaces functions passed as arguments by their names and changes nothing else, and the predicate made from the solution holds exactly of that value.", "quantifier": "for all solutions, interpretations, arguments and depths of recursion", "why_tests_cant": "Tests run the parser on a few recorded answers of a language model and compare text; they do not relate the meaning of the IR (lists, chained comparisons, lambdas turned into named functions) to Python's evaluation for arbitrary solutions and inputs.", "anchors": ["llmlift_scripts/parser.py:73-112", "llmlift_scripts/parser.py:174-196", "llmlift_scripts/parser.py:232-551", "llmlift_scripts/synthesis.py:62-123", "metalift/ir.py:675-706"]}
{"id": "C54", "title": "LLMLift reports only solutions that were verified, and asks a bounded number of questions", "statement": "If the search for a solution with a language model ends normally and reports a solution, then the model gave that solution and an invariant, the parser accepted both, and the verifier, run last on the file made of their declarations and the verification condition, found it valid. In every run each question shows exactly the answers given before to the same question, and the number of questions is bounded by the configured limits; if no solution is found then the limit was reached and no file was found valid.", "quantifier": "for all behaviours of the language model and of the verifier, all configurations, and all runs", "why_tests_cant": "The loop talks to a language model and a solver, so that tests replay a handful of runs; orders of acceptance, rejection and exceptions of both loops are not covered, nor is what the solver printed when a solution is reported.", "anchors": ["llmlift_scripts/synthesis.py:126-212", "llmlift_scripts/synthesis.py:215-344", "llmlift_scripts/synthesis.py:347-570"]}
{"id": "C55", "title": "Lambdas of a solution and its invariants that share a name are the same function", "statement": "Lambdas in the solution and in the invariants become named functions in one verification file. Two of them that get the same name have the same parameters and bodies with the same value in every interpretation and environment, however many other invariants were read, and rejected, between them.", "quantifier": "for all texts, accepted or not, that are read one after another, and all pairs of lambdas in them", "why_tests_cant": "Names depend on a counter and a dictionary that live across all calls of the parser, also across those that raise, and on an equality of expressions that is not the obvious one; tests look at single texts.", "anchors": ["llmlift_scripts/parser.py:340-369", "llmlift_scripts/parser.py:518-551", "metalift/ir.py:303-332"]}
{"id": "C56", "title": "Generated MLX, TensorFlow and PyTorch programs compute the lifted function", "statement": "The two functions that each of the three generators writes for a lifted tensor function are well-formed; calling the second one with nested lists converts the vectors and matrices to arrays of the right element type and returns the value of the lifted function.", "quantifier": "for all three libraries, all lifted functions and all inputs", "why_tests_cant": "Tests run the generators on the benchmarks and compare a few outputs; precedence of operators in the text, methods appended to arguments, the element type needed by matrix products and functions that one library lacks depend on the expression and are not covered for arbitrary expressions and inputs.", "anchors": ["tests/llvm/tenspiler/codegen/mlx_codegen.py:50-309", "tests/llvm/tenspiler/codegen/tensorflow_codegen.py:50-318", "tests/llvm/tenspiler/codegen/pytorch_codegen.py:51-351"]}
{"id": "C57", "title": "Generated Gemmini kernels store the value of the lifted function", "statement": "The C kernel that the Gemmini generator writes for a lifted tensor function has the right name and parameters; called with arrays of 8-bit elements it terminates, stores the value of the lifted function in its output array and leaves its inputs unchanged.", "quantifier": "for all lifted functions, all sizes LEN and all inputs", "why_tests_cant": "Tests only generate the text for the benchmarks, nothing runs it; dimensions recorded for temporaries, operands that are scaled on the fly, precedence in the texts and clipping to 8 bits depend on the expression and the values.", "anchors": ["tests/llvm/tenspiler/codegen/gemmini_codegen.py:49-84", "tests/llvm/tenspiler/codegen/gemmini_codegen.py:89-100", "tests/llvm/tenspiler/codegen/gemmini_codegen.py:136-476"]}
{"id": "C58", "title": "The Python operators shown to the language model mean what the verified operators mean", "statement": "Each Python function of llmlift_scripts/dsl.py returns, for all arguments, the value that the operator of the same name has in the synthesizer and in the solver.", "quantifier": "for all functions of the file and all arguments, in every interpretation that follows the Racket library or the SMT prelude and the IR definitions of the operators", "why_tests_cant": "The file is only printed into prompts and type-checked, nothing runs it; lengths, empty rows, negative divisors and negative bounds range over infinitely many arguments.", "anchors": ["llmlift_scripts/dsl.py:4-272"]}
{"id": "C59", "title": "The reference solutions of LLMLift compute what the benchmark programs compute", "statement": "For each of the 21 entries of correct_sols.py, the stored summary returns for all inputs what the C++ benchmark program returns, and the stored loop invariant holds at each visit of the head of the loop.", "quantifier": "for all inputs of all sizes, and all iterations of the loops", "why_tests_cant": "The stored solutions are only used as reference texts; a wrong threshold, an eager division by zero or an unsliced operand in an invariant shows up only for particular pixels or for images of at least two rows.", "anchors": ["llmlift_scripts/correct_sols.py:2-297", "benchmarks/blend/cpp/overlay_blend_8.cc:4-22", "benchmarks/blend/cpp/screen_blend_8.cc:4-18", "benchmarks/blend/cpp/color_burn_8.cc:4-22", "benchmarks/llama/cpp/matmul.cc:4-16", "tests/llvm/tenspiler/softmax_part1.cc:4-10", "tests/llvm/tenspiler/rmsnorm_part2.cc:6-13"]}
{"id": "C60", "title": "The loop invariants stored with the reference solutions are exact", "statement": "Each loop invariant of correct_sols.py is true of exactly the states in which the loop of the C++ benchmark program arrives at its head, so it holds at entry, is kept by the body and determines the result at exit.", "quantifier": "for all inputs of all sizes, all loop counters and all values of the loop variables", "why_tests_cant": "The stored invariants are texts that nothing executes; whether they hold concerns all iterations of nested loops on inputs of every size, and also states that are not reached.", "anchors": ["llmlift_scripts/correct_sols.py:6-272", "benchmarks/blend/cpp/darken_blend_8.cc:4-22", "benchmarks/blend/cpp/dissolve_blend_8.cc:4-23", "benchmarks/llama/cpp/matmul.cc:4-16", "benchmarks/llama/cpp/transformer/transformer_part4.cc:4-10", "tests/llvm/tenspiler/softmax_part1.cc:4-10"]}
{"id": "C61", "title": "Answers of the language model are taken apart, and arguments of invariants chosen, as meant", "statement": "The code blocks of an answer are returned without fences and language name, in order; a call of ite becomes the conditional expression of Python with the same condition and branches and nothing else changes; the arguments of a loop invariant are the variables the loop reads and modifies and its loop variable, once each, sorted by name, whatever order the set of them is read in; renaming keeps number, order and types.", "quantifier": "for all answers, all texts of conditions and branches, all lists of variables, all orders in which a set is read and all dictionaries", "why_tests_cant": "Answers of a model are unlimited texts, and the order in which Python reads a set is not fixed; a test sees a few answers and one order.", "anchors": ["llmlift_scripts/utils.py:25-33", "llmlift_scripts/utils.py:36-46", "llmlift_scripts/utils.py:49-88", "llmlift_scripts/utils.py:91-97", "metalift/ir.py:303-332"]}
{"id": "C62", "title": "In the prompt for invariants the return statements become the assertion", "statement": "In the source program shown to the language model in the prompt for invariants every return statement is replaced by the assertion of the candidate, and every other character of the program stays.", "quantifier": "for all source programs with any number of return statements and all assertions", "why_tests_cant": "The source programs of the benchmarks have one return statement each, in one line; nothing looks at the prompt of another program.", "anchors": ["llmlift_scripts/prompts.py:101-104", "llmlift_scripts/synthesis.py:418-425"]}
{"id": "C63", "title": "The answer of every language model becomes a solution that is tried", "statement": "Whichever of the three language models is chosen, the code of its answer becomes the text that is parsed and verified, an answer without code only costs one round, and the run ends with the first solution that is verified or, if there is none in the given number of rounds, with the message that none was found.", "quantifier": "for all language models (any answers to the earlier solutions), all parsers and verifiers as oracles and all numbers of rounds", "why_tests_cant": "The functions need keys and a network; no test calls them, and what a model answers cannot be listed.", "anchors": ["llmlift_scripts/synthesis.py:378-410", "llmlift_scripts/synthesis.py:556-570", "llmlift_scripts/synthesis.py:573-637", "llmlift_scripts/parser.py:518-536"]}
{"id": "C64", "title": "Giving the calls of a function new arguments keeps the meaning", "statement": "When a function is replaced by one that takes additional arguments at some position, and all its calls in an expression get these arguments there, the expression keeps its value.", "quantifier": "for all expressions, functions, positions, new arguments and values of variables", "why_tests_cant": "Expressions nest calls of the function inside its own arguments in unlimited ways; the tests have one benchmark with one such call.", "anchors": ["metalift/smt_util.py:195-226", "llmlift_scripts/synthesis.py:466-502"]}
{"id": "C65", "title": "Removing comments removes comments only", "statement": "From the code that a language model returns, comments at the ends of lines and texts in triple quotes are removed, and every other character stays.", "quantifier": "for all programs: any number of lines, comments and quoted texts", "why_tests_cant": "The code comes from a language model; a test sees a few programs, none with a number sign or quotes in an unusual place.", "anchors": ["llmlift_scripts/parser.py:199-216", "llmlift_scripts/parser.py:526-536"]}
