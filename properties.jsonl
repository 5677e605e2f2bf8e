{"id": "C01", "title": "Field arithmetic is exact and canonical", "statement": "For every prime field p and all integers l, r (canonical or not): addition, subtraction, multiplication and negation return the unique representative in [0,p) of the mathematical result; division returns the unique q in [0,p) with q*r = l (mod p) when r is not 0 mod p and reports a division-by-zero error exactly when r = 0 mod p.", "quantifier": "all primes p, all integers l and r", "why_tests_cant": "254-bit operands; a test samples finitely many of them", "anchors": ["circom_algebra/src/modular_arithmetic.rs: modulus, add, sub, mul, div, prefix_sub"]}
{"id": "C02", "title": "Comparison operators are the signed order of the field", "statement": "For every odd modulus p > 2 and all integers l, r the operators <, <=, >, >=, ==, != return exactly 0 or 1, and return 1 iff the corresponding relation holds between the representatives of l and r in the interval [-(p-1)/2, (p-1)/2]; so the order is total and consistent.", "quantifier": "all odd moduli, all pairs of integers", "why_tests_cant": "infinitely many pairs; the boundary p/2 depends on p", "anchors": ["circom_algebra/src/modular_arithmetic.rs: val, comparable_element, lesser, lesser_eq, greater, greater_eq, eq, not_eq"]}
{"id": "C03", "title": "Boolean operators follow truth tables on non-zero-ness", "statement": "For every modulus p > 2 and all integers, !, && and || return 0 or 1 and implement logical not/and/or where a value is true iff it is non-zero modulo p; conversion to bool agrees.", "quantifier": "all moduli > 2, all integers", "why_tests_cant": "values range over the whole field", "anchors": ["circom_algebra/src/modular_arithmetic.rs: normalize, as_bool, not, bool_and, bool_or"]}
{"id": "C04", "title": "Integer quotient and remainder are Euclidean on canonical representatives", "statement": "For all l, r with r not 0 mod p, with L,R the canonical representatives: (l \\ r) and (l % r) are the Euclidean quotient and remainder of L by R, so L = R*(l\\r) + (l%r) with 0 <= l%r < R; a zero divisor yields a division-by-zero error for the quotient.  (For the remainder the full claim - an error rather than a crash on a zero divisor - is false: the code panics.)", "quantifier": "all fields, all integers", "why_tests_cant": "whole-field quantification", "anchors": ["circom_algebra/src/modular_arithmetic.rs: idiv, mod_op"]}
{"id": "C05", "title": "Shifts are mirror images and exact", "statement": "For canonical l and shift k: when k <= p/2, l >> k is floor(l / 2^k) and l << k is (l*2^k with only the bits of the field kept) mod p; when k > p/2 the shift equals the opposite shift by p-k; every successful result is canonical, and the mutual recursion terminates.", "quantifier": "all fields, all l in [0,p), all k in [0,p)", "why_tests_cant": "exponentially many pairs, recursion between two functions", "anchors": ["circom_algebra/src/modular_arithmetic.rs: shift_l, shift_r, mask"]}
{"id": "C06", "title": "Bitwise operators and complement", "statement": "For canonical operands, ~x is (2^b - 1 - x) mod p with b the bit length of p, &,|,^ are the bitwise operation reduced mod p, results are canonical; & of canonical values is the plain bitwise and.  Complement is an involution on canonical elements, but not on non-canonical ones (refuted; the in-tree test uses one).", "quantifier": "all fields, all canonical operands", "why_tests_cant": "whole-field quantification", "anchors": ["circom_algebra/src/modular_arithmetic.rs: complement, bit_and, bit_or, bit_xor"]}
{"id": "C07", "title": "Batch inversion returns each inverse", "statement": "For every list of integers all non-zero modulo prime p, batch inversion returns, at every position i of the input, the canonical inverse of the i-th element; it fails (crashes) iff some element is 0 mod p.", "quantifier": "all lists of any length", "why_tests_cant": "unbounded lists, order of the backward pass matters", "anchors": ["circom_algebra/src/modular_arithmetic.rs: multi_inv"]}
{"id": "C08", "title": "Symbolic arithmetic is a homomorphism", "statement": "For all symbolic expressions and every assignment of signals, the value of the symbolic sum, difference, product, quotient by a number, square and negation of expressions equals the field operation on their values whenever the result is not flagged non-quadratic; results keep every coefficient canonical and keep the constant key present.", "quantifier": "all expressions, all assignments, all primes", "why_tests_cant": "polynomial identities over all assignments", "anchors": ["circom_algebra/src/algebra.rs: ArithmeticExpression::{add,sub,mul,div,pow,prefix_sub}"]}
{"id": "C09", "title": "A quadratic expression becomes an equivalent constraint", "statement": "Turning an expression e into a constraint yields A,B,C such that for every assignment A*B - C = 0 holds iff e evaluates to 0; it fails only for non-quadratic expressions.", "quantifier": "all expressions, all assignments", "why_tests_cant": "all assignments", "anchors": ["circom_algebra/src/algebra.rs: transform_expression_to_constraint_form"]}
{"id": "C10", "title": "Constraint normalisation preserves solutions and reaches normal form", "statement": "Normalising a constraint (dropping zero coefficients, folding constant factors into the linear part) preserves its solution set for every assignment, leaves no zero coefficient, leaves neither factor constant or lone-empty, is idempotent, and makes a constraint linear exactly in form when one factor was constant.", "quantifier": "all constraints with canonical coefficients, all assignments", "why_tests_cant": "unbounded number of coefficients", "anchors": ["circom_algebra/src/algebra.rs: fix_raw_constraint, constant_linear_linear_reduction, remove_zero_value_coefficients"]}
{"id": "C11", "title": "Solving a linear constraint for a signal is exact", "statement": "For every linear constraint with non-zero coefficient for signal x, solving for x yields a substitution x -> e with x not in e such that an assignment satisfies the constraint iff x = e under it (also for the un-normalised coefficient/rest form).", "quantifier": "all linear constraints, all signals in them, all assignments", "why_tests_cant": "all assignments", "anchors": ["circom_algebra/src/algebra.rs: clear_signal, clear_signal_not_normalized"]}
{"id": "C12", "title": "Applying a substitution preserves meaning", "statement": "If an assignment satisfies x = e then a constraint (or expression or other substitution) has the same truth value (value) before and after replacing x by e, x no longer occurs afterwards (if x not in e), no other signal than those of e is introduced.", "quantifier": "all constraints, substitutions, assignments", "why_tests_cant": "all assignments", "anchors": ["circom_algebra/src/algebra.rs: raw_substitution, Constraint::apply_substitution, Substitution::apply_substitution, ArithmeticExpression::apply_substitutions", "circom_algebra/src/simplification_utils.rs: fast_encoded_constraint_substitution"]}
{"id": "C13", "title": "Linear simplification is an equivalence", "statement": "For every list of linear constraints, every forbidden set, either elimination heuristic and every hash iteration order, an assignment satisfies all original constraints iff it satisfies all produced substitutions (read as equations) and all remaining constraints.", "quantifier": "all systems, forbidden sets, heuristics, iteration orders, assignments", "why_tests_cant": "Gaussian elimination over unbounded systems with order-dependent pivoting", "anchors": ["circom_algebra/src/simplification_utils.rs: full_simplification, rebuild, treat_constraint_3/4, take_signal_3/4, normalize_substitutions, create_nonoverlapping_substitutions(_4)"]}
{"id": "C14", "title": "Linear simplification output is triangularised and respects forbidden signals", "statement": "Produced substitutions have pairwise distinct left-hand signals, none of them forbidden and none the constant; no right-hand side mentions an eliminated signal; remaining constraints mention only forbidden signals.", "quantifier": "all systems, forbidden sets, heuristics, iteration orders", "why_tests_cant": "unbounded systems", "anchors": ["circom_algebra/src/simplification_utils.rs: full_simplification"]}
{"id": "C15", "title": "Linear simplification terminates", "statement": "The elimination loop reaches its result in finitely many steps on every system, for every pivot heuristic and iteration order (no constraint is re-treated forever).", "quantifier": "all systems and iteration orders", "why_tests_cant": "non-termination cannot be observed by tests", "anchors": ["circom_algebra/src/simplification_utils.rs: treat_constraint_3/4 loops"]}
{"id": "C16", "title": "Clusters partition the linear constraints by shared signals", "statement": "Grouping constraints yields a partition of the non-empty input constraints (each in exactly one cluster), any two constraints sharing a signal are in the same cluster, so different clusters share no signal.", "quantifier": "all lists of constraints", "why_tests_cant": "union-find with path compression over unbounded inputs", "anchors": ["constraint_list/src/constraint_simplification.rs: build_clusters"]}
{"id": "C17", "title": "Signal-equality simplification is an equivalence that keeps forbidden signals", "statement": "For every list of signal=signal constraints and forbidden set, an assignment satisfies them iff it satisfies the produced renamings plus the retained constraints; renamings go from non-forbidden signals only, and right sides are never renamed.", "quantifier": "all equality systems, all forbidden sets", "why_tests_cant": "unbounded systems", "anchors": ["constraint_list/src/constraint_simplification.rs: eq_cluster_simplification, eq_simplification"]}
{"id": "C18", "title": "Constant-equality simplification preserves the solution set", "statement": "For every list of signal=constant constraints, an assignment satisfies them iff it satisfies the substitutions and constraints produced and the later rewriting performed with them.  (False in general: two different constants for one signal make the system unsatisfiable, and the rewriting keeps only one of them.)", "quantifier": "all constant-equality systems", "why_tests_cant": "needs conflicting pairs; and the positive part all systems", "anchors": ["constraint_list/src/constraint_simplification.rs: constant_eq_simplification", "circom_algebra/src/simplification_utils.rs: build_encoded_fast_substitutions"]}
{"id": "C19", "title": "Simplification preserves the witness space", "statement": "For every constraint system, the pipeline's output system and substitutions together have exactly the solutions of the original: each original solution satisfies the output, each output solution extends uniquely to the original's eliminated signals (guarded by C18's condition).", "quantifier": "all systems, forbidden sets, round counts, assignments", "why_tests_cant": "global equivalence over unbounded systems", "anchors": ["constraint_list/src/constraint_simplification.rs: simplification"]}
{"id": "C20", "title": "Results do not depend on worker thread completion order", "statement": "Whatever order worker threads deliver per-cluster results, the union of substitutions defines the same equations and the same rewriting of every constraint.", "quantifier": "all arrival permutations", "why_tests_cant": "schedules", "anchors": ["constraint_list/src/constraint_simplification.rs: eq_simplification, linear_simplification"]}
{"id": "C21", "title": "Witness renumbering is a compact order-preserving bijection", "statement": "After deletions, the map from kept original signals to witness positions is strictly increasing, starts at 0 for the constant one signal, and is onto 0..n-1; hence public outputs and inputs keep their order at the front.", "quantifier": "all deletion sets and signal counts", "why_tests_cant": "unbounded", "anchors": ["constraint_list/src/constraint_simplification.rs: rebuild_witness"]}
{"id": "C22", "title": "Signals declared public are never eliminated", "statement": "Outputs and public inputs of main (and signals of custom gates) keep a witness position at every optimisation level.", "quantifier": "all circuits", "why_tests_cant": "all circuits", "anchors": ["dag/src/lib.rs: Node::add_output, add_input", "dag/src/map_to_constraint_list.rs", "constraint_list/src/constraint_simplification.rs: simplification"]}
{"id": "C23", "title": "Signal numbering is dense and injective", "statement": "For every sequence of template declarations and sub-component instantiations, signals receive pairwise distinct consecutive ids starting at 1 (0 is the constant); each sub-component occupies a contiguous range disjoint from the parent's own signals and siblings' ranges, and its size equals the child's total.", "quantifier": "all construction histories", "why_tests_cant": "arbitrary histories and tree shapes", "anchors": ["dag/src/lib.rs: Node, DAG::add_edge"]}
{"id": "C24", "title": "Tree flattening instantiates each template constraint at the right offset", "statement": "Walking the instance tree visits every instance exactly once; the global ids of an instance's signals are exactly its allotted range; the constraint list is the concatenation of each instance's constraints with ids shifted by the instance offset and constant key untouched; satisfaction is preserved by the shift.", "quantifier": "all DAGs", "why_tests_cant": "unbounded trees", "anchors": ["dag/src/lib.rs: Tree", "dag/src/map_to_constraint_list.rs", "circom_algebra/src/algebra.rs: apply_raw_offset"]}
{"id": "C25", "title": "Witness order: one, outputs, public inputs, private inputs, internals", "statement": "The flattened witness lists 0 first, then main's outputs, public inputs, private inputs, then everything else exactly once.", "quantifier": "all programs", "why_tests_cant": "all programs", "anchors": ["constraint_generation/src/execution_data/executed_template.rs: build_wires", "dag/src/witness_producer.rs"]}
{"id": "C26", "title": "R1CS file round-trips", "statement": "For every constraint system whose ids fit in 32 bits, coefficients are canonical and label ids fit in 64 bits, reading back the bytes written yields the same header, constraints (as finite maps), wire-to-label map, and custom gate sections; each section's size field equals its content length.", "quantifier": "all constraint systems within the format's field widths", "why_tests_cant": "unbounded files", "anchors": ["constraint_writers/src/r1cs_writer.rs", "constraint_writers/src/r1cs_reader.rs"]}
{"id": "C27", "title": "Constraint storage is a faithful memory", "statement": "For every history of add/replace/extract operations, reading an id returns the last constraint stored there (coefficients included); ids are dense; extraction removes exactly the matching ones; interned coefficients decode to the original integers.", "quantifier": "all operation histories", "why_tests_cant": "histories", "anchors": ["circom_algebra/src/constraint_storage/logic.rs", "circom_algebra/src/constraint_storage/mod.rs"]}
{"id": "C28", "title": "Constant table assigns a stable unique index", "statement": "For every insertion history the constant table gives equal constants equal ids and distinct constants distinct ids, ids never change, and lookup by id returns the constant.", "quantifier": "all histories", "why_tests_cant": "histories", "anchors": ["constant_tracking/src/lib.rs"]}
{"id": "C29", "title": "Array memory obeys read-after-write and frame laws", "statement": "For every shape, in-bounds access path and value of matching shape: a write followed by a read at the same path returns the value; reads at disjoint paths are unchanged; shape and total length never change; out-of-bounds or over-long accesses are errors and change nothing.", "quantifier": "all shapes (any dimensions), accesses and slices", "why_tests_cant": "all shapes and paths", "anchors": ["program_structure/src/utils/memory_slice.rs"]}
{"id": "C30", "title": "Linear index and multi-dimensional index are inverse", "statement": "For every shape, converting a linear cell index to an access path and back is the identity, and vice versa; it is row-major. The bound check in the by-index functions is off by one (refuted for index = length).", "quantifier": "all shapes, all indices", "why_tests_cant": "all shapes", "anchors": ["program_structure/src/utils/memory_slice.rs: get_access_index, get_initial_cell"]}
{"id": "C31", "title": "Lexical scoping of environments", "statement": "A variable lookup returns the innermost declaration's latest assignment; leaving a block restores exactly the outer declarations while keeping updates to outer variables.", "quantifier": "all operation histories", "why_tests_cant": "histories", "anchors": ["program_structure/src/utils/environment.rs"]}
{"id": "C32", "title": "Comment removal preserves positions and code", "statement": "Comment stripping keeps the byte offset of everything that remains, blanks exactly comment text, never touches text outside comments, keeps line structure of line comments, and rejects exactly inputs with an unclosed block comment.  String literals are not protected (refuted).", "quantifier": "all source texts", "why_tests_cant": "all texts", "anchors": ["parser/src/parser_logic.rs: preprocess"]}
{"id": "C33", "title": "Each included file is parsed at most once and inclusion terminates", "statement": "For every file system and include graph (cycles included), the parser's file stack yields each path at most once and the loop ends; all reachable includes are yielded.", "quantifier": "all include graphs", "why_tests_cant": "all graphs incl. cyclic", "anchors": ["parser/src/include_logic.rs: FileStack", "parser/src/lib.rs"]}
{"id": "C34", "title": "Version pragma accepts exactly compatible versions", "statement": "A required version is accepted iff major equal and (minor,patch) lexicographically <= compiler's.", "quantifier": "all triples", "why_tests_cant": "infinitely many triples", "anchors": ["parser/src/lib.rs: check_number_version"]}
{"id": "C35", "title": "Input-name hash table finds every input", "statement": "For every set of inputs with distinct hashes, of size at most the table size, looking up the hash of an inserted input in the generated table returns its start position and size; probing terminates.", "quantifier": "all input lists and table sizes", "why_tests_cant": "open addressing with wraparound over arbitrary collisions", "anchors": ["code_producers/src/c_elements/c_code_generator.rs: generate_hash_map", "code_producers/src/c_elements/common/calcwit.cpp: getInputSignalHashPosition"]}
{"id": "C36", "title": "Input protocol runs the circuit exactly once, after all inputs", "statement": "For every sequence of input-signal writes, the circuit is run exactly when the last missing input arrives, each input position is accepted at most once, wrong names, out-of-range indices and repeated assignment are rejected, regardless of order.", "quantifier": "all write sequences", "why_tests_cant": "histories", "anchors": ["code_producers/src/c_elements/common/calcwit.cpp: setInputSignal, tryRunCircuit"]}
{"id": "C37", "title": "Runtime constant table encodes constants faithfully", "statement": "For every field constant, the encoded record (short or Montgomery long form) decodes to the constant modulo p.", "quantifier": "all constants, primes", "why_tests_cant": "whole field", "anchors": ["code_producers/src/c_elements/c_code_generator.rs: generate_dat_constant_list"]}
{"id": "C38", "title": "Runtime data file round-trips through the loader", "statement": "The .dat sections written (hash map, witness list, constants, component io info, bus field info) are parsed by the runtime loader into the same tables, when they take less than 4 GiB and no bus has more than ten fields (refuted beyond).", "quantifier": "all circuits' tables", "why_tests_cant": "unbounded tables", "anchors": ["code_producers/src/c_elements/c_code_generator.rs", "code_producers/src/c_elements/common/main.cpp: loadCircuit"]}
{"id": "C39", "title": "Address constant folding preserves the address", "statement": "Folding constant address arithmetic never changes the address computed, for any run-time state, and never changes non-address computations.", "quantifier": "all IR expressions and states", "why_tests_cant": "all expressions", "anchors": ["compiler/src/ir_processing/reduce_stack.rs"]}
{"id": "C40", "title": "Expression temporaries never clobber live values and stay within the declared stack", "statement": "In generated C code for any arithmetic expression tree, each temporary is written before being read, is not overwritten while still needed, and its index is below the declared stack depth; the code computes the same value as direct evaluation.", "quantifier": "all IR expressions, all states", "why_tests_cant": "all expression shapes", "anchors": ["compiler/src/ir_processing/build_stack.rs", "compiler/src/intermediate_representation/compute_bucket.rs"]}
{"id": "C41", "title": "Return-path check is sound", "statement": "If a function body passes the all-paths-return check, then no terminating execution of it falls through without returning.", "quantifier": "all statements, all executions", "why_tests_cant": "all programs and executions", "anchors": ["type_analysis/src/analyzers/functions_all_paths_with_return_statement.rs"]}
{"id": "C42", "title": "Signals cannot be assigned twice", "statement": "The assignment tracker rejects any second write to an already-written signal along every execution path of unknown conditions.", "quantifier": "all sequences of conditional writes", "why_tests_cant": "path combinations", "anchors": ["constraint_generation/src/assignment_utils.rs: perform_signal_assignment"]}
{"id": "C43", "title": "Accepted templates have constraints that do not depend on signal values", "statement": "If the known/unknown analysis reports nothing about a template, then any two executions of it with the same parameters declare the same signals and components, create the same components and buses, give the same values to tags and add the same constraints about the same places in the same order, whatever values the signals have. The analysis ends on every template. (False for variables assigned in nested loops, for parameters and arrays that hold signals, and for indexes that are signals.)", "quantifier": "all templates that the grammar produces, all meanings of operators and functions, all parameters, all pairs of assignments of values to signals, all executions", "why_tests_cant": "non-interference relates all pairs of executions; a test compares two of them", "anchors": ["type_analysis/src/analyzers/unknown_known_analysis.rs: unknown_known_analysis, analyze, tag, check_modified, is_non_quadratic"]}
{"id": "C44", "title": "Symbol file agrees with the constraint file", "statement": "Each line of the symbol file lists original id, witness position or -1, and these agree with the wire-to-label section of the r1cs file: label of wire w is the original id whose symbol line shows w; names are unique and row-major.", "quantifier": "all circuits, all simplifications", "why_tests_cant": "all circuits", "anchors": ["constraint_list/src/sym_porting.rs", "constraint_list/src/r1cs_porting.rs", "constraint_list/src/lib.rs"]}
{"id": "C45", "title": "Constraint classification is a partition", "statement": "Classifying a template's constraints into constant-equality, signal-equality, linear and non-linear preserves them as a multiset and each class satisfies its shape.", "quantifier": "all constraint lists", "why_tests_cant": "unbounded lists", "anchors": ["dag/src/map_to_constraint_list.rs", "dag/src/lib.rs"]}
{"id": "C46", "title": "Witness file carries the witness", "statement": "The .wtns bytes written contain the prime, the number of wires and each wire's value such that a reader following the format recovers them; section lengths are right (for the JavaScript writer only when the section length is below 2^32: refuted beyond).", "quantifier": "all witnesses", "why_tests_cant": "unbounded", "anchors": ["code_producers/src/c_elements/common/main.cpp: writeBinWitness", "code_producers/src/wasm_elements/common/witness_calculator.js: calculateWTNSBin"]}
{"id": "C47", "title": "Bus and array fields have disjoint contiguous offsets", "statement": "For every bus definition (nested, arrays) field offsets are the prefix sums of field sizes, so that distinct field accesses have disjoint ranges covering the bus; qualified names enumerate exactly its cells in order.", "quantifier": "all bus definitions", "why_tests_cant": "unbounded nesting", "anchors": ["constraint_generation/src/execution_data/executed_bus.rs", "compiler/src/circuit_design/build.rs"]}
{"id": "C48", "title": "Constant propagation and dead-code removal keep the meaning of the code", "statement": "A value recorded as a known constant for an expression is the value of that expression in every evaluation recorded, and differing values yield unknown. The code of a template instance handed to the witness generators, in which expressions with a recorded constant are replaced by it and code that was not executed is removed, sets the same signals to the same values, logs the same values and checks the same assertions and equations, in the same order, as the original code. Proved for stable unknown loops, silent functions and inline conditions without propagated constants in skipped branches; refuted in general (four miscompilations).", "quantifier": "all evaluation histories; all templates, parameters, inputs and runs", "why_tests_cant": "the recorded values come from finitely many symbolic evaluations, the code is run on all inputs", "anchors": ["constraint_generation/src/execution_data/analysis.rs", "constraint_generation/src/execution_data/filters.rs", "constraint_generation/src/execute.rs: execute_expression"]}
{"id": "C49", "title": "Reading any R1CS file never crashes", "statement": "For every byte string, reading it as an R1CS file ends with data or an I/O error, never with a panic, and what is read has exactly the announced number of constraints and labels (refuted only for custom-gate names that are not UTF-8, where the reader panics).", "quantifier": "all byte strings", "why_tests_cant": "unbounded malformed inputs", "anchors": ["constraint_writers/src/r1cs_reader.rs: read_r1cs"]}
{"id": "C50", "title": "The R1CS file has exactly the solutions of the circuit", "statement": "For every program of template declarations, instantiations and constraints, at every simplification level and whatever the hash orders: every assignment of the circuit satisfies the rows of the file under the wire-to-label map; every solution of the rows extends to an assignment of the circuit (when its equalities and constants are jointly satisfiable); rows mention only existing wires with canonical coefficients; outputs and public inputs are the first wires; the header's counts agree; and the written bytes read back as the same system. (Refuted for one header field: the number of private inputs counts inputs the simplification removed.)", "quantifier": "all histories of DAG construction, all hash orders, all primes, all assignments", "why_tests_cant": "all circuits and all assignments", "anchors": ["dag/src/map_to_constraint_list.rs", "constraint_list/src/constraint_simplification.rs", "constraint_list/src/r1cs_porting.rs", "dag/src/r1cs_porting.rs"]}
{"id": "C51", "title": "Custom gates are listed with their own wires", "statement": "The custom-gate table lists exactly the custom templates with their parameters; the applications list exactly the gate instances, depth first, each with the table entry of its template and the wires of its signals in the order of declaration.", "quantifier": "all circuits with custom templates, with and without simplification", "why_tests_cant": "all instance trees", "anchors": ["dag/src/r1cs_porting.rs", "constraint_list/src/r1cs_porting.rs"]}
{"id": "C52", "title": "The custom-templates pragma is required along every include chain", "statement": "After parsing, the compiler reports a missing custom-templates pragma iff some parsed file without it includes, directly or through other files, a file that declares a custom template; every reported chain is a real chain of includes from the declaring file to the one without the pragma, whatever cycles the includes have.", "quantifier": "all include graphs, all placements of pragmas and declarations", "why_tests_cant": "unbounded graphs with cycles", "anchors": ["parser/src/include_logic.rs: IncludesGraph", "parser/src/lib.rs: run_parser"]}
{"id": "C53", "title": "A JSON input gives every input signal its own value", "statement": "For every program and every JSON object that has exactly the inputs of main as members, each a nested array of the declared dimensions whose elements are numbers, or objects with the fields of the bus in any order: the C++ witness calculator accepts it, runs the circuit exactly once, and when it runs the k-th input signal of main has the k-th value of the declared shape and no other signal has been changed (provided the 64-bit hashes of the input names differ and are not 0). Refuted for members spelled with a dot, which silently replace members of buses.", "quantifier": "all bus declarations, all input shapes, all JSON objects of that shape with any order of members", "why_tests_cant": "unbounded nesting of buses and arrays, all orders of members", "anchors": ["code_producers/src/c_elements/common/main.cpp: qualify_input, json2FrElements, loadJson", "code_producers/src/c_elements/common/calcwit.cpp: setInputSignal, getInputSignalHashPosition", "compiler/src/circuit_design/build.rs: get_main_input_list_with_qualifiers", "code_producers/src/c_elements/c_code_generator.rs: generate_hash_map"]}
{"id": "C54", "title": "The run-time field library agrees with the compiler's arithmetic", "statement": "For every supported prime other than goldilocks, and for operands in any of the four representations the library uses (short, short with Montgomery part, long, long Montgomery), every arithmetic, comparison, logical, bit and shift operation of the portable C++ library leaves in the result element exactly the value that the compiler computes for the same operation on the same field values, and changes no other element, provided the result element is not an operand (comparisons and logical operations: always). Division, quotient and remainder stop exactly for a zero divisor. Reading an integer reduces it modulo the prime, printing gives the canonical value, and the conversion to a C int is exact for 32-bit values. Refuted: results written over an operand, and rejection of values that do not fit an int.", "quantifier": "all usable primes, all operands and representations, all contents of unused parts of elements, all memories", "why_tests_cant": "the space of operands and representation pairs is 2^512 times 16; carries that tests do not reach decide correctness", "anchors": ["code_producers/src/c_elements/generic/fr.cpp: all Fr_* functions", "code_producers/src/c_elements/c_code_generator.rs: generate_fr_cpp_file, generate_fr_hpp_file", "circom_algebra/src/modular_arithmetic.rs"]}
{"id": "C55", "title": "Accesses to signals of a subcomponent known only at run time reach the right element", "statement": "When a component array holds instances of different templates, a signal access c[i].s[j][k].f in the generated C++ code reads or writes the element that the run-time tables describe: the signal's offset, plus the row-major position of the indexes times the element size, plus the offset of each bus field; and different in-range indexes designate disjoint elements. Proved for reads with one index or as many indexes as dimensions, and for writes with one index, or all of them and elements of size one. Refuted for slices of arrays with three or more dimensions, and for writes to two-dimensional arrays of buses.", "quantifier": "all component indexes, tables, index expressions, access paths and program states", "why_tests_cant": "depends on the run-time index, the shapes in the tables and the textual precedence of generated code, for all shapes", "anchors": ["compiler/src/intermediate_representation/load_bucket.rs: produce_c", "compiler/src/intermediate_representation/store_bucket.rs: produce_c", "compiler/src/intermediate_representation/call_bucket.rs: produce_c"]}
{"id": "C56", "title": "A subcomponent runs exactly once, when its last input is assigned", "statement": "The compiler decides statically which store of an input may be the last one, and the generated code counts the remaining inputs only where it must. In every execution of a template body (any branches, any number of loop iterations, any computed component index), the stores to a subcomponent that together assign all its inputs run it exactly once, at the last of these stores, and no sanity assertion fails; an anonymous component runs at the last store of its block. Proved for stores of at least one element; refuted for stores of zero elements, which the pass skips and which may run the component a second time.", "quantifier": "all template bodies with nested branches and loops, all executions, components and sanity levels", "why_tests_cant": "quantifies over every program and every execution path; a wrong static decision shows only on particular combinations of loops, branches and indexes", "anchors": ["compiler/src/ir_processing/build_inputs_info.rs: visit_list, visit_address_type", "compiler/src/intermediate_representation/store_bucket.rs: produce_c (counter and run)", "compiler/src/intermediate_representation/translate.rs: 1377, 1444, 1507, 1963"]}
{"id": "C57", "title": "The constraints of a template instance are the equations of its code", "statement": "Compile a template with given parameters. For every assignment of values to the signals, the run of the code with these values meets equations (its <== and === statements); the compiler emits exactly one constraint per equation met, in the same order, and the constraint holds under the assignment if and only if the two sides of the equation are equal. Proved for code in which the second pass over every loop with an unknown condition changes no variable; refuted without this condition (the compiler executes such loops only twice).", "quantifier": "all templates over variables, arrays, signals, conditions, loops and function calls, all parameters, all assignments of the signals", "why_tests_cant": "soundness of the generated constraints must hold for every program and every assignment, also dishonest ones", "anchors": ["constraint_generation/src/execute.rs: execute_statement, execute_expression, execute_conditional_statement, execute_sequence_of_statements", "circom_algebra/src/algebra.rs: transform_expression_to_constraint_form"]}
{"id": "C58", "title": "The witness computed by a template's code satisfies its constraints", "statement": "Run the code of a template instance on its inputs, computing each signal once and reading it only afterwards. If every === statement met is true, the values computed satisfy all the constraints that the compiler emitted for the instance. Proved when unknown loops are stable after two passes; refuted otherwise: a variable changed only from the third iteration of an unknown loop on is taken for a constant, so the honest witness violates the constraint.", "quantifier": "all templates, parameters, inputs and runs", "why_tests_cant": "completeness must hold for every program and every input", "anchors": ["constraint_generation/src/execute.rs: execute_statement (Substitution, ConstraintEquality, While)", "constraint_generation/src/environment_utils"]}
{"id": "C59", "title": "Removing nested calls, inline conditions and arrays does not change what code computes", "statement": "Before the body of a template or function is translated for the witness calculator, nested calls, inline conditions and inline arrays are replaced by temporary variables. Executed from any state, the new body ends like the old one, with the same returned value, the same printed values and the same values in the variables; if the old body fails, the new one does not succeed. Proved for bodies where branches of inline conditions and conditions of loops contain no call, inline condition or array, bodies are in braces, an array is not assigned to a variable its elements read and arrays are compared with arrays or variables; refuted otherwise: a = [a[1], a[0]] does not swap, a call in a loop condition is evaluated once before the loop, both branches of an inline condition are evaluated, a call in a body without braces is evaluated before the loop or the test, and [a, b] === f(x) is not checked.", "quantifier": "all bodies, meanings of operators and functions, states and bounds on loops", "why_tests_cant": "the translation must preserve every program on every input", "anchors": ["compiler/src/hir/sugar_cleaner.rs: clean_sugar, extend_statement, extend_expression, sugar_filter, rmv_sugar, into_single_substitution, into_single_constraint_equality, split_return"]}
{"id": "C60", "title": "Inline conditions and arrays are gone before translation", "statement": "The translation to circuit instructions stops the compiler when it meets an inline condition, an array or an initialisation block in the code, or a call in a return. After the removal none is left. Proved unless log, assert or === is applied directly to an inline condition, the condition of an inline condition contains one, or a body without braces assigns or returns one; refuted in these cases: the compiler panics on a valid program.", "quantifier": "all bodies of templates and functions", "why_tests_cant": "a panic on one valid program is a defect no finite set of programs excludes", "anchors": ["compiler/src/hir/sugar_cleaner.rs: clean_sugar", "compiler/src/intermediate_representation/translate.rs: translate_expression, translate_statement, get_expression_size"]}
{"id": "C61", "title": "The 64-bit field library computes what the compiler computes", "statement": "The C++ witness calculator for the prime Goldilocks keeps an element in one machine word. For all canonical elements every operation of its library returns the canonical element that the compiler's own arithmetic computes: sum, difference, product, opposite, quotient, power, integer quotient and remainder, shifts, bit operations, comparisons, logic, reading an integer and the conversion to an index. A zero divisor of the integer quotient or remainder stops the calculator. Refuted: a field division by zero does not stop it, an element that is no 32-bit integer is cut silently when it is used as an index, and binary inputs are not reduced.", "quantifier": "all pairs of field elements, all integers in the input", "why_tests_cant": "2^128 pairs of operands; the carries and the folding of the product go wrong only for rare operands", "anchors": ["code_producers/src/c_elements/goldilocks/fr.hpp: Fr_add, Fr_sub, Fr_mul, Fr_inv, Fr_div, Fr_pow, Fr_shl, Fr_shr, Fr_toInt", "code_producers/src/c_elements/common64/main.cpp: str2u64, loadBinary"]}
{"id": "C62", "title": "The WebAssembly code of a template or function does what its instructions say", "statement": "For every list of instructions produced for a template or function, the generated WebAssembly code, started with the registers of the generated prologue and arbitrary temporaries, ends exactly when the instructions do, with the same memory, log, runs of subcomponents and returned values, or stops with an error when they do. It uses only the temporaries reserved for it and only existing table entries, leaves the machine's stack as it found it, and gives the same result as the C++ code. Refuted: an index that is itself read through the tables, a function that returns fewer elements than its destination has, and an argument of size zero.", "quantifier": "all programs of instructions (any nesting, any sizes), all memories, all tables, all behaviours of functions and subcomponents, terminating or not", "why_tests_cant": "programs, loops and memories are unbounded, and the errors depend on nesting: one local register is shared by all accesses", "anchors": ["compiler/src/intermediate_representation/{load,store,call,compute,branch,loop,assert,return,log,value,create_component}_bucket.rs: produce_wasm", "code_producers/src/wasm_elements/wasm_code_generator.rs: free_stack"]}
{"id": "C63", "title": "The generated code creates exactly the sub-components of the circuit", "statement": "From the executed templates of any program the compiler produces, without a failure, code that creates for every initialised component exactly one component: of the right template, with the signals and the number that the circuit (and so the R1CS and symbol files) gives it, recorded where the code of the parent looks for it, at a place of the table that no other component uses. The components that come to be in a run are the instances of the circuit, numbered 0, 1, 2, ... in depth-first order; the numbers of components and signals and the memory for the component tree that the compiler announces are exact. The C++ and the WebAssembly code create the same components, and every create function that is called is generated. Refuted: incompletely initialised arrays of components without inputs are never run in WebAssembly; one-element arrays have another name in C++ than in the symbol file; a main template declared parallel and a component without inputs that is only used with parallel call C++ functions that are not generated.", "quantifier": "all programs that execution accepts: any number of templates, components, dimensions, initialised positions, order of initialisation, mixtures of templates and of parallel tags in one array", "why_tests_cant": "the tree of components is unbounded, and offsets, clusters, tables and jumps must agree across five passes for every shape of array", "anchors": ["constraint_generation/src/execution_data/executed_template.rs: insert_in_dag, build_connexions, export_to_circuit, build_clusters", "constraint_generation/src/execution_data/executed_program.rs: export, produce_dags_stats", "compiler/src/circuit_design/build.rs: build_template_instances", "compiler/src/intermediate_representation/translate.rs: create_components, create_uniform_components, create_mixed_components, initialize_components", "compiler/src/intermediate_representation/create_component_bucket.rs: produce_c, produce_wasm", "compiler/src/circuit_design/template.rs: produce_c", "code_producers/src/c_elements/common/calcwit.cpp: generate_position_array"]}
{"id": "C64", "title": "Anonymous components and tuples can be written out without changing what a template does", "statement": "The compiler replaces every anonymous component T(p)(x, y) by a declared component, its creation and one assignment per input, and every tuple assignment by single assignments. For every template it accepts, the new body does the same as the old one, step by step: the same signals declared, instances created with the same parameters, inputs assigned with the same values (the first argument to the input declared first, or by name in any order), constraints, asserts and logs; each evaluation of an anonymous component, also in nested loops, makes a new instance. The names given to components and loop counters differ from each other. Nothing of the two notations is left, the pass does not panic on what the parser builds, and the same holds for functions with tuples. Refuted: (a, b) = (b, a) on variables assigns one after the other; an anonymous component inside the arguments of a parallel one is not checked and one is left in the program; an input declared in both branches of an if needs two positional arguments and the first disappears; a user name equal to a generated one clashes.", "quantifier": "all template bodies the parser can build, with any nesting of blocks, conditions, loops, tuples, arrays and anonymous components, all sets of templates, all parameters, all domains of values, any number of loop rounds", "why_tests_cant": "the rewriting recurses through unbounded nests of statements and expressions; that the order of evaluation, the instance names and the counters of loops agree in every run cannot be tested case by case", "anchors": ["parser/src/syntax_sugar_remover.rs: apply_syntactic_sugar, check_anonymous_components_statement, remove_anonymous_from_statement, remove_anonymous_from_expression, check_tuples_statement, remove_tuples_from_statement, separate_tuple_for_logcall", "program_structure/src/abstract_syntax_tree/expression_impl.rs: contains_anonymous_comp, contains_tuple", "program_structure/src/program_library/template_data.rs: fill_inputs_and_outputs"]}
{"id": "C65", "title": "The inputs of a component are assigned exactly once, with the tags they require, before its outputs are used", "statement": "A template that creates a component and assigns its inputs is accepted exactly if every value given to a tagged input carries all its tags, always with the same values, every assignment is inside the declared dimensions and has the dimensions of the part it designates, every input with tags is assigned, and every signal of every input is assigned exactly once; the component is then the instance executed with these tag values. It does not matter in which order the inputs are assigned, nor which assignments had to wait until the tags were known. An output can be read exactly once every signal of every input is assigned; everything else is rejected with an error, also using a component before its creation and creating it twice. The same holds for assignments under conditions the compiler does not know as long as no two of them designate a common signal. Refuted: assigning one signal in both branches of an if counts twice, so another signal of the input may stay unassigned; an input assigned in one branch only counts as assigned; a legal program whose signals are assigned in both branches makes the count negative (panic, or a wrong error); a tagged input declared in a branch the instance does not take makes the template unusable.", "quantifier": "all templates (inputs, tags, and any function from tag values to instances), all sequences of assignments of any number of signals and dimensions, all tag values, both builds (with and without overflow checks)", "why_tests_cant": "the compiler counts the missing signals of each input and executes the template in the middle of the assignments, when the last tag arrives; whether the count and the queue of delayed assignments are right depends on the whole history and on unbounded dimensions", "anchors": ["constraint_generation/src/environment_utils/component_representation.rs: preinitialize_component, initialize_component, assign_value_to_signal, handle_tag_assignment_no_init, handle_tag_assignment_init, update_unassigned_inputs, check_initialized_inputs, get_io_value", "constraint_generation/src/assignment_utils.rs: perform_signal_assignment", "constraint_generation/src/execute.rs: perform_assign", "constraint_generation/src/environment_utils/environment.rs: environment_check_all_components_assigned"]}
{"id": "C66", "title": "The code of a template or function does at run time what the source says", "statement": "For the code of every template without components and of every function, the instructions generated for it, run from a memory that holds the values of the signals, parameters and constants, end exactly when the source program ends: with the same values in all signals, the same returned values, the same text printed, in a parallel template every changed output and nothing but outputs marked as ready, and no cell outside the signals and variables of the template changed; if an assertion, an equality or an operation fails in the source, the generated program stops. This holds through the folding of addresses and the C++ generator. It does not hold in four cases: a variable of an inner block with the name of a signal is stored in the memory of signals; an array with shorter rows is copied without the gaps; an index that is a sum or product of variables is computed on machine integers, so a number like 1/2 stops the program although the index is right; an index out of range at run time reads or writes a neighbouring variable.", "quantifier": "all bodies (blocks, declarations, nested arrays, conditions, loops, assignments, calls, equalities, assertions, logs, returns), all values of signals and parameters, all contents of the memory of variables, all arithmetics, any number of iterations", "why_tests_cant": "addresses of arrays, the reuse of the memory of closed blocks, uninitialised variables and the choice between field and machine arithmetic of indexes depend on the nesting of blocks and the values at run time", "anchors": ["compiler/src/intermediate_representation/translate.rs: translate_code, translate_statement, translate_expression, ProcessedSymbol, compute_full_address, indexing_instructions_filter, initialize_signals, initialize_constants, initialize_parameters", "type_analysis/src/decorators/type_reduction.rs: reduce_types_in_variable", "program_structure/src/utils/environment.rs: add_variable, get_variable"]}
{"id": "C67", "title": "Every name in an accepted program is resolved, to the declaration of the innermost open block", "statement": "The check of names accepts a program exactly when, on every path through each of its functions, templates and buses, every name is used after a declaration of it in a block that is still open, no name is declared twice in the same block (parameters included), every call has as many arguments as its definition has parameters, tags of buses differ from the fields, and the public signals of the main component are inputs of it. In an accepted program no lookup of a name during execution fails, and a name that is declared once outside of loops, or only as a variable, is resolved to the last declaration in the open blocks by reads, by assignments, by the check of types and by the generated code alike; different signals then have different numbers. This fails when a name is used again: a variable of an inner block with the name of a signal is assigned, but reads give the signal; after an inner block that declares a signal again, the outer name means the inner signal; signals of the same name in two blocks have one number, so that their constraints are put on one signal.", "quantifier": "all programs of the grammar (definitions, nested blocks, conditions, loops, arrays, calls), all paths through them: any branch, any number of iterations", "why_tests_cant": "depends on the nesting of blocks and on the path; a test uses a few programs, and the tables of the check and of the execution are organised differently (only variables are kept by blocks)", "anchors": ["type_analysis/src/analyzers/symbol_analysis.rs: check_naming_correctness, analyze_symbols, analyze_statement, analyze_expression", "program_structure/src/utils/environment.rs: RawEnvironment, add_variable_block, remove_variable_block, get_variable, get_signal", "constraint_generation/src/execute.rs: execute_variable, perform_assign", "type_analysis/src/decorators/type_reduction.rs: reduce_types_in_variable", "constraint_generation/src/execution_data/executed_template.rs: build_wires", "dag/src/lib.rs: add_input, add_output, add_intermediate"]}
{"id": "C68", "title": "An accepted program never uses a value of the wrong type", "statement": "If the checks accept a program whose functions and templates use each name for one thing only, then running it - whatever the operators give, whatever values the signals have, whichever branches and however many iterations are executed - never uses an array as a number (operand, index, length, condition, argument of log or assert), never indexes a number, never stores an array in a number or a number in an array, never uses a component as a value or a value as a component, never reads or assigns a signal that the template of a component does not have, never puts instances of two templates into one array of components, never calls anything with a wrong number of arguments, never gives an array with elements of different depths, and never equates arrays of different depths. The inputs and outputs of the main component have as many dimensions as declared. The check does not always end: a function that calls itself with an array of more dimensions is examined again for each number of dimensions, without end. It is not sound when a variable has the name of a signal of an outer block: `signal input a[2]; { var a = [1, 2]; }` is accepted.", "quantifier": "all programs of the language without buses and tags, all inputs, operators, signal values, and bounds on the steps", "why_tests_cant": "every path of every program; the check examines each statement once and each function once for each list of dimensions, and takes the dimensions of results from the first return it finds", "anchors": ["type_analysis/src/analyzers/type_check.rs: type_check, type_statement, type_expression, apply_access_to_symbol, type_array_of_expressions", "type_analysis/src/analyzers/type_given_function.rs: type_given_function", "type_analysis/src/analyzers/type_register.rs: TypeRegister", "type_analysis/src/analyzers/functions_free_of_template_elements.rs: free_of_template_elements", "program_structure/src/program_library/template_data.rs: fill_inputs_and_outputs"]}
{"id": "C69", "title": "The check of types never panics on programs that the earlier analyses accept", "statement": "If the check of names accepts a program, its templates contain no returns and its functions no signals, components and templates, then the check of types never panics, on any part of the program and for any nesting of calls: every name it looks up is found, every template of a component and every function called exists, every search for the dimensions of a result ends (also when calls of a function occur in its own arguments), and a return is only met in functions. Before the check, the first declaration of a component gets the template of the last assignment to its name after it in the text. The declaration of a component together with its instance does not always get the template of this instance: in `if (n == 0) { component c = A(); } else { component c = B(); }` the first declaration gets B and the second none, and the program is refused.", "quantifier": "all programs of the language without buses and tags; all numbers of nested calls", "why_tests_cant": "depends on every access, declaration and call of every program, and on three analyses with different tables; a test meets a few of them", "anchors": ["type_analysis/src/check_types.rs: check_types", "type_analysis/src/analyzers/type_check.rs: type_check, apply_access_to_symbol, check_if_it_is_a_tag", "type_analysis/src/analyzers/type_given_function.rs: type_given_function, look_for_type_in_expression", "type_analysis/src/analyzers/symbol_analysis.rs: check_naming_correctness", "type_analysis/src/decorators/component_type_inference.rs: inference, infer_component_types, apply_inference"]}
{"id": "C70", "title": "Replacing the constants of a function does not change what it returns", "statement": "The compiler replaces variables of functions that never change by their values, before the functions are checked and compiled. If no declaration of a function hides another one (no visible name is declared again, and no initial value mentions the variable it initialises), then every function returns the same value after the replacement as before, or fails as before, for all arguments, also when values that are replaced depend on variables that change elsewhere, in loops and through calls. The replacement does not panic, if moreover the lengths of arrays mention names of earlier statements only. Neither condition can be dropped: in `function f(n) { var x = 1; if (n == 0) { var x = 5; x = x + n; return x; } return x; }` the inner x is replaced by the value of the outer one, and f(0) returns 1 instead of 5; `var x = x + 1; return x;` returns 2 instead of 1; `var k = 3, a[k];` makes the compiler panic. A call in an initial value is repeated at each use, and what it logs is logged again. An array whose length directly uses a parameter is always reported, wherever in the function it is declared. But arrays of variable length are not always refused: a constant of an inner block may depend on a variable that changes after this block.", "quantifier": "all functions, arguments, meanings of operators, depths of calls and numbers of iterations", "why_tests_cant": "depends on every way to nest blocks, loops and declarations around the uses of a variable; a test meets a few of them", "anchors": ["type_analysis/src/decorators/constants_handler.rs: handle_function_constants, statement_constant_inference, statement_invariant_check, expand_statement, expand_expression", "type_analysis/src/check_types.rs: function_level_decorators", "program_structure/src/utils/environment.rs: VarEnvironment", "program_structure/src/abstract_syntax_tree/ast_shortcuts.rs: split_declaration_into_single_nodes"]}
{"id": "C71", "title": "The warnings about unconstrained signals are right and complete", "statement": "With --inspect the compiler warns about signals that appear in no constraint. The analysis never panics. Every warning is true: it names the template, the signals in it (one signal, or an array with the exact number of its unconstrained elements and two different ones as examples) appear in no constraint of that template and in no `_ <== ..`, and they belong to the template or to a component as the warning says. Each signal of an examined template (its own signals, and the inputs and outputs of its components) that nothing constrains is in exactly one warning. Such a signal, if it is intermediate, may have any value in any instance of the template without violating a constraint of the circuit. Templates are examined once for each name, and the name leaves out the tags inside buses: of two different instances with the same name only the first is examined, and unconstrained signals of the second are not reported.", "quantifier": "all circuits built by the calls of the compiler, all traversal orders of the hash maps", "why_tests_cant": "depends on every way in which names, numbers and constraints of nested components can be combined; a missing warning shows nothing", "anchors": ["dag/src/constraint_correctness_analysis.rs: analyse, visit_node, analysis_interpretation, split_signal_name_index, UnconstrainedSignal", "dag/src/lib.rs: constraint_analysis, add_edge", "constraint_generation/src/execution_data/executed_program.rs: export", "constraint_generation/src/execute.rs: execute_template_call"]}
{"id": "C72", "title": "The JSON file of constraints lists the constraints of the R1CS", "statement": "The file written with --json is a JSON text with one member `constraints`: an array with one entry for each constraint of the R1CS, in the same order. An entry is an array of three objects, the linear expressions A, B and C; each object has exactly one member for each signal with its coefficient, both in decimal notation. This holds with and without simplification (then with the numbers of the witness), and for every circuit the file is written. The file determines the constraints: no two different systems have the same file.", "quantifier": "all circuits, optimisation levels, traversal orders, numbers of constraints and coefficients", "why_tests_cant": "a reader of the file trusts every coefficient of every constraint, for circuits of any size; a test compares a few", "anchors": ["constraint_writers/src/json_writer.rs: ConstraintJSON", "dag/src/json_porting.rs: port_constraints, visit_tree, hashmap_as_json", "constraint_list/src/json_porting.rs: port_constraints, transform_constraint_to_json"]}
{"id": "C73", "title": "Accepted templates declare each signal and component at most once, and accepted custom templates make no constraints", "statement": "If a template passes the check of declarations, no path through it, with any outcome of each condition and any number of turns of each loop, meets the same declaration of signals or components twice; and a template is refused only if some path does. A custom template passes the check of custom templates exactly if no path through it meets a constraint (<==, ===, _ <==) or a declaration of a component, and the warnings then name exactly the intermediate signals that some path declares.", "quantifier": "all templates, nestings of branches, loops and blocks, outcomes of conditions and numbers of turns", "why_tests_cant": "a declaration met in the second turn of a loop would give two signals one name, and one constraint in a custom template breaks the PLONK back end; nestings are unbounded", "anchors": ["type_analysis/src/analyzers/signal_declaration_analysis.rs: check_signal_correctness, treat_statement", "type_analysis/src/analyzers/custom_gate_analysis.rs: custom_gate_analysis"]}
