{
 "C04": {
  "status": "partial",
  "note": "Quotient and remainder proved exact; the error report on a zero divisor holds for the quotient and is refuted for the remainder (the code panics): C04_remainder_by_zero_is_an_error_refuted."
 },
 "C06": {
  "note": "Proved on canonical operands; involution on non-canonical operands is refuted (C06_complement_noncanonical_refuted)."
 },
 "C08": {
  "note": "Holds for literals below the prime. Literals are never reduced by the code, and C08_unreduced_literal_refuted shows the power operator then disagrees with the field value."
 },
 "C18": {
  "status": "partial",
  "note": "Equivalence proved for the equations for all inputs, and for the table used in rewriting whenever the input is consistent; refuted in general by C18_conflicting_constants_survive_refuted (two constants for one signal: the unsatisfiable circuit becomes satisfiable)."
 },
 "C19": {
  "note": "Equivalence with the substitution log unconditional; unique extension guarded by C18's condition (equalities and constants jointly satisfiable)."
 },
 "C20": {
  "note": "Per phase identical up to order for every arrival order, identical output for the whole run without linear elimination, identical solution sets for the whole run in general."
 },
 "C26": {
  "note": "Proved for everything that fits the format's widths. Outside: C26_negative_coefficient_loses_its_sign_refuted, C26_wide_label_breaks_the_section_refuted; the term order is lexicographic on bytes (C26_terms_not_in_numerical_order_refuted)."
 },
 "C29": {
  "note": "Reads, writes, frame and shape preservation for every shape and path; a value of smaller rank than the target is accepted by the strict write (C29_short_value_is_accepted_refuted)."
 },
 "C30": {
  "note": "Both directions of the bijection; the by-index bound check is off by one (C30_index_past_the_end_is_an_error_refuted) and an empty dimension panics (C30_empty_dimension_panics_refuted)."
 },
 "C31": {
  "note": "All histories against an independent cell semantics; merging environments of different depth does not combine the contents (C31_merge_of_different_depths_refuted)."
 },
 "C32": {
  "note": "Full grammar of comments; reported position of an unclosed comment counts characters, not bytes (C32_unclosed_byte_position_refuted), and string literals are not protected (C32_string_literal_is_blanked_refuted)."
 },
 "C33": {
  "note": "Each path at most once, exactly the reachable files; the main file's path is not canonicalised, so a main file included again is parsed twice (C33_main_file_parsed_twice_refuted)."
 },
 "C35": {
  "note": "All input lists with pairwise different hashes, C++ and WebAssembly lookups. Two valid signal names with the same hash exist (C35_colliding_names_refuted); a name of hash 0 is treated as an input without signals by C++ and hides inputs in WebAssembly (refuted); beyond ASCII the C++ hash differs (refuted). The table size, computed with f32 in the compiler, is a parameter (a power of two for WebAssembly)."
 },
 "C36": {
  "note": "All histories, C++ calculator: acceptance, single run, order independence, JSON loading. Inputs without signals: the circuit is not run (C36_inputs_without_signals_refuted); WebAssembly accepts repeated assignments (C36_assigned_twice_in_wasm_refuted)."
 },
 "C37": {
  "note": "Proved for the records of the C++ data file and of the WebAssembly data segments, for every odd modulus whose words match the written size; holds for all supported primes but goldilocks, whose writer is not modelled. With C54 the elements compute like the compiler."
 },
 "C38": {
  "note": "Proved for all tables below 4 GiB before the component definitions and with buses of at most ten fields. Refuted beyond: calloc(10) in the loader overflows with eleven bus fields, sizes are kept in 32 bits."
 },
 "C39": {
  "note": "reduce_stack.rs completely, on typed instructions; overflow of a machine word (a panic or wrap-around in Rust) is None."
 },
 "C40": {
  "note": "build_stack.rs and produce_c of all buckets: expressions, stores, calls, branches, loops, assertions, returns, logs, component creation; single sizes, non-parallel subcomponents, not Goldilocks. Conditions wf_s: sizes at least one, arrays only from loads and constants, accesses through tables as in C55, plain index for outputs of parallel templates. Refuted without them: a parallel template marks the wrong output as ready when the index needs a temporary, and a store of size zero copies one element."
 },
 "C42": {
  "status": "partial",
  "note": "Proved: at most one assignment in every execution if no loop is in the else branch of an unknown condition and unknown loops look the same in both executions of their body (C42_once_partial); a template without loops is refused only if some execution assigns twice (C42_refused_partial); no panic. The full statement is refuted by C42_loop_in_else_refuted and C42_unknown_loop_refuted (double assignments accepted), its converse by C42_accepts_refuted."
 },
 "C43": {
  "status": "partial",
  "note": "Non-interference proved for templates whose nested loops assign only variables also assigned outside of them and whose arrays, parameters and variable indexes are computed from parameters, numbers and tags; termination proved for all grammatical templates. Refuted outside of these conditions (five C43_*_refuted)."
 },
 "C44": {
  "note": "Proved for the symbol and R1CS files of every DAG; row-major order by composition with C47."
 },
 "C46": {
  "note": "Proved for writeBinWitness, and for calculateWTNSBin below 4 GiB of values. Refuted beyond: the JavaScript writer splits the hexadecimal length at the wrong end."
 },
 "C47": {
  "note": "All bus declarations that do not contain themselves, all nestings and dimensions: table of buses, calls on the DAG, exported wires, list of the inputs of main; names are unique for identifiers. Empty arrays inside of a bus, and empty arrays of buses as inputs of main, make the compiler divide by zero (two refuted theorems)."
 },
 "C48": {
  "status": "partial",
  "note": "C48_recorded: the lattice, in full. C48_filtered_code_runs_alike_partial and C48_filtered_code_computes_the_same_partial: the filters, when unknown loops are stable, functions silent and skipped branches of inline conditions free of propagated constants. Findings: C48_inline_condition_refuted, C48_unknown_loop_refuted, C48_lost_log_refuted, C48_call_value_refuted."
 },
 "C49": {
  "status": "partial",
  "note": "Proved when custom-gate names are UTF-8; otherwise the reader panics (C49_bad_gate_name_crashes_refuted)."
 },
 "C50": {
  "note": "The header's private-input count is refuted (C50_private_inputs_in_header_refuted): it counts inputs the simplification removed. The converse direction is under C18's condition."
 },
 "C51": {
  "note": "For custom templates whose stored name contains a parenthesis, as the compiler's names always do; without one the code does not terminate (modelled as a panic)."
 },
 "C53": {
  "note": "All shapes and all member orders; hypotheses on hashes are those of C35. The conversion of JSON numbers to field elements is not modelled (values are abstract). The C++ traversal order of the qualified members is another order than the model's; by C36_order_does_not_matter and the permutation in the proof the result does not depend on it. Finding: a member with a dot in its key overrides a bus field silently."
 },
 "C54": {
  "note": "All operations of generic/fr.cpp. GMP primitives (mpn_add_n, mpn_addmul_1, mpz_*) are assumed to compute what their manual says. The assembler version fr.asm and goldilocks/fr.hpp are not modelled. Findings: results over operands are wrong for the bit operations (refuted theorem), Fr_toInt accepts values whose lowest word is close to the lowest word of the prime (refuted theorem)."
 },
 "C55": {
  "note": "Findings (refuted theorems): the C++ text `(i)*(l0)+j*l1` for a slice of a three-dimensional signal multiplies only the last index; a store multiplies only the last index by the element size. The WebAssembly code for the same accesses works on a stack and is not affected, so the two witness generators disagree."
 },
 "C56": {
  "note": "Finding (refuted theorem): a store of zero elements keeps its initial annotation and re-runs a subcomponent whose counter is already zero."
 },
 "C57": {
  "note": "C57_constraints_are_the_equations_partial; missing: unknown loops that are not stable after two passes (C58_unstable_refuted shows the wrong constraint), components, buses."
 },
 "C58": {
  "note": "C58_witness_satisfies_constraints_partial; finding: C58_unstable_refuted."
 },
 "C59": {
  "note": "C59_cleaned_code_is_equivalent_partial; findings: five refutations.",
  "status": "partial"
 },
 "C60": {
  "note": "C60_cleaned_code_is_translatable_partial; finding: C60_inline_condition_refuted.",
  "status": "partial"
 },
 "C61": {
  "note": "All operations proved for all canonical operands; findings: C61_division_by_zero_stops_refuted, C61_to_int_rejects_large_values_refuted, C61_binary_input_is_reduced_refuted. What GMP leaves in the result of a failed inversion is an argument of the model."
 },
 "C62": {
  "note": "C62_code and C62_divergence for all programs that meet ok_program and all memories; accesses that do not fit the description in the tables and overlapping copies are Wild (nothing claimed). C62_same_as_cpp for programs whose subcomponent inputs are counted at run time. Findings: C62_nested_indexes_refuted, C62_short_results_refuted, C62_empty_arguments_refuted."
 },
 "C63": {
  "note": "Execution itself is not part of this model: its result is any program that satisfies program_ok (declared names differ, positions in range and initialised once, templates end before they are used). Refuted for sparse arrays of components without inputs (WebAssembly), names of one-element arrays, parallel main templates and parallel components without inputs (C++)."
 },
 "C64": {
  "note": "The meaning of statements is a specification of its own (AnonSpec), not the execution pass of constraint_generation. Hypotheses: input names of a template differ, positions of anonymous components and loops differ, the source mentions no generated name, tuple assignments to variables do not read what they assign; the last three refutations and the swap show each is needed. Counters are integers, not field elements."
 },
 "C65": {
  "note": "Signals only (no buses). Proved for unconditional assignments and for conditional ones that do not overlap; refuted for overlapping ones (both branches of an if), for one branch only, and for tagged inputs declared in a branch not taken. The number of dimensions is what the type checker guarantees."
 },
 "C66": {
  "note": "Components, buses, tags and calls inside expressions (removed before, C60) are not in this model. Hypotheses on the run: indexes in range and equal to the integer computed by the code, assigned arrays with the rows of the destination, declared names not those of signals, the first value of a variable not used; the refutations show that the first four are needed. The arithmetic of the source and of the field library are assumed equal (linked)."
 },
 "C67": {
  "note": "Accepted is proved equivalent to a specification by paths, which include code after a return and branches whose condition is constant. The parser's restriction that declarations occur only in blocks is a hypothesis (parsed_def). Numbers of signals: without arrays and buses."
 },
 "C68": {
  "note": "Buses and tags are not modelled. The template of each component is taken as found by the decorator that runs before. Uses of undeclared names, indexes out of range, missing returns, uninstantiated components and failing asserts end with Fail, not Ill: they are not errors of types."
 },
 "C69": {
  "note": "Stack overflow is not a panic here: C68_check_ends_refuted has a program on which the check does not end. Arrays without elements and returns in declarations are excluded as the grammar has none (written_program)."
 },
 "C70": {
  "note": "for functions without hidden variables; hidden variables, own names, logged lines, lengths with names of the same statement and arrays of variable length are refuted"
 },
 "C71": {
  "note": "for examined templates; namesakes of an earlier template instance are refuted"
 },
 "C72": {
  "note": "the crate json and the file system are trusted; decimal notation is std++'s pretty"
 },
 "C73": {
  "note": "declared statements hold no further declaration statements, as the parser makes them; buses are left out"
 }
}