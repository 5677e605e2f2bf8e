{
 "claims": [
  {
   "property": "C01",
   "status": "proved",
   "theorems": [
    "C01_ring_ops_exact",
    "C01_division_exact",
    "C01_power_exact"
   ],
   "note": ""
  },
  {
   "property": "C02",
   "status": "proved",
   "theorems": [
    "C02_signed_order",
    "C02_centred_exists"
   ],
   "note": ""
  },
  {
   "property": "C03",
   "status": "proved",
   "theorems": [
    "C03_boolean_tables"
   ],
   "note": ""
  },
  {
   "property": "C04",
   "status": "partial",
   "theorems": [
    "C04_quotient_remainder",
    "C04_quotient_by_zero_is_an_error",
    "C04_remainder_by_zero_is_an_error_refuted",
    "C04_remainder_crashes_exactly_on_zero"
   ],
   "note": "Quotient and remainder proved exact; the error report on a zero divisor holds for the quotient and is refuted for the remainder (the code panics): C04_remainder_by_zero_is_an_error_refuted."
  },
  {
   "property": "C05",
   "status": "proved",
   "theorems": [
    "C05_shifts_exact",
    "C05_shifts_canonical_and_mirrored"
   ],
   "note": ""
  },
  {
   "property": "C06",
   "status": "proved",
   "theorems": [
    "C06_complement",
    "C06_complement_noncanonical_refuted",
    "C06_bitwise"
   ],
   "note": "Proved on canonical operands; involution on non-canonical operands is refuted (C06_complement_noncanonical_refuted)."
  },
  {
   "property": "C07",
   "status": "proved",
   "theorems": [
    "C07_batch_inversion"
   ],
   "note": ""
  },
  {
   "property": "C08",
   "status": "proved",
   "theorems": [
    "C08_symbolic_evaluation_exact",
    "C08_no_crash",
    "C08_flagging",
    "C08_unreduced_literal_refuted"
   ],
   "note": "Holds for literals below the prime. Literals are never reduced by the code, and C08_unreduced_literal_refuted shows the power operator then disagrees with the field value."
  },
  {
   "property": "C09",
   "status": "proved",
   "theorems": [
    "C09_constraint_form_equivalent"
   ],
   "note": ""
  },
  {
   "property": "C10",
   "status": "proved",
   "theorems": [
    "C10_normalisation"
   ],
   "note": ""
  },
  {
   "property": "C11",
   "status": "proved",
   "theorems": [
    "C11_solving_for_a_signal",
    "C11_unnormalised_form"
   ],
   "note": ""
  },
  {
   "property": "C12",
   "status": "proved",
   "theorems": [
    "C12_substitution_in_constraint",
    "C12_substitution_in_expression",
    "C12_substitution_in_substitution"
   ],
   "note": ""
  },
  {
   "property": "C13",
   "status": "proved",
   "theorems": [
    "C13_linear_simplification_equivalent",
    "C13_solutions_determined_by_remaining_signals"
   ],
   "note": ""
  },
  {
   "property": "C14",
   "status": "proved",
   "theorems": [
    "C14_output_is_solved_form"
   ],
   "note": ""
  },
  {
   "property": "C15",
   "status": "proved",
   "theorems": [
    "C15_linear_simplification_terminates"
   ],
   "note": ""
  },
  {
   "property": "C16",
   "status": "proved",
   "theorems": [
    "C16_clusters_partition_by_shared_signals"
   ],
   "note": ""
  },
  {
   "property": "C17",
   "status": "proved",
   "theorems": [
    "C17_equality_simplification_equivalent"
   ],
   "note": ""
  },
  {
   "property": "C18",
   "status": "partial",
   "theorems": [
    "C18_constant_equations_equivalent",
    "C18_constant_table_equivalent_when_consistent",
    "C18_conflicting_constants_survive_refuted"
   ],
   "note": "Equivalence proved for the equations for all inputs, and for the table used in rewriting whenever the input is consistent; refuted in general by C18_conflicting_constants_survive_refuted (two constants for one signal: the unsatisfiable circuit becomes satisfiable)."
  },
  {
   "property": "C19",
   "status": "proved",
   "theorems": [
    "C19_simplification_equivalent",
    "C19_solutions_extend_uniquely",
    "C19_satisfiability_preserved"
   ],
   "note": "Equivalence with the substitution log unconditional; unique extension guarded by C18's condition (equalities and constants jointly satisfiable)."
  },
  {
   "property": "C20",
   "status": "proved",
   "theorems": [
    "C20_equality_phase_any_arrival",
    "C20_linear_phase_any_arrival",
    "C20_whole_run_any_arrival_no_linear",
    "C20_whole_run_same_solutions"
   ],
   "note": "Per phase identical up to order for every arrival order, identical output for the whole run without linear elimination, identical solution sets for the whole run in general."
  },
  {
   "property": "C21",
   "status": "proved",
   "theorems": [
    "C21_renumbering_is_compact_and_increasing",
    "C21_witness_positions_of_the_result"
   ],
   "note": ""
  },
  {
   "property": "C22",
   "status": "proved",
   "theorems": [
    "C22_public_signals_keep_their_wire",
    "C22_protected_signals_keep_a_position"
   ],
   "note": ""
  },
  {
   "property": "C23",
   "status": "proved",
   "theorems": [
    "C23_ranges",
    "C23_names",
    "C23_declaration_order",
    "C23_calls_succeed"
   ],
   "note": ""
  },
  {
   "property": "C24",
   "status": "proved",
   "theorems": [
    "C24_every_number_has_one_owner",
    "C24_numbers_stay_in_the_range",
    "C24_r1cs_is_the_flattened_circuit",
    "C24_rows_hold_iff_the_circuit_holds"
   ],
   "note": ""
  },
  {
   "property": "C25",
   "status": "proved",
   "theorems": [
    "C25_witness_order",
    "C25_every_signal_once"
   ],
   "note": ""
  },
  {
   "property": "C26",
   "status": "proved",
   "theorems": [
    "C26_reading_back_gives_the_same_system",
    "C26_section_sizes_are_content_lengths",
    "C26_bytes_do_not_depend_on_hash_order",
    "C26_field_width_is_enough",
    "C26_negative_coefficient_loses_its_sign_refuted",
    "C26_terms_not_in_numerical_order_refuted",
    "C26_wide_label_breaks_the_section_refuted"
   ],
   "note": "Proved for everything that fits the format's widths. Outside: C26_negative_coefficient_loses_its_sign_refuted, C26_wide_label_breaks_the_section_refuted; the term order is lexicographic on bytes (C26_terms_not_in_numerical_order_refuted)."
  },
  {
   "property": "C27",
   "status": "proved",
   "theorems": [
    "C27_storage_behaves_like_a_list",
    "C27_interned_coefficients_decode"
   ],
   "note": ""
  },
  {
   "property": "C28",
   "status": "proved",
   "theorems": [
    "C28_constant_ids_stable_unique_dense"
   ],
   "note": ""
  },
  {
   "property": "C29",
   "status": "proved",
   "theorems": [
    "C29_read",
    "C29_new",
    "C29_write",
    "C29_read_after_write",
    "C29_rejected_write_changes_nothing",
    "C29_weak_write",
    "C29_single_value",
    "C29_mutable_references",
    "C29_short_value_is_accepted_refuted"
   ],
   "note": "Reads, writes, frame and shape preservation for every shape and path; a value of smaller rank than the target is accepted by the strict write (C29_short_value_is_accepted_refuted)."
  },
  {
   "property": "C30",
   "status": "proved",
   "theorems": [
    "C30_index_and_path_are_inverse",
    "C30_path_and_index_are_inverse",
    "C30_write_by_index",
    "C30_far_index_is_an_error",
    "C30_index_past_the_end_is_an_error_refuted",
    "C30_empty_dimension_panics_refuted"
   ],
   "note": "Both directions of the bijection; the by-index bound check is off by one (C30_index_past_the_end_is_an_error_refuted) and an empty dimension panics (C30_empty_dimension_panics_refuted)."
  },
  {
   "property": "C31",
   "status": "proved",
   "theorems": [
    "C31_lookup_is_lexical",
    "C31_block_leaves_outer_variables",
    "C31_shadowing",
    "C31_remove_uncovers",
    "C31_signals",
    "C31_merge",
    "C31_merge_of_different_depths_refuted"
   ],
   "note": "All histories against an independent cell semantics; merging environments of different depth does not combine the contents (C31_merge_of_different_depths_refuted)."
  },
  {
   "property": "C32",
   "status": "proved",
   "theorems": [
    "C32_comments",
    "C32_offsets",
    "C32_code_is_untouched",
    "C32_idempotent",
    "C32_unclosed_position",
    "C32_unclosed_byte_position_refuted",
    "C32_string_literal_is_blanked_refuted"
   ],
   "note": "Full grammar of comments; reported position of an unclosed comment counts characters, not bytes (C32_unclosed_byte_position_refuted), and string literals are not protected (C32_string_literal_is_blanked_refuted)."
  },
  {
   "property": "C33",
   "status": "proved",
   "theorems": [
    "C33_includes",
    "C33_main_file_parsed_twice_refuted",
    "C33_each_file_once"
   ],
   "note": "Each path at most once, exactly the reachable files; the main file's path is not canonicalised, so a main file included again is parsed twice (C33_main_file_parsed_twice_refuted)."
  },
  {
   "property": "C34",
   "status": "proved",
   "theorems": [
    "C34_version",
    "C34_custom_templates_version"
   ],
   "note": ""
  },
  {
   "property": "C35",
   "status": "proved",
   "theorems": [
    "C35_every_input_is_found",
    "C35_every_input_is_found_in_wasm",
    "C35_same_hash",
    "C35_colliding_names_refuted",
    "C35_unknown_name_with_hash_zero_refuted",
    "C35_hash_zero_hides_inputs_in_wasm_refuted",
    "C35_same_hash_beyond_ascii_refuted"
   ],
   "note": "All input lists with pairwise different hashes, C++ and WebAssembly lookups. Two valid signal names with the same hash exist (C35_colliding_names_refuted); a name of hash 0 is treated as an input without signals by C++ and hides inputs in WebAssembly (refuted); beyond ASCII the C++ hash differs (refuted). The table size, computed with f32 in the compiler, is a parameter (a power of two for WebAssembly)."
  },
  {
   "property": "C36",
   "status": "proved",
   "theorems": [
    "C36_accepted_writes",
    "C36_run_once_with_all_inputs",
    "C36_order_does_not_matter",
    "C36_witness_iff_inputs_complete",
    "C36_witness_from_the_given_inputs",
    "C36_inputs_without_signals_refuted",
    "C36_assigned_twice_in_wasm_refuted"
   ],
   "note": "All histories, C++ calculator: acceptance, single run, order independence, JSON loading. Inputs without signals: the circuit is not run (C36_inputs_without_signals_refuted); WebAssembly accepts repeated assignments (C36_assigned_twice_in_wasm_refuted)."
  },
  {
   "property": "C37",
   "status": "proved",
   "theorems": [
    "C37_cpp_constant",
    "C37_wasm_constant",
    "C37_supported_primes"
   ],
   "note": "Proved for the records of the C++ data file and of the WebAssembly data segments, for every odd modulus whose words match the written size; holds for all supported primes but goldilocks, whose writer is not modelled. With C54 the elements compute like the compiler."
  },
  {
   "property": "C38",
   "status": "proved",
   "theorems": [
    "C38_round_trip",
    "C38_buses_of_any_size_refuted",
    "C38_tables_of_any_size_refuted"
   ],
   "note": "Proved for all tables below 4 GiB before the component definitions and with buses of at most ten fields. Refuted beyond: calloc(10) in the loader overflows with eleven bus fields, sizes are kept in 32 bits."
  },
  {
   "property": "C39",
   "status": "proved",
   "theorems": [
    "C39_expressions",
    "C39_programs",
    "C39_constants"
   ],
   "note": "reduce_stack.rs completely, on typed instructions; overflow of a machine word (a panic or wrap-around in Rust) is None."
  },
  {
   "property": "C40",
   "status": "proved",
   "theorems": [
    "C40_code",
    "C40_folded_code",
    "C40_expression",
    "C40_parallel_outputs_refuted",
    "C40_empty_store_refuted"
   ],
   "note": "build_stack.rs and produce_c of all buckets: expressions, stores, calls, branches, loops, assertions, returns, logs, component creation; single sizes, non-parallel subcomponents, not Goldilocks. Conditions wf_s: sizes at least one, arrays only from loads and constants, accesses through tables as in C55, plain index for outputs of parallel templates. Refuted without them: a parallel template marks the wrong output as ready when the index needs a temporary, and a store of size zero copies one element."
  },
  {
   "property": "C41",
   "status": "proved",
   "theorems": [
    "C41_returns"
   ],
   "note": ""
  },
  {
   "property": "C42",
   "status": "partial",
   "theorems": [
    "C42_once_partial",
    "C42_refused_partial",
    "C42_no_panic",
    "C42_loop_in_else_refuted",
    "C42_unknown_loop_refuted",
    "C42_accepts_refuted"
   ],
   "note": "Proved: at most one assignment in every execution if no loop is in the else branch of an unknown condition and unknown loops look the same in both executions of their body (C42_once_partial); a template without loops is refused only if some execution assigns twice (C42_refused_partial); no panic. The full statement is refuted by C42_loop_in_else_refuted and C42_unknown_loop_refuted (double assignments accepted), its converse by C42_accepts_refuted."
  },
  {
   "property": "C43",
   "status": "partial",
   "theorems": [
    "C43_constraints_independent_of_signals_partial",
    "C43_analysis_ends",
    "C43_loop_in_branch_refuted",
    "C43_loop_in_loop_refuted",
    "C43_parameter_refuted",
    "C43_array_refuted",
    "C43_index_refuted"
   ],
   "note": "Non-interference proved for templates whose nested loops assign only variables also assigned outside of them and whose arrays, parameters and variable indexes are computed from parameters, numbers and tags; termination proved for all grammatical templates. Refuted outside of these conditions (five C43_*_refuted)."
  },
  {
   "property": "C44",
   "status": "proved",
   "theorems": [
    "C44_names_are_row_major",
    "C44_symbols_agree_with_labels",
    "C44_symbols_agree_without_simplification",
    "C44_full_names_are_unique"
   ],
   "note": "Proved for the symbol and R1CS files of every DAG; row-major order by composition with C47."
  },
  {
   "property": "C45",
   "status": "proved",
   "theorems": [
    "C45_classification_is_a_partition"
   ],
   "note": ""
  },
  {
   "property": "C46",
   "status": "proved",
   "theorems": [
    "C46_cpp_witness_file",
    "C46_js_witness_file",
    "C46_js_large_witness_refuted"
   ],
   "note": "Proved for writeBinWitness, and for calculateWTNSBin below 4 GiB of values. Refuted beyond: the JavaScript writer splits the hexadecimal length at the wrong end."
  },
  {
   "property": "C47",
   "status": "proved",
   "theorems": [
    "C47_fields",
    "C47_layout",
    "C47_names_are_unique",
    "C47_numbers_in_the_dag",
    "C47_main_inputs",
    "C47_empty_arrays_panic_refuted",
    "C47_empty_bus_array_input_panics_refuted"
   ],
   "note": "All bus declarations that do not contain themselves, all nestings and dimensions: table of buses, calls on the DAG, exported wires, list of the inputs of main; names are unique for identifiers. Empty arrays inside of a bus, and empty arrays of buses as inputs of main, make the compiler divide by zero (two refuted theorems)."
  },
  {
   "property": "C48",
   "status": "partial",
   "theorems": [
    "C48_recorded",
    "C48_filtered_code_runs_alike_partial",
    "C48_filtered_code_computes_the_same_partial",
    "C48_inline_condition_refuted",
    "C48_unknown_loop_refuted",
    "C48_lost_log_refuted",
    "C48_call_value_refuted"
   ],
   "note": "C48_recorded: the lattice, in full. C48_filtered_code_runs_alike_partial and C48_filtered_code_computes_the_same_partial: the filters, when unknown loops are stable, functions silent and skipped branches of inline conditions free of propagated constants. Findings: C48_inline_condition_refuted, C48_unknown_loop_refuted, C48_lost_log_refuted, C48_call_value_refuted."
  },
  {
   "property": "C49",
   "status": "partial",
   "theorems": [
    "C49_reading_any_bytes_never_crashes",
    "C49_bad_gate_name_crashes_refuted"
   ],
   "note": "Proved when custom-gate names are UTF-8; otherwise the reader panics (C49_bad_gate_name_crashes_refuted)."
  },
  {
   "property": "C50",
   "status": "proved",
   "theorems": [
    "C50_r1cs_is_equivalent_to_the_circuit",
    "C50_file_reads_back",
    "C50_private_inputs_in_header_refuted"
   ],
   "note": "The header's private-input count is refuted (C50_private_inputs_in_header_refuted): it counts inputs the simplification removed. The converse direction is under C18's condition."
  },
  {
   "property": "C51",
   "status": "proved",
   "theorems": [
    "C51_custom_gates",
    "C51_custom_gates_without_simplification"
   ],
   "note": "For custom templates whose stored name contains a parenthesis, as the compiler's names always do; without one the code does not terminate (modelled as a panic)."
  },
  {
   "property": "C52",
   "status": "proved",
   "theorems": [
    "C52_custom_templates_pragma"
   ],
   "note": ""
  },
  {
   "property": "C53",
   "status": "proved",
   "theorems": [
    "C53_json_inputs",
    "C53_dotted_member_overrides_refuted"
   ],
   "note": "All shapes and all member orders; hypotheses on hashes are those of C35. The conversion of JSON numbers to field elements is not modelled (values are abstract). The C++ traversal order of the qualified members is another order than the model's; by C36_order_does_not_matter and the permutation in the proof the result does not depend on it. Finding: a member with a dot in its key overrides a bus field silently."
  },
  {
   "property": "C54",
   "status": "proved",
   "theorems": [
    "C54_supported_primes_usable",
    "C54_parameters_exist",
    "C54_ring_operations",
    "C54_comparisons_and_logic",
    "C54_bit_operations",
    "C54_shifts",
    "C54_quotient_remainder_power",
    "C54_division",
    "C54_text",
    "C54_to_int",
    "C54_result_may_be_an_operand_refuted",
    "C54_to_int_rejects_large_values_refuted"
   ],
   "note": "All operations of generic/fr.cpp. GMP primitives (mpn_add_n, mpn_addmul_1, mpz_*) are assumed to compute what their manual says. The assembler version fr.asm and goldilocks/fr.hpp are not modelled. Findings: results over operands are wrong for the bit operations (refuted theorem), Fr_toInt accepts values whose lowest word is close to the lowest word of the prime (refuted theorem)."
  },
  {
   "property": "C55",
   "status": "proved",
   "theorems": [
    "C55_row_major",
    "C55_load",
    "C55_store",
    "C55_slices_refuted",
    "C55_store_to_buses_refuted"
   ],
   "note": "Findings (refuted theorems): the C++ text `(i)*(l0)+j*l1` for a slice of a three-dimensional signal multiplies only the last index; a store multiplies only the last index by the element size. The WebAssembly code for the same accesses works on a stack and is not affected, so the two witness generators disagree."
  },
  {
   "property": "C56",
   "status": "proved",
   "theorems": [
    "C56_trigger",
    "C56_once",
    "C56_same_executions",
    "C56_anonymous",
    "C56_anonymous_once",
    "C56_zero_size_refuted"
   ],
   "note": "Finding (refuted theorem): a store of zero elements keeps its initial annotation and re-runs a subcomponent whose counter is already zero."
  },
  {
   "property": "C57",
   "status": "partial",
   "theorems": [
    "C57_constraints_are_the_equations_partial"
   ],
   "note": "C57_constraints_are_the_equations_partial; missing: unknown loops that are not stable after two passes (C58_unstable_refuted shows the wrong constraint), components, buses."
  },
  {
   "property": "C58",
   "status": "partial",
   "theorems": [
    "C58_witness_satisfies_constraints_partial",
    "C58_unstable_refuted"
   ],
   "note": "C58_witness_satisfies_constraints_partial; finding: C58_unstable_refuted."
  },
  {
   "property": "C59",
   "status": "partial",
   "theorems": [
    "C59_cleaned_code_is_equivalent_partial",
    "C59_array_assignment_refuted",
    "C59_call_in_loop_condition_refuted",
    "C59_call_in_branch_refuted",
    "C59_body_without_braces_refuted",
    "C59_array_equal_to_call_refuted"
   ],
   "note": "C59_cleaned_code_is_equivalent_partial; findings: five refutations."
  },
  {
   "property": "C60",
   "status": "partial",
   "theorems": [
    "C60_cleaned_code_is_translatable_partial",
    "C60_inline_condition_refuted"
   ],
   "note": "C60_cleaned_code_is_translatable_partial; finding: C60_inline_condition_refuted."
  },
  {
   "property": "C61",
   "status": "proved",
   "theorems": [
    "C61_constants",
    "C61_ring_operations",
    "C61_comparisons_and_logic",
    "C61_array_equality",
    "C61_bit_operations",
    "C61_shifts",
    "C61_quotient_and_remainder",
    "C61_power",
    "C61_division",
    "C61_to_int",
    "C61_text",
    "C61_results_are_canonical",
    "C61_division_by_zero_stops_refuted",
    "C61_to_int_rejects_large_values_refuted",
    "C61_binary_input_is_reduced_refuted"
   ],
   "note": "All operations proved for all canonical operands; findings: C61_division_by_zero_stops_refuted, C61_to_int_rejects_large_values_refuted, C61_binary_input_is_reduced_refuted. What GMP leaves in the result of a failed inversion is an argument of the model."
  },
  {
   "property": "C62",
   "status": "proved",
   "theorems": [
    "C62_code",
    "C62_divergence",
    "C62_deterministic",
    "C62_expression",
    "C62_destination",
    "C62_same_as_cpp",
    "C62_nested_indexes_refuted",
    "C62_short_results_refuted",
    "C62_empty_arguments_refuted"
   ],
   "note": "C62_code and C62_divergence for all programs that meet ok_program and all memories; accesses that do not fit the description in the tables and overlapping copies are Wild (nothing claimed). C62_same_as_cpp for programs whose subcomponent inputs are counted at run time. Findings: C62_nested_indexes_refuted, C62_short_results_refuted, C62_empty_arguments_refuted."
  },
  {
   "property": "C63",
   "status": "proved",
   "theorems": [
    "C63_total",
    "C63_children",
    "C63_table",
    "C63_flags",
    "C63_components",
    "C63_same_as_wasm",
    "C63_functions",
    "C63_main_function",
    "C63_sparse_arrays_refuted",
    "C63_unit_arrays_refuted",
    "C63_parallel_main_refuted",
    "C63_parallel_run_refuted"
   ],
   "note": "Execution itself is not part of this model: its result is any program that satisfies program_ok (declared names differ, positions in range and initialised once, templates end before they are used). Refuted for sparse arrays of components without inputs (WebAssembly), names of one-element arrays, parallel main templates and parallel components without inputs (C++)."
  },
  {
   "property": "C64",
   "status": "proved",
   "theorems": [
    "C64_same_run",
    "C64_names_distinct",
    "C64_no_sugar",
    "C64_no_panic",
    "C64_functions",
    "C64_swap_refuted",
    "C64_parallel_refuted",
    "C64_input_twice_refuted",
    "C64_name_clash_refuted"
   ],
   "note": "The meaning of statements is a specification of its own (AnonSpec), not the execution pass of constraint_generation. Hypotheses: input names of a template differ, positions of anonymous components and loops differ, the source mentions no generated name, tuple assignments to variables do not read what they assign; the last three refutations and the swap show each is needed. Counters are integers, not field elements."
  },
  {
   "property": "C65",
   "status": "proved",
   "theorems": [
    "C65_exactly_once",
    "C65_conditional",
    "C65_rejected",
    "C65_outputs",
    "C65_order",
    "C65_create_first",
    "C65_create_once",
    "C65_both_branches_refuted",
    "C65_one_branch_refuted",
    "C65_underflow_refuted",
    "C65_absent_input_refuted"
   ],
   "note": "Signals only (no buses). Proved for unconditional assignments and for conditional ones that do not overlap; refuted for overlapping ones (both branches of an if), for one branch only, and for tagged inputs declared in a branch not taken. The number of dimensions is what the type checker guarantees."
  },
  {
   "property": "C66",
   "status": "proved",
   "theorems": [
    "C66_translation",
    "C66_cpp_code",
    "C66_shadowed_signal_refuted",
    "C66_shorter_rows_refuted",
    "C66_half_index_refuted",
    "C66_index_out_of_range_refuted"
   ],
   "note": "Components, buses, tags and calls inside expressions (removed before, C60) are not in this model. Hypotheses on the run: indexes in range and equal to the integer computed by the code, assigned arrays with the rows of the destination, declared names not those of signals, the first value of a variable not used; the refutations show that the first four are needed. The arithmetic of the source and of the field library are assumed equal (linked)."
  },
  {
   "property": "C67",
   "status": "proved",
   "theorems": [
    "C67_accepted",
    "C67_no_panic",
    "C67_resolution",
    "C67_signal_numbers",
    "C67_shadowed_refuted",
    "C67_closed_block_refuted",
    "C67_signal_numbers_refuted"
   ],
   "note": "Accepted is proved equivalent to a specification by paths, which include code after a return and branches whose condition is constant. The parser's restriction that declarations occur only in blocks is a hypothesis (parsed_def). Numbers of signals: without arrays and buses."
  },
  {
   "property": "C68",
   "status": "proved",
   "theorems": [
    "C68_no_type_errors",
    "C68_signal_shapes",
    "C68_check_ends_refuted",
    "C68_shadowed_refuted"
   ],
   "note": "Buses and tags are not modelled. The template of each component is taken as found by the decorator that runs before. Uses of undeclared names, indexes out of range, missing returns, uninstantiated components and failing asserts end with Fail, not Ill: they are not errors of types."
  },
  {
   "property": "C69",
   "status": "proved",
   "theorems": [
    "C69_type_check_never_panics",
    "C69_template_of_component",
    "C69_two_blocks_refuted"
   ],
   "note": "Stack overflow is not a panic here: C68_check_ends_refuted has a program on which the check does not end. Arrays without elements and returns in declarations are excluded as the grammar has none (written_program)."
  },
  {
   "property": "C70",
   "status": "proved",
   "theorems": [
    "C70_same_results",
    "C70_never_panics",
    "C70_parameter_lengths_are_reported",
    "C70_shadowing_refuted",
    "C70_own_name_refuted",
    "C70_log_refuted",
    "C70_length_panics_refuted",
    "C70_variable_length_refuted"
   ],
   "note": "for functions without hidden variables; hidden variables, own names, logged lines, lengths with names of the same statement and arrays of variable length are refuted"
  },
  {
   "property": "C71",
   "status": "proved",
   "theorems": [
    "C71_never_panics",
    "C71_warnings_are_true",
    "C71_every_signal_is_reported",
    "C71_unconstrained_signals_are_free",
    "C71_same_name_refuted"
   ],
   "note": "for examined templates; namesakes of an earlier template instance are refuted"
  },
  {
   "property": "C72",
   "status": "proved",
   "theorems": [
    "C72_json_lists_the_r1cs",
    "C72_simplified_json_lists_the_r1cs",
    "C72_json_is_written",
    "C72_file_determines_the_constraints"
   ],
   "note": "the crate json and the file system are trusted; decimal notation is std++'s pretty"
  },
  {
   "property": "C73",
   "status": "proved",
   "theorems": [
    "C73_declared_at_most_once",
    "C73_refused_declares_twice",
    "C73_custom_has_no_constraints",
    "C73_custom_warnings"
   ],
   "note": "declared statements hold no further declaration statements, as the parser makes them; buses are left out"
  }
 ]
}