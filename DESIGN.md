# Formal model of iden3/circom in Coq 8.16.1

## Layout

* `properties.jsonl` – the English properties (C01 …).
* `rocq/theories/<Area>Model.v` – computable Gallina transcription of the Rust/C++/JS code, proof free.
  Every definition cites the file and lines it models and says where it simplifies.
* `rocq/theories/<Area>Spec.v` – small independent specifications (only when the statement needs a vocabulary
  of its own, e.g. "assignment satisfies a constraint").
* `rocq/theories/<Area>Proofs.v` – lemmas.
* `rocq/theories/Properties<Area>.v` – the property theorems, `Print Assumptions`, and `Example`s that instantiate
  the hypotheses on concrete non-trivial cases.
* `MANIFEST.json` – property → theorem names and status.
* `seeded/LOG.jsonl` – wrong-program experiments.

## Modelling conventions

* `BigInt` → `Z` (unbounded, as in num-bigint). Rust's `%`/`/` on BigInt truncate → `Z.rem`/`Z.quot`.
* `usize` → `nat` (or `Z`/`N` in byte codecs); wrap-around at 2^64 is not modelled unless a comment says so.
* `HashMap<usize,BigInt>` / `HashSet<usize>` → std++ `gmap nat Z` / `gset nat`. Where Rust's *iteration order* can
  influence the result, the order is an explicit argument: a function returning an arbitrary permutation of the
  map's entries; theorems quantify over it.
* `&mut` → returned new value; `panic!`/`unwrap` on `None`/index out of range → an explicit error result.
* loops → structural recursion where possible, otherwise fuel, with a theorem that enough fuel always exists
  (termination) and that the result does not depend on it.
* thread pools → the list of results in an arbitrary arrival permutation.
* Floating "unchecked" code (parsers generated by lalrpop, clap, file system) is outside of the model.

## Plan per property (before the proofs)

| id | modelled | proof idea |
|----|----------|-----------|
| C01 | modular_arithmetic.rs arithmetic part, mod_inverse as extended Euclid | number theory on Z |
| C02 | comparison part | case analysis + lia on centred representatives |
| C03 | boolean part | case analysis |
| C04 | idiv, mod_op (panic explicit) | Z division lemmas; crash on zero divisor is a refutation |
| C05 | shift_l/shift_r mutual recursion with fuel | one unfolding reaches a base case for canonical k; Z.shiftl lemmas |
| C06 | complement/bit ops | list-of-bits representation; counterexample to involution |
| C07 | multi_inv loops | invariant on prefix products |
| C08, C09 | ArithmeticExpression ops over gmap | evaluation of map folds modulo p |
| C10–C12 | Constraint/Substitution ops | same evaluation algebra |
| C13–C15 | full_simplification, both heuristics | invariant on the elimination state; lexicographic measure; order oracle |
| C16 | build_clusters union-find with path compression | forest invariant |
| C17 | eq_cluster_simplification/eq_simplification | connectivity of clusters |
| C18 | constant_eq_simplification + build_encoded_fast_substitutions | refutation + guarded theorem |
| C19 | simplification (whole pipeline) | composition of C12–C18 |
| C20 | arrival permutation | permutation-invariance |
| C21 | rebuild_witness free list | invariant: free list is the sorted gap |
| C22 | DAG forbidden set + pipeline | C14/C17/C18 + rebuild_witness |
| C23, C24 | dag/src/lib.rs Node/DAG/Tree | induction on the construction history / topological order |
| C25 | build_wires order + witness_producer | list reasoning |
| C26 | r1cs writer and reader as byte-list functions | codec round trip |
| C27, C28 | storage and constant tracker state machines | invariant over histories |
| C29, C30 | MemorySlice | mixed radix arithmetic |
| C31 | RawEnvironment | block-stack refinement |
| C32 | preprocess state machine | simulation with a declarative comment grammar |
| C33 | FileStack loop | set of visited paths grows inside a finite set |
| C34 | check_number_version | lia |
| C35 | generate_hash_map + C++ lookup | open addressing invariant |
| C36 | setInputSignal | invariant: counter = unassigned cells |
| C37 | constant list encoder + Montgomery decoding | modular arithmetic |
| C38 | .dat writer + loader | codec round trip |
| C39 | reduce_stack | structural induction |
| C40 | build_stack + compute_bucket C generation | register-allocation simulation |
| C41 | return-path analyzer + big-step semantics | induction on executions |
| C42 | FlowModel: perform_signal_assignment and the stack of conditions, on the statements that the compiler executes | executions as traces of assignments; invariants on the numbered conditions; refutations by computation |
| C43 | the whole known/unknown analysis on an abstract syntax (KnownModel); executions with events over an arbitrary interpretation of operators (KnownSpec) | non-interference: induction on statements relating two executions through the tags, fixpoint of the rounds of loops; termination by the number of known variables; refutations for nested loops, parameters, arrays and indexes |
| C44 | sym/r1cs writers | consistency of two views of one map |
| C45 | classification | induction |
| C46 | .wtns writers | codec round trip, refutation for ≥ 2^32 |
| C47 | bus layout | structural induction over bus types |
| C48 | analysis lattice and the two filters (SymModel) | induction over histories; simulation of the original by the filtered code with the number reading of symbolic values; four refutations |
| C49 | r1cs reader on arbitrary bytes | case analysis on a total parser with an explicit panic value |
| C50 | DAG → simplifier → constraint list → r1cs bytes | composition of C19, C21, C24, C26 |
| C51 | custom-gate sections of both R1CS writers | enumeration of gate instances |
| C52 | IncludesGraph built by the parser loop | walks without repeated edges reach every ancestor |
| C53 | JSON qualification, table of inputs, calculator protocol | composition of C35, C36 and C47 with an induction over JSON values |
| C54 | fr.cpp function by function on elements with a type tag, a 32-bit part and a word array; GMP mpn/mpz primitives as integer operations | Montgomery reduction invariant over words, then case analysis on representations |
| C55 | text of address expressions as an AST with C precedence (IrModel `times`, `rest_dims`) | Horner form against row-major sum, induction on access paths; refutations by computation |
| C56 | InputsModel: the backward pass, and the counter protocol `fire` (proved equal to `trigger` of IrModel) | invariant relating the table of the pass to the suffix of the execution, nested induction on nodes, iterations and paths |
| C57 | SymModel: symbolic execution of a template instance; SymSpec: independent concrete semantics with events | simulation with an abstract reading of symbolic values, instantiated with the value under an assignment |
| C58 | same model; runs that compute the signals are embedded in runs with all signals given | induction on runs, store monotone |
| C59 | the cleaner as a function on syntax trees (SugarModel); one evaluator for both sides (SugarSpec) | simulation by induction on expressions and statements |
| C60 | same model; which code the translation accepts is a predicate on syntax trees | induction on expressions and statements |
| C61 | every function of the header on machine words, with the wrapping of uint64_t | the product by congruence modulo 2^64 = 2^32 - 1, the rest by cases and bits; the power by induction on its loop |
| C62 | the produce_wasm methods as functions to a WebAssembly instruction list, and a small-step-by-fuel machine with typed addresses | simulation by induction on expressions and, for statements, on fuel; monotonicity in fuel for divergence; composition with C40 for the C++ code |
| C63 | the passes from executed templates through the DAG, triggers, clusters and buckets to the sequence of create calls in C++ and WebAssembly | invariants of every pass; connexions sorted, so clusters are intervals and row-major positions increase; the recursion of the create calls against the walk over the instances of the DAG |
| C64 | the pass as a function on the syntax tree | a meaning of statements with and without the notations, as traces over any domain of values, where anonymous instances take their names from a supply; simulation between the two runs by induction over statements, with an invariant for declared components, counters and instances made so far |
| C65 | ComponentModel: the state of one component (missing signals, missing tags, queue, slices of inputs, tags), creation, assignment before and after the execution of the template, replay of the queue, reading, final check; the execution of the template is a parameter. ComponentSpec: fitting, covering and counting assignments on index paths, agreement of tags. Proved with an invariant for both phases (waiting for tags; executed), the count of missing signals being the number of uncovered paths; buses are not modelled. |
| C66 | the translation as a state-passing function from the statements of SugarModel to the instructions of IrModel | simulation between the environment semantics of SugarSpec and the memory semantics of IrSpec, by induction over statements; invariant: each visible symbol has its value in its cells and the cells of different symbols are disjoint; composed with C39 and C40 |
| C67 | the analysis with its list of blocks; the environment of the execution with contents replaced by the positions of declarations; the spec speaks of positions on paths (lists of events) and counts of opened and closed blocks | induction over statements and over paths: the blocks of the analysis at a position are the declarations still open there; the tables of the environment hold the last declarations of each kind |
| C68 | the check of types with its register of instances and its reports; an evaluator, written apart, that stops with Ill on each use of a value of a wrong type | the check with the final register is the same as the check with the growing one; then a relation between environments of the check and states of the evaluator is kept by every statement, by induction over statements, over the bound for calls and over iterations |
| C69 | the models of the check of names (C67) and of the check of types (C68) on the same programs, with the decorator that finds the templates of components between them | invariant: the blocks of the check of names are covered by the tables of the check of types; the functions on the stack of the search for dimensions are different, so that its depth is at most the number of functions |
| C70 | the whole decorator for functions (flags of constants, check of lengths, replacement) on functions without buses | an evaluator of functions, with or without the lines logged; invariant of the inference: a variable of an outer block still marked after a statement is not assigned in it; hence constants and the variables in their values are not touched while they are visible; frame lemma for the evaluator; every replaced expression has the value of the variable |
| C71 | the whole analysis, on the DAG of C17-C29 after clean_constraints | every name of a node has its own number, reachable numbers are the visible signals; counters are zero exactly for signals without uses; sorting and grouping keep the names; for free signals: a number has one owner (C24), and a template only uses its own signals and the inputs and outputs of its components |
| C72 | the writer of the text, both walks; the crate json as values with members in insertion order and a printer for strings without escapes | a JSON reader as specification; by induction over the text, reading what was printed gives the value back, with any amount of fuel beyond a bound; the walk visits the constraints in the order of the walk of the R1CS |
| C73 | both walks over the statements of TypeModel | executions as a relation from statements to the statements met with their places; by induction over executions (accepted) and over statements (refused: an execution is built) |

## Trusted base

What a reader has to trust in order to believe the property theorems about the Rust, C++ and JavaScript sources:

1. **Coq 8.16.1**: its kernel, including the virtual machine behind `vm_compute` (used in examples and
   refutations).  Every file is also re-checked by `coqchk`.
2. **Axioms**: none.  `Print Assumptions` answers "Closed under the global context" for every theorem listed below.
   `coqchk` mentions seven constants `Coq.ssr.ssrunder.Under_rel.*` as axioms: they are the fields of a module type of
   Coq's own standard library that std++ loads together with ssreflect; no theorem here depends on them.  std++ is used
   as a library of proved definitions (`gmap`, `gset`, list lemmas).
3. **The transcription**: that the definitions of the `*Model.v` files do what the cited lines do.  Each definition
   names its lines and its simplifications; the table "Lines modelled" collects them.
4. **The specifications**: the `*Spec.v` files and the statements of the theorems.
5. **The environment of the code**, as listed under "Assumptions on the environment".

### Assumptions on the environment

* num-bigint-dig computes exact integers; `to_bytes_le`/`to_signed_bytes_le` give the shortest encodings and
  `parse_bytes` reads the usual digits.  `modinverse`/`mod_inverse` is modelled by extended Euclid.
* `usize`, `isize` and the C++ `int`/`uint` of generated code do not overflow, except where a model says otherwise
  (DatModel, BytesModel, InputModel and FrModel compute with explicit widths; IrModel uses unbounded integers).
* `HashMap`, `HashSet` and `LinkedList` behave as finite maps, sets and lists.  Iteration orders are arguments of the
  model and the theorems quantify over them.
* Writers: the operating system accepts every write.  Files are lists of bytes.  Paths of C33 are abstract, and
  `canonicalize` is an oracle that identifies the same file.
* Worker threads of the simplifier return their results in an arbitrary order and do not share state.
* The C++ compiler follows the C++ precedence rules, `char` is signed (C35), the machine is little endian, `memcpy`
  ranges do not overlap, and GMP's `mpn_*`/`mpz_*` primitives compute what their manual says (C54).
* C++ threads of parallel templates are modelled by sequential runs, not by interleavings (C40).
* JavaScript: `BigInt` exact, `Number` exact below 2^53, `DataView` as specified; WebAssembly: the reading of the
  generated text by `wat2wasm` is not modelled.
* UTF-8 decoding is an argument of the R1CS reader (`utf8` of C49).

### Lines modelled

Generated by `tools/coverage.py` from the comments of the model files; lines of a comment that only refers to a caller
are included.

<!-- coverage -->
| model | source | lines cited |
|---|---|---|
| AlgebraModel | circom_algebra/src/algebra.rs | 9-34, 113-145, 155-163, 168-755, 758-782, 804-825, 834-841, 844-862, 890-928, 969-971, 988-994, 1001-1009, 1016-1022, 1037-1048, 1052-1153, 1159-1161, 1199-1212, 1217-1222, 1234-1380 |
| AlgebraModel | constraint_generation/src/execute.rs | 952, 3636-3688 |
| AnonModel | parser/src/syntax_sugar_remover.rs | 21-50, 55-274, 278, 281-415, 418-618, 621-723, 726-937, 940-960 |
| AnonModel | program_structure/src/abstract_syntax_tree/ast.rs | 201-265, 268-284, 287-346, 349-352, 361-365, 368-389, 392-396, 410-413 |
| AnonModel | program_structure/src/abstract_syntax_tree/expression_impl.rs | 69-76, 96-103, 114-121, 142-149, 164-240 |
| AnonModel | program_structure/src/abstract_syntax_tree/statement_builders.rs | 57-78 |
| AnonModel | program_structure/src/abstract_syntax_tree/statement_impl.rs | 129-203 |
| AnonModel | program_structure/src/program_library/template_data.rs | 134-136, 140-145, 160-238 |
| BusModel | code_producers/src/c_elements/common/main.cpp | 144-265 |
| BusModel | code_producers/src/components/mod.rs | 13-29 |
| BusModel | compiler/src/circuit_design/build.rs | 300-425, 601-625 |
| BusModel | compiler/src/hir/very_concrete_program.rs | 27-144 |
| BusModel | constraint_generation/src/execution_data/executed_bus.rs | 111-174 |
| BusModel | constraint_generation/src/execution_data/executed_program.rs | 182-192 |
| BusModel | constraint_generation/src/execution_data/executed_template.rs | 71-101, 270-311, 440-556, 571-616 |
| BusModel | constraint_generation/src/execution_data/type_definitions.rs | 28-33 |
| ClusterModel | constraint_list/src/constraint_simplification.rs | 19-99 |
| ComponentModel | constraint_generation/src/assignment_utils.rs | 197-313 |
| ComponentModel | constraint_generation/src/environment_utils/component_representation.rs | 12-50, 74-261, 264-325, 415-490, 714-724, 735-867, 871-885 |
| ComponentModel | constraint_generation/src/environment_utils/environment.rs | 187-199 |
| ComponentModel | constraint_generation/src/execute.rs | 1328-1357, 1563-1567, 1762-2110 |
| ComponentModel | environment.rs | 187-199 |
| ComponentModel | program_structure/src/program_library/template_data.rs | 160-233 |
| ConstantsModel | program_structure/src/abstract_syntax_tree/ast.rs | 201-270, 287-358 |
| ConstantsModel | program_structure/src/program_library/function_data.rs | 8-16 |
| ConstantsModel | program_structure/src/utils/environment.rs | 36-48, 122-132, 154-158, 179-186, 201-230 |
| ConstantsModel | type_analysis/src/decorators/constants_handler.rs | 15-25, 60-151, 155-293, 296-434 |
| CreateModel | build.rs | 44-100, 225 |
| CreateModel | calcwit.cpp | 116-126 |
| CreateModel | compiler/src/circuit_design/circuit.rs | 391-409 |
| CreateModel | compiler/src/circuit_design/template.rs | 50-85, 159-168, 273-278 |
| CreateModel | compiler/src/hir/very_concrete_program.rs | 159-225 |
| CreateModel | compiler/src/intermediate_representation/create_component_bucket.rs | 7-31, 67-352 |
| CreateModel | compiler/src/intermediate_representation/translate.rs | 339-361, 364-513, 1935-1960 |
| CreateModel | constraint_generation/src/execution_data/executed_program.rs | 168-180, 193-201, 236-266 |
| CreateModel | constraint_generation/src/execution_data/executed_template.rs | 13-20, 55-80, 136-140, 245-306, 326-560, 673-801 |
| CreateModel | constraint_generation/src/execution_data/type_definitions.rs | 36-47 |
| DagModel | constraint_list/src/constraint_simplification.rs | 415-428 |
| DagModel | constraint_list/src/lib.rs | 23-48, 56-72, 75-101, 131-144, 155-166, 187-193 |
| DagModel | constraint_list/src/non_linear_utils.rs | 6-31 |
| DagModel | constraint_list/src/r1cs_porting.rs | 4-124 |
| DagModel | constraint_list/src/state_utils.rs | 14-35 |
| DagModel | constraint_list/src/sym_porting.rs | 5-37 |
| DagModel | constraint_writers/src/sym_writer.rs | 4-14, 27-31 |
| DagModel | dag/src/constraint_correctness_analysis.rs | 146-157 |
| DagModel | dag/src/lib.rs | 21-84, 87-99, 105-107, 134-157, 160-230, 268-270, 297-302, 319-386, 497-507, 525-531, 546-554 |
| DagModel | dag/src/map_to_constraint_list.rs | 5-147 |
| DagModel | dag/src/r1cs_porting.rs | 5-135 |
| DagModel | dag/src/sym_porting.rs | 6-30 |
| DagModel | dag/src/witness_producer.rs | 3-19 |
| DatModel | code_producers/src/c_elements/c_code_generator.rs | 591-794, 817-850 |
| DatModel | code_producers/src/c_elements/common/circom.hpp | 22-28 |
| DatModel | code_producers/src/c_elements/common/main.cpp | 22-123, 285-331 |
| DatModel | code_producers/src/components/mod.rs | 4-10 |
| DatModel | code_producers/src/wasm_elements/common/witness_calculator.js | 212-276 |
| DatModel | code_producers/src/wasm_elements/wasm_code_generator.rs | 7-23, 457-519 |
| DatModel | compiler/src/circuit_design/circuit.rs | 350-368 |
| DeclareModel | type_analysis/src/analyzers/custom_gate_analysis.rs | 5-151 |
| DeclareModel | type_analysis/src/analyzers/signal_declaration_analysis.rs | 7-66 |
| EnvModel | program_structure/src/utils/environment.rs | 39-66, 76-187, 196-218, 265-283, 361-382, 533-545, 584-603 |
| FlowModel | constraint_generation/src/assignment_utils.rs | 182-313 |
| FlowModel | constraint_generation/src/environment_utils/slice_types.rs | 36-44 |
| FlowModel | constraint_generation/src/execute.rs | 45-60, 233, 686-721, 1563-1567, 2630-2703 |
| FlowModel | type_analysis/src/analyzers/functions_all_paths_with_return_statement.rs | 18-32 |
| FrModel | code_producers/src/c_elements/c_code_generator.rs | 1076-1150 |
| FrModel | code_producers/src/c_elements/generic/fr.cpp | 19-86, 89-98, 110-255, 277-376, 384-689, 696-1143, 1146-1537, 1540-1580, 1588-1627, 1755-1768, 1799-2231, 2309-2349, 2730-2755, 2766-2788, 2805-2912 |
| FrModel | code_producers/src/c_elements/generic/fr.hpp | 16-20, 24-28 |
| GoldModel | code_producers/src/c_elements/common64/main.cpp | 137-146, 247-265 |
| GoldModel | code_producers/src/c_elements/goldilocks/fr.hpp | 10-13, 25-28, 43-59, 64-141, 145-150, 169-270 |
| InferenceModel | type_analysis/src/decorators/component_type_inference.rs | 7-112 |
| InputModel | code_producers/src/c_elements/c_code_generator.rs | 575-587 |
| InputModel | code_producers/src/c_elements/common/calcwit.cpp | 17-103 |
| InputModel | code_producers/src/c_elements/common/main.cpp | 246-293, 338-375 |
| InputModel | code_producers/src/components/mod.rs | 50-55 |
| InputModel | code_producers/src/wasm_elements/common/witness_calculator.js | 136-138, 360-372 |
| InputModel | code_producers/src/wasm_elements/wasm_code_generator.rs | 1002-1060, 1063-1168 |
| InputModel | compiler/src/circuit_design/circuit.rs | 332-342 |
| InputsModel | compiler/src/intermediate_representation/address_type.rs | 36-46 |
| InputsModel | compiler/src/intermediate_representation/store_bucket.rs | 660-735 |
| InputsModel | compiler/src/intermediate_representation/translate.rs | 1963 |
| InputsModel | compiler/src/ir_processing/build_inputs_info.rs | 30-269 |
| InputsModel | parser/src/syntax_sugar_remover.rs | 453 |
| IrModel | compiler/src/intermediate_representation/address_type.rs | 4-14, 36-46 |
| IrModel | compiler/src/intermediate_representation/assert_bucket.rs | 70-89 |
| IrModel | compiler/src/intermediate_representation/branch_bucket.rs | 100-123 |
| IrModel | compiler/src/intermediate_representation/call_bucket.rs | 7-30, 466-888 |
| IrModel | compiler/src/intermediate_representation/compute_bucket.rs | 7-35, 312-422 |
| IrModel | compiler/src/intermediate_representation/create_component_bucket.rs | 204-352 |
| IrModel | compiler/src/intermediate_representation/load_bucket.rs | 7-14, 247-420 |
| IrModel | compiler/src/intermediate_representation/location_rule.rs | 4-36 |
| IrModel | compiler/src/intermediate_representation/log_bucket.rs | 8-12, 105-162 |
| IrModel | compiler/src/intermediate_representation/loop_bucket.rs | 76-92 |
| IrModel | compiler/src/intermediate_representation/return_bucket.rs | 96-120 |
| IrModel | compiler/src/intermediate_representation/store_bucket.rs | 7-19, 442-852 |
| IrModel | compiler/src/intermediate_representation/value_bucket.rs | 7-13, 75-91 |
| IrModel | compiler/src/ir_processing/build_stack.rs | 3-56, 59-137 |
| IrModel | compiler/src/ir_processing/mod.rs | 12-14 |
| IrModel | compiler/src/ir_processing/reduce_stack.rs | 3-153 |
| JsonPortModel | constraint_list/src/json_porting.rs | 8-26, 34-48 |
| JsonPortModel | constraint_list/src/lib.rs | 173-175 |
| JsonPortModel | constraint_writers/src/json_writer.rs | 4-7, 10-38 |
| JsonPortModel | dag/src/json_porting.rs | 10-46 |
| JsonPortModel | dag/src/lib.rs | 489-491 |
| KnownModel | program_structure/src/abstract_syntax_tree/ast.rs | 287-352, 401-408 |
| KnownModel | type_analysis/src/analyzers/unknown_known_analysis.rs | 15-28, 39-444, 447-466, 486-539 |
| LinearSimpModel | circom_algebra/src/algebra.rs | 947-956 |
| LinearSimpModel | circom_algebra/src/simplification_utils.rs | 11, 29-31, 40-44, 47-49, 66-106, 141-183, 240-348, 368-410, 413-463, 472-477, 499-585 |
| MemSliceModel | program_structure/src/utils/memory_slice.rs | 23-40, 48-51, 87-165, 169-206, 234-262, 271-355, 364-379, 396-412, 422-429 |
| ModArithModel | circom_algebra/src/modular_arithmetic.rs | 4-11, 14-23, 26-91, 94-145, 154-215 |
| ParserModel | parser/src/include_logic.rs | 7-11, 14-61, 64-74, 81-145 |
| ParserModel | parser/src/lib.rs | 29-57, 69-108, 210-285 |
| ParserModel | parser/src/parser_logic.rs | 9-80 |
| PipelineModel | circom_algebra/src/algebra.rs | 1078-1106 |
| PipelineModel | circom_algebra/src/simplification_utils.rs | 498, 575 |
| PipelineModel | constraint_list/src/constraint_simplification.rs | 101-730 |
| PipelineModel | constraint_list/src/lib.rs | 106-130 |
| PipelineModel | constraint_list/src/non_linear_utils.rs | 6-31 |
| R1csModel | constraint_list/src/r1cs_porting.rs | 6-10, 19-125 |
| R1csModel | constraint_writers/src/r1cs_reader.rs | 44-100, 115-124, 219-241, 252-279, 326-355, 373-392, 418-427, 453-564 |
| R1csModel | constraint_writers/src/r1cs_writer.rs | 7-100, 103-169, 227-235, 238-292, 327-341, 356-392, 409-442 |
| ScopeModel | constraint_generation/src/execute.rs | 258-379, 722-727, 967-979, 1359-1542, 1569, 1625, 1763, 2133 |
| ScopeModel | constraint_generation/src/execution_data/executed_template.rs | 148-191 |
| ScopeModel | dag/src/lib.rs | 179-214 |
| ScopeModel | environment.rs | 39-64, 121-131, 147-160, 165-172, 352-362 |
| ScopeModel | type_analysis/src/analyzers/symbol_analysis.rs | 10-297, 334-508 |
| ScopeModel | type_analysis/src/analyzers/type_check.rs | 1341-1351 |
| ScopeModel | type_analysis/src/decorators/type_reduction.rs | 230-238 |
| StorageModel | circom_algebra/src/constraint_storage/logic.rs | 4-34 |
| StorageModel | circom_algebra/src/constraint_storage/mod.rs | 8-14, 17-20, 23-64 |
| SugarModel | compiler/src/hir/sugar_cleaner.rs | 19-23, 36-460, 464-507, 510-540, 553-661, 673-792 |
| SugarModel | program_structure/src/abstract_syntax_tree/ast.rs | 287-352 |
| SymModel | circom_algebra/src/algebra.rs | 83-87, 635-645 |
| SymModel | constraint_generation/src/environment_utils/environment.rs | 178-185 |
| SymModel | constraint_generation/src/execute.rs | 233-855, 953-1270, 1281-1323, 1543-1562, 2630-2725, 2837-2960, 3379-3470, 3636-3731, 3771-3795 |
| SymModel | constraint_generation/src/execution_data/analysis.rs | 16-38, 49-56 |
| SymModel | constraint_generation/src/execution_data/executed_program.rs | 105-112 |
| SymModel | constraint_generation/src/execution_data/filters.rs | 8-108, 135-199 |
| SymModel | program_structure/src/abstract_syntax_tree/ast_shortcuts.rs | 76-85 |
| TranslateModel | compiler/src/intermediate_representation/compute_bucket.rs | 7-34 |
| TranslateModel | compiler/src/intermediate_representation/translate.rs | 18-28, 130-146, 173-185, 205-337, 513-537, 752-783, 806-828, 963-1003, 1086-1100, 1103-1545, 1548-1811, 1817-1898, 1936-1981 |
| TranslateModel | environment.rs | 121-131, 147-157 |
| TranslateModel | program_structure/src/utils/environment.rs | 39-49 |
| TranslateModel | type_analysis/src/decorators/type_reduction.rs | 230-238 |
| TypeModel | environment.rs | 50-66, 122-132, 147-158, 163-170, 368-378 |
| TypeModel | program_structure/src/abstract_syntax_tree/assign_op_impl.rs | 4-10 |
| TypeModel | program_structure/src/abstract_syntax_tree/ast.rs | 201-270, 278-358, 361-365 |
| TypeModel | program_structure/src/program_library/function_data.rs | 8-16 |
| TypeModel | program_structure/src/program_library/program_archive.rs | 13-30 |
| TypeModel | program_structure/src/program_library/template_data.rs | 13-27, 118-123, 160-245 |
| TypeModel | program_structure/src/utils/environment.rs | 36-48 |
| TypeModel | type_analysis/src/analyzers/functions_free_of_template_elements.rs | 22-230 |
| TypeModel | type_analysis/src/analyzers/no_returns_in_template.rs | 19-52 |
| TypeModel | type_analysis/src/analyzers/type_check.rs | 31-75, 82-140, 166-985, 988-996, 1013-1063, 1066-1185, 1188-1352, 1355-1399, 1402-1416, 1428-1458, 1461-1564 |
| TypeModel | type_analysis/src/analyzers/type_given_function.rs | 8-17, 45-323 |
| TypeModel | type_analysis/src/analyzers/type_register.rs | 15-60 |
| TypeModel | type_analysis/src/check_types.rs | 7-60, 94-135 |
| TypeModel | type_analysis/src/decorators/component_type_inference.rs | 12-26 |
| UnconstrainedModel | constraint_generation/src/execution_data/executed_program.rs | 202-206 |
| UnconstrainedModel | dag/src/constraint_correctness_analysis.rs | 13-52, 59-139, 159-173 |
| UnconstrainedModel | dag/src/lib.rs | 468-475 |
| WasmModel | code_producers/src/wasm_elements/mod.rs | 119-143, 416-418 |
| WasmModel | code_producers/src/wasm_elements/wasm_code_generator.rs | 337-381, 848-854 |
| WasmModel | compiler/src/circuit_design/template.rs | 60-108 |
| WasmModel | compiler/src/intermediate_representation/assert_bucket.rs | 44-68 |
| WasmModel | compiler/src/intermediate_representation/branch_bucket.rs | 55-98 |
| WasmModel | compiler/src/intermediate_representation/call_bucket.rs | 69-464 |
| WasmModel | compiler/src/intermediate_representation/compute_bucket.rs | 137-310 |
| WasmModel | compiler/src/intermediate_representation/create_component_bucket.rs | 75-84 |
| WasmModel | compiler/src/intermediate_representation/load_bucket.rs | 48-244 |
| WasmModel | compiler/src/intermediate_representation/log_bucket.rs | 66-103 |
| WasmModel | compiler/src/intermediate_representation/loop_bucket.rs | 48-74 |
| WasmModel | compiler/src/intermediate_representation/return_bucket.rs | 45-94 |
| WasmModel | compiler/src/intermediate_representation/store_bucket.rs | 55-440 |
| WasmModel | compiler/src/intermediate_representation/value_bucket.rs | 50-73 |
<!-- end coverage -->

### Not modelled

* `parser/src/lang.lalrpop` (grammar, lexer), `parser_logic.rs`, `circom/src/*` (command line, file names).
* `type_analysis`: only `no_returns_in_template`/return-path analysis (C41), the known/unknown analysis (C43) and the parts named in the table are
  modelled; `type_check.rs`, `constants_handler.rs`, `tag_analysis.rs` and the analyses of buses and custom gates are not. Of
  `type_reduction.rs` only what decides the memory of a symbol (C66).
* `constraint_generation/src/execute.rs`: the symbolic execution of variables, signals, functions, conditions, loops,
  constraints, `assert` and `log` is in SymModel, the bookkeeping of signal assignments in FlowModel, that of the inputs of
  components in ComponentModel; buses, tags other than those of component inputs, and custom gates are not.
* `compiler/src/hir` except `sugar_cleaner.rs` (SugarModel). Of `translate.rs` the statements, expressions and addresses of code without
  components and buses are in TranslateModel, the creation of components in CreateModel; component inputs and outputs, and buses, are not.
  `build_stack`, `build_inputs_info` and the C++ and WebAssembly
  generation of the buckets are in IrModel, InputsModel and WasmModel. Of the WebAssembly module itself, the runtime functions
  (`wasm_code_generator.rs`) are modelled for the tables and the inputs only; the layout of its memory, the growth of its
  stack and 32-bit overflow of addresses are not.
* The assembly versions of the field library (`fr.asm`), the WebAssembly versions (`fr-code.wat`), the parts of the
  64-bit version for Goldilocks other than `goldilocks/fr.hpp` and the reading of inputs (`common64`; the header's unused `Fr_shl` by
  folding, lines 152-167, is a comment in the source).
* Error reports: only whether an error is raised, not its text or position (C32 has the positions of comments).

### Print Assumptions

Generated by `tools/coverage.py` (it runs `Print Assumptions` on each theorem).

<!-- assumptions -->
* PropertiesArith (16, all closed under the global context): C01_ring_ops_exact, C01_division_exact, C01_power_exact, C02_signed_order, C02_centred_exists, C03_boolean_tables, C04_quotient_remainder, C04_quotient_by_zero_is_an_error, C04_remainder_by_zero_is_an_error_refuted, C04_remainder_crashes_exactly_on_zero, C05_shifts_exact, C05_shifts_canonical_and_mirrored, C06_complement, C06_complement_noncanonical_refuted, C06_bitwise, C07_batch_inversion.
* PropertiesAlgebra (11, all closed under the global context): C08_symbolic_evaluation_exact, C08_no_crash, C08_flagging, C08_unreduced_literal_refuted, C09_constraint_form_equivalent, C10_normalisation, C11_solving_for_a_signal, C11_unnormalised_form, C12_substitution_in_constraint, C12_substitution_in_expression, C12_substitution_in_substitution.
* PropertiesLinear (4, all closed under the global context): C13_linear_simplification_equivalent, C13_solutions_determined_by_remaining_signals, C14_output_is_solved_form, C15_linear_simplification_terminates.
* PropertiesCluster (1, all closed under the global context): C16_clusters_partition_by_shared_signals.
* PropertiesPipeline (14, all closed under the global context): C17_equality_simplification_equivalent, C18_constant_equations_equivalent, C18_constant_table_equivalent_when_consistent, C18_conflicting_constants_survive_refuted, C19_simplification_equivalent, C19_solutions_extend_uniquely, C19_satisfiability_preserved, C20_equality_phase_any_arrival, C20_linear_phase_any_arrival, C20_whole_run_any_arrival_no_linear, C20_whole_run_same_solutions, C21_renumbering_is_compact_and_increasing, C21_witness_positions_of_the_result, C22_protected_signals_keep_a_position.
* PropertiesStorage (3, all closed under the global context): C27_storage_behaves_like_a_list, C27_interned_coefficients_decode, C28_constant_ids_stable_unique_dense.
* PropertiesR1cs (9, all closed under the global context): C26_reading_back_gives_the_same_system, C26_section_sizes_are_content_lengths, C26_bytes_do_not_depend_on_hash_order, C26_field_width_is_enough, C26_negative_coefficient_loses_its_sign_refuted, C26_terms_not_in_numerical_order_refuted, C26_wide_label_breaks_the_section_refuted, C49_reading_any_bytes_never_crashes, C49_bad_gate_name_crashes_refuted.
* PropertiesDag (20, all closed under the global context): C23_ranges, C23_names, C23_declaration_order, C23_calls_succeed, C24_every_number_has_one_owner, C24_numbers_stay_in_the_range, C24_r1cs_is_the_flattened_circuit, C24_rows_hold_iff_the_circuit_holds, C25_witness_order, C25_every_signal_once, C45_classification_is_a_partition, C22_public_signals_keep_their_wire, C44_symbols_agree_with_labels, C44_symbols_agree_without_simplification, C44_full_names_are_unique, C50_r1cs_is_equivalent_to_the_circuit, C50_file_reads_back, C51_custom_gates, C51_custom_gates_without_simplification, C50_private_inputs_in_header_refuted.
* PropertiesMem (15, all closed under the global context): C29_read, C29_new, C29_write, C29_read_after_write, C29_rejected_write_changes_nothing, C29_weak_write, C29_single_value, C29_mutable_references, C29_short_value_is_accepted_refuted, C30_index_and_path_are_inverse, C30_path_and_index_are_inverse, C30_write_by_index, C30_far_index_is_an_error, C30_index_past_the_end_is_an_error_refuted, C30_empty_dimension_panics_refuted.
* PropertiesEnv (7, all closed under the global context): C31_lookup_is_lexical, C31_block_leaves_outer_variables, C31_shadowing, C31_remove_uncovers, C31_signals, C31_merge, C31_merge_of_different_depths_refuted.
* PropertiesParser (13, all closed under the global context): C32_comments, C32_offsets, C32_code_is_untouched, C32_idempotent, C32_unclosed_position, C32_unclosed_byte_position_refuted, C32_string_literal_is_blanked_refuted, C33_includes, C33_main_file_parsed_twice_refuted, C33_each_file_once, C34_version, C34_custom_templates_version, C52_custom_templates_pragma.
* PropertiesInput (14, all closed under the global context): C35_every_input_is_found, C35_every_input_is_found_in_wasm, C35_same_hash, C35_colliding_names_refuted, C35_unknown_name_with_hash_zero_refuted, C35_hash_zero_hides_inputs_in_wasm_refuted, C35_same_hash_beyond_ascii_refuted, C36_accepted_writes, C36_run_once_with_all_inputs, C36_order_does_not_matter, C36_witness_iff_inputs_complete, C36_witness_from_the_given_inputs, C36_inputs_without_signals_refuted, C36_assigned_twice_in_wasm_refuted.
* PropertiesBus (8, all closed under the global context): C47_fields, C47_layout, C47_names_are_unique, C47_numbers_in_the_dag, C44_names_are_row_major, C47_main_inputs, C47_empty_arrays_panic_refuted, C47_empty_bus_array_input_panics_refuted.
* PropertiesJson (2, all closed under the global context): C53_json_inputs, C53_dotted_member_overrides_refuted.
* PropertiesFr (12, all closed under the global context): C54_supported_primes_usable, C54_parameters_exist, C54_ring_operations, C54_comparisons_and_logic, C54_bit_operations, C54_shifts, C54_quotient_remainder_power, C54_division, C54_text, C54_to_int, C54_result_may_be_an_operand_refuted, C54_to_int_rejects_large_values_refuted.
* PropertiesDat (9, all closed under the global context): C37_cpp_constant, C37_wasm_constant, C37_supported_primes, C38_round_trip, C38_buses_of_any_size_refuted, C38_tables_of_any_size_refuted, C46_cpp_witness_file, C46_js_witness_file, C46_js_large_witness_refuted.
* PropertiesIr (13, all closed under the global context): C39_expressions, C39_programs, C39_constants, C40_code, C40_folded_code, C40_expression, C40_parallel_outputs_refuted, C40_empty_store_refuted, C55_row_major, C55_load, C55_store, C55_slices_refuted, C55_store_to_buses_refuted.
* PropertiesFlow (7, all closed under the global context): C41_returns, C42_once_partial, C42_refused_partial, C42_no_panic, C42_loop_in_else_refuted, C42_unknown_loop_refuted, C42_accepts_refuted.
* PropertiesInputs (6, all closed under the global context): C56_trigger, C56_once, C56_same_executions, C56_anonymous, C56_anonymous_once, C56_zero_size_refuted.
* PropertiesSym (10, all closed under the global context): C57_constraints_are_the_equations_partial, C58_witness_satisfies_constraints_partial, C48_recorded, C48_filtered_code_runs_alike_partial, C48_filtered_code_computes_the_same_partial, C48_inline_condition_refuted, C48_unknown_loop_refuted, C48_lost_log_refuted, C48_call_value_refuted, C58_unstable_refuted.
* PropertiesKnown (7, all closed under the global context): C43_constraints_independent_of_signals_partial, C43_analysis_ends, C43_loop_in_branch_refuted, C43_loop_in_loop_refuted, C43_parameter_refuted, C43_array_refuted, C43_index_refuted.
* PropertiesSugar (8, all closed under the global context): C59_cleaned_code_is_equivalent_partial, C60_cleaned_code_is_translatable_partial, C59_array_assignment_refuted, C59_call_in_loop_condition_refuted, C59_call_in_branch_refuted, C59_body_without_braces_refuted, C59_array_equal_to_call_refuted, C60_inline_condition_refuted.
* PropertiesGold (15, all closed under the global context): C61_constants, C61_ring_operations, C61_comparisons_and_logic, C61_array_equality, C61_bit_operations, C61_shifts, C61_quotient_and_remainder, C61_power, C61_division, C61_to_int, C61_text, C61_results_are_canonical, C61_division_by_zero_stops_refuted, C61_to_int_rejects_large_values_refuted, C61_binary_input_is_reduced_refuted.
* PropertiesWasm (9, all closed under the global context): C62_code, C62_divergence, C62_deterministic, C62_expression, C62_destination, C62_same_as_cpp, C62_nested_indexes_refuted, C62_short_results_refuted, C62_empty_arguments_refuted.
* PropertiesCreate (12, all closed under the global context): C63_total, C63_children, C63_table, C63_flags, C63_components, C63_same_as_wasm, C63_functions, C63_main_function, C63_sparse_arrays_refuted, C63_unit_arrays_refuted, C63_parallel_main_refuted, C63_parallel_run_refuted.
* PropertiesAnon (9, all closed under the global context): C64_same_run, C64_names_distinct, C64_no_sugar, C64_no_panic, C64_functions, C64_swap_refuted, C64_parallel_refuted, C64_input_twice_refuted, C64_name_clash_refuted.
* PropertiesComponent (11, all closed under the global context): C65_exactly_once, C65_conditional, C65_rejected, C65_outputs, C65_order, C65_create_first, C65_create_once, C65_both_branches_refuted, C65_one_branch_refuted, C65_underflow_refuted, C65_absent_input_refuted.
* PropertiesTranslate (6, all closed under the global context): C66_translation, C66_cpp_code, C66_shadowed_signal_refuted, C66_shorter_rows_refuted, C66_half_index_refuted, C66_index_out_of_range_refuted.
* PropertiesScope (7, all closed under the global context): C67_accepted, C67_no_panic, C67_resolution, C67_signal_numbers, C67_shadowed_refuted, C67_closed_block_refuted, C67_signal_numbers_refuted.
* PropertiesTypes (4, all closed under the global context): C68_no_type_errors, C68_signal_shapes, C68_check_ends_refuted, C68_shadowed_refuted.
* PropertiesPanic (3, all closed under the global context): C69_type_check_never_panics, C69_template_of_component, C69_two_blocks_refuted.
* PropertiesConstants (8, all closed under the global context): C70_same_results, C70_never_panics, C70_parameter_lengths_are_reported, C70_shadowing_refuted, C70_own_name_refuted, C70_log_refuted, C70_length_panics_refuted, C70_variable_length_refuted.
* PropertiesUnconstrained (5, all closed under the global context): C71_never_panics, C71_warnings_are_true, C71_every_signal_is_reported, C71_unconstrained_signals_are_free, C71_same_name_refuted.
* PropertiesJsonPort (4, all closed under the global context): C72_json_lists_the_r1cs, C72_simplified_json_lists_the_r1cs, C72_json_is_written, C72_file_determines_the_constraints.
* PropertiesDeclare (4, all closed under the global context): C73_declared_at_most_once, C73_refused_declares_twice, C73_custom_has_no_constraints, C73_custom_warnings.
<!-- end assumptions -->

## Findings

Statements that a user would expect and that the model refutes.  Each has a theorem `..._refuted` with a concrete
program, input or file that the real code reaches.

| theorem | what happens |
|---------|--------------|
| C04_remainder_by_zero_is_an_error_refuted | `x % 0` on constants panics instead of reporting a division by zero |
| C06_complement_noncanonical_refuted | `~` of an operand outside of the field is not an involution modulo the field |
| C08_unreduced_literal_refuted | a literal of at least the prime used as an exponent gives another power than its reduction |
| C18_conflicting_constants_survive_refuted | two constraints that set one signal to two constants are lost by the simplification: an unsatisfiable circuit becomes satisfiable |
| C26_* | in an R1CS file: the sign of a negative coefficient is dropped, terms are ordered by little-endian bytes, labels of 2^32 shift the rest of the section |
| C29/C30_* | writes with too few dimensions are accepted; the index just past the end and empty dimensions panic |
| C31_merge_of_different_depths_refuted | merging environments with different numbers of blocks loses values |
| C32_* | position of an unclosed comment counts characters instead of bytes; comment markers in string literals are blanked |
| C33_main_file_parsed_twice_refuted | the main file is parsed again if it is included under its canonical path |
| C35_* | colliding 64-bit name hashes, names with hash 0, non-ASCII names |
| C36_* | inputs of size zero: the circuit is never run; WebAssembly accepts a second assignment |
| C38_*, C46_js_large_witness_refuted | `calloc(10)` for bus fields; 32-bit sizes; a witness of 2^27 values has a wrong section length in JavaScript |
| C40_*, C55_*, C56_zero_size_refuted | generated C++: index of `notify` evaluated after being overwritten, empty copies copy one element, missing parentheses in slices of mapped accesses, a store of size zero runs a component twice |
| C43_*_refuted | the known/unknown analysis accepts templates whose constraints depend on signals: variables assigned in a loop inside a branch or a loop, parameters or arrays that hold a signal, arrays indexed by a signal (execution of the template still reports a constraint under an unknown condition) |
| C42_* | conditions of loops stay on the stack: double assignments accepted, valid programs refused |
| C47_* | empty arrays in buses divide by zero |
| C48_*, C58_unstable_refuted | loops with an unknown condition are executed only twice symbolically: constants that change later are compiled in as constants; a branch of an inline condition keeps its first value; `log` under an operator is dropped |
| C49_bad_gate_name_crashes_refuted | the R1CS reader panics on a gate name that is not UTF-8 |
| C50_private_inputs_in_header_refuted | the R1CS header counts private inputs that are not in the file any more |
| C53_dotted_member_overrides_refuted | a JSON member spelled `b.x` silently replaces the field `x` of the bus `b` |
| C54_* | bit operations of the C++ field library are wrong if the result is an operand; `Fr_toInt` ignores upper words |
| C59_*_refuted | code for the witness differs from the program: `a = [a[1], a[0]]` does not swap; a call in the condition of a loop is evaluated once; the calls in both branches of an inline condition are evaluated (a recursive function that ends by an inline condition does not end); calls in a body without braces are evaluated in front of the loop or test; `[a, b] === f(x)` is not checked |
| C60_inline_condition_refuted | the compiler panics on `log(c ? 1 : 2)`, `assert(c ? 1 : 2)`, `x === (c ? 1 : 2)`, `(c ? a : b) ? 1 : 2` and `if (c) x = d ? 1 : 2;` |
| C61_*_refuted | the 64-bit field library: a field division by zero continues with an undefined value; an element that is no `int` is cut to 32 bits when it is used as an index; binary inputs are not reduced (the prime itself passes for 0 and is true) |
| C62_*_refuted | the WebAssembly code: in `c[i].out[c[i].pos[0][0]][1]` the row length of `pos` is used for `out`; a function whose result is shorter than the destination copies memory behind the result (the C++ code does not); a call with an argument of size zero gives an invalid module |
| C63_*_refuted | the creation of components: in `component s[3]; s[0] = T(); s[2] = T();` with a template without inputs the WebAssembly code never runs `T`; the C++ name of `s[0]` in a one-element array is `s`; `template parallel M` as main and `component s = parallel T()` without inputs make the C++ code call functions that do not exist |
| C64_*_refuted | Tuple assignment of variables is sequential: (a, b) = (b, a) gives both the value of b. `parallel T()(U()(x) + 1)` passes the check and leaves an anonymous component, on which the type checker hits unreachable!. An input declared in both branches of an if counts twice for positional arguments; the first of the two arguments is dropped. A user name such as T_3_30 can equal the generated name of an anonymous component. |
| C65_*_refuted | The compiler counts the missing signals of each input of a component (component_representation.rs:871-885), and an assignment in each branch of an unknown `if` counts twice: with `input a[2]`, `if (s == 0) c.a[0] <-- 1; else c.a[0] <-- 2;` is accepted with `c.a[1]` never assigned. An input assigned in one branch only counts as assigned. With `input a[2][2]`, the same `if` on `c.a[0][0]` followed by `c.a[0][1] <-- 3; c.a[1] <-- row;` (a legal program) makes the count negative: panic with overflow checks, otherwise "missing inputs". A tagged input declared in a branch that the instance does not take must be assigned and cannot be: the template is unusable. |
| C66_*_refuted | The generated code differs from the source in four cases: a variable of an inner block named like a signal is stored in the memory of signals and can overwrite another signal (accepted by the checks; `type_reduction.rs` ignores blocks); an assigned array with shorter rows is copied without gaps, although compile-time execution copies row by row; an index like `x * 2` is computed on machine integers, so the program stops when `x` is one half; run-time indexes are not checked against the dimensions. |
| C67_*_refuted | A name used again in another block is resolved differently by the parts of the compiler: `signal input a; signal output b; { var a = 5; b <== a; }` is accepted, assigns the variable and constrains `b` to the signal; `signal x; { signal x; x <== 2; } x <== 1;` takes the second assignment for one of the inner signal (reported as assigned twice); `{ signal x; x <== 1; } { signal x; x <== 2; }` is accepted and puts both constraints on one signal, so the circuit has no witness, and one number belongs to no constraint (`environment.rs` keeps only variables by blocks, `signal_correspondence` is a map from names). |
| C68_*_refuted | The check of types does not end on `function f(x, n) { if (n == 0) { return 0; } return f([x], n-1); }` (one more instance for each number of dimensions; the compiler runs out of stack), although the program itself ends (`type_check.rs:889-921`). It accepts `signal input a[2]; { var a = [1, 2]; }`, which stores an array in a number: the dimensions are taken from the signal, the kind of symbol from the variable (`type_check.rs:1188-1352`). |
| C69_two_blocks_refuted | `if (n == 0) { component c = A(); } else { component c = B(); }` is refused: the templates of components are kept by name, so that the first declaration gets the template of the last instantiation and the second one none (`component_type_inference.rs:28-112`). |
| C70_shadowing_refuted, C70_own_name_refuted | In a function, a variable that hides a constant is replaced by the value of the hidden one: `var x = 1; if (n == 0) { var x = 5; x = x + n; return x; } return x;` returns 1 for 0 instead of 5 (constants_handler.rs:545-560 looks names up among constants only). `var x = x + 1; return x;` returns 2 instead of 1. |
| C70_log_refuted | A constant initialised by a call is replaced by the call: `var x = g(7); return x + x;` calls g three times, and what g logs appears three times. |
| C70_length_panics_refuted | `var k = 3, a[k];` in a function makes the compiler panic: constants_handler.rs:185-204 looks at all lengths of the statement before it adds its names. |
| C70_variable_length_refuted | An array of variable length in a function is accepted if its length is a constant of an inner block whose initial value changes later: `while (x < n) { { var y = x; var a[y]; } x = x + 1; }`. The length becomes `x`, which execute.rs:967-980 cannot find when lengths are computed (`unreachable!`). |
| C71_same_name_refuted | `--inspect` examines one template instance for each name, and the name `T(values)` leaves out the values of tags inside buses and lists the other tag values without their names: an instance that differs from an earlier one only there is not examined, and its unconstrained signals are not reported. |

Noted while reading and not modelled: the source address of a nested load is not numbered by `build_stack` and is evaluated lazily;
the size in a WebAssembly store with several sizes is always that of the source; comparisons of several elements in
C++ evaluate only the last load; index expressions are converted from field arithmetic to machine integers;
`conditions_state` is not reset when a template is executed.
