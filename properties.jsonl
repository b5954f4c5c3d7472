{"id": "C01", "title": "Splitting text loses nothing", "statement": "Splitting a line on a delimiter character yields fields that never contain the delimiter, and joining the fields back with that delimiter gives exactly the original line (an empty line yields no field).", "quantifier": "every text and every delimiter character", "why_tests_cant": "All parsers are built on it; tests try a handful of lines, but empty fields, leading and trailing delimiters and any length must all work.", "anchors": ["include/lstk/lstk.hpp: lstk::split_on(string_view,char), lstk::join, lstk::split_on_first"]}
{"id": "C02", "title": "Character replacement replaces every occurrence and keeps the rest", "statement": "Replacing a character in a text returns the text with every occurrence of the character substituted and every other character kept in place.", "quantifier": "every text, target character and replacement text", "why_tests_cant": "A test with the target at the end of the text passes while text after the last occurrence is lost.", "anchors": ["include/lstk/lstk.hpp: lstk::str_replace"]}
{"id": "C03", "title": "Operator and option names round-trip", "statement": "Printing a Pauli operator, a CNOT type or a CNOT ancilla placement and reading the text back gives the same value, and every other text is rejected.", "quantifier": "every value of the enumeration and every text", "why_tests_cant": "The rejection half ranges over all texts.", "anchors": ["include/lsqecc/pauli_rotations/pauli_operator.hpp: PauliOperator_to_string, PauliOperator_from_string", "src/gates/gates.cpp: CNOTType_toString, CNOTType_fromString, CNOTAncillaPlacement_toString, CNOTAncillaPlacement_fromString"]}
{"id": "C04", "title": "LLI text round-trip", "statement": "Printing a logical lattice instruction and parsing the printed line gives back the same instruction.", "quantifier": "every instruction of every kind, with every patch id, operator set and option", "why_tests_cant": "Instructions carry unbounded lists and 32-bit ids; sampling does not show that --printlli output is always readable input.", "anchors": ["src/ls_instructions/ls_instructions.cpp: operator<<", "src/ls_instructions/ls_instructions_parse.cpp: parse_ls_instruction"]}
{"id": "C05", "title": "LLI parser accepts or rejects, never misbehaves", "statement": "Reading any line of LLI text either yields an instruction or reports a parse error; it never reads outside the text it was given.", "quantifier": "every line of text", "why_tests_cant": "Memory safety of a parser is a claim about all inputs, including truncated and malformed ones.", "anchors": ["src/ls_instructions/ls_instructions_parse.cpp: parse_ls_instruction", "src/ls_instructions/parse_utils.cpp"]}
{"id": "C06", "title": "Numeric opcodes and names are interchangeable", "statement": "An LLI line written with the numeric opcode of an instruction means exactly the same as the line written with its name, whatever the arguments are.", "quantifier": "every argument text and every opcode", "why_tests_cant": "Arguments are arbitrary text.", "anchors": ["src/ls_instructions/ls_instructions_parse.cpp: parse_ls_instruction"]}
{"id": "C07", "title": "QASM gate lines mean what they say", "statement": "A QASM line for a supported gate parses to that gate on exactly the qubit indices written (control first, target second for two-qubit gates), for every index, and printing a basic or controlled basic gate and parsing it back gives the same gate.", "quantifier": "every supported gate and every 32-bit qubit index", "why_tests_cant": "Index decoding must hold for the whole range.", "anchors": ["src/gates/parse_gates.cpp: parse_gate, parse_qasm_gate, get_index_arg", "src/gates/gates.cpp: operator<<"]}
{"id": "C08", "title": "A QASM file is read completely and in order", "statement": "Reading a QASM file delivers exactly the gates written in it, in file order, skipping only headers, comments and blank lines; a file with a second register or an unsupported line is rejected.", "quantifier": "every finite file", "why_tests_cant": "The reader is a look-ahead state machine; order and completeness are claims about all files.", "anchors": ["src/gates/parse_gates.cpp: GateStreamFromFile::advance_gate, get_next_gate, parse_qreg, is_ignored_instruction"]}
{"id": "C09", "title": "Rotation decomposition delivers only basic gates, in order", "statement": "Downstream of rotation decomposition no rotation and no controlled rotation remains; all other gates come out unchanged and in their original order, each rotation being replaced in place by its expansion.", "quantifier": "every gate sequence and every rotation expander", "why_tests_cant": "The stream buffers a queue and look-ahead; needs all sequences.", "anchors": ["src/gates/decompose_rotation_stream.cpp: DecomposeRotationStream::get_next_gate", "src/gates/gates.cpp: decompose, is_decomposed"]}
{"id": "C10", "title": "Controlled rotation expansion applies the right phase", "statement": "The gates that replace a controlled Z-rotation act on every computational basis state with the phase of the controlled rotation requested, including its sign.", "quantifier": "every angle (numerator, denominator, sign), control and target", "why_tests_cant": "Angles are unbounded rationals; a sign lost for negative angles is invisible on positive samples.", "anchors": ["src/gates/gates.cpp: decompose_CRZ_gate"]}
{"id": "C11", "title": "Fresh patch ids never collide", "statement": "Every id given to an ancilla, magic state or Y state is different from all declared qubits and from all ids handed out before.", "quantifier": "every circuit, of any length, read from QASM or from LLI", "why_tests_cant": "Collisions only show up in long programs or for particular declared ids.", "anchors": ["include/lsqecc/ls_instructions/id_generator.hpp: IdGenerator", "src/pipelines/slicer.cpp: run_slicer_program (id_generator.set_start)", "src/ls_instructions/ls_instructions_from_gates.cpp"]}
{"id": "C12", "title": "CNOT lowering implements a CNOT", "statement": "The measurement sequence produced for a CNOT acts on the encoded qubits as a CNOT from control to target, up to Pauli corrections, and measures no information about them.", "quantifier": "every pair of distinct qubits, every ancilla, both measurement orders", "why_tests_cant": "Slices look plausible whether or not the logical action is right; this is a statement about all input states.", "anchors": ["src/ls_instructions/ls_instructions_from_gates.cpp: make_cnot_instructions"]}
{"id": "C13", "title": "Ancillas are initialised once, used, measured once, and never reused", "statement": "Each helper patch introduced while lowering a circuit is created exactly once before any other use and destroyed by a single measurement after its last use.", "quantifier": "every circuit made of supported gates", "why_tests_cant": "It is a property of the complete emitted history of an arbitrary circuit.", "anchors": ["src/ls_instructions/ls_instructions_from_gates.cpp", "src/ls_instructions/ls_instruction_stream.cpp: LSInstructionStreamFromGateStream::get_next_instruction"]}
{"id": "C14", "title": "Lowering preserves circuit order and touches only the named qubits", "statement": "The LLI program of a circuit is the concatenation, in circuit order, of the lowering of each gate; the lowering of a gate mentions only that gate's qubits and fresh ids.", "quantifier": "every circuit", "why_tests_cant": "Order and frame must hold for arbitrary circuits.", "anchors": ["src/ls_instructions/ls_instruction_stream.cpp: LSInstructionStreamFromGateStream::get_next_instruction"]}
{"id": "C15", "title": "S-gate injection removes every S on a declared qubit and nothing else", "statement": "After S-gate injection (teleported or catalytic) the program contains no S operation on a declared qubit; every other instruction is still there, unchanged and in order.", "quantifier": "every instruction stream and set of declared qubits", "why_tests_cant": "Streams are arbitrary; the injection interleaves a queue with its source.", "anchors": ["src/ls_instructions/teleported_s_gate_injection_stream.cpp", "src/ls_instructions/catalytic_s_gate_injection_stream.cpp"]}
{"id": "C16", "title": "S-gate teleportation implements S up to Z", "statement": "The instruction sequence that replaces an S on a qubit acts on it as S up to a Pauli, using up (or returning) the Y state, and S-dagger requests are honoured.", "quantifier": "every qubit, every Y-state id", "why_tests_cant": "Logical action on all input states.", "anchors": ["src/ls_instructions/teleported_s_gate_injection_stream.cpp", "src/ls_instructions/catalytic_s_gate_injection_stream.cpp"]}
{"id": "C17", "title": "Boundary rotation makes every measured operator reachable", "statement": "After boundary-rotation injection, whenever a program measures an operator on a declared single-tile qubit, that operator's boundary is exposed at that point of the program, and original instructions are kept in order.", "quantifier": "every instruction stream and starting orientation", "why_tests_cant": "The orientation of each qubit depends on the whole history of rotations and Hadamards.", "anchors": ["src/ls_instructions/boundary_rotation_injection_stream.cpp", "include/lsqecc/layout/dynamic_layouts/determine_exposed_operators.hpp"]}
{"id": "C18", "title": "Instructions reported to commute share no patch", "statement": "Two instructions are treated as reorderable only if no patch is used by both; the relation is symmetric.", "quantifier": "every pair of instructions (and of gates)", "why_tests_cant": "Pairs range over unbounded patch lists.", "anchors": ["src/ls_instructions/ls_instructions.cpp: get_operating_patches", "include/lsqecc/ls_instructions/ls_instructions.hpp: CommutationTrait<LSInstruction>", "include/lsqecc/gates/gates.hpp: CommutationTrait<gates::Gate>"]}
{"id": "C19", "title": "Dependency graph edges stay consistent", "statement": "After any sequence of edits, the successors and predecessors reported by a dependency graph describe the same edge relation between existing nodes only.", "quantifier": "every sequence of add/remove/expand operations", "why_tests_cant": "Two mirrored adjacency maps must agree after every history.", "anchors": ["include/lsqecc/dag/directed_graph.hpp", "src/dag/directed_graph.cpp: add_edge, remove_edge, remove_node, expand"]}
{"id": "C20", "title": "Topological order respects every edge", "statement": "The order delivered for a graph built by pushing instructions lists every node exactly once, each after all nodes it points to.", "quantifier": "every acyclic graph", "why_tests_cant": "Depth and branching are unbounded.", "anchors": ["src/dag/directed_graph.cpp: topological_order_tails_first"]}
{"id": "C21", "title": "Executing the dependency graph preserves program order of dependent instructions", "statement": "However the scheduler picks among the currently applicable instructions, two instructions that do not commute are executed in program order, every instruction is executed exactly once, and while instructions remain one is applicable.", "quantifier": "every program and every sequence of scheduling choices", "why_tests_cant": "Number of schedules is exponential and programs are unbounded.", "anchors": ["include/lsqecc/dag/dependency_dag.hpp: push_instruction_based_on_commutation, applicable_instructions, pop_head", "src/dag/domain_dags.cpp"]}
{"id": "C22", "title": "Replacing an instruction by follow-ups keeps its place in the dependency order", "statement": "When an instruction is replaced by a sequence of follow-up instructions, everything that had to come before or after it has to come before or after each follow-up, and the follow-ups keep their order.", "quantifier": "every graph, node and non-empty follow-up list", "why_tests_cant": "Graph shape is arbitrary.", "anchors": ["src/dag/directed_graph.cpp: DirectedGraph::expand", "include/lsqecc/dag/dependency_dag.hpp: DependencyDag::expand"]}
{"id": "C23", "title": "Layout text is a rectangle or is rejected", "statement": "A layout file is accepted only if all its rows have the same length; then every character is one cell of the lattice and each kind of cell is recovered exactly where it was written.", "quantifier": "every layout text", "why_tests_cant": "All texts.", "anchors": ["src/layout/ascii_layout_spec.cpp: LayoutFromSpec, find_all_cells_of_type, furthest_cell"]}
{"id": "C24", "title": "Distillation blocks are the connected regions of factory cells", "statement": "Each distillation region of a layout is one maximal group of edge-connected factory cells with the same digit; regions are disjoint and cover every factory cell.", "quantifier": "every layout grid", "why_tests_cant": "Region shapes are arbitrary; flood fill must be complete and sound on all.", "anchors": ["src/layout/ascii_layout_spec.cpp: AsciiLayoutSpec::get_connected_component, LayoutFromSpec::init_cache"]}
{"id": "C25", "title": "Generated compact layout fits the circuit", "statement": "The automatically generated compact layout is a rectangle with exactly as many qubit tiles as the circuit has qubits, each next to the routing lane, and at least one factory.", "quantifier": "every number of qubits", "why_tests_cant": "All sizes.", "anchors": ["src/layout/dynamic_layouts/compact_layout.cpp: make_compact_layout"]}
{"id": "C26", "title": "Generated EDPC layout fits the circuit", "statement": "The generated EDPC layout is a rectangle with at least as many qubit tiles as qubits, separated by the requested number of routing lanes.", "quantifier": "every number of qubits, lane count, and option combination", "why_tests_cant": "All sizes.", "anchors": ["src/layout/dynamic_layouts/edpc_layout.cpp: make_edpc_layout"]}
{"id": "C27", "title": "Declared qubits are placed once each", "statement": "At the start every declared qubit occupies exactly one tile, on a qubit tile of the layout, in order; a layout with too few tiles is rejected.", "quantifier": "every layout and set of declared qubits", "why_tests_cant": "Layouts and id sets are arbitrary.", "anchors": ["src/patches/dense_slice.cpp: DenseSlice::DenseSlice(layout, core_qubit_ids)"]}
{"id": "C28", "title": "No two patches on one tile, no patch on two tiles", "statement": "In every slice of every compilation, each patch id sits on at most one tile, and no instruction silently overwrites another patch.", "quantifier": "every program, layout and slice of the run", "why_tests_cant": "Invariant over unbounded histories.", "anchors": ["src/patches/dense_slice.cpp: place_single_cell_sparse_patch", "src/patches/dense_patch_computation.cpp: try_apply_instruction_direct_followup, advance_slice"]}
{"id": "C29", "title": "Routes are real paths through free tiles", "statement": "A route found between two patches starts beside the source on the boundary of the requested operator, ends beside the target on the boundary of its requested operator, moves between edge-adjacent tiles inside the lattice, and uses only free tiles.", "quantifier": "every slice, pair of patches and operators", "why_tests_cant": "All occupancy patterns.", "anchors": ["src/layout/graph_search/custom_graph_search.cpp: graph_search_route_ancilla", "src/layout/router.cpp"]}
{"id": "C30", "title": "A route is found whenever one exists, and it is shortest", "statement": "The search reports failure only if no admissible path of free tiles exists, and otherwise returns one of minimum length.", "quantifier": "every slice, pair of patches and operators", "why_tests_cant": "Completeness and optimality quantify over all paths.", "anchors": ["src/layout/graph_search/custom_graph_search.cpp: do_dijkstra"]}
{"id": "C31", "title": "Cached routes are valid", "statement": "A route returned by the caching router is valid for the slice it is requested on.", "quantifier": "every sequence of routing requests and slices", "why_tests_cant": "Depends on the history of requests.", "anchors": ["src/layout/router.cpp: CachedRouter::find_routing_ancilla"]}
{"id": "C32", "title": "An instruction that cannot be applied leaves the lattice unchanged", "statement": "When applying an instruction reports that it could not be applied in this slice, the slice is exactly as before.", "quantifier": "every slice and instruction", "why_tests_cant": "All states; partial updates before a late failure are easy to miss.", "anchors": ["src/patches/dense_patch_computation.cpp: try_apply_instruction_direct_followup, try_apply_local_instruction, merge_patches"]}
{"id": "C33", "title": "An applied instruction disturbs only its own patches and its route", "statement": "Applying an instruction changes only the tiles of the patches it names, the tiles of its route and newly claimed free tiles; every other patch is untouched.", "quantifier": "every slice and instruction", "why_tests_cant": "Frame property over all states.", "anchors": ["src/patches/dense_patch_computation.cpp: try_apply_instruction_direct_followup"]}
{"id": "C34", "title": "Advancing time ends finished operations and keeps everything else", "statement": "Between slices, measured patches and measurement routes disappear, one-step operations finish, rotations and factories continue, and every other patch keeps its place, id and boundaries; a logical qubit never disappears unless it was measured.", "quantifier": "every slice", "why_tests_cant": "All states.", "anchors": ["src/patches/dense_patch_computation.cpp: advance_slice"]}
{"id": "C35", "title": "Every advertised magic state is really there", "statement": "In every reachable state, each tile listed as holding an available magic state holds an unbound prepared state, so a magic-state request served from the list always binds a real state and removes it from the list.", "quantifier": "every program, layout and history", "why_tests_cant": "Invariant over unbounded histories of spawning and consumption.", "anchors": ["src/patches/dense_patch_computation.cpp: advance_slice, MagicStateRequest case", "include/lsqecc/patches/dense_slice.hpp: magic_states"]}
{"id": "C36", "title": "Factories deliver periodically", "statement": "A factory with distillation time T>0 attempts to deliver one magic state every T slices, for ever; a reserved tile is refilled exactly T slices after it was emptied.", "quantifier": "every T and every number of slices", "why_tests_cant": "Unbounded time.", "anchors": ["src/patches/dense_patch_computation.cpp: advance_slice"]}
{"id": "C37", "title": "A patch rotation takes three slices and returns the same qubit rotated", "statement": "A rotation occupies the patch's tile and one free neighbour for exactly three slices, then the same patch id is back on its tile with rough and smooth sides exchanged and the neighbour is free.", "quantifier": "every slice, patch and neighbour", "why_tests_cant": "All states.", "anchors": ["src/patches/dense_patch_computation.cpp: single_patch_rotation_a_la_litinski, RotateSingleCellPatch and BusyRegion cases"]}
{"id": "C38", "title": "Stream compilation applies the program in order, exactly once", "statement": "The stream pipeline applies the instructions (and their follow-ups) in program order, each exactly once; it stops with an error exactly when an instruction has failed one more time than its waiting limit allows.", "quantifier": "every program and every pattern of successes and failures", "why_tests_cant": "Failure patterns are arbitrary.", "anchors": ["src/patches/dense_patch_computation.cpp: run_through_dense_slices_streamed"]}
{"id": "C39", "title": "Reported slice and instruction counts are right", "statement": "The slice count reported at the end equals the number of slices emitted, and the instruction count equals the number of instructions read.", "quantifier": "every program and pipeline", "why_tests_cant": "Every interleaving of failures, follow-ups and successes contributes to the counters.", "anchors": ["src/patches/dense_patch_computation.cpp: run_through_dense_slices_streamed, run_through_dense_slices_dag, run_through_dense_slices_wave"]}
{"id": "C40", "title": "DAG compilation respects dependencies and cannot wait for ever", "statement": "The DAG pipeline applies non-commuting instructions in program order, each once, and an instruction that keeps failing aborts the run after a bounded number of slices.", "quantifier": "every program and every pattern of successes and failures", "why_tests_cant": "All schedules.", "anchors": ["src/patches/dense_patch_computation.cpp: run_through_dense_slices_dag"]}
{"id": "C41", "title": "Wave compilation respects dependencies and loses no instruction", "statement": "The wave pipeline applies an instruction only after all earlier instructions on any of its patches have been applied, applies each instruction exactly once, and is done only when all have been applied.", "quantifier": "every program and every pattern of successes and failures", "why_tests_cant": "All schedules; dependency counters must never under- or overflow.", "anchors": ["src/scheduler/wave_scheduler.cpp"]}
{"id": "C42", "title": "Waiting limits are honoured", "statement": "An instruction that fails is retried at most as many times as its waiting limit allows; magic-state and Y-state requests give up after their default limit.", "quantifier": "every limit and failure pattern", "why_tests_cant": "All limits.", "anchors": ["src/patches/dense_patch_computation.cpp", "src/scheduler/wave_scheduler.cpp: schedule_instructions"]}
{"id": "C43", "title": "Output is well-formed JSON", "statement": "The slice output of a successful run is a JSON array with one element per emitted slice.", "quantifier": "every program, pipeline and number of slices (including none)", "why_tests_cant": "Number of slices is unbounded and may be zero.", "anchors": ["src/pipelines/slicer.cpp: run_slicer_program (slice_visitor)"]}
{"id": "C44", "title": "Each slice in the output describes every tile", "statement": "The JSON of a slice is a grid with the dimensions of the layout in which each tile shows exactly the patch on it. The keys of every object stand in the order of words, each once.", "quantifier": "every slice", "why_tests_cant": "All slices.", "anchors": ["src/patches/slices_to_json.cpp: slice_to_json"]}
{"id": "C45", "title": "Volume statistics partition the lattice", "statement": "The space-time volume counters of a slice add up to the number of tiles, each tile being counted in exactly one category.", "quantifier": "every slice", "why_tests_cant": "All slices.", "anchors": ["src/patches/slice_stats.cpp: compute_volume_counts"]}
{"id": "C46", "title": "Lattice geometry is consistent", "statement": "Neighbourhood is symmetric, stays inside the lattice, the side of a tile facing a neighbour is opposite to the neighbour's side facing it, and four rotations restore a patch.", "quantifier": "every tile and lattice size", "why_tests_cant": "All coordinates.", "anchors": ["src/patches/patches.cpp: Cell::get_neigbours_within_bounding_box_inclusive, Cell::get_directional_neighbor, get_boundary_with, CellBoundaries::instant_rotate"]}
{"id": "C47", "title": "Long-range Bell operations are made of valid nearest-neighbour steps", "statement": "Compiling a long-range Bell preparation, measurement, merge or split along a route yields only operations on edge-adjacent tiles of the route, prepares every intermediate tile before it is measured, and leaves occupied exactly the tiles that must hold the result.", "quantifier": "every route of every length, every segment, both directions", "why_tests_cant": "Route length and parity are unbounded.", "anchors": ["src/patches/dense_patch_computation.cpp: compile_long_range_Bell"]}
{"id": "C48", "title": "Y states are conserved", "statement": "The number of Y states reported available always equals the number of unbound Y-state tiles; a catalytic S gate returns the Y state it borrowed.", "quantifier": "every program and history", "why_tests_cant": "Invariant over histories.", "anchors": ["src/patches/dense_patch_computation.cpp: YStateRequest case", "src/ls_instructions/catalytic_s_gate_injection_stream.cpp"]}
{"id": "C49", "title": "Dense and sparse views of a patch agree", "statement": "Converting a patch between its tile form and its standalone form and back preserves it, and the list of tiles of a patch lists exactly its tiles.", "quantifier": "every patch", "why_tests_cant": "All patches, including multi-tile ones.", "anchors": ["src/patches/patches.cpp: DensePatch::to_sparse_patch, DensePatch::from_sparse_patch, SparsePatch::get_cells"]}
{"id": "C50", "title": "Command-line modes documented are accepted", "statement": "Every option value named in the help text is accepted, and any other value is rejected with an error code and no output.", "quantifier": "every option value text", "why_tests_cant": "Rejection ranges over all texts.", "anchors": ["src/pipelines/slicer.cpp: run_slicer_program"]}
{"id": "C51", "title": "Ill-formed circuits are rejected", "statement": "A circuit that addresses a qubit outside its register, or a controlled gate whose control is its target, is refused instead of being compiled into something that disturbs another patch.", "quantifier": "every circuit text", "why_tests_cant": "Ranges over all circuits and all indices.", "anchors": ["src/gates/parse_gates.cpp: parse_gate", "src/ls_instructions/ls_instruction_stream.cpp: LSInstructionStreamFromGateStream"]}
{"id": "C52", "title": "Rotations lowered without synthesis keep their angle", "statement": "A Z rotation handed to the lowering stage is either refused or becomes the gate with that angle, including its sign.", "quantifier": "every rotation, qubit and counter value", "why_tests_cant": "Ranges over all angles.", "anchors": ["src/ls_instructions/ls_instruction_stream.cpp: LSInstructionStreamFromGateStream::get_next_instruction"]}
{"id": "C53", "title": "Long-range operations do to the encoded qubits what they stand for", "statement": "With local instructions, the nearest-neighbour operations a long-range instruction is compiled to, taken together, have exactly the effect of the instruction on the encoded state: a CNOT instruction is a CNOT of its two qubits, a Bell pair instruction prepares a Bell pair on its two ends, and a long-range measurement, merge or split is that operation on the two ends; whatever the route, and with nothing left on the tiles in between.", "quantifier": "every route of any length and shape, both directions, every stabiliser state of the qubits and everything else, every orientation of the two patches, every search used for the route", "why_tests_cant": "Routes and states are unbounded, and the slices only show which tiles interact: a wrong order, side or operation on one link gives pictures that look right and a different quantum operation.", "anchors": ["src/patches/dense_patch_computation.cpp: compile_long_range_Bell, try_apply_local_instruction", "src/patches/dense_patch_computation.cpp: try_apply_instruction_direct_followup (BellPairInit, BellBasedCNOT cases)", "include/lsqecc/ls_instructions/local_instructions.hpp"]}
{"id": "C54", "title": "Proximate follow-ups are handed out one after the other", "statement": "When an instruction is replaced by several follow-ups to be executed on consecutive slices, executing one makes the next one proximate, and any of them may itself be replaced.", "quantifier": "every dependency graph of a program and every execution history", "why_tests_cant": "The bookkeeping depends on the whole history of expansions.", "anchors": ["include/lsqecc/dag/dependency_dag.hpp: pop_head, expand, make_proximate, proximate_instructions"]}
{"id": "C55", "title": "An LLI program is read completely and in order", "statement": "Reading an LLI program delivers exactly the instructions on its non-blank lines, in order, each once, together with the declared qubits; a program with a bad line is rejected, the in-memory reader rejects a second qubit declaration, and the streaming reader requires the declaration to come first.", "quantifier": "every finite list of lines", "why_tests_cant": "The streaming reader is a look-ahead state machine; order and completeness are claims about all files.", "anchors": ["src/ls_instructions/ls_instruction_stream.cpp: LSInstructionStreamFromFile", "src/ls_instructions/ls_instructions_parse.cpp: parse_ls_instructions"]}
{"id": "C56", "title": "Observable lists mention each patch once", "statement": "The list of observables of a multi-patch measurement read from text has every mentioned patch exactly once, in order of first mention, with the operator given for it last.", "quantifier": "every list of patch:operator entries", "why_tests_cant": "Entry lists are unbounded and may repeat patches.", "anchors": ["src/ls_instructions/ls_instructions_parse.cpp: parse_ls_instruction (MultiBodyMeasure)"]}
{"id": "C57", "title": "Compilation does not depend on what the process compiled before", "statement": "Compiling the same input with the same options gives the same settings and the same instructions to slice, whatever was compiled earlier in the same process.", "quantifier": "every input, command line and state left behind by earlier runs", "why_tests_cant": "Tests run from one process state; hidden static state shows only for particular sequences of runs.", "anchors": ["src/pipelines/slicer.cpp: run_slicer_program (517-521)", "include/lsqecc/gates/gates.hpp: ControlledGate::default_ancilla_placement", "src/emscripten_bindings.cpp", "src/gates/parse_gates.cpp: GateStreamFromFile"]}
{"id": "C58", "title": "The Boost search finds routes like the other searches", "statement": "Asking for a route with the Boost search gives a route exactly when the other searches give one: a chain of free neighbouring tiles from a side of the source patch that shows its operator to such a side of the target patch; otherwise it says that there is none.", "quantifier": "every layout, lattice state, pair of patches and operators, and every order in which the search may visit the tiles", "why_tests_cant": "Lattices and patch placements are unbounded; a wrong edge condition shows only for routes of a certain length or for certain occupied tiles.", "anchors": ["src/layout/graph_search/boost_based_graph_search.cpp: graph_search_route_ancilla", "src/layout/router.cpp: CustomDPRouter::find_routing_ancilla", "src/pipelines/slicer.cpp: option -g boost"]}
{"id": "C59", "title": "A circuit from the database is read completely, in order and as it is meant", "statement": "Reading a circuit from a Pandora database delivers exactly the gates its rows stand for, layer by layer, each once, on a register with one qubit per input row; once the reader has said that there is nothing more it stays that way, and rows it cannot translate are refused.", "quantifier": "every table, every order of the rows within a layer, and every sequence of calls of has_next_gate and get_next_gate", "why_tests_cant": "There is no test (it takes a database server); tables and the interleavings of the two calls are unbounded.", "anchors": ["src/gates/postgres_gate_stream.cpp: PandoraPostgresGateStream", "src/pipelines/slicer.cpp: option -I pandora", "src/patches/dense_patch_computation.cpp: run_through_dense_slices_streamed"]}
{"id": "C60", "title": "Operations under way are left alone by the other instructions", "statement": "While an operation takes more than one slice - a rotation, a Bell pair or a CNOT over a distance - the tiles it relies on keep what it left there: no other instruction that is tried in between, and no magic state that appears, changes or takes them, and two operations under way never rely on the same tile.", "quantifier": "every program, layout, interleaving of attempts and number of operations under way, all three pipelines", "why_tests_cant": "It is about all interleavings of unboundedly many operations that take several slices.", "anchors": ["src/patches/dense_patch_computation.cpp: try_apply_instruction_direct_followup, advance_slice, run_through_dense_slices_dag, run_through_dense_slices_wave", "src/patches/dense_slice.cpp: is_cell_free, magic_states"]}
{"id": "C61", "title": "The printed dependency graph shows the program", "statement": "The graph that --printdag prints has one node for each instruction (or gate) read, numbered in program order and labelled with its text as a DOT label must be written, one arrow from an earlier to a later one for each pair of which the later has to wait for the earlier, and nothing else.", "quantifier": "every program of instructions or gates, of any length", "why_tests_cant": "Which pairs are joined, and what the label of an instruction becomes, has to be right for all programs of all lengths and all texts.", "anchors": ["src/dag/directed_graph.cpp: to_graphviz", "include/lsqecc/dag/dependency_dag.hpp: to_graphviz, push_instruction_based_on_commutation", "include/lstk/lstk.hpp: str_replace", "src/pipelines/slicer.cpp: run_slicer_program_from_parser"]}
{"id": "C62", "title": "Both kinds of slice answer alike", "statement": "A sparse slice and a dense slice that describe the same patches on the same lattice give the same answers through the common Slice interface (which patches there are, on which tile, which tiles are free, neighbours, boundaries, deletion) and are written as the same JSON; slices that compare equal are interchangeable.", "quantifier": "every layout, every dense slice in which no id is on two tiles and every sparse slice listing its patches; every id and tile asked for", "why_tests_cant": "The routing and JSON code is generic over the slice interface; that two representations never answer differently is a statement about all their states and all queries, not about the few a test builds.", "anchors": ["src/patches/sparse_slice.cpp: SparseSlice::has_patch, get_cell_by_id, is_cell_free, have_boundary_of_type_with, is_boundary_reserved, delete_qubit_patch", "include/lsqecc/patches/sparse_slice.hpp: operator==", "src/patches/dense_slice.cpp", "src/patches/slices_to_json.cpp: slice_to_json(SparseSlice)"]}
{"id": "C63", "title": "Compilation comes to an end", "statement": "Compiling any program of instructions for any layout ends after finitely many steps, with a result or an error, whatever the pipeline, the router, the time limit and the wait limits of the instructions; no search for a route, no chain of boundary corrections and no attempt at an instruction goes on for ever.", "quantifier": "every layout, every starting slice, every program of any length, the stream, DAG and wave pipelines, every router and every order in which its queue is served", "why_tests_cant": "A test that ends says nothing about the next program, and a test that does not end cannot be told from a slow one; the loops' only limits are waits of up to 2^64-1 attempts, out of reach of any run.", "anchors": ["src/patches/dense_patch_computation.cpp: run_through_dense_slices_streamed, run_through_dense_slices_dag, try_apply_instruction_direct_followup", "src/scheduler/wave_scheduler.cpp: schedule_wave, schedule_instructions", "src/layout/graph_search/custom_graph_search.cpp: graph_search_route_ancilla", "src/layout/graph_search/boost_based_graph_search.cpp: graph_search_route_ancilla", "src/pipelines/slicer.cpp: run_slicer_program_from_parser"]}
{"id": "C64", "title": "The order in which instructions are applied makes no difference", "statement": "The DAG and wave pipelines apply instructions in another order than the program gives; for anything that instructions do, the result is the one of carrying out the program in its own order, and so the same for all pipelines and layouts. What is announced as applied can be attributed to the instructions of the program such that each is carried out once, and what happens to any one patch happens in the order of the program.", "quantifier": "every program, layout, start, router and pipeline, every run to its end, and every meaning of instructions under which those that work on no common patch may be exchanged", "why_tests_cant": "Tests compare a few outputs; which of the exponentially many orders occurs depends on the layout, the router and the timing of factories, and the claim is about every meaning the instructions may have.", "anchors": ["src/patches/dense_patch_computation.cpp: run_through_dense_slices_streamed, run_through_dense_slices_dag, run_through_dense_slices_wave, try_apply_instruction_direct_followup", "src/scheduler/wave_scheduler.cpp: schedule_wave", "include/lsqecc/ls_instructions/ls_instructions.hpp: get_operating_patches, LSInstruction commutation", "src/ls_instructions/ls_instructions.cpp: get_operating_patches"]}
{"id": "C65", "title": "A compiled Clifford circuit does to the encoded qubits what the circuit says", "statement": "Whichever passes turn a circuit of Clifford gates into instructions, and whichever pipeline applies these, in whatever order: what is done to the encoded qubits is, up to Pauli operators, what the gates of the circuit do one after the other, and the helper patches end up holding nothing.", "quantifier": "every circuit of X, Y, Z, H, S, S-dagger, RZ(pi), RZ(pi/2), CNOT and CZ gates of any length on any number of qubits, every configuration of passes, every stabiliser state of the qubits and of any outside system entangled with them, every layout, router and pipeline, every run to its end", "why_tests_cant": "Tests compare generated instructions with recorded ones; that these implement the circuit is a statement about all circuits and all quantum states, and about all orders in which a pipeline may apply them.", "anchors": ["src/ls_instructions/ls_instructions_from_gates.cpp: make_cnot_instructions", "src/ls_instructions/ls_instruction_stream.cpp: LSInstructionStreamFromGateStream::get_next_instruction", "src/ls_instructions/teleported_s_gate_injection_stream.cpp", "src/ls_instructions/catalytic_s_gate_injection_stream.cpp", "src/ls_instructions/boundary_rotation_injection_stream.cpp", "src/patches/dense_patch_computation.cpp: run_through_dense_slices"]}
{"id": "C66", "title": "An encoded qubit stays on its tile, and only Hadamard gates and rotations turn its edges", "statement": "In every slice, each qubit of the circuit is on the tile of the layout it was given and on no other, and its rough and smooth edges lie on opposite sides as the Hadamard gates and rotations applied to it so far have left them (each one swaps rough and smooth). While a rotation of it is under way, its tile is taken up by the rotation. When crossing routes (EDPC) mark edges with labels, the edges have their types back once the marks of the wave are undone.", "quantifier": "every layout, list of qubits and program that does not prepare, measure or request them anew, in particular every compiled circuit; every pipeline without EDPC, router, time and wait limit; every slice of every run, however it ends; for marks, every sequence of CNOT attempts of a wave", "why_tests_cant": "Whether a merge finds the edge it needs depends on the whole history of gates, rotations, merges, corrections and distillation on and around the tile; tests look at single operations and at recorded slices of a few circuits.", "anchors": ["src/patches/dense_patch_computation.cpp: try_apply_local_instruction, try_apply_instruction_direct_followup, mark_routing_region, mark_boundaries_for_crossing_cell, advance_slice", "src/patches/dense_slice.cpp", "src/patches/patches.cpp: CellBoundaries::instant_rotate", "src/scheduler/wave_scheduler.cpp: schedule_wave"]}
{"id": "C67", "title": "A compiled circuit with T gates does to every state what the circuit says", "statement": "Carrying out the instructions that a circuit of Clifford and T gates is turned into does to the encoded qubits, on every state and for every outcome of the measurements, what the gates do one after the other, up to Pauli operators that follow from the outcomes. The instructions say all that is needed for this: in particular T and its inverse are told apart, and an S that corrects a T comes after the measurement it depends on.", "quantifier": "every circuit of X, Y, Z, H, S, T, inverses of S and T, RZ(pi/1, pi/2, pi/4), CNOT and CZ gates of any length on any number of qubits, CNOTs from Bell pairs; every state (amplitudes, not only stabiliser states), every sequence of outcomes", "why_tests_cant": "A test compares instructions with recorded ones and has no notion of a state; that the T gadgets and their corrections compose to the circuit is a statement over all states and all exponentially many outcome sequences.", "anchors": ["src/ls_instructions/ls_instructions_from_gates.cpp: make_t_gate_instructions, make_cnot_instructions", "src/ls_instructions/ls_instruction_stream.cpp: LSInstructionStreamFromGateStream::get_next_instruction"]}
{"id": "C68", "title": "A circuit is compiled to its end on the layout generated for it", "statement": "A circuit that the tool accepts is compiled to its end on the layout that the tool generates for it: every instruction it is turned into finds its place, its route and its magic state after waiting long enough, and the run does not end with an error because an instruction could not be applied.", "quantifier": "every circuit of any length on any number of qubits, every generated layout, the stream, DAG and wave pipelines, every time limit", "why_tests_cant": "Whether an instruction can ever be applied depends on everything the factories and the earlier instructions have put on the lattice since the start; a run that waits for ever looks like a slow one, and the wait limit of 2^64-1 attempts is never reached.", "anchors": ["src/patches/dense_patch_computation.cpp: advance_slice, try_apply_instruction_direct_followup, run_through_dense_slices_streamed, run_through_dense_slices_dag", "src/scheduler/wave_scheduler.cpp: WaveScheduler::schedule_wave", "src/layout/dynamic_layouts/compact_layout.cpp: make_compact_layout"]}
{"id": "C69", "title": "Programs of single qubit gates and measurements always compile", "statement": "A program of Pauli gates, Hadamard gates and single qubit measurements, in which no qubit is used after its measurement, is compiled to its end: no instruction is refused until its wait is used up, each instruction is applied exactly once, and the run shows at most one slice more than there are instructions. A circuit of such gates read from QASM is compiled to its end on the compact layout generated for it, of whatever size. With rotations of patches as well, which take three slices, the same holds on the stream pipeline wherever every qubit tile has an open neighbour that no factory delivers to; so a circuit of such gates, whose Hadamard gates are each followed by a rotation there, is compiled to its end on the generated EDPC layout with at least one lane, in at most four slices for a Hadamard gate and one for another gate.", "quantifier": "every such program of any length, every layout with a tile for each of its qubits, with and without factories, the stream, DAG and wave pipelines, with and without EDPC; every such circuit on any number of qubits on both kinds of compact layouts and on layouts from files; with rotations every such program and every EDPC layout with at least one lane, condensed or not, with and without explicit factories, on the stream pipeline", "why_tests_cant": "A gate on a qubit that is still busy is refused and tried again; that the qubit is always free one slice later, whatever the other qubits, the factories and the scheduler do in the meantime, and that the scheduler neither loses nor repeats an instruction, are statements about every interleaving.", "anchors": ["src/patches/dense_patch_computation.cpp: try_apply_instruction_direct_followup, advance_slice, run_through_dense_slices_streamed, run_through_dense_slices_dag, run_through_dense_slices_wave", "src/scheduler/wave_scheduler.cpp: WaveScheduler::schedule_wave, WaveScheduler::schedule_instructions", "src/ls_instructions/ls_instructions_from_gates.cpp: LSIinstructionFromGatesGenerator"]}
{"id": "C70", "title": "Programs with joint measurements compile where there is room to route", "statement": "On a layout where every tile for a qubit or an ancilla has an open tile beside it and one above or below it, none of them fed by a factory, and one walks between all of these over such tiles, a program of Pauli and Hadamard gates, rotations, single qubit measurements and joint measurements of the X or Z operators of two different qubits, and where there are tiles for ancillas initialisations of ancillas one at a time, no qubit used after its measurement, is compiled by the stream pipeline, with a router that does not cache routes, to its end: a joint measurement that finds its patches busy or its way blocked finds both free one slice later. Every instruction is applied exactly once and in order, a rotation takes at most four slices and every other instruction at most one. The generated EDPC layouts with at least one lane are such layouts, with and without explicit factories. In particular every circuit of Pauli, Hadamard, CNOT and CZ gates whose ancillas go to tiles for ancillas, on such a layout with a tile for ancillas, is compiled to its end, with and without corrections, in at most one slice for a Pauli or Hadamard gate and eight for a CNOT or CZ gate.", "quantifier": "every such program of any length on any number of qubits, every such layout, every order in which the search takes up tiles of equal distance or any other, with and without operation ids; every EDPC layout of any size with at least one lane, condensed or not, with and without explicit factories; every circuit of such gates of any length on any number of qubits the layout has tiles for", "why_tests_cant": "Whether a joint measurement gets its route depends on everything that is still going on in the slice: routes of other measurements, rotations that occupy neighbouring tiles, patches that are still merged, and the orientation each patch has after the gates before. That a slice later all of it is gone, for every program, layout and order of the search, is an invariant of the run and a completeness statement about the search.", "anchors": ["src/patches/dense_patch_computation.cpp: try_apply_instruction_direct_followup, merge_patches, stitch_boundaries, mark_routing_region, advance_slice, run_through_dense_slices_streamed", "src/layout/router.cpp: find_routing_ancilla", "src/layout/dynamic_layouts/edpc_layout.cpp: make_edpc_layout", "src/ls_instructions/ls_instructions_from_gates.cpp: make_cnot", "src/ls_instructions/ls_instruction_stream.cpp: LSInstructionStreamFromGateStream"]}
