{
 "claims": [
  {
   "property": "C01",
   "status": "proved",
   "theorems": [
    "C01_fields_have_no_delimiter",
    "C01_split_then_join",
    "C01_number_of_fields",
    "C01_join_then_split",
    "C01_split_on_first"
   ],
   "note": "split_on / join / split_on_first, all texts and delimiters."
  },
  {
   "property": "C02",
   "status": "partial",
   "theorems": [
    "C02_str_replace_partial",
    "C02_str_replace_drops_tail",
    "C02_refuted"
   ],
   "note": "False as stated (C02_refuted): the text after the last occurrence is dropped. C02_str_replace_partial says exactly when the result is right."
  },
  {
   "property": "C03",
   "status": "proved",
   "theorems": [
    "C03_cnot_type_names",
    "C03_placement_names",
    "C03_documented_names",
    "C03_pauli_names",
    "C03_pauli_rejects"
   ],
   "note": "Pauli names, CNOT types and placements."
  },
  {
   "property": "C04",
   "status": "partial",
   "theorems": [
    "C04_round_trip_partial",
    "C04_refuted_pauli",
    "C04_refuted_dagger",
    "C04_refuted_negative",
    "C04_refuted_reset",
    "C04_refuted_declare",
    "C04_refuted_big_id",
    "C04_refuted_negative_multi"
   ],
   "note": "False as stated: Pauli gates, S-dagger, negative measurements, resets, non-empty declarations and ids >= 2^31 do not come back. C04_round_trip_partial is the exact set of instructions that do."
  },
  {
   "property": "C05",
   "status": "partial",
   "theorems": [
    "C05_no_undefined_behaviour_partial",
    "C05_refuted"
   ],
   "note": "False as stated for BellPairInit with fewer than two locations (C05_refuted, undefined behaviour); C05_no_undefined_behaviour_partial covers every line and says this is the only case."
  },
  {
   "property": "C06",
   "status": "proved",
   "theorems": [
    "C06_numeric_opcodes"
   ],
   "note": "All eleven opcodes, any argument text."
  },
  {
   "property": "C07",
   "status": "partial",
   "theorems": [
    "C07_single_qubit",
    "C07_controlled",
    "C07_controlled_rotation",
    "C07_reset",
    "C07_rotation_partial",
    "C07_refuted_rotation",
    "C07_refuted_large_index",
    "C07_huge_index_rejected",
    "C07_print_parse_basic",
    "C07_print_parse_controlled_partial",
    "C07_refuted_print_rotation",
    "C07_refuted_print_cnot_type"
   ],
   "note": "Gate lines in the written grammar, for every index below 2^32 and any register name, spacing and trailing comment. False parts: rz(2k*pi) becomes Z (C07_refuted_rotation), indices between 2^32 and 2^63 are reduced modulo 2^32 (C07_refuted_large_index), printed rotations do not parse and printed CNOT types are lost."
  },
  {
   "property": "C08",
   "status": "partial",
   "theorems": [
    "C08_complete_in_order",
    "C08_lines",
    "C08_unsupported_line_rejected",
    "C08_second_register_rejected",
    "C08_refuted_blank_line",
    "C08_refuted_rotation_operands",
    "C08_undefined_only_partial"
   ],
   "note": "Complete characterisation of the files that read. False parts: a white-space-only line and rotation lines without operands are undefined behaviour; C08_undefined_only_partial says these are the only such lines."
  },
  {
   "property": "C09",
   "status": "partial",
   "theorems": [
    "C09_decomposition_partial",
    "C09_no_rotation_left",
    "C09_others_unchanged",
    "C09_refuted_empty_expansion",
    "C09_without_gridsynth"
   ],
   "note": "For every gate list and every synthesiser. False part: an empty expansion pops an empty queue (C09_refuted_empty_expansion)."
  },
  {
   "property": "C10",
   "status": "partial",
   "theorems": [
    "C10_phase_partial",
    "C10_refuted_sign"
   ],
   "note": "Assumes the synthesiser is exact on single rotations. Right for every angle without the sign flag (C10_phase_partial); with the flag the phase has the wrong sign (C10_refuted_sign)."
  },
  {
   "property": "C11",
   "status": "partial",
   "theorems": [
    "C11_ids_are_the_counter",
    "C11_fresh_partial",
    "C11_start_above_declared",
    "C11_wrap_refuted",
    "C11_lli_start_refuted"
   ],
   "note": "All circuits, all four pipelines (plain, compact, EDPC, catalytic): created ids are exactly the counter values used (C11_ids_are_the_counter, no bound). Distinctness needs fewer than 2^32 ids: with 2^32 T gates a helper is given id 0 (C11_wrap_refuted). For LLI input the counter start dereferences an end iterator for every layout (C11_lli_start_refuted)."
  },
  {
   "property": "C12",
   "status": "partial",
   "theorems": [
    "C12_measured_cnot_refuted",
    "C12_measured_cz_refuted",
    "C12_bell_cnot_partial",
    "C12_repaired_partial"
   ],
   "note": "False for the measurement based CNOT and CZ in both orders, with and without corrections: they measure X (Z) of the target (C12_measured_*_refuted, all qubits, all states). C12_repaired_partial gives sequences that would be right. The Bell based CNOT is right at the level of one instruction; C53 is about the steps it is made of."
  },
  {
   "property": "C13",
   "status": "partial",
   "theorems": [
    "C13_helper_lives_partial",
    "C13_only_helpers_partial"
   ],
   "note": "All circuits and pipelines while the 32 bit counter has not run out (same limit as C11)."
  },
  {
   "property": "C14",
   "status": "proved",
   "theorems": [
    "C14_in_order",
    "C14_every_circuit_has_one_result",
    "C14_frame",
    "C14_all_qubits",
    "C14_single_qubit_gates",
    "C14_supported",
    "C14_pipelines_total"
   ],
   "note": "Lowering is a homomorphism, has exactly one result, touches only the gate's qubits and new ids, fails exactly on unsupported gates; all pipelines total on supported circuits."
  },
  {
   "property": "C15",
   "status": "proved",
   "theorems": [
    "C15_no_S_left",
    "C15_in_order",
    "C15_others_unchanged",
    "C15_replacement_frame"
   ],
   "note": "Any source stream, both passes."
  },
  {
   "property": "C16",
   "status": "partial",
   "theorems": [
    "C16_teleported_s_partial",
    "C16_catalytic_s_partial",
    "C16_catalytic_measured_refuted"
   ],
   "note": "Teleported S, and catalytic S with Bell based CNOTs: right on every state up to Paulis (helper id below 2^32). Catalytic S with measured CNOTs is the identity and returns a zero state (C16_catalytic_measured_refuted)."
  },
  {
   "property": "C17",
   "status": "partial",
   "theorems": [
    "C17_start",
    "C17_compact_start",
    "C17_compact_run",
    "C17_reachable_partial",
    "C17_compact_pipeline",
    "C17_no_side_refuted",
    "C17_Y_measurement_refuted",
    "C17_source_rotation_refuted",
    "C17_self_cnot_refuted",
    "C17_client_refuted"
   ],
   "note": "False for patches with no exposed side, Y measurements, rotations in the source, self-CNOTs and unmeasured clients (refuted); C17_reachable_partial covers the rest and C17_compact_pipeline every circuit of the compact pipeline. The starting orientations are what the first slice shows: on every layout, for every declared qubit, Z is recorded as exposed exactly if a tile above or below is free, X exactly if one to the left or right is (C17_start). On every compact layout all qubits expose Z (C17_compact_start), so the assumptions on the start hold for every circuit compiled with the compact layouts of the command line (C17_compact_run)."
  },
  {
   "property": "C18",
   "status": "partial",
   "theorems": [
    "C18_gates",
    "C18_gates_symmetric",
    "C18_commuting_share_no_patch_partial",
    "C18_symmetric",
    "C18_disjoint_commute",
    "C18_refuted"
   ],
   "note": "False as stated for requests/initialisations read from LLI text whose proximity patch is not a client (C18_refuted); holds when the proximity patch is a client. For gates: reorderable exactly when the only shared qubit, if any, controls both (C18_gates)."
  },
  {
   "property": "C19",
   "status": "partial",
   "theorems": [
    "C19_consistent",
    "C19_effects",
    "C19_outcomes",
    "C19_absent_edge_refuted"
   ],
   "note": "Any history of the five editing operations; the exact outcome of every operation. Refuted: removing an edge that is absent between existing nodes erases end(), undefined behaviour. The erase-while-iterating of remove_node is followed through libstdc++'s deque."
  },
  {
   "property": "C20",
   "status": "proved",
   "theorems": [
    "C20_order",
    "C20_total",
    "C20_programs"
   ],
   "note": "Made graphs; also total on cyclic ones (nodes reachable from heads). Graphs of programs are acyclic at any time."
  },
  {
   "property": "C21",
   "status": "proved",
   "theorems": [
    "C21_simulation",
    "C21_order",
    "C21_once",
    "C21_progress",
    "C21_complete",
    "C21_lli_builds",
    "C21_gate_reset_refuted"
   ],
   "note": "Any commutation predicate, any program that has a graph (all LLI programs do, C21_lli_builds), any scheduling choice, any follow-ups: simulation by a graph-free dependency machine. Beyond the statement: gate circuits with a reset have no graph, its construction throws (C21_gate_reset_refuted)."
  },
  {
   "property": "C22",
   "status": "proved",
   "theorems": [
    "C22_expand",
    "C22_acyclic",
    "C22_followups"
   ],
   "note": "Reachability before and after expand, and the scheduler-level view."
  },
  {
   "property": "C23",
   "status": "partial",
   "theorems": [
    "C23_accepted",
    "C23_cells",
    "C23_rotated_tiles_refuted"
   ],
   "note": "Acceptance and every query characterised for all texts. Refuted part: 'T' and 'D' tiles are accepted but answered by no query, so a declared rotated qubit tile is silently a free tile."
  },
  {
   "property": "C24",
   "status": "proved",
   "theorems": [
    "C24_regions",
    "C24_drawn"
   ],
   "note": "Regions are the classes of cells connected through the same digit; touching factories with different digits are separate regions."
  },
  {
   "property": "C25",
   "status": "proved",
   "theorems": [
    "C25_compact"
   ],
   "note": "For all qubit counts and both variants; ceil(n/2.0) is taken as exact (n below 2^53)."
  },
  {
   "property": "C26",
   "status": "proved",
   "theorems": [
    "C26_layout",
    "C26_lanes",
    "C26_reach",
    "C26_no_lanes_refuted"
   ],
   "note": "For all qubit counts, lane counts and options whose side fits 31 bits: the size, exactly n qubit tiles, all other core tiles open, a source of magic states, the lanes between rows and columns, and a walk over open tiles between any two qubits if there is a lane. Beyond the statement: without lanes a qubit can be shut in (C26_no_lanes_refuted). sqrt and ceil are taken as exact."
  },
  {
   "property": "C27",
   "status": "proved",
   "theorems": [
    "C27_every_text_layout",
    "C27_first_slice",
    "C27_once_each",
    "C27_too_few"
   ],
   "note": "For every layout read from a text (and hence the generated ones) and every list of ids."
  },
  {
   "property": "C28",
   "status": "partial",
   "theorems": [
    "C28_instruction",
    "C28_circuit",
    "C28_run",
    "C28_step",
    "C28_refuted",
    "C28_stream"
   ],
   "note": "Inductive steps for every instruction (C28_instruction, C28_step with what remains to be done); whole runs of stream compilation for every number of turns (C28_stream) and of all three loops - stream, DAG and wave, the last also with crossing routes (EDPC) - (C28_run) when the ids brought in are new; for every circuit lowered by the gate compiler the condition is met, so no id is on two tiles in any emitted slice (C28_circuit, from gates to slices, any layout, router and pass list). C28_refuted shows the condition is needed for hand-written instruction files (no check is made)."
  },
  {
   "property": "C29",
   "status": "proved",
   "theorems": [
    "C29_route",
    "C29_free_and_ends",
    "C29_crossing",
    "C29_outcome"
   ],
   "note": "For the custom search (plain and A*, ordinary and crossing/EDPC routes, also from a patch to itself), for every order in which the queue may yield vertices. The Boost based search is C58. Vertex numbers are unbounded here (size_t computed in int32_t in the code)."
  },
  {
   "property": "C30",
   "status": "proved",
   "theorems": [
    "C30_complete",
    "C30_shortest",
    "C30_search"
   ],
   "note": "Completeness for every queue order, hence also for A*; optimality for the plain search, whose queue yields a vertex of least distance (C30_shortest takes that as hypothesis on the queue, C30_search instantiates it). Optimality of A* is not claimed: its heuristic is floating point."
  },
  {
   "property": "C31",
   "status": "partial",
   "theorems": [
    "C31_some_slice",
    "C31_valid_partial",
    "C31_refuted"
   ],
   "note": "False as stated: C31_refuted gives two requests after which a route over an occupied tile is returned. What holds: C31_some_slice (a route for an earlier slice with the same endpoints) and C31_valid_partial (valid if its tiles are still free and the endpoints unturned)."
  },
  {
   "property": "C32",
   "status": "partial",
   "theorems": [
    "C32_unchanged_partial",
    "C32_busy_traces",
    "C32_crossing_traces",
    "C32_refuted"
   ],
   "note": "All instructions, slices and environments. False for a busy region with no steps left (C32_busy_traces says exactly what it leaves) and for an EDPC Bell CNOT whose later phases cannot start (C32_crossing_traces); every other refused instruction leaves slice, op-id counter and route cache alone (C32_unchanged_partial). C32_refuted has concrete cases of both."
  },
  {
   "property": "C33",
   "status": "proved",
   "theorems": [
    "C33_effect",
    "C33_timers",
    "C33_others"
   ],
   "note": "C33_effect is the exact effect of every applied instruction, C33_others the tiles it may touch, C33_timers the distillation clocks. All instructions and slices."
  },
  {
   "property": "C34",
   "status": "proved",
   "theorems": [
    "C34_survivors",
    "C34_vacated",
    "C34_reserved",
    "C34_ids"
   ],
   "note": "For every slice of the right dimensions. The clause that rotations and factories continue is the preserved activity and type in same_patch_later; periodic factory behaviour is C36."
  },
  {
   "property": "C35",
   "status": "partial",
   "theorems": [
    "C35_run",
    "C35_compiled",
    "C35_rotation_refuted",
    "C35_advance",
    "C35_start",
    "C35_instruction",
    "C35_request"
   ],
   "note": "Whole runs of all three pipelines without EDPC: in every slice emitted each listed tile holds an unbound prepared state (C35_run, C35_compiled from the first slice of any layout), for programs that rotate no patches where tiles are reserved for magic states and ask for Y states only where local operations cannot put patches on their tiles. The first exclusion is needed: a patch on a reserved tile that is rotated is overwritten by a new magic state, and then taken for one (C35_rotation_refuted). Also start and advance (SliceProps), every instruction (C35_instruction) and requests (C35_request). The second is the one C60_ystate_refuted shows to be needed for the argument. Not covered: EDPC."
  },
  {
   "property": "C36",
   "status": "partial",
   "theorems": [
    "C36_factories",
    "C36_reserved",
    "C36_reserved_start",
    "C36_refuted_zero"
   ],
   "note": "For all T>0 below 2^32 and all times, over histories whose instructions leave timers (and distilling reserved tiles) alone. For T=0, which the command line accepts, the counter wraps and nothing is delivered: C36_refuted_zero."
  },
  {
   "property": "C37",
   "status": "partial",
   "theorems": [
    "C37_dag_refuted",
    "C37_rotation",
    "C37_exchanged"
   ],
   "note": "Every slice, patch and free neighbour; what else happens in the meantime is arbitrary (stream and any other order with one attempt per slice). The label and operation number of the patch are lost. In the DAG pipeline a rotation is over after two slices (C37_dag_refuted)."
  },
  {
   "property": "C38",
   "status": "proved",
   "theorems": [
    "C38_finished",
    "C38_runs",
    "C38_any_time",
    "C38_stops",
    "C38_gives_up"
   ],
   "note": "Every program, environment without EDPC deferral, start and number of turns: a run that finishes carried out the program in order (C38_finished), every run that can be carried out in order is what the loop does (C38_runs), every moment of a run (C38_any_time), how it stops (C38_stops) and that the used-up limit stops it (C38_gives_up)."
  },
  {
   "property": "C39",
   "status": "partial",
   "theorems": [
    "C39_dag",
    "C39_dag_refuted",
    "C39_stream",
    "C39_stream_refuted",
    "C39_wave",
    "C39_wave_refuted"
   ],
   "note": "Stream: instructions read = reported (C39_stream), slices emitted = reported + refused attempts; so the reported slice count is wrong whenever an instruction had to wait (C39_stream_refuted). DAG: slices reported = emitted + 1, instructions reported = successful attempts including follow-ups (C39_dag, C39_dag_refuted). Wave, with EDPC too: as DAG (C39_wave, C39_wave_refuted)."
  },
  {
   "property": "C40",
   "status": "proved",
   "theorems": [
    "C40_runs",
    "C40_finished",
    "C40_gives_up"
   ],
   "note": "Every program, start, environment and number of turns: every run is an order that respects the dependencies (C40_runs with kept_order and the life of each instruction), a finished run carried out all (C40_finished), an instruction refused in 101 consecutive slices ends the run (C40_gives_up)."
  },
  {
   "property": "C41",
   "status": "partial",
   "theorems": [
    "C41_lost_refuted",
    "C41_runs",
    "C41_ends",
    "C41_finished",
    "C41_attempted",
    "C41_no_move",
    "C41_dangling_refuted"
   ],
   "note": "Wave compilation with and without crossing routes (EDPC), every program (client lists are sets, at most 255 patches per instruction: the counters are bytes), start, environment and number of slices: every run is an order that respects the dependencies (C41_runs), a finished run carried out all exactly once (C41_finished, without EDPC; with EDPC C41_ends: or one that had found a route was refused afterwards and dropped, which happens: C41_lost_refuted), every instruction whose turn has come is attempted in every slice (C41_attempted). The scheduler can read a reference into its list of instructions after that list has moved (C41_dangling_refuted); that is its only undefined behaviour (C41_no_move). With EDPC the instructions of the program must not be cut up already, as none is that is read from a file (uncut); C41_ex_edpc is such a run."
  },
  {
   "property": "C42",
   "status": "partial",
   "theorems": [
    "C42_dag",
    "C42_dag_refuted",
    "C42_stream",
    "C42_stream_gives_up",
    "C42_started_refuted",
    "C42_wave",
    "C42_wave_refuted"
   ],
   "note": "Stream: a refused instruction is tried again exactly as long as its limit allows (C42_stream, C42_stream_gives_up). Operations that reschedule themselves do not use up their limit and can go on for ever (C42_started_refuted). DAG: never more than 100 refusals in a row (C42_dag) but the limits of the instructions are ignored (C42_dag_refuted). Wave: at most limit + 1 refusals before the first acceptance (C42_wave); the one more occurs (C42_wave_refuted)."
  },
  {
   "property": "C43",
   "status": "partial",
   "theorems": [
    "C43_slices",
    "C43_finished",
    "C43_stream",
    "C43_empty_refuted",
    "C43_failed",
    "C43_graceful",
    "C43_graceful_refuted",
    "C43_layouts"
   ],
   "note": "Every pipeline, EDPC included: a finished run that emitted a slice writes a JSON array with one element per slice (stream runs always do); a failed one never does, except with --graceful and a separate stream. Refuted: DAG and wave runs of an empty program write a single closing bracket; --graceful on the standard output puts the message into the array."
  },
  {
   "property": "C44",
   "status": "partial",
   "theorems": [
    "C44_keys",
    "C44_put",
    "C44_shows",
    "C44_faithful",
    "C44_complete",
    "C44_refuted"
   ],
   "note": "The picture is a grid of the layout's size and determines occupancy, edges, kinds, operations, shown activities, timers and (off the first tiles of factories) ids; and nothing more. Refuted as 'exactly the patch': dead tiles and routes, magic states and busy factories, and labels cannot be told apart. C44_keys: the keys of every object are in order, each once, for every slice; C44_put: for any keys."
  },
  {
   "property": "C45",
   "status": "partial",
   "theorems": [
    "C45_slice",
    "C45_run",
    "C45_overflow_refuted"
   ],
   "note": "For slices and for the totals of every run, EDPC included. Refuted for layouts with 2^31 or more tiles (int overflow). Percentages (doubles) are not modelled."
  },
  {
   "property": "C46",
   "status": "proved",
   "theorems": [
    "C46_neighbours",
    "C46_neighbours_distinct",
    "C46_unbounded_neighbours",
    "C46_neighbours_symmetric",
    "C46_directional",
    "C46_directional_back",
    "C46_facing_sides",
    "C46_boundary_iff_adjacent",
    "C46_rotation_moves_sides",
    "C46_four_rotations",
    "C46_opposites"
   ],
   "note": "Neighbourhood, directions, facing sides, rotations, for all cells and boxes."
  },
  {
   "property": "C47",
   "status": "proved",
   "theorems": [
    "C47_compiled",
    "C47_adjacent",
    "C47_range",
    "C47_range_refuted",
    "C47_runs",
    "C47_bell_pair",
    "C47_cnot"
   ],
   "note": "All routes, segments, lengths, directions and the four operations: what is compiled (C47_compiled, C47_adjacent), that the two layers run in consecutive slices and what they leave (C47_runs), and the Bell pair and (non-crossing) CNOT instructions from routing to the final slice (C47_bell_pair, C47_cnot). Side finding: a segment ending one past the route passes the range check and reads out of bounds (C47_range_refuted); no caller does this."
  },
  {
   "property": "C48",
   "status": "partial",
   "theorems": [
    "C48_start",
    "C48_advance",
    "C48_instruction",
    "C48_returned",
    "C48_refuted",
    "C48_run",
    "C48_compiled",
    "C48_twists_refuted"
   ],
   "note": "Start, advance and every instruction keep the count equal to the number of unbound Y tiles when Y requests name Y states and no bound Y state is measured. C48_run: in every slice a run of any pipeline emits (no EDPC, no twists), each Y tile holds a Y state, free or bound, or one in rotation, Y ids are on no other tile, and the count is the number of free ones; C48_compiled: this holds for every circuit compiled with catalytic S gates (--notwists) and run from the first slice. C48_refuted: without the restrictions a qubit is counted as a Y state, and a measured Y state makes the next request read an empty tile; C48_twists_refuted: with twists a returned Y state is counted though it is on no Y tile."
  },
  {
   "property": "C49",
   "status": "partial",
   "theorems": [
    "C49_dense_sparse_partial",
    "C49_type_activity_id_bounds_kept",
    "C49_sparse_dense",
    "C49_cells_partial",
    "C49_refuted_label",
    "C49_refuted_cells"
   ],
   "note": "False as stated: label and operation id are dropped, and a multi-tile patch lists extra (0,0) tiles; exact conditions proved."
  },
  {
   "property": "C50",
   "status": "partial",
   "theorems": [
    "C50_notwists_refuted",
    "C50_search",
    "C50_environment",
    "C50_only_known_values",
    "C50_meaning",
    "C50_layout",
    "C50_circuit",
    "C50_unknown_rejected",
    "C50_late_rejected",
    "C50_accepted",
    "C50_noprogress_refuted",
    "C50_file_emptied_refuted",
    "C50_corrections_refuted",
    "C50_printdag_refuted",
    "C50_layout_file_ignored_refuted",
    "C50_edpc_throws_refuted",
    "C50_edpc_router_refuted"
   ],
   "note": "Model of the command line from the first check to the call of the compiler; the job it starts is the one asked for in every part (C50_meaning, C50_layout, C50_circuit), routes are looked for as asked (C50_search). False for 'noprogress' (misspelt in the code), for output files (emptied before the other options are looked at), for options not looked at on some paths and for --notwists with a layout file (refuted); otherwise exactly the documented values are taken."
  },
  {
   "property": "C51",
   "status": "partial",
   "theorems": [
    "C51_outside_register_refuted",
    "C51_self_control_refuted"
   ],
   "note": "False: `x q[1]` on a one-qubit register is accepted and acts on a magic state; `cx q[0],q[0]` is accepted."
  },
  {
   "property": "C52",
   "status": "partial",
   "theorems": [
    "C52_direct_rotations_partial",
    "C52_sign_refuted"
   ],
   "note": "False with the sign flag (C52_sign_refuted); right without it."
  },
  {
   "property": "C53",
   "status": "partial",
   "theorems": [
    "C53_crossing",
    "C53_crossing_instruction",
    "C53_dropped_run_refuted",
    "C53_dropped_refuted",
    "C53_neighbours_refuted",
    "C53_cnot",
    "C53_straight_refuted",
    "C53_long_range",
    "C53_run",
    "C53_instruction",
    "C53_pair_instruction",
    "C53_after_h_refuted"
   ],
   "note": "The four long-range operations, all lengths and directions, all states (C53_long_range); CNOTs along any route whose two ends are left in different directions (C53_cnot), so for any two patches turned the same way and any route the router finds (C53_run), as carried out by the instructions over two slices (C53_instruction, C53_pair_instruction). False for two patches turned against each other, as after a Hadamard: the same operations measure Z of the control times X of the target (C53_straight_refuted, C53_after_h_refuted). Also for routes that cross others, with any labels and any number of crossings: the two phases compiled segment by segment are a CNOT (C53_crossing), and so is what an instruction has done through all its attempts, whatever happens in between, unless the first layer of the second phase is empty and the second is not: the second phase is then never carried out and what was done is not a CNOT (C53_crossing_instruction). This happens: a program of seven CNOTs compiled for the generated layout of 25 qubits runs to the end with one CNOT reported done whose control was never touched (C53_dropped_run_refuted, C53_dropped_refuted). A CNOT between neighbours one of which was turned by a Hadamard ends compilation with an exception (C53_neighbours_refuted). Signs (corrections) are not modelled."
  },
  {
   "property": "C54",
   "status": "partial",
   "theorems": [
    "C54_no_promotion",
    "C54_second_followup_refuted",
    "C54_expand_again_refuted",
    "C54_single_followup"
   ],
   "note": "Refuted: popping never promotes the next follow-up, and expanding one of several proximate follow-ups is undefined. True for single follow-ups."
  },
  {
   "property": "C55",
   "status": "proved",
   "theorems": [
    "C55_program",
    "C55_two_declarations",
    "C55_file",
    "C55_refuted_second_declaration"
   ],
   "note": "Both readers, for all files. Beyond the statement: the streaming reader accepts a second declaration and hands it to the compiler."
  },
  {
   "property": "C56",
   "status": "proved",
   "theorems": [
    "C56_observables"
   ],
   "note": "For all lists of entries."
  },
  {
   "property": "C57",
   "status": "partial",
   "theorems": [
    "C57_lli",
    "C57_local",
    "C57_no_cell_refuted",
    "C57_refuted"
   ],
   "note": "Proved for LLI input and for local compilation; false for gates compiled with measured CNOTs (C57_refuted: the default placement of ancillas is static and set too late)."
  },
  {
   "property": "C58",
   "status": "partial",
   "theorems": [
    "C58_search",
    "C58_near_partial",
    "C58_refuted_long",
    "C58_refuted_taken",
    "C58_refuted_side",
    "C58_refuted_undefined"
   ],
   "note": "C58_search says exactly what the search answers, for every order of visits. It agrees with the property for routes of at most one tile (C58_near_partial); otherwise the property is false: no route of more than two tiles is ever found, and a free two-tile route is missed (C58_refuted_long), a tile of another qubit is used as a route (C58_refuted_taken), a route may end at a side without the operator (C58_refuted_side), and the search reads outside its tables (C58_refuted_undefined)."
  },
  {
   "property": "C59",
   "status": "partial",
   "theorems": [
    "C59_row",
    "C59_calls_partial",
    "C59_read_partial",
    "C59_gap_refuted",
    "C59_again_refuted",
    "C59_take_refuted",
    "C59_gates_refuted",
    "C59_qubits_refuted"
   ],
   "note": "For tables of rows the reader translates as meant: whatever the calls, what was delivered and what is queued are the gates of the layers passed (C59_calls_partial), and reading to the end gives the gates before the first layer without a gate (C59_read_partial). False otherwise: a layer without gates ends the circuit (C59_gap_refuted), but only until asked again (C59_again_refuted); X, Y and CZ are read as Z, Z and CNOT and powers, measurements and resets are ignored (C59_gates_refuted); gates in layer 0 are skipped and qubits not checked (C59_qubits_refuted); taking a gate that is not there is undefined (C59_take_refuted)."
  },
  {
   "property": "C60",
   "status": "partial",
   "theorems": [
    "C60_undisturbed",
    "C60_stream",
    "C60_ystate_refuted"
   ],
   "note": "In every state the DAG and wave pipelines go through, the tiles that an operation under way relies on (the tiles of a rotation; the tiles a pair or CNOT over a distance still has to work on) hold what it left there, no two operations under way rely on the same tile, and no attempt at another instruction changes them (C60_undisturbed); the same for the one operation under way in the stream pipeline (C60_stream). Without EDPC, and under the two restrictions of C35_run. The one on Y states is needed: with local operations and no twists, the tile of a used-up Y state can serve a Bell pair that is waiting for another tile, and the next request hands that tile out as a Y state, while a Y state elsewhere stays unused (C60_ystate_refuted)."
  },
  {
   "property": "C61",
   "status": "partial",
   "theorems": [
    "C61_lli",
    "C61_placement_refuted",
    "C61_markup_refuted",
    "C61_line_break_refuted",
    "C61_gates",
    "C61_reset_refuted",
    "C61_sign_refuted",
    "C61_graph"
   ],
   "note": "C61_lli: every program whose instructions print and whose labels have nothing special (no placement of an Init, no declaration whose first id stands for a line break, <, > or &): the text is the picture of the program, labels as DOT wants them, arrows exactly the pairs that share a patch worked on. C61_gates: the same for every list of gates without resets, arrows exactly the pairs sharing a qubit that does not just control both. C61_graph: the text of any graph, whatever was done to it, has one line for each node, with the text given for it or bare, one arrow for each edge and nothing else. Partial because the claim is false as stated: the placement of an Init is lost (C61_placement_refuted, which also shows that the rest of the picture is right), characters are not escaped (C61_markup_refuted, C61_line_break_refuted), a reset makes it fail (C61_reset_refuted), opposite rotations look the same (C61_sign_refuted)."
  },
  {
   "property": "C62",
   "status": "partial",
   "theorems": [
    "C62_answers",
    "C62_twin",
    "C62_json",
    "C62_start",
    "C62_delete",
    "C62_tiles_refuted",
    "C62_factory_refuted",
    "C62_cells_refuted",
    "C62_routing_refuted",
    "C62_equal_refuted"
   ],
   "note": "C62_answers: for every dense slice without doubled ids and every sparse slice listing its patches (one tile each), the answers are the same for every id and tile: which ids there are and where, free tiles of the lattice, neighbours, and the sides of the tile of a qubit patch. C62_twin, C62_start: every such dense slice, and the first slice of every compilation, has a sparse one. C62_delete: deleting keeps them alike. C62_json: the same JSON when there are no factories and no routes. False beyond: C62_tiles_refuted (tiles without a qubit patch and tiles outside, searches for routes), C62_factory_refuted (factories are missing from the JSON), C62_cells_refuted (patches of several cells take the origin), C62_routing_refuted (tiles of routes are free), C62_equal_refuted (equality ignores magic states)."
  },
  {
   "property": "C63",
   "status": "partial",
   "theorems": [
    "C63_no_limit",
    "C63_ends",
    "C63_tool",
    "C63_dag",
    "C63_time_limit",
    "C63_links_refuted"
   ],
   "note": "False as stated: C63_links_refuted, a Bell pair whose way is blocked is taken up again in every slice for ever, although its wait limit is 5. C63_ends: every program without operations over a distance (or any program when these are switched off) ends in all three pipelines, for every layout, start, router that comes to an end, time limit and wait limits up to 2^64-1. C63_tool: so does every run of the tool without --local, with any of its routers, cached or not. C63_dag: the DAG pipeline then shows at most 101 slices for each thing to do. C63_time_limit: with a time limit every program ends, operations over a distance included. C63_no_limit: for every program, where the model bounds the steps of a search or chain the bound is never reached (the outcome Fuel does not occur). For the wave pipeline an instruction concerns at most 255 patches and lists no client twice, and with EDPC it has not been cut into locals beforehand."
  },
  {
   "property": "C64",
   "status": "partial",
   "theorems": [
    "C64_accounts",
    "C64_same_effect",
    "C64_pipelines_agree",
    "C64_patch",
    "C64_edpc",
    "C64_near_refuted"
   ],
   "note": "C64_accounts: every finished run of the stream, DAG and wave pipelines accounts for the program (each instruction carried out once, by steps that work on nothing else; those with a common patch one after the other). C64_same_effect: under every meaning, and up to every notion of being the same, for which instructions without a common patch may be exchanged, the order of completion gives the effect of the program, and so do the announced steps taken instruction by instruction; C64_pipelines_agree compares any two runs; C64_patch is the view of one patch. Patches an instruction is only to be near to do not count, and there the order matters: C64_near_refuted, a program that the stream pipeline compiles and the other two do not. With EDPC the same holds unless an instruction is lost (C64_edpc), which happens (C41_lost_refuted)."
  },
  {
   "property": "C65",
   "status": "partial",
   "theorems": [
    "C65_circuit",
    "C65_measured",
    "C65_measured_refuted",
    "C65_run",
    "C65_edpc"
   ],
   "note": "C65_circuit: with Bell based CNOTs, for every Clifford circuit and each of the pass pipelines (plain, boundary rotations with teleported S, teleported S, catalytic S) the instructions act on every stabiliser state as the circuit, signs (Pauli corrections) left out. C65_run: so do they in the order in which the stream, DAG or wave pipeline finishes them; C65_edpc: with EDPC too, unless an instruction is lost (C41). Without Bell pairs it is false: C65_measured says what is done instead (each CNOT and CZ measures its target), C65_measured_refuted is the Bell pair circuit. Missing: T gates, which are outside the stabiliser formalism (C67 has them); a Bell based CNOT counts as one operation (C53 is about what it is made of)."
  },
  {
   "property": "C66",
   "status": "partial",
   "theorems": [
    "C66_wave",
    "C66_wave_labels",
    "C66_turns",
    "C66_circuit"
   ],
   "note": "C66_turns: from the first slice on, in the stream, DAG and wave pipelines without EDPC, however the run ends, every slice shown has the qubit on its tile and on no other, not measured, its edges turned as often as Hadamard gates were applied to it and rotations of it came to their end before that slice; or the tile is taken up by a rotation. Any layout, any of the routers without EDPC that only use free tiles, programs that leave the qubit be. C66_circuit: compiled circuits do (compiles_leaves), with any passes, as long as the 32 bit counter has not run out. With EDPC, where a route puts a label on the edge it starts from and on the edge it ends at: C66_wave (after any number of CNOTs have marked routes that may cross, giving the marked edges back leaves every patch exactly as it was, and nothing but route tiles is new), C66_wave_labels (meanwhile a patch differs only in labels on such edges, and a labelled side of a route tile faces a labelled side). Missing: runs of the EDPC pipeline as a whole (other instructions between marking and giving back), and helper patches."
  },
  {
   "property": "C67",
   "status": "partial",
   "theorems": [
    "C67_circuit",
    "C67_passes",
    "C67_dagger_refuted",
    "C67_always_refuted",
    "C67_reordered_refuted"
   ],
   "note": "C67_circuit: for every circuit, every commutative group of amplitudes with an eighth root of unity, every state and every outcome, there is a rule (which S to carry out, given the instructions and the outcomes so far) with which the instructions of the gate stream do what the gates say, up to a Pauli operator that depends on the outcomes alone and up to phase and length. C67_passes: so it is after the passes that rotate patches and teleport S gates (compact and EDPC pipelines). The instructions do not say what the rule is: C67_dagger_refuted (T and its inverse are turned into the same instructions, is_dagger is ignored, and no rule is right about both), C67_always_refuted (carrying the S out always, or never, is wrong), C67_reordered_refuted (with Bell based CNOTs the S shares no patch with the measurement it depends on, so the dependency graph lets it come first, and then no rule is right). Missing: the pass that makes S gates with a catalyst (C65 has it for Clifford circuits; its S cannot be left out by the choice of the helper state), resets; a Bell based CNOT counts as one operation (C53)."
  },
  {
   "property": "C68",
   "status": "partial",
   "theorems": [
    "C68_refuted"
   ],
   "note": "False as stated, C68_refuted: for one qubit, h;s four times and then t, read from a QASM file with the default options, the run can only end with an exception, in the stream, the DAG and the wave pipeline and under every time limit. The factory fills its queue, a column of three tiles, before the T gate comes; the magic state handed out is the one at the end of the column, whose Z edges are at the rim of the lattice and at the next magic state; no route leads to it and nothing removes the state in its way. C68_ex: with the t first, or with the EDPC layout, the same gates are compiled by all pipelines. C69 is what holds without routes and magic states. Missing: a positive statement for circuits with CNOT and S gates, and for rotations on the DAG and wave pipelines (C69_rotations, C69_edpc have them on the stream pipeline)."
  },
  {
   "property": "C69",
   "status": "proved",
   "theorems": [
    "C69_dag",
    "C69_edpc",
    "C69_stream",
    "C69_rotations",
    "C69_circuit",
    "C69_compact",
    "C69_wave"
   ],
   "note": "C69_stream, C69_dag, C69_wave: on every well formed layout with a tile for each qubit, with factories or without, and for every environment (EDPC included for the wave pipeline), such a program is compiled to its end; the stream pipeline applies the instructions in order, the other two each exactly once; at most as many slices as instructions (one more for the stream pipeline, which shows the last one). C69_circuit, C69_compact: the same for what the command line reads from QASM, on layouts from files and on the compact layouts of every size, through the lowering and the passes. C69_rotations: with Rotate instructions too, on the stream pipeline, wherever every qubit tile has an open neighbour outside the factory queues; the steps that follow the start of a rotation are left out of the list of applied instructions (filter asked). C69_edpc: so circuits of Pauli and Hadamard gates are compiled on every EDPC layout with a lane. On the DAG and wave pipelines rotations are not covered: two of them may want the same free tile. No time limit (with one, the run may be cut off). The wave pipeline counts dependencies in a byte, hence its bound on the patches of one instruction; waits are 64 bit numbers, at least 1."
  },
  {
   "property": "C70",
   "status": "proved",
   "theorems": [
    "C70_circuit",
    "C70_joint",
    "C70_edpc",
    "C70_cached_refuted"
   ],
   "note": "C70_joint: for every layout_wf layout with `linked` (the tiles walked on are open and outside the factory queues), every environment with the plain router, not EDPC, without local instructions, and every order of the search (valid_pick); the whole program is applied in order (the steps of rotations left out, filter asked) within S (reaches prog) slices. C70_edpc: the EDPC layouts with at least one lane are linked, with and without explicit factories (core_reach, core_quiet). C70_circuit: what circuits of Pauli, H, CNOT and CZ gates (ancillas on ancilla tiles, not Bell based) are lowered to is such a program, so it is compiled to its end. Programs start on the initial slice; Init only without a place next to a qubit and one ancilla at a time; no S, T or BellCNOT instructions; the DAG and wave pipelines are not covered. With the caching router it is false: C70_cached_refuted (a program that the plain router compiles fails with a runtime error)."
  }
 ]
}