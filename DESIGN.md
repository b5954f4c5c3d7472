# Formal model of liblsqecc in Rocq (Coq 8.16.1)

## Approach

The code in `/repo` is read as text and transcribed, function by function, into
small total Gallina functions.  Every definition in a `*Model.v` file cites the
file and lines it models and says where it simplifies.  Files come in layers:

* `XModel.v`   - executable model, no proofs;
* `XSpec.v`    - small independent vocabulary in which the English property is
                 stated (paths, traces, reachability, phases, stabilisers ...);
* `XProofs.v`  - lemmas;
* `XProps.v`   - the property theorems only, each closed by `exact lemma`, with
                 `Print Assumptions` below it and `Example`s showing that the
                 hypotheses are met by a concrete non-trivial case.

Outcomes.  A C++ function that may throw or run into undefined behaviour is
modelled in the outcome type `Ok a | Throw e | UB w`.  `UB` is a separate
outcome: out-of-range unchecked indexing, dereferencing end iterators, reading
past a `string_view`, dangling references.  Loops that are not structurally
recursive run on explicit fuel and return the separate outcome `Fuel` when it
is exhausted; theorems either exclude it or prove it cannot happen (C63_no_limit for
whole runs).

Integers.  Coordinates are `Z` (the code's int32 never overflows for lattices
that fit in memory); ids, wait limits and timers are `N`, with the `mod 2^32`
wrap written explicitly where a property is about it.

Refutations.  Where the faithful model violates the property, the full property
is kept as a definition, a theorem with suffix `_refuted` shows the violation on
a witness, and the strongest true variant is proved (suffix `_partial` if it is
only a part of the property).

## Plan per property

| id | modelled | how it will be proved |
|----|----------|-----------------------|
| C01 | `split_on`, `join`, `split_on_first` on `list ascii` | induction on the text |
| C02 | `str_replace` | refutation by witness; exact characterisation by induction |
| C03 | to/from string of three enums | case analysis + string equality |
| C04 | printer and parser of LLI | decimal round-trip lemma, then per-instruction round-trip; refutations for printed forms the parser rejects |
| C05 | LLI parser with `UB` outcomes | refutation (one-location Bell pair), positive theorem for all other lines |
| C06 | opcode table | case analysis for all argument texts |
| C07 | QASM line parser and printer | decimal round-trip |
| C08 | `GateStreamFromFile` as a look-ahead state machine | simulation against a one-line-at-a-time specification, induction on lines |
| C09 | `DecomposeRotationStream` state machine with abstract rotation expander | simulation: drained output = flat_map |
| C10 | `decompose_CRZ_gate`; phase semantics over rationals mod 2 | algebra; refutation for the sign flag |
| C11 | `IdGenerator`, lowering, `set_start` in the slicer | invariant on the counter; refutation for the LLI path |
| C12 | `make_cnot_instructions`; stabiliser (Heisenberg) semantics as spec | computation generic in the ids; refutation |
| C13 | lowering | trace automaton over emitted history, induction on circuits |
| C14 | lowering stream | simulation with flat_map and counter threading |
| C15 | both S-injection streams | simulation with flat_map |
| C16 | as C15 + stabiliser semantics | computation generic in ids; refutation where wrong |
| C17 | boundary rotation stream | simulation, invariant on tracked orientation against a specification that replays rotations; the starting orientations against the free tiles of the first slice, and from there the compact pipeline of the command line |
| C18 | `get_operating_patches`, `can_commute` | case analysis |
| C19 | `DirectedGraph` with two adjacency maps | invariant by induction over operations |
| C20 | DFS on explicit fuel | invariant of the DFS; completeness from acyclicity |
| C21 | `DependencyDag` | labelled-transition system; induction over schedules |
| C22 | `expand` | reachability preservation |
| C23 | grid parser | induction |
| C24 | flood fill | BFS invariant + completeness |
| C25 | generator of the compact layout | counting lemmas over repeated rows |
| C26 | generator of the EDPC layout | schedule of the visited rows and columns (EdpcShape), an invariant of the tiles through the loops (EdpcProofs), walks along the lanes (EdpcProps) |
| C27 | slice constructor | induction on the tile list |
| C28 | slice operations, instruction application, all three loops, gate compiler | an invariant through `scheduled` runs: ids on the slice, ids still owned by operations under way and ids yet to come are apart (IdsProps); the ids of compiled circuits are new (CircuitProps) |
| C29, C30 | graph search | Dijkstra/BFS invariant; soundness, completeness, optimality against a path predicate |
| C31 | caching router | refutation; positive theorem for unchanged occupancy |
| C32, C33 | instruction application | case analysis on instructions, frame lemmas |
| C34 | `advance_slice` | pointwise characterisation |
| C35, C36 | `advance_slice` + magic state requests | invariants by induction over steps; closed form of the timer |
| C37 | rotation and busy region | symbolic execution over arbitrary slices |
| C38, C39, C42 | stream run loop with an abstract application function | induction over the run |
| C40 | DAG run loop | induction over the run |
| C41, C42 | wave scheduler | invariant linking dependency counters with unapplied predecessors; with EDPC the instructions attempted again within a slice are followed through the two more rounds (WaveDefer) and giving back marked boundaries (MarksModel) is a step of its own (`Mend`) |
| C43 | output framing | induction over emitted slices; refutation for zero slices |
| C44 | JSON grid | pointwise characterisation; the order of the keys (KeysProps) by preservation through every write |
| C45 | volume counts | counting lemma |
| C46 | geometry | case analysis + `lia` |
| C47 | `compile_long_range_Bell` | induction on segment length |
| C48 | `spare`/`y_kept`: what is on the Y state tiles; Y-state bookkeeping | per instruction (StepProps); whole runs (YProps): slice invariant together with what is left of each instruction, where two rotations never go back to the same tile; compiled circuits through C11/C13/C15 |
| C49 | patch conversions | case analysis; refutation for multi-tile patches |
| C50 | option decoding | refutation (`noprogress`), case analysis |
| C51, C52 | lowering of gates | refutation by witness; exact acceptance conditions |
| C53 | what merging, splitting, Bell preparation and measurement of neighbouring patches do to stabiliser groups (BellStabSpec) | steps on disjoint tiles commute, so both layers can be put into an order that passes one patch along; induction over teleportations; crossing routes (BellCross): segments of a phase are on different tiles, each is contracted to one step between its ends, the steps are again such a chain; refutation |
| C54 | `DependencyDag` proximate follow-ups | refutation; single follow-up theorem |
| C55 | LLI readers | induction over the lines, against the parser of one line |
| C56 | observable lists | induction over the entries |
| C57 | the command line with the process state as argument | relation between gates up to placement, simulation of streams; refutation |
| C58 | what the Boost search answers, as a predicate on the sides of the two patches and the tiles between | invariant of the flood (found = reachable, predecessors lead back) for every order of visits; refutations |
| C60 | `needs_of`: tiles the rest of an operation works on before anything is put there | invariant through `scheduled` runs (MagicProps): what is left of each instruction fits the slice, the tiles needed are apart; every accepted attempt touches only free tiles, its own, and those carrying its ids (ClaimsRun) |
| C61 | `picture`: the lines of a DOT file with given labels and arrows; `escaped`: how a label is written; `waits`: sharing a patch worked on | shape of the graph built by the pushes (nodes in order, nothing proximate), its edges from the simulation of C21, then the characters of every instruction's text |
| C62 | `same`: every patch of the sparse slice is on its tile of the dense slice, every taken tile is listed or a factory's | lookup in the lists against the tile; the JSON by what each tile shows (`shows`); a sparse slice for every dense one |
| C63 | `toil`: how often an instruction and its follow-ups can be accepted; `no_links` | every attempt lowers `toil` or the wait limit (EndProofs.try_wears); sums over what is left of the program bound the turns; the wave turn contains an attempt that gets on (WaveProofs.step_ok); refutation |
| C64 | `accounts`: a log that attributes what is announced to the program; `lawful` meanings | follow-ups work on nothing new (OrderProofs.try_follow); schedules and `in_order` give logs; steps of independent instructions are exchanged until the log is in program order (`in_turn`); refutation for patches that are only near |
| C65 | `circuit`: gates as conjugations of Pauli operators (CliffordSpec); `acts_as` of C12 | instructions act on their `support` only, so stabiliser operations are `lawful` (CliffordProofs.act_lawful); each pass `keeps` what a program does (`good`), gate by gate (`lower_good`), and by induction over the circuit (`gates_good`); C64 for the order |
| C66 | `upright`/`lying`, `quarter_turns` counted in the events, `stays` (OrientSpec) | an invariant that depends on the events so far (`runs_trace`, TraceProofs: the same induction as `runs_keep`, over histories), kept by each `effect` of C33, by Bell pairs and by `advance_slice` (C34); compiled circuits by counting ids through the passes (`compiles_own`, OrientCirc); EDPC marks by an invariant over the tiles of a route, the routes of a wave and the marks (`going`, `rested`, `wave_marks`: MarksProofs, MarksWave) |
| C67 | amplitudes of any commutative group with an eighth root of unity, gates and instructions as linear maps on them, `obeys` with a rule for the S, `right` (AmpSpec) | each gate pushes a list of Pauli operators through (`pushes`); the T gadget is a phase that depends on the outcomes (`gadget`); induction over the circuit with the Pauli operators as a function of the outcomes (`realizes`); passes only add rotations and teleport S (`mild`, AmpPass); refutations by comparing two basis states (`phases_differ`) |
| C68 | the whole command line (SlicerModel) and the loops | refutation: a computed prefix of the run leads into ten states that follow each other for ever (`trapped_after`), time limits by `turns_agree` |
| C69 | `usable` programs of single qubit gates and measurements (LiveProps), `easy` circuits (LiveToolProps) | induction over the program with the invariant that every qubit is on one tile and busy for at most the current slice; for the DAG pipeline (LiveDagProps): at the start of each turn nothing left to do is on a busy qubit, and two heads are on different qubits; for the wave pipeline (LiveWaveProps): over the abstract schedule of C41, no qubit of an instruction that may be attempted becomes busy before it is carried out (`keep_idle`), so no head is ever refused, and of the endings of C41 only the last is left; LiveToolProps: the lowering and the compact passes leave such circuits as they are, so the three results hold for what the command line reads; LiveRotateProps: with rotations, on the stream pipeline; between instructions the tiles that nothing is ever put on of itself (`quiet_tile`) are free and every qubit is on a qubit tile, so a rotation starts at once, and while it lasts (`away`) no other qubit is disturbed (C37 for its steps); LiveEdpcProps: the EDPC layouts have such a tile beside every qubit (from C26), and their passes spell a Hadamard gate as the gate and a rotation |
| C70 | `joinable` programs with joint measurements of X and Z operators of two qubits and initialisations of ancillas one at a time, on `linked` layouts (LiveJointProps); lowered circuits of Pauli, H, CNOT and CZ gates (LiveCnotProps) | induction over the program with two invariants: `loose` between instructions (every qubit on one tile of its own with opposite sides alike, the tiles between them free or over at the end of the slice) and `at_rest` after an advance (nothing busy, the tiles between free); an attempt on a loose slice either succeeds into a loose slice or leaves it unchanged, the latter only if it is not at rest; at rest the walk of `linked` is a walk of the router's specification, so C30 (completeness) gives a route and C29 that its tiles are free; C33 and C37 give the effects; for circuits, induction over the gates: the lowering of each is joinable with a fresh ancilla that is measured at its end |
| C59 | what a table stands for: gates of rows, of layers, of the layers up to n | invariant over all sequences of calls: delivered + queued = layers passed; induction over layers for reading to the end; refutations |

## Trusted base

* Coq 8.16.1's kernel (and its `vm_compute` machine, used to evaluate concrete
  examples and refutation witnesses).
* `Print Assumptions` stands below every property theorem and prints `Closed under
  the global context` for each: no axiom is used by any of them.  The development
  declares no axiom, parameter, section-less variable or hypothesis, uses no
  plugin, and switches no kernel check off.
* Standard library axioms that are *loaded* (not used): importing `Lia` loads
  ssreflect's support library, whose module `Coq.ssr.ssrunder.Under_rel` is sealed and
  therefore shows up as the seven constants `Under_rel`, `Under_relE`,
  `Under_rel_from_rel`, `under_rel_done`, `Over_rel`, `over_rel`, `over_rel_done` in
  a whole-environment listing.  No other library axiom is loaded.
* The transcription of C++ into Gallina, made by hand from the text of `/repo`, and
  the following assumptions about what is outside of it:
  * asserts are off (`NDEBUG`); `tsl::ordered_map/set` keep insertion order and
    `erase` is order preserving; `std::map/set` are sorted;
  * libstdc++'s vector growth is a parameter (`grow`) of the wave model, since the
    scheduler's behaviour depends on it (C41_dangling_refuted);
  * the wall clock is a parameter (`late`), any sequence of answers;
  * the Dijkstra queue: `boost::heap` / `std::priority_queue` ties are a parameter
    (`pick`), the theorems hold for every choice among the minima (C29/C30 for every
    order); the A* order, computed with floating point, is covered by "every order";
  * Boost (C58): an `adjacency_list` made from edges grows to the largest vertex, edges
    without properties have weight 0, `dijkstra_shortest_paths` changes a predecessor
    only for a strictly smaller distance; the order of visits is a parameter;
  * gate synthesis (`gridsynth`) is a parameter (C09, C10);
  * what steps mean for encoded states (C12, C16, C53) is spec, not code: stabiliser
    groups without signs (StabSpec); merging two neighbouring patches measures the
    product of the operators whose boundaries they show each other, patches made during
    an operation show what `square` in the code gives them (BellStabSpec);
  * nlohmann::json: `operator[]`, sorted objects and `dump(3)` as documented.

## What is modelled

| part of `/repo` | file | not modelled there |
|---|---|---|
| `include/lstk/lstk.hpp` text helpers | TextModel | timers, `now()`, `read_file` |
| `patches.hpp`, `patches.cpp`, `pauli_operator.hpp` | PatchesModel | `operator<<` for patches |
| `ls_instructions*.{hpp,cpp}`, `local_instructions*`, `ls_instructions_parse.cpp`, `parse_utils.cpp` | InstrModel | |
| `ls_instruction_stream.cpp` readers | ReadModel, LoweringModel | |
| `gates.{hpp,cpp}`, `parse_gates`, `gate_approximator`, `decompose_rotation_stream` | GatesModel | the Haskell call; the table of approximations is abstract |
| `id_generator.hpp`, `ls_instructions_from_gates`, the three injection streams | LoweringModel | |
| `directed_graph`, `dependency_dag.hpp`, `domain_dags` | DagModel, GraphModel (printing, `--printdag`) | |
| `layout.{hpp,cpp}`, `ascii_layout_spec`, `compact_layout.cpp` | LayoutModel | |
| `edpc_layout.cpp` | EdpcModel | `ceil(sqrt(n))` and the floating point product are exact; sums of grid positions do not wrap |
| `dense_slice`, `advance_slice` | SliceModel | |
| `router.cpp`, `custom_graph_search.cpp` | RouterModel | |
| `boost_based_graph_search.cpp` | BoostModel | the Boost library (see the trusted base), the variant compiled without it |
| `postgres_gate_stream.cpp` | PandoraModel | the connection, the texts of the columns (their numbers are given), SQL (a table is the list of its rows in the order they are returned) |
| `dense_patch_computation.cpp` 13-77, 177-1446 | ApplyModel | |
| `dense_patch_computation.cpp` 1448-1725 | RunModel (stream, DAG), WaveModel | texts of messages |
| `wave_scheduler` | MarksModel, WaveModel | `WaveStats` |
| `slices_to_json.cpp`, `slice_stats.cpp`, slice visitors of `slicer.cpp` | OutputModel | percentages |
| `sparse_slice.cpp`, `sparse_slice.hpp`, `slice_to_json(SparseSlice)` | SparseModel | the printing of slices |
| `slicer.cpp` 225-587 and the call of the compiler, `determine_exposed_operators.cpp` | SlicerModel | argparse itself (a map from options to texts, and whether it reports an error), file contents and number texts (arguments) |

Not modelled at all: `sparse_patch_computation.hpp` (not used by the slicer), `pq.hpp`,
the bindings.

Integers: sizes of lattices, vertex numbers and loop counters are unbounded unless a
property is about their width (ids: `mod 2^32`; timers: uint32; volumes: int; retry
counters and limits: 64 bit; dependency counters of the wave scheduler: bytes).

## Findings (violations of the properties by the code)

Each is a theorem about the model with suffix `_refuted` (or `_refuted_...`); the
witness is in the theorem.

| theorem | what happens |
|---|---|
| C02_refuted | `str_replace` drops the text after the last occurrence |
| C04_refuted_* | printed Pauli gates, S-dagger, negative measurements, resets, declarations and ids >= 2^31 cannot be read back |
| C05_refuted | `BellPairInit` with fewer than two locations reads past the end |
| C07_refuted_* | `rz(2k*pi)` becomes `Z`; indices from 2^32 on are reduced; printed rotations and CNOT types are lost |
| C08_refuted_* | a line of white space, or a rotation without operands, is undefined behaviour |
| C09_refuted_empty_expansion | an empty expansion pops an empty queue |
| C10_refuted_sign, C52_sign_refuted | negative rotations get the positive angle |
| C11_wrap_refuted, C11_lli_start_refuted | ids wrap to 0; the start of the counter for LLI input dereferences an end iterator |
| C12_measured_*_refuted, C16_catalytic_measured_refuted | the measured CNOT and CZ measure the target |
| C17_*_refuted | boundary rotations missed |
| C18_refuted | a proximity patch is not a dependency |
| C19_absent_edge_refuted | removing an absent edge is undefined behaviour |
| C21_gate_reset_refuted | graphs of circuits with resets throw |
| C23_rotated_tiles_refuted | `T` and `D` tiles are silently routing space |
| C26_no_lanes_refuted | an EDPC layout with zero lanes is made, with qubits shut in |
| C28_refuted | an id that exists may be created again |
| C31_refuted | the cache returns routes over occupied tiles |
| C32_refuted | a refused busy region or crossing CNOT leaves traces |
| C36_refuted_zero | distillation time 0 never delivers |
| C37_dag_refuted | rotations last two slices in the DAG pipeline |
| C39_*_refuted | slice and instruction counts are off in all pipelines |
| C41_dangling_refuted | the wave scheduler reads a reference into a vector that has moved |
| C41_lost_refuted | with EDPC, a CNOT for which a route was found is dropped when its patch is gone before it is begun; the run ends as if it had been carried out |
| C42_*_refuted | limits are not looked at (DAG), off by one (wave), or never reached (stream, started operations) |
| C43_empty_refuted, C43_graceful_refuted | empty programs and `--graceful` do not write JSON |
| C44_refuted | dead tiles look like routes, magic states like busy factories |
| C45_overflow_refuted | the volume overflows an int from 2^31 tiles on |
| C47_range_refuted | a segment ending one past the route passes the range check |
| C48_refuted | a measured Y state stays on the list |
| C48_twists_refuted | a Y state made next to a qubit (twists) and given back is counted as available though it is on no Y state tile; after that requests fail that could be met before |
| C49_refuted_* | labels are dropped; multi-tile patches list extra tiles |
| C50_noprogress_refuted | `-f noprogress`, as documented, is rejected |
| C50_file_emptied_refuted | the output file is emptied before the remaining options are found to be wrong |
| C50_corrections_refuted, C50_printdag_refuted, C50_layout_file_ignored_refuted | values are not looked at: corrections for LLI input, router and search with `--printdag input`, `-l` with `-L` |
| C61_placement_refuted, C61_markup_refuted, C61_line_break_refuted, C61_reset_refuted, C61_sign_refuted | `--printdag` drops the placement of an `Init` (what follows the last `>`), writes the character of a first declared id 60 or 10 (mod 256) raw, shows nothing for gates with a reset, and does not show the sign of a rotation |
| C62_tiles_refuted, C62_factory_refuted, C62_cells_refuted, C62_routing_refuted, C62_equal_refuted | `SparseSlice` throws for the sides of tiles without a qubit patch and for route searches, calls tiles outside of the lattice and tiles of routes free, counts tile (0,0) as taken by any patch of several cells, leaves factories out of the JSON (the objects built for them are dropped), and compares equal whatever its magic states are |
| C63_links_refuted | a Bell pair whose way is blocked by a delivered magic state is taken up again in every slice, for ever, whatever its wait limit |
| C64_near_refuted | a magic state requested near a patch that is then measured: compiled by the stream pipeline, while the others measure first and then fail |
| C65_measured_refuted | a Hadamard and a CNOT compiled without Bell pairs: the qubits are not entangled, the target is measured |
| C67_dagger_refuted | T and its inverse are turned into the same instructions, which then need opposite corrections |
| C67_always_refuted, C67_reordered_refuted | the S that ends a T gadget must be carried out for some outcomes and left out for others, which the instructions do not say; with Bell based CNOTs the dependency graph does not keep it behind the measurement it depends on |
| C68_refuted | a T gate that comes after the factory has filled its queue gets the magic state at the end of the column, to which no route leads: the circuit is never compiled on the layout generated for it |
| C50_edpc_throws_refuted | the EDPC pipeline without its layout throws instead of returning an error code |
| C50_notwists_refuted | `--notwists` does nothing to programs compiled for a layout file |
| C51_*_refuted | operands outside the register and `cx q[0],q[0]` are accepted |
| C53_straight_refuted, C53_after_h_refuted | a CNOT between patches turned against each other (after a Hadamard) is compiled to a joint measurement |
| C53_dropped_run_refuted, C53_dropped_refuted | in the EDPC pipeline a CNOT is reported done after its first phase when the first layer of its second phase is empty; its control is then never touched |
| C53_neighbours_refuted | a CNOT between neighbouring patches one of which was turned by a Hadamard ends the compilation with an exception |
| C54_*_refuted | follow-ups of follow-ups |
| C57_refuted, C57_no_cell_refuted | the default placement of ancillas is static and set after the first gate was read: a circuit starting with a CNOT is not compiled for the EDPC layout, except in a process that has done so before |
| C58_refuted_long, C58_refuted_taken, C58_refuted_side, C58_refuted_undefined | the Boost search joins free tiles to taken ones instead of free ones: it misses every route of more than two tiles, goes over other qubits, ends at sides without the operator and reads outside its tables |
| C35_rotation_refuted | a patch on a tile reserved for magic states that is rotated is overwritten by a new magic state and later handed out as one |
| C60_ystate_refuted | with local operations and no twists, the tile of a used-up Y state serves a Bell pair under way; the next Y request takes that tile for a Y state, and the pair measures it away |
| C59_gap_refuted, C59_again_refuted | a layer of the database without gates ends the circuit; a second question gets the rest, so the pipelines can compile different circuits |
| C59_gates_refuted, C59_qubits_refuted, C59_take_refuted | database gates are replaced by others (X, Y by Z; CZ by CNOT; powers by the gate), measurements, resets and the first layer are dropped, qubits are not checked against the register, taking past the end is undefined |
| C50_edpc_router_refuted | the EDPC pipeline with the cached router or the Boost search is accepted on the command line and then fails with an exception |
| C55_refuted_second_declaration | a second declaration is accepted when streaming |
| C70_cached_refuted | with the cached router a program of two qubit measurements that the plain router compiles ends with a runtime error: a route from the cache is laid over a tile that another measurement of the slice has taken |

## Testing the theorems

`tools/mutate.py` applies edits as realistic bugs would make them to a copy of the
model, rebuilds, and reports which theorems fail; `seeded/LOG.jsonl` has one line per
attempt.  Survivors led to new or stronger theorems (C18_gates, C55_program,
C56_observables, ...).
