(** Model of src/layout/dynamic_layouts/determine_exposed_operators.cpp and of
    [run_slicer_program] (src/pipelines/slicer.cpp:95-692) up to the call of
    [run_through_dense_slices]; what the loops then do is in RunModel and
    WaveModel, what is written in OutputModel.

    Not modelled: argparse, which is not in the repository (the parsed options
    are a function from the names the program asks for to their texts, its
    conversions to numbers are given), the texts of messages, the Pandora
    database (its gates are given), the clock. *)
From Verif Require Import Base TextModel PatchesModel LayoutModel EdpcModel InstrModel ReadModel GatesModel LoweringModel SliceModel RouterModel BoostModel ApplyModel.
Open Scope Z_scope.

(** ** determine_exposed_operators.cpp *)

(** patches.cpp:286-292 *)
Definition have_boundary_of_type_with (sc : scell) (o : pauli) (n : cell) : outcome bool :=
  match get_boundary_with sc n with
  | Some b => do t <- boundary_for_operator o ;; Ok (btype_eqb (btype b) t)
  | None => Ok false
  end.
(** 41-52, the body of the loop over the neighbours *)
Definition see_neighbour (s : slice) (sc : scell) (e : exposed) (n : cell) : outcome exposed :=
  do free <- is_free s n ;;
  if negb free then Ok e else
  match get_boundary_with sc n with
  | None => Ok e
  | Some _ =>
      do x <- have_boundary_of_type_with sc PX n ;;
      let e := if x then mkEx true (z_exposed e) else e in
      do z <- have_boundary_of_type_with sc PZ n ;;
      Ok (if z then mkEx (x_exposed e) true else e)
  end.
(** 34-56 for a patch on one tile, which is what 26-30 ask for *)
Definition exposed_on (L : layout) (s : slice) (sc : scell) : outcome exposed :=
  foldM (see_neighbour s sc) (neighbours L (sc_cell sc)) (mkEx false false).
(** dense_slice.cpp:57-69 *)
Definition get_sparse_patch_by_id (s : slice) (id : N) : outcome (option spatch) :=
  match get_patch_by_id s id with
  | None => Ok None
  | Some p => do c <- value_ (get_cell_by_id s id) ;; Ok (Some (to_sparse_patch p c))
  end.
Definition exposed_of (L : layout) (s : slice) (id : N) : outcome exposed :=
  do m <- get_sparse_patch_by_id s id ;;
  do p <- value_ m ;;
  match sp_cells p with Single sc => exposed_on L s sc | Multi _ => Throw NotImplemented end.
(** [out\[id\] = ...] on an ordered map *)
Fixpoint emap_put (m : emap) (k : N) (e : exposed) : emap :=
  match m with [] => [(k, e)] | (k', e') :: r => if N.eqb k k' then (k', e) :: r else (k', e') :: emap_put r k e end.
(** 19-31 *)
Definition exposed_core (L : layout) (ids : list N) : outcome emap :=
  do s <- new_slice L ids ;;
  foldM (fun m id => do e <- exposed_of L s id ;; Ok (emap_put m id e)) ids [].

(** ** slicer.cpp *)

(** The command line after argparse: [parser.exists(name)], [parser.get<std::string>(name)]. *)
Definition options := string -> option text.
Definition has (o : options) (k : string) : bool := match o k with Some _ => true | None => false end.
Definition get (o : options) (k : string) : text := match o k with Some t => t | None => [] end.
Definition is (t : text) (s : string) : bool := text_eqb t (lit s).

(** What a run depends on besides its command line.  [mc_past_end] is what
    reading one past the last element of the declared qubits gives (slicer.cpp:389;
    undefined, see C11_lli_start_refuted). *)
Record machine := mkMach {
  mc_file : text -> option text;                            (* the readable files *)
  mc_stdin : text;
  mc_past_end : N;
  mc_pandora : text -> outcome (list gate * (text * N));    (* gates and register behind a port, PandoraModel.pandora_input *)
  mc_num : text -> N;                                       (* get<size_t>, get<uint32_t> *)
  mc_flag : text -> bool }.                                 (* get<bool> *)

(** slicer.cpp:60-93 *)
Inductive input_format := Lli | Qasm | Pandora.
Inductive output_mode := Progress | NoProgress | Machine | Stats.
Inductive dag_mode := NoDag | InputDag | ProcessedDag.
Inductive lli_mode := NoLli | LliBefore | LliSliced.
Inductive auto_layout := ACompact | ACompactNoClogging | AEdpc.
Inductive layout_mode := Auto (a : auto_layout) | Custom (L : layout).
(** slicer.hpp *)
Inductive pipeline_mode := PStream | PDag | PWave | PEdpc.
(** router.hpp:11-16 *)
Inductive provider := Boost | Djikstra | AStar.

(** The decisions on the texts of options; [None] is the branch that reports an unknown value.
    slicer.cpp:243-258 *)
Definition layout_of_name (t : text) : option auto_layout :=
  if is t "compact" then Some ACompact
  else if is t "compact_no_clogging" then Some ACompactNoClogging
  else if is t "edpc" then Some AEdpc else None.
(** slicer.cpp:269-286 *)
Definition format_of_name (t : text) : option input_format :=
  if is t "lli" || is t "l" then Some Lli
  else if is t "qasm" || is t "q" then Some Qasm
  else if is t "pandora" || is t "p" then Some Pandora else None.
(** slicer.cpp:300-313 *)
Definition output_of_name (t : text) : option output_mode :=
  if is t "progress" then Some Progress
  else if is t "noprogres" then Some NoProgress
  else if is t "machine" then Some Machine
  else if is t "stats" then Some Stats else None.
(** slicer.cpp:325-334 *)
Definition dag_of_name (t : text) : option dag_mode :=
  if is t "input" || is t "" then Some InputDag
  else if is t "processedlli" then Some ProcessedDag else None.
(** slicer.cpp:342-358 *)
Definition pipeline_of_name (t : text) : option pipeline_mode :=
  if is t "stream" || is t "" then Some PStream
  else if is t "dag" then Some PDag
  else if is t "wave" then Some PWave
  else if is t "edpc" then Some PEdpc else None.
(** slicer.cpp:428-436 *)
Definition corrections_of_name (t : text) : option correction_mode :=
  if is t "always" then Some CorrAlways else if is t "never" then Some CorrNever else None.
(** slicer.cpp:529-538 *)
Definition lli_of_name (t : text) : option lli_mode :=
  if is t "before" || is t "" then Some LliBefore else if is t "sliced" then Some LliSliced else None.
(** slicer.cpp:560-569: whether the router caches *)
Definition router_of_name (t : text) : option bool :=
  if is t "graph_search" then Some false else if is t "graph_search_cached" then Some true else None.
(** slicer.cpp:575-586 *)
Definition provider_of_name (t : text) : option provider :=
  if is t "astar" then Some AStar else if is t "djikstra" then Some Djikstra
  else if is t "boost" then Some Boost else None.

(** What is shown on [out_stream] by a run that returns before slicing. *)
Inductive shown := Nothing | Help | GateGraph (l : list gate) | LliGraph (l : list instr) | LliText (l : list instr).
(** [return] before slicing, or on to the rest. *)
Inductive stage (A : Type) := Return (code : Z) (out : shown) | On (a : A).
Arguments Return {A}. Arguments On {A}.
Definition sbind {A B} (x : outcome (stage A)) (f : A -> outcome (stage B)) : outcome (stage B) :=
  do s <- x ;; match s with Return c o => Ok (Return c o) | On a => f a end.
Notation "'let?' x := m 'in' k" := (sbind m (fun x => k)) (at level 200, x pattern, m at level 100, k at level 200, right associativity).
(** An option with a table of names: absent, known, or reported and -1 returned. *)
Definition choose {A} (o : options) (k : string) (table : text -> option A) (dflt : A) : outcome (stage A) :=
  match o k with
  | None => Ok (On dflt)
  | Some t => match table t with Some a => Ok (On a) | None => Ok (Return (-1) Nothing) end
  end.

(** slicer.cpp:95-104, layout.hpp:41-44 *)
Definition distillation_options (m : machine) (o : options) : dist_options :=
  mkDO (negb (has o "nostagger")) (if has o "disttime" then mc_num m (get o "disttime") else 10%N).

(** slicer.cpp:238-287.  [file_to_string] throws for a file that cannot be read. *)
Definition choose_layout (m : machine) (o : options) : outcome (stage layout_mode) :=
  if has o "layoutgenerator" then
    let? a := choose o "layoutgenerator" layout_of_name ACompact in Ok (On (Auto a))
  else if has o "l" then
    match mc_file m (get o "l") with
    | None => Throw LogicError
    | Some t => do L <- layout_from_spec t (distillation_options m o) ;; Ok (On (Custom L))
    end
  else Ok (On (Auto ACompact)).

(** slicer.cpp:297-359 *)
Definition choose_modes (o : options) : outcome (stage (output_mode * dag_mode * pipeline_mode)) :=
  let summary := has o "o" || has o "noslices" in
  let? f := choose o "f" output_of_name (if summary then Progress else NoProgress) in
  if has o "f" && negb summary then Ok (Return (-1) Nothing) else
  let? d := choose o "printdag" dag_of_name NoDag in
  let? p := choose o "pipeline" pipeline_of_name PStream in
  Ok (On (f, d, p)).

(** slicer.cpp:362-372 *)
Definition choose_input (m : machine) (o : options) : outcome (stage text) :=
  if has o "i" then
    match mc_file m (get o "i") with None => Ok (Return (-1) Nothing) | Some t => Ok (On t) end
  else Ok (On (mc_stdin m)).

(** The instruction stream before the passes: the reader as its constructor left it. *)
Inductive source :=
| LliSource (f : file_stream)
| GateSource (f : gate_file) (name : text) (corr : correction_mode)
| PandoraSource (gs : list gate) (name : text) (corr : correction_mode).
Inductive passes := NoPasses | CompactPasses (m : emap) | EdpcPasses | CatalyticPasses.
Record stream := mkStream { st_source : source; st_core : list N; st_start : N; st_passes : passes; st_local : bool }.

Section Draining.
Variables (gridsynth : text -> outcome text) (use_gridsynth : bool).
(** The gates a gate source delivers when read with [d] as the default placement of ancillas. *)
Definition gates_of (fuel : nat) (d : placement) (s : source) : outcome (list gate) :=
  match s with
  | LliSource _ => Ok []
  | GateSource f _ _ => do (gs, _) <- drain_file fuel d f ;; Ok gs
  | PandoraSource gs _ _ => Ok gs
  end.
(** The instructions a stream delivers and the counter of ids afterwards.  The gates are all
    read before the first is lowered; this matters only for what has been compiled already
    when reading fails. *)
Definition instructions (fuel : nat) (d : placement) (s : stream) : outcome (list instr * N) :=
  let c := st_start s in
  let core := st_core s in
  match st_source s with
  | LliSource f =>
      do l <- ReadModel.drain fuel f ;;
      match st_passes s with
      | NoPasses => Ok (l, c)
      | CompactPasses m => drain (inject_next (teleport_expand core false) (inject_next boundary_expand list_next)) fuel (mkIS [] tt (mkIS [] m l)) c
      | EdpcPasses => drain (inject_next (teleport_expand core true) list_next) fuel (mkIS [] tt l) c
      | CatalyticPasses => drain (inject_next (catalytic_expand (st_local s) core true) list_next) fuel (mkIS [] tt l) c
      end
  | GateSource _ name corr | PandoraSource _ name corr =>
      let cfg := mkCfg (st_local s) corr name in
      do raw <- gates_of fuel d (st_source s) ;;
      do gs <- rot_drain gridsynth use_gridsynth fuel [] raw ;;
      match st_passes s with
      | NoPasses => drain (lower_next cfg) fuel (mkLS [] gs) c
      | CompactPasses m => drain (compact_next cfg core) fuel (mkIS [] tt (mkIS [] m (mkLS [] gs))) c
      | EdpcPasses => drain (edpc_next cfg core) fuel (mkIS [] tt (mkLS [] gs)) c
      | CatalyticPasses => drain (catalytic_next cfg core) fuel (mkIS [] tt (mkLS [] gs)) c
      end
  end.

(** slicer.cpp:382-441.  [d] is the static ControlledGate::default_ancilla_placement; [fuel] is for --printdag, which reads everything. *)
Definition open_source (fuel : nat) (d : placement) (m : machine) (o : options) (f : input_format) (dag : dag_mode) (input : text)
  : outcome (stage stream) :=
  let local := has o "local" in
  match f with
  | Lli =>
      do s <- open_stream (split_on input (ascii_of_nat 10)) ;;
      match dag with
      | InputDag => do l <- ReadModel.drain fuel s ;; Ok (Return 0 (LliGraph l))
      | _ => Ok (On (mkStream (LliSource s) (fs_core s) (mc_past_end m) NoPasses local))
      end
  | Qasm =>
      do g <- open_gate_file d input ;;
      match dag with
      | InputDag => do (l, _) <- drain_file fuel d g ;; Ok (Return 0 (GateGraph l))
      | _ =>
          let? corr := choose o "cnotcorrections" corrections_of_name CorrNever in
          do q <- value_ (gf_qreg g) ;;
          Ok (On (mkStream (GateSource g (fst q) corr) (core_qubits_from_qreg (snd q)) (qasm_id_start (snd q)) NoPasses local))
      end
  | Pandora =>
      do (gs, q) <- mc_pandora m (match get o "port" with [] => lit "5432" | p => p end) ;;
      match dag with
      | InputDag => Ok (Return 0 (GateGraph gs))
      | _ =>
          let? corr := choose o "cnotcorrections" corrections_of_name CorrNever in
          Ok (On (mkStream (PandoraSource gs (fst q) corr) (core_qubits_from_qreg (snd q)) (qasm_id_start (snd q)) NoPasses local))
      end
  end.
Definition with_passes (s : stream) (p : passes) : stream := mkStream (st_source s) (st_core s) (st_start s) p (st_local s).

(** slicer.cpp:443-515.  The third component is [pipeline_mode_validity_checker]. *)
Definition make_layout (m : machine) (o : options) (lm : layout_mode) (p : pipeline_mode) (s : stream) : outcome (stage (layout * stream * bool)) :=
  let opts := distillation_options m o in
  let n := length (st_core s) in
  let valid := match p with PEdpc => false | _ => true end in
  let compact (no_clogging : bool) :=
    if has o "notwists" then Ok (Return (-1) Nothing) else
    do L <- make_compact_layout n opts no_clogging ;;
    do e <- exposed_core L (st_core s) ;;
    Ok (On (L, with_passes s (CompactPasses e), valid)) in
  match lm with
  | Auto ACompact => compact false
  | Auto ACompactNoClogging => compact true
  | Auto AEdpc =>
      let lanes := if has o "numlanes" then mc_num m (get o "numlanes") else 1%N in
      let condensed := has o "condensed" && mc_flag m (get o "condensed") in
      let valid := valid || (match p with PEdpc => true | _ => false end && has o "local" && N.eqb lanes 1) in
      let catalytic := has o "notwists" in
      do L <- make_edpc_layout (mkEdpc (Z.of_nat n) (Z.of_N lanes) condensed (has o "explicitfactories") catalytic) opts ;;
      Ok (On (L, with_passes s (if catalytic then CatalyticPasses else EdpcPasses), valid))
  | Custom L =>
      if has o "notwists" && match l_ystates L with [] => true | _ => false end then Ok (Return (-1) Nothing)
      else Ok (On (L, s, valid))
  end.

(** What [run_through_dense_slices] is called with, slicer.cpp:652-665, and how its slices are shown, 590-690. *)
Record job := mkJob {
  j_layout : layout; j_stream : stream; j_pipeline : pipeline_mode; j_local : bool; j_twists : bool;
  j_cached : bool; j_provider : provider; j_timeout : option N; j_graceful : bool; j_opids : bool;
  j_output : output_mode; j_summary : bool; j_slices : bool; j_lli : lli_mode; j_file : option text }.

(** slicer.cpp:523-587.  [d] is the static as it is when the stream is read. *)
Definition last_checks (fuel : nat) (d : placement) (m : machine) (o : options) (f : input_format) (om : output_mode) (dag : dag_mode)
  (p : pipeline_mode) (L : layout) (s : stream) (valid : bool) : outcome (stage job) :=
  if negb valid then Throw RuntimeError else
  let? lli := choose o "printlli" lli_of_name NoLli in
  match lli, dag with
  | LliBefore, _ => do (l, _) <- instructions fuel d s ;; Ok (Return 0 (LliText l))
  | _, ProcessedDag => do (l, _) <- instructions fuel d s ;; Ok (Return 0 (LliGraph l))
  | _, _ =>
      let? cached := choose o "r" router_of_name false in
      let? pr := choose o "g" provider_of_name Djikstra in
      Ok (On (mkJob L s p (has o "local") (negb (has o "notwists")) cached pr
        (if has o "t" then Some (mc_num m (get o "t")) else None) (has o "graceful")
        (has o "op-ids" || match f with Pandora => true | _ => false end)
        om (has o "o" || has o "noslices") (negb (has o "noslices") && match lli with NoLli => true | _ => false end) lli (o "o"%string)))
  end.

(** The state of the process a run can change: the static default placement, and the file opened for output (and thereby emptied). *)
Record process := mkProc { pr_default : placement; pr_opened : option text }.
(** slicer.cpp:225-587.  [bad]: argparse reports an error. *)
Definition slicer (fuel : nat) (bad : bool) (m : machine) (o : options) (p : process) : process * outcome (stage job) :=
  if bad then (p, Ok (Return (-1) Help)) else
  if has o "help" then (p, Ok (Return 0 Help)) else
  match (let? lm := choose_layout m o in let? f := choose o "input-format" format_of_name Lli in Ok (On (lm, f))) with
  | Ok (On (lm, f)) =>
      (* 289-295 *)
      let p := mkProc (pr_default p) (if has o "o" then o "o"%string else pr_opened p) in
      match (let? (om, dag, pl) := choose_modes o in
             let? input := choose_input m o in
             let? s := open_source fuel (pr_default p) m o f dag input in
             let? (L, s, valid) := make_layout m o lm pl s in
             Ok (On (om, dag, pl, L, s, valid))) with
      | Ok (On (om, dag, pl, L, s, valid)) =>
          (* 517-521 *)
          let d := match l_ancilla L with [] => NextToTarget | _ => pr_default p end in
          (mkProc d (pr_opened p), last_checks fuel d m o f om dag pl L s valid)
      | Ok (Return c sh) => (p, Ok (Return c sh))
      | Throw x => (p, Throw x) | UB u => (p, UB u) | Fuel => (p, Fuel)
      end
  | Ok (Return c sh) => (p, Ok (Return c sh))
  | Throw x => (p, Throw x) | UB u => (p, UB u) | Fuel => (p, Fuel)
  end.

(** router.cpp:55-68 and router.hpp:73-101 with the search of a job. *)
Definition job_router (pick : pick_fun) (j : job) (edpc : bool) (cache : route_cache) (s : slice) (source : N) (sop : pauli) (target : N) (top : pauli)
  : outcome (option region * route_cache) :=
  let L := j_layout j in
  match j_provider j with
  | Boost =>
      if j_cached j then cached_route (boost_route L pick) cache s source sop target top
      else do r <- boost_route L pick s source sop target top ;; Ok (r, cache)
  | p =>
      let stop := match p with AStar => true | _ => false end in
      if j_cached j then caching_router L pick stop cache s source sop target top
      else plain_router L edpc pick stop cache s source sop target top
  end.
(** dense_patch_computation.cpp:1613-1700 with the layout, the router and the flags of a job. [ops] is the static counter of operation ids. *)
Definition job_env (pick : pick_fun) (j : job) : env :=
  let edpc := match j_pipeline j with PEdpc => true | _ => false end in
  mkEnv (j_local j) (j_twists j) (j_opids j) edpc (j_layout j) (job_router pick j edpc).
(** wave_scheduler.cpp:18-21, router.hpp:50-57, 89: the EDPC pipeline refuses a cached router and the Boost search before anything else. *)
Definition job_refused (j : job) : bool :=
  match j_pipeline j with PEdpc => j_cached j || match j_provider j with Boost => true | _ => false end | _ => false end.
Definition job_world (ops : N) (j : job) : outcome world :=
  do s <- new_slice (j_layout j) (st_core (j_stream j)) ;; if job_refused j then Throw LogicError else Ok (mkW s ops []).
End Draining.
