(** What the help text of the command line promises (slicer.cpp:114-222). *)
From Verif Require Import Base TextModel PatchesModel LayoutModel EdpcModel InstrModel ReadModel GatesModel LoweringModel SliceModel SlicerModel.

(** The values the help text names for an option; the other options are flags, numbers and file names. *)
Definition documented (k : string) : list string := (
  if String.eqb k "layoutgenerator" then ["compact"; "compact_no_clogging"; "edpc"]
  else if String.eqb k "input-format" then ["qasm"; "q"; "pandora"; "p"; "lli"; "l"]
  else if String.eqb k "f" then ["progress"; "noprogress"; "machine"; "stats"]
  else if String.eqb k "printdag" then ["input"; "processedlli"]
  else if String.eqb k "pipeline" then ["stream"; "wave"; "edpc"; "dag"]
  else if String.eqb k "cnotcorrections" then ["never"; "always"]
  else if String.eqb k "printlli" then ["before"; "sliced"]
  else if String.eqb k "r" then ["graph_search"; "graph_search_cached"]
  else if String.eqb k "g" then ["djikstra"; "astar"; "boost"]
  else [])%string.
(** [names k v]: the text [v] is one of them. *)
Definition names (k : string) (v : text) : Prop := exists s, In s (documented k) /\ v = lit s.
(** The values taken: those, but for one misspelt, and no value at all for three options. *)
Definition taken_values (k : string) (v : text) : Prop :=
  names k v /\ ~ (k = "f"%string /\ v = lit "noprogress")
  \/ (k = "f"%string /\ v = lit "noprogres")
  \/ ((k = "printdag" \/ k = "pipeline" \/ k = "printlli")%string /\ v = []).

(** The options looked at before anything is read, and those looked at on the way. *)
Definition early_options : list string := ["layoutgenerator"; "input-format"; "f"; "printdag"; "pipeline"]%string.
Definition late_options : list string := ["printlli"; "r"; "g"]%string.

(** A custom layout, if one is used, can be read. *)
Definition layout_readable (m : machine) (o : options) : Prop :=
  has o "layoutgenerator" = false -> forall name, o "l"%string = Some name ->
    exists t L, mc_file m name = Some t /\ layout_from_spec t (distillation_options m o) = Ok L.

(** The meaning of the values, as the help text describes them. *)
Definition means {A} (o : options) (k : string) (a : A) (dflt : A) (table : list (string * A)) : Prop :=
  match o k with
  | None => a = dflt
  | Some v => exists s, In (s, a) table /\ v = lit s
  end.
Definition pipelines : list (string * pipeline_mode) := [("stream", PStream); ("", PStream); ("dag", PDag); ("wave", PWave); ("edpc", PEdpc)]%string.
Definition providers : list (string * provider) := [("djikstra", Djikstra); ("astar", AStar); ("boost", Boost)]%string.
Definition routers : list (string * bool) := [("graph_search", false); ("graph_search_cached", true)]%string.
Definition outputs : list (string * output_mode) := [("progress", Progress); ("noprogres", NoProgress); ("machine", Machine); ("stats", Stats)]%string.

(** The command line without an option. *)
Definition without (k : string) (o : options) : options := fun k' => if String.eqb k' k then None else o k'.

(** [asked o k s]: the option [k] is given with one of the values [s]. *)
Definition asked (o : options) (k : string) (s : list string) : Prop := exists v, In v s /\ o k = Some (lit v).
Definition absent (o : options) (k : string) : bool := match o k with None => true | Some _ => false end.
(** Distillation as asked for: staggered unless told otherwise, ten steps unless told otherwise. *)
Definition distilled (m : machine) (o : options) : dist_options :=
  mkDO (absent o "nostagger") (match o "disttime"%string with Some t => mc_num m t | None => 10%N end).
(** The layout a command line asks for, for a circuit on the qubits [core], and the rewriting of S gates and of measured boundaries that goes with it:
    a compact layout unless another is named or a file is given; without twists S gates are done with a reusable state. *)
Inductive lays_out (m : machine) (o : options) (core : list N) : layout -> passes -> Prop :=
| lays_compact L e : asked o "layoutgenerator" ["compact"]%string \/ (absent o "layoutgenerator" = true /\ absent o "l" = true) -> absent o "notwists" = true ->
    make_compact_layout (length core) (distilled m o) false = Ok L -> exposed_core L core = Ok e -> lays_out m o core L (CompactPasses e)
| lays_unclogged L e : asked o "layoutgenerator" ["compact_no_clogging"]%string -> absent o "notwists" = true ->
    make_compact_layout (length core) (distilled m o) true = Ok L -> exposed_core L core = Ok e -> lays_out m o core L (CompactPasses e)
| lays_edpc L lanes cond : asked o "layoutgenerator" ["edpc"]%string ->
    lanes = match o "numlanes"%string with Some t => mc_num m t | None => 1%N end ->
    cond = match o "condensed"%string with Some t => mc_flag m t | None => false end ->
    make_edpc_layout (mkEdpc (Z.of_nat (length core)) (Z.of_N lanes) cond (negb (absent o "explicitfactories")) (negb (absent o "notwists"))) (distilled m o) = Ok L ->
    lays_out m o core L (if absent o "notwists" then EdpcPasses else CatalyticPasses)
| lays_file L name t : absent o "layoutgenerator" = true -> o "l"%string = Some name -> mc_file m name = Some t ->
    layout_from_spec t (distilled m o) = Ok L -> (absent o "notwists" = false -> l_ystates L <> []) -> lays_out m o core L NoPasses.

(** The text a command line gives, from the file it names or from the standard input. *)
Definition given (m : machine) (o : options) (t : text) : Prop :=
  match o "i"%string with None => t = mc_stdin m | Some name => mc_file m name = Some t end.
(** The circuit it gives, and its qubits: instructions unless QASM or a database is named. *)
Inductive gives (m : machine) (o : options) (d : placement) : source -> list N -> Prop :=
| gives_lli t f : asked o "input-format" ["lli"; "l"]%string \/ absent o "input-format" = true -> given m o t ->
    open_stream (split_on t (ascii_of_nat 10)) = Ok f -> gives m o d (LliSource f) (fs_core f)
| gives_qasm t f name n corr : asked o "input-format" ["qasm"; "q"]%string -> given m o t ->
    open_gate_file d t = Ok f -> gf_qreg f = Some (name, n) -> means o "cnotcorrections" corr CorrNever [("always", CorrAlways); ("never", CorrNever)]%string ->
    gives m o d (GateSource f name corr) (core_qubits_from_qreg n)
| gives_pandora gs name n corr port : asked o "input-format" ["pandora"; "p"]%string ->
    port = match o "port"%string with None | Some [] => lit "5432" | Some p => p end ->
    mc_pandora m port = Ok (gs, (name, n)) -> means o "cnotcorrections" corr CorrNever [("always", CorrAlways); ("never", CorrNever)]%string ->
    gives m o d (PandoraSource gs name corr) (core_qubits_from_qreg n).
