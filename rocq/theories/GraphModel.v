(** Model of the printing of dependency graphs ([--printdag]):
    src/dag/directed_graph.cpp:167-200 and include/lsqecc/dag/dependency_dag.hpp:149-175. *)
From Verif Require Import Base TextModel InstrModel GatesModel LoweringModel DagModel OutputModel.

(** [std::endl] *)
Definition endl : text := [newline_char].

(** directed_graph.cpp:177-189: one node, with its text if there is one *)
Definition node_line (label : N) (content : option text) : text :=
  match content with
  | Some c =>
      lit "  " ++ print_N label ++ lit " [shape=""plaintext""," ++ lit "label=<" ++ lit "<table cellborder=""0"">" ++
      lit "<tr><td><b>" ++ str_replace c ">" (lit "&gt;") ++ lit "</b></td></tr>" ++
      lit "<tr><td><font color=""darkgray"">node: " ++ print_N label ++ lit "</font></td></tr>" ++
      lit "</table>" ++ lit ">];" ++ endl
  | None => lit "  " ++ print_N label ++ lit ";" ++ endl
  end.
(** directed_graph.cpp:194 *)
Definition edge_line (from to : N) : text := lit "  " ++ print_N from ++ lit " -> " ++ print_N to ++ lit ";" ++ endl.

(** directed_graph.cpp:167-200 *)
Definition graph_text (g : graph) (contents : list (N * text)) (extra : option text) : text :=
  lit "digraph DirectedGraph {" ++ endl ++
  flat_map (fun kv => node_line (fst kv) (alookup contents (fst kv))) (g_out g) ++
  flat_map (fun kv => flat_map (edge_line (fst kv)) (snd kv)) (g_out g) ++
  match extra with Some e => e | None => [] end ++
  lit "}" ++ endl.

(** dependency_dag.hpp:149-175; [show] is [operator<<] of the instruction, which may throw *)
Definition dag_text {A} (show : A -> outcome text) (d : dag A) : outcome text :=
  do contents <- mapM (fun kv => do t <- show (snd kv) ;; Ok (fst kv, t)) (d_ins d) ;;
  let extra :=
    flat_map (fun l => lit "  " ++ print_N l ++ lit " [fontcolor=red];" ++ endl) (d_pheads d) ++
    flat_map (fun e => lit "  " ++ print_N (fst e) ++ lit " -> " ++ print_N (snd e) ++ lit " [penwidth=5];" ++ endl) (d_deps d) in
  Ok (graph_text (d_graph d) contents (Some extra)).

(** slicer.cpp:391-396 and 545-550 for instructions, 413-418 for gates *)
Definition lli_graph (prog : list instr) : outcome text := do d <- dag_of lli_can prog ;; dag_text print_instr d.
Definition gate_graph (prog : list gate) : outcome text :=
  do d <- dag_of gates_can_commute prog ;; dag_text (fun g => Ok (print_gate g)) d.
