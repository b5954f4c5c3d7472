(** Model of src/layout/graph_search/boost_based_graph_search.cpp, compiled with
    ENABLE_BOOST_GRAPH_SEARCH (CMakeLists.txt:27-29); without it the search throws.

    The Boost library is modelled by what it documents: an [adjacency_list] made from a
    list of edges grows to hold the largest vertex mentioned; edges made without
    properties have weight 0; [dijkstra_shortest_paths] sets the predecessor of a vertex
    when it first finds it, and again only for a strictly smaller distance.  All weights
    being 0 this never happens, and which of the found vertices comes next is a
    parameter, as in RouterModel. *)
From Verif Require Import Base TextModel PatchesModel LayoutModel SliceModel RouterModel.
Open Scope Z_scope.

(** boost_based_graph_search.cpp:57-60: every tile, row by row *)
Definition upto (n : Z) : list Z := map Z.of_nat (seq 0 (Z.to_nat (n + 1))).
Definition all_cells (far : cell) : list cell := flat_map (fun r => map (mkCell r) (upto (col far))) (upto (row far)).

(** boost_based_graph_search.cpp:61-69: into each tile that is taken, from the free ones
    next to it *)
Definition grid_edges (q : query) : outcome (list (nat * nat)) :=
  foldM (fun es c =>
           do free <- is_free (q_slice q) c ;;
           if free : bool then Ok es else
           foldM (fun es n => do f <- is_free (q_slice q) n ;;
                    Ok (if f : bool then es ++ [(make_vertex q n, make_vertex q c)] else es))
                 (neighbours (q_layout q) c) es)
        (all_cells (q_far q)) [].

(** boost_based_graph_search.cpp:73-79 *)
Definition source_edges (q : query) (es : list (nat * nat)) : outcome (list (nat * nat)) :=
  foldM (fun es n => do b <- has_boundary_of_type (q_slice q) (q_source q) n (q_sop q) ;;
           Ok (if b : bool then es ++ [(make_vertex q (q_source q), make_vertex q n)] else es))
        (neighbours (q_layout q) (q_source q)) es.

(** boost_based_graph_search.cpp:86-87; every tile is among the vertices, so their
    maximum is that of the far corner.  [cyc] says that source and target are the same
    patch. *)
Definition end_vertex (q : query) (cyc : bool) : nat := if cyc then num_vertices q else make_vertex q (q_target q).

(** boost_based_graph_search.cpp:89-93 *)
Definition target_edges (q : query) (cyc : bool) (es : list (nat * nat)) : outcome (list (nat * nat)) :=
  foldM (fun es n => do b <- has_boundary_of_type (q_slice q) (q_target q) n (q_top q) ;;
           Ok (if b : bool then es ++ [(make_vertex q n, end_vertex q cyc)] else es))
        (neighbours (q_layout q) (q_target q)) es.

Definition boost_edges (q : query) (cyc : bool) : outcome (list (nat * nat)) :=
  do es <- grid_edges q ;; do es <- source_edges q es ;; target_edges q cyc es.

(** boost_based_graph_search.cpp:95: the number of vertices of the graph *)
Definition graph_size (n : nat) (es : list (nat * nat)) : nat :=
  fold_left (fun n e => Nat.max n (S (Nat.max (fst e) (snd e)))) es n.

(** boost_based_graph_search.cpp:101, dijkstra_shortest_paths: an edge out of the vertex
    in hand ... *)
Definition find_vertex (u : nat) (st : list pdata * list nat) (v : nat) : outcome (list pdata * list nat) :=
  let '(m, fr) := st in
  do p <- idx m v ;;
  match pd_dist p with
  | None => Ok (set_row m v (mkPD (Some 0%nat) u), fr ++ [v])
  | Some _ => Ok st
  end.
(** ... and the whole of it.  The vertices not found keep themselves as predecessor. *)
Fixpoint flood (fuel : nat) (es : list (nat * nat)) (pick : pick_fun) (m : list pdata) (fr : list nat) : outcome (list pdata) :=
  match fr with
  | [] => Ok m
  | _ =>
      match fuel with
      | O => Fuel
      | S f =>
          do (u, fr') <- pop pick m fr ;;
          do (m', fr'') <- foldM (find_vertex u) (map snd (filter (fun e => (fst e =? u)%nat) es)) (m, fr') ;;
          flood f es pick m' fr''
      end
  end.

(** boost_based_graph_search.cpp:95-157.  The tiles are as in the custom search
    ([RouterModel.trace] and [route_tile], for a query that is not a cycle). *)
Definition boost_search (q : query) (cyc : bool) (pick : pick_fun) : outcome (option region) :=
  do es <- boost_edges q cyc ;;
  let n := graph_size (num_vertices q) es in
  let src := make_vertex q (q_source q) in
  let start := set_row (map (mkPD None) (seq 0 n)) src (mkPD (Some 0%nat) src) in
  do m <- flood (S n) es pick start [src] ;;
  do pt <- idx m (end_vertex q cyc) ;;
  do pc <- idx m (pd_pred pt) ;;
  do (cells, last) <- trace (S n) q m (make_vertex q (q_target q)) (pd_pred pt) (pd_pred pc) ;;
  Ok (if (last =? src)%nat then Some (mkRegion cells None) else None).

(** boost_based_graph_search.cpp:20-26, 72, 82: the patches are looked up without asking
    whether they exist. *)
Definition boost_route (L : layout) (pick : pick_fun) (s : slice) (source : N) (sop : pauli) (target : N) (top : pauli)
  : outcome (option region) :=
  do a <- deref (get_cell_by_id s source) ;;
  do b <- deref (get_cell_by_id s target) ;;
  boost_search (mkQ L s a b sop top false false) (N.eqb source target) pick.
